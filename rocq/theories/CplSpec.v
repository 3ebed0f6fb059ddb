(** * Specification: maximal intervals of an activation pattern *)
From Coq Require Import Reals List Arith.
Import ListNotations.
From Verif Require Import Base Vec3 CplModel TrajSpec.

(** The steps s..e are a maximal interval on which the pattern has the value v, within the first N steps. *)
Definition maximal (v : bool) (N : nat) (a : nat -> bool) (s e : nat) : Prop :=
  s <= e < N /\ (forall t, s <= t <= e -> a t = v) /\ (s = 0 \/ a (s - 1) <> v) /\ (e + 1 = N \/ a (e + 1) <> v).
(** In order of time, with at least one step between two entries. *)
Definition separated (l : list phase) : Prop :=
  forall i j c d, i < j -> nth_error l i = Some c -> nth_error l j = Some d -> ph_end c + 1 < ph_start d.
(** c is directly followed by d. *)
Definition followed (l : list phase) (c d : phase) : Prop := exists i, nth_error l i = Some c /\ nth_error l (i + 1) = Some d.
(** The last entry. *)
Definition is_last (l : list phase) (c : phase) : Prop := exists l', l = l' ++ [c].
(** The movement from foothold c to foothold d in axis idx, z the height of the via point over c. *)
Definition fly (z : R) (idx : nat) (c d : phase) (t : R) : R :=
  (let x0 := vget3 (ph_pos c) idx in let x1 := vget3 (ph_pos d) idx in
   swing x0 (if (idx =? 2)%nat then z + x0 else (x0 + x1) / 2) x1 ((t - INR (ph_end c)) / (INR (ph_start d) - INR (ph_end c))))%R.

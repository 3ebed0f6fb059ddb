(** * Specification: a contact schedule on a time grid *)
From Coq Require Import Reals List Arith ZArith.
Import ListNotations.
From Verif Require Import Base Vec3 CntModel.
Local Open Scope R_scope.

(** Contact c holds at step t: the time (t+1) dt lies in [activation, deactivation). *)
Definition in_contact (dt : R) (c : contact) (t : nat) : Prop := c_ini c <= INR (t + 1) * dt < c_end c.
(** The selected contact number k of the list cs holds at step t. *)
Definition scheduled (dt : R) (cs : list contact) (k : nat) (c : contact) (t : nat) : Prop :=
  nth_error cs k = Some c /\ c_sel c = true /\ in_contact dt c t.
(** What the sequence q says about effector eff at step t. *)
Definition look (q : dseq) (eff t : nat) : effst := d_eff (nth t (states q) dstate_new) eff.
(** The selected contacts are listed in time order and do not overlap. *)
Definition ordered (cs : list contact) : Prop :=
  forall i j a b, (i < j)%nat -> nth_error cs i = Some a -> nth_error cs j = Some b -> c_sel a = true -> c_sel b = true -> c_end a <= c_ini b.
(** No two selected contacts hold at the same step. *)
Definition exclusive (dt : R) (cs : list contact) (N : nat) : Prop :=
  forall i j a b t, (t < N)%nat -> scheduled dt cs i a t -> scheduled dt cs j b t -> i = j.
(** Number of steps t < n with f t. *)
Fixpoint count (f : nat -> bool) (n : nat) : nat := match n with O => O | S m => (count f m + if f m then 1 else 0)%nat end.
(** The contact c is what a row of the file says: times, position, orientation (scalar part first), type (whole part 1 flat, 2 full, else free). *)
Definition reads (row : list R) (c : contact) : Prop :=
  (11 <= length row)%nat /\ let v i := nth i row 0 in
  c_ini c = v 0%nat /\ c_end c = v 1%nat /\ vx (c_pos c) = v 2%nat /\ vy (c_pos c) = v 3%nat /\ vz (c_pos c) = v 4%nat /\
  qw (c_ori c) = v 5%nat /\ qx (c_ori c) = v 6%nat /\ qy (c_ori c) = v 7%nat /\ qz (c_ori c) = v 8%nat /\
  (1 <= v 9%nat < 2 -> c_type c = FlatContact) /\ (2 <= v 9%nat < 3 -> c_type c = FullContact) /\ (v 9%nat < 1 \/ 3 <= v 9%nat -> c_type c = FreeContact) /\
  (forall z, IZR z <= v 10%nat < IZR z + 1 -> 0 <= v 10%nat -> c_terrain c = z).

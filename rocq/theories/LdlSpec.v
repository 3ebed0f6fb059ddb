(** Specification for C16: what the factorisation of a symmetric matrix given by its upper triangle means. *)
From Coq Require Import Reals List Arith.
From Verif Require Import Base.
Import ListNotations.
Open Scope R_scope.

(** A well-formed upper-triangular column-compressed matrix of order n: row indices at most the column, no duplicates
    (what Eigen's setFromTriplets and twistedBy<Upper> produce). *)
Definition upper (n : nat) (A : nat -> list (nat * R)) : Prop :=
  forall k, (k < n)%nat -> NoDup (map fst (A k)) /\ (forall r v, In (r, v) (A k) -> (r <= k)%nat).
(** Value stored at (row, column), zero if absent. *)
Definition entry (l : list (nat * R)) (r : nat) : R :=
  match find (fun e => Nat.eqb (fst e) r) l with Some e => snd e | None => 0 end.
(** The symmetric matrix whose upper triangle is stored. *)
Definition symm (A : nat -> list (nat * R)) (i j : nat) : R := if Nat.leb i j then entry (A j) i else entry (A i) j.
(** L has unit diagonal and zeros above. *)
Definition unit_lower (n : nat) (L : nat -> nat -> R) : Prop :=
  forall i j, (i < n)%nat -> (j < n)%nat -> (i = j -> L i j = 1) /\ ((i < j)%nat -> L i j = 0).
Definition LDLt (n : nat) (L : nat -> nat -> R) (D : nat -> R) (i j : nat) : R := rsum n (fun k => L i k * D k * L j k).
Definition mulv (n : nat) (M : nat -> nat -> R) (x : nat -> R) (i : nat) : R := rsum n (fun j => M i j * x j).
(** Dynamic regularisation: e is zero unless the pivot has the wrong sign or is too small, in which case the
    pivot becomes sign * delta. *)
Definition regularised (sign eps delta raw d : R) : Prop :=
  (sign * raw > eps /\ d = raw) \/ (sign * raw <= eps /\ d = sign * delta).

(** * Specification vocabulary for branch and bound, independent of the algorithm *)
From Coq Require Import Reals List Arith ZArith.
From Verif Require Import IpModel.
Import ListNotations.
Open Scope R_scope.

(** Meaning of a vector of decisions for the binaries in columns [ids]: 1 and 0 fix the variable, -1 leaves it in [0,1]. *)
Definition in_box (ids : list nat) (dec : list Z) (x : nat -> R) : Prop :=
  forall v i d, nth_error ids v = Some i -> nth_error dec v = Some d ->
    (d = 1%Z -> x i = 1) /\ (d = 0%Z -> x i = 0) /\ (d = (-1)%Z -> 0 <= x i <= 1).
Definition restrict (F : (nat -> R) -> Prop) ids dec x : Prop := F x /\ in_box ids dec x.
(** Feasible points of the mixed-integer problem. *)
Definition binary_point (F : (nat -> R) -> Prop) (ids : list nat) (x : nat -> R) : Prop := F x /\ (forall i, In i ids -> x i = 0 \/ x i = 1).
(** Feasible for the relaxation with every binary within [tol] of 0 or 1. *)
Definition near_binary (F : (nat -> R) -> Prop) (ids : list nat) (tol : R) (x : nat -> R) : Prop :=
  F x /\ (forall i, In i ids -> 0 <= x i <= 1 /\ (Rabs (x i) < tol \/ Rabs (x i - 1) < tol)).
(** A vector that cannot be mistaken for an integral one, with binaries in the rounding range of 0 and 1. *)
Definition clearly_fractional (ids : list nat) (tol : R) (x : nat -> R) : Prop :=
  (exists i, In i ids /\ forall z : Z, tol <= Rabs (x i - IZR z)) /\ (forall i, In i ids -> - / 2 < x i < 3 / 2).
(** 0/1 assignments of the binaries and the decisions they agree with. *)
Definition assignment (n : nat) (a : list Z) : Prop := length a = n /\ (forall z, In z a -> z = 0%Z \/ z = 1%Z).
Definition agrees (a dec : list Z) : Prop :=
  length dec = length a /\ forall v d, nth_error dec v = Some d -> d = (-1)%Z \/ nth_error a v = Some d.

(** An exact relaxation solver: the two optimal codes come with a minimiser of the restricted relaxation; every other code means the
    restricted relaxation is infeasible; and a vector returned with a code the search takes for a solution although the relaxation is
    infeasible is clearly fractional. *)
Definition exact_relaxation (F : (nat -> R) -> Prop) (ids : list nat) (obj : (nat -> R) -> R) (tol : R) (relax : nat -> list Z -> exitcode * (nat -> R)) : Prop :=
  forall k dec, length dec = length ids -> (forall d, In d dec -> d = 1%Z \/ d = 0%Z \/ d = (-1)%Z) ->
    match fst (relax k dec) with
    | Optimal | OptimalInacc => restrict F ids dec (snd (relax k dec)) /\ forall y, restrict F ids dec y -> obj (snd (relax k dec)) <= obj y
    | DualInf | DualInfInacc | PrimalInf | PrimalInfInacc | ReachMaxIters => (forall y, ~ restrict F ids dec y) /\ clearly_fractional ids tol (snd (relax k dec))
    | _ => forall y, ~ restrict F ids dec y
    end.

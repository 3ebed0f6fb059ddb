(** * Specification: quadratic programs, and what quadprog is documented to do *)
From Coq Require Import Reals List Arith Bool.
Import ListNotations.
From Verif Require Import Base PyqpModel.
Local Open Scope R_scope.

(** a is the least value of f on the set D, attained at x. *)
Definition minimises (D : (nat -> R) -> Prop) (f : (nat -> R) -> R) (x : nat -> R) : Prop := D x /\ forall y, D y -> f x <= f y.
Definition dotv (n : nat) (a x : nat -> R) : R := rsum n (fun i => a i * x i).
(** 1/2 x' M x + c' x *)
Definition qobj (n : nat) (M : nat -> nat -> R) (c : nat -> R) (x : nat -> R) : R := / 2 * rsum n (fun i => rsum n (fun j => x i * M i j * x j)) + dotv n c x.
(** G x <= h and A x = b; a missing pair is no constraint. *)
Definition qp_feasible (n : nat) (G : option pm) (h : option pv) (A : option pm) (b : option pv) (x : nat -> R) : Prop :=
  (forall G0 h0, G = Some G0 -> h = Some h0 -> forall i, (i < pr G0)%nat -> dotv n (pa G0 i) x <= pe h0 i) /\
  (forall A0 b0, A = Some A0 -> b = Some b0 -> forall i, (i < pr A0)%nat -> dotv n (pa A0 i) x = pe b0 i).
Definition symmetric (n : nat) (P : nat -> nat -> R) : Prop := forall i j, (i < n)%nat -> (j < n)%nat -> P i j = P j i.
Definition positive_definite (n : nat) (P : nat -> nat -> R) : Prop := forall x, (exists i, (i < n)%nat /\ x i <> 0) -> 0 < rsum n (fun i => rsum n (fun j => x i * P i j * x j)).

(** quadprog reads the entries of G on and below the diagonal. *)
Definition lower (P : nat -> nat -> R) (i j : nat) : R := if (j <=? i)%nat then P i j else P j i.
(** The set C' x >= b with the first meq rows equalities. *)
Definition dual_feasible (n : nat) (Cb : option (pm * pv)) (meq : nat) (x : nat -> R) : Prop :=
  match Cb with
  | None => True
  | Some (C, b) => forall k, (k < pc C)%nat -> let v := dotv n (fun i => pa C i k) x in if (k <? meq)%nat then v = pe b k else v >= pe b k
  end.
Definition dual_shapes (G : pm) (a : pv) (Cb : option (pm * pv)) (meq : nat) : Prop :=
  pc G = pr G /\ pl a = pr G /\ match Cb with None => True | Some (C, b) => pr C = pr G /\ pl b = pc C /\ (meq <= pc C)%nat end.
(** A result is a minimiser of 1/2 x'Gx - a'x on that set, of the right length and from arguments whose shapes agree;
    there is one whenever the shapes agree, the matrix is positive definite and the set is not empty. *)
Definition quadprog_sound (sq : pm -> pv -> option (pm * pv) -> nat -> res pv) : Prop := forall G a Cb meq x, sq G a Cb meq = Ok x ->
  dual_shapes G a Cb meq /\ pl x = pr G /\ minimises (dual_feasible (pr G) Cb meq) (qobj (pr G) (lower (pa G)) (fun i => - pe a i)) (pe x).
Definition quadprog_complete (sq : pm -> pv -> option (pm * pv) -> nat -> res pv) : Prop := forall G a Cb meq,
  dual_shapes G a Cb meq -> positive_definite (pr G) (lower (pa G)) -> (exists x, dual_feasible (pr G) Cb meq x) -> exists x, sq G a Cb meq = Ok x.
(** Shapes of the problem. *)
Definition qp_shapes (P : pm) (q : pv) (G : option pm) (h : option pv) (A : option pm) (b : option pv) : Prop :=
  pc P = pr P /\ pl q = pr P /\ (forall G0, G = Some G0 -> pc G0 = pr P /\ exists h0, h = Some h0 /\ pl h0 = pr G0) /\ (forall A0, A = Some A0 -> pc A0 = pr P /\ exists b0, b = Some b0 /\ pl b0 = pr A0).

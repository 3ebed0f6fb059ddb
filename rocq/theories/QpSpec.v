(** * Specification: convex quadratic programs  min 1/2 x'Hx + g'x  subject to  CE x + ce0 = 0,  CI x + ci0 <= 0 *)
From Coq Require Import Reals Arith.
From Verif Require Import Base QpModel.
Local Open Scope R_scope.

Definition objective (P : qp) (y : nat -> R) : R :=
  / 2 * rsum (q_n P) (fun i => rsum (q_n P) (fun j => y i * q_H P i j * y j)) + rsum (q_n P) (fun i => q_g P i * y i).
Definition eq_residual (P : qp) (y : nat -> R) (i : nat) : R := rsum (q_n P) (fun j => q_CE P i j * y j) + q_ce0 P i.
Definition ineq_value (P : qp) (y : nat -> R) (i : nat) : R := rsum (q_n P) (fun j => q_CI P i j * y j) + q_ci0 P i.
Definition meets_equalities (P : qp) (y : nat -> R) : Prop := forall i, (i < q_me P)%nat -> eq_residual P y i = 0.
Definition feasible (P : qp) (y : nat -> R) : Prop :=
  meets_equalities P y /\ forall i, (i < q_mi P)%nat -> ineq_value P y i <= 0.
(** Sum of the violations of the inequalities. *)
Definition violation (P : qp) (y : nat -> R) : R := rsum (q_mi P) (fun i => Rmax 0 (ineq_value P y i)).
(** J is the factor L^-T of a symmetric positive definite Hessian: J J' is the inverse of H. *)
Definition inverse_factor (P : qp) (J : nat -> nat -> R) : Prop :=
  (forall i j, (i < q_n P)%nat -> (j < q_n P)%nat -> q_H P i j = q_H P j i) /\
  (forall i j, (i < q_n P)%nat -> (j < q_n P)%nat ->
     rsum (q_n P) (fun k => rsum (q_n P) (fun l => J i l * J k l) * q_H P k j) = if (i =? j)%nat then 1 else 0).
(** The tolerance of the exit test, RtQPSolver.hpp l.371. *)
Definition tolerance (P : qp) (J : nat -> nat -> R) : R :=
  INR (q_mi P) * / 2 ^ 52 * rsum (q_n P) (fun i => q_H P i i) * rsum (q_n P) (fun i => J i i) * 100.

(** The j-th entry of J' v. *)
Definition transposed_times (n : nat) (J : nat -> nat -> R) (v : nat -> R) (j : nat) : R := rsum n (fun k => J k j * v k).
(** J' N = R for the m vectors N 0, ..., N (m-1), with R upper triangular and its unused columns zero. *)
Definition triangular_factor (n m : nat) (J M : nat -> nat -> R) (N : nat -> nat -> R) : Prop :=
  (forall k l, (k < m)%nat -> (l < n)%nat -> transposed_times n J (N k) l = M l k) /\
  (forall k l, (k < l)%nat -> (l < n)%nat -> M l k = 0) /\
  (forall k l, (m <= k)%nat -> (l < n)%nat -> M l k = 0).
(** J' is J times an orthogonal matrix: the same J J'. *)
Definition same_product (n : nat) (J J' : nat -> nat -> R) : Prop :=
  forall a b, rsum n (fun l => J' a l * J' b l) = rsum n (fun l => J a l * J b l).
(** The list N without its element number q. *)
Definition without (q : nat) (N : nat -> nat -> R) : nat -> nat -> R := fun k => if (k <? q)%nat then N k else N (S k).

(** * Specification: the LQR gain scripts *)
From Coq Require Import Reals List Arith.
Import ListNotations.
From Verif Require Import Vec3 LqrSpec.
Local Open Scope R_scope.

(** N is the inverse of the n x n matrix M. *)
Definition inverse (n : nat) (M N : nat -> nat -> R) : Prop := forall i j, (i < n)%nat -> (j < n)%nat ->
  sum n (fun k => M i k * N k j) = (if Nat.eqb i j then 1 else 0) /\ sum n (fun k => N i k * M k j) = (if Nat.eqb i j then 1 else 0).
(** A correct routine for the inverse: the inverse if there is one, an error otherwise. *)
Definition inv_correct (inv : nat -> (nat -> nat -> R) -> option (nat -> nat -> R)) : Prop :=
  forall n M, match inv n M with Some N => inverse n M N | None => ~ exists N, inverse n M N end.
Definition symmetric (n : nat) (M : nat -> nat -> R) : Prop := forall i j, (i < n)%nat -> (j < n)%nat -> M i j = M j i.
(** Q is positive semidefinite, R positive definite. *)
Definition weights (n m : nat) (Q R_ : nat -> nat -> R) : Prop :=
  symmetric n Q /\ symmetric m R_ /\ (forall x, 0 <= bilin n n x Q x) /\ (forall u, (exists i, (i < m)%nat /\ u i <> 0) -> 0 < bilin m m u R_ u).

(** One step of duration h of x' = A(t) x + B(t) u. *)
Definition euler_lin (h : R) (n m : nat) (A B : nat -> nat -> nat -> R) (x u : nat -> R) (t : nat) : nat -> R :=
  fun i => x i + h * (sum n (fun j => A t i j * x j) + sum m (fun k => B t i k * u k)).
Definition quad_stage (n m : nat) (Q R_ : nat -> nat -> R) (x u : nat -> R) (_ : nat) : R := bilin n n x Q x + bilin m m u R_ u.
(** The cost over k steps from time a and state x: sum of x'Qx + u'Ru, nothing for the final state. *)
Definition lqr_cost (h : R) (n m : nat) (A B : nat -> nat -> nat -> R) (Q R_ : nat -> nat -> R) (k a : nat) (x : nat -> R) (pi : nat -> (nat -> R) -> nat -> R) : R :=
  cost_to_go (euler_lin h n m A B) (quad_stage n m Q R_) (fun _ => 0) k a x pi.
(** The linear feedback with gain number t - a at time t. *)
Definition feedback (n a : nat) (Ks : list (nat -> nat -> R)) (t : nat) (x : nat -> R) : nat -> R :=
  fun i => sum n (fun j => nth (t - a) Ks (fun _ _ => 0) i j * x j).
(** The gains minimise the cost from time a over k steps among all policies, from every state. *)
Definition optimal_gains (h : R) (n m : nat) A B Q R_ (k a : nat) (Ks : list (nat -> nat -> R)) : Prop :=
  forall x pi, lqr_cost h n m A B Q R_ k a x (feedback n a Ks) <= lqr_cost h n m A B Q R_ k a x pi.

(** x with entry i moved by h. *)
Definition moved_by (x : nat -> R) (i : nat) (h : R) : nat -> R := fun j => if Nat.eqb j i then x j + h else x j.
(** The torque about c of a force f at p. *)
Definition torque (p c f : nat -> R) (k : nat) : R :=
  let r i := p i - c i in match k with 0%nat => r 1%nat * f 2%nat - r 2%nat * f 1%nat | 1%nat => r 2%nat * f 0%nat - r 0%nat * f 2%nat | _ => r 0%nat * f 1%nat - r 1%nat * f 0%nat end.

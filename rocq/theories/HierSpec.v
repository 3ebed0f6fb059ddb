(** Specification of the hierarchical solver: values of the rows of a task and exact oracles. *)
From Coq Require Import Reals List Arith.
Import ListNotations.
From Verif Require Import Base RtMatModel HierModel.
Local Open Scope R_scope.

(** The i-th entry of M x + v. *)
Definition row_value (M : mat) (v : vec) (i : nat) (x : vec) : R := rsum (nc M) (fun k => ma M i k * va x k) + va v i.
Definition equality_residual (t : task) (i : nat) (x : vec) : R := row_value (t_E t) (t_e t) i x.
Definition inequality_value (t : task) (i : nat) (x : vec) : R := row_value (t_C t) (t_c t) i x.

(** The columns of [nullmap B] are in the null space of B. *)
Definition null_space (nullmap : mat -> mat) : Prop :=
  forall B, nr (nullmap B) = nc B /\ forall i j, (i < nr B)%nat -> (j < nc (nullmap B))%nat -> rsum (nc B) (fun k => ma B i k * ma (nullmap B) k j) = 0.
(** A feasible minimiser of v'Hv + 2g'v subject to A v + a <= 0, whenever an answer is given. *)
Definition qp_feasible (A : mat) (a v : vec) : Prop := forall i, (i < nr A)%nat -> row_value A a i v <= 0.
Definition qp_cost (H : mat) (g v : vec) : R :=
  rsum (nr H) (fun i => rsum (nr H) (fun j => va v i * ma H i j * va v j)) + 2 * rsum (nr H) (fun i => va g i * va v i).
Definition exact_qp (qp : mat -> vec -> mat -> vec -> option vec) : Prop :=
  forall H g A a v, qp H g A a = Some v -> qp_feasible A a v /\ forall y, qp_feasible A a y -> qp_cost H g v <= qp_cost H g y.

(** A task whose dimensions fit n variables. *)
Definition well_formed (n capB : nat) (t : task) : Prop :=
  (nr (t_E t) <= capB)%nat /\ nc (t_E t) = n /\ vn (t_e t) = nr (t_E t) /\ nc (t_C t) = n /\ vn (t_c t) = nr (t_C t).
Definition inequality_rows (ts : list task) : nat := fold_right (fun t m => (nr (t_C t) + m)%nat) O ts.
Definition sq_norm (v : vec) : R := rsum (vn v) (fun i => va v i * va v i).
(** Cost of a task at x with decision z in the null space and slacks w. *)
Definition task_cost (diag : R) (t : task) (x z w : vec) : R :=
  rsum (nr (t_E t)) (fun i => equality_residual t i x * equality_residual t i x) + sq_norm w + diag * (sq_norm z + sq_norm w).
Definition move (x : vec) (N : mat) (z : vec) : vec := Vec (vn x) (fun i => va x i + rsum (nc N) (fun k => ma N i k * va z k)).

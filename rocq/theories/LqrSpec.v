(** * What a user expects of the LQR solver, independent of the implementation *)
From Coq Require Import Reals List Arith.
Import ListNotations.
Open Scope R_scope.

Definition sum (n : nat) (f : nat -> R) : R := fold_right Rplus 0 (map f (seq 0 n)).
Definition inner (n : nat) (x y : nat -> R) : R := sum n (fun i => x i * y i).
(** x^T M y for an n x m matrix. *)
Definition bilin (n m : nat) (x : nat -> R) (M : nat -> nat -> R) (y : nat -> R) : R := sum n (fun i => sum m (fun j => x i * M i j * y j)).

(** f(x, u) = A x + B u + c. *)
Definition affine (n m : nat) (f : (nat -> R) -> (nat -> R) -> nat -> R) (A B : nat -> nat -> R) (c : nat -> R) : Prop :=
  forall x u i, (i < n)%nat -> f x u i = sum n (fun j => A i j * x j) + sum m (fun k => B i k * u k) + c i.
(** A quadratic function of state and control with symmetric Q and R:
    c0 + b.x + d.u + 1/2 x^T Q x + 1/2 u^T R u + u^T N x. *)
Record quadratic (n m : nat) (f : (nat -> R) -> (nat -> R) -> R) (c0 : R) (b d : nat -> R) (Q R_ N : nat -> nat -> R) : Prop := {
  quad_Q : forall i j, (i < n)%nat -> (j < n)%nat -> Q i j = Q j i;
  quad_R : forall i j, (i < m)%nat -> (j < m)%nat -> R_ i j = R_ j i;
  quad_val : forall x u, f x u = c0 + inner n b x + inner m d u + 1 / 2 * bilin n n x Q x + 1 / 2 * bilin m m u R_ u + bilin m n u N x }.

(** ** Optimal control: [step] maps state, control and time index to the next state. *)
Section Control.
Variable step : (nat -> R) -> (nat -> R) -> nat -> nat -> R.
Variable stage : (nat -> R) -> (nat -> R) -> nat -> R.
Variable final : (nat -> R) -> R.
(** The cost of following the policy [pi] from state x at time index t for k more steps. *)
Fixpoint cost_to_go (k t : nat) (x : nat -> R) (pi : nat -> (nat -> R) -> nat -> R) : R :=
  match k with
  | O => final x
  | S k' => stage x (pi t x) t + cost_to_go k' (t + 1) (step x (pi t x) t) pi
  end.
(** The cost of a sequence of controls is the cost of the policy that ignores the state. *)
Definition open_loop (us : nat -> nat -> R) : nat -> (nat -> R) -> nat -> R := fun t _ => us t.
(** A sequence of states follows the dynamics under a sequence of controls. *)
Definition follows (T : nat) (xs us : nat -> nat -> R) : Prop := forall t, (t < T)%nat -> xs (t + 1)%nat = step (xs t) (us t) t.
Definition trajectory_cost (T : nat) (xs us : nat -> nat -> R) : R := sum T (fun t => stage (xs t) (us t) t) + final (xs T).
End Control.

(** Truncated exponential series: one step of a fourth-order method on x' = a x. *)
Definition taylor4 (z : R) : R := 1 + z + z ^ 2 / 2 + z ^ 3 / 6 + z ^ 4 / 24.

(** One step of the classical Runge-Kutta scheme of order four and of Euler's scheme for the increment function f. *)
Definition euler_step (f : (nat -> R) -> nat -> R) (x : nat -> R) : nat -> R := fun i => x i + f x i.
Definition rk4_step (f : (nat -> R) -> nat -> R) (x : nat -> R) : nat -> R :=
  let k1 := f x in
  let k2 := f (fun i => x i + k1 i / 2) in
  let k3 := f (fun i => x i + k2 i / 2) in
  let k4 := f (fun i => x i + k3 i) in
  fun i => x i + (k1 i + 2 * k2 i + 2 * k3 i + k4 i) / 6.

(** ** Linear-quadratic problems of horizon T with n states and m controls: [f] is the increment of the state, [l] the stage cost, [phi] the final cost. *)
Record linear_quadratic (T n m : nat) (f : (nat -> R) -> (nat -> R) -> nat -> nat -> R) (l : (nat -> R) -> (nat -> R) -> nat -> R) (phi : (nat -> R) -> R)
    (A B : nat -> nat -> nat -> R) (c : nat -> nat -> R) (l0 : nat -> R) (b d : nat -> nat -> R) (Q R_ N : nat -> nat -> nat -> R) (phi0 : R) (bf : nat -> R) (Qf : nat -> nat -> R) : Prop := {
  lq_dyn : forall t, (t < T)%nat -> affine n m (fun x u => f x u t) (A t) (B t) (c t);
  lq_stage : forall t, (t < T)%nat -> quadratic n m (fun x u => l x u t) (l0 t) (b t) (d t) (Q t) (R_ t) (N t);
  lq_final_sym : forall i j, (i < n)%nat -> (j < n)%nat -> Qf i j = Qf j i;
  lq_final : forall x, phi x = phi0 + inner n bf x + 1 / 2 * bilin n n x Qf x }.
(** The costs are convex, strictly in the control. *)
Record convex_costs (T n m : nat) (Q R_ N : nat -> nat -> nat -> R) (Qf : nat -> nat -> R) : Prop := {
  cvx_stage : forall t x u, (t < T)%nat -> 0 <= bilin n n x (Q t) x + bilin m m u (R_ t) u + 2 * bilin m n u (N t) x;
  cvx_control : forall t u, (t < T)%nat -> (exists i, (i < m)%nat /\ u i <> 0) -> 0 < bilin m m u (R_ t) u;
  cvx_final : forall x, 0 <= bilin n n x Qf x }.

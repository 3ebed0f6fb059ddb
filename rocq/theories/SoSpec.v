(** * Specification: second-order inverse kinematics *)
From Coq Require Import Reals List Arith Bool.
Import ListNotations.
From Verif Require Import Base Vec3 PyqpModel PyqpSpec IkModel IkSpec MkoModel MkoSpec SoModel.
Local Open Scope R_scope.

(** Rate of the momenta, acceleration of an end-effector, for joint acceleration x at (q, dq). *)
Definition momentum_rate (rb : sorobot) (q dq : config) (x : nat -> R) (i : nat) : R := momentum_of rb q x i + sr_dh rb q dq i.
Definition eff_acceleration (rb : sorobot) (q dq : config) (e : nat) (x : nat -> R) (c : nat) : R := eff_velocity_of rb q e x c + sr_dv rb q dq e c.
(** What they should be: feed-forward plus feedback on the errors. *)
Definition rate_ref (rb : sorobot) (st : soset) (a : soarg) (i : nat) : R := sa_dmom a i + sp_mom st i * (sa_mom a i - momentum_of rb (sa_q a) (entries (sa_dq a)) i).
Definition lin_rate_ref rb st a i : R := rate_ref rb st a i + sp_com st * (vget3 (sa_com a) i - vget3 (r_com (sr rb) (sa_q a)) i).
Definition ang_rate_ref rb st a i : R := rate_ref rb st a (3 + i) + (sp_ori st * vget3 (sr_err rb (sa_ori a) (sa_q a)) i - sd_ori st * entries (sa_dq a) (3 + i)).
Definition eff_acc_ref (rb : sorobot) (st : soset) (a : soarg) (e c : nat) : R :=
  sp_eff st * (vget3 (nth e (sa_pos a) v0) c - vget3 (r_pos rb (sa_q a) e) c) + sd_eff st * (vget3 (nth e (sa_vel a) v0) c - eff_velocity_of rb (sa_q a) e (entries (sa_dq a)) c) + vget3 (nth e (sa_acc a) v0) c.
Definition joint_acc_ref (st : soset) (a : soarg) (j : nat) : R := match sa_joint a with Some r => sp_joint st * (pe r j - entries (sa_q a) (7 + j)) - sd_joint st * entries (sa_dq a) (6 + j) | None => 0 end.
(** The weighted sum of squared errors of joint acceleration x, plus the regularisation. *)
Definition acc_cost (rb : sorobot) (st : soset) (a : soarg) (x : nat -> R) : R :=
  let q := sa_q a in let dq := sa_dq a in
  s_lin st * rsum 3 (fun i => (momentum_rate rb q dq x i - lin_rate_ref rb st a i) ^ 2)
  + s_ang st * rsum 3 (fun i => (momentum_rate rb q dq x (3 + i) - ang_rate_ref rb st a i) ^ 2)
  + rsum (r_ne rb) (fun e => (if Req_EM_T (nth e (sa_contact a) 0) 1 then s_contact st else s_track st) * rsum 3 (fun c => (eff_acceleration rb q dq e x c - eff_acc_ref rb st a e c) ^ 2))
  + s_joint st * rsum (r_nv rb - 6) (fun j => (x (6 + j)%nat - joint_acc_ref st a j) ^ 2)
  + / 1000000 * rsum (r_nv rb) (fun i => x i ^ 2).
Definition so_shapes (rb : sorobot) (a : soarg) : Prop :=
  length (sa_dq a) = r_nv rb /\ (r_ne rb <= length (sa_pos a))%nat /\ (r_ne rb <= length (sa_vel a))%nat /\ (r_ne rb <= length (sa_acc a))%nat /\ length (sa_contact a) = r_ne rb /\
  (forall r, sa_joint a = Some r -> pl r = (r_nv rb - 6)%nat /\ length (sa_q a) = (r_nv rb + 1)%nat).
(** States of the object: after its construction and any calls of update_kinematics and step, under any settings. *)
Inductive so_reach sq pinv (rb : sorobot) : sost -> Prop :=
| so_reach_new : so_reach sq pinv rb so_new
| so_reach_kin : forall s q dq, so_reach sq pinv rb s -> so_reach sq pinv rb (update_kinematics rb s q dq)
| so_reach_step : forall s st a x s', so_reach sq pinv rb s -> so_step sq pinv rb st s a = Ok (x, s') -> so_reach sq pinv rb s'.
(** The acceleration is the best compromise. *)
Definition best_acc (rb : sorobot) (st : soset) (a : soarg) (x : nat -> R) : Prop := minimises (fun _ => True) (acc_cost rb st a) x.
(** Configuration, velocity, and every reference (position, orientation, momentum, its derivative, end-effector position, velocity, acceleration, posture) at time t. *)
Definition asked (rf : sorefs) (q dq : config) (t : R) (contact : list R) : soarg :=
  SA q dq (f_com rf t) (f_ori rf t) (f_mom rf t) (f_dmom rf t) (f_pos rf t) (f_vel rf t) (f_acc rf t) contact (Some (f_joint rf t)).
(** Semi-implicit integration with 1 ms: n steps, k of them for each row; every acceleration is a good one for the references at its time and the contacts of its row. *)
Record so_motion (rb : sorobot) (integ : config -> config -> config) (good : soarg -> (nat -> R) -> Prop) (rf : sorefs) (contacts : list (list R)) (k : nat) (q0 dq0 : config) (n : nat) (Q DQ DDQ : nat -> config) : Prop := {
  sm_start : Q 0%nat = q0 /\ DQ 0%nat = dq0;
  sm_step : forall i, (i < n)%nat -> let a := asked rf (Q i) (DQ i) (INR i * / 1000) (nth (S (i / k)) contacts []) in
    length (DDQ i) = r_nv rb /\ good a (entries (DDQ i)) /\
    length (DQ (S i)) = r_nv rb /\ (forall j, (j < r_nv rb)%nat -> entries (DQ (S i)) j = entries (DQ i) j + entries (DDQ i) j * / 1000) /\
    Q (S i) = integ (Q i) (map (Rmult (/ 1000)) (DQ (S i))) }.
(** A row records configuration, velocity and what follows from them. *)
Definition records_all (rb : robot) (r : kres) (q dq : config) : Prop :=
  records rb r q dq /\ forall e c, (e < r_ne rb)%nat -> (c < 3)%nat -> o_vel r (e * 3 + c)%nat = eff_velocity_of rb q e (entries dq) c.
(** ** Priorities *)
(** Moore-Penrose pseudo-inverse. *)
Definition mat_mul (A B : pm) (i j : nat) : R := rsum (pc A) (fun k => pa A i k * pa B k j).
Record penrose (A P : pm) : Prop := {
  pn_shape : pr P = pc A /\ pc P = pr A;
  pn_APA : forall i j, (i < pr A)%nat -> (j < pc A)%nat -> rsum (pr A) (fun k => mat_mul A P i k * pa A k j) = pa A i j;
  pn_PAP : forall i j, (i < pc A)%nat -> (j < pr A)%nat -> rsum (pc A) (fun k => mat_mul P A i k * pa P k j) = pa P i j;
  pn_AP : forall i j, (i < pr A)%nat -> (j < pr A)%nat -> mat_mul A P i j = mat_mul A P j i;
  pn_PA : forall i j, (i < pc A)%nat -> (j < pc A)%nat -> mat_mul P A i j = mat_mul P A j i }.
(** Number of joint rows after the end-effectors' among the twelve rows that come first. *)
Definition joints_first (rb : sorobot) : nat := Nat.min (12 - 3 * r_ne rb) (r_nv rb - 6).
(** The twelve rows: Jacobians of the first four end-effectors, then joints. *)
Definition first_matrix (rb : sorobot) (q : config) : pm :=
  PM (3 * Nat.min 4 (r_ne rb) + joints_first rb) (r_nv rb) (fun i j => if (i <? 3 * r_ne rb)%nat then r_Jf rb q (i / 3) (i mod 3) j else if (j =? 6 + (i - 3 * r_ne rb))%nat then 1 else 0).
(** Momentum matrix restricted to what leaves the first rows unchanged. *)
Definition rest_matrix (rb : sorobot) (q : config) (P : pm) : pm :=
  PM 6 (r_nv rb) (fun i j => rsum (r_nv rb) (fun k => r_Ag rb q i k * ((if (k =? j)%nat then 1 else 0) - mat_mul P (first_matrix rb q) k j))).
Definition same_mat (A B : pm) : Prop := pr A = pr B /\ pc A = pc B /\ forall i j, (i < pr A)%nat -> (j < pc A)%nat -> pa A i j = pa B i j.
(** The function computes the pseudo-inverses of the two matrices. *)
Definition exact_pinv (pinv : pm -> pm) (rb : sorobot) (q : config) : Prop :=
  forall A, same_mat A (first_matrix rb q) -> penrose A (pinv A) /\ forall B, same_mat B (rest_matrix rb q (pinv A)) -> penrose B (pinv B).
Definition eff_error (rb : sorobot) (st : soset) (a : soarg) (x : nat -> R) : R := rsum (Nat.min 4 (r_ne rb)) (fun e => rsum 3 (fun c => (eff_acceleration rb (sa_q a) (sa_dq a) e x c - eff_acc_ref rb st a e c) ^ 2)).
Definition joint_error (rb : sorobot) (st : soset) (a : soarg) (x : nat -> R) : R := rsum (joints_first rb) (fun j => (x (6 + j)%nat - joint_acc_ref st a j) ^ 2).
Definition momentum_error (rb : sorobot) (st : soset) (a : soarg) (x : nat -> R) : R :=
  rsum 3 (fun i => (momentum_rate rb (sa_q a) (sa_dq a) x i - lin_rate_ref rb st a i) ^ 2) + rsum 3 (fun i => (momentum_rate rb (sa_q a) (sa_dq a) x (3 + i) - ang_rate_ref rb st a i) ^ 2).
(** x minimises f, and g among the minimisers of f. *)
Definition lexi (f g : (nat -> R) -> R) (x : nat -> R) : Prop := (forall y, f x <= f y) /\ forall y, (forall z, f y <= f z) -> g x <= g y.

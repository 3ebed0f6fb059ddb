(** * Specification: the task errors the inverse kinematics trades off *)
From Coq Require Import Reals List Arith Bool.
Import ListNotations.
From Verif Require Import Base Vec3 PyqpModel PyqpSpec IkModel.
Local Open Scope R_scope.

(** Momentum (components 0-2 linear, 3-5 angular) and end-effector velocity the joint velocity x produces at configuration q. *)
Definition momentum_of (rb : robot) (q : config) (x : nat -> R) (i : nat) : R := dotv (r_nv rb) (r_Ag rb q i) x.
Definition eff_velocity_of (rb : robot) (q : config) (e : nat) (x : nat -> R) (i : nat) : R := dotv (r_nv rb) (r_Jf rb q e i) x.
Definition joint_ref (a : ikarg) (j : nat) : R := match a_joint a with Some r => pe r j | None => 0 end.
(** The weighted sum of squared task errors of joint velocity x, plus the regularisation. *)
Definition task_cost (rb : robot) (st : iksetting) (a : ikarg) (x : nat -> R) : R :=
  let q := a_q a in
  let g := if is_init st then 1 else p_track st in
  w_lin st * rsum 3 (fun i => (momentum_of rb q x i - (vget3 (a_lmom a) i + p_com st * (vget3 (a_com a) i - vget3 (r_com rb q) i))) ^ 2)
  + w_ang st * rsum 3 (fun i => (momentum_of rb q x (3 + i) - vget3 (a_amom a) i) ^ 2)
  + rsum (r_ne rb) (fun e => (if Req_EM_T (nth e (a_contact a) 0) 1 then w_contact st else w_track st) *
      rsum 3 (fun i => (eff_velocity_of rb q e x i - (vget3 (nth e (a_vel a) v0) i + g * (vget3 (nth e (a_pos a) v0) i - vget3 (r_pos rb q e) i))) ^ 2))
  + w_joint st * rsum (r_nv rb - 6) (fun j => (x (6 + j)%nat - joint_ref a j) ^ 2)
  + / 1000000 * rsum (r_nv rb) (fun i => x i ^ 2).
(** In a flight phase the momentum is prescribed exactly. *)
Definition admissible (rb : robot) (a : ikarg) (x : nat -> R) : Prop :=
  a_flight a = true -> forall i, (i < 3)%nat -> momentum_of rb (a_q a) x i = vget3 (a_lmom a) i /\ momentum_of rb (a_q a) x (3 + i) = vget3 (a_amom a) i.
(** The references have the shapes of the robot. *)
Definition arg_shapes (rb : robot) (a : ikarg) : Prop :=
  (r_ne rb <= List.length (a_pos a))%nat /\ (r_ne rb <= List.length (a_vel a))%nat /\ List.length (a_contact a) = r_ne rb /\ (forall r, a_joint a = Some r -> pl r = (r_nv rb - 6)%nat).
(** States of the object: after its construction and any calls of compute and forward_robot, under any settings. *)
Inductive reach (sq : pm -> pv -> option (pm * pv) -> nat -> res pv) (rb : robot) : ikst -> Prop :=
| reach_new : reach sq rb ik_new
| reach_forward : forall s q dq, reach sq rb s -> reach sq rb (forward_robot s q dq)
| reach_compute : forall s st a x s', reach sq rb s -> compute sq rb st s a = Ok (x, s') -> reach sq rb s'.

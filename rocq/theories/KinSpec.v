(** * Specification: the kinematic trajectory problem in words of robot kinematics
    Independent of expressions, columns and loops. *)
From Coq Require Import Reals List Arith ZArith Bool.
Import ListNotations.
From Verif Require Import Base Vec3 ConicModel OptVarModel OptVarSpec CntModel DynModel DynSpec KinModel.
Local Open Scope R_scope.

(** A plan: com and momenta by step, positions and velocities by end-effector and step, and by coordinate (6 of the base, then the
    active joints) and step: the posture, the correction velocity, the velocity and the acceleration of the motion. *)
Record kplan := KPlan {
  kp_com : nat -> vec3; kp_lmom : nat -> vec3; kp_amom : nat -> vec3; kp_epos : nat -> nat -> vec3; kp_evel : nat -> nat -> vec3;
  kp_q : nat -> nat -> R; kp_qd : nat -> nat -> R; kp_tqd : nat -> nat -> R; kp_tqdd : nat -> nat -> R }.

(** Blocks are numbered com, lmom, amom, (position, velocity) per end-effector, q, qd, total qd, total qdd, and added to the model as
    com, lmom, amom, q, qd, total qd, total qdd, then the end-effectors; entry (r,c) of block k is the column given by C08. *)
Definition kplan_of (g : kset) (x : nat -> R) : kplan :=
  let bs := kin_blocks (k_inf g) (k_N g) (k_neff g) (k_next g) in
  let s k r c := x (column_of bs (kin_order (k_neff g)) k r c) in
  let vec k c := V3 (s k 0%nat c) (s k 1%nat c) (s k 2%nat c) in
  let n := (3 + 2 * k_neff g)%nat in
  KPlan (vec 0%nat) (vec 1%nat) (vec 2%nat) (fun e => vec (3 + 2 * e)%nat) (fun e => vec (4 + 2 * e)%nat)
        (s n) (s (n + 1)%nat) (s (n + 2)%nat) (s (n + 3)%nat).

(** Matrix (3 rows from row i0, columns of the extended active dofs) times a vector over these dofs. *)
Definition jac_times (g : kset) (J : nat -> nat -> R) (i0 : nat) (w : nat -> R) : vec3 :=
  let row i := rsum (k_next g) (fun d => J (i0 + i)%nat (k_ext g d) * w d) in V3 (row 0%nat) (row 1%nat) (row 2%nat).
(** Coordinates of a posture: base position, rotation vector of the base, active joints. *)
Definition coords (g : kset) (rob : robot) (ori : quat) (s : kstate) (d : nat) : R :=
  match d with
  | 0 | 1 | 2 => vget3 (ks_base s) d
  | 3 | 4 | 5 => vget3 (rb_log rob ori) (d - 3)
  | _ => ks_jnt s (nth (d - 6) (k_act g) 0)
  end%nat.
Definition before1 (a : nat -> R) (a0 : R) (t : nat) : R := match t with O => a0 | S t' => a t' end.

Record kin_step_feasible (g : kset) (rob : robot) (dyn : nat -> dstate) (kini : kstate) (seqk : nat -> kstate) (P : kplan) (t : nat) : Prop := {
  (** first-order model of com and end-effectors around the current state *)
  kf_com : kp_com P t = vadd (ks_com (rb_update rob (seqk t) (k_step g))) (vscale (k_step g) (jac_times g (rb_jcom rob (seqk t)) 0 (fun d => kp_qd P d t)));
  kf_evel : forall e, (e < k_neff g)%nat -> kp_evel P e t = jac_times g (rb_jeff rob (seqk t) e) 0 (fun d => kp_qd P d t);
  kf_epos : forall e, (e < k_neff g)%nat -> kp_epos P e t = vadd (ks_eff (rb_update rob (seqk t) (k_step g)) e) (vscale (k_step g) (kp_evel P e t));
  (** momenta belong to the velocity of the motion *)
  kf_lmom : kp_lmom P t = jac_times g (rb_ag rob (seqk t)) 0 (fun d => kp_tqd P d t);
  kf_amom : kp_amom P t = jac_times g (rb_ag rob (seqk t)) 3 (fun d => kp_tqd P d t);
  (** posture is the current posture plus the correction *)
  kf_q : forall d, (d < k_next g)%nat -> kp_q P d t = coords g rob (ks_ori (seqk t)) (rb_update rob (seqk t) (k_step g)) d + k_step g * kp_qd P d t;
  (** velocities and accelerations are backward differences *)
  kf_tqd : forall d, (d < k_next g)%nat -> kp_tqd P d t = (kp_q P d t - before1 (kp_q P d) (coords g rob (ks_ori kini) kini d) t) * (1 / d_time (dyn t));
  kf_tqdd : forall d, (d < k_next g)%nat -> kp_tqdd P d t = (kp_tqd P d t - before1 (kp_tqd P d) 0 t) * (1 / d_time (dyn t));
  kf_floor : forall e, (e < k_neff g)%nat -> k_floor g <= vz (kp_epos P e t);
  kf_limits : forall d, (d < List.length (k_act g))%nat -> let j := nth d (k_act g) 0%nat in k_min g j <= kp_q P (6 + d) t <= k_max g j }.
Definition kin_feasible g rob dyn kini seqk P : Prop := forall t, (t < k_N g)%nat -> kin_step_feasible g rob dyn kini seqk P t.

(** Cost: weighted squares of the tracking errors, momentum rates, distance to the default posture, velocities, accelerations. *)
Definition wsq3 (w a : vec3) : R := vx w * sqr (vx a) + vy w * sqr (vy a) + vz w * sqr (vz a).
Definition kin_cost (g : kset) (dini : dstate) (dyn : nat -> dstate) (P : kplan) : R :=
  rsum (k_N g) (fun t =>
    let d := dyn t in let rate a b0 := vscale (1 / d_time d) (vsub (a t) (prev a b0 t)) in
    wsq3 (kw_com g) (vsub (d_com d) (kp_com P t)) + wsq3 (kw_lmom g) (vsub (d_lmom d) (kp_lmom P t)) + wsq3 (kw_amom g) (vsub (d_amom d) (kp_amom P t))
    + wsq3 (kw_lmomd g) (rate (kp_lmom P) (d_lmom dini)) + wsq3 (kw_amomd g) (rate (kp_amom P) (d_amom dini))
    + rsum (k_neff g) (fun e => wsq3 (if e_act (d_eff d e) then kw_eff g else kw_neff g) (vsub (e_pos (d_eff d e)) (kp_epos P e t)))
    + rsum (List.length (k_act g)) (fun i => kw_def g i * sqr (k_qdef g i - kp_q P (6 + i) t))
    + rsum (k_next g) (fun i => kw_vel g i * sqr (kp_tqd P i t) + kw_acc g i * sqr (kp_tqdd P i t))).
Definition kweights_ok (g : kset) : Prop :=
  nonneg3 (kw_com g) /\ nonneg3 (kw_lmom g) /\ nonneg3 (kw_amom g) /\ nonneg3 (kw_lmomd g) /\ nonneg3 (kw_amomd g) /\ nonneg3 (kw_eff g) /\ nonneg3 (kw_neff g) /\
  (forall d, 0 <= kw_def g d) /\ (forall d, 0 <= kw_vel g d) /\ (forall d, 0 <= kw_acc g d).

(** ** Posture problem (one state): joints, correction velocity, slacks of the non-penetration rows; accelerations and velocities. *)
Record pplan := PPlan { pp_q : nat -> R; pp_qd : nat -> R; pp_slack : nat -> R; pp_qdd : nat -> R; pp_tqd : nat -> R }.
Definition pplan_of (g : kset) (rob : robot) (x : nat -> R) : pplan :=
  let s k r := x (column_of (post_blocks g (rb_ncon rob)) post_order k r 0) in PPlan (s 3%nat) (s 4%nat) (s 2%nat) (s 5%nat) (s 6%nat).
Record posture_feasible (g : kset) (rob : robot) (s0 : kstate) (P : pplan) : Prop := {
  pf_slack : forall c, (c < rb_ncon rob)%nat -> 0 <= pp_slack P c;
  pf_contact : forall c, (c < rb_ncon rob)%nat -> rsum (k_next g) (fun d => rb_cmat rob s0 c d * pp_qd P d) - rb_cvec rob s0 c <= pp_slack P c;
  pf_q : forall d, (d < List.length (k_act g))%nat -> pp_q P d = ks_jnt (rb_update rob s0 (k_step g)) d + k_step g * pp_qd P (6 + d)%nat;
  pf_limits : forall d, (d < List.length (k_act g))%nat -> k_min g d <= pp_q P d <= k_max g d }.
(** The part of its cost that concerns the posture, and the part that concerns the momenta. *)
Definition jac3 (g : kset) (J : nat -> nat -> R) (w : nat -> R) : vec3 := let row i := rsum (k_next g) (fun d => J i d * w d) in V3 (row 0%nat) (row 1%nat) (row 2%nat).
Definition posture_cost (g : kset) (rob : robot) (s0 : kstate) (des : dstate) (P : pplan) : R :=
  let c := rb_update rob s0 (k_step g) in
  let err want now J := vsub (jac3 g J (pp_qd P)) (vscale (/ k_step g) (vsub want now)) in
  wsq3 (kw_com g) (err (d_com des) (ks_com c) (rb_jcom rob s0))
  + rsum (k_neff g) (fun e => wsq3 (if e_act (d_eff des e) then kw_eff g else kw_neff g) (err (e_pos (d_eff des e)) (ks_eff c e) (rb_jeff rob s0 e)))
  + rsum (k_next g) (fun d => k_lambda g * sqr (pp_qd P d))
  + rsum (rb_ncon rob) (fun i => k_slackw g * sqr (pp_slack P i))
  + rsum (List.length (k_act g)) (fun d => kw_def g d * sqr (pp_q P d - k_qdef g d)).
Definition momentum_cost (g : kset) (rob : robot) (s0 : kstate) (des : dstate) (P : pplan) : R :=
  let c := rb_update rob s0 (k_step g) in
  let err want now i0 := vsub (vadd (jac3 g (fun i => rb_ag rob s0 (i0 + i)%nat) (pp_qdd P)) (jac3 g (fun i => rb_dag rob s0 (i0 + i)%nat) (pp_tqd P))) (vscale (/ k_step g) (vsub want now)) in
  wsq3 (kw_lmom g) (err (d_lmom des) (ks_lmom c) 0%nat) + wsq3 (kw_amom g) (err (d_amom des) (ks_amom c) 3%nat)
  + rsum (k_next g) (fun d => k_lambda g * sqr (pp_qdd P d)).

(** Plans that agree on the steps, end-effectors and coordinates of the problem (the functions are total, the problem is finite). *)
Definition same_kplan (g : kset) (P P' : kplan) : Prop := forall t, (t < k_N g)%nat ->
  kp_com P t = kp_com P' t /\ kp_lmom P t = kp_lmom P' t /\ kp_amom P t = kp_amom P' t /\
  (forall e, (e < k_neff g)%nat -> kp_epos P e t = kp_epos P' e t /\ kp_evel P e t = kp_evel P' e t) /\
  (forall d, (d < k_next g)%nat -> kp_q P d t = kp_q P' d t /\ kp_qd P d t = kp_qd P' d t /\ kp_tqd P d t = kp_tqd P' d t /\ kp_tqdd P d t = kp_tqdd P' d t).
Definition same_pplan (g : kset) (rob : robot) (P P' : pplan) : Prop :=
  (forall d, (d < List.length (k_act g))%nat -> pp_q P d = pp_q P' d) /\ (forall c, (c < rb_ncon rob)%nat -> pp_slack P c = pp_slack P' c) /\
  (forall d, (d < k_next g)%nat -> pp_qd P d = pp_qd P' d /\ pp_qdd P d = pp_qdd P' d /\ pp_tqd P d = pp_tqd P' d).

(** Sum of the first n terms of a sequence weighted by the step durations, added to a start value. *)
Fixpoint integrated (a0 : R) (dt v : nat -> R) (n : nat) : R := match n with O => a0 | S n' => integrated a0 dt v n' + dt n' * v n' end.

(** A robot interface that treats joints as is usual: updating does not move them, integration adds step times velocity, differentiation keeps
    the joints and sets the joint velocities to the difference quotient. *)
Record usual_joints (rob : robot) : Prop := {
  uj_update : forall s h j, ks_jnt (rb_update rob s h) j = ks_jnt s j;
  uj_integrate : forall s h j, ks_jnt (rb_integrate rob s h) j = ks_jnt s j + h * ks_vel s (6 + j);
  uj_diff : forall a b dt j, ks_jnt (rb_diff rob a b dt) j = ks_jnt b j;
  uj_vel : forall a b dt j, ks_vel (rb_diff rob a b dt) (6 + j) = (ks_jnt b j - ks_jnt a j) * (1 / dt) }.

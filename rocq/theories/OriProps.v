(** * C37: orientation utilities *)
From Coq Require Import Reals Arith Lia Lra Psatz Bool.
From Verif Require Import Base BaseProofs Vec3 OriModel OriSpec OriProofs OriProofs2.
Local Open Scope R_scope.

Theorem C37_skew : forall v w, mulv (skewMatrix v) w = vcross v w.
Proof. exact skew_cross. Qed.
(** The quaternion matrices are the left and the right product. *)
Theorem C37_quaternion_matrices : forall q p, applies (toQuaternionMatrix q false) p (hamilton q p) /\ applies (toQuaternionMatrix q true) p (hamilton p q).
Proof. intros. split; [apply qmatrix_left|apply qmatrix_right]. Qed.
(** exp is a unit quaternion with nonnegative scalar part for every vector, and the rotation by |r| about r from 0.01 on. *)
Theorem C37_exp : forall r, unitq (exponentialMap r) /\ 0 <= qw (exponentialMap r) /\
  (1 / 100 <= length3 r -> same_rotation (exponentialMap r) (rotation_of r)) /\ (1 / 100 <= length3 r <= PI -> exponentialMap r = rotation_of r).
Proof.
  intros r. destruct (exp_unit r) as (U & W). split; [exact U|]. split; [exact W|]. split; [apply exp_rotation|]. intros (H1 & H2). rewrite <- raw_is. now apply exp_short.
Qed.
(** log inverts exp up to half a turn: exactly when the small angle branch is not taken, within one percent of the length always. *)
Theorem C37_log_exp : forall r, length3 r <= PI -> (exists k, 99 / 100 < k <= 1 /\ logarithmicMap (exponentialMap r) = vscale k r) /\
  (1 / 100 <= 1 - cos (length3 r / 2) -> logarithmicMap (exponentialMap r) = r).
Proof. intros r H. split; [now apply log_exp_approx|]. intros H2. now apply log_exp_exact. Qed.
(** exp inverts log, up to the sign of the quaternion, outside the small angle branch; log never exceeds half a turn and ignores scale and sign. *)
Theorem C37_exp_log : forall q, unitq q -> length3 (logarithmicMap q) <= PI /\ (Rabs (qw q) <= 99 / 100 -> same_rotation (exponentialMap (logarithmicMap q)) q).
Proof. intros q U. split; [now apply log_short|]. intros H. rewrite exp_log by assumption. apply qpositive_same. Qed.
Theorem C37_log_projective : forall q k, norm2 q <> 0 -> (0 < k -> logarithmicMap (qscale k q) = logarithmicMap q) /\ (unitq q -> qw q <> 0 -> logarithmicMap (qneg q) = logarithmicMap q).
Proof. intros q k H. split; [intros; now apply log_scale|intros; now apply log_neg]. Qed.
(** The orientation error rotates the current orientation to the desired one, is zero exactly if they agree, and is at most half a turn. *)
Theorem C37_orientation_error : forall d c, unitq d -> unitq c ->
  (Rabs (qw c * qw d + qx c * qx d + qy c * qy d + qz c * qz d) <= 99 / 100 -> same_rotation (hamilton (exponentialMap (orientationError d c)) c) d) /\
  (orientationError d c = v0 <-> same_rotation d c) /\ length3 (orientationError d c) <= PI.
Proof.
  intros d c Ud Uc. split; [|split].
  - intros H. rewrite <- qmul_hamilton. now apply error_rotates.
  - now apply error_zero.
  - rewrite error_is by assumption. apply log_short. destruct (Rlt_dec _ _); [apply neg_unit|]; now apply delta_unit.
Qed.
(** toAngularVelocity is the angular velocity of the moving rotation, in world and in body coordinates. *)
Theorem C37_angular_velocity : forall r y, 1 / 100 <= length3 r <= PI ->
  velocity_at (fun t => rotation_of (vadd r (vscale t y))) (toAngularVelocity r y false) /\ body_velocity_at (fun t => rotation_of (vadd r (vscale t y))) (toAngularVelocity r y true).
Proof. intros r y (H1 & H2). split; [now apply to_world|now apply to_body]. Qed.
(** fromAngularVelocity inverts it; the inverse always exists up to half a turn, the small angle branch included. *)
Theorem C37_from_to : forall r y body, length3 r <= PI -> fromAngularVelocity r (toAngularVelocity r y body) body = Some y.
Proof. intros. now apply from_to. Qed.
(** Integrating the required angular velocity reaches the desired orientation. *)
Theorem C37_round_trip : forall d c dt body, unitq d -> unitq c -> dt <> 0 ->
  Rabs (qw c * qw d + qx c * qx d + qy c * qy d + qz c * qz d) <= 99 / 100 -> qw c <> 0 \/ 0 <= qw c * qw d + qx c * qx d + qy c * qy d + qz c * qz d ->
  exists q, integrateAngularVelocity c (requiredAngularVelocity d c dt body) dt body = Some q /\ same_rotation q d.
Proof. intros. now apply round_trip. Qed.
(** Integration keeps the norm of the quaternion, for all inputs for which it is defined, and is defined for unit quaternions. *)
Theorem C37_integration_norm : forall c w dt body, (forall q, integrateAngularVelocity c w dt body = Some q -> norm2 q = norm2 c) /\ (unitq c -> integrateAngularVelocity c w dt body <> None).
Proof.
  intros c w dt body. split.
  - intros q H. unfold integrateAngularVelocity in H. destruct (fromAngularVelocity _ w body) as [rate|]; [|discriminate]. injection H as <-. rewrite norm2_mul. destruct (exp_unit (vscale dt rate)) as (U & _). rewrite U. ring.
  - intros U. unfold integrateAngularVelocity, fromAngularVelocity. rewrite (normalize_id c U), (log_positive c U). pose proof (jac_regular _ (log_short c U)) as D.
    unfold inv3. destruct (Req_EM_T _ 0) as [E|_]; [now rewrite E in D|discriminate].
Qed.
Print Assumptions C37_skew.
Print Assumptions C37_quaternion_matrices.
Print Assumptions C37_exp.
Print Assumptions C37_log_exp.
Print Assumptions C37_exp_log.
Print Assumptions C37_log_projective.
Print Assumptions C37_orientation_error.
Print Assumptions C37_angular_velocity.
Print Assumptions C37_from_to.
Print Assumptions C37_round_trip.
Print Assumptions C37_integration_norm.

(** ** Non-vacuity *)
Definition hc := Q4 0 1 0 0.     (* half a turn about x *)
Lemma hc_unit : unitq hc. Proof. unfold hc. vu. ring. Qed.
Lemma len_x : forall a, 0 <= a -> vlen (V3 a 0 0) = a /\ vlen (V3 (- a) 0 0) = a /\ vlen (V3 0 a 0) = a /\ vlen (V3 0 (- a) 0) = a /\ vlen (V3 0 0 a) = a /\ vlen (V3 0 0 (- a)) = a.
Proof. intros a H. unfold vlen. repeat split; replace (vdot _ _) with (a * a) by (vu; ring); now apply sqrt_square. Qed.
Example C37_example : length3 (V3 (PI / 2) 0 0) = PI / 2 /\ 1 / 100 <= PI / 2 <= PI /\ 1 / 100 <= 1 - cos (PI / 2 / 2) /\ exponentialMap (V3 (PI / 2) 0 0) = Q4 (cos (PI / 4)) (sin (PI / 4)) 0 0.
Proof.
  pose proof PI_RGT_0 as P. pose proof PI2_1 as P2. assert (L : vlen (V3 (PI / 2) 0 0) = PI / 2) by (apply len_x; lra). split; [exact L|]. split; [lra|]. split.
  - replace (PI / 2 / 2) with (PI / 4) by field. pose proof (sc1 (PI / 4)) as X. pose proof sin_cos_PI4 as Y. rewrite Y in X. assert (0 <= cos (PI / 4)) by (apply cos_ge_0; lra). nra.
  - rewrite (proj2 (proj2 (proj2 (C37_exp _)))) by (change (length3 (V3 (PI / 2) 0 0)) with (vlen (V3 (PI / 2) 0 0)); rewrite L; lra). unfold rotation_of. change (length3 (V3 (PI / 2) 0 0)) with (vlen (V3 (PI / 2) 0 0)). rewrite L. cbn [vx vy vz].
    replace (PI / 2 / 2) with (PI / 4) by field. apply quat_ext; cbn [qw qx qy qz]; try reflexivity; field; lra.
Qed.

(** ** What goes wrong *)
(** The small angle branch is not the logarithm. *)
Theorem C37_small_angle_refuted : exists r, length3 r <= PI /\ logarithmicMap (exponentialMap r) <> r.
Proof.
  pose proof PI2_1 as P2. assert (L : vlen (V3 (1 / 10) 0 0) = 1 / 10) by (apply len_x; lra).
  exists (V3 (1 / 10) 0 0). split; [change (length3 (V3 (1 / 10) 0 0)) with (vlen (V3 (1 / 10) 0 0)); lra|]. rewrite exp_short by (rewrite L; lra). rewrite log_unit.
  - change (qw (raw (V3 (1 / 10) 0 0))) with (cos (vlen (V3 (1 / 10) 0 0) / 2)). rewrite L. destruct (Rlt_dec _ _) as [_|C].
    + intros E. apply (f_equal vx) in E. unfold raw in E. rewrite L in E. replace (/ 2 * (1 / 10)) with (1 / 20) in E by lra. cbn [vscale qvec qmk qx vx] in E. pose proof (sin_lt_x (1 / 20) ltac:(lra)).
      assert (sin (1 / 20) = 1 / 20) by (field_simplify in E; lra). lra.
    + exfalso. apply C. pose proof (one_minus_cos (1 / 10 / 2)). pose proof (COS_bound (1 / 10 / 2)). rewrite Rabs_pos_eq; lra.
  - apply raw_unit. lra.
  - unfold raw. cbn [qmk qw]. rewrite L. apply cos_ge_0; lra.
Qed.
(** Beyond half a turn log does not invert exp, for every vector. *)
Theorem C37_long_vector_refuted : forall r, PI < length3 r -> logarithmicMap (exponentialMap r) <> r.
Proof. intros r H E. pose proof (log_short _ (proj1 (exp_unit r))) as X. rewrite E in X. change (length3 r) with (vlen r) in H. lra. Qed.
(** ... and toAngularVelocity returns the opposite of the angular velocity. *)
Theorem C37_long_velocity_refuted : forall r y, PI < length3 r < 3 * PI -> velocity_at (fun t => rotation_of (vadd r (vscale t y))) (vscale (-1) (toAngularVelocity r y false)).
Proof.
  intros r y H. change (length3 r) with (vlen r) in H. pose proof PI_RGT_0 as PP. pose proof PI2_1 as P2. assert (P : 0 < vlen r) by lra.
  assert (EX : exponentialMap r = qneg (raw r)).
  { destruct (exp_cases r) as [(C & _)|(_ & ->)]; [lra|]. unfold qpositive. destruct (Rlt_dec (qw (raw r)) 0) as [_|C]; [qext; ring|]. exfalso. apply C. unfold raw. cbn [qmk qw]. apply cos_lt_0; lra. }
  assert (J : forall i j, (i < 3)%nat -> (j < 3)%nat -> jacobianAngular r i j = abg (- ja (sin (vlen r / 2)) (cos (vlen r / 2)) (vlen r)) (- jb (sin (vlen r / 2)) (cos (vlen r / 2)) (vlen r)) (- jg (sin (vlen r / 2)) (vlen r)) r i j).
  { intros i j Hi Hj. unfold jacobianAngular. rewrite EX. unfold jacobianQuaternion. destruct (Rlt_dec (vlen r) (1 / 100)); [lra|].
    unfold raw. replace (/ 2 * vlen r) with (vlen r / 2) by lra. set (s := sin (vlen r / 2)). set (c := cos (vlen r / 2)). set (th := vlen r) in *. unfold abg, ja, jb, jg.
    destruct i as [|[|[|i]]]; [| | |lia]; (destruct j as [|[|[|j]]]; [| | |lia]); cbn [rsum toQuaternionMatrix skewMatrix qvec qmk qneg vget3 Nat.eqb vscale vx vy vz qw qx qy qz]; field; lra. }
  unfold velocity_at. cbv zeta. set (w := vscale (-1) (toAngularVelocity r y false)).
  replace (Q4 0 (vx w / 2) (vy w / 2) (vz w / 2)) with (Q4 0 (vx (wdot r y 1)) (vy (wdot r y 1)) (vz (wdot r y 1))).
  - change (vadd r (vscale 0 y)) with (move r y 0). rewrite (dq_world r y P). apply (components r y P).
  - unfold w, toAngularVelocity. rewrite (mulv_ext _ _ y J), abg_mulv. unfold wdot. apply quat_ext; vu; field; lra.
Qed.
Lemma log_half : logarithmicMap hc = V3 PI 0 0 /\ logarithmicMap (qneg hc) = V3 (- PI) 0 0.
Proof.
  assert (W : qw hc = 0) by reflexivity. assert (A : Rabs (1 - 0) = 1) by (rewrite Rabs_pos_eq; lra). split.
  - rewrite log_unit; [|apply hc_unit|cbn; lra]. rewrite W, A, acos_0, sin_PI2. destruct (Rlt_dec 1 (1 / 100)); [lra|]. unfold hc. vext; field.
  - rewrite log_unit; [|apply neg_unit, hc_unit|cbn; lra]. replace (qw (qneg hc)) with 0 by (cbn; ring). rewrite A, acos_0, sin_PI2. destruct (Rlt_dec 1 (1 / 100)); [lra|]. unfold hc. vext; field.
Qed.
Lemma to_half : forall sg y, sg = 1 \/ sg = -1 -> toAngularVelocity (V3 (sg * PI) 0 0) y false = V3 (vx y) (- (sg * (2 / PI)) * vz y) (sg * (2 / PI) * vy y).
Proof.
  intros sg y H. pose proof PI_RGT_0 as PP. pose proof PI2_1 as P2. assert (L : vlen (V3 (sg * PI) 0 0) = PI).
  { unfold vlen. replace (vdot _ _) with (PI * PI) by (destruct H as [->| ->]; vu; ring). apply sqrt_square. lra. }
  unfold toAngularVelocity. rewrite (mulv_ext _ _ y (jac_large (V3 (sg * PI) 0 0) ltac:(rewrite L; lra) ltac:(rewrite L; lra))), abg_mulv, L, sin_PI2, cos_PI2. unfold ja, jb, jg.
  destruct H as [->| ->]; vext; field; lra.
Qed.
(** integrateAngularVelocity does not integrate the angular velocity: half a turn about x, then a velocity about y, turns about z. *)
Theorem C37_integration_refuted : exists c w dt q, unitq c /\ integrateAngularVelocity c w dt false = Some q /\ ~ same_rotation q (hamilton (rotation_of (vscale dt w)) c).
Proof.
  pose proof PI_RGT_0 as PP. pose proof PI2_1 as P2. exists hc, (V3 0 1 0), 1, (qmul (exponentialMap (V3 0 0 (- (PI / 2)))) hc). split; [apply hc_unit|]. destruct log_half as (LH & _). split.
  - unfold integrateAngularVelocity. rewrite (normalize_id _ hc_unit), qpositive_id, LH by (cbn; lra).
    replace (V3 0 1 0) with (toAngularVelocity (V3 PI 0 0) (V3 0 0 (- (PI / 2))) false).
    + rewrite from_to by (rewrite (proj1 (len_x PI (Rlt_le _ _ PP))); lra). do 3 f_equal. vext; ring.
    + replace PI with (1 * PI) at 1 by ring. rewrite to_half by auto. vext; field; lra.
  - assert (E : exponentialMap (V3 0 0 (- (PI / 2))) = Q4 (cos (PI / 4)) 0 0 (- sin (PI / 4))).
    { assert (L : vlen (V3 0 0 (- (PI / 2))) = PI / 2) by (apply len_x; lra). rewrite exp_short by (rewrite L; lra). unfold raw. rewrite L. replace (PI / 2 / 2) with (PI / 4) by field. replace (/ 2 * (PI / 2)) with (PI / 4) by field.
      apply quat_ext; vu; try reflexivity; field; lra. }
    assert (S : 0 < sin (PI / 4)) by (apply sin_gt_0; lra). rewrite E. intros [X|X]; apply (f_equal qy) in X; unfold rotation_of in X; set (k := sin _ / _) in X; unfold hc in X; vu; lra.
Qed.
(** At exactly half a turn the round trip can miss: the two functions disagree about the sign of the current rotation vector. *)
Theorem C37_round_trip_refuted : exists d c dt q, unitq d /\ unitq c /\ dt <> 0 /\ Rabs (qdot c d) <= 99 / 100 /\
  integrateAngularVelocity c (requiredAngularVelocity d c dt false) dt false = Some q /\ ~ same_rotation q d.
Proof.
  pose proof PI_RGT_0 as PP. pose proof PI2_1 as P2. set (s := cos (PI / 4)). assert (S0 : 0 < s) by (apply cos_gt_0; lra). assert (SC : sin (PI / 4) = s) by apply sin_cos_PI4.
  assert (SS : 2 * (s * s) = 1) by (pose proof (sc1 (PI / 4)) as X; fold s in X; rewrite SC in X; lra).
  set (d := Q4 0 (- s) 0 s). assert (Ud : unitq d) by (unfold d; vu; lra). exists d, hc, 1, (qmul (exponentialMap (V3 0 (- (PI / 2)) 0)) hc). split; [exact Ud|]. split; [apply hc_unit|]. split; [lra|].
  assert (DOT : qdot hc d = - s) by (unfold hc, d; vu; ring). split; [rewrite DOT, Rabs_Ropp, Rabs_pos_eq by lra; nra|].
  destruct log_half as (LH & LN). split.
  - assert (ER : orientationError d hc = V3 0 (PI / 2) 0).
    { rewrite error_is by (try apply hc_unit; exact Ud). rewrite DOT. destruct (Rlt_dec (- s) 0); [|lra]. replace (qneg (delta d hc)) with (Q4 s 0 s 0) by (unfold delta, d, hc; qext; ring).
      rewrite log_unit; [|vu; lra|cbn; lra]. cbn [qw]. destruct (Rlt_dec (Rabs (1 - s)) (1 / 100)) as [C|_]; [exfalso; rewrite Rabs_pos_eq in C; nra|].
      replace (acos s) with (PI / 4) by (symmetry; apply acos_cos; lra). rewrite SC. vext; try ring. field. lra. }
    assert (RQ : requiredAngularVelocity d hc 1 false = V3 0 0 (-1)).
    { unfold requiredAngularVelocity. unfold orientationError in ER. rewrite aligned_unit in * by (try apply hc_unit; exact Ud). rewrite DOT in *. destruct (Rlt_dec (- s) 0); [|lra]. rewrite ER, LN.
      replace (- PI) with (-1 * PI) by ring. rewrite to_half by auto. vext; field; lra. }
    rewrite RQ. unfold integrateAngularVelocity. rewrite (normalize_id _ hc_unit), qpositive_id, LH by (cbn; lra).
    replace (V3 0 0 (-1)) with (toAngularVelocity (V3 PI 0 0) (V3 0 (- (PI / 2)) 0) false).
    + rewrite from_to by (rewrite (proj1 (len_x PI (Rlt_le _ _ PP))); lra). do 3 f_equal. vext; ring.
    + replace PI with (1 * PI) at 1 by ring. rewrite to_half by auto. vext; field; lra.
  - assert (E : exponentialMap (V3 0 (- (PI / 2)) 0) = Q4 s 0 (- s) 0).
    { assert (L : vlen (V3 0 (- (PI / 2)) 0) = PI / 2) by (apply len_x; lra). rewrite exp_short by (rewrite L; lra). unfold raw. rewrite L. replace (PI / 2 / 2) with (PI / 4) by field. replace (/ 2 * (PI / 2)) with (PI / 4) by field. rewrite SC. fold s.
      apply quat_ext; vu; try reflexivity; field; lra. }
    rewrite E. intros [X|X]; [apply (f_equal qx) in X|apply (f_equal qz) in X]; unfold hc, d in X; vu; lra.
Qed.
Print Assumptions C37_small_angle_refuted.
Print Assumptions C37_long_vector_refuted.
Print Assumptions C37_long_velocity_refuted.
Print Assumptions C37_integration_refuted.
Print Assumptions C37_round_trip_refuted.

(** * Proofs: orientation utilities *)
From Coq Require Import Reals Arith Lia Lra Psatz Bool.
From Verif Require Import Base BaseProofs Vec3 OriModel OriSpec.
Local Open Scope R_scope.

Ltac vu := unfold hamilton, unitq, norm2, qneg, qscale, qdot, qmul, qmk, qvec in *; unfold vdot, vcross, vsub, vadd, vscale, v0 in *; cbn [vx vy vz qw qx qy qz vget3] in *.
Lemma vec_ext : forall a b, vx a = vx b -> vy a = vy b -> vz a = vz b -> a = b.
Proof. intros [] []; cbn; intros; subst; reflexivity. Qed.
Lemma quat_ext : forall a b, qw a = qw b -> qx a = qx b -> qy a = qy b -> qz a = qz b -> a = b.
Proof. intros [] []; cbn; intros; subst; reflexivity. Qed.
Ltac vext := apply vec_ext; vu. Ltac qext := apply quat_ext; vu.

Lemma skew_cross : forall v w, mulv (skewMatrix v) w = vcross v w.
Proof. intros. unfold mulv, skewMatrix. vext; ring. Qed.
Lemma qmul_hamilton : forall a b, qmul a b = hamilton a b.
Proof. intros. qext; ring. Qed.
Lemma qmatrix_left : forall q p, applies (toQuaternionMatrix q false) p (hamilton q p).
Proof. intros q p i Hi. destruct i as [|[|[|[|i]]]]; try lia; cbn [rsum toQuaternionMatrix skewMatrix comp qvec vget3 Nat.eqb]; vu; ring. Qed.
Lemma qmatrix_right : forall q p, applies (toQuaternionMatrix q true) p (hamilton p q).
Proof. intros q p i Hi. destruct i as [|[|[|[|i]]]]; try lia; cbn [rsum toQuaternionMatrix skewMatrix comp qvec vget3 Nat.eqb]; vu; ring. Qed.

(** ** Quaternion algebra *)
Lemma norm2_mul : forall a b, norm2 (qmul a b) = norm2 a * norm2 b.
Proof. intros. vu. ring. Qed.
Lemma norm2_pos : forall q, 0 <= norm2 q.
Proof. intros. vu. nra. Qed.
Lemma norm2_qpositive : forall q, norm2 (qpositive q) = norm2 q.
Proof. intros. unfold qpositive. destruct (Rlt_dec (qw q) 0); vu; ring. Qed.
Lemma qpositive_w : forall q, 0 <= qw (qpositive q).
Proof. intros. unfold qpositive. destruct (Rlt_dec (qw q) 0); vu; lra. Qed.
Lemma qpositive_same : forall q, same_rotation (qpositive q) q.
Proof. intros. unfold qpositive. destruct (Rlt_dec (qw q) 0); [right; qext; ring|now left]. Qed.
Lemma qpositive_id : forall q, 0 <= qw q -> qpositive q = q.
Proof. intros. unfold qpositive. destruct (Rlt_dec (qw q) 0); [lra|reflexivity]. Qed.
Lemma normalize_id : forall q, unitq q -> qnormalize q = q.
Proof. intros q H. unfold qnormalize. change (qdot q q) with (norm2 q). rewrite H. destruct (Rlt_dec 0 1); [|lra]. rewrite sqrt_1, Rinv_1. qext; ring. Qed.
Lemma normalize_unit : forall q, norm2 q <> 0 -> unitq (qnormalize q) /\ exists k, 0 < k /\ qnormalize q = qscale k q.
Proof.
  intros q H. pose proof (norm2_pos q). assert (P : 0 < norm2 q) by lra. unfold qnormalize. change (qdot q q) with (norm2 q). destruct (Rlt_dec 0 (norm2 q)); [|lra].
  pose proof (sqrt_lt_R0 _ P). pose proof (sqrt_sqrt (norm2 q) (Rlt_le _ _ P)) as SS. split; [|exists (/ sqrt (norm2 q)); split; [now apply Rinv_0_lt_compat|reflexivity]].
  unfold unitq. replace (norm2 (qscale (/ sqrt (norm2 q)) q)) with (/ sqrt (norm2 q) * / sqrt (norm2 q) * norm2 q) by (vu; ring). rewrite <- SS at 3. field. lra.
Qed.
Lemma unit_w : forall q, unitq q -> -1 <= qw q <= 1.
Proof. intros q H. vu. nra. Qed.

(** ** Lengths *)
Lemma vlen_length3 : forall r, length3 r = vlen r.
Proof. reflexivity. Qed.
Lemma vlen_sq : forall r, vlen r * vlen r = vdot r r.
Proof. intros. apply sqrt_sqrt. vu. nra. Qed.
Lemma vlen_nonneg : forall r, 0 <= vlen r.
Proof. intros. apply sqrt_pos. Qed.
Lemma vlen_scale : forall k r, 0 <= k -> vlen (vscale k r) = k * vlen r.
Proof. intros k r H. unfold vlen. replace (vdot (vscale k r) (vscale k r)) with (Rsqr k * vdot r r) by (unfold Rsqr; vu; ring). rewrite sqrt_mult_alt by apply Rle_0_sqr. now rewrite sqrt_Rsqr. Qed.

(** ** Trigonometric bounds *)
Lemma one_minus_cos : forall x, 1 - cos x <= x * x / 2.
Proof.
  intros x. replace (cos x) with (cos (2 * (x / 2))) by (f_equal; field). rewrite cos_2a_sin.
  assert (S : Rabs (sin (x / 2)) <= Rabs (x / 2)).
  { destruct (Rtotal_order 0 (x / 2)) as [L|[E|L]].
    - rewrite (Rabs_pos_eq (x / 2)) by lra. destruct (Rle_dec (x / 2) PI) as [B|B].
      + rewrite Rabs_pos_eq by (apply sin_ge_0; lra). left. now apply sin_lt_x.
      + apply Rle_trans with 1; [apply Rabs_le, SIN_bound|]. pose proof PI2_1. lra.
    - rewrite <- E, sin_0. lra.
    - rewrite <- (Rabs_Ropp (x / 2)), <- Rabs_Ropp, <- sin_neg. rewrite (Rabs_pos_eq (- (x / 2))) by lra. destruct (Rle_dec (- (x / 2)) PI) as [B|B].
      + rewrite Rabs_pos_eq by (apply sin_ge_0; lra). left. apply sin_lt_x. lra.
      + apply Rle_trans with 1; [apply Rabs_le, SIN_bound|]. pose proof PI2_1. lra. }
  apply Rsqr_le_abs_1 in S. unfold Rsqr in S. nra.
Qed.
Lemma sin_ge_xcos : forall x, 0 <= x -> x <= PI / 2 -> x * cos x <= sin x.
Proof.
  intros x H0 H1. pose proof PI_4. pose proof (sin_bound x 0 H0 ltac:(pose proof PI_RGT_0; lra)) as (A & _). pose proof (cos_bound x 0 ltac:(pose proof PI_RGT_0; lra) ltac:(lra)) as (_ & B).
  unfold sin_approx, cos_approx, sin_term, cos_term in *. cbn in A, B.
  assert (A' : x - x * (x * x) / 6 <= sin x) by lra.
  assert (B' : cos x <= 1 - x * x / 2 + x * x * (x * x) / 24) by lra.
  assert (x * cos x <= x * (1 - x * x / 2 + x * x * (x * x) / 24)) by (apply Rmult_le_compat_l; lra).
  assert (0 <= x * (x * x)) by (apply Rmult_le_pos; nra). assert (x * x <= 8) by nra.
  assert (x * (x * x) * (x * x) <= x * (x * x) * 8) by (apply Rmult_le_compat_l; assumption). nra.
Qed.

(** ** The exponential map *)
Definition raw (r : vec3) : quat := qmk (cos (vlen r / 2)) (vscale (sin (/ 2 * vlen r)) (vscale (/ vlen r) r)).
Lemma raw_is : forall r, raw r = rotation_of r.
Proof. intros. unfold raw, rotation_of. change (length3 r) with (vlen r). replace (/ 2 * vlen r) with (vlen r / 2) by lra. qext; unfold Rdiv; ring. Qed.
Lemma raw_unit : forall r, 0 < vlen r -> unitq (raw r).
Proof.
  intros r H. unfold unitq. transitivity (cos (vlen r / 2) * cos (vlen r / 2) + sin (/ 2 * vlen r) * sin (/ 2 * vlen r) * (/ vlen r * / vlen r * vdot r r)); [unfold raw; vu; ring|].
  rewrite <- vlen_sq. replace (/ vlen r * / vlen r * (vlen r * vlen r)) with 1 by (field; lra). replace (/ 2 * vlen r) with (vlen r / 2) by lra. pose proof (sin2_cos2 (vlen r / 2)) as X. unfold Rsqr in X. lra.
Qed.
Definition small (r : vec3) : quat := Q4 1 (/ 2 * vx r) (/ 2 * vy r) (/ 2 * vz r).
Lemma small_norm : forall r, norm2 (small r) = 1 + vlen r * vlen r / 4.
Proof. intros. rewrite vlen_sq. unfold small. vu. field. Qed.
Lemma exp_cases : forall r, (vlen r < 1 / 100 /\ exponentialMap r = qnormalize (small r)) \/ (1 / 100 <= vlen r /\ exponentialMap r = qpositive (raw r)).
Proof.
  intros r. unfold exponentialMap. destruct (Rlt_dec (vlen r) (1 / 100)) as [L|L].
  - left. split; [exact L|]. fold (small r). apply qpositive_id. assert (N : norm2 (small r) <> 0) by (rewrite small_norm; nra). destruct (normalize_unit _ N) as (_ & k & Hk & ->). unfold small. vu. lra.
  - right. split; [lra|]. fold (raw r). rewrite normalize_id; [reflexivity|]. apply raw_unit. lra.
Qed.
Lemma exp_unit : forall r, unitq (exponentialMap r) /\ 0 <= qw (exponentialMap r).
Proof.
  intros r. destruct (exp_cases r) as [(L & ->)|(L & ->)].
  - assert (N : norm2 (small r) <> 0) by (rewrite small_norm; nra). destruct (normalize_unit _ N) as (U & k & Hk & E). split; [exact U|]. rewrite E. unfold small. vu. lra.
  - split; [|apply qpositive_w]. unfold unitq. rewrite norm2_qpositive. apply raw_unit. lra.
Qed.
Lemma exp_short : forall r, 1 / 100 <= vlen r -> vlen r <= PI -> exponentialMap r = raw r.
Proof. intros r H1 H2. destruct (exp_cases r) as [(L & _)|(_ & ->)]; [lra|]. apply qpositive_id. unfold raw. vu. apply cos_ge_0; pose proof PI_RGT_0; lra. Qed.
Lemma exp_rotation : forall r, 1 / 100 <= vlen r -> same_rotation (exponentialMap r) (rotation_of r).
Proof. intros r H. destruct (exp_cases r) as [(L & _)|(_ & ->)]; [lra|]. rewrite <- raw_is. apply qpositive_same. Qed.

(** ** The logarithm *)
Lemma log_unit : forall q, unitq q -> 0 <= qw q -> logarithmicMap q = if Rlt_dec (Rabs (1 - qw q)) (1 / 100) then vscale 2 (qvec q) else vscale (2 * acos (qw q) / sin (acos (qw q))) (qvec q).
Proof. intros q U W. unfold logarithmicMap. rewrite normalize_id, qpositive_id by assumption. destruct (Rlt_dec _ _); [reflexivity|]. replace (/ 2 * (2 * acos (qw q))) with (acos (qw q)) by field. reflexivity. Qed.
Lemma log_exp_exact : forall r, vlen r <= PI -> 1 / 100 <= 1 - cos (vlen r / 2) -> logarithmicMap (exponentialMap r) = r.
Proof.
  intros r H1 H2. assert (L : 1 / 100 <= vlen r). { pose proof (one_minus_cos (vlen r / 2)). pose proof (vlen_nonneg r). nra. }
  rewrite exp_short by assumption. assert (U : unitq (raw r)) by (apply raw_unit; lra). assert (W : 0 <= qw (raw r)) by (unfold raw; vu; apply cos_ge_0; pose proof PI_RGT_0; lra).
  rewrite log_unit by assumption. replace (qw (raw r)) with (cos (vlen r / 2)) by reflexivity.
  destruct (Rlt_dec (Rabs (1 - cos (vlen r / 2))) (1 / 100)) as [C|_]; [rewrite Rabs_pos_eq in C by lra; lra|].
  rewrite acos_cos by (pose proof PI_RGT_0; lra). assert (S : 0 < sin (vlen r / 2)) by (apply sin_gt_0; pose proof PI_RGT_0; lra).
  unfold raw. replace (/ 2 * vlen r) with (vlen r / 2) by lra. vext; field; lra.
Qed.
(** For all rotation vectors up to half a turn the result is parallel and at most one percent short. *)
Lemma log_exp_approx : forall r, vlen r <= PI -> exists k, 99 / 100 < k <= 1 /\ logarithmicMap (exponentialMap r) = vscale k r.
Proof.
  intros r H. destruct (Rle_dec (1 / 100) (1 - cos (vlen r / 2))) as [E|E].
  - exists 1. split; [lra|]. rewrite log_exp_exact by assumption. vext; ring.
  - destruct (Rle_dec (1 / 100) (vlen r)) as [L|L].
    + rewrite exp_short by assumption. assert (U : unitq (raw r)) by (apply raw_unit; lra). assert (W : 0 <= qw (raw r)) by (unfold raw; vu; apply cos_ge_0; pose proof PI_RGT_0; lra).
      rewrite log_unit by assumption. change (qw (raw r)) with (cos (vlen r / 2)). destruct (Rlt_dec (Rabs (1 - cos (vlen r / 2))) (1 / 100)) as [_|C].
      2:{ exfalso. apply C. rewrite Rabs_pos_eq; [lra|]. pose proof (COS_bound (vlen r / 2)). lra. }
      set (x := vlen r / 2) in *. assert (Px : 0 < x) by (unfold x; lra). assert (X2 : x <= PI / 2) by (unfold x; lra).
      exists (sin x / x). split; [split|].
      * apply Rmult_lt_reg_r with x; [exact Px|]. pose proof (sin_ge_xcos x ltac:(lra) X2). replace (sin x / x * x) with (sin x) by (field; lra). nra.
      * apply Rmult_le_reg_r with x; [exact Px|]. replace (sin x / x * x) with (sin x) by (field; lra). pose proof (sin_lt_x x Px). lra.
      * unfold raw. replace (/ 2 * vlen r) with x by (unfold x; lra). replace (vlen r) with (2 * x) by (unfold x; lra). vext; field; lra.
    + assert (L' : vlen r < 1 / 100) by lra. pose proof (vlen_nonneg r). destruct (exp_cases r) as [(_ & Ex)|(C & _)]; [|lra].
      assert (N : norm2 (small r) <> 0) by (rewrite small_norm; nra). destruct (normalize_unit _ N) as (U & k & Hk & E1). pose proof (exp_unit r) as (U' & W').
      rewrite log_unit by assumption. rewrite Ex, E1.
      assert (K : k * k * norm2 (small r) = 1). { rewrite E1 in U. unfold unitq in U. rewrite <- U. vu. ring. } rewrite small_norm in K.
      assert (K1 : k <= 1) by nra. assert (K2 : 99 / 100 < k). { destruct (Rlt_dec (99 / 100) k); [assumption|]. exfalso. assert (k * k <= 9801 / 10000) by nra. assert (vlen r * vlen r <= 1 / 10000) by nra. nra. }
      exists k. split; [lra|]. replace (qw (qscale k (small r))) with k by (unfold small; vu; ring). destruct (Rlt_dec (Rabs (1 - k)) (1 / 100)) as [_|C]; [|exfalso; apply C; rewrite Rabs_pos_eq; lra].
      unfold small. vext; field.
Qed.
Lemma log_scale : forall q k, 0 < k -> norm2 q <> 0 -> logarithmicMap (qscale k q) = logarithmicMap q.
Proof.
  intros q k Hk H. unfold logarithmicMap. replace (qnormalize (qscale k q)) with (qnormalize q); [reflexivity|].
  pose proof (norm2_pos q). unfold qnormalize. change (qdot q q) with (norm2 q). replace (qdot (qscale k q) (qscale k q)) with (Rsqr k * norm2 q) by (unfold Rsqr; vu; ring).
  rewrite sqrt_mult_alt by apply Rle_0_sqr. rewrite sqrt_Rsqr by lra. destruct (Rlt_dec 0 (norm2 q)); [|lra]. destruct (Rlt_dec 0 (Rsqr k * norm2 q)) as [|C]; [|exfalso; apply C; apply Rmult_lt_0_compat; [apply Rlt_0_sqr; lra|assumption]].
  pose proof (sqrt_lt_R0 _ r). qext; field; lra.
Qed.
Lemma normalize_neg : forall q, qnormalize (qneg q) = qneg (qnormalize q).
Proof. intros. unfold qnormalize. replace (qdot (qneg q) (qneg q)) with (qdot q q) by (vu; ring). destruct (Rlt_dec 0 (qdot q q)); [qext; ring|reflexivity]. Qed.
Lemma qpositive_neg : forall q, qw q <> 0 -> qpositive (qneg q) = qpositive q.
Proof. intros q H. unfold qpositive. destruct (Rlt_dec (qw q) 0), (Rlt_dec (qw (qneg q)) 0); vu; try lra; apply quat_ext; vu; ring. Qed.
Lemma exp_log : forall q, unitq q -> Rabs (qw q) <= 99 / 100 -> exponentialMap (logarithmicMap q) = qpositive q.
Proof.
  intros q0 U0 W0. set (q := qpositive q0). assert (U : unitq q) by (unfold unitq, q; rewrite norm2_qpositive; exact U0). pose proof (qpositive_w q0) as W. fold q in W.
  assert (EL : logarithmicMap q0 = logarithmicMap q). { unfold logarithmicMap. rewrite (normalize_id q0 U0), (normalize_id q U). fold q. now rewrite (qpositive_id q W). }
  assert (W1 : qw q <= 99 / 100). { unfold q, qpositive. destruct (Rlt_dec (qw q0) 0); vu; [rewrite Rabs_left in W0 by assumption|rewrite Rabs_pos_eq in W0 by lra]; lra. }
  rewrite EL, log_unit by assumption. destruct (Rlt_dec (Rabs (1 - qw q)) (1 / 100)) as [C|_]; [rewrite Rabs_pos_eq in C by lra; lra|].
  set (a := acos (qw q)). assert (Ca : cos a = qw q) by (apply cos_acos; lra). assert (Ba : 0 <= a <= PI) by apply acos_bound.
  assert (La : 1 / 100 <= 2 * a). { pose proof (one_minus_cos a). rewrite Ca in H. nra. }
  assert (Ha : a <= PI / 2). { destruct (Rle_dec a (PI / 2)); [assumption|]. exfalso. pose proof (cos_lt_0 a ltac:(lra) ltac:(pose proof PI_RGT_0; lra)). lra. }
  assert (Sa : 0 < sin a) by (apply sin_gt_0; pose proof PI_RGT_0; lra).
  assert (Sv : vdot (qvec q) (qvec q) = sin a * sin a). { pose proof (sin2_cos2 a) as X. unfold Rsqr in X. rewrite Ca in X. unfold unitq in U. vu. lra. }
  assert (Lv : vlen (qvec q) = sin a). { unfold vlen. rewrite Sv. apply sqrt_square. lra. }
  assert (Ll : vlen (vscale (2 * a / sin a) (qvec q)) = 2 * a). { rewrite vlen_scale, Lv by (apply Rmult_le_pos; [lra|left; now apply Rinv_0_lt_compat]). field. lra. }
  rewrite exp_short by (rewrite Ll; lra). unfold raw. rewrite Ll. replace (2 * a / 2) with a by field. replace (/ 2 * (2 * a)) with a by field. rewrite Ca. qext; try (field; lra).
Qed.
Lemma log_short : forall q, unitq q -> vlen (logarithmicMap q) <= PI.
Proof.
  intros q0 U0. set (q := qpositive q0). assert (U : unitq q) by (unfold unitq, q; rewrite norm2_qpositive; exact U0). pose proof (qpositive_w q0) as W. fold q in W.
  assert (EL : logarithmicMap q0 = logarithmicMap q). { unfold logarithmicMap. rewrite (normalize_id q0 U0), (normalize_id q U). fold q. now rewrite (qpositive_id q W). }
  rewrite EL, log_unit by assumption. pose proof (unit_w q U). pose proof PI2_1. destruct (Rlt_dec _ _) as [C|C].
  - rewrite vlen_scale by lra. assert (vlen (qvec q) <= 1). { unfold vlen. apply Rle_trans with (sqrt 1); [apply sqrt_le_1_alt|rewrite sqrt_1; lra]. unfold unitq in U. vu. nra. } lra.
  - set (a := acos (qw q)). assert (Ca : cos a = qw q) by (apply cos_acos; lra). assert (Ba : 0 <= a <= PI) by apply acos_bound.
    assert (W1 : qw q <= 99 / 100). { destruct (Rle_dec (qw q) (99 / 100)); [assumption|]. exfalso. apply C. rewrite Rabs_pos_eq; lra. }
    assert (La : 0 < a). { destruct Ba as ([|E] & _); [assumption|]. rewrite <- E, cos_0 in Ca. lra. }
    assert (Ha : a <= PI / 2). { destruct (Rle_dec a (PI / 2)); [assumption|]. exfalso. pose proof (cos_lt_0 a ltac:(lra) ltac:(pose proof PI_RGT_0; lra)). lra. }
    assert (Sa : 0 < sin a) by (apply sin_gt_0; pose proof PI_RGT_0; lra).
    assert (Sv : vdot (qvec q) (qvec q) = sin a * sin a). { pose proof (sin2_cos2 a) as X. unfold Rsqr in X. rewrite Ca in X. unfold unitq in U. vu. lra. }
    assert (Lv : vlen (qvec q) = sin a). { unfold vlen. rewrite Sv. apply sqrt_square. lra. }
    rewrite vlen_scale, Lv by (apply Rmult_le_pos; [lra|left; now apply Rinv_0_lt_compat]). replace (2 * a / sin a * sin a) with (2 * a) by (field; lra). lra.
Qed.

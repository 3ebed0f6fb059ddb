(** * C79: orientations in the LQR on the manifold *)
From Coq Require Import Reals List Arith Bool Lia Lra Psatz.
Import ListNotations.
From Verif Require Import Base BaseProofs IpModel LqrModel RicModel ManModel OriModel Vec3 OriSpec OriProofs LqrSpec ManSpec.
Local Open Scope R_scope.

Lemma product_hamilton a b : quaternion_product a b = hamilton a b.
Proof. unfold quaternion_product, qof, qv. vext || idtac. apply quat_ext; vu; ring. Qed.
Lemma ham_Q4 a b c d e f g h : hamilton (Q4 a b c d) (Q4 e f g h) = Q4 (a * e - (b * f + c * g + d * h)) (a * f + e * b + (c * h - d * g)) (a * g + e * c + (d * f - b * h)) (a * h + e * d + (b * g - c * f)).
Proof. reflexivity. Qed.
Lemma hamilton_norm a b : norm2 (hamilton a b) = norm2 a * norm2 b.
Proof. vu. ring. Qed.
(** ** The product is Hamilton's, lengths multiply; the matrix of a quaternion rotates, products of quaternions are products of matrices; for unit quaternions it is a rotation matrix. *)
Theorem C79_product a b : quaternion_product a b = hamilton a b /\ norm2 (quaternion_product a b) = norm2 a * norm2 b.
Proof. rewrite product_hamilton. split; [reflexivity|apply hamilton_norm]. Qed.
Lemma rot_entry q i j : (i < 3)%nat -> (j < 3)%nat -> quaternion_to_rotation q i j =
  rows_mat [[qw q * qw q + qx q * qx q - qy q * qy q - qz q * qz q; 2 * (qx q * qy q) - 2 * (qw q * qz q); 2 * (qx q * qz q) + 2 * (qw q * qy q)];
            [2 * (qx q * qy q) + 2 * (qw q * qz q); qw q * qw q - qx q * qx q + qy q * qy q - qz q * qz q; 2 * (qy q * qz q) - 2 * (qw q * qx q)];
            [2 * (qx q * qz q) - 2 * (qw q * qy q); 2 * (qy q * qz q) + 2 * (qw q * qx q); qw q * qw q - qx q * qx q - qy q * qy q + qz q * qz q]] i j.
Proof.
  intros Hi Hj. destruct i as [|[|[|i]]]; try lia; destruct j as [|[|[|j]]]; try lia; unfold quaternion_to_rotation, skew3, rows_mat, ident, qv; cbn [Nat.eqb nth]; vu; ring.
Qed.
Theorem C79_rotation_matrix q : (forall v, applied (quaternion_to_rotation q) v = rotated q v) /\
  (forall p i j, (i < 3)%nat -> (j < 3)%nat -> quaternion_to_rotation (quaternion_product p q) i j = sum 3 (fun k => quaternion_to_rotation p i k * quaternion_to_rotation q k j)) /\
  (unitq q -> det3 (quaternion_to_rotation q) = 1 /\
    forall i j, (i < 3)%nat -> (j < 3)%nat -> sum 3 (fun k => quaternion_to_rotation q k i * quaternion_to_rotation q k j) = if (i =? j)%nat then 1 else 0).
Proof.
  split; [|split].
  - intros v. unfold applied, rotated. rewrite !rot_entry by lia. unfold rows_mat. cbn [nth]. destruct q as [a b c d], v as [x y z]. cbn [vx vy vz qw qx qy qz]. rewrite !ham_Q4. cbn [qw qx qy qz]. apply vec_ext; cbn [vx vy vz]; ring.
  - intros p i j Hi Hj. rewrite product_hamilton. unfold sum. cbn [seq map fold_right]. rewrite !rot_entry by lia.
    destruct i as [|[|[|i]]]; try lia; destruct j as [|[|[|j]]]; try lia; unfold rows_mat; cbn [nth]; vu; ring.
  - intros U. assert (N2 : forall e, e = norm2 q * norm2 q -> e = 1) by (intros e ->; rewrite U; ring). assert (N3 : forall e, e = norm2 q * norm2 q * norm2 q -> e = 1) by (intros e ->; rewrite U; ring). clear U. split.
    + apply N3. unfold det3. rewrite !rot_entry by lia. unfold rows_mat. cbn [nth]. vu. ring.
    + intros i j Hi Hj. unfold sum. cbn [seq map fold_right]. rewrite !rot_entry by lia.
      destruct i as [|[|[|i]]]; try lia; destruct j as [|[|[|j]]]; try lia; unfold rows_mat; cbn [nth Nat.eqb]; try (apply N2; vu; ring); vu; ring.
Qed.
Print Assumptions C79_product.
Print Assumptions C79_rotation_matrix.

(** ** Integration: above the threshold it is the rotation by w applied before; below, the length changes by less than eps^2/12, downwards. *)
Lemma norm_is v : norm v = length3 v. Proof. reflexivity. Qed.
Lemma norm_scale k v : norm (vscale k v) = Rabs k * norm v.
Proof.
  unfold norm. replace (vdot (vscale k v) (vscale k v)) with (Rsqr k * vdot v v) by (unfold Rsqr; vu; ring). rewrite sqrt_mult_alt by apply Rle_0_sqr. now rewrite sqrt_Rsqr_abs.
Qed.
Lemma norm_half v : norm (vscale (/ 2) v) = length3 v / 2.
Proof. rewrite norm_scale, Rabs_pos_eq by lra. rewrite norm_is. field. Qed.
Lemma norm_sq v : norm v ^ 2 = vdot v v.
Proof. unfold norm. rewrite <- Rsqr_pow2. apply Rsqr_sqrt. vu. nra. Qed.
Lemma norm_nonneg v : 0 <= norm v. Proof. apply sqrt_pos. Qed.
Lemma length3_nonneg v : 0 <= length3 v. Proof. apply sqrt_pos. Qed.
Lemma exp_norm w : norm2 (exp_quaternion w) = if Rle_dec (norm w ^ 2) meps then 1 - norm w ^ 4 / 12 + norm w ^ 6 / 36 else 1.
Proof.
  unfold exp_quaternion. destruct (Rle_dec (norm w ^ 2) meps) as [L|L].
  - set (k := 1 - norm w ^ 2 / 6). set (c := 1 - norm w ^ 2 / 2). replace (norm2 (qof (vscale k w) c)) with (c * c + k * k * vdot w w) by (unfold qof; vu; ring).
    rewrite <- norm_sq. unfold c, k. field.
  - assert (Hn : norm w <> 0) by (intros E; apply L; rewrite E; unfold meps; lra).
    replace (norm2 (qof (vscale (sin (norm w)) (vscale (/ norm w) w)) (cos (norm w)))) with (Rsqr (cos (norm w)) + Rsqr (sin (norm w)) * (/ norm w * / norm w * vdot w w)) by (unfold qof, Rsqr; vu; ring).
    rewrite <- norm_sq. replace (/ norm w * / norm w * norm w ^ 2) with 1 by (field; exact Hn). rewrite Rmult_1_r, Rplus_comm. apply sin2_cos2.
Qed.
Theorem C79_integration q w : (4 * meps < length3 w ^ 2 -> integrate_quaternion q w = hamilton (rotation_of w) q /\ norm2 (integrate_quaternion q w) = norm2 q) /\
  (1 - meps ^ 2 / 12) * norm2 q <= norm2 (integrate_quaternion q w) <= norm2 q.
Proof.
  split.
  - intros H. assert (L : ~ norm (vscale (/ 2) w) ^ 2 <= meps) by (rewrite norm_half; lra).
    assert (Hn : length3 w <> 0) by (intros E; rewrite E in H; unfold meps in H; lra). split.
    + unfold integrate_quaternion. rewrite product_hamilton. f_equal. unfold exp_quaternion. destruct (Rle_dec _ _) as [|_]; [contradiction|]. rewrite norm_half. unfold rotation_of, qof. apply quat_ext; cbn [qw qx qy qz vx vy vz vscale]; try reflexivity; field; exact Hn.
    + unfold integrate_quaternion. rewrite product_hamilton, hamilton_norm, exp_norm. destruct (Rle_dec _ _) as [|_]; [contradiction|]. ring.
  - unfold integrate_quaternion. rewrite product_hamilton, hamilton_norm, exp_norm. pose proof (norm2_pos q) as Hq. destruct (Rle_dec _ _) as [L|L].
    + set (n := norm (vscale (/ 2) w)) in *. assert (H0 : 0 <= n ^ 2) by nra. set (s := n ^ 2) in *. replace (n ^ 4) with (s ^ 2) by (unfold s; ring). replace (n ^ 6) with (s ^ 3) by (unfold s; ring).
      assert (0 <= s ^ 2 <= meps ^ 2) by nra. assert (0 <= s ^ 3 <= s ^ 2) by (unfold meps in L; split; nra). split; [|nra]. apply Rmult_le_compat_r; lra.
    + unfold meps. nra.
Qed.
(** Along any number of steps. *)
Theorem C79_drift ws : forall q, (1 - meps ^ 2 / 12) ^ List.length ws * norm2 q <= norm2 (fold_left integrate_quaternion ws q) <= norm2 q.
Proof.
  assert (P : 0 < 1 - meps ^ 2 / 12) by (unfold meps; lra).
  induction ws as [|w ws IH]; intros q; cbn [fold_left List.length pow]; [lra|]. destruct (C79_integration q w) as [_ [H1 H2]]. destruct (IH (integrate_quaternion q w)) as [I1 I2]. split; [|lra].
  apply Rle_trans with (2 := I1). rewrite Rmult_comm, <- Rmult_assoc. rewrite (Rmult_comm _ ((1 - meps ^ 2 / 12) ^ List.length ws)). apply Rmult_le_compat_l; [apply pow_le; lra|]. lra.
Qed.
Print Assumptions C79_integration.
Print Assumptions C79_drift.

(** ** Difference and integration are inverse *)
Lemma atan2_polar r th : 0 < r -> 0 < th < PI -> atan2 (r * sin th) (r * cos th) = th.
Proof.
  intros Hr Ht. assert (Hs : 0 < sin th) by (apply sin_gt_0; lra). assert (Hy : 0 < r * sin th) by nra. unfold atan2.
  destruct (Rlt_dec 0 (r * cos th)) as [H|H].
  - assert (0 < cos th) by (apply Rmult_lt_reg_l with r; lra). replace (r * sin th / (r * cos th)) with (tan th) by (unfold tan; field; lra). apply atan_tan. split; [lra|].
    destruct (Rlt_dec th (PI / 2)) as [|N]; [assumption|]. exfalso. assert (cos th <= 0) by (apply cos_le_0; lra). lra.
  - destruct (Rlt_dec (r * cos th) 0) as [H1|H1].
    + destruct (Rlt_dec (r * sin th) 0); [lra|]. assert (Hc : cos th < 0) by (apply Rmult_lt_reg_l with r; lra).
      assert (PI / 2 < th). { destruct (Rlt_dec (PI / 2) th) as [|N]; [assumption|]. exfalso. assert (0 <= cos th) by (apply cos_ge_0; lra). lra. }
      replace (r * sin th / (r * cos th)) with (tan (th - PI)); [rewrite atan_tan by lra; ring|]. unfold tan. rewrite sin_minus, cos_minus, sin_PI, cos_PI. field. lra.
    + assert (Hc : cos th = 0) by (apply Rmult_eq_reg_l with r; lra). destruct (Rlt_dec 0 (r * sin th)); [|lra].
      destruct (Rtotal_order th (PI / 2)) as [T|[T|T]]; [|now symmetry|].
      * assert (0 < cos th) by (apply cos_gt_0; lra). lra.
      * assert (cos th < 0) by (apply cos_lt_0; lra). lra.
Qed.
Lemma product_conj q p : quaternion_product (quaternion_product p q) (qconj q) = qof (vscale (norm2 q) (qv p)) (norm2 q * qw p).
Proof. rewrite !product_hamilton. unfold qof, qconj, qv. destruct p as [a b c d], q as [e f g h]. cbn [qw qx qy qz vx vy vz]. rewrite !ham_Q4. unfold norm2. cbn [qw qx qy qz vx vy vz vscale]. f_equal; ring. Qed.
Lemma qv_qof v w : qv (qof v w) = v. Proof. now destruct v. Qed.
Lemma qw_qof v w : qw (qof v w) = w. Proof. reflexivity. Qed.
Lemma vscale_1 v : vscale 1 v = v. Proof. apply vec_ext; vu; ring. Qed.
Theorem C79_difference_of_integral q w : unitq q -> 2 * sqrt meps < length3 w < 2 * PI -> meps < sin (length3 w / 2) -> quaternion_difference q (integrate_quaternion q w) = Ok w.
Proof.
  intros U [Hl Hu] Hs. set (th := length3 w / 2). assert (Ht : 0 < th < PI) by (pose proof (sqrt_pos meps); unfold th; lra). fold th in Hs. pose proof (sin_gt_0 th ltac:(lra) ltac:(lra)) as Sp.
  assert (E : exp_quaternion (vscale (/ 2) w) = qof (vscale (sin th / th / 2) w) (cos th)).
  { unfold exp_quaternion. rewrite norm_half. fold th. destruct (Rle_dec _ _) as [L|_].
    - exfalso. assert (sqrt meps < th) by (unfold th; lra). pose proof (sqrt_pos meps). assert (meps < th ^ 2); [|lra]. rewrite <- (sqrt_sqrt meps) by (unfold meps; lra). nra.
    - f_equal. apply vec_ext; vu; field; lra. }
  unfold quaternion_difference, integrate_quaternion. rewrite product_conj, E. unfold unitq in U. rewrite U. unfold log_quaternion. rewrite !qv_qof, !qw_qof, !vscale_1, Rmult_1_l.
  assert (Hp : 0 < sin th / th / 2) by (apply Rdiv_lt_0_compat; [apply Rdiv_lt_0_compat; lra|lra]).
  assert (En : norm (vscale (sin th / th / 2) w) = sin th) by (rewrite norm_scale, Rabs_pos_eq by lra; rewrite norm_is; replace (length3 w) with (2 * th) by (unfold th; field); field; lra).
  rewrite En. destruct (Rle_dec (sin th) meps); [lra|]. f_equal.
  replace (atan2 (sin th) (cos th)) with th by (symmetry; pose proof (atan2_polar 1 th ltac:(lra) Ht) as A; now rewrite !Rmult_1_l in A).
  apply vec_ext; vu; field; lra.
Qed.
Lemma polar x y : x * x + y * y = 1 -> 0 < y -> exists th, 0 < th < PI /\ x = cos th /\ y = sin th.
Proof.
  intros H Hy. assert (Hx : -1 < x < 1) by nra. exists (acos x). pose proof (acos_bound_lt x Hx). split; [lra|]. split; [symmetry; apply cos_acos; lra|]. rewrite sin_acos by lra.
  rewrite <- (sqrt_Rsqr y) by lra. f_equal. unfold Rsqr. lra.
Qed.
Theorem C79_integral_of_difference p q : unitq p -> unitq q -> meps < length3 (qv (hamilton q (qconj p))) -> sqrt meps < acos (qw (hamilton q (qconj p))) ->
  exists w, quaternion_difference p q = Ok w /\ integrate_quaternion p w = q.
Proof.
  intros Up Uq Hn Hth. set (d := hamilton q (qconj p)) in *. assert (Ud : unitq d) by (unfold unitq, d; rewrite hamilton_norm, Uq; replace (norm2 (qconj p)) with (norm2 p) by (unfold qconj; vu; ring); rewrite Up; ring).
  assert (Hm : 0 < meps) by (unfold meps; lra). set (n := length3 (qv d)) in *.
  assert (Nsq : n * n = vdot (qv d) (qv d)) by (unfold n; change (length3 (qv d)) with (norm (qv d)); rewrite <- norm_sq; ring).
  assert (PD : qw d * qw d + n * n = 1) by (rewrite Nsq; unfold unitq in Ud; rewrite <- Ud; unfold norm2, vdot, qv; cbn [vx vy vz]; ring).
  destruct (polar (qw d) n PD ltac:(lra)) as (th & Ht & Ec & Es).
  assert (Ea : acos (qw d) = th) by (rewrite Ec; apply acos_cos; lra).
  unfold quaternion_difference. rewrite product_hamilton. fold d. unfold log_quaternion. rewrite norm_is. fold n. destruct (Rle_dec n meps); [lra|]. eexists. split; [reflexivity|].
  rewrite Es, Ec. replace (atan2 (sin th) (cos th)) with th by (symmetry; pose proof (atan2_polar 1 th ltac:(lra) Ht) as A; now rewrite !Rmult_1_l in A).
  pose proof (sin_gt_0 th ltac:(lra) ltac:(lra)) as Sp.
  unfold integrate_quaternion. replace (vscale (/ 2) (vscale (2 * th / sin th) (qv d))) with (vscale (th / sin th) (qv d)) by (apply vec_ext; vu; field; lra).
  assert (En : norm (vscale (th / sin th) (qv d)) = th) by (rewrite norm_scale, Rabs_pos_eq by (apply Rlt_le, Rdiv_lt_0_compat; lra); rewrite norm_is; fold n; rewrite Es; field; lra).
  assert (Ed : exp_quaternion (vscale (th / sin th) (qv d)) = d).
  { unfold exp_quaternion. rewrite En. destruct (Rle_dec _ _) as [L|_].
    - exfalso. rewrite Ea in Hth. pose proof (sqrt_pos meps). assert (meps < th ^ 2); [|lra]. rewrite <- (sqrt_sqrt meps) by lra. nra.
    - apply quat_ext; [symmetry; exact Ec|..]; unfold qof, qv; vu; field; lra. }
  rewrite Ed, product_hamilton. unfold d. transitivity (Q4 (norm2 p * qw q) (norm2 p * qx q) (norm2 p * qy q) (norm2 p * qz q)); [clear; rewrite ?product_hamilton; destruct p as [a b c d], q as [e f g h]; unfold qconj, qof, qv; cbn [qw qx qy qz vx vy vz vscale]; rewrite !ham_Q4; unfold norm2; cbn [qw qx qy qz]; f_equal; ring|]. rewrite Up. destruct q. cbn. f_equal; ring.
Qed.
(** For the small steps of the finite differences (1e-6) both use their expansions; together they reproduce w up to a relative error of |w|^4. *)
Theorem C79_small_step q w : unitq q -> length3 w <= 2 * meps -> exists k, quaternion_difference q (integrate_quaternion q w) = Ok (vscale k w) /\ Rabs (k - 1) <= length3 w ^ 4.
Proof.
  intros U Hw. set (th := length3 w / 2). pose proof (length3_nonneg w) as H0. assert (Ht : 0 <= th <= meps) by (unfold th; lra). assert (Hm : 0 < meps < / 1000) by (unfold meps; lra).
  set (s := th ^ 2). assert (Hs : 0 <= s <= meps ^ 2) by (unfold s; nra). assert (Hs2 : s <= / 1000) by nra.
  assert (E : exp_quaternion (vscale (/ 2) w) = qof (vscale ((1 - s / 6) / 2) w) (1 - s / 2)).
  { unfold exp_quaternion. rewrite norm_half. fold th. fold s. destruct (Rle_dec s meps) as [_|N]; [|exfalso; apply N; nra]. f_equal. apply vec_ext; vu; field. }
  unfold quaternion_difference, integrate_quaternion. rewrite product_conj, E. unfold unitq in U. rewrite U. unfold log_quaternion. rewrite !qv_qof, !qw_qof, !vscale_1, Rmult_1_l.
  assert (En : norm (vscale ((1 - s / 6) / 2) w) = (1 - s / 6) * th) by (rewrite norm_scale, Rabs_pos_eq by lra; rewrite norm_is; unfold th; field).
  rewrite En. destruct (Rle_dec ((1 - s / 6) * th) meps) as [_|N]; [|exfalso; apply N; nra]. destruct (Req_EM_T (1 - s / 2) 0); [lra|].
  set (r := (1 - s / 6) / (1 - s / 2)). exists (r - r ^ 3 * s / 3). split.
  - f_equal. apply vec_ext; vu; unfold r, s; field; fold s; lra.
  - replace (length3 w ^ 4) with (16 * s ^ 2) by (unfold s, th; field).
    assert (Er : r = 1 + s / 3 + s ^ 2 / 6 / (1 - s / 2)) by (unfold r; field; lra).
    assert (Hr : 1 <= r <= 1 + s). { rewrite Er. assert (0 <= s ^ 2 / 6 / (1 - s / 2) <= s ^ 2). { split; [apply Rle_mult_inv_pos; nra|]. apply Rmult_le_reg_r with (1 - s / 2); [lra|]. unfold Rdiv. rewrite Rmult_assoc, Rinv_l by lra. nra. } nra. }
    assert (H3 : 0 <= r ^ 3 - 1 <= 8 * s). { assert (0 <= r - 1 <= s) by lra. replace (r ^ 3 - 1) with ((r - 1) * (r * r + r + 1)) by ring. assert (3 <= r * r + r + 1 <= 8) by nra. split; nra. }
    assert (Hq : 0 <= s ^ 2 / 6 / (1 - s / 2) <= s ^ 2). { split; [apply Rle_mult_inv_pos; nra|]. apply Rmult_le_reg_r with (1 - s / 2); [lra|]. unfold Rdiv. rewrite Rmult_assoc, Rinv_l by lra. nra. }
    replace (r - r ^ 3 * s / 3 - 1) with (s ^ 2 / 6 / (1 - s / 2) - (r ^ 3 - 1) * s / 3) by (rewrite Er at 2; field; lra). apply Rabs_le. nra.
Qed.
Print Assumptions C79_difference_of_integral.
Print Assumptions C79_integral_of_difference.
Print Assumptions C79_small_step.

(** ** The difference may be the longer of the two ways: beyond half a turn, a shorter vector leads to the same orientation. *)
Lemma exp_large w : 4 * meps < length3 w ^ 2 -> exp_quaternion (vscale (/ 2) w) = rotation_of w.
Proof.
  intros H. assert (L : ~ norm (vscale (/ 2) w) ^ 2 <= meps) by (rewrite norm_half; lra). assert (Hn : length3 w <> 0) by (intros E; rewrite E in H; unfold meps in H; lra).
  unfold exp_quaternion. destruct (Rle_dec _ _) as [|_]; [contradiction|]. rewrite norm_half. unfold rotation_of, qof. apply quat_ext; cbn [qw qx qy qz vx vy vz vscale]; try reflexivity; field; exact Hn.
Qed.
Lemma rot_neg q i j : quaternion_to_rotation (Q4 (- qw q) (- qx q) (- qy q) (- qz q)) i j = quaternion_to_rotation q i j.
Proof.
  unfold quaternion_to_rotation. replace (qv (Q4 (- qw q) (- qx q) (- qy q) (- qz q))) with (vscale (-1) (qv q)) by (unfold qv; apply vec_ext; vu; ring). cbn [qw].
  replace (vdot (vscale (-1) (qv q)) (vscale (-1) (qv q))) with (vdot (qv q) (qv q)) by (vu; ring).
  assert (E : forall k, vget3 (vscale (-1) (qv q)) k = - vget3 (qv q) k) by (intros [|[|k]]; unfold vget3, vscale; cbn [vx vy vz]; ring). rewrite !E.
  assert (S : skew3 (vscale (-1) (qv q)) i j = - skew3 (qv q) i j).
  { unfold skew3, rows_mat. destruct i as [|[|[|[|i]]]]; destruct j as [|[|[|[|j]]]]; unfold vscale; cbn [nth vx vy vz]; ring. }
  rewrite S. ring.
Qed.
Theorem C79_long_way_refuted q w : unitq q -> PI < length3 w < 3 * PI / 2 -> quaternion_difference q (integrate_quaternion q w) = Ok w /\
  exists w', length3 w' < length3 w /\ forall i j, quaternion_to_rotation (integrate_quaternion q w') i j = quaternion_to_rotation (integrate_quaternion q w) i j.
Proof.
  intros U Hw. pose proof PI_RGT_0 as Hpi. pose proof PI2_3_2 as H32. assert (Hs : meps < sin (length3 w / 2)).
  { apply Rlt_trans with (sin (3 * (PI / 4))); [|apply sin_decreasing_1; lra]. rewrite sin_3PI4. unfold meps. assert (0 < sqrt 2 <= 2) by (pose proof (sqrt_lt_R0 2 ltac:(lra)); pose proof (sqrt_sqrt 2 ltac:(lra)); split; nra).
    apply Rlt_le_trans with (/ 2); [lra|]. unfold Rdiv. rewrite Rmult_1_l. apply Rinv_le_contravar; lra. }
  assert (Hm : sqrt meps <= 1) by (rewrite <- sqrt_1; apply sqrt_le_1_alt; unfold meps; lra).
  split; [apply C79_difference_of_integral; auto; lra|].
  set (l := length3 w) in *. exists (vscale (1 - 2 * PI / l) w).
  assert (El : length3 (vscale (1 - 2 * PI / l) w) = 2 * PI - l).
  { change (length3 (vscale (1 - 2 * PI / l) w)) with (norm (vscale (1 - 2 * PI / l) w)). rewrite norm_scale, norm_is. fold l. rewrite Rabs_left1; [field; lra|].
    assert (1 <= 2 * PI / l); [|lra]. apply Rmult_le_reg_r with l; [lra|]. unfold Rdiv. rewrite Rmult_assoc, Rinv_l by lra. lra. }
  split; [rewrite El; lra|]. intros i j. unfold integrate_quaternion.
  rewrite !exp_large by (rewrite ?El; fold l; unfold meps; nra).
  assert (Er : rotation_of (vscale (1 - 2 * PI / l) w) = Q4 (- qw (rotation_of w)) (- qx (rotation_of w)) (- qy (rotation_of w)) (- qz (rotation_of w))).
  { unfold rotation_of. rewrite El. fold l. replace ((2 * PI - l) / 2) with (PI - l / 2) by field. assert (Es : sin (PI - l / 2) = sin (l / 2)) by (rewrite sin_minus, sin_PI, cos_PI; ring). assert (Ec : cos (PI - l / 2) = - cos (l / 2)) by (rewrite cos_minus, sin_PI, cos_PI; ring).
    rewrite Es, Ec. apply quat_ext; cbn [qw qx qy qz vx vy vz vscale]; try reflexivity; field; lra. }
  rewrite Er. generalize (rotation_of w). intros p. rewrite <- (rot_neg (quaternion_product p q)). rewrite !product_hamilton. replace (hamilton (Q4 (- qw p) (- qx p) (- qy p) (- qz p)) q) with (Q4 (- qw (hamilton p q)) (- qx (hamilton p q)) (- qy (hamilton p q)) (- qz (hamilton p q))); [reflexivity|]. apply quat_ext; clear; vu; ring.
Qed.
Print Assumptions C79_long_way_refuted.

(** ** Contacts: for rows that hold the time and then a 0 or 1 for every foot, control is active at the times at which some foot is in contact. *)
Theorem C79_active plan t row : nth_error plan t = Some row -> (forall a, In a (tl row) -> a = 0 \/ a = 1) ->
  nth_error (switching_dynamics plan) t = Some 1 /\ In 1 (tl row) \/ nth_error (switching_dynamics plan) t = Some 0 /\ ~ In 1 (tl row).
Proof.
  intros H Hb. unfold switching_dynamics. rewrite nth_error_map, H. cbn [option_map]. set (l := tl row) in *. clearbody l.
  assert (S : 0 <= fold_right Rplus 0 l /\ (In 1 l -> 1 <= fold_right Rplus 0 l) /\ (~ In 1 l -> fold_right Rplus 0 l = 0)).
  { clear H. induction l as [|a l IH]; cbn [fold_right In]; [repeat split; try lra; now intros []|]. destruct IH as (I1 & I2 & I3); [intros; apply Hb; now right|].
    destruct (Hb a (or_introl eq_refl)) as [->| ->]; (split; [lra|split; [intros [E|E]|intros N]]); try lra; try (specialize (I2 E); lra); try (rewrite I3; [lra|tauto]); exfalso; tauto. }
  destruct S as (S1 & S2 & S3). unfold meps. destruct (Rlt_dec _ _) as [L|L]; [left|right]; split; try reflexivity.
  - destruct (in_dec Req_EM_T 1 l) as [|N]; [assumption|]. rewrite (S3 N) in L. lra.
  - intros I. apply L. specialize (S2 I). lra.
Qed.
Print Assumptions C79_active.

(** ** Instances *)
Example C79_ex : unitq (Q4 1 0 0 0) /\ (2 * sqrt meps < length3 (V3 2 0 0) < 2 * PI /\ meps < sin (length3 (V3 2 0 0) / 2)) /\ length3 (V3 meps 0 0) <= 2 * meps /\ PI < length3 (V3 (17 / 4) 0 0) < 3 * PI / 2 /\
  switching_dynamics [[1/4; 1; 0]; [1/4; 0; 0]] = [1; 0].
Proof.
  pose proof PI_RGT_0 as Hpi. pose proof PI2_3_2 as H32. pose proof PI_4 as P4.
  assert (L : forall a, 0 <= a -> length3 (V3 a 0 0) = a) by (intros a Ha; unfold length3; cbn [vx vy vz]; replace (a * a + 0 * 0 + 0 * 0) with (a * a) by ring; now apply sqrt_square).
  split; [unfold unitq; vu; ring|]. rewrite !L by (unfold meps; lra).
  assert (Hm : sqrt meps < 1) by (rewrite <- sqrt_1; apply sqrt_lt_1_alt; unfold meps; lra).
  split; [split; [lra|]|split; [unfold meps; lra|split; [lra|]]].
  - replace (2 / 2) with 1 by field. apply Rlt_trans with (1 / 2); [unfold meps; lra|]. rewrite <- sin_PI6. apply sin_increasing_1; lra.
  - unfold switching_dynamics. cbn [map tl fold_right]. unfold meps. repeat destruct (Rlt_dec _ _); try reflexivity; lra.
Qed.

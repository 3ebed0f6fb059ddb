(** * Ends of a flight, interpolation of orientations, a solver *)
From Coq Require Import Reals List Arith ZArith Bool Lia Lra Psatz.
Import ListNotations.
From Verif Require Import Base BaseProofs Vec3 CntModel Hermite TrajModel TrajSpec TrajProofs FlightModel FlightSpec FlightProofs.
Local Open Scope R_scope.

(** ** The profile as a polynomial *)
Definition swing_coef (x0 v x1 : R) (i : nat) : R := let D := x1 - x0 in let B := v - (x0 + x1) / 2 in
  match i with 0%nat => x0 | 3%nat => 10 * D + 64 * B | 4%nat => - (15 * D) - 192 * B | 5%nat => 6 * D + 192 * B | 6%nat => - (64 * B) | _ => 0 end.
Lemma swing_poly : forall x0 v x1 s, pval 7 (swing_coef x0 v x1) s = swing x0 v x1 s.
Proof. intros. rewrite pval7. unfold swing_coef, swing. cbv zeta. field. Qed.
Lemma on_swing_ends : forall ta tb p0 v p1 x, ta < tb ->
  (on_swing ta tb p0 v p1 ta x -> e_pos x = p0 /\ e_vel x = v0 /\ e_acc x = v0) /\ (on_swing ta tb p0 v p1 tb x -> e_pos x = p1 /\ e_vel x = v0 /\ e_acc x = v0).
Proof.
  intros ta tb p0 v p1 x Hlt. set (h := tb - ta). assert (Hh : h <> 0) by (unfold h; lra).
  assert (V3eq : forall a b, (forall i, (i < 3)%nat -> vget3 a i = vget3 b i) -> a = b).
  { intros [a1 a2 a3] [b1 b2 b3] E. pose proof (E 0%nat ltac:(lia)). pose proof (E 1%nat ltac:(lia)). pose proof (E 2%nat ltac:(lia)). cbn in *. congruence. }
  assert (K : forall tau i, on_swing ta tb p0 v p1 tau x -> (i < 3)%nat -> let q := swing_coef (vget3 p0 i) (vget3 v i) (vget3 p1 i) in let s := (tau - ta) / h in
    vget3 (e_pos x) i = pval 7 q s /\ vget3 (e_vel x) i = pder 7 q s / h /\ vget3 (e_acc x) i = pder2 7 q s / h ^ 2).
  { intros tau i O Hi q s. destruct (O i Hi) as (Ep & w & Dw & Ev & Da). fold h in Ep, Dw.
    assert (P : forall u, pval 7 (from_s ta h q) u = swing (vget3 p0 i) (vget3 v i) (vget3 p1 i) ((u - ta) / h)) by (intros u; rewrite from_s_val by exact Hh; apply swing_poly).
    assert (W : forall u, w u = pder 7 (from_s ta h q) u). { intros u. eapply uniqueness_limite; [apply Dw|]. eapply deriv_ext; [exact P|]. apply pval_deriv. }
    split; [rewrite Ep; symmetry; apply swing_poly|]. split; [rewrite Ev, W; apply from_s_der; exact Hh|]. unfold s; rewrite <- (from_s_der2 ta h q tau Hh).
    eapply uniqueness_limite; [exact Da|]. eapply deriv_ext; [intros u; symmetry; apply W|]. apply pder_deriv. }
  split; intros O.
  - assert (Z : (ta - ta) / h = 0) by (field; exact Hh). repeat split; apply V3eq; intros i Hi; destruct (K ta i O Hi) as (A & B & C); cbv zeta in *; rewrite Z in *.
    + rewrite A, pval7. unfold swing_coef. cbv zeta. ring.
    + rewrite B, pder7. unfold swing_coef. cbv zeta. destruct i as [|[|[|]]]; cbn [vget3 v0 vx vy vz]; field; exact Hh.
    + rewrite C, pder27. unfold swing_coef. cbv zeta. destruct i as [|[|[|]]]; cbn [vget3 v0 vx vy vz]; field; exact Hh.
  - assert (Z : (tb - ta) / h = 1) by (fold h; field; exact Hh). repeat split; apply V3eq; intros i Hi; destruct (K tb i O Hi) as (A & B & C); cbv zeta in *; rewrite Z in *.
    + rewrite A, pval7. unfold swing_coef. cbv zeta. field.
    + rewrite B, pder7. unfold swing_coef. cbv zeta. destruct i as [|[|[|]]]; cbn [vget3 v0 vx vy vz]; field; exact Hh.
    + rewrite C, pder27. unfold swing_coef. cbv zeta. destruct i as [|[|[|]]]; cbn [vget3 v0 vx vy vz]; field; exact Hh.
Qed.

(** ** slerp *)
Definition qneg (q : quat) : quat := Q4 (- qw q) (- qx q) (- qy q) (- qz q).
Lemma eps_pos : 0 < eps < 1.
Proof. unfold eps. split; [apply Rinv_0_lt_compat; apply pow_lt; lra|]. rewrite <- Rinv_1. apply Rinv_lt_contravar; [rewrite Rmult_1_l; apply pow_lt; lra|]. apply Rlt_pow_R1; [lra|lia]. Qed.
Lemma angle : forall d, Rabs d < 1 - eps -> let th := acos (Rabs d) in cos th = Rabs d /\ 0 < sin th.
Proof.
  intros d H th. pose proof eps_pos. assert (0 <= Rabs d) by apply Rabs_pos. unfold th. split; [apply cos_acos; lra|]. rewrite sin_acos by lra. apply sqrt_lt_R0. unfold Rsqr. nra.
Qed.
Lemma slerp_start : forall q o, slerp q 0 o = q.
Proof.
  intros [a b c d] o. unfold slerp. destruct (Rle_dec _ _) as [L|L].
  - unfold qcomb. cbn [qw qx qy qz]. destruct (Rlt_dec _ _); f_equal; ring.
  - destruct (angle (qdot (Q4 a b c d) o)) as [_ S]; [lra|]. rewrite Rminus_0_r, Rmult_1_l, Rmult_0_l, sin_0. unfold qcomb. cbn [qw qx qy qz]. destruct (Rlt_dec _ _); f_equal; field; lra.
Qed.
Lemma slerp_end : forall q o, slerp q 1 o = if Rlt_dec (qdot q o) 0 then qneg o else o.
Proof.
  intros [a b c d] [x y z w]. unfold slerp. destruct (Rle_dec _ _) as [L|L].
  - unfold qcomb, qneg. cbn [qw qx qy qz]. destruct (Rlt_dec _ _); f_equal; ring.
  - destruct (angle (qdot (Q4 a b c d) (Q4 x y z w))) as [_ S]; [lra|]. replace (1 - 1) with 0 by ring. rewrite Rmult_1_l, Rmult_0_l, sin_0. unfold qcomb, qneg. cbn [qw qx qy qz]. destruct (Rlt_dec _ _); f_equal; field; lra.
Qed.
Lemma qdot_qcomb : forall s a t b, qdot (qcomb s a t b) (qcomb s a t b) = s * s * qdot a a + 2 * s * t * qdot a b + t * t * qdot b b.
Proof. intros. unfold qdot, qcomb. cbn. ring. Qed.
Lemma qdot_qcomb_l : forall s a t b, qdot a (qcomb s a t b) = s * qdot a a + t * qdot a b.
Proof. intros. unfold qdot, qcomb. cbn. ring. Qed.
Lemma signed : forall d s, (if Rlt_dec d 0 then - s else s) * d = s * Rabs d.
Proof. intros. unfold Rabs. destruct (Rlt_dec d 0), (Rcase_abs d); lra || (exfalso; lra). Qed.
Lemma signed_sq : forall d s, (if Rlt_dec d 0 then - s else s) * (if Rlt_dec d 0 then - s else s) = s * s.
Proof. intros. destruct (Rlt_dec d 0); ring. Qed.
Lemma slerp_arc : forall q o t, qdot q q = 1 -> qdot o o = 1 -> Rabs (qdot q o) < 1 - eps ->
  qdot (slerp q t o) (slerp q t o) = 1 /\ qdot q (slerp q t o) = cos (t * acos (Rabs (qdot q o))).
Proof.
  intros q o t Hq Ho Hd. destruct (angle _ Hd) as [C S]. unfold slerp. destruct (Rle_dec _ _) as [L|L]; [lra|]. set (th := acos (Rabs (qdot q o))) in *.
  assert (T : sin ((1 - t) * th) = sin th * cos (t * th) - cos th * sin (t * th)). { replace ((1 - t) * th) with (th - t * th) by ring. apply sin_minus. }
  pose proof (sin2_cos2 th) as P1. pose proof (sin2_cos2 (t * th)) as P2. unfold Rsqr in P1, P2.
  set (s1 := sin (t * th) / sin th). set (s0 := sin ((1 - t) * th) / sin th). rewrite qdot_qcomb, qdot_qcomb_l, Hq, Ho.
  split.
  - replace (s0 * s0 * 1 + 2 * s0 * (if Rlt_dec (qdot q o) 0 then - s1 else s1) * qdot q o + (if Rlt_dec (qdot q o) 0 then - s1 else s1) * (if Rlt_dec (qdot q o) 0 then - s1 else s1) * 1)
      with (s0 * s0 + 2 * s0 * ((if Rlt_dec (qdot q o) 0 then - s1 else s1) * qdot q o) + (if Rlt_dec (qdot q o) 0 then - s1 else s1) * (if Rlt_dec (qdot q o) 0 then - s1 else s1)) by ring.
    rewrite signed, signed_sq, <- C. unfold s0, s1. rewrite T. set (a := sin th) in *. set (b := cos th) in *. set (c := sin (t * th)) in *. set (e := cos (t * th)) in *.
    apply Rmult_eq_reg_r with (a * a); [|apply Rgt_not_eq; nra].
    transitivity ((a * e - b * c) * (a * e - b * c) + 2 * (a * e - b * c) * c * b + c * c); [field; lra|]. nra.
  - rewrite signed, <- C. unfold s0, s1. rewrite T. field. lra.
Qed.
Lemma cauchy : forall q o, qdot q q = 1 -> qdot o o = 1 -> Rabs (qdot q o) <= 1.
Proof.
  intros q o Hq Ho. assert (A : 0 <= qdot (qcomb 1 q 1 o) (qcomb 1 q 1 o)) by (unfold qdot; nra). assert (B : 0 <= qdot (qcomb 1 q (-1) o) (qcomb 1 q (-1) o)) by (unfold qdot; nra).
  rewrite qdot_qcomb, Hq, Ho in A, B. apply Rabs_le. lra.
Qed.
Lemma slerp_norm : forall q o t, qdot q q = 1 -> qdot o o = 1 -> 0 <= t <= 1 -> 1 - eps / 2 <= qdot (slerp q t o) (slerp q t o) <= 1.
Proof.
  intros q o t Hq Ho Ht. pose proof eps_pos. destruct (Rlt_dec (Rabs (qdot q o)) (1 - eps)) as [L|L].
  - destruct (slerp_arc q o t Hq Ho L) as [-> _]. lra.
  - pose proof (cauchy q o Hq Ho). unfold slerp. destruct (Rle_dec _ _) as [L'|L']; [|lra]. rewrite qdot_qcomb, Hq, Ho.
    replace ((1 - t) * (1 - t) * 1 + 2 * (1 - t) * (if Rlt_dec (qdot q o) 0 then - t else t) * qdot q o + (if Rlt_dec (qdot q o) 0 then - t else t) * (if Rlt_dec (qdot q o) 0 then - t else t) * 1)
      with ((1 - t) * (1 - t) + 2 * (1 - t) * ((if Rlt_dec (qdot q o) 0 then - t else t) * qdot q o) + (if Rlt_dec (qdot q o) 0 then - t else t) * (if Rlt_dec (qdot q o) 0 then - t else t)) by ring.
    rewrite signed, signed_sq. set (d := Rabs (qdot q o)) in *. assert (B : 0 <= t * (1 - t) <= / 4).
    { split; [apply Rmult_le_pos; lra|]. assert (0 <= (t - / 2) * (t - / 2)) by apply Rle_0_sqr. lra. }
    replace ((1 - t) * (1 - t) + 2 * (1 - t) * (t * d) + t * t) with (1 - 2 * (t * (1 - t)) * (1 - d)) by ring. nra.
Qed.

(** ** A solver for swings: times and values can be read off the system. *)
Definition swing_qr : nat -> (nat -> nat -> R) -> (nat -> R) -> (nat -> R) := fun _ M b =>
  from_s (M 0%nat 1%nat) (M 2%nat 1%nat - M 0%nat 1%nat) (swing_coef (b 0%nat) (b 1%nat) (b 2%nat)).
Lemma swing_qr_solves : solves_swings swing_qr.
Proof.
  intros t0 x0 t1 x1 v Hlt p r _. apply swing_solution. unfold swing_qr, p, r. cbn [reg_matrix reg_vector reg_rows swing_pos swing_d map app nth fst snd]. unfold pos_row. rewrite !pow_1.
  set (h := t1 - t0). assert (Hh : h <> 0) by (unfold h; lra). unfold rest_to_rest. rewrite !from_s_val, !from_s_der, !from_s_der2 by exact Hh.
  replace ((t0 - t0) / h) with 0 by (field; exact Hh). replace ((t1 - t0) / h) with 1 by (fold h; field; exact Hh). replace ((/ 2 * (t0 + t1) - t0) / h) with (/ 2) by (unfold h; field; lra).
  rewrite !pval7, !pder7, !pder27. unfold swing_coef. cbv zeta. repeat split; field; try exact Hh; lra.
Qed.

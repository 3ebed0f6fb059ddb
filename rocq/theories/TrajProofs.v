From Coq Require Import Reals List Arith ZArith Bool Lia Lra Psatz.
Import ListNotations.
From Verif Require Import Base BaseProofs Vec3 TrajModel TrajSpec Hermite.
Local Open Scope R_scope.

Lemma osum_some : forall n f g, (forall i, (i < n)%nat -> f i = Some (g i)) -> osum n f = Some (rsum n g).
Proof. induction n; intros f g H; cbn [osum rsum]; auto. rewrite (IHn f g) by auto. rewrite H by lia. reflexivity. Qed.
Lemma osum_none : forall n f i, (i < n)%nat -> f i = None -> osum n f = None.
Proof. induction n; intros f i Hi H; [lia|]. cbn [osum]. destruct (Nat.eq_dec i n) as [->|]. rewrite H. now destruct (osum n f). rewrite (IHn f i); [easy|lia|easy]. Qed.
Lemma cpow_nat : forall x k, cpow x (Z.of_nat k) = Some (x ^ k).
Proof. intros x [|k]; cbn [Z.of_nat cpow pow]; [easy|]. now rewrite SuccNat2Pos.id_succ. Qed.
Lemma cpow_ok : forall x k, x <> 0 \/ (0 <= k)%Z -> exists y, cpow x k = Some y.
Proof. intros x [|p|p] H; cbn; eauto. destruct (Req_EM_T x 0); eauto. destruct H; [easy|lia]. Qed.
Lemma position_is : forall it t, position (interpolate it t) = Some (pval (cons_size it) (coeffs it) (query_time it t)).
Proof. intros. unfold interpolate, position. cbn [fst]. apply osum_some. intros i Hi. rewrite cpow_nat. reflexivity. Qed.
Lemma velocity_is : forall it t, query_time it t <> 0 -> velocity (interpolate it t) = Some (pder (cons_size it) (coeffs it) (query_time it t)).
Proof.
  intros it t H. unfold interpolate, velocity. cbn [fst snd]. apply osum_some. intros [|i] Hi.
  - destruct (cpow_ok (query_time it t) (Z.of_nat 0 - 1) (or_introl H)) as (y & ->). cbn [omul INR]. f_equal. ring.
  - replace (Z.of_nat (S i) - 1)%Z with (Z.of_nat i) by lia. rewrite cpow_nat. cbn [omul]. f_equal. replace (S i - 1)%nat with i by lia. ring.
Qed.
Lemma acceleration_is : forall it t, query_time it t <> 0 -> acceleration (interpolate it t) = Some (pder2 (cons_size it) (coeffs it) (query_time it t)).
Proof.
  intros it t H. unfold interpolate, acceleration. cbn [fst snd]. apply osum_some. intros i Hi. destruct i as [|[|i]].
  - destruct (cpow_ok (query_time it t) (Z.of_nat 0 - 2) (or_introl H)) as (y & ->). cbn [omul INR]. f_equal. ring.
  - destruct (cpow_ok (query_time it t) (Z.of_nat 1 - 2) (or_introl H)) as (y & ->). cbn [omul INR Nat.sub]. f_equal. ring.
  - replace (Z.of_nat (S (S i)) - 2)%Z with (Z.of_nat i) by lia. rewrite cpow_nat. cbn [omul]. f_equal.
    replace (S (S i) - 2)%nat with i by lia. replace (S (S i) - 1)%nat with (S i) by lia. rewrite (S_INR (S i)). ring.
Qed.
Lemma not_finite_at_zero : forall it t, query_time it t = 0 -> (1 <= cons_size it)%nat -> velocity (interpolate it t) = None /\ acceleration (interpolate it t) = None.
Proof.
  intros it t H Hn. unfold interpolate, velocity, acceleration. cbn [fst snd]. rewrite H. split; apply (osum_none _ _ 0%nat Hn); cbn [Z.of_nat Z.sub Z.add Z.opp Z.pos_sub cpow];
   (destruct (Req_EM_T 0 0); [reflexivity|lra]).
Qed.
Lemma min_time_le : forall l m r, min_time l = Some m -> In r l -> m <= fst r.
Proof.
  induction l as [|a l IH]; intros m r H Hi; [destruct Hi|]. cbn [min_time] in H. destruct l as [|b l].
  - injection H as <-. destruct Hi as [->|[]]. lra.
  - destruct (min_time (b :: l)) as [m'|] eqn:E; [|discriminate]. injection H as <-. destruct Hi as [->|Hi]. apply Rmin_l.
    pose proof (IH m' r eq_refl Hi). pose proof (Rmin_r (fst a) m'). lra.
Qed.
Lemma max_time_ge : forall l m r, max_time l = Some m -> In r l -> fst r <= m.
Proof.
  induction l as [|a l IH]; intros m r H Hi; [destruct Hi|]. cbn [max_time] in H. destruct l as [|b l].
  - injection H as <-. destruct Hi as [->|[]]. lra.
  - destruct (max_time (b :: l)) as [m'|] eqn:E; [|discriminate]. injection H as <-. destruct Hi as [->|Hi]. apply Rmax_l.
    pose proof (IH m' r eq_refl Hi). pose proof (Rmax_r (fst a) m'). lra.
Qed.
Lemma init_span : forall qr pos vel acc it, init_interp qr pos vel acc = Ok it ->
  cons_size it = (length pos + length vel + length acc)%nat /\ coeffs it = qr (cons_size it) (reg_matrix pos vel acc) (reg_vector pos vel acc) /\
  forall r, In r pos \/ In r vel \/ In r acc -> span0 it <= fst r <= span1 it.
Proof.
  intros qr pos vel acc it H. unfold init_interp in H.
  destruct (min_time pos) as [a|] eqn:A; [|discriminate]. destruct (min_time vel) as [b|] eqn:B; [|discriminate]. destruct (min_time acc) as [c|] eqn:C; [|discriminate].
  destruct (max_time pos) as [d|] eqn:D; [|discriminate]. destruct (max_time vel) as [e|] eqn:E; [|discriminate]. destruct (max_time acc) as [f|] eqn:F; [|discriminate].
  injection H as <-. cbn [cons_size coeffs span0 span1]. split; [easy|]. split; [easy|].
  pose proof (Rmin_l (Rmin a b) c). pose proof (Rmin_r (Rmin a b) c). pose proof (Rmin_l a b). pose proof (Rmin_r a b).
  pose proof (Rmax_l (Rmax d e) f). pose proof (Rmax_r (Rmax d e) f). pose proof (Rmax_l d e). pose proof (Rmax_r d e).
  intros r [Hr|[Hr|Hr]].
  - pose proof (min_time_le _ _ r A Hr). pose proof (max_time_ge _ _ r D Hr). lra.
  - pose proof (min_time_le _ _ r B Hr). pose proof (max_time_ge _ _ r E Hr). lra.
  - pose proof (min_time_le _ _ r C Hr). pose proof (max_time_ge _ _ r F Hr). lra.
Qed.
Lemma query_inside : forall it t, span0 it <= t <= span1 it -> query_time it t = t.
Proof. intros. unfold query_time. rewrite Rmax_left, Rmin_left; lra. Qed.
Lemma reg_rows_length : forall pos vel acc, length (reg_rows pos vel acc) = (length pos + length vel + length acc)%nat.
Proof. intros. unfold reg_rows. rewrite !app_length, !map_length. lia. Qed.
(** Every row of the system is one of the rows below. *)
Lemma rows_of_system : forall pos vel acc x, solution (length pos + length vel + length acc) (reg_matrix pos vel acc) (reg_vector pos vel acc) x ->
  forall f v, In (f, v) (reg_rows pos vel acc) -> rsum (length pos + length vel + length acc) (fun j => f j * x j) = v.
Proof.
  intros pos vel acc x H f v Hi. apply (In_nth _ _ (fun _ => 0, 0)) in Hi. destruct Hi as (i & Hl & E). rewrite reg_rows_length in Hl.
  specialize (H i Hl). unfold reg_matrix, reg_vector in H. rewrite E in H. exact H.
Qed.
Lemma vel_row_eq : forall t j, vel_row t j = INR j * t ^ (j - 1).
Proof. intros t [|j]; cbn [vel_row]. cbn. ring. now replace (S j - 1)%nat with j by lia. Qed.
Lemma acc_row_eq : forall t j, acc_row t j = INR j * INR (j - 1) * t ^ (j - 2).
Proof. intros t [|[|j]]; cbn [acc_row]; [cbn; ring|cbn; ring|]. replace (S (S j) - 2)%nat with j by lia. reflexivity. Qed.
Lemma pos_solution : forall pos vel acc x r, solution (length pos + length vel + length acc) (reg_matrix pos vel acc) (reg_vector pos vel acc) x -> In r pos ->
  pval (length pos + length vel + length acc) x (fst r) = snd r.
Proof.
  intros. rewrite <- (rows_of_system pos vel acc x H (pos_row (fst r)) (snd r)).
  - unfold pval. apply rsum_ext; intros. unfold pos_row. ring.
  - unfold reg_rows. apply in_or_app. left. apply in_map_iff. now exists r.
Qed.
Lemma vel_solution : forall pos vel acc x r, solution (length pos + length vel + length acc) (reg_matrix pos vel acc) (reg_vector pos vel acc) x -> In r vel ->
  pder (length pos + length vel + length acc) x (fst r) = snd r.
Proof.
  intros. rewrite <- (rows_of_system pos vel acc x H (vel_row (fst r)) (snd r)).
  - unfold pder. apply rsum_ext; intros. rewrite vel_row_eq. ring.
  - unfold reg_rows. apply in_or_app. right. apply in_or_app. left. apply in_map_iff. now exists r.
Qed.
Lemma acc_solution : forall pos vel acc x r, solution (length pos + length vel + length acc) (reg_matrix pos vel acc) (reg_vector pos vel acc) x -> In r acc ->
  pder2 (length pos + length vel + length acc) x (fst r) = snd r.
Proof.
  intros. rewrite <- (rows_of_system pos vel acc x H (acc_row (fst r)) (snd r)).
  - unfold pder2. apply rsum_ext; intros. rewrite acc_row_eq. ring.
  - unfold reg_rows. apply in_or_app. right. apply in_or_app. right. apply in_map_iff. now exists r.
Qed.
(** Derivatives. *)
Lemma rsum_deriv : forall n (f g : nat -> R -> R) t, (forall i, (i < n)%nat -> derivable_pt_lim (f i) t (g i t)) ->
  derivable_pt_lim (fun t => rsum n (fun i => f i t)) t (rsum n (fun i => g i t)).
Proof.
  induction n; intros f g t H; cbn [rsum]. apply derivable_pt_lim_const.
  apply (derivable_pt_lim_plus (fun t => rsum n (fun i => f i t)) (f n)); auto.
Qed.
Lemma pow_deriv : forall i t, derivable_pt_lim (fun t => t ^ i) t (INR i * t ^ (i - 1)).
Proof. intros i t. replace (i - 1)%nat with (pred i) by lia. apply derivable_pt_lim_pow. Qed.
Lemma pval_deriv : forall n c t, derivable_pt_lim (pval n c) t (pder n c t).
Proof. intros. apply (rsum_deriv n (fun i t => c i * t ^ i) (fun i t => c i * (INR i * t ^ (i - 1)))). intros. apply derivable_pt_lim_scal. apply pow_deriv. Qed.
Lemma pder_deriv : forall n c t, derivable_pt_lim (pder n c) t (pder2 n c t).
Proof.
  intros. apply (rsum_deriv n (fun i t => c i * (INR i * t ^ (i - 1))) (fun i t => c i * (INR i * INR (i - 1) * t ^ (i - 2)))). intros i Hi. apply derivable_pt_lim_scal.
  rewrite Rmult_assoc. apply derivable_pt_lim_scal. replace (i - 2)%nat with (i - 1 - 1)%nat by lia. apply pow_deriv.
Qed.
(** The seven rows of the swing. *)
Lemma swing_solution : forall t0 x0 t1 x1 v c,
  solution 7 (reg_matrix (swing_pos t0 x0 t1 x1 v) (swing_d t0 t1) (swing_d t0 t1)) (reg_vector (swing_pos t0 x0 t1 x1 v) (swing_d t0 t1) (swing_d t0 t1)) c <->
  rest_to_rest c t0 t1 x0 v x1.
Proof.
  intros. set (pos := swing_pos t0 x0 t1 x1 v). set (d := swing_d t0 t1). split.
  - intros H. change 7%nat with (length pos + length d + length d)%nat in H. unfold rest_to_rest. change 7%nat with (length pos + length d + length d)%nat. repeat split.
    + apply (pos_solution pos d d c (t0, x0) H). now left.
    + apply (pos_solution pos d d c (/ 2 * (t0 + t1), v) H). right; now left.
    + apply (pos_solution pos d d c (t1, x1) H). right; right; now left.
    + apply (vel_solution pos d d c (t0, 0) H). now left.
    + apply (vel_solution pos d d c (t1, 0) H). right; now left.
    + apply (acc_solution pos d d c (t0, 0) H). now left.
    + apply (acc_solution pos d d c (t1, 0) H). right; now left.
  - intros (P0 & Pm & P1 & D0 & D1 & E0 & E1) i Hi. unfold reg_matrix, reg_vector, reg_rows, pos, d, swing_pos, swing_d.
    destruct i as [|[|[|[|[|[|[|i]]]]]]]; [..|lia]; cbn [map app nth fst snd].
    + rewrite <- P0. apply rsum_ext; intros; unfold pos_row; ring.
    + rewrite <- Pm. apply rsum_ext; intros; unfold pos_row; ring.
    + rewrite <- P1. apply rsum_ext; intros; unfold pos_row; ring.
    + rewrite <- D0. apply rsum_ext; intros; rewrite vel_row_eq; ring.
    + rewrite <- D1. apply rsum_ext; intros; rewrite vel_row_eq; ring.
    + rewrite <- E0. apply rsum_ext; intros; rewrite acc_row_eq; ring.
    + rewrite <- E1. apply rsum_ext; intros; rewrite acc_row_eq; ring.
Qed.
Lemma swing_regular : forall t0 x0 t1 x1 v, t0 <> t1 -> regular 7 (reg_matrix (swing_pos t0 x0 t1 x1 v) (swing_d t0 t1) (swing_d t0 t1)).
Proof.
  intros t0 x0 t1 x1 v Hne x H. apply (homogeneous x t0 t1 Hne). apply (swing_solution t0 0 t1 0 0). intros i Hi. specialize (H i Hi). cbn beta in H.
  transitivity 0; [|clear H; symmetry; do 7 (destruct i as [|i]; [reflexivity|]); lia].
  rewrite <- H. apply rsum_ext. intros j Hj. f_equal. do 7 (destruct i as [|i]; [reflexivity|]). lia.
Qed.
Lemma swing_eq : forall x0 v x1 s, x0 + (x1 - x0) * quintic s + (v - / 2 * (x0 + x1)) * bump s = swing x0 v x1 s.
Proof. intros. unfold swing, quintic, bump. field. Qed.

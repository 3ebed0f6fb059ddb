From Coq Require Import Reals List Arith Bool Lia Lra Psatz.
From Verif Require Import Base BaseProofs ConicSpec ConeModel ConeSpec ConeProofs ConeProofs2 ConeProofs3 IpModel IpSpec IpProofs IpProofs2.
Import ListNotations.
Open Scope R_scope.

(** ** Certificates *)
Lemma pinf_meaning S d o feas : feas <= t_nan S -> f_pinf (statsof S d o) < feas ->
  let M := Rmax (norm2 (p_p d) (i_y o) + norm2 (rows d) (i_z o)) 1 in
  ip (p_p d) (p_b d) (i_y o) + ip (rows d) (p_h d) (i_z o) < - (t_rel (t_full S) * M) /\ norm2 (p_n d) (Aty_Gtz d (i_y o) (i_z o)) < feas * M.
Proof.
  intros HN H M. unfold statsof, updateStatistics in H. cbn [f_pinf] in H.
  unfold computeResiduals in H. cbn [rs_hz rs_by rs_resx] in H. change vnorm with norm2 in H. change vdot with ip in H. rewrite !rows_m in H. fold M in H.
  rewrite (norm2_opp (p_n d) _ (Aty_Gtz d (i_y o) (i_z o))) in H by (intros i _; unfold Aty_Gtz; unfold rows; ring).
  assert (HM : 0 < M) by (unfold M; pose proof (Rmax_r (norm2 (p_p d) (i_y o) + norm2 (rows d) (i_z o)) 1); lra).
  destruct (Rlt_dec _ _) as [L|NL] in H; [|lra].
  split.
  - apply Rmult_lt_compat_r with (r := M) in L; [|exact HM]. unfold Rdiv in L. rewrite Rmult_assoc, Rinv_l, Rmult_1_r in L by lra. lra.
  - apply Rmult_lt_compat_r with (r := M) in H; [|exact HM]. unfold Rdiv in H. rewrite Rmult_assoc, Rinv_l, Rmult_1_r in H by lra. exact H.
Qed.
Lemma dinf_meaning S d o feas : feas <= t_nan S -> f_dinf (statsof S d o) < feas ->
  let M := Rmax (norm2 (p_n d) (i_x o)) 1 in let Ms := Rmax (norm2 (p_n d) (i_x o) + norm2 (rows d) (i_s o)) 1 in
  ip (p_n d) (p_c d) (i_x o) < - (t_rel (t_full S) * M) /\ norm2 (p_p d) (Ax d (i_x o)) < feas * M /\
  norm2 (rows d) (fun r => Gx d (i_x o) r + i_s o r) < feas * Ms.
Proof.
  intros HN H M Ms. unfold statsof, updateStatistics in H. cbn [f_dinf] in H.
  unfold computeResiduals in H. cbn [rs_cx rs_resy rs_resz] in H. change vnorm with norm2 in H. change vdot with ip in H. rewrite !rows_m in H. fold M Ms in H.
  fold (Ax d (i_x o)) in H. change (fun r => rsum (p_n d) (fun i => p_G d r i * i_x o i) + i_s o r) with (fun r => Gx d (i_x o) r + i_s o r) in H.
  change (fun r : nat => rsum (p_n d) (fun i : nat => p_A d r i * i_x o i)) with (Ax d (i_x o)) in H.
  assert (HM : 0 < M) by (unfold M; pose proof (Rmax_r (norm2 (p_n d) (i_x o)) 1); lra).
  assert (HMs : 0 < Ms) by (unfold Ms; pose proof (Rmax_r (norm2 (p_n d) (i_x o) + norm2 (rows d) (i_s o)) 1); lra).
  destruct (Rlt_dec _ _) as [L|NL] in H; [|lra].
  pose proof (Rle_lt_trans _ _ _ (Rmax_l _ _) H) as A. pose proof (Rle_lt_trans _ _ _ (Rmax_r _ _) H) as B.
  assert (AUX : forall a b c, 0 < b -> a / b < c -> a < c * b).
  { intros a b c Hb Hc. apply Rmult_lt_compat_r with (r := b) in Hc; [|exact Hb]. unfold Rdiv in Hc. rewrite Rmult_assoc, Rinv_l, Rmult_1_r in Hc by lra. exact Hc. }
  repeat split; [|apply AUX; assumption|apply AUX; assumption]. apply AUX in L; [lra|exact HM].
Qed.

Lemma primal_certificate d x s y z :
  Forall (fun n => (1 <= n)%nat) (p_q d) -> primal_feasible d x s -> in_closed_cone (p_nl d) (p_q d) z ->
  - (ip (p_p d) (p_b d) y + ip (rows d) (p_h d) z) <= norm2 (p_n d) (Aty_Gtz d y z) * norm2 (p_n d) x.
Proof.
  intros F (HA & HG & HS) HZ. pose proof (cone_dot _ _ _ _ F HS HZ) as D. fold (rows d) in D.
  pose proof (transpose_dot d x y z) as T. pose proof (ip_norm (p_n d) (Aty_Gtz d y z) x) as [N _]. rewrite T in N.
  assert (E1 : ip (p_p d) y (Ax d x) = ip (p_p d) (p_b d) y) by (rewrite ip_sym; apply ip_ext; auto).
  assert (E2 : ip (rows d) z (Gx d x) + ip (rows d) s z = ip (rows d) (p_h d) z).
  { unfold ip. rewrite <- rsum_plus. apply rsum_ext. intros r Hr. rewrite <- (HG r Hr). ring. }
  lra.
Qed.
Lemma dual_certificate d x s y z :
  Forall (fun n => (1 <= n)%nat) (p_q d) -> dual_feasible d y z -> in_closed_cone (p_nl d) (p_q d) s ->
  - ip (p_n d) (p_c d) x <= norm2 (p_p d) y * norm2 (p_p d) (Ax d x) + norm2 (rows d) z * norm2 (rows d) (fun r => Gx d x r + s r).
Proof.
  intros F (HD & HZ) HS. pose proof (cone_dot _ _ _ _ F HS HZ) as D. fold (rows d) in D.
  pose proof (transpose_dot d x y z) as T. pose proof (ip_norm (p_p d) y (Ax d x)) as [_ N1]. pose proof (ip_norm (rows d) z (fun r => Gx d x r + s r)) as [_ N2].
  assert (E1 : ip (p_n d) (Aty_Gtz d y z) x = - ip (p_n d) (p_c d) x).
  { transitivity (rsum (p_n d) (fun i => -1 * (p_c d i * x i))); [|rewrite rsum_scal; unfold ip; ring]. apply rsum_ext. intros i Hi. specialize (HD i Hi).
    replace (Aty_Gtz d y z i) with (- p_c d i) by lra. ring. }
  assert (E2 : ip (rows d) z (fun r => Gx d x r + s r) = ip (rows d) z (Gx d x) + ip (rows d) s z).
  { unfold ip. rewrite <- rsum_plus. apply rsum_ext. intros. ring. }
  lra.
Qed.

(** Near optimality: homogeneous form. *)
Lemma suboptimality d o x s :
  Forall (fun n => (1 <= n)%nat) (p_q d) -> 0 < i_tau o -> in_closed_cone (p_nl d) (p_q d) (i_z o) -> primal_feasible d x s ->
  i_tau o * ip (p_n d) (p_c d) (i_x o) <= i_tau o * (i_tau o * ip (p_n d) (p_c d) x) + ip (rows d) (i_s o) (i_z o)
     + norm2 (p_n d) (emb_x d o) * (norm2 (p_n d) (i_x o) + i_tau o * norm2 (p_n d) x)
     + norm2 (p_p d) (emb_y d o) * norm2 (p_p d) (i_y o) + norm2 (rows d) (emb_z d o) * norm2 (rows d) (i_z o).
Proof.
  intros F HT HZ (HA & HG & HS). pose proof (cone_dot _ _ _ _ F HS HZ) as D. fold (rows d) in D. set (tau := i_tau o) in *.
  pose proof (transpose_dot d x (i_y o) (i_z o)) as T1. pose proof (transpose_dot d (i_x o) (i_y o) (i_z o)) as T2.
  assert (X : forall v, ip (p_n d) (emb_x d o) v = ip (p_n d) (Aty_Gtz d (i_y o) (i_z o)) v + tau * ip (p_n d) (p_c d) v).
  { intros v. unfold ip, emb_x. rewrite <- rsum_scal, <- rsum_plus. apply rsum_ext. intros. fold tau. ring. }
  pose proof (X x) as X1. pose proof (X (i_x o)) as X2.
  assert (E1 : ip (p_p d) (i_y o) (Ax d x) = ip (p_p d) (p_b d) (i_y o)) by (rewrite ip_sym; apply ip_ext; auto).
  assert (E2 : ip (rows d) (i_z o) (Gx d x) + ip (rows d) s (i_z o) = ip (rows d) (p_h d) (i_z o)).
  { unfold ip. rewrite <- rsum_plus. apply rsum_ext. intros r Hr. rewrite <- (HG r Hr). ring. }
  assert (E3 : ip (p_p d) (emb_y d o) (i_y o) = ip (p_p d) (i_y o) (Ax d (i_x o)) - tau * ip (p_p d) (p_b d) (i_y o)).
  { unfold ip, emb_y. rewrite <- rsum_scal, <- rsum_minus. apply rsum_ext. intros. fold tau. ring. }
  assert (E4 : ip (rows d) (emb_z d o) (i_z o) = ip (rows d) (i_z o) (Gx d (i_x o)) + ip (rows d) (i_s o) (i_z o) - tau * ip (rows d) (p_h d) (i_z o)).
  { unfold ip, emb_z. rewrite <- rsum_scal, <- rsum_plus, <- rsum_minus. apply rsum_ext. intros. fold tau. ring. }
  pose proof (ip_norm (p_n d) (emb_x d o) x) as [N1 _]. pose proof (ip_norm (p_n d) (emb_x d o) (i_x o)) as [N2 N2'].
  pose proof (ip_norm (p_p d) (emb_y d o) (i_y o)) as [N3 _]. pose proof (ip_norm (rows d) (emb_z d o) (i_z o)) as [N4 _].
  assert (EQ : tau * ip (p_n d) (p_c d) (i_x o) = ip (p_n d) (emb_x d o) (i_x o) - ip (p_p d) (emb_y d o) (i_y o) - ip (rows d) (emb_z d o) (i_z o)
     + ip (rows d) (i_s o) (i_z o) - tau * (ip (p_n d) (emb_x d o) x - tau * ip (p_n d) (p_c d) x + ip (rows d) s (i_z o))).
  { assert (E5 : ip (p_n d) (emb_x d o) x - tau * ip (p_n d) (p_c d) x + ip (rows d) s (i_z o) = ip (p_p d) (p_b d) (i_y o) + ip (rows d) (p_h d) (i_z o)) by lra.
    rewrite E5. lra. }
  apply (Rmult_le_compat_l tau) in N1; [|lra]. apply (Rmult_le_compat_l tau) in D; [|lra]. rewrite EQ. lra.
Qed.

(** ** The exact Newton step *)
Lemma scal_blk_lin b n x y a c j : scal_blk b n (fun i => a * x i + c * y i) j = a * scal_blk b n x j + c * scal_blk b n y j.
Proof.
  unfold scal_blk. rewrite tdot_lin. destruct j; [ring|]. unfold safeDivision. destruct (Rlt_dec _ _); unfold Rdiv; ring.
Qed.
Lemma W_lin nl q W x y a c : forall i, (i < nl + total q)%nat ->
  conicNTScaling nl q W (fun k => a * x k + c * y k) i = a * conicNTScaling nl q W x i + c * conicNTScaling nl q W y i.
Proof.
  apply by_blocks.
  - intros i Hi. unfold conicNTScaling. rewrite !soc_loop_lt by exact Hi. ring.
  - intros pre n post E j Hj. subst q. unfold shift, conicNTScaling. rewrite !soc_loop_in by exact Hj. apply scal_blk_lin.
Qed.
Lemma scal_blk_ext b n x y j : (1 <= n)%nat -> (forall i, (i < n)%nat -> x i = y i) -> (j < n)%nat -> scal_blk b n x j = scal_blk b n y j.
Proof.
  intros Hn H Hj. unfold scal_blk. rewrite (tdot_ext n (nt_wbar b) x (nt_wbar b) y) by (intros; try reflexivity; apply H; lia). rewrite (H 0%nat) by lia. rewrite (H j) by exact Hj. reflexivity.
Qed.
Lemma W_ext nl q W x y : (forall i, (i < nl + total q)%nat -> x i = y i) -> eqN (nl + total q) (conicNTScaling nl q W x) (conicNTScaling nl q W y).
Proof.
  intros H. apply by_blocks.
  - intros i Hi. unfold conicNTScaling. rewrite !soc_loop_lt by exact Hi. rewrite H by lia. reflexivity.
  - intros pre n post E j Hj. subst q. unfold shift, conicNTScaling. rewrite !soc_loop_in by exact Hj. apply scal_blk_ext; [lia| |exact Hj].
    intros i Hi. unfold shift. apply H. rewrite total_split. lia.
Qed.
Lemma Ax_lin d x y a i : Ax d (fun k => x k + a * y k) i = Ax d x i + a * Ax d y i.
Proof. unfold Ax. rewrite <- rsum_scal, <- rsum_plus. apply rsum_ext. intros. ring. Qed.
Lemma Gx_lin d x y a i : Gx d (fun k => x k + a * y k) i = Gx d x i + a * Gx d y i.
Proof. unfold Gx. rewrite <- rsum_scal, <- rsum_plus. apply rsum_ext. intros. ring. Qed.
Lemma Aty_lin d y z y' z' a i : Aty_Gtz d (fun k => y k + a * y' k) (fun k => z k + a * z' k) i = Aty_Gtz d y z i + a * Aty_Gtz d y' z' i.
Proof. unfold Aty_Gtz. rewrite Rmult_plus_distr_l, <- !rsum_scal.
  rewrite (rsum_ext (p_p d) _ (fun r => p_A d r i * y r + a * (p_A d r i * y' r))) by (intros; ring).
  rewrite (rsum_ext (p_nl d + _) _ (fun r => p_G d r i * z r + a * (p_G d r i * z' r))) by (intros; ring). rewrite !rsum_plus. ring. Qed.
Lemma ip_add n u v w a : ip n u (fun k => v k + a * w k) = ip n u v + a * ip n u w.
Proof. unfold ip. rewrite <- rsum_scal, <- rsum_plus. apply rsum_ext. intros. ring. Qed.
Lemma rsy_eq d o : rs_y (computeResiduals d o) = emb_y d o. Proof. reflexivity. Qed.
Lemma rsz_eq d o : rs_z (computeResiduals d o) = emb_z d o. Proof. reflexivity. Qed.
Lemma rst_eq d o : rs_t (computeResiduals d o) = emb_t d o. Proof. unfold computeResiduals, emb_t. cbn [rs_t]. rewrite rows_m. reflexivity. Qed.

Lemma newton_core d o W sv (sigma dkc a : R) (dst : nat -> R) : i_tau o <> 0 -> exact_solve d (conicNTScaling (p_nl d) (p_q d) W) sv ->
  let Wt := conicNTScaling (p_nl d) (p_q d) W in
  let dir2 := sv (mkDir (fun i => - p_c d i) (p_b d) (p_h d)) in let denom := i_kappa o / i_tau o - cbh_dot d dir2 in denom <> 0 ->
  let dir3 := sv (mkDir (fun i => rs_x (computeResiduals d o) i * (1 - sigma)) (fun i => - rs_y (computeResiduals d o) i * (1 - sigma)) (fun i => (sigma - 1) * rs_z (computeResiduals d o) i + Wt dst i)) in
  let dt := ((1 - sigma) * rs_t (computeResiduals d o) - dkc / i_tau o + cbh_dot d dir3) / denom in
  let dk := - (dkc + i_kappa o * dt) / i_tau o in
  let o' := mkIt (fun i => i_x o i + a * (d_x dir3 i + dt * d_x dir2 i)) (fun i => i_y o i + a * (d_y dir3 i + dt * d_y dir2 i)) (fun i => i_z o i + a * (d_z dir3 i + dt * d_z dir2 i))
    (fun i => i_s o i + a * Wt (fun i => - (dst i + Wt (fun i => d_z dir3 i + dt * d_z dir2 i) i)) i) (i_tau o + a * dt) (i_kappa o + a * dk) in
  let rho := 1 - a * (1 - sigma) in
  (forall i, (i < p_n d)%nat -> emb_x d o' i = rho * emb_x d o i) /\
  (forall r, (r < p_p d)%nat -> emb_y d o' r = rho * emb_y d o r) /\
  (forall r, (r < rows d)%nat -> emb_z d o' r = rho * emb_z d o r) /\
  emb_t d o' = rho * emb_t d o /\
  i_kappa o * dt + i_tau o * dk = - dkc.
Proof.
  intros HT HX Wt dir2 denom HD dir3 dt dk o' rho. fold Wt in HX.
  destruct (HX (mkDir (fun i => - p_c d i) (p_b d) (p_h d))) as (X2 & Y2 & Z2). fold dir2 in X2, Y2, Z2. cbn [d_x d_y d_z] in X2, Y2, Z2.
  pose proof (HX (mkDir (fun i => rs_x (computeResiduals d o) i * (1 - sigma)) (fun i => - rs_y (computeResiduals d o) i * (1 - sigma)) (fun i => (sigma - 1) * rs_z (computeResiduals d o) i + Wt dst i))) as (X3 & Y3 & Z3).
  fold dir3 in X3, Y3, Z3. cbn [d_x d_y d_z] in X3, Y3, Z3.
  rewrite rsy_eq in Y3. rewrite rsz_eq in Z3.
  assert (DT : dt * denom = (1 - sigma) * emb_t d o - dkc / i_tau o + cbh_dot d dir3) by (rewrite <- rst_eq; unfold dt; field; split; assumption).
  split; [|split; [|split; [|split]]].
  - intros i Hi. unfold emb_x at 1. unfold o'. cbn [i_y i_z i_tau]. rewrite !Aty_lin. rewrite (X2 i Hi), (X3 i Hi), resx_eq. unfold emb_x, rho. ring.
  - intros r Hr. unfold emb_y at 1. unfold o'. cbn [i_x i_tau]. rewrite !Ax_lin. rewrite (Y2 r Hr), (Y3 r Hr). unfold emb_y, rho. ring.
  - intros r Hr. unfold emb_z at 1. unfold o'. cbn [i_x i_s i_tau]. rewrite !Gx_lin. specialize (Z2 r Hr). specialize (Z3 r Hr).
    assert (E1 : Wt (fun i => - (dst i + Wt (fun k => d_z dir3 k + dt * d_z dir2 k) i)) r = - Wt dst r - (Wt (Wt (d_z dir3)) r + dt * Wt (Wt (d_z dir2)) r)).
    { unfold Wt at 1. rewrite (W_ext _ _ _ _ (fun i => (-1) * dst i + (-1) * Wt (fun k => d_z dir3 k + dt * d_z dir2 k) i)) by (first [intros; ring | exact Hr]).
      rewrite W_lin by exact Hr. fold Wt.
      unfold Wt at 2. rewrite (W_ext _ _ _ _ (fun i => 1 * Wt (d_z dir3) i + dt * Wt (d_z dir2) i)).
      - rewrite W_lin by exact Hr. fold Wt. ring.
      - intros i Hi. unfold Wt. rewrite (W_ext _ _ _ _ (fun i => 1 * d_z dir3 i + dt * d_z dir2 i)) by (first [intros; ring | exact Hi]). apply W_lin, Hi.
      - exact Hr. }
    rewrite E1. unfold emb_z in *. unfold rho. replace (Gx d (d_x dir2) r) with (p_h d r + Wt (Wt (d_z dir2)) r) by lra.
    replace (Gx d (d_x dir3) r) with ((sigma - 1) * (Gx d (i_x o) r + i_s o r - i_tau o * p_h d r) + Wt dst r + Wt (Wt (d_z dir3)) r) by lra. ring.
  - unfold emb_t at 1. unfold o'. cbn [i_kappa i_x i_y i_z]. rewrite !ip_add.
    set (c3 := ip (p_n d) (p_c d) (d_x dir3)). set (b3 := ip (p_p d) (p_b d) (d_y dir3)). set (h3 := ip (rows d) (p_h d) (d_z dir3)).
    set (c2 := ip (p_n d) (p_c d) (d_x dir2)). set (b2 := ip (p_p d) (p_b d) (d_y dir2)). set (h2 := ip (rows d) (p_h d) (d_z dir2)).
    change (i_kappa o + ip (p_n d) (p_c d) (i_x o) + ip (p_p d) (p_b d) (i_y o) + ip (rows d) (p_h d) (i_z o)) with (emb_t d o).
    fold dk. assert (E : dk = - (dkc / i_tau o) - dt * (i_kappa o / i_tau o)) by (unfold dk; field; exact HT). rewrite E. (* + i_kappa o * dt) / i_tau o = - (dkc / i_tau o) - dt * (i_kappa o / i_tau o)) by (field; exact HT). *)
    transitivity (emb_t d o + a * (- (dkc / i_tau o) + (c3 + b3 + h3) - dt * (i_kappa o / i_tau o - (c2 + b2 + h2)))); [unfold emb_t; ring|]. unfold denom, cbh_dot in DT. change vdot with ip in DT. rewrite !rows_m in DT. fold c2 b2 h2 c3 b3 h3 in DT. rewrite DT. unfold rho. ring.
  - unfold dk. field. exact HT.
Qed.

Lemma newton_residuals S d o W lam sv : i_tau o <> 0 -> exact_solve d (conicNTScaling (p_nl d) (p_q d) W) sv ->
  let dir2 := sv (mkDir (fun i => - p_c d i) (p_b d) (p_h d)) in i_kappa o / i_tau o - cbh_dot d dir2 <> 0 ->
  let w := newton_step S d o W lam sv in let o' := advance o w in let rho := 1 - w_step w * (1 - w_sigma w) in
  (forall i, (i < p_n d)%nat -> emb_x d o' i = rho * emb_x d o i) /\
  (forall r, (r < p_p d)%nat -> emb_y d o' r = rho * emb_y d o r) /\
  (forall r, (r < rows d)%nat -> emb_z d o' r = rho * emb_z d o r) /\
  emb_t d o' = rho * emb_t d o /\
  i_kappa o * w_dtau w + i_tau o * w_dkappa w = - w_dkcomb w.
Proof.
  intros HT HX dir2 HD w o' rho.
  exact (newton_core d o W sv (w_sigma w) (w_dkcomb w) (w_step w) (conicDivision (p_nl d) (p_q d) lam (w_dscomb w)) HT HX HD).
Qed.

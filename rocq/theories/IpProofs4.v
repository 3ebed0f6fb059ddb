From Coq Require Import Reals List Arith Bool Lia Lra Psatz.
From Verif Require Import Base BaseProofs ConicSpec ConeModel ConeSpec ConeProofs ConeProofs2 ConeProofs3 IpModel IpSpec IpProofs IpProofs2 IpProofs3.
Import ListNotations.
Open Scope R_scope.

Lemma loop_steps S d step : forall fuel k code last L, (fuel + k = Datatypes.S (t_maxiters S))%nat -> (1 <= fuel)%nat ->
  (o_steps (ip_loop S d step fuel k code last L) <= t_maxiters S)%nat /\ o_code (ip_loop S d step fuel k code last L) <> NotConverged.
Proof.
  induction fuel as [|fuel IH]; intros k code last L Hf Hf1; [lia|]. clear Hf1. cbn [ip_loop].
  assert (FB : forall r o f c, c <> NotConverged -> fallback S r o f c <> NotConverged).
  { intros. unfold fallback. destruct (convergenceCheck _ _ _ _ _ _); auto; discriminate. }
  destruct (_ && _)%bool; [split; [simpl; lia|apply FB; discriminate]|].
  destruct (convergenceCheck _ _ _ _ _ _); try (split; [simpl; lia|discriminate]).
  destruct (_ && _)%bool; [split; [simpl; lia|apply FB; discriminate]|].
  destruct (Nat.eqb k (t_maxiters S)) eqn:E3; [split; [simpl; lia|apply FB; discriminate]|]. apply Nat.eqb_neq in E3.
  destruct (step k (ls_opt L)).
  - destruct (convergenceCheck _ _ _ _ _ _); (split; [simpl; lia|discriminate]).
  - split; [simpl; lia|discriminate].
  - apply IH; lia.
Qed.

(** Code -> meaning, at one iterate. *)
Lemma check_optimal S m r f t k : In (convergenceCheck S m r f t k) [Optimal; OptimalInacc] ->
  let T := match m with Full => t_full S | Reduced => t_inacc S end in
  f_pres f < t_feas T /\ f_dres f < t_feas T /\ (f_gap f < t_abs T \/ f_relgap f < t_rel T) /\ (rs_cx r < 0 \/ rs_by r + rs_hz r <= t_abs T).
Proof.
  unfold convergenceCheck. cbn zeta. intros H. set (T := match m with Full => t_full S | Reduced => t_inacc S end) in *.
  match type of H with context [if ?b then _ else _] => destruct b eqn:E end.
  - rewrite !andb_true_iff, !orb_true_iff, !ltb_true, leb_true in E. tauto.
  - exfalso. match type of H with context [if ?b then _ else _] => destruct b end; [destruct m; simpl in H; intuition discriminate|].
    match type of H with context [if ?b then _ else _] => destruct b end; destruct m; simpl in H; intuition discriminate.
Qed.
Lemma check_dual S m r f t k : In (convergenceCheck S m r f t k) [DualInf; DualInfInacc] ->
  let T := match m with Full => t_full S | Reduced => t_inacc S end in f_dinf f < t_feas T /\ t < k.
Proof.
  unfold convergenceCheck. cbn zeta. intros H. set (T := match m with Full => t_full S | Reduced => t_inacc S end) in *.
  match type of H with context [if ?b then _ else _] => destruct b end; [destruct m; simpl in H; intuition discriminate|].
  match type of H with context [if ?b then _ else _] => destruct b eqn:E end.
  - rewrite !andb_true_iff, !ltb_true in E. tauto.
  - match type of H with context [if ?b then _ else _] => destruct b end; destruct m; simpl in H; intuition discriminate.
Qed.
Lemma check_primal S m r f t k : In (convergenceCheck S m r f t k) [PrimalInf; PrimalInfInacc] ->
  let T := match m with Full => t_full S | Reduced => t_inacc S end in f_pinf f < t_feas T.
Proof.
  unfold convergenceCheck. cbn zeta. intros H. set (T := match m with Full => t_full S | Reduced => t_inacc S end) in *.
  match type of H with context [if ?b then _ else _] => destruct b end; [destruct m; simpl in H; intuition discriminate|].
  match type of H with context [if ?b then _ else _] => destruct b end; [destruct m; simpl in H; intuition discriminate|].
  match type of H with context [if ?b then _ else _] => destruct b eqn:E end.
  - rewrite orb_true_iff, !andb_true_iff, !ltb_true in E. tauto.
  - destruct m; simpl in H; intuition discriminate.
Qed.

(** Self-adjointness of the scaling without side conditions. *)
Lemma soc_adj b n x y : (1 <= n)%nat -> inner n (scal_blk b n x) y = inner n x (scal_blk b n y).
Proof.
  intros Hn. rewrite !inner_block_dot by exact Hn.
  set (w := nt_wbar b).
  assert (T0 : forall v, scal_blk b n v 0 = nt_eta b * (w 0%nat * v 0%nat + tdot n w v)) by reflexivity. rewrite !T0.
  assert (T1 : tdot n (scal_blk b n x) y = nt_eta b * (tdot n x y + (x 0%nat + safeDivision (tdot n w x) (1 + w 0%nat)) * tdot n w y)).
  { rewrite tdot_sym. rewrite (tdot_lin' n y x w (scal_blk b n x) (nt_eta b) (nt_eta b * (x 0%nat + safeDivision (tdot n w x) (1 + w 0%nat)))).
    - rewrite (tdot_sym n y x), (tdot_sym n y w). ring.
    - intros j Hj. unfold scal_blk. fold w. destruct j; [lia|]. ring. }
  assert (T2 : tdot n x (scal_blk b n y) = nt_eta b * (tdot n x y + (y 0%nat + safeDivision (tdot n w y) (1 + w 0%nat)) * tdot n w x)).
  { rewrite (tdot_lin' n x y w (scal_blk b n y) (nt_eta b) (nt_eta b * (y 0%nat + safeDivision (tdot n w y) (1 + w 0%nat)))).
    - rewrite (tdot_sym n x w). ring.
    - intros j Hj. unfold scal_blk. fold w. destruct j; [lia|]. ring. }
  rewrite T1, T2. assert (safeDivision (tdot n w x) (1 + w 0%nat) * tdot n w y = safeDivision (tdot n w y) (1 + w 0%nat) * tdot n w x).
  { unfold safeDivision. destruct (Rlt_dec _ _); unfold Rdiv; ring. }
  transitivity (nt_eta b * (w 0%nat * x 0%nat * y 0%nat + tdot n w x * y 0%nat + tdot n x y + x 0%nat * tdot n w y + safeDivision (tdot n w x) (1 + w 0%nat) * tdot n w y)); [ring|].
  rewrite H. ring.
Qed.
Lemma W_adj nl q W x y : Forall (fun n => (1 <= n)%nat) q ->
  ip (nl + total q) (conicNTScaling nl q W x) y = ip (nl + total q) x (conicNTScaling nl q W y).
Proof.
  intros F. unfold ip. rewrite !rsum_list. change (inner (nl + total q) (conicNTScaling nl q W x) y = inner (nl + total q) x (conicNTScaling nl q W y)).
  apply inner_blocks.
  - intros i Hi. unfold conicNTScaling. rewrite !soc_loop_lt by exact Hi. ring.
  - intros pre n post E. pose proof (size_in _ _ _ _ E F) as Hn. subst q.
    transitivity (inner n (scal_blk (nth (length pre) (sc_soc W) nt_dummy) n (shift x (nl + total pre))) (shift y (nl + total pre))).
    { unfold inner, sumR. apply sum_ext. intros j Hj. apply in_seq in Hj. f_equal. unfold shift at 1, conicNTScaling. rewrite soc_loop_in by lia. reflexivity. }
    rewrite soc_adj by exact Hn.
    { unfold inner, sumR. apply sum_ext. intros j Hj. apply in_seq in Hj. f_equal. symmetry. unfold shift at 1, conicNTScaling. rewrite soc_loop_in by lia. reflexivity. }
Qed.

(** With an exact solve the denominator of the tau step is kappa/tau + |W dz2|^2. *)
Lemma denom_value d W sv : Forall (fun n => (1 <= n)%nat) (p_q d) -> exact_solve d (conicNTScaling (p_nl d) (p_q d) W) sv ->
  let dir2 := sv (mkDir (fun i => - p_c d i) (p_b d) (p_h d)) in let Wz := conicNTScaling (p_nl d) (p_q d) W (d_z dir2) in
  cbh_dot d dir2 = - ip (rows d) Wz Wz.
Proof.
  intros F HX dir2 Wz. destruct (HX (mkDir (fun i => - p_c d i) (p_b d) (p_h d))) as (X2 & Y2 & Z2). fold dir2 in X2, Y2, Z2. cbn [d_x d_y d_z] in X2, Y2, Z2.
  unfold cbh_dot. change vdot with ip. rewrite rows_m. pose proof (transpose_dot d (d_x dir2) (d_y dir2) (d_z dir2)) as T.
  assert (E1 : ip (p_n d) (p_c d) (d_x dir2) = - ip (p_n d) (Aty_Gtz d (d_y dir2) (d_z dir2)) (d_x dir2)).
  { transitivity (rsum (p_n d) (fun i => -1 * (Aty_Gtz d (d_y dir2) (d_z dir2) i * d_x dir2 i))); [|rewrite rsum_scal; unfold ip; ring].
    apply rsum_ext. intros i Hi. rewrite (X2 i Hi). ring. }
  assert (E2 : ip (p_p d) (p_b d) (d_y dir2) = ip (p_p d) (d_y dir2) (Ax d (d_x dir2))) by (rewrite ip_sym; apply ip_ext; [reflexivity|]; intros i Hi; symmetry; apply Y2, Hi).
  assert (E3 : ip (rows d) (p_h d) (d_z dir2) = ip (rows d) (d_z dir2) (Gx d (d_x dir2)) - ip (rows d) (conicNTScaling (p_nl d) (p_q d) W Wz) (d_z dir2)).
  { unfold ip. rewrite <- rsum_minus. apply rsum_ext. intros r Hr. rewrite <- (Z2 r Hr). unfold Wz. ring. }
  rewrite E1, E2, E3, T. unfold rows. rewrite W_adj by exact F. fold Wz. unfold rows. ring.
Qed.

(** One exact step, then the whole run. *)
Definition settings_ok (S : ipset) : Prop :=
  0 <= t_minstep S <= 1 /\ 0 <= t_maxstep S <= 1 /\ 0 <= t_scal S <= 1 /\ 0 <= t_mincent S <= 1 /\ 0 <= t_maxcent S <= 1.
Lemma step_range S big nl q lam ds dz t dt k dk : 0 <= t_minstep S <= 1 -> 0 <= t_maxstep S <= 1 ->
  0 <= lineSearch big (t_maxstep S) (t_minstep S) nl q lam ds dz t dt k dk <= 1.
Proof.
  intros H1 H2. unfold lineSearch. set (a := socs_alpha _ _ _ _ _ _). pose proof (Rmax_r (Rmin a (t_maxstep S)) (t_minstep S)). pose proof (Rmin_r a (t_maxstep S)).
  split; [lra|]. apply Rmax_lub; lra.
Qed.
Lemma factor_range S d o W lam sv : settings_ok S -> let w := newton_step S d o W lam sv in 0 <= 1 - w_step w * (1 - w_sigma w) <= 1.
Proof.
  intros (H1 & H2 & H3 & H4 & H5) w.
  assert (HS : 0 <= w_step w <= 1).
  { unfold w, newton_step. cbn zeta. cbn [w_step]. match goal with |- 0 <= ?l * _ <= 1 => pose proof (step_range S (t_big S) (p_nl d) (p_q d) lam _ _ _ _ _ _ H1 H2 : 0 <= l <= 1) end. nra. }
  assert (HG : 0 <= w_sigma w <= 1).
  { unfold w, newton_step. cbn zeta. cbn [w_sigma]. match goal with |- 0 <= Rmax (Rmin ?a ?b) ?c <= 1 => pose proof (Rmax_r (Rmin a b) c); pose proof (Rmin_r a b); split; [lra|]; apply Rmax_lub; lra end. }
  nra.
Qed.
Lemma run_residuals S d solve o0 : Forall (fun n => (1 <= n)%nat) (p_q d) -> settings_ok S ->
  (forall k W sv, solve k W = Some sv -> exact_solve d (conicNTScaling (p_nl d) (p_q d) W) sv) ->
  (forall k o, visited (newton_inner S d solve) o0 k o -> 0 < i_tau o /\ 0 < i_kappa o) ->
  forall k o, visited (newton_inner S d solve) o0 k o -> exists theta, 0 <= theta <= 1 /\
  (forall i, (i < p_n d)%nat -> emb_x d o i = theta * emb_x d o0 i) /\
  (forall r, (r < p_p d)%nat -> emb_y d o r = theta * emb_y d o0 r) /\
  (forall r, (r < rows d)%nat -> emb_z d o r = theta * emb_z d o0 r) /\
  emb_t d o = theta * emb_t d o0.
Proof.
  intros F HS HX HP k o V. induction V as [|k o o' a V IH ST].
  - exists 1. repeat split; intros; try lra.
  - destruct IH as (th & Hth & I1 & I2 & I3 & I4). unfold newton_inner in ST. destruct (updateNTScalings _ _ _ _) as [[W lam]|]; [|discriminate].
    destruct (solve k W) as [sv|] eqn:Es; [|discriminate]. injection ST as <- <-. specialize (HX k W sv Es). destruct (HP k o V) as [T0 K0].
    pose proof (factor_range S d o W lam sv HS) as FR. cbn zeta in FR.
    pose proof (newton_residuals S d o W lam sv ltac:(lra) HX) as NR. cbn zeta in NR.
    destruct NR as (N1 & N2 & N3 & N4 & _).
    { pose proof (denom_value d W sv F HX) as DV. cbn zeta in DV. rewrite DV. pose proof (ip_pos (rows d) (conicNTScaling (p_nl d) (p_q d) W (d_z (sv (mkDir (fun i => - p_c d i) (p_b d) (p_h d)))))).
      assert (0 < i_kappa o / i_tau o) by (apply Rdiv_lt_0_compat; assumption). lra. }
    set (rho := 1 - _) in *. exists (rho * th). split; [nra|]. repeat split.
    + intros i Hi. rewrite N1, I1 by exact Hi. ring.
    + intros i Hi. rewrite N2, I2 by exact Hi. ring.
    + intros i Hi. rewrite N3, I3 by exact Hi. ring.
    + rewrite N4, I4. ring.
Qed.

From Coq Require Import Reals List Arith Bool Lia Lra Psatz.
From Verif Require Import Base BaseProofs ConicSpec ConeModel ConeSpec ConeProofs ConeProofs2 ConeProofs3 IpModel IpSpec IpProofs.
Import ListNotations.
Open Scope R_scope.

Lemma ltb_true a b : ltb a b = true <-> a < b.
Proof. unfold ltb. destruct (Rlt_dec a b); split; intros; try lra; try discriminate; auto. Qed.
Lemma leb_true a b : leb a b = true <-> a <= b.
Proof. unfold leb. destruct (Rle_dec a b); split; intros; try lra; try discriminate; auto. Qed.
Lemma eqb_true a b : eqb a b = true <-> a = b.
Proof. unfold eqb. destruct (Req_EM_T a b); split; intros; try lra; try discriminate; auto. Qed.

Definition statsof (S : ipset) (d : pdata) (o : itr) : info := updateStatistics S d o (computeResiduals d o).

Lemma better_gap S f g : isBetterThan S f g = true -> f_gap f < f_gap g /\ f_merit f < f_merit g.
Proof.
  unfold isBetterThan, pos_less. intros H.
  destruct (negb (eqb (f_pinf f) (t_nan S)) && ltb 1 (f_kot f))%bool; [destruct (negb (eqb (f_pinf g) (t_nan S)))|];
    rewrite !andb_true_iff, !ltb_true in H; tauto.
Qed.

Section loop.
Variables (S : ipset) (d : pdata) (step : nat -> itr -> stepres) (o0 : itr).
Notation stats := (statsof S d).
Notation cr := (computeResiduals d).

Record good_outcome (out : outc) : Prop := {
  go_visited : exists k, (k <= t_maxiters S)%nat /\ visited step o0 k (o_opt out);
  go_info : o_info out = stats (o_opt out);
  go_steps : (o_steps out <= t_maxiters S)%nat;
  go_full : In (o_code out) [Optimal; DualInf; PrimalInf] ->
     convergenceCheck S Full (cr (o_opt out)) (stats (o_opt out)) (i_tau (o_opt out)) (i_kappa (o_opt out)) = o_code out;
  go_inacc : In (o_code out) [OptimalInacc; DualInfInacc; PrimalInfInacc] ->
     exists k o', visited step o0 k o' /\ convergenceCheck S Reduced (cr o') (stats (o_opt out)) (i_tau (o_opt out)) (i_kappa (o_opt out)) = o_code out;
  go_final : o_code out <> NotConverged;
  go_scaled : o_scaled out = true \/ In (o_code out) [PrSlacksLeaveCone; Indeterminate];
  go_gap : In (o_code out) [Optimal; DualInf; PrimalInf; Indeterminate] \/ f_gap (stats (o_opt out)) <= f_gap (stats o0) }.

Lemma full_code r f t k : In (convergenceCheck S Full r f t k) [Optimal; DualInf; PrimalInf; NotConverged].
Proof. unfold convergenceCheck. repeat match goal with |- context [if ?b then _ else _] => destruct b end; simpl; auto. Qed.
Lemma red_code r f t k : In (convergenceCheck S Reduced r f t k) [OptimalInacc; DualInfInacc; PrimalInfInacc; NotConverged].
Proof. unfold convergenceCheck. repeat match goal with |- context [if ?b then _ else _] => destruct b end; simpl; auto. Qed.

(** Leaving the loop with the (visited) iterate o after the reduced check. *)
Lemma good_fallback k j o' o c b : (k <= t_maxiters S)%nat -> (j <= t_maxiters S)%nat -> visited step o0 k o' -> visited step o0 j o -> f_gap (stats o) <= f_gap (stats o0) ->
  In c [PrSearchDirection; ReachMaxIters] \/ (c = PrSlacksLeaveCone) -> (b = true \/ (b = false /\ c = PrSlacksLeaveCone /\ convergenceCheck S Reduced (cr o') (stats o) (i_tau o) (i_kappa o) = NotConverged)) ->
  good_outcome (mkOut (fallback S (cr o') o (stats o) c) o b (stats o) k).
Proof.
  intros Hk Hj V' V HG Hc Hb. unfold fallback. pose proof (red_code (cr o') (stats o) (i_tau o) (i_kappa o)) as Hr.
  destruct (convergenceCheck S Reduced (cr o') (stats o) (i_tau o) (i_kappa o)) eqn:E; simpl in Hr;
    try (exfalso; repeat (destruct Hr as [Hr|Hr]; [discriminate|]); exact Hr);
    (constructor; simpl; [exists j; auto|reflexivity|exact Hk|..]).
  all: try (intros _; exists k, o'; auto; fail).
  all: try (intros HI; repeat (destruct HI as [HI|HI]; [congruence|]); destruct HI; fail).
  all: try discriminate.
  all: try (destruct Hb as [ -> | (_ & _ & HH)]; [auto|discriminate]; fail).
  all: try (right; exact HG).
  - intros HI. destruct Hc as [Hc| ->]; [|repeat (destruct HI as [HI|HI]; [congruence|]); destruct HI].
    simpl in Hc. repeat (destruct Hc as [<-|Hc]; [repeat (destruct HI as [HI|HI]; [congruence|]); destruct HI|]). destruct Hc.
  - intros HI. destruct Hc as [Hc| ->]; [|repeat (destruct HI as [HI|HI]; [congruence|]); destruct HI].
    simpl in Hc. repeat (destruct Hc as [<-|Hc]; [repeat (destruct HI as [HI|HI]; [congruence|]); destruct HI|]). destruct Hc.
  - destruct Hc as [Hc| ->]; [|discriminate]. simpl in Hc. repeat (destruct Hc as [<-|Hc]; [discriminate|]). destruct Hc.
  - destruct Hb as [ -> | (-> & -> & _)]; auto.
Qed.

Definition loop_inv (k : nat) (L : lstate) : Prop :=
  visited step o0 k (ls_opt L) /\
  (k = 0%nat /\ ls_opt L = o0 \/ (exists j, (j < k)%nat /\ visited step o0 j (ls_best L)) /\ ls_binfo L = stats (ls_best L) /\ f_gap (ls_binfo L) <= f_gap (stats o0)).

Lemma loop_good : (1 <= t_maxiters S)%nat -> forall fuel k code last L, (fuel + k = Datatypes.S (t_maxiters S))%nat -> (1 <= fuel)%nat -> loop_inv k L ->
  good_outcome (ip_loop S d step fuel k code last L).
Proof.
  intros HM. induction fuel as [|fuel IH]; intros k code last L Hf Hf1 [HV HI]; [lia|]. clear Hf1.
  cbn [ip_loop]. set (o := ls_opt L) in *. change (updateStatistics S d o (cr o)) with (stats o).
  destruct (Nat.ltb 0 k && (ltb (t_safeguard S * ls_prev L) (f_pres (stats o)) || ltb (f_gap (stats o)) 0))%bool eqn:E1.
  { apply andb_true_iff in E1 as [Hk _]. apply Nat.ltb_lt in Hk. destruct HI as [[-> _]|((j & Hj & Vj) & Hb & HG)]; [lia|]. rewrite Hb in *.
    apply good_fallback with (j := j); auto; simpl; auto; lia. }
  clear E1. destruct (convergenceCheck S Full (cr o) (stats o) (i_tau o) (i_kappa o)) eqn:EC.
  all: try (pose proof (full_code (cr o) (stats o) (i_tau o) (i_kappa o)) as FC; rewrite EC in FC; simpl in FC; exfalso; intuition discriminate).
  1, 2, 3: constructor; simpl; [exists k; split; [lia|exact HV]|reflexivity|lia|intros _; exact EC|intros HX; exfalso; intuition discriminate|discriminate|auto|left; auto].
  destruct (Nat.ltb 0 k && eqb (ls_step L) (t_minstep S * t_scal S))%bool eqn:E2.
  { apply andb_true_iff in E2 as [Hk _]. apply Nat.ltb_lt in Hk. destruct HI as [[-> _]|((j & Hj & Vj) & Hb & HG)]; [lia|]. rewrite Hb in *.
    apply good_fallback with (j := j); auto; simpl; auto; lia. }
  clear E2. destruct (Nat.eqb k (t_maxiters S)) eqn:E3.
  { apply Nat.eqb_eq in E3. destruct HI as [[-> _]|((j & Hj & Vj) & Hb & HG)]; [lia|]. rewrite Hb in *.
    destruct (isBetterThan S (stats o) (stats (ls_best L))) eqn:EB.
    - apply better_gap in EB. apply good_fallback with (j := k); [lia|lia|exact HV|exact HV|lra|left; right; left; reflexivity|left; reflexivity].
    - apply good_fallback with (j := j); auto; simpl; auto; lia. }
  apply Nat.eqb_neq in E3.
  set (better := (Nat.eqb k 0 || isBetterThan S (stats o) (ls_binfo L))%bool).
  assert (HB : exists j, (j <= k)%nat /\ visited step o0 j (if better then o else ls_best L)).
  { destruct better eqn:EB; [exists k; auto|]. destruct HI as [[-> _]|((j & Hj & Vj) & _)]; [discriminate|]. exists j. split; [lia|exact Vj]. }
  assert (HS : (if better then stats o else ls_binfo L) = stats (if better then o else ls_best L)).
  { destruct better eqn:EB; [reflexivity|]. destruct HI as [[-> _]|(_ & Hb & _)]; [discriminate|exact Hb]. }
  assert (HG : f_gap (if better then stats o else ls_binfo L) <= f_gap (stats o0)).
  { destruct better eqn:EB.
    - destruct HI as [[_ HO]|(_ & Hb & HG)]; [rewrite HO; lra|]. unfold better in EB. apply orb_true_iff in EB as [EB|EB].
      + apply Nat.eqb_eq in EB. subst k. inversion HV; subst. lra.
      + apply better_gap in EB. lra.
    - destruct HI as [[-> _]|(_ & Hb & HG)]; [discriminate|exact HG]. }
  destruct HB as (j & Hj & Vj). rewrite HS in *.
  destruct (step k o) as [| |o' a] eqn:ES.
  - pose proof (good_fallback k j o (if better then o else ls_best L) PrSlacksLeaveCone) as GF. unfold fallback in GF.
    destruct (convergenceCheck S Reduced (cr o) (stats (if better then o else ls_best L)) _ _) eqn:EC2; apply GF; simpl; auto; try lia.
  - constructor; simpl; [exists k; split; [lia|exact HV]|reflexivity|lia|intros HX; exfalso; intuition discriminate|intros HX; exfalso; intuition discriminate|discriminate|right; right; left; reflexivity|left; right; right; right; left; reflexivity].
  - apply IH; [lia|lia|]. split; simpl.
    + eapply visitS; eassumption.
    + right. split; [exists j; split; [lia|exact Vj]|]. auto.
Qed.
Lemma optimize_good best0 binfo0 last0 : (1 <= t_maxiters S)%nat -> good_outcome (ip_optimize S d step o0 best0 binfo0 last0).
Proof.
  intros HM. unfold ip_optimize. apply loop_good; [exact HM|lia|lia|]. split; simpl; [constructor|]. left. auto.
Qed.
End loop.

(** The result depends only on the steps made at iterations below the limit. *)
Lemma loop_calls S d step step' : (forall k o, (k < t_maxiters S)%nat -> step k o = step' k o) ->
  forall fuel k code last L, (fuel + k = Datatypes.S (t_maxiters S))%nat -> ip_loop S d step fuel k code last L = ip_loop S d step' fuel k code last L.
Proof.
  intros H. induction fuel as [|fuel IH]; intros k code last L Hf; [reflexivity|]. cbn [ip_loop].
  destruct (_ && _)%bool; [reflexivity|]. destruct (convergenceCheck _ _ _ _ _ _); try reflexivity.
  destruct (_ && _)%bool; [reflexivity|]. destruct (Nat.eqb k (t_maxiters S)) eqn:E3; [reflexivity|].
  apply Nat.eqb_neq in E3. rewrite H by lia. destruct (step' k (ls_opt L)); try reflexivity. apply IH. lia.
Qed.

(** ** Meaning of the statistics *)
Lemma Rmax_1_id a : 1 <= a -> Rmax a 1 = a. Proof. intros. apply Rmax_left. lra. Qed.
Lemma inires_ge n v : 1 <= inires n v. Proof. apply Rmax_l. Qed.

Lemma resx_eq d o i : rs_x (computeResiduals d o) i = - emb_x d o i.
Proof. unfold computeResiduals, emb_x, Aty_Gtz. cbn [rs_x]. rewrite rows_m. unfold rows. ring. Qed.
Lemma stat_pres S d o feas : 0 < i_tau o -> f_pres (statsof S d o) < feas ->
  norm2 (p_p d) (emb_y d o) / i_tau o < feas * scale_y d o /\ norm2 (rows d) (emb_z d o) / i_tau o < feas * scale_z d o.
Proof.
  intros HT H. unfold statsof, updateStatistics in H. cbn [f_pres] in H. change vnorm with norm2 in H. rewrite !rows_m in H.
  change (norm2 (p_p d) (rs_y (computeResiduals d o))) with (norm2 (p_p d) (emb_y d o)) in H.
  change (norm2 (rows d) (rs_z (computeResiduals d o))) with (norm2 (rows d) (emb_z d o)) in H.
  pose proof (inires_ge (p_p d) (p_b d)). pose proof (inires_ge (rows d) (p_h d)). pose proof (norm2_pos (p_n d) (i_x o)). pose proof (norm2_pos (rows d) (i_s o)).
  rewrite !Rmax_1_id in H by lra. unfold inires in *. change vnorm with norm2 in *. fold (scale_y d o) in H. fold (scale_z d o) in H.
  assert (Py : 0 < scale_y d o) by (unfold scale_y; lra). assert (Pz : 0 < scale_z d o) by (unfold scale_z; lra).
  assert (HH : Rmax (norm2 (p_p d) (emb_y d o) / scale_y d o) (norm2 (rows d) (emb_z d o) / scale_z d o) < feas * i_tau o).
  { apply Rmult_lt_reg_r with (/ i_tau o); [apply Rinv_0_lt_compat; lra|]. rewrite Rmult_assoc, Rinv_r by lra. rewrite Rmult_1_r. exact H. }
  pose proof (Rle_lt_trans _ _ _ (Rmax_l _ _) HH) as A. pose proof (Rle_lt_trans _ _ _ (Rmax_r _ _) HH) as B. 
  assert (AUX : forall a b, 0 < b -> a / b < feas * i_tau o -> a / i_tau o < feas * b).
  { intros a b Hb Hab. apply Rmult_lt_reg_r with (i_tau o); [exact HT|]. replace (a / i_tau o * i_tau o) with (a / b * b) by (field; lra).
    replace (feas * b * i_tau o) with (feas * i_tau o * b) by ring. apply Rmult_lt_compat_r; assumption. }
  split; apply AUX; assumption.
Qed.
Lemma stat_dres S d o feas : 0 < i_tau o -> f_dres (statsof S d o) < feas -> norm2 (p_n d) (emb_x d o) / i_tau o < feas * scale_x d o.
Proof.
  intros HT H. unfold statsof, updateStatistics in H. cbn [f_dres] in H. change vnorm with norm2 in H. rewrite !rows_m in H.
  rewrite (norm2_opp (p_n d) _ (emb_x d o)) in H by (intros; apply resx_eq).
  pose proof (inires_ge (p_n d) (p_c d)). pose proof (norm2_pos (p_p d) (i_y o)). pose proof (norm2_pos (rows d) (i_z o)).
  rewrite !Rmax_1_id in H by lra. unfold inires in *. change vnorm with norm2 in *. fold (scale_x d o) in H.
  assert (Px : 0 < scale_x d o) by (unfold scale_x; lra).
  apply Rmult_lt_reg_r with (/ scale_x d o); [apply Rinv_0_lt_compat; lra|]. rewrite (Rmult_assoc feas), Rinv_r by lra. rewrite Rmult_1_r.
  eapply Rle_lt_trans; [|exact H]. right. field. lra.
Qed.
Lemma stat_gap S d o t : 0 < i_tau o -> t_rel t <= t_nan S -> f_gap (statsof S d o) < t_abs t \/ f_relgap (statsof S d o) < t_rel t -> gap_within t d o.
Proof.
  intros HT HN H. unfold statsof, updateStatistics in H. cbn [f_gap f_relgap] in H. unfold gap_within.
  unfold computeResiduals in H. cbn [rs_cx rs_by rs_hz] in H. change vdot with ip in H. rewrite !rows_m in H.
  rewrite (Rplus_comm (ip (rows d) (p_h d) (i_z o))) in H. set (pc := ip (p_n d) (p_c d) (i_x o) / i_tau o) in *.
  set (dc := - (ip (p_p d) (p_b d) (i_y o) + ip (rows d) (p_h d) (i_z o)) / i_tau o) in *. set (g := ip (rows d) (i_s o) (i_z o)) in *. cbn zeta.
  assert (AUX : forall a, 0 < a -> g / a < t_rel t -> g < t_rel t * a).
  { intros a Ha Hg. apply Rmult_lt_reg_r with (/ a); [apply Rinv_0_lt_compat; lra|]. rewrite Rmult_assoc, Rinv_r by lra. rewrite Rmult_1_r. exact Hg. }
  destruct H as [H|H]; [left; exact H|]. destruct (Rlt_dec pc 0).
  - right; left. split; [assumption|]. apply AUX; [lra|exact H].
  - destruct (Rlt_dec 0 dc); [|lra]. right; right. split; [lra|]. split; [assumption|]. apply AUX; [lra|exact H].
Qed.

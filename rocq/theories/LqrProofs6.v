(** * The iterations *)
From Coq Require Import Reals List Arith ZArith Bool Lia Lra FunctionalExtensionality.
From Verif Require Import Base BaseProofs IpModel BnbProofs LbfgsProofs LqrModel LqrSpec LqrProofs LqrProofs2 LqrProofs3 LqrProofs4 LqrProofs5.
Import ListNotations.
Open Scope R_scope.

Section It.
Variable S : stgs.
Variable dyn : vec -> ctrl -> nat -> vec.
Variable obj : vec -> ctrl -> nat -> bool -> R.
Variable qp : (vec -> R) -> vec -> vec -> vec.
Notation T := (s_tdim S).
Record consistent (x0 : vec) (xs : sseq) (us : cseq) (cost : R) : Prop := {
  con_init : xs 0%nat = x0;
  con_dyn : forall t, (t < T)%nat -> xs (t + 1)%nat = internal_dynamics S dyn (xs t) (us t) t;
  con_lim : s_limits S = true -> forall t i, (t < T)%nat -> s_umin S i <= s_umax S i -> s_umin S i <= ff (us t) i <= s_umax S i;
  con_cost : cost = sum T (fun t => obj (xs t) (us t) t false) + obj (xs T) ctrl0 T true }.
Lemma apply_consistent xn un : let F := applyController S dyn obj xn un in consistent (xn 0%nat) (f_x F) (f_u F) (newCost S F).
Proof.
  cbv zeta. destruct (apply_ok S dyn obj xn un) as (I1 & I2 & I3 & _). set (F := applyController S dyn obj xn un) in *. constructor; auto.
  - intros t Ht. apply I2. exact Ht.
  - intros HL t i Ht Hi. destruct (I2 t Ht) as (-> & _). cbn [ff]. unfold law. rewrite HL. now apply clip_in.
  - unfold newCost. replace (T + 1)%nat with (Datatypes.S T) by lia. cbn [rsum]. rewrite I3, sum_rsum. f_equal. apply rsum_ext. intros t Ht. apply I2. exact Ht.
Qed.
Lemma rollout_is alphas xs us F0 : alphas <> [] -> exists a, In a alphas /\ initial_rollout S dyn obj alphas xs us F0 = applyController S dyn obj xs (seqscal a us).
Proof.
  revert F0. induction alphas as [|a al IH]; intros F0 H; [congruence|]. cbn [initial_rollout]. destruct (f_div (applyController S dyn obj xs (seqscal a us))) eqn:E.
  - destruct al as [|a' al']; [exists a; split; [now left|reflexivity]|]. destruct (IH (applyController S dyn obj xs (seqscal a us)) ltac:(discriminate)) as (a2 & H2 & ->). exists a2. split; [now right|reflexivity].
  - exists a. split; [now left|reflexivity].
Qed.
Lemma rollout_div alphas xs us F0 : alphas <> [] -> f_div (initial_rollout S dyn obj alphas xs us F0) = true -> forall a, In a alphas -> f_div (applyController S dyn obj xs (seqscal a us)) = true.
Proof.
  revert F0. induction alphas as [|a al IH]; intros F0 Hne H; [congruence|]. cbn [initial_rollout] in H. destruct (f_div (applyController S dyn obj xs (seqscal a us))) eqn:E.
  - intros b [<-|Hb]; [exact E|]. apply (IH (applyController S dyn obj xs (seqscal a us))); auto. intros ->. destruct Hb.
  - congruence.
Qed.
Lemma line_search_ok alphas L bs F F' acc : line_search S dyn obj alphas L bs F = (F', acc) ->
  match acc with
  | None => True
  | Some a => In a alphas /\ F' = applyController S dyn obj (l_x L) (seqplus (l_u L) (seqscal a bs)) /\ 0 < cost_change S L F'
  end.
Proof.
  revert F. induction alphas as [|a al IH]; intros F E; cbn [line_search] in E; [injection E as <- <-; exact I|].
  destruct (ltb 0 (cost_change S L (applyController S dyn obj (l_x L) (seqplus (l_u L) (seqscal a bs))))) eqn:E1.
  - injection E as <- <-. apply ltb_true in E1. repeat split; auto. now left.
  - apply IH in E. destruct acc; auto. destruct E as (E2 & E3 & E4). repeat split; auto. now right.
Qed.
(** What an iteration does to the trajectory. *)
Definition result (o : msg * lstate + lstate) : lstate := match o with inl (_, L) => L | inr L => L end.
Lemma iter_effect L o : lqr_iter S dyn obj qp L o ->
  (l_x (result o) = l_x L /\ l_u (result o) = l_u L /\ l_cost (result o) = l_cost L) \/
  (exists a bs F, In a (s_alphas S) /\ F = applyController S dyn obj (l_x L) (seqplus (l_u L) (seqscal a bs)) /\
     l_x (result o) = f_x F /\ l_u (result o) = f_u F /\ l_cost (result o) = newCost S F /\ l_f (result o) = F /\ l_devs (result o) = true /\ 0 < cost_change S L F).
Proof.
  intros H. destruct H as [ds flag bs mult reg Hd Hb Hg | ds flag bs mult reg F acc Hd Hb Hg HF]; [left; cbn; auto|].
  destruct acc as [a|].
  - right. destruct flag; [|discriminate]. symmetry in HF. apply line_search_ok in HF. destruct HF as (Ha & -> & Hc). exists a, bs, (applyController S dyn obj (l_x L) (seqplus (l_u L) (seqscal a bs))).
    destruct (ltb (rmin_list (s_alphas S)) a), (ltb (Rabs (cost_change S L (applyController S dyn obj (l_x L) (seqplus (l_u L) (seqscal a bs))))) (s_costtol S)); cbn; repeat split; auto.
  - left. cbv zeta. destruct (ltb (s_maxreg S) (Rmax (reg * incr_mult S mult) (s_minreg S))); cbn; auto.
Qed.
Lemma cost_change_drop L F : 0 < cost_change S L F -> newCost S F < l_cost L.
Proof. unfold cost_change. destruct (f_div F); [|lra]. assert (0 < 10 ^ 10) by (apply pow_lt; lra). lra. Qed.
Lemma iter_consistent x0 L o : lqr_iter S dyn obj qp L o -> consistent x0 (l_x L) (l_u L) (l_cost L) -> consistent x0 (l_x (result o)) (l_u (result o)) (l_cost (result o)).
Proof.
  intros H HC. destruct (iter_effect L o H) as [(-> & -> & ->)|(a & bs & F & _ & -> & -> & -> & -> & _)]; [exact HC|].
  rewrite <- (con_init _ _ _ _ HC). apply apply_consistent.
Qed.
Lemma iter_drop L o : lqr_iter S dyn obj qp L o -> l_cost (result o) < l_cost L \/ (l_x (result o) = l_x L /\ l_u (result o) = l_u L /\ l_cost (result o) = l_cost L).
Proof.
  intros H. destruct (iter_effect L o H) as [(-> & -> & ->)|(a & bs & F & _ & -> & -> & -> & -> & _ & _ & Hc)]; [right; auto|]. left. now apply cost_change_drop.
Qed.
Lemma start_consistent xs us bs ds F0 L : s_alphas S <> [] -> start S dyn obj xs us bs ds F0 = inr L -> consistent (xs 0%nat) (l_x L) (l_u L) (l_cost L).
Proof.
  intros Hne E. unfold start in E. destruct (rollout_is (s_alphas S) xs us F0 Hne) as (a & _ & Ea). rewrite Ea in E. destruct (f_div _); [discriminate|]. injection E as <-. cbn. apply apply_consistent.
Qed.
Lemma visited_consistent xs us bs ds F0 i L : s_alphas S <> [] -> visited S dyn obj qp xs us bs ds F0 i L -> consistent (xs 0%nat) (l_x L) (l_u L) (l_cost L).
Proof.
  intros Hne H. induction H as [L H|i L L' H IH Hi Hit]; [now apply (start_consistent _ _ _ _ _ _ Hne H)|]. apply (iter_consistent _ _ _ Hit IH).
Qed.
Lemma runs_consistent x0 i L o : lqr_runs S dyn obj qp i L o -> consistent x0 (l_x L) (l_u L) (l_cost L) -> consistent x0 (l_x (snd o)) (l_u (snd o)) (l_cost (snd o)).
Proof.
  intros H. induction H as [i L Hi|i L [m L'] Hi Hit|i L L' o Hi Hit Hr IH]; intros HC; [exact HC|apply (iter_consistent _ _ _ Hit HC)|]. apply IH. apply (iter_consistent _ _ _ Hit HC).
Qed.
Lemma runs_drop i L o : lqr_runs S dyn obj qp i L o -> l_cost (snd o) < l_cost L \/ (l_x (snd o) = l_x L /\ l_u (snd o) = l_u L /\ l_cost (snd o) = l_cost L).
Proof.
  intros H. induction H as [i L Hi|i L [m L'] Hi Hit|i L L' o Hi Hit Hr IH]; [right; auto|apply (iter_drop _ _ Hit)|].
  destruct (iter_drop _ _ Hit) as [H1|(H1 & H2 & H3)]; cbn in *; destruct IH as [H4|(H4 & H5 & H6)].
  - left. lra.
  - left. lra.
  - left. lra.
  - right. rewrite H4, H5, H6. auto.
Qed.
(** ** Termination *)
Hypothesis Hincr : 1 < s_incr S.
Hypothesis Hmin : 0 < s_minreg S.
Lemma incr_ge mult : s_incr S <= incr_mult S mult. Proof. apply Rmax_r. Qed.
Lemma bp_total ds cost un : forall k bs mult reg, s_minreg S <= reg -> s_maxreg S < reg * s_incr S ^ k -> exists o, bp_runs S qp ds cost un bs mult reg o.
Proof.
  induction k as [|k IH]; intros bs mult reg Hr Hk; destruct (optimizeController S qp ds cost reg un bs) as [[bs' [t|]] Vs] eqn:E.
  - eexists. eapply bp_stop; [exact E|]. cbn in Hk. assert (I := incr_ge mult). apply Rlt_le_trans with (reg * incr_mult S mult); [nra|apply Rmax_l].
  - eexists. eapply bp_ok. exact E.
  - destruct (Rle_or_lt (Rmax (reg * incr_mult S mult) (s_minreg S)) (s_maxreg S)) as [C|C]; [|eexists; eapply bp_stop; [exact E|exact C]].
    destruct (IH bs' (incr_mult S mult) (Rmax (reg * incr_mult S mult) (s_minreg S))) as (o & Ho); [apply Rmax_r| |exists o; eapply bp_again; [exact E|exact C|exact Ho]].
    apply Rlt_le_trans with (1 := Hk). cbn [pow]. rewrite <- Rmult_assoc. assert (P : 0 < s_incr S ^ k) by (apply pow_lt; lra). assert (I := incr_ge mult). apply Rmult_le_compat_r; [lra|]. apply Rle_trans with (reg * incr_mult S mult); [nra|apply Rmax_l].
  - eexists. eapply bp_ok. exact E.
Qed.
Lemma bp_total' ds cost un bs mult reg : exists o, bp_runs S qp ds cost un bs mult reg o.
Proof.
  assert (K : forall r, s_minreg S <= r -> exists k, s_maxreg S < r * s_incr S ^ k).
  { intros r Hr. destruct (Pow_x_infinity (s_incr S) ltac:(rewrite Rabs_pos_eq; lra) (s_maxreg S / r + 1)) as (k & Hk). exists k. specialize (Hk k (Nat.le_refl k)). apply Rge_le in Hk.
    rewrite Rabs_pos_eq in Hk by (apply pow_le; lra). assert (s_maxreg S / r < s_incr S ^ k) by lra. apply Rmult_lt_reg_r with (/ r); [apply Rinv_0_lt_compat; lra|]. rewrite (Rmult_comm r), Rmult_assoc, Rinv_r by lra. unfold Rdiv in H. lra. }
  destruct (optimizeController S qp ds cost reg un bs) as [[bs' [t|]] Vs] eqn:E; [|eexists; eapply bp_ok; exact E].
  destruct (Rle_or_lt (Rmax (reg * incr_mult S mult) (s_minreg S)) (s_maxreg S)) as [C|C]; [|eexists; eapply bp_stop; [exact E|exact C]].
  destruct (K (Rmax (reg * incr_mult S mult) (s_minreg S)) (Rmax_r _ _)) as (k & Hk). destruct (bp_total ds cost un k bs' (incr_mult S mult) _ (Rmax_r (reg * incr_mult S mult) (s_minreg S)) Hk) as (o & Ho).
  exists o. eapply bp_again; [exact E|exact C|exact Ho].
Qed.
Lemma iter_total L : exists o, lqr_iter S dyn obj qp L o.
Proof.
  set (ds := if l_devs L then computeDerivatives S dyn obj (l_x L) (l_u L) else l_d L).
  destruct (bp_total' ds (f_cost (l_f L)) (l_u L) (l_b L) (l_mult L) (l_reg L)) as ([[[flag bs] mult] reg] & Hb).
  destruct (Rlt_or_le (gradient_norm S bs (l_u L)) (s_gradtol S)) as [G|G].
  - eexists. eapply it_gradient; [reflexivity|exact Hb|exact G].
  - destruct (if flag then line_search S dyn obj (s_alphas S) L bs (l_f L) else (l_f L, None)) as [F acc] eqn:EF. eexists. eapply it_step; [reflexivity|exact Hb|exact G|symmetry; exact EF].
Qed.
Lemma runs_total : forall k i L, (s_maxit S <= i + k)%nat -> exists o, lqr_runs S dyn obj qp i L o.
Proof.
  induction k as [|k IH]; intros i L H; [eexists; apply runs_end; lia|]. destruct (le_lt_dec (s_maxit S) i) as [C|C]; [eexists; apply runs_end; exact C|].
  destruct (iter_total L) as ([o|L'] & Ho); [exists o; now apply runs_out|]. destruct (IH (i + 1)%nat L' ltac:(lia)) as (o & Hr). exists o. now apply (runs_next _ _ _ _ _ _ L').
Qed.
End It.

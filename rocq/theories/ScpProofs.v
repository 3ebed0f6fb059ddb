From Coq Require Import Reals List Arith ZArith Bool String Lia Lra.
Import ListNotations.
From Verif Require Import ExprsModel ExprsProofs ConicModel ConicSpec ConicProofs ConicProofs2 ConicProofs3 ConicProofs4 ConicProofs5 ConicProofs6 ScpModel ScpSpec.
From Verif Require IpModel.
Local Open Scope R_scope.

(** ** A problem with other values in its variables *)
Definition revalued (p : problem) (vs : list cvar) (a b : nat) : problem :=
  mkP vs (p_bin p) (p_leq p) (p_lineq p) (p_qineq p) (p_soc p) (p_obj p) a b (p_binlb p) (p_binub p).
Definition alike (p p' : problem) : Prop := exists vs a b, List.length vs = List.length (p_vars p) /\ p' = revalued p vs a b.
Lemma alike_refl p : alike p p.
Proof. exists (p_vars p), (p_ntr p), (p_nsc p). split; [reflexivity|]. now destruct p. Qed.
Lemma alike_recount p p' : alike p p' -> alike p (recount p').
Proof. intros (vs & a & b & L & ->). unfold recount, revalued. cbn [p_vars p_bin p_leq p_lineq p_qineq p_soc p_obj p_binlb p_binub]. eexists vs, _, _. split; [exact L|reflexivity]. Qed.
Lemma alike_vals p p' x : alike p p' -> alike p (set_vals x p').
Proof.
  intros (vs & a & b & L & ->). unfold set_vals, revalued. cbn [p_vars p_bin p_leq p_lineq p_qineq p_soc p_obj p_binlb p_binub p_ntr p_nsc].
  eexists _, a, b. split; [|reflexivity]. rewrite map_length, combine_length, seq_length, L. lia.
Qed.
Lemma set_vals_env p x c : (c < List.length (p_vars p))%nat -> p_env (set_vals x p) c = x c.
Proof.
  intros H. unfold p_env, set_vals. cbn [p_vars]. rewrite map_map. cbn [set_val v_val].
  rewrite <- (map_map fst x).
  assert (E : map fst (combine (seq 0 (List.length (p_vars p))) (p_vars p)) = seq 0 (List.length (p_vars p))).
  { generalize 0%nat. generalize (p_vars p). induction l as [|v l IH]; intros k; [reflexivity|]. cbn. now rewrite IH. }
  rewrite E. rewrite (nth_indep _ 0 (x 0%nat)) by (rewrite map_length, seq_length; exact H). rewrite map_nth, seq_nth by exact H. reflexivity.
Qed.
Lemma wf_revalued p vs a b : List.length vs = List.length (p_vars p) -> wf_problem p -> wf_problem (revalued p vs a b).
Proof. intros L W. destruct W. unfold revalued. constructor; cbn [p_vars p_bin p_leq p_lineq p_qineq p_soc p_obj p_binlb p_binub]; rewrite ?L; assumption. Qed.

Lemma obj_coeffs : forall cs, scoped cs -> (forall c, In c cs -> call_convex c) -> forall t, In t (q_terms (p_obj (run_calls cs cp_init))) -> 0 <= fst t.
Proof.
  intros cs. induction cs as [|c cs IH] using rev_ind; intros HS HC; [intros t []|].
  assert (HS' := HS). apply scoped_snoc in HS' as (HS1 & _ & _).
  assert (D := do_lists c (run_calls cs cp_init)). rewrite <- run_snoc in D. destruct D as [_ D].
  assert (IH' := IH HS1 (fun c Hc => HC c (in_or_app _ _ _ (or_introl Hc)))).
  destruct c as [ty lb ub g|a s b|q s l ap|q s l|q l]; try (rewrite D; exact IH').
  rewrite run_snoc. cbn [do_call]. unfold cp_setObj. rewrite addAuxs_eq. cbn [out_state p_obj q_terms].
  apply (HC (CSetObj q l)). apply in_or_app; simpl; auto.
Qed.

(** ** Compilation at other linearisation points *)
Section At.
  Variables (thr w : R) (iter : nat) (warm : bool) (cs : list call) (vs : list cvar) (na nb : nat).
  Let p := run_calls cs cp_init.
  Hypothesis HL : List.length vs = List.length (p_vars p).
  Hypothesis HS : scoped cs.
  Let p' := revalued p vs na nb.
  Let env := p_env p'.
  Let prog := Program (b_nlineq p' warm) (b_q p' warm) (cp_build thr w iter warm p') (p_bin p').

  Lemma sound_at x : (forall c, In c cs -> call_convex c) -> (forall c, In c cs -> call_not_absurd c) -> 0 <= w -> feasible_answer prog x ->
    (forall c, In c cs -> call_holds x c) /\ binaries_ok cs x /\ (warm = false -> forall c, In c cs -> trust_holds env thr iter x c) /\
    user_obj cs x + (if warm then 0 else sumR (map (soft_penalty env w x) cs)) <= std_objective (g_stg prog) x + obj_const cs.
  Proof.
    intros HC HA Hw HF. assert (I := history_inv cs HS). assert (W' : wf_problem p') by (apply wf_revalued; [exact HL|apply (i_wf _ _ I)]).
    unfold feasible_answer, prog in HF. cbn [g_nl g_q g_stg] in HF. apply feasible_iff in HF; [|exact W'].
    destruct HF as (F1 & F2 & F3 & F4 & F5 & F6).
    split; [apply sound; assumption|]. split; [apply bin_iff; assumption|]. split.
    { intros Ew. apply trust_iff; [assumption|]. intros q Hq Ht. rewrite <- (qlinear_env p'). apply (F6 Ew); assumption. }
    unfold prog. cbn [g_stg]. rewrite objective_spec; [|exact W'|exact (writes_nodup w warm cs HS)].
    change (p_obj p') with (p_obj p). change (p_qineq p') with (p_qineq p).
    destruct (obj_hist cs x) as [E1 E2]. rewrite E1, E2. fold p. rewrite aval_tsum.
    assert (OL := proj2 (wp_obj _ (i_wf _ _ I))). fold p in OL.
    assert (O : wsq x (q_terms (p_obj p)) <= tdot x (q_extra (p_obj p)) (q_terms (p_obj p))).
    { apply tdot_ge; [assumption| |exact F5].
      exact (obj_coeffs cs HS HC). }
    destruct warm; [lra|].
    rewrite <- (soft_sum _ w x cs HS). fold p.
    assert (S := sum_soft_le env w x (p_qineq p) Hw).
    assert (S' := S (fun q Hq Hs => eq_ind _ (fun z => z * z <= _) (proj2 (F6 eq_refl) q Hq Hs) _ (qlinear_env p' q x))). lra.
  Qed.

  Lemma complete_at x : (forall c, In c cs -> call_holds x c) -> binaries_ok cs x -> (warm = false -> forall c, In c cs -> trust_holds env thr iter x c) ->
    exists x', (forall c, In c (user_cols cs) -> x' c = x c) /\ feasible_answer prog x' /\
      std_objective (g_stg prog) x' + obj_const cs = user_obj cs x + (if warm then 0 else sumR (map (soft_penalty env w x) cs)).
  Proof.
    intros HC HB HT. assert (I := history_inv cs HS). assert (W' : wf_problem p') by (apply wf_revalued; [exact HL|apply (i_wf _ _ I)]).
    destruct (complete env cs HS x HC) as (x' & A & (T1 & T2 & T3 & T4)). fold p in T1, T2, T3, T4.
    exists x'. split; [exact A|].
    assert (PEN : forall c, In c cs -> soft_penalty env w x' c = soft_penalty env w x c
        /\ (trust_holds env thr iter x c -> trust_holds env thr iter x' c)).
    { intros c Hc. apply in_split in Hc as (pre & post & Ec).
      destruct HS as [HS1 HS2]. specialize (HS1 pre c post Ec).
      assert (A' : agree (user_cols pre) x x').
      { intros c' Hc'. apply A. rewrite Ec. unfold user_cols in *. rewrite in_map_iff in *. destruct Hc' as (t & <- & Ht).
        exists t. split; [reflexivity|]. clear - Ht. revert Ht. generalize cp_init.
        induction pre as [|c0 pre IH]; intros p Ht; [destruct Ht|]. simpl in *. apply in_app_or in Ht as [Ht|Ht]; apply in_or_app; auto. }
      destruct c as [ty lb ub g|a s b|q s l ap|q s l|q l]; try (split; [reflexivity|auto]).
      destruct HS1 as (HQ & _ & HL'). assert (L := lin_model_uses _ env q l x x' HQ HL' A').
      destruct ap; simpl; rewrite ?L; auto. }
    split.
    - unfold feasible_answer, prog. cbn [g_nl g_q g_stg]. apply feasible_iff; [exact W'|].
      split; [exact T1|]. split.
      { apply (bin_iff cs x' HS). intros c Hc. rewrite A; [apply HB, Hc|]. unfold user_cols. apply in_map_iff. exists (c, Binary); auto. }
      split. { intros q Hq. destruct (T2 q Hq) as (Q1 & Q2 & _). split; [exact Q1|]. intros k t Hk. rewrite (Q2 k t Hk). lra. }
      split. { intros q Hq. destruct (T3 q Hq) as (Q1 & Q2). split; [exact Q1|]. rewrite Q2. lra. }
      split. { change (objq_ok x' p). intros k t Hk. rewrite (T4 k t Hk). lra. }
      intros Ew. split.
      + intros q Hq Ht. rewrite qlinear_env. fold env. revert q Hq Ht. apply (trust_iff env x' thr iter cs HS).
        intros c Hc. apply (PEN c Hc). apply HT; assumption.
      + intros q Hq Hs. destruct (T2 q Hq) as (_ & _ & Q3). rewrite (Q3 Hs), qlinear_env. fold env. lra.
    - unfold prog. cbn [g_stg]. rewrite objective_spec; [|exact W'|exact (writes_nodup w warm cs HS)].
      change (p_obj p') with (p_obj p). change (p_qineq p') with (p_qineq p).
      destruct (obj_hist cs x) as [E1 _]. destruct (obj_hist cs x') as [E1' E2]. fold p in E1, E1', E2.
      assert (OU := i_objU _ _ I). fold p in OU. destruct OU as [OU1 OU2].
      rewrite (tdot_eq x' (q_terms (p_obj p)) (q_extra (p_obj p))); [|pose proof (proj2 (wp_obj _ (i_wf _ _ I))) as XX; fold p in XX; rewrite XX; lia|exact T4].
      assert (EQ : user_obj cs x' = user_obj cs x).
      { rewrite E1, E1', (wsq_uses _ x x' _ OU2 A), (aval_uses _ x x' _ OU1 A). reflexivity. }
      rewrite <- EQ, E1', E2, aval_tsum.
      destruct warm; [lra|].
      assert (EP : sumR (map (soft_penalty env w x) cs) = sumR (map (soft_penalty env w x') cs)).
      { f_equal. apply map_ext_in. intros c Hc. symmetry. apply (PEN c Hc). }
      rewrite EP, <- (soft_sum env w x' cs HS). fold p.
      assert (ES : sumR (map (fun q => w * x' (last (q_extra q) 0%nat)) (filter q_soft (p_qineq p)))
        = sumR (map (fun q => w * (qlin_env env q x' * qlin_env env q x')) (filter q_soft (p_qineq p)))).
      { f_equal. apply map_ext_in. intros q Hq. apply filter_In in Hq as [Hq Hs].
        destruct (T2 q Hq) as (_ & _ & Q3). rewrite (Q3 Hs). reflexivity. }
      lra.
  Qed.
End At.

(** ** Convexity: a linear model lies below *)
Lemma wsq_gap env x ts : (forall t, In t ts -> 0 <= fst t) ->
  wsq env ts + sumR (map (fun t => 2 * fst t * aval env (snd t) * (aval x (snd t) - aval env (snd t))) ts) <= wsq x ts.
Proof.
  unfold wsq, sumR. induction ts as [|t ts IH]; intros H; [cbn; lra|]. cbn [map fold_right].
  assert (0 <= fst t) by (apply H; now left). specialize (IH (fun t Ht => H t (or_intror Ht))).
  assert (0 <= fst t * ((aval x (snd t) - aval env (snd t)) * (aval x (snd t) - aval env (snd t)))) by (apply Rmult_le_pos; [assumption|]; apply Rle_0_sqr).
  lra.
Qed.
Lemma model_below env x q l : (forall t, In t (q_terms q) -> 0 <= fst t) -> lin_model env q l x <= qcon x q l.
Proof. intros H. unfold lin_model, qcon. pose proof (wsq_gap env x (q_terms q) H). lra. Qed.
Lemma model_exact x q l : lin_model x q l x = qcon x q l.
Proof.
  unfold lin_model, qcon. assert (E : sumR (map (fun t => 2 * fst t * aval x (snd t) * (aval x (snd t) - aval x (snd t))) (q_terms q)) = 0).
  { unfold sumR. induction (q_terms q) as [|t ts IH]; [reflexivity|]. cbn [map fold_right]. rewrite IH. ring. }
  rewrite E. ring.
Qed.

(** ** Only the user's columns matter *)
Lemma issued_pre : forall l1 l2 p t, In t (issued l1 p) -> In t (issued (l1 ++ l2) p).
Proof. induction l1 as [|c l1 IH]; intros l2 p t Ht; [destruct Ht|]. cbn [issued app] in *. apply in_app_or in Ht as [Ht|Ht]; apply in_or_app; auto. Qed.
Lemma scoped_all cs c : scoped cs -> In c cs -> call_scoped (user_cols cs) c.
Proof.
  intros [HS _] Hc. apply in_split in Hc as (pre & post & E). specialize (HS pre c post E).
  assert (M : forall k, In k (user_cols pre) -> In k (user_cols cs)).
  { intros k. rewrite E. unfold user_cols. rewrite !in_map_iff. intros (t & <- & Ht). exists t. split; [reflexivity|]. now apply issued_pre. }
  assert (MU : forall e, uses (user_cols pre) e -> uses (user_cols cs) e) by (intros e H k Hk; apply M, H, Hk).
  assert (MQ : forall q, uses_q (user_cols pre) q -> uses_q (user_cols cs) q) by (intros q [H1 H2]; split; [now apply MU|intros t Ht; apply MU, H2, Ht]).
  destruct c; cbn [call_scoped] in *; intuition.
Qed.
Lemma holds_agree cs c x x' : scoped cs -> In c cs -> agree (user_cols cs) x x' -> call_holds x c -> call_holds x' c.
Proof.
  intros HS Hc AG F1. assert (S1 := scoped_all cs c HS Hc).
  destruct c as [ty lb ub gs|a s b|qq s l ap|qq s l|qq l]; cbn [call_holds call_scoped] in *; auto.
  - destruct S1 as (Ua & Ub). rewrite !(aval_uses _ x x' _ Ua AG), !(aval_uses _ x x' _ Ub AG). exact F1.
  - destruct S1 as ((Q1 & Q2) & _ & Ul). rewrite (wsq_uses _ x x' _ Q2 AG), (aval_uses _ x x' _ Q1 AG), (aval_uses _ x x' _ Ul AG). exact F1.
  - destruct S1 as ((Q1 & Q2) & _ & Ul). rewrite (sq_uses _ x x' _ Q2 AG), (aval_uses _ x x' _ Q1 AG), (aval_uses _ x x' _ Ul AG). exact F1.
Qed.
Lemma qcon_agree cs q s l ap x x' : scoped cs -> In (CAddQua q s l ap) cs -> agree (user_cols cs) x x' -> qcon x' q l = qcon x q l.
Proof.
  intros HS Hc AG. destruct (scoped_all cs _ HS Hc) as ((Q1 & Q2) & _ & Ul). unfold qcon. rewrite (wsq_uses _ x x' _ Q2 AG), (aval_uses _ x x' _ Q1 AG), (aval_uses _ x x' _ Ul AG). reflexivity.
Qed.
Lemma obj_agree cs x x' : scoped cs -> agree (user_cols cs) x x' -> user_obj cs x' = user_obj cs x.
Proof.
  intros HS A. assert (I := history_inv cs HS). destruct (obj_hist cs x) as [E1 _]. destruct (obj_hist cs x') as [E1' _]. destruct (i_objU _ _ I) as [OU1 OU2].
  rewrite E1, E1', (wsq_uses _ x x' _ OU2 A), (aval_uses _ x x' _ OU1 A). reflexivity.
Qed.
Lemma bin_agree cs x x' : agree (user_cols cs) x x' -> binaries_ok cs x -> binaries_ok cs x'.
Proof. intros A H c Hc. rewrite A; [apply H, Hc|]. unfold user_cols. apply in_map_iff. exists (c, Binary); auto. Qed.
Lemma penalised_agree w cs x x' : scoped cs -> agree (user_cols cs) x x' -> penalised w cs x' = penalised w cs x.
Proof.
  intros HS A. unfold penalised. rewrite (obj_agree cs x x' HS A). do 2 f_equal. f_equal. apply map_ext_in. intros c Hc.
  destruct c as [ty lb ub gs|a s b|qq s l ap|qq s l|qq l]; cbn [slack_cost]; try reflexivity. destruct ap; try reflexivity. now rewrite (qcon_agree cs qq s l _ x x' HS Hc A).
Qed.

(** ** One round *)
Section Rounds.
  Variables (S : scp_set) (solve : oracle) (cs : list call).
  Hypothesis HS : scoped cs.
  Hypothesis HC : forall c, In c cs -> call_convex c.
  Hypothesis HA : forall c, In c cs -> call_not_absurd c.
  Hypothesis Hw : 0 <= c_wsoft S.
  Let p := run_calls cs cp_init.

  Lemma round_is iter warm s : alike p (sc_p s) -> exists vs a b x k bnb, List.length vs = List.length (p_vars p) /\ a = n_tr p /\ b = n_sc p /\
    (forall c, nth c (map v_val vs) 0 = p_env (sc_p s) c) /\
    let p' := revalued p vs a b in
    solve k bnb (Program (b_nlineq p' warm) (b_q p' warm) (cp_build (c_thr S) (c_wsoft S) iter warm p') (p_bin p')) = (sc_code (scp_round S solve iter warm s), x) /\
    sc_p (scp_round S solve iter warm s) = set_vals x p' /\ agree (user_cols cs) x (values (scp_round S solve iter warm s)).
  Proof.
    intros (vs & a & b & L & E). unfold scp_round.
    assert (ER : recount (sc_p s) = revalued p vs (n_tr p) (n_sc p)) by (rewrite E; reflexivity). rewrite ER.
    set (bnb := ((0 <? List.length (p_bin (revalued p vs (n_tr p) (n_sc p)))) && ((p_ntr (revalued p vs (n_tr p) (n_sc p)) =? 0) && (p_nsc (revalued p vs (n_tr p) (n_sc p)) =? 0)))%nat).
    set (P := Program _ _ _ _). destruct (solve (sc_calls s) bnb P) as [code x] eqn:ES.
    exists vs, (n_tr p), (n_sc p), x, (sc_calls s), bnb. split; [exact L|]. split; [reflexivity|]. split; [reflexivity|]. split; [intros c; rewrite E; reflexivity|].
    cbv zeta. cbn [sc_code sc_p]. split; [exact ES|]. split; [reflexivity|]. intros c Hc. unfold values. cbn [sc_p]. apply set_vals_env. cbn [revalued p_vars]. rewrite L. apply (i_U _ _ (history_inv cs HS) c Hc).
  Qed.
  Lemma round_alike iter warm s : alike p (sc_p s) -> alike p (sc_p (scp_round S solve iter warm s)).
  Proof. intros H. unfold scp_round. destruct (solve _ _ _) as [code x]. cbn [sc_p]. apply alike_vals, alike_recount, H. Qed.
  Lemma round_counts iter warm s : alike p (sc_p s) -> has_approx (sc_p (scp_round S solve iter warm s)) = ((0 <? n_tr p) || (0 <? n_sc p))%nat.
  Proof. intros (vs & a & b & L & E). unfold scp_round. destruct (solve _ _ _) as [code x]. cbn [sc_p]. unfold has_approx, set_vals. cbn [p_ntr p_nsc]. rewrite E. reflexivity. Qed.

  (** A feasible answer: everything asked for holds, trust regions hold at the values before the round. *)
  Lemma round_sound iter warm s : sound_solver solve -> alike p (sc_p s) -> sc_code (scp_round S solve iter warm s) = IpModel.Optimal ->
    let y := values (scp_round S solve iter warm s) in
    (forall c, In c cs -> call_holds y c) /\ binaries_ok cs y /\
    (warm = false -> forall q l, In (CAddQua q "<" l ApproxTrustRegion) cs -> - c_thr S ^ iter <= qcon y q l <= 0).
  Proof.
    intros HSo AL EC y. destruct (round_is iter warm s AL) as (vs & a & b & x & k & bnb & L & _ & _ & _ & ES & EP & AG). rewrite EC in ES. apply HSo in ES. fold y in AG.
    destruct (sound_at (c_thr S) (c_wsoft S) iter warm cs vs a b L HS x HC HA Hw ES) as (S1 & S2 & S3 & _).
    split; [intros c Hc; eapply holds_agree; eauto|]. split; [eapply bin_agree; eauto|].
    intros Ew q l Hin. rewrite (qcon_agree cs q _ l _ x y HS Hin AG). specialize (S3 Ew _ Hin). cbn [trust_holds] in S3. specialize (S3 eq_refl).
    specialize (S1 _ Hin). cbn [call_holds] in S1. specialize (S1 eq_refl). specialize (HC _ Hin). cbn [call_convex] in HC.
    pose proof (model_below (p_env (revalued p vs a b)) x q l HC) as LO. split; [|unfold qcon; lra]. eapply Rle_trans; [exact S3|exact LO].
  Qed.
  (** An exact answer in a problem without trust regions does not raise the penalised objective. *)
  Definition ok_state (s : scp_state) : Prop := alike p (sc_p s) /\ (forall c, In c cs -> call_holds (values s) c) /\ binaries_ok cs (values s).
  Lemma round_exact iter warm s : exact_solver solve -> alike p (sc_p s) -> sc_code (scp_round S solve iter warm s) = IpModel.Optimal -> ok_state (scp_round S solve iter warm s).
  Proof.
    intros HE AL EC. destruct (round_is iter warm s AL) as (vs & a & b & x & k & bnb & L & _ & _ & _ & ES & EP & AG). rewrite EC in ES. apply HE in ES as [ES _].
    destruct (sound_at (c_thr S) (c_wsoft S) iter warm cs vs a b L HS x HC HA Hw ES) as (S1 & S2 & _).
    split; [now apply round_alike|]. split; [intros c Hc; eapply holds_agree; eauto|eapply bin_agree; eauto].
  Qed.
  Lemma round_descends iter s : exact_solver solve -> no_trust_calls cs -> ok_state s -> sc_code (scp_round S solve iter false s) = IpModel.Optimal -> penalised (c_wsoft S) cs (values (scp_round S solve iter false s)) <= penalised (c_wsoft S) cs (values s).
  Proof.
    intros HE NT (AL & H1 & H2) EC. destruct (round_is iter false s AL) as (vs & a & b & x & k & bnb & L & _ & _ & EV & ES & EP & AG). rewrite EC in ES. apply HE in ES as [ES HB].
    rewrite (penalised_agree _ cs x _ HS AG). set (env := p_env (revalued p vs a b)).
    assert (EE : forall c, values s c = env c) by (intros c; symmetry; apply EV).
    destruct (sound_at (c_thr S) (c_wsoft S) iter false cs vs a b L HS x HC HA Hw ES) as (S1 & S2 & _ & S4). fold p env in S4.
    assert (AGE : agree (user_cols cs) (values s) env) by (intros c _; symmetry; apply EE).
    destruct (complete_at (c_thr S) (c_wsoft S) iter false cs vs a b L HS env) as (e' & _ & F & O).
    { intros c Hc. eapply holds_agree; [exact HS|exact Hc|exact AGE|]. now apply H1. }
    { eapply bin_agree; [exact AGE|exact H2]. }
    { intros _ c Hc. destruct c as [ty lb ub gs|a0 s0 b0|qq s0 l ap|qq s0 l|qq l]; try exact I. destruct ap; try exact I. elim (NT _ _ _ Hc). }
    specialize (HB e' F). fold p env in O.
    assert (PX : sumR (map (soft_penalty env (c_wsoft S) env) cs) = c_wsoft S * sumR (map (slack_cost env) cs)).
    { clearbody env. clear. unfold sumR. induction cs as [|c l IH]; [cbn; ring|]. cbn [map fold_right]. rewrite IH. destruct c as [ty lb ub gs|a0 s0 b0|qq s0 l0 ap|qq s0 l0|qq l0]; cbn [soft_penalty slack_cost]; try ring.
      destruct ap; try ring. destruct (String.eqb s0 "<"); [rewrite model_exact|]; ring. }
    assert (PL : c_wsoft S * sumR (map (slack_cost x) cs) <= sumR (map (soft_penalty env (c_wsoft S) x) cs)).
    { assert (G : forall l, (forall c, In c l -> In c cs) -> c_wsoft S * sumR (map (slack_cost x) l) <= sumR (map (soft_penalty env (c_wsoft S) x) l)).
      { induction l as [|c l IH]; intros HI; [cbn; lra|]. cbn [map]. unfold sumR in *. cbn [fold_right]. specialize (IH (fun c Hc => HI c (or_intror Hc))).
        assert (Hc := HI c (or_introl eq_refl)).
        assert (T : c_wsoft S * slack_cost x c <= soft_penalty env (c_wsoft S) x c); [|lra].
        destruct c as [ty lb ub gs|a0 s0 b0|qq s0 l0 ap|qq s0 l0|qq l0]; cbn [soft_penalty slack_cost]; try lra. destruct ap; try lra.
        destruct (String.eqb s0 "<") eqn:Es; [|lra]. apply String.eqb_eq in Es. subst s0.
        assert (CV := HC _ Hc). cbn [call_convex] in CV. pose proof (model_below env x qq l0 CV) as LO. specialize (S1 _ Hc). cbn [call_holds] in S1. specialize (S1 eq_refl).
        assert (QN : qcon x qq l0 <= 0) by (unfold qcon; lra). apply Rmult_le_compat_l; [exact Hw|]. nra. }
      apply G. auto. }
    rewrite (penalised_agree _ cs env (values s) HS) by (intros c _; apply EE). unfold penalised. rewrite <- PX. change (if false then 0 else ?a) with a in *. lra.
  Qed.
End Rounds.

(** ** The whole loop *)
Section Loop.
  Variables (S : scp_set) (solve : oracle) (cs : list call).
  Let p := run_calls cs cp_init.
  Notation rnd := (scp_round S solve).
  Lemma refine_alike s n : alike p (sc_p s) -> alike p (sc_p (fold_left (fun s ref => rnd (ref + 1) false s) (seq 1 n) s)).
  Proof. intros H. induction n as [|n IH]; [exact H|]. rewrite seq_S, fold_left_app. cbn [fold_left]. now apply round_alike. Qed.
  Lemma warm_alike : alike p (sc_p (scp_warm S solve (Scp p 0 IpModel.Indeterminate))).
  Proof. unfold scp_warm. destruct (_ && _)%bool; [apply round_alike|]; apply alike_refl. Qed.
  (** The last round when there are approximated constraints. *)
  Lemma last_round : (0 < c_max S)%Z -> ((0 <? n_tr p) || (0 <? n_sc p))%nat = true -> exists s', alike p (sc_p s') /\ solved S solve cs = rnd (1 + Z.to_nat (c_refs S)) false s'.
  Proof.
    intros HM HT. unfold solved, scp_optimize, scp_refine, scp_main. fold p. replace (0 <? c_max S)%Z with true by (symmetry; apply Z.ltb_lt; lia).
    set (s0 := scp_warm S solve _). assert (A0 : alike p (sc_p s0)) by apply warm_alike.
    rewrite (round_counts S solve cs 1 false s0 A0). fold p. rewrite HT, andb_true_r.
    destruct (0 <? c_refs S)%Z eqn:ER.
    - apply Z.ltb_lt in ER. destruct (Z.to_nat (c_refs S)) as [|n] eqn:En; [lia|]. exists (fold_left (fun s ref => rnd (ref + 1) false s) (seq 1 n) (rnd 1%nat false s0)).
      split; [apply refine_alike; now apply round_alike|]. rewrite seq_S, fold_left_app. cbn [fold_left]. f_equal. lia.
    - apply Z.ltb_ge in ER. exists s0. split; [exact A0|]. replace (Z.to_nat (c_refs S)) with 0%nat by lia. reflexivity.
  Qed.
End Loop.

(** ** The counters *)
Definition wants (ap : approx) (c : call) : bool :=
  match c, ap with CAddQua _ _ _ ApproxTrustRegion, ApproxTrustRegion => true | CAddQua _ _ _ ApproxSoftConstraint, ApproxSoftConstraint => true | _, _ => false end.
Definition accepted_quad (c : call) : bool := match c with CAddQua _ s _ _ => String.eqb s "<" | _ => true end.
Definition count_of (ap : approx) (cs : list call) : nat := List.length (filter (wants ap) cs).
Lemma count_snoc ap cs c : count_of ap (cs ++ [c]) = (count_of ap cs + if wants ap c then 1 else 0)%nat.
Proof. unfold count_of. rewrite filter_app, app_length. cbn [filter]. destruct (wants ap c); cbn; lia. Qed.
Lemma call_counters cs : p_ntr (run_calls cs cp_init) = count_of ApproxTrustRegion cs /\ p_nsc (run_calls cs cp_init) = count_of ApproxSoftConstraint cs.
Proof.
  induction cs as [|c cs [IH1 IH2]] using rev_ind; [split; reflexivity|]. rewrite run_snoc, !count_snoc, <- IH1, <- IH2. set (p := run_calls cs cp_init).
  destruct c as [ty lb ub g|a s b|q s l ap|q s l|q l]; cbn [do_call wants].
  - unfold cp_addVar. destruct (Rlt_dec ub lb); [cbn; lia|]. destruct ty; cbn; lia.
  - unfold cp_addLin. destruct (String.eqb s "="); [cbn; lia|]. destruct (String.eqb s "<"); [cbn; lia|]. destruct (String.eqb s ">"); cbn; lia.
  - unfold cp_addQua. rewrite addAuxs_eq. destruct (String.eqb s "<"), ap; cbn; lia.
  - unfold cp_addSoc. rewrite addAuxs_eq. destruct (String.eqb s "<"); cbn; lia.
  - unfold cp_setObj. rewrite addAuxs_eq. cbn. lia.
Qed.
Lemma stored_counters cs : scoped cs -> n_tr (run_calls cs cp_init) = List.length (filter (fun c => wants ApproxTrustRegion c && accepted_quad c) cs) /\
  n_sc (run_calls cs cp_init) = List.length (filter (fun c => wants ApproxSoftConstraint c && accepted_quad c) cs).
Proof.
  induction cs as [|c cs IH] using rev_ind; intros HS; [split; reflexivity|]. assert (HS' := HS). apply scoped_snoc in HS' as (HS1 & _ & _). destruct (IH HS1) as (IH1 & IH2). clear IH.
  rewrite !filter_app, !app_length, <- IH1, <- IH2.
  assert (D := do_lists c (run_calls cs cp_init)). rewrite <- run_snoc in D. destruct D as [D _]. unfold n_tr, n_sc.
  destruct c as [ty lb ub g|a s b|q s l ap|q s l|q l]; try (rewrite D; cbn; lia).
  rewrite qineq_snoc by assumption. rewrite !filter_app, !app_length. cbn [filter wants accepted_quad]. destruct (String.eqb s "<"), ap; cbn; lia.
Qed.
Lemma trust_counts cs q l : scoped cs -> In (CAddQua q "<" l ApproxTrustRegion) cs -> (0 <? n_tr (run_calls cs cp_init))%nat = true.
Proof.
  intros HS Hin. destruct (stored_counters cs HS) as (E & _). rewrite E. apply Nat.ltb_lt.
  assert (X : In (CAddQua q "<" l ApproxTrustRegion) (filter (fun c => wants ApproxTrustRegion c && accepted_quad c) cs)) by (apply filter_In; split; [exact Hin|reflexivity]).
  destruct (filter _ cs); [destruct X|cbn; lia].
Qed.

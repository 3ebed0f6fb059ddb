(** * The node solver of the search: sequential convex programming under decisions *)
From Coq Require Import Reals List Arith ZArith Bool String Lia Lra.
From Verif Require Import Base BaseProofs IpModel BnbModel BnbSpec BnbProofs ExprsModel ExprsProofs ConicModel ConicSpec ConicProofs ConicProofs2 ConicProofs3 ConicProofs4 ConicProofs5 ConicProofs6
  ScpModel ScpSpec ScpProofs NcvxModel NcvxSpec.
Import ListNotations.
Open Scope R_scope.

Lemma decide_alike d d' p p' : alike (decide d p) p' -> alike (decide d' p) (decide d' p').
Proof. intros (vs & a & b & L & ->). exists vs, a, b. split; [exact L|reflexivity]. Qed.
Lemma round_alike' C solve iter warm q s : alike q (sc_p s) -> alike q (sc_p (scp_round C solve iter warm s)).
Proof. intros H. unfold scp_round. destruct (solve _ _ _) as [code x]. cbn [sc_p]. apply alike_vals, alike_recount, H. Qed.
Lemma round_counts' C solve iter warm q s : alike q (sc_p s) -> has_approx (sc_p (scp_round C solve iter warm s)) = ((0 <? n_tr q) || (0 <? n_sc q))%nat.
Proof. intros (vs & a & b & L & E). unfold scp_round. destruct (solve _ _ _) as [code x]. cbn [sc_p]. unfold has_approx, set_vals. cbn [p_ntr p_nsc]. rewrite E. reflexivity. Qed.
Lemma refine_alike' C solve q s n : alike q (sc_p s) -> alike q (sc_p (fold_left (fun s ref => scp_round C solve (ref + 1) false s) (seq 1 n) s)).
Proof. intros H. induction n as [|n IH]; [exact H|]. rewrite seq_S, fold_left_app. cbn [fold_left]. now apply round_alike'. Qed.
(** Whatever the start, the answer is that of a last round. *)
Lemma last_round' C solve q p' k : (0 < c_max C)%Z -> alike q p' -> exists s' it, alike q (sc_p s') /\ scp_optimize C solve p' k = scp_round C solve it false s' /\
  (((0 <? n_tr q) || (0 <? n_sc q))%nat = true -> it = (1 + Z.to_nat (c_refs C))%nat).
Proof.
  intros HM AL. unfold scp_optimize, scp_refine, scp_main. replace (0 <? c_max C)%Z with true by (symmetry; apply Z.ltb_lt; lia).
  set (s0 := scp_warm C solve _). assert (A0 : alike q (sc_p s0)) by (unfold s0, scp_warm; destruct (_ && _)%bool; [apply round_alike'|]; exact AL).
  rewrite (round_counts' C solve 1 false q s0 A0).
  destruct ((0 <? n_tr q) || (0 <? n_sc q))%nat.
  - rewrite andb_true_r. destruct (0 <? c_refs C)%Z eqn:ER.
    + apply Z.ltb_lt in ER. destruct (Z.to_nat (c_refs C)) as [|n] eqn:En; [lia|]. exists (fold_left (fun s ref => scp_round C solve (ref + 1) false s) (seq 1 n) (scp_round C solve 1%nat false s0)), (n + 1 + 1)%nat.
      split; [apply refine_alike'; now apply round_alike'|]. split; [rewrite seq_S, fold_left_app; cbn [fold_left]; f_equal; lia|]. intros _. lia.
    + apply Z.ltb_ge in ER. exists s0, 1%nat. split; [exact A0|]. split; [reflexivity|]. intros _. lia.
  - rewrite andb_false_r. exists s0, 1%nat. split; [exact A0|]. split; [reflexivity|discriminate].
Qed.

Section Node.
  Variables (C : scp_set) (solve : oracle) (cs : list call) (tol : R).
  Hypothesis HS : scoped cs.
  Hypothesis HC : forall c, In c cs -> call_convex c.
  Hypothesis HA : forall c, In c cs -> call_not_absurd c.
  Hypothesis Hw : 0 <= c_wsoft C.
  Hypothesis HM : (0 < c_max C)%Z.
  Hypothesis HB : sound_below tol solve.
  Let p := run_calls cs cp_init.
  Notation eps := (c_thr C ^ (1 + Z.to_nat (c_refs C))).

  Lemma bin_col c : In c (p_bin p) -> In c (user_cols cs).
  Proof. intros H. apply (i_bin _ _ (history_inv cs HS)) in H. unfold user_cols. apply in_map_iff. exists (c, Binary). auto. Qed.

  Lemma wf_decided dec vs a b : List.length dec = List.length (p_bin p) -> List.length vs = List.length (p_vars p) -> wf_problem (revalued (decide dec p) vs a b).
  Proof.
    intros LD L. apply wf_revalued; [exact L|]. assert (W := i_wf _ _ (history_inv cs HS)). fold p in W. destruct W.
    unfold decide. constructor; cbn [p_vars p_bin p_leq p_lineq p_qineq p_soc p_obj p_binlb p_binub]; rewrite ?map_length; assumption.
  Qed.
  Lemma decided_box dec x : List.length dec = List.length (p_bin p) -> (forall d, In d dec -> d = 1%Z \/ d = 0%Z \/ d = (-1)%Z) -> bin_ok x (decide dec p) -> in_box (p_bin p) dec x.
  Proof.
    intros LD HD H v i d Hi Hd. specialize (H v i Hi). unfold decide in H. cbn [p_binlb p_binub] in H.
    rewrite (nth_indep (map dec_lb dec) 0 (dec_lb d)), (nth_indep (map dec_ub dec) 0 (dec_ub d)) in H by (rewrite map_length; apply nth_error_Some; congruence).
    rewrite !map_nth, (nth_error_nth _ _ d Hd) in H. unfold dec_lb, dec_ub in H.
    destruct (HD d (nth_error_In _ _ Hd)) as [->|[->| ->]]; cbn in H; repeat split; intros; try lia; lra.
  Qed.

  Lemma node_sound dec iter s : List.length dec = List.length (p_bin p) -> (forall d, In d dec -> d = 1%Z \/ d = 0%Z \/ d = (-1)%Z) -> alike (decide dec p) (sc_p s) ->
    let s' := scp_round C solve iter false s in
    match sc_code s' with
    | Optimal | OptimalInacc => (forall c, In c cs -> call_holds (values s') c) /\ in_box (p_bin p) dec (values s') /\
        (forall q l, In (CAddQua q "<" l ApproxTrustRegion) cs -> - c_thr C ^ iter <= qcon (values s') q l <= 0)
    | DualInf | DualInfInacc | PrimalInf | PrimalInfInacc | ReachMaxIters => clearly_fractional (p_bin p) tol (values s')
    | _ => True
    end.
  Proof.
    intros LD HD (vs & a & b & L & E) s'. unfold s', scp_round.
    assert (ER : recount (sc_p s) = revalued (decide dec p) vs (n_tr p) (n_sc p)) by (rewrite E; reflexivity). rewrite ER.
    set (p' := revalued (decide dec p) vs (n_tr p) (n_sc p)).
    set (bnb := ((0 <? List.length (p_bin p')) && ((p_ntr p' =? 0) && (p_nsc p' =? 0)))%nat).
    set (P := Program _ _ _ _). destruct (solve (sc_calls s) bnb P) as [code x] eqn:ES. cbn [sc_code]. clear s'.
    set (y := values _).
    assert (AG : agree (user_cols cs) x y).
    { intros c Hc. unfold y, values. cbn [sc_p]. apply set_vals_env. unfold p'. cbn [revalued p_vars]. rewrite L. apply (i_U _ _ (history_inv cs HS) c Hc). }
    assert (BC : forall i, In i (p_bin p) -> y i = x i) by (intros i Hi; apply AG, bin_col, Hi).
    apply HB in ES.
    assert (OPT : feasible_answer P x -> (forall c, In c cs -> call_holds y c) /\ in_box (p_bin p) dec y /\
        (forall q l, In (CAddQua q "<" l ApproxTrustRegion) cs -> - c_thr C ^ iter <= qcon y q l <= 0)).
    { intros HF. assert (W' : wf_problem p') by (apply wf_decided; assumption).
      unfold feasible_answer, P in HF. cbn [g_nl g_q g_stg] in HF. apply feasible_iff in HF; [|exact W'].
      destruct HF as (F1 & F2 & F3 & F4 & F5 & F6).
      assert (S1 : forall c, In c cs -> call_holds x c) by (apply sound; assumption).
      assert (S3 : forall c, In c cs -> trust_holds (p_env p') (c_thr C) iter x c).
      { apply trust_iff; [assumption|]. intros q Hq Ht. rewrite <- (qlinear_env p'). apply (F6 eq_refl); assumption. }
      split; [intros c Hc; eapply holds_agree; eauto|]. split.
      - assert (B : in_box (p_bin p) dec x) by (apply decided_box; [exact LD|exact HD|exact F2]).
        intros v i d Hi Hd. specialize (B v i d Hi Hd). rewrite (BC i (nth_error_In _ _ Hi)). exact B.
      - intros q l Hin. rewrite (qcon_agree cs q _ l _ x y HS Hin AG). specialize (S3 _ Hin). cbn [trust_holds] in S3. specialize (S3 eq_refl).
        specialize (S1 _ Hin). cbn [call_holds] in S1. specialize (S1 eq_refl). specialize (HC _ Hin). cbn [call_convex] in HC.
        pose proof (model_below (p_env p') x q l HC) as LO. split; [|unfold qcon; lra]. eapply Rle_trans; [exact S3|exact LO]. }
    assert (FR : clearly_fractional (g_bin P) tol x -> clearly_fractional (p_bin p) tol y).
    { change (g_bin P) with (p_bin p). intros [(i & Hi & Hz) H2]. split; [exists i; split; [exact Hi|]; rewrite (BC i Hi); exact Hz|]. intros j Hj. rewrite (BC j Hj). now apply H2. }
    destruct code; auto.
  Qed.

  (** The state between two calls: the problem with some values and some decisions. *)
  Definition node_state (o : problem * nat) : Prop := exists dec, alike (decide dec p) (fst o).
  Lemma scp_ask_sound cdot : sound_ask (asked cs eps) (p_bin p) tol node_state (scp_ask C solve cdot).
  Proof.
    intros [p0 k] dec c x v o' (d0 & AL0) LD HD E. cbn [fst] in AL0. unfold scp_ask in E. cbn [fst snd] in E. injection E as <- <- <- <-.
    assert (AL := decide_alike d0 dec p p0 AL0).
    destruct (last_round' C solve (decide dec p) (decide dec p0) k HM AL) as (s' & it & AL' & -> & HIT).
    split; [exists dec; cbn [fst]; now apply round_alike'|].
    pose proof (node_sound dec it s' LD HD AL') as N. cbv zeta in N. unfold values in N.
    assert (AS : (forall c, In c cs -> call_holds (p_env (sc_p (scp_round C solve it false s'))) c) /\ in_box (p_bin p) dec (p_env (sc_p (scp_round C solve it false s'))) /\
        (forall q l, In (CAddQua q "<" l ApproxTrustRegion) cs -> - c_thr C ^ it <= qcon (p_env (sc_p (scp_round C solve it false s'))) q l <= 0) ->
        restrict (asked cs eps) (p_bin p) dec (p_env (sc_p (scp_round C solve it false s')))).
    { intros (N1 & N2 & N3). split; [|exact N2]. split; [exact N1|]. intros q l Hin. specialize (N3 q l Hin).
      rewrite <- HIT; [exact N3|]. change (n_tr (decide dec p)) with (n_tr p). unfold p. now rewrite (trust_counts cs q l HS Hin). }
    destruct (sc_code _); auto.
  Qed.
End Node.

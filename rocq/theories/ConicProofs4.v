(** Proofs about the modelling layer, part 4: histories of modelling calls. *)
From Coq Require Import String Reals List Arith Bool Lra Lia.
From Verif Require Import ExprsModel ExprsProofs ConicModel ConicSpec ConicProofs ConicProofs2 ConicProofs3.
Import ListNotations.
Open Scope R_scope.

(** ** Auxiliary variables *)
Definition auxvar : cvar := mkVar Continuous 0 1 (1/2) (1/2).
Definition grow (k : nat) (p : problem) : problem :=
  set_vars (p_vars p ++ repeat auxvar k) (p_bin p) (p_binlb p) (p_binub p) p.

Lemma addAux_eq p : cp_addAux p = grow 1 p.
Proof.
  unfold cp_addAux, cp_addVar, grow. destruct (Rlt_dec 1 0); [lra|]. simpl out_state.
  unfold clamp_guess. destruct (Rlt_dec (1/2) 0); [lra|]. destruct (Rlt_dec 1 (1/2)); [lra|]. reflexivity.
Qed.

Lemma grow_grow a b p : grow a (grow b p) = grow (b + a) p.
Proof. unfold grow, set_vars; simpl. rewrite <- app_assoc, repeat_app. reflexivity. Qed.
Lemma grow_len k p : List.length (p_vars (grow k p)) = (List.length (p_vars p) + k)%nat.
Proof. unfold grow; simpl. rewrite app_length, repeat_length. reflexivity. Qed.

Lemma grow_0 p : grow 0 p = p.
Proof. destruct p; unfold grow, set_vars; simpl. rewrite app_nil_r. reflexivity. Qed.

Lemma addAuxs_eq n : forall p, cp_addAuxs n p = (grow n p, seq (List.length (p_vars p)) n).
Proof.
  induction n as [|n IH]; intros p; simpl.
  - rewrite grow_0. reflexivity.
  - rewrite IH, addAux_eq, grow_grow, grow_len. simpl. f_equal. f_equal. f_equal. lia.
Qed.

(** ** Expressions and columns *)
Lemma aval_sub x a b : aval x (le_sub a b) = aval x a - aval x b.
Proof. rewrite <- !aval_le_value. apply le_sub_value. Qed.
Lemma aval_add x a b : aval x (le_add a b) = aval x a + aval x b.
Proof. rewrite <- !aval_le_value. apply le_add_value. Qed.

Lemma aval_agree n x x' e : cols_ok n e -> (forall c, (c < n)%nat -> x' c = x c) -> aval x' e = aval x e.
Proof.
  intros H A. rewrite <- !aval_le_value. apply le_value_ext. intros c Hc. apply A, H, Hc.
Qed.
Lemma aval_uses U x x' e : uses U e -> (forall c, In c U -> x' c = x c) -> aval x' e = aval x e.
Proof.
  intros H A. rewrite <- !aval_le_value. apply le_value_ext. intros c Hc. apply A, H, Hc.
Qed.

Lemma uses_sub U a b : uses U a -> uses U b -> uses U (le_sub a b).
Proof. intros Ha Hb c Hc. apply le_sub_incl in Hc as [Hc|Hc]; auto. Qed.
Lemma uses_add U a b : uses U a -> uses U b -> uses U (le_add a b).
Proof. intros Ha Hb c Hc. apply le_add_incl in Hc as [Hc|Hc]; auto. Qed.
Lemma uses_cols U n e : (forall c, In c U -> (c < n)%nat) -> uses U e -> cols_ok n e.
Proof. intros H1 H2 c Hc. auto. Qed.

Lemma cols_mono n n' e : (n <= n')%nat -> cols_ok n e -> cols_ok n' e.
Proof. intros H A c Hc. specialize (A c Hc). lia. Qed.
Lemma wfq_mono n n' q : (n <= n')%nat -> wf_q n q -> wf_q n' q.
Proof.
  intros H [A B C]. constructor.
  - eapply cols_mono; eauto.
  - intros t Ht. eapply cols_mono; eauto.
  - intros c Hc. specialize (C c Hc). lia.
Qed.

Lemma row_lin_agree n x x' e : cols_ok n e -> (forall c, (c < n)%nat -> x' c = x c) -> row_lin e x' = row_lin e x.
Proof. intros H A. unfold row_lin. rewrite (aval_agree n x x' e H A). reflexivity. Qed.

Lemma tdot_agree x x' ex : forall ts, (forall c, In c ex -> x' c = x c) -> tdot x' ex ts = tdot x ex ts.
Proof.
  induction ex as [|c ex IH]; intros [|t ts] H; simpl; try reflexivity.
  rewrite IH, (H c); simpl; auto. intros; apply H; simpl; auto.
Qed.

(** linear model at [env] *)
Definition qlin_env (env : nat -> R) (q : quadexpr) (x : nat -> R) : R :=
  aval x (q_lexpr q) + wsq env (q_terms q)
  + sumR (map (fun t => 2 * fst t * aval env (snd t) * (aval x (snd t) - aval env (snd t))) (q_terms q)).

Lemma q_value_wsq env q : q_value env q = wsq env (q_terms q).
Proof.
  unfold q_value, wsq.
  assert (G : forall ts v, fold_left (fun v t => v + fst t * le_value env (snd t) ^ 2) ts v
     = v + sumR (map (fun t => fst t * (aval env (snd t) * aval env (snd t))) ts)).
  { induction ts as [|t ts IH]; intros v; simpl; [lra|]. rewrite IH, aval_le_value.
    unfold sumR; simpl. fold (sumR (map (fun t => fst t * (aval env (snd t) * aval env (snd t))) ts)). ring. }
  rewrite G. lra.
Qed.
Lemma qlinear_env p q x : qlinear p q x = qlin_env (p_env p) q x.
Proof. unfold qlinear, qlin_env. rewrite q_value_wsq. reflexivity. Qed.

Lemma qlin_env_staged env q l ex tr sf x :
  qlin_env env (mkQ (le_sub (q_lexpr q) l) (q_terms q) ex tr sf) x = lin_model env q l x.
Proof. unfold qlin_env, lin_model. cbn [q_lexpr q_terms]. rewrite aval_sub. reflexivity. Qed.

Lemma qlin_env_agree n env q x x' : wf_q n q -> (forall c, (c < n)%nat -> x' c = x c) ->
  qlin_env env q x' = qlin_env env q x.
Proof.
  intros [A B _] H. unfold qlin_env. rewrite (aval_agree n x x' _ A H). f_equal. f_equal.
  apply map_ext_in. intros t Ht. rewrite (aval_agree n x x' _ (B t Ht) H). reflexivity.
Qed.

(** ** Tight points: every auxiliary variable takes its smallest value *)
Definition tight_q (env : nat -> R) (x : nat -> R) (q : quadexpr) : Prop :=
  tdot x (q_extra q) (q_terms q) + aval x (q_lexpr q) <= 0 /\
  (forall k t, nth_error (q_terms q) k = Some t -> x (nth k (q_extra q) 0%nat) = aval x (snd t) * aval x (snd t)) /\
  (q_soft q = true -> x (last (q_extra q) 0%nat) = qlin_env env q x * qlin_env env q x).
Definition tight_soc (x : nat -> R) (q : quadexpr) : Prop :=
  x (nth 0 (q_extra q) 0%nat) + aval x (q_lexpr q) <= 0 /\ x (nth 0 (q_extra q) 0%nat) = sqrt (sq x (q_terms q)).
Definition tight_obj (x : nat -> R) (q : quadexpr) : Prop :=
  forall k t, nth_error (q_terms q) k = Some t -> x (nth k (q_extra q) 0%nat) = aval x (snd t) * aval x (snd t).
Definition tight (env : nat -> R) (x : nat -> R) (p : problem) : Prop :=
  lin_ok x p /\ (forall q, In q (p_qineq p) -> tight_q env x q) /\
  (forall q, In q (p_soc p) -> tight_soc x q) /\ tight_obj x (p_obj p).

Lemma nth_extra_lt n q k t : wf_q n q -> (List.length (q_terms q) <= List.length (q_extra q))%nat ->
  nth_error (q_terms q) k = Some t -> (nth k (q_extra q) 0 < n)%nat.
Proof.
  intros [_ _ C] HL Hk. apply C. apply nth_In.
  assert (k < List.length (q_terms q))%nat by (apply nth_error_Some; congruence). lia.
Qed.

Lemma last_In {A} (l : list A) d : l <> [] -> In (last l d) l.
Proof. intros H. destruct (exists_last H) as (l' & a & ->). rewrite last_last. apply in_or_app; simpl; auto. Qed.

Lemma tight_agree env p x x' : wf_problem p -> (forall c, (c < List.length (p_vars p))%nat -> x' c = x c) ->
  tight env x p -> tight env x' p.
Proof.
  intros [Wb Wl Wu Weq Wli Wq Ws [Wo Wo2]] H ([A1 A2] & B & C & D).
  set (n := List.length (p_vars p)) in *.
  split; [split|split; [|split]].
  - intros e He. rewrite (row_lin_agree n x x'); auto.
  - intros e He. rewrite (row_lin_agree n x x'); auto.
  - intros q Hq. destruct (Wq q Hq) as [WQ HL]. destruct (B q Hq) as (B1 & B2 & B3). split; [|split].
    + rewrite (tdot_agree x x'), (aval_agree n x x' _ (wq_l _ _ WQ) H); [assumption|].
      intros c Hc; apply H, (wq_e _ _ WQ), Hc.
    + intros k t Hk. rewrite H by (eapply nth_extra_lt; eauto; lia).
      rewrite (aval_agree n x x'), (B2 k t Hk); auto. apply (wq_t _ _ WQ). eapply nth_error_In; eassumption.
    + intros Hs. rewrite Hs in HL. rewrite (qlin_env_agree n env q x x' WQ H), <- B3 by assumption.
      apply H. apply (wq_e _ _ WQ). apply last_In. intros E; rewrite E in HL; simpl in HL; lia.
  - intros q Hq. destruct (Ws q Hq) as [WQ HL]. destruct (C q Hq) as (C1 & C2).
    assert (L : (nth 0 (q_extra q) 0 < n)%nat) by (apply (wq_e _ _ WQ), nth_In; lia).
    split.
    + rewrite H, (aval_agree n x x' _ (wq_l _ _ WQ) H); assumption.
    + rewrite H, C2 by assumption. f_equal. unfold sq. f_equal. apply map_ext_in. intros t Ht.
      rewrite (aval_agree n x x'); auto. apply (wq_t _ _ WQ t Ht).
  - intros k t Hk. rewrite H by (eapply nth_extra_lt; eauto; lia).
    rewrite (aval_agree n x x'), (D k t Hk); auto. apply (wq_t _ _ Wo). eapply nth_error_In; eassumption.
Qed.

(** ** The history invariant *)
Record inv (cs : list call) (p : problem) : Prop := {
  i_wf : wf_problem p;
  i_U : forall c, In c (user_cols cs) -> (c < List.length (p_vars p))%nat;
  i_nd : NoDup (user_cols cs ++ q_extra (p_obj p) ++ flat_map q_extra (p_qineq p));
  i_bin : forall c, In c (p_bin p) <-> In (c, Binary) (issued cs cp_init);
  i_lb : p_binlb p = repeat 0 (List.length (p_bin p));
  i_ub : p_binub p = repeat 1 (List.length (p_bin p));
  i_objU : uses_q (user_cols cs) (p_obj p);
  i_objnd : NoDup (map fst (le_terms (q_lexpr (p_obj p))));
  i_obj0 : no_quad_obj cs -> q_extra (p_obj p) = [] }.

Lemma run_snoc cs c p : run_calls (cs ++ [c]) p = out_state (do_call c (run_calls cs p)).
Proof. unfold run_calls. rewrite fold_left_app. reflexivity. Qed.

Definition issue1 (c : call) (p : problem) : list (nat * vartype) :=
  match c with
  | CAddVar ty lb ub _ => if Rlt_dec ub lb then [] else [(List.length (p_vars p), ty)]
  | _ => [] end.
Lemma issued_snoc cs c : forall p, issued (cs ++ [c]) p = issued cs p ++ issue1 c (run_calls cs p).
Proof.
  induction cs as [|c0 cs IH]; intros p; simpl.
  - rewrite app_nil_r. reflexivity.
  - rewrite IH, app_assoc. reflexivity.
Qed.

Lemma noq_snoc cs c : no_quad_obj (cs ++ [c]) -> no_quad_obj cs.
Proof. intros H q l Hin. apply (H q l). apply in_or_app; auto. Qed.

Lemma scoped_snoc cs c : scoped (cs ++ [c]) ->
  scoped cs /\ call_scoped (user_cols cs) c /\ (forall q l, c = CSetObj q l -> no_quad_obj cs).
Proof.
  intros [H1 H2]. split; [split|split].
  - intros pre c' post E. apply (H1 pre c' (post ++ [c])). rewrite E, <- app_assoc. reflexivity.
  - intros pre q l post E. apply (H2 pre q l (post ++ [c])). rewrite E, <- app_assoc. reflexivity.
  - apply (H1 cs c []). reflexivity.
  - intros q l ->. apply (H2 cs q l []). reflexivity.
Qed.

Lemma user_cols_snoc_nil cs c : (forall p, issue1 c p = []) -> user_cols (cs ++ [c]) = user_cols cs.
Proof. intros H. unfold user_cols. rewrite issued_snoc, H, app_nil_r. reflexivity. Qed.
Lemma issued_snoc_nil cs c p : (forall p, issue1 c p = []) -> issued (cs ++ [c]) p = issued cs p.
Proof. intros H. rewrite issued_snoc, H, app_nil_r. reflexivity. Qed.

Lemma wf_grow k p : wf_problem p -> wf_problem (grow k p).
Proof.
  intros [Wb Wl Wu Weq Wli Wq Ws [Wo Wo2]].
  assert (M : (List.length (p_vars p) <= List.length (p_vars (grow k p)))%nat) by (rewrite grow_len; lia).
  constructor; try assumption.
  - intros c Hc. specialize (Wb c Hc). lia.
  - intros e He. eapply cols_mono; eauto.
  - intros e He. eapply cols_mono; eauto.
  - intros q Hq. destruct (Wq q Hq). split; [eapply wfq_mono; eauto|assumption].
  - intros q Hq. destruct (Ws q Hq). split; [eapply wfq_mono; eauto|assumption].
  - split; [eapply wfq_mono; eauto|assumption].
Qed.

Lemma NoDup_app_ins {A} (l1 cs l2 : list A) :
  NoDup (l1 ++ l2) -> NoDup cs -> (forall c, In c cs -> ~ In c (l1 ++ l2)) -> NoDup (l1 ++ cs ++ l2).
Proof.
  induction l1 as [|a l1 IH]; simpl; intros H1 H2 H3.
  - induction cs as [|c cs IHc]; simpl; [assumption|]. inversion H2; subst. constructor.
    + intros Hc. apply in_app_or in Hc as [Hc|Hc]; [auto|]. apply (H3 c); simpl; auto.
    + apply IHc; auto. intros; apply H3; simpl; auto.
  - inversion H1; subst. constructor.
    + intros Ha. apply in_app_or in Ha as [Ha|Ha]; [apply H4; apply in_or_app; auto|].
      apply in_app_or in Ha as [Ha|Ha]; [apply (H3 a Ha); auto|]. apply H4; apply in_or_app; auto.
    + apply IH; auto. intros c Hc Hin. apply (H3 c Hc); auto.
Qed.

Lemma all_lt cs p : inv cs p -> forall c, In c (user_cols cs ++ q_extra (p_obj p) ++ flat_map q_extra (p_qineq p)) ->
  (c < List.length (p_vars p))%nat.
Proof.
  intros [W U _ _ _ _ _ _ _] c Hc. apply in_app_or in Hc as [Hc|Hc]; [auto|].
  apply in_app_or in Hc as [Hc|Hc].
  - destruct (wp_obj _ W) as [WQ _]. apply (wq_e _ _ WQ _ Hc).
  - apply in_flat_map in Hc as (q & Hq & Hc). destruct (wp_q _ W q Hq) as [WQ _]. apply (wq_e _ _ WQ _ Hc).
Qed.

Lemma inv_grow cs c k p : (forall p, issue1 c p = []) -> inv cs p -> inv (cs ++ [c]) (grow k p).
Proof.
  intros Hi I. destruct I as [W U ND B LB UB OU OND O0]. constructor; auto.
  - apply wf_grow; assumption.
  - intros x Hx. rewrite user_cols_snoc_nil in Hx by assumption. rewrite grow_len. specialize (U x Hx). lia.
  - rewrite user_cols_snoc_nil by assumption. exact ND.
  - intros x. rewrite issued_snoc_nil by assumption. apply B.
  - rewrite user_cols_snoc_nil by assumption. exact OU.
  - intros H; apply O0. eapply noq_snoc; eassumption.
Qed.

Lemma inv_init : inv [] cp_init.
Proof.
  assert (Z : forall n, wf_q n (p_obj cp_init)) by (intros n; constructor; [intros ? []|intros ? []|intros ? []]).
  constructor.
  - constructor; try (intros ? []); try reflexivity. split; [apply Z|reflexivity].
  - intros ? [].
  - constructor.
  - intros c; split; intros [].
  - reflexivity.
  - reflexivity.
  - split; intros ? [].
  - constructor.
  - intros _; reflexivity.
Qed.

(** fresh columns *)
Lemma seq_fresh cs p k : inv cs p -> forall c, In c (seq (List.length (p_vars p)) k) ->
  ~ In c (user_cols cs ++ q_extra (p_obj p) ++ flat_map q_extra (p_qineq p)).
Proof. intros I c Hc Hin. apply in_seq in Hc. apply (all_lt _ _ I) in Hin. lia. Qed.

Lemma staged_wf cs p q l k tr sf : inv cs p -> uses_q (user_cols cs) q -> uses (user_cols cs) l ->
  wf_q (List.length (p_vars p) + k) (mkQ (le_sub (q_lexpr q) l) (q_terms q) (seq (List.length (p_vars p)) k) tr sf).
Proof.
  intros I [Q1 Q2] L. constructor; cbn [q_lexpr q_terms q_extra].
  - apply (uses_cols (user_cols cs)); [|apply uses_sub; assumption]. intros c Hc. apply (i_U _ _ I) in Hc. lia.
  - intros t Ht. apply (uses_cols (user_cols cs)); [|apply Q2; assumption]. intros c Hc. apply (i_U _ _ I) in Hc. lia.
  - intros c Hc. apply in_seq in Hc. lia.
Qed.

Lemma step_inv cs c : scoped (cs ++ [c]) -> inv cs (run_calls cs cp_init) ->
  inv (cs ++ [c]) (run_calls (cs ++ [c]) cp_init).
Proof.
  intros HS I. apply scoped_snoc in HS as (HS & HC & HO). rewrite run_snoc. set (p := run_calls cs cp_init) in *.
  assert (N := i_U _ _ I).
  destruct c as [ty lb ub g|a s b|q s l ap|q s l|q l]; cbn [do_call].
  - (* addVar *)
    unfold cp_addVar. destruct (Rlt_dec ub lb) as [Hlt|Hlt].
    + cbn [out_state].
      assert (E : issued (cs ++ [CAddVar ty lb ub g]) cp_init = issued cs cp_init).
      { rewrite issued_snoc. unfold issue1. destruct (Rlt_dec ub lb); [|contradiction]. apply app_nil_r. }
      assert (EU : user_cols (cs ++ [CAddVar ty lb ub g]) = user_cols cs) by (unfold user_cols; rewrite E; reflexivity).
      destruct I as [W U ND B LB UB OU OND O0]. constructor; rewrite ?E, ?EU; auto.
      intros H; apply O0. eapply noq_snoc; eassumption.
    + cbn [out_state].
      assert (E : issued (cs ++ [CAddVar ty lb ub g]) cp_init = issued cs cp_init ++ [(List.length (p_vars p), ty)]).
      { rewrite issued_snoc. fold p. unfold issue1. destruct (Rlt_dec ub lb); [contradiction|]. reflexivity. }
      assert (EU : user_cols (cs ++ [CAddVar ty lb ub g]) = user_cols cs ++ [List.length (p_vars p)]).
      { unfold user_cols; rewrite E, map_app; reflexivity. }
      assert (I0 := I).
      destruct I as [[Wb Wl Wu Weq Wli Wq Ws [Wo Wo2]] U ND B LB UB OU OND O0].
      assert (M : forall vs : list cvar, vs = p_vars p ++ [mkVar ty lb ub (clamp_guess lb ub g) (clamp_guess lb ub g)] ->
         List.length vs = (List.length (p_vars p) + 1)%nat) by (intros vs ->; rewrite app_length; reflexivity).
      assert (ML : (List.length (p_vars p) <= List.length (p_vars p) + 1)%nat) by lia.
      assert (ND' : NoDup (user_cols (cs ++ [CAddVar ty lb ub g]) ++ q_extra (p_obj p) ++ flat_map q_extra (p_qineq p))).
      { rewrite EU, <- app_assoc. apply NoDup_app_ins; [assumption|constructor; [intros []|constructor]|].
        intros c [<-|[]] Hin. apply (all_lt _ _ I0) in Hin. lia. }
      assert (OU' : uses_q (user_cols (cs ++ [CAddVar ty lb ub g])) (p_obj p)).
      { rewrite EU. destruct OU as [O1 O2]. split.
        - intros c Hc. apply in_or_app; auto.
        - intros t Ht c Hc. apply in_or_app; left. apply (O2 t Ht c Hc). }
      assert (OO : no_quad_obj (cs ++ [CAddVar ty lb ub g]) -> q_extra (p_obj p) = []).
      { intros H; apply O0. eapply noq_snoc; eassumption. }
      assert (WP : forall bs lbs ubs, (forall c, In c bs -> (c < List.length (p_vars p) + 1)%nat) ->
         List.length lbs = List.length bs -> List.length ubs = List.length bs ->
         wf_problem (set_vars (p_vars p ++ [mkVar ty lb ub (clamp_guess lb ub g) (clamp_guess lb ub g)]) bs lbs ubs p)).
      { intros bs lbs ubs Hb H1 H2. constructor; cbn [set_vars p_vars p_bin p_binlb p_binub p_leq p_lineq p_qineq p_soc p_obj];
          rewrite ?app_length; simpl List.length; auto.
        - intros e He. eapply cols_mono; eauto.
        - intros e He. eapply cols_mono; eauto.
        - intros q Hq. destruct (Wq q Hq). split; [eapply wfq_mono; eauto|assumption].
        - intros q Hq. destruct (Ws q Hq). split; [eapply wfq_mono; eauto|assumption].
        - split; [eapply wfq_mono; eauto|assumption]. }
      assert (UL : forall c, In c (user_cols (cs ++ [CAddVar ty lb ub g])) -> (c < List.length (p_vars p) + 1)%nat).
      { intros c Hc. rewrite EU in Hc. apply in_app_or in Hc as [Hc|[<-|[]]]; [apply U in Hc|]; lia. }
      destruct ty.
      * constructor; cbn [set_vars p_vars p_bin p_binlb p_binub p_leq p_lineq p_qineq p_soc p_obj];
          rewrite ?app_length; simpl List.length; auto.
        -- apply WP.
           ++ intros c Hc. apply in_app_or in Hc as [Hc|[<-|[]]]; [apply Wb in Hc|]; lia.
           ++ rewrite repeat_length, app_length. reflexivity.
           ++ rewrite repeat_length, app_length. reflexivity.
        -- intros c. rewrite E, !in_app_iff, B. simpl. intuition congruence.
      * constructor; cbn [set_vars p_vars p_bin p_binlb p_binub p_leq p_lineq p_qineq p_soc p_obj];
          rewrite ?app_length; simpl List.length; auto.
        -- apply WP; auto. intros c Hc. apply Wb in Hc; lia.
        -- intros c. rewrite E, !in_app_iff, B. simpl. intuition congruence.
  - (* addLin *)
    destruct HC as [HA HB].
    assert (I1 := inv_grow cs (CAddLin a s b) 0 p (fun _ => eq_refl) I). rewrite grow_0 in I1.
    destruct I1 as [[Wb Wl Wu Weq Wli Wq Ws Wo] U ND B LB UB OU OND O0].
    assert (C1 : cols_ok (List.length (p_vars p)) (le_sub a b)) by (eapply uses_cols; [exact N|apply uses_sub; assumption]).
    assert (C2 : cols_ok (List.length (p_vars p)) (le_sub b a)) by (eapply uses_cols; [exact N|apply uses_sub; assumption]).
    unfold cp_addLin.
    destruct (String.eqb s "="); [|destruct (String.eqb s "<"); [|destruct (String.eqb s ">")]]; cbn [out_state];
      constructor; auto; constructor; auto; cbn [p_vars p_leq p_lineq];
      intros e He; apply in_app_or in He as [He|[<-|[]]]; auto.
  - (* addQua *)
    destruct HC as (HQ & (F1 & F2 & F3) & HL).
    unfold cp_addQua. rewrite addAuxs_eq, F1, F2, F3. simpl app.
    set (k := (List.length (q_terms q) + match ap with ApproxSoftConstraint => 1 | _ => 0 end)%nat).
    set (tr := match ap with ApproxTrustRegion => true | _ => false end).
    set (sf := match ap with ApproxSoftConstraint => true | _ => false end).
    assert (K : k = (List.length (q_terms q) + if sf then 1 else 0)%nat) by (unfold k, sf; destruct ap; reflexivity).
    assert (I1 := inv_grow cs (CAddQua q s l ap) k p (fun _ => eq_refl) I).
    assert (WS := staged_wf cs p q l k tr sf I HQ HL).
    destruct (String.eqb s "<"); cbn [out_state].
    + assert (FR := seq_fresh cs p k I). assert (ND0 := i_nd _ _ I).
      destruct I1 as [[Wb Wl Wu Weq Wli Wq Ws Wo] U ND B LB UB OU OND O0].
      constructor; auto; [constructor; auto|];
        cbn [p_vars p_bin p_binlb p_binub p_leq p_lineq p_qineq p_soc p_obj].
      * intros q' Hq'. apply in_app_or in Hq' as [Hq'|[<-|[]]]; [auto|].
        split; [rewrite grow_len; exact WS|]. cbn [q_extra q_terms q_soft]. rewrite seq_length. exact K.
      * rewrite user_cols_snoc_nil by reflexivity. rewrite flat_map_app. simpl flat_map. rewrite app_nil_r.
        cbn [grow set_vars p_obj p_qineq q_extra].
        rewrite !app_assoc. rewrite <- (app_nil_r (_ ++ seq _ _)), <- app_assoc.
        apply NoDup_app_ins; [rewrite app_nil_r, <- app_assoc; exact ND0|apply seq_NoDup|].
        intros c Hc. rewrite app_nil_r, <- app_assoc. apply FR, Hc.
    + rewrite app_nil_r. 
      destruct I1 as [[Wb Wl Wu Weq Wli Wq Ws Wo] U ND B LB UB OU OND O0].
      constructor; auto. constructor; auto.
  - (* addSoc *)
    destruct HC as (HQ & (F1 & F2 & F3) & HL).
    unfold cp_addSoc. rewrite addAuxs_eq, F1, F3. simpl app.
    assert (I1 := inv_grow cs (CAddSoc q s l) 1 p (fun _ => eq_refl) I).
    assert (WS := staged_wf cs p q l 1 false false I HQ HL).
    destruct (String.eqb s "<"); cbn [out_state].
    + destruct I1 as [[Wb Wl Wu Weq Wli Wq Ws Wo] U ND B LB UB OU OND O0].
      constructor; auto. constructor; auto. cbn [p_vars p_soc].
      intros q' Hq'. apply in_app_or in Hq' as [Hq'|[<-|[]]]; [auto|].
      split; [rewrite grow_len; exact WS|reflexivity].
    + rewrite app_nil_r.
      destruct I1 as [[Wb Wl Wu Weq Wli Wq Ws Wo] U ND B LB UB OU OND O0].
      constructor; auto. constructor; auto.
  - (* setObj *)
    destruct HC as (HQ & (F1 & F2 & F3) & HL). specialize (HO q l eq_refl).
    assert (X1 := i_obj0 _ _ I HO).
    unfold cp_setObj. rewrite addAuxs_eq, X1. simpl app. cbn [out_state].
    set (k := List.length (q_terms q)).
    assert (FR := seq_fresh cs p k I). assert (ND0 := i_nd _ _ I). rewrite X1 in ND0. simpl in ND0.
    rewrite X1 in FR. simpl in FR.
    assert (WG := wf_grow k p (i_wf _ _ I)).
    destruct I as [W U ND B LB UB OU OND O0].
    destruct WG as [Wb Wl Wu Weq Wli Wq Ws Wo].
    assert (E : user_cols (cs ++ [CSetObj q l]) = user_cols cs) by (apply user_cols_snoc_nil; reflexivity).
    constructor; auto; cbn [grow set_vars p_vars p_bin p_binlb p_binub p_leq p_lineq p_qineq p_soc p_obj q_extra q_lexpr].
    + constructor; auto. cbn [p_vars p_obj]. destruct HQ as [HQ1 HQ2]. fold (grow k p); change (p_vars p ++ repeat auxvar k) with (p_vars (grow k p)); rewrite ?grow_len.
      split; [constructor|]; cbn [q_lexpr q_terms q_extra].
      * apply (uses_cols (user_cols cs)); [|apply uses_add; assumption]. intros c Hc. apply N in Hc. lia.
      * intros t Ht. apply (uses_cols (user_cols cs)); [|apply HQ2; assumption]. intros c Hc. apply N in Hc. lia.
      * intros c Hc. apply in_seq in Hc. lia.
      * apply seq_length.
    + rewrite E. intros c Hc. rewrite app_length, repeat_length. apply U in Hc. lia.
    + rewrite E. apply NoDup_app_ins; [exact ND0|apply seq_NoDup|exact FR].
    + intros c. rewrite issued_snoc_nil by reflexivity. apply B.
    + rewrite E. destruct HQ as [HQ1 HQ2]. split; cbn [q_lexpr q_terms]; [apply uses_add; assumption|exact HQ2].
    + apply le_add_nodup.
    + intros H. assert (Z : q_terms q = []) by (apply (H q l); apply in_or_app; simpl; auto). unfold k. rewrite Z. reflexivity.
Qed.

Lemma history_inv cs : scoped cs -> inv cs (run_calls cs cp_init).
Proof.
  induction cs as [|c cs IH] using rev_ind; intros HS; [apply inv_init|].
  apply step_inv; [assumption|]. apply IH. apply scoped_snoc in HS. tauto.
Qed.

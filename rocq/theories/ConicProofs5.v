(** Proofs about the modelling layer, part 5: the user's model and the compiled problem. *)
From Coq Require Import String Reals List Arith Bool Lra Lia.
From Verif Require Import ExprsModel ExprsProofs ConicModel ConicSpec ConicProofs ConicProofs2 ConicProofs3 ConicProofs4.
Import ListNotations.
Open Scope R_scope.

Lemma tsum_nil_terms e : le_terms e = [] -> forall x, aval x e = le_const e.
Proof. intros H x. rewrite aval_tsum, H. unfold tsum; simpl. lra. Qed.

(** Either the row is the constraint, or the difference is constant. *)
Lemma row_lin_cases a b x :
  row_lin (le_sub a b) x = aval x b - aval x a \/ (forall x y, aval x a - aval x b = aval y a - aval y b).
Proof.
  unfold row_lin. destruct (le_terms (le_sub a b)) eqn:E.
  - right. intros u v. rewrite <- !aval_sub, !(tsum_nil_terms _ E). reflexivity.
  - left. rewrite aval_sub. lra.
Qed.

Lemma row_lin_sat a b x : aval x a - aval x b = 0 -> row_lin (le_sub a b) x = 0.
Proof. intros H. unfold row_lin. destruct (le_terms _); [reflexivity|]. rewrite aval_sub. lra. Qed.
Lemma row_lin_sat_le a b x : aval x a - aval x b <= 0 -> 0 <= row_lin (le_sub a b) x.
Proof. intros H. unfold row_lin. destruct (le_terms _); [lra|]. rewrite aval_sub. lra. Qed.

Lemma tdot_ge x : forall ts ex, List.length ex = List.length ts ->
  (forall t, In t ts -> 0 <= fst t) ->
  (forall k t, nth_error ts k = Some t -> aval x (snd t) * aval x (snd t) <= x (nth k ex 0%nat)) ->
  wsq x ts <= tdot x ex ts.
Proof.
  induction ts as [|t ts IH]; intros [|c ex] HL HP H; simpl in HL; try lia; cbn [tdot]; unfold wsq; cbn [map].
  - simpl; lra.
  - rewrite sumR_cons. fold (wsq x ts).
    assert (A := H 0%nat t eq_refl). simpl in A.
    assert (B : 0 <= fst t) by (apply HP; simpl; auto).
    assert (C : wsq x ts <= tdot x ex ts).
    { apply IH; [lia|intros; apply HP; simpl; auto|]. intros k t' Hk. apply (H (S k) t' Hk). }
    assert (fst t * (aval x (snd t) * aval x (snd t)) <= fst t * x c) by (apply Rmult_le_compat_l; assumption). lra.
Qed.

Lemma tdot_app x : forall ts ex ex', (List.length ts <= List.length ex)%nat -> tdot x (ex ++ ex') ts = tdot x ex ts.
Proof.
  induction ts as [|t ts IH]; intros [|c ex] ex' H; simpl in *; try lia; try reflexivity.
  - destruct ex'; reflexivity.
  - rewrite IH by lia. reflexivity.
Qed.

Lemma seq_snoc n k : seq n (k + 1) = seq n k ++ [(n + k)%nat].
Proof. rewrite seq_app. reflexivity. Qed.

Lemma nth_seq_lt n k j d : (j < k)%nat -> nth j (seq n k) d = (n + j)%nat.
Proof. intros H. rewrite seq_nth; auto. Qed.

Lemma tdot_firstn x ts : forall ex, tdot x ex ts = tdot x (firstn (List.length ts) ex) ts.
Proof.
  induction ts as [|t ts IH]; intros [|c ex]; simpl; try reflexivity. rewrite <- IH. reflexivity.
Qed.
Lemma firstn_seq n k j : (j <= k)%nat -> firstn j (seq n k) = seq n j.
Proof.
  revert n j. induction k as [|k IH]; intros n [|j] H; simpl; try reflexivity; try lia. rewrite IH by lia. reflexivity.
Qed.

Lemma tdot_eq x : forall ts ex, (List.length ts <= List.length ex)%nat ->
  (forall k t, nth_error ts k = Some t -> x (nth k ex 0%nat) = aval x (snd t) * aval x (snd t)) ->
  tdot x ex ts = wsq x ts.
Proof.
  induction ts as [|t ts IH]; intros [|c ex] HL H; simpl in HL; try lia; cbn [tdot]; unfold wsq; cbn [map]; try reflexivity.
  rewrite sumR_cons. fold (wsq x ts). rewrite (IH ex); [|lia|].
  - assert (A := H 0%nat t eq_refl). simpl in A. rewrite A. reflexivity.
  - intros k t' Hk. apply (H (S k) t' Hk).
Qed.

(** wf: extras long enough *)
Lemma qok_sound x q n : wf_q n q -> List.length (q_extra q) = (List.length (q_terms q) + if q_soft q then 1 else 0)%nat ->
  (forall t, In t (q_terms q) -> 0 <= fst t) -> q_ok x q -> wsq x (q_terms q) + aval x (q_lexpr q) <= 0.
Proof.
  intros W HL HP [H1 H2].
  assert (G : wsq x (q_terms q) <= tdot x (firstn (List.length (q_terms q)) (q_extra q)) (q_terms q)).
  { apply tdot_ge; [rewrite firstn_length; lia|assumption|]. intros k t Hk.
    assert (k < List.length (q_terms q))%nat by (apply nth_error_Some; congruence).
    specialize (H2 k t Hk). rewrite <- (firstn_skipn (List.length (q_terms q)) (q_extra q)) in H2.
    rewrite app_nth1 in H2; [exact H2|]. rewrite firstn_length; lia. }
  rewrite <- tdot_firstn in G. lra.
Qed.

(** ** Soundness *)
Lemma sound cs : scoped cs -> (forall c, In c cs -> call_convex c) -> (forall c, In c cs -> call_not_absurd c) ->
  forall x, lin_ok x (run_calls cs cp_init) ->
    (forall q, In q (p_qineq (run_calls cs cp_init)) -> q_ok x q) ->
    (forall q, In q (p_soc (run_calls cs cp_init)) -> soc_ok x q) ->
    forall c, In c cs -> call_holds x c.
Proof.
  induction cs as [|c cs IH] using rev_ind; intros HS HC HA x HL HQ HSO c0 Hc0; [destruct Hc0|].
  assert (HS' := HS). apply scoped_snoc in HS' as (HS1 & HSc & HO).
  assert (I := history_inv cs HS1). assert (I2 := history_inv _ HS).
  rewrite run_snoc in *. set (p := run_calls cs cp_init) in *.
  assert (HCc : call_convex c) by (apply HC; apply in_or_app; simpl; auto).
  assert (HAc : call_not_absurd c) by (apply HA; apply in_or_app; simpl; auto).
  assert (IH' : lin_ok x p -> (forall q, In q (p_qineq p) -> q_ok x q) -> (forall q, In q (p_soc p) -> soc_ok x q) ->
      forall c0, In c0 cs -> call_holds x c0).
  { intros A B C. apply IH; auto.
    - intros; apply HC; apply in_or_app; auto.
    - intros; apply HA; apply in_or_app; auto. }
  clear IH.
  destruct c as [ty lb ub g|a s b|q s l ap|q s l|q l]; cbn [do_call] in *.
  - assert (Q : p_leq (out_state (cp_addVar ty lb ub g p)) = p_leq p /\ p_lineq (out_state (cp_addVar ty lb ub g p)) = p_lineq p
       /\ p_qineq (out_state (cp_addVar ty lb ub g p)) = p_qineq p /\ p_soc (out_state (cp_addVar ty lb ub g p)) = p_soc p).
    { unfold cp_addVar. destruct (Rlt_dec ub lb); [auto|]. destruct ty; cbn; auto. }
    destruct Q as (Q1 & Q2 & Q3 & Q4). rewrite Q3 in HQ. rewrite Q4 in HSO. unfold lin_ok in HL. rewrite Q1, Q2 in HL.
    apply in_app_or in Hc0 as [Hc0|[<-|[]]]; [|exact I0 || exact Logic.I]. apply IH'; auto.
  - unfold cp_addLin in *.
    destruct (String.eqb_spec s "=") as [->|E1]; [|destruct (String.eqb_spec s "<") as [->|E2]; [|destruct (String.eqb_spec s ">") as [->|E3]]];
      cbn [out_state] in *; cbn [p_leq p_lineq p_qineq p_soc] in *; destruct HL as [HL1 HL2]; cbn [p_leq p_lineq] in *.
    + assert (R : row_lin (le_sub a b) x = 0) by (apply HL1; apply in_or_app; simpl; auto).
      apply in_app_or in Hc0 as [Hc0|[<-|[]]].
      * apply IH'; auto. split; auto. intros e He; apply HL1; apply in_or_app; auto.
      * simpl. split; [intros _|split; intros E; discriminate].
        destruct (row_lin_cases a b x) as [E|E]; [lra|]. simpl in HAc. destruct (HAc E) as [Z _].
        specialize (Z eq_refl). specialize (E x (fun _ => 0)). lra.
    + assert (R : 0 <= row_lin (le_sub a b) x) by (apply HL2; apply in_or_app; simpl; auto).
      apply in_app_or in Hc0 as [Hc0|[<-|[]]].
      * apply IH'; auto. split; auto. intros e He; apply HL2; apply in_or_app; auto.
      * simpl. split; [intros E; discriminate|split; [intros _|intros E; discriminate]].
        destruct (row_lin_cases a b x) as [E|E]; [lra|]. simpl in HAc. destruct (HAc E) as [_ [Z _]].
        specialize (Z eq_refl). specialize (E x (fun _ => 0)). lra.
    + assert (R : 0 <= row_lin (le_sub b a) x) by (apply HL2; apply in_or_app; simpl; auto).
      apply in_app_or in Hc0 as [Hc0|[<-|[]]].
      * apply IH'; auto. split; auto. intros e He; apply HL2; apply in_or_app; auto.
      * simpl. split; [intros E; discriminate|split; [intros E; discriminate|intros _]].
        destruct (row_lin_cases b a x) as [E|E]; [lra|]. simpl in HAc. destruct HAc as [_ [_ Z]].
        { intros u v. specialize (E u v). lra. }
        specialize (Z eq_refl). specialize (E x (fun _ => 0)). lra.
    + apply in_app_or in Hc0 as [Hc0|[<-|[]]].
      * apply IH'; auto. split; auto.
      * simpl. repeat split; intros; congruence.
  - destruct HSc as (HQs & (F1 & F2 & F3) & HLs).
    unfold cp_addQua in *. rewrite addAuxs_eq, F1, F2, F3 in *. cbn [app] in *.
    destruct (String.eqb_spec s "<") as [->|E2]; cbn [out_state p_leq p_lineq p_qineq p_soc grow set_vars] in *.
    + apply in_app_or in Hc0 as [Hc0|[<-|[]]].
      * apply IH'; auto. intros q' Hq'; apply HQ; apply in_or_app; auto.
      * intros _. set (q' := mkQ _ _ _ _ _) in HQ.
        assert (In q' (p_qineq p ++ [q'])) by (apply in_or_app; simpl; auto).
        assert (K := HQ q' H).
        destruct (wp_q _ (i_wf _ _ I2) q') as [W WL]; [exact H|].
        apply (qok_sound x q' _ W WL) in K; [|exact HCc].
        unfold q' in K. cbn [q_terms q_lexpr] in K. rewrite aval_sub in K. lra.
    + rewrite app_nil_r in HQ.
      apply in_app_or in Hc0 as [Hc0|[<-|[]]]; [apply IH'; auto|]. intros E; contradiction.
  - destruct HSc as (HQs & (F1 & F2 & F3) & HLs).
    unfold cp_addSoc in *. rewrite addAuxs_eq, F1, F3 in *. cbn [app] in *.
    destruct (String.eqb_spec s "<") as [->|E2]; cbn [out_state p_leq p_lineq p_qineq p_soc grow set_vars] in *.
    + apply in_app_or in Hc0 as [Hc0|[<-|[]]].
      * apply IH'; auto. intros q' Hq'; apply HSO; apply in_or_app; auto.
      * intros _. set (q' := mkQ _ _ _ _ _) in HSO.
        assert (In q' (p_soc p ++ [q'])) by (apply in_or_app; simpl; auto).
        destruct (HSO q' H) as [K1 K2]. unfold q' in K1, K2. cbn [q_terms q_lexpr q_extra] in K1, K2. rewrite aval_sub in K1. lra.
    + rewrite app_nil_r in HSO.
      apply in_app_or in Hc0 as [Hc0|[<-|[]]]; [apply IH'; auto|]. intros E; contradiction.
  - unfold cp_setObj in *. rewrite addAuxs_eq in *. cbn [out_state p_leq p_lineq p_qineq p_soc grow set_vars] in *.
    apply in_app_or in Hc0 as [Hc0|[<-|[]]]; [apply IH'; auto|exact Logic.I].
Qed.

(** ** Trust regions, soft constraints, objective: problem level = history level *)
Lemma do_lists c p :
  (match c with CAddQua _ _ _ _ => True | _ => p_qineq (out_state (do_call c p)) = p_qineq p end) /\
  (match c with CSetObj _ _ => True | _ => p_obj (out_state (do_call c p)) = p_obj p end).
Proof.
  destruct c as [ty lb ub g|a s b|q s l ap|q s l|q l]; cbn [do_call].
  - unfold cp_addVar. destruct (Rlt_dec ub lb); [auto|]. destruct ty; cbn; auto.
  - unfold cp_addLin. destruct (String.eqb s "="); [auto|]. destruct (String.eqb s "<"); [auto|]. destruct (String.eqb s ">"); auto.
  - split; [exact I|]. unfold cp_addQua. rewrite addAuxs_eq. destruct (String.eqb s "<"); reflexivity.
  - unfold cp_addSoc. rewrite addAuxs_eq. destruct (String.eqb s "<"); auto.
  - split; [|exact I]. unfold cp_setObj. rewrite addAuxs_eq. reflexivity.
Qed.

Lemma qineq_snoc cs q s l ap : scoped (cs ++ [CAddQua q s l ap]) ->
  p_qineq (run_calls (cs ++ [CAddQua q s l ap]) cp_init) =
  p_qineq (run_calls cs cp_init) ++
    if String.eqb s "<" then [mkQ (le_sub (q_lexpr q) l) (q_terms q)
       (seq (List.length (p_vars (run_calls cs cp_init)))
            (List.length (q_terms q) + match ap with ApproxSoftConstraint => 1 | _ => 0 end)%nat)
       (match ap with ApproxTrustRegion => true | _ => false end)
       (match ap with ApproxSoftConstraint => true | _ => false end)] else [].
Proof.
  intros HS. apply scoped_snoc in HS as (_ & (_ & (F1 & F2 & F3) & _) & _).
  rewrite run_snoc. cbn [do_call]. unfold cp_addQua. rewrite addAuxs_eq, F1, F2, F3. cbn [app].
  destruct (String.eqb s "<"); reflexivity.
Qed.

Lemma trust_iff env x thr iter cs : scoped cs ->
  (forall q, In q (p_qineq (run_calls cs cp_init)) -> q_trust q = true -> 0 <= qlin_env env q x + thr ^ iter) <->
  (forall c, In c cs -> trust_holds env thr iter x c).
Proof.
  induction cs as [|c cs IH] using rev_ind; intros HS; [split; intros _ ? []|].
  assert (HS' := HS). apply scoped_snoc in HS' as (HS1 & _ & _). specialize (IH HS1).
  assert (SP : (forall c0, In c0 (cs ++ [c]) -> trust_holds env thr iter x c0) <->
     (forall c0, In c0 cs -> trust_holds env thr iter x c0) /\ trust_holds env thr iter x c).
  { split.
    - intros H; split; [intros; apply H; apply in_or_app; auto|apply H; apply in_or_app; simpl; auto].
    - intros [H1 H2] c0 Hc0. apply in_app_or in Hc0 as [?|[<-|[]]]; auto. }
  rewrite SP, <- IH. clear SP IH.
  assert (D := do_lists c (run_calls cs cp_init)). rewrite <- run_snoc in D. destruct D as [D _].
  destruct c as [ty lb ub g|a s b|q s l ap|q s l|q l]; try (rewrite D; simpl; tauto).
  rewrite qineq_snoc by assumption. destruct (String.eqb_spec s "<") as [->|E].
  - set (q' := mkQ _ _ _ _ _).
    assert (EQ : qlin_env env q' x = lin_model env q l x) by apply qlin_env_staged.
    split.
    + intros H. split; [intros q0 H0; apply H; apply in_or_app; auto|].
      destruct ap; simpl; auto. intros _.
      assert (0 <= qlin_env env q' x + thr ^ iter) by (apply H; [apply in_or_app; simpl; auto|reflexivity]). lra.
    + intros [H1 H2] q0 H0 T0. apply in_app_or in H0 as [H0|[<-|[]]]; [auto|].
      unfold q' in T0. cbn [q_trust] in T0. destruct ap; try discriminate. simpl in H2. specialize (H2 eq_refl). lra.
  - rewrite app_nil_r. split; [|tauto]. intros H; split; [assumption|]. destruct ap; simpl; auto. intros; contradiction.
Qed.

Lemma soft_sum env w x cs : scoped cs ->
  sumR (map (fun q => w * (qlin_env env q x * qlin_env env q x)) (filter q_soft (p_qineq (run_calls cs cp_init))))
  = sumR (map (soft_penalty env w x) cs).
Proof.
  induction cs as [|c cs IH] using rev_ind; intros HS; [reflexivity|].
  assert (HS' := HS). apply scoped_snoc in HS' as (HS1 & _ & _). specialize (IH HS1).
  rewrite (map_app _ cs), sumR_app, <- IH. clear IH.
  assert (D := do_lists c (run_calls cs cp_init)). rewrite <- run_snoc in D. destruct D as [D _].
  destruct c as [ty lb ub g|a s b|q s l ap|q s l|q l]; try (rewrite D; simpl; lra).
  rewrite qineq_snoc by assumption. rewrite filter_app, map_app, sumR_app. f_equal. cbn [map]. cbn [soft_penalty].
  destruct (String.eqb s "<"); [|destruct ap; simpl; lra].
  destruct ap; cbn [filter q_soft map sumR fold_right]; try lra. rewrite qlin_env_staged. lra.
Qed.

Lemma user_obj_snoc cs c x : user_obj (cs ++ [c]) x = match c with CSetObj q l => obj_value x q l | _ => user_obj cs x end.
Proof. unfold user_obj. rewrite fold_left_app. reflexivity. Qed.
Lemma obj_const_snoc cs c : obj_const (cs ++ [c]) = match c with CSetObj q l => le_const (q_lexpr q) + le_const l | _ => obj_const cs end.
Proof. unfold obj_const. rewrite fold_left_app. reflexivity. Qed.

Lemma obj_hist cs x : 
  user_obj cs x = wsq x (q_terms (p_obj (run_calls cs cp_init))) + aval x (q_lexpr (p_obj (run_calls cs cp_init))) /\
  obj_const cs = le_const (q_lexpr (p_obj (run_calls cs cp_init))).
Proof.
  induction cs as [|c cs [IH1 IH2]] using rev_ind.
  - unfold wsq, aval, user_obj, obj_const; simpl. split; lra.
  - rewrite user_obj_snoc, obj_const_snoc.
    assert (D := do_lists c (run_calls cs cp_init)). rewrite <- run_snoc in D. destruct D as [_ D].
    destruct c as [ty lb ub g|a s b|q s l ap|q s l|q l]; try (rewrite D; split; assumption).
    rewrite run_snoc. cbn [do_call]. unfold cp_setObj. rewrite addAuxs_eq. cbn [out_state p_obj q_terms q_lexpr].
    unfold obj_value. rewrite aval_add. split; [lra|]. reflexivity.
Qed.

(** ** Completeness *)
Definition agree (U : list nat) (x x' : nat -> R) : Prop := forall c, In c U -> x' c = x c.

Lemma wsq_uses U x x' ts : (forall t, In t ts -> uses U (snd t)) -> agree U x x' -> wsq x' ts = wsq x ts.
Proof.
  intros H A. unfold wsq. f_equal. apply map_ext_in. intros t Ht. rewrite (aval_uses U x x' (snd t)); auto.
Qed.
Lemma sq_uses U x x' ts : (forall t, In t ts -> uses U (snd t)) -> agree U x x' -> sq x' ts = sq x ts.
Proof.
  intros H A. unfold sq. f_equal. apply map_ext_in. intros t Ht. rewrite (aval_uses U x x' (snd t)); auto.
Qed.
Lemma lin_model_uses U env q l x x' : uses_q U q -> uses U l -> agree U x x' -> lin_model env q l x' = lin_model env q l x.
Proof.
  intros [H1 H2] H3 A. unfold lin_model. rewrite (aval_uses U x x' (q_lexpr q)), (aval_uses U x x' l); auto.
  f_equal. f_equal. apply map_ext_in. intros t Ht. rewrite (aval_uses U x x' (snd t)); auto.
Qed.

(** set the auxiliary columns [n..] to the given values *)
Definition setaux (n : nat) (vals : list R) (x : nat -> R) : nat -> R :=
  fun c => if Nat.ltb c n then x c else nth (c - n) vals 0.
Lemma setaux_lo n vals x c : (c < n)%nat -> setaux n vals x c = x c.
Proof. intros H. unfold setaux. apply Nat.ltb_lt in H. rewrite H. reflexivity. Qed.
Lemma setaux_hi n vals x k : setaux n vals x (n + k)%nat = nth k vals 0.
Proof. unfold setaux. destruct (Nat.ltb_spec (n + k) n); [lia|]. f_equal. lia. Qed.

Lemma complete env cs : scoped cs -> forall x, (forall c, In c cs -> call_holds x c) ->
  exists x', agree (user_cols cs) x x' /\ tight env x' (run_calls cs cp_init).
Proof.
  induction cs as [|c cs IH] using rev_ind; intros HS x HC.
  - exists x. split; [intros c Hc; reflexivity|].
    split; [split; intros ? []|split; [intros ? []|split; [intros ? []|]]]. intros k t Hk. destruct k; discriminate.
  - assert (HS' := HS). apply scoped_snoc in HS' as (HS1 & HSc & HO).
    destruct (IH HS1 x) as (x0 & A0 & T0); [intros; apply HC; apply in_or_app; auto|]. clear IH.
    assert (I := history_inv cs HS1). assert (I2 := history_inv _ HS).
    assert (Hc : call_holds x c) by (apply HC; apply in_or_app; simpl; auto).
    set (p := run_calls cs cp_init) in *. set (n := List.length (p_vars p)).
    assert (UN := i_U _ _ I). fold n in UN.
    destruct c as [ty lb ub g|a s b|q s l ap|q s l|q l].
    + (* addVar: the new column takes the user's value *)
      exists (setaux n [x n] x0). split.
      * intros c Hin. unfold user_cols in Hin. rewrite issued_snoc in Hin. fold p in Hin. unfold issue1 in Hin.
        rewrite map_app in Hin. apply in_app_or in Hin as [Hin|Hin].
        -- rewrite setaux_lo; [apply A0, Hin|apply UN, Hin].
        -- destruct (Rlt_dec ub lb); simpl in Hin; [contradiction|]. destruct Hin as [<-|[]].
           fold n. rewrite <- (Nat.add_0_r n) at 3. rewrite setaux_hi. reflexivity.
      * assert (T1 : tight env (setaux n [x n] x0) p).
        { eapply tight_agree; [apply (i_wf _ _ I)|apply setaux_lo|exact T0]. }
        rewrite run_snoc. fold p. cbn [do_call]. unfold cp_addVar. destruct (Rlt_dec ub lb); [exact T1|]. destruct ty; exact T1.
    + (* addLin *)
      exists x0. rewrite user_cols_snoc_nil by reflexivity. split; [exact A0|].
      destruct HSc as [Ua Ub]. rewrite run_snoc. fold p. cbn [do_call]. unfold cp_addLin.
      assert (Ea := aval_uses _ x x0 a Ua A0). assert (Eb := aval_uses _ x x0 b Ub A0).
      destruct T0 as ([T1 T2] & T3 & T4 & T5). destruct Hc as (Hc1 & Hc2 & Hc3).
      destruct (String.eqb_spec s "=") as [->|E1]; [|destruct (String.eqb_spec s "<") as [->|E2]; [|destruct (String.eqb_spec s ">") as [->|E3]]];
        cbn [out_state].
      * split; [split|auto]; cbn [p_leq p_lineq]; auto. intros e He. apply in_app_or in He as [He|[<-|[]]]; [auto|].
        apply row_lin_sat. specialize (Hc1 eq_refl). lra.
      * split; [split|auto]; cbn [p_leq p_lineq]; auto. intros e He. apply in_app_or in He as [He|[<-|[]]]; [auto|].
        apply row_lin_sat_le. specialize (Hc2 eq_refl). lra.
      * split; [split|auto]; cbn [p_leq p_lineq]; auto. intros e He. apply in_app_or in He as [He|[<-|[]]]; [auto|].
        apply row_lin_sat_le. specialize (Hc3 eq_refl). lra.
      * split; [split|]; auto.
    + (* addQua *)
      destruct HSc as (HQ & (F1 & F2 & F3) & HL).
      set (vals := map (fun t => aval x (snd t) * aval x (snd t)) (q_terms q) ++ [lin_model env q l x * lin_model env q l x]).
      exists (setaux n vals x0). rewrite user_cols_snoc_nil by reflexivity.
      assert (A1 : agree (user_cols cs) x (setaux n vals x0)).
      { intros c Hin. rewrite setaux_lo; [apply A0, Hin|apply UN, Hin]. }
      split; [exact A1|].
      assert (T1 : tight env (setaux n vals x0) p).
      { eapply tight_agree; [apply (i_wf _ _ I)|apply setaux_lo|exact T0]. }
      destruct T1 as (T1 & T2 & T3 & T4). set (x1 := setaux n vals x0) in *.
      split; [|split; [|split]].
      * rewrite run_snoc. fold p. cbn [do_call]. unfold cp_addQua. rewrite addAuxs_eq. destruct (String.eqb s "<"); exact T1.
      * intros q0 Hq0. rewrite qineq_snoc in Hq0 by assumption. fold p in Hq0. fold n in Hq0.
        apply in_app_or in Hq0 as [Hq0|Hq0]; [auto|].
        destruct (String.eqb_spec s "<") as [->|]; [|destruct Hq0]. destruct Hq0 as [<-|[]].
        set (k := (List.length (q_terms q) + _)%nat).
        assert (V : forall j t, nth_error (q_terms q) j = Some t ->
            x1 (nth j (seq n k) 0%nat) = aval x1 (snd t) * aval x1 (snd t)).
        { intros j t Hj. assert (j < List.length (q_terms q))%nat by (apply nth_error_Some; congruence).
          rewrite seq_nth by (unfold k; lia). unfold x1 at 1. rewrite setaux_hi. unfold vals. rewrite app_nth1 by (rewrite map_length; assumption).
          rewrite (nth_indep _ 0 (aval x (snd (0, le_of_const 0)) * aval x (snd (0, le_of_const 0)))) by (rewrite map_length; assumption).
          rewrite (map_nth (fun t => aval x (snd t) * aval x (snd t))). rewrite (nth_error_nth _ _ _ Hj).
          destruct HQ as [_ HQ2]. rewrite (aval_uses (user_cols cs) x x1 (snd t)); auto. apply HQ2. eapply nth_error_In; eassumption. }
        split; [|split]; cbn [q_extra q_terms q_lexpr q_soft].
        -- rewrite (tdot_eq x1); [|rewrite seq_length; unfold k; lia|exact V].
           rewrite aval_sub. destruct HQ as [HQ1 HQ2]. specialize (Hc eq_refl).
           rewrite (wsq_uses _ x x1 _ HQ2 A1), (aval_uses _ x x1 _ HQ1 A1), (aval_uses _ x x1 _ HL A1). lra.
        -- exact V.
        -- intros Hs. rewrite qlin_env_staged. rewrite (lin_model_uses _ env q l x x1 HQ HL A1).
           destruct ap; try discriminate. unfold k. rewrite seq_snoc, last_last. unfold x1. rewrite setaux_hi.
           unfold vals. rewrite app_nth2 by (rewrite map_length; lia). rewrite map_length, Nat.sub_diag. reflexivity.
      * rewrite run_snoc. fold p. cbn [do_call]. unfold cp_addQua. rewrite addAuxs_eq. destruct (String.eqb s "<"); exact T3.
      * rewrite run_snoc. fold p. cbn [do_call]. unfold cp_addQua. rewrite addAuxs_eq. destruct (String.eqb s "<"); exact T4.
    + (* addSoc *)
      destruct HSc as (HQ & (F1 & F2 & F3) & HL).
      set (vals := [sqrt (sq x (q_terms q))]).
      exists (setaux n vals x0). rewrite user_cols_snoc_nil by reflexivity.
      assert (A1 : agree (user_cols cs) x (setaux n vals x0)).
      { intros c Hin. rewrite setaux_lo; [apply A0, Hin|apply UN, Hin]. }
      split; [exact A1|].
      assert (T1 : tight env (setaux n vals x0) p).
      { eapply tight_agree; [apply (i_wf _ _ I)|apply setaux_lo|exact T0]. }
      destruct T1 as (T1 & T2 & T3 & T4). set (x1 := setaux n vals x0) in *.
      assert (V : x1 n = sqrt (sq x (q_terms q))).
      { unfold x1. rewrite <- (Nat.add_0_r n) at 2. rewrite setaux_hi. reflexivity. }
      rewrite run_snoc. fold p. cbn [do_call]. unfold cp_addSoc. rewrite addAuxs_eq, F1, F3. fold n.
      destruct (String.eqb_spec s "<") as [->|]; cbn [out_state app].
      * split; [exact T1|split; [exact T2|split; [|exact T4]]]. cbn [p_soc]. intros q0 Hq0.
        apply in_app_or in Hq0 as [Hq0|[<-|[]]]; [auto|]. cbn [seq].
        destruct HQ as [HQ1 HQ2]. specialize (Hc eq_refl).
        split; cbn [q_extra q_lexpr q_terms nth]; rewrite V.
        -- rewrite aval_sub, (aval_uses _ x x1 _ HQ1 A1), (aval_uses _ x x1 _ HL A1). lra.
        -- rewrite (sq_uses _ x x1 _ HQ2 A1). reflexivity.
      * rewrite app_nil_r. split; [exact T1|split; [exact T2|split; [exact T3|exact T4]]].
    + (* setObj *)
      destruct HSc as (HQ & (F1 & F2 & F3) & HL). specialize (HO q l eq_refl).
      assert (X1 := i_obj0 _ _ I HO).
      set (vals := map (fun t => aval x (snd t) * aval x (snd t)) (q_terms q)).
      exists (setaux n vals x0). rewrite user_cols_snoc_nil by reflexivity.
      assert (A1 : agree (user_cols cs) x (setaux n vals x0)).
      { intros c Hin. rewrite setaux_lo; [apply A0, Hin|apply UN, Hin]. }
      split; [exact A1|].
      assert (T1 : tight env (setaux n vals x0) p).
      { eapply tight_agree; [apply (i_wf _ _ I)|apply setaux_lo|exact T0]. }
      destruct T1 as (T1 & T2 & T3 & T4). set (x1 := setaux n vals x0) in *.
      rewrite run_snoc. fold p. cbn [do_call]. unfold cp_setObj. rewrite addAuxs_eq, X1. cbn [app out_state]. fold n.
      split; [exact T1|split; [exact T2|split; [exact T3|]]]. cbn [p_obj].
      intros j t Hj. cbn [q_terms q_extra] in *.
      assert (j < List.length (q_terms q))%nat by (apply nth_error_Some; congruence).
      rewrite seq_nth by assumption. unfold x1 at 1. rewrite setaux_hi. unfold vals.
      rewrite (nth_indep _ 0 (aval x (snd (0, le_of_const 0)) * aval x (snd (0, le_of_const 0)))) by (rewrite map_length; assumption).
      rewrite (map_nth (fun t => aval x (snd t) * aval x (snd t))). rewrite (nth_error_nth _ _ _ Hj).
      destruct HQ as [_ HQ2]. rewrite (aval_uses (user_cols cs) x x1 (snd t)); auto. apply HQ2. eapply nth_error_In; eassumption.
Qed.

(** ** Main results *)
Lemma bin_iff cs x : scoped cs -> bin_ok x (run_calls cs cp_init) <-> binaries_ok cs x.
Proof.
  intros HS. assert (I := history_inv cs HS). unfold bin_ok, binaries_ok.
  set (p := run_calls cs cp_init) in *.
  rewrite (i_lb _ _ I), (i_ub _ _ I).
  assert (NR : forall (a : R) k i d, (i < k)%nat -> nth i (repeat a k) d = a).
  { intros a k i d H. rewrite (nth_indep _ d a) by (rewrite repeat_length; assumption). apply nth_repeat. }
  split.
  - intros H c Hc. apply (i_bin _ _ I) in Hc. apply In_nth_error in Hc as [i Hi].
    assert (i < List.length (p_bin p))%nat by (apply nth_error_Some; congruence).
    specialize (H i c Hi). rewrite !NR in H by assumption. lra.
  - intros H i c Hi. assert (i < List.length (p_bin p))%nat by (apply nth_error_Some; congruence).
    rewrite !NR by assumption. apply nth_error_In in Hi. apply (i_bin _ _ I) in Hi. specialize (H c Hi). lra.
Qed.

Lemma NoDup_app_disj {A} (l1 l2 : list A) : NoDup l1 -> NoDup l2 -> (forall a, In a l1 -> ~ In a l2) -> NoDup (l1 ++ l2).
Proof.
  intros H1 H2 H3. rewrite <- (app_nil_r l2), app_assoc. rewrite <- app_assoc.
  apply NoDup_app_ins; [rewrite app_nil_r; assumption|assumption|]. intros c Hc. rewrite app_nil_r. intros Hn. apply (H3 c Hn Hc).
Qed.
Lemma NoDup_app_parts {A} (l1 l2 : list A) : NoDup (l1 ++ l2) -> NoDup l1 /\ NoDup l2 /\ (forall a, In a l1 -> ~ In a l2).
Proof.
  induction l1 as [|a l1 IH]; simpl; intros H; [split; [constructor|split; [assumption|intros ? []]]|].
  inversion H; subst. destruct (IH H3) as (A1 & A2 & A3). split; [|split; [assumption|]].
  - constructor; [intros Hn; apply H2; apply in_or_app; auto|assumption].
  - intros b [<-|Hb]; [intros Hn; apply H2; apply in_or_app; auto|auto].
Qed.

Lemma obj_cols (ex : list nat) (ts : list (R * linexpr)) : forall i,
  map fst (concat (mapi (fun i c => [(c, fst (nth i ts (0, le_of_const 0)))]) i ex)) = ex.
Proof. induction ex as [|c ex IH]; intros i; simpl; [reflexivity|]. rewrite IH. reflexivity. Qed.

Lemma writes_nodup w warm cs : scoped cs -> NoDup (map fst (obj_writes w warm (run_calls cs cp_init))).
Proof.
  intros HS. assert (I := history_inv cs HS). set (p := run_calls cs cp_init) in *.
  unfold obj_writes. rewrite !map_app, obj_cols.
  assert (ND := i_nd _ _ I). apply NoDup_app_parts in ND as (N1 & N2 & N3).
  apply NoDup_app_parts in N2 as (N4 & N5 & N6).
  assert (S : NoDup (map (@fst nat R) (if warm then (@nil (nat*R)) else map (fun q => (last (q_extra q) 0%nat, w)) (filter q_soft (p_qineq p))))
     /\ forall c, In c (map (@fst nat R) (if warm then (@nil (nat*R)) else map (fun q => (last (q_extra q) 0%nat, w)) (filter q_soft (p_qineq p)))) ->
          In c (flat_map q_extra (p_qineq p))).
  { destruct warm; [split; [constructor|intros ? []]|]. rewrite map_map. cbn [fst].
    assert (WQ := wp_q _ (i_wf _ _ I)). clear - N5 WQ. 
    assert (WE : forall q, In q (p_qineq p) -> q_soft q = true -> q_extra q <> []).
    { intros q Hq Hs E. destruct (WQ q Hq) as [_ L]. rewrite Hs, E in L. simpl in L. lia. }
    clear WQ. induction (p_qineq p) as [|q qs IH]; simpl; [split; [constructor|intros ? []]|].
    simpl in N5. apply NoDup_app_parts in N5 as (M1 & M2 & M3).
    destruct IH as [J1 J2]; [assumption|intros; apply WE; simpl; auto|].
    destruct (q_soft q) eqn:E; cbn [map].
    - assert (L : In (last (q_extra q) 0%nat) (q_extra q)) by (apply last_In, WE; simpl; auto).
      split.
      + constructor; [|assumption]. intros Hn. apply J2 in Hn. apply (M3 _ L Hn).
      + intros c [<-|Hc]; apply in_or_app; auto.
    - split; [assumption|]. intros c Hc. apply in_or_app; auto. }
  destruct S as [S1 S2].
  apply NoDup_app_disj; [apply (i_objnd _ _ I)|apply NoDup_app_disj; [assumption|assumption|]|].
  - intros c Hc Hn. apply (N6 c Hc). apply S2, Hn.
  - intros c Hc Hn. destruct (i_objU _ _ I) as [OU _]. apply OU in Hc. apply (N3 c Hc).
    apply in_app_or in Hn as [Hn|Hn]; apply in_or_app; [auto|right; apply S2, Hn].
Qed.

Definition sum_soft_le env w x qs : 0 <= w ->
  (forall q, In q qs -> q_soft q = true -> qlin_env env q x * qlin_env env q x <= x (last (q_extra q) 0%nat)) ->
  sumR (map (fun q => w * (qlin_env env q x * qlin_env env q x)) (filter q_soft qs))
  <= sumR (map (fun q => w * x (last (q_extra q) 0%nat)) (filter q_soft qs)).
Proof.
  intros Hw. induction qs as [|q qs IH]; intros H; cbn [filter map]; [lra|].
  assert (IH' := IH (fun q' Hq' => H q' (or_intror Hq'))).
  destruct (q_soft q) eqn:E; [|assumption]. cbn [map]. rewrite !sumR_cons.
  assert (w * (qlin_env env q x * qlin_env env q x) <= w * x (last (q_extra q) 0%nat)).
  { apply Rmult_le_compat_l; [assumption|]. apply H; simpl; auto. }
  lra.
Qed.

Lemma compiled_sound thr w iter warm cs x :
  scoped cs -> (forall c, In c cs -> call_convex c) -> (forall c, In c cs -> call_not_absurd c) -> 0 <= w ->
  compiled_feasible thr w iter warm cs x ->
  (forall c, In c cs -> call_holds x c) /\ binaries_ok cs x /\
  (warm = false -> forall c, In c cs -> trust_holds (p_env (run_calls cs cp_init)) thr iter x c) /\
  user_obj cs x + (if warm then 0 else sumR (map (soft_penalty (p_env (run_calls cs cp_init)) w x) cs))
    <= compiled_objective thr w iter warm cs x + obj_const cs.
Proof.
  intros HS HC HA Hw HF. assert (I := history_inv cs HS). unfold compiled_feasible, compiled_objective in *.
  cbv zeta in HF. apply feasible_iff in HF; [|apply (i_wf _ _ I)].
  destruct HF as (F1 & F2 & F3 & F4 & F5 & F6).
  split; [apply sound; assumption|]. split; [apply bin_iff; assumption|].
  split.
  { intros Ew. apply trust_iff; [assumption|]. intros q Hq Ht. rewrite <- qlinear_env. apply (F6 Ew); assumption. }
  rewrite objective_spec by (apply (i_wf _ _ I) || apply writes_nodup; assumption).
  destruct (obj_hist cs x) as [E1 E2]. rewrite E1, E2. set (p := run_calls cs cp_init) in *.
  rewrite aval_tsum.
  assert (OL := proj2 (wp_obj _ (i_wf _ _ I))).
  assert (O : wsq x (q_terms (p_obj p)) <= tdot x (q_extra (p_obj p)) (q_terms (p_obj p))).
  { apply tdot_ge; [assumption| |exact F5].
    (* coefficients *)
    clear - HS HC. unfold p. clear p. induction cs as [|c cs IH] using rev_ind; [intros t []|].
    assert (HS' := HS). apply scoped_snoc in HS' as (HS1 & _ & _).
    assert (D := do_lists c (run_calls cs cp_init)). rewrite <- run_snoc in D. destruct D as [_ D].
    assert (IH' := IH HS1 (fun c Hc => HC c (in_or_app _ _ _ (or_introl Hc)))).
    destruct c as [ty lb ub g|a s b|q s l ap|q s l|q l]; try (rewrite D; exact IH').
    rewrite run_snoc. cbn [do_call]. unfold cp_setObj. rewrite addAuxs_eq. cbn [out_state p_obj q_terms].
    apply (HC (CSetObj q l)). apply in_or_app; simpl; auto. }
  destruct warm; [lra|].
  rewrite <- (soft_sum _ w x cs HS). fold p.
  assert (S := sum_soft_le (p_env p) w x (p_qineq p) Hw).
  assert (S' := S (fun q Hq Hs => eq_ind _ (fun z => z * z <= _) (proj2 (F6 eq_refl) q Hq Hs) _ (qlinear_env p q x))). lra.
Qed.

Lemma compiled_complete thr w iter warm cs x :
  scoped cs ->
  (forall c, In c cs -> call_holds x c) -> binaries_ok cs x ->
  (warm = false -> forall c, In c cs -> trust_holds (p_env (run_calls cs cp_init)) thr iter x c) ->
  exists x', (forall c, In c (user_cols cs) -> x' c = x c) /\
    compiled_feasible thr w iter warm cs x' /\
    compiled_objective thr w iter warm cs x' + obj_const cs
    = user_obj cs x + (if warm then 0 else sumR (map (soft_penalty (p_env (run_calls cs cp_init)) w x) cs)).
Proof.
  intros HS HC HB HT. assert (I := history_inv cs HS).
  destruct (complete (p_env (run_calls cs cp_init)) cs HS x HC) as (x' & A & (T1 & T2 & T3 & T4)).
  exists x'. split; [exact A|].
  assert (PEN : forall c, In c cs -> soft_penalty (p_env (run_calls cs cp_init)) w x' c = soft_penalty (p_env (run_calls cs cp_init)) w x c
      /\ (trust_holds (p_env (run_calls cs cp_init)) thr iter x c -> trust_holds (p_env (run_calls cs cp_init)) thr iter x' c)).
  { intros c Hc. apply in_split in Hc as (pre & post & Ec).
    destruct HS as [HS1 HS2]. specialize (HS1 pre c post Ec).
    assert (A' : agree (user_cols pre) x x').
    { intros c' Hc'. apply A. rewrite Ec. unfold user_cols in *. rewrite in_map_iff in *. destruct Hc' as (t & <- & Ht).
      exists t. split; [reflexivity|]. clear - Ht. revert Ht. generalize cp_init.
      induction pre as [|c0 pre IH]; intros p Ht; [destruct Ht|]. simpl in *. apply in_app_or in Ht as [Ht|Ht]; apply in_or_app; auto. }
    destruct c as [ty lb ub g|a s b|q s l ap|q s l|q l]; try (split; [reflexivity|auto]).
    destruct HS1 as (HQ & _ & HL). assert (L := lin_model_uses _ (p_env (run_calls cs cp_init)) q l x x' HQ HL A').
    destruct ap; simpl; rewrite ?L; auto. }
  set (p := run_calls cs cp_init) in *.
  split.
  - unfold compiled_feasible. cbv zeta. fold p. apply feasible_iff; [apply (i_wf _ _ I)|].
    split; [exact T1|]. split.
    { apply bin_iff; [assumption|]. intros c Hc. rewrite A; [apply HB, Hc|].
      unfold user_cols. apply in_map_iff. exists (c, Binary); auto. }
    split. { intros q Hq. destruct (T2 q Hq) as (Q1 & Q2 & _). split; [exact Q1|]. intros k t Hk. rewrite (Q2 k t Hk). lra. }
    split. { intros q Hq. destruct (T3 q Hq) as (Q1 & Q2). split; [exact Q1|]. rewrite Q2. lra. }
    split. { intros k t Hk. rewrite (T4 k t Hk). lra. }
    intros Ew. split.
    + intros q Hq Ht. rewrite qlinear_env. revert q Hq Ht. apply trust_iff; [assumption|].
      intros c Hc. apply (PEN c Hc). apply HT; assumption.
    + intros q Hq Hs. destruct (T2 q Hq) as (_ & _ & Q3). rewrite (Q3 Hs), qlinear_env. lra.
  - unfold compiled_objective. fold p. rewrite objective_spec by (apply (i_wf _ _ I) || apply writes_nodup; assumption).
    destruct (obj_hist cs x) as [E1 _]. destruct (obj_hist cs x') as [E1' E2]. fold p in E1, E1', E2.
    assert (OU := i_objU _ _ I). destruct OU as [OU1 OU2].
    rewrite (tdot_eq x' (q_terms (p_obj p)) (q_extra (p_obj p))); [|rewrite (proj2 (wp_obj _ (i_wf _ _ I))); lia|exact T4].
    assert (EQ : user_obj cs x' = user_obj cs x).
    { rewrite E1, E1', (wsq_uses _ x x' _ OU2 A), (aval_uses _ x x' _ OU1 A). reflexivity. }
    rewrite <- EQ, E1', E2, aval_tsum.
    destruct warm; [lra|].
    assert (EP : sumR (map (soft_penalty (p_env p) w x) cs) = sumR (map (soft_penalty (p_env p) w x') cs)).
    { f_equal. apply map_ext_in. intros c Hc. symmetry. apply (PEN c Hc). }
    rewrite EP, <- (soft_sum (p_env p) w x' cs HS). fold p.
    assert (ES : sumR (map (fun q => w * x' (last (q_extra q) 0%nat)) (filter q_soft (p_qineq p)))
      = sumR (map (fun q => w * (qlin_env (p_env p) q x' * qlin_env (p_env p) q x')) (filter q_soft (p_qineq p)))).
    { f_equal. apply map_ext_in. intros q Hq. apply filter_In in Hq as [Hq Hs].
      destruct (T2 q Hq) as (_ & _ & Q3). rewrite (Q3 Hs). reflexivity. }
    lra.
Qed.

(** Proofs about the modelling layer, part 6: memory safety, linear models, repeated objectives, optimum. *)
From Coq Require Import String Reals List Arith Bool Lra Lia.
From Verif Require Import ExprsModel ExprsProofs ConicModel ConicSpec ConicProofs ConicProofs2 ConicProofs3 ConicProofs4 ConicProofs5.
Import ListNotations.
Open Scope R_scope.

(** ** Predicates preserved by every primitive write are preserved by the builders *)
Section Closure.
  Context (P : storage -> Prop).
  Context (PA : forall r c v s, P s -> P (addA r c v s)) (PG : forall r c v s, P s -> P (addG r c v s))
          (PB : forall r v s, P s -> P (setB r v s)) (PH : forall r v s, P s -> P (setH r v s))
          (PC : forall j v s, P s -> P (setC j v s)) (PO : forall s, P s -> P (oob s)).

  Lemma cl_fold {A} (f : storage -> A -> storage) : (forall s a, P s -> P (f s a)) -> forall l s, P s -> P (fold_left f l s).
  Proof. intros H. induction l as [|a l IH]; intros s Hs; simpl; auto. Qed.
  Lemma cl_loopi {A} (f : nat -> A -> storage -> storage) : (forall i a s, P s -> P (f i a s)) ->
    forall l i s, P s -> P (loopi f i l s).
  Proof. intros H. induction l as [|a l IH]; intros i s Hs; simpl; auto. Qed.
  Lemma cl_terms r f ts s : P s -> P (b_terms r f ts s).
  Proof. intros H. unfold b_terms. apply cl_fold; auto. Qed.
  Lemma cl_rot r c l s : P s -> P (b_rot r c l s).
  Proof. intros H. unfold b_rot; cbv zeta. repeat apply PH. apply cl_terms. auto. Qed.
  Lemma cl_grad p g r q s : P s -> P (b_grad p g r q s).
  Proof. intros H. unfold b_grad. apply cl_fold; [|assumption]. intros s' t Hs'. apply cl_fold; [|assumption]. intros s'' u Hs''. cbv zeta. auto. Qed.
  Lemma cl_qquad row q s : P s -> P (b_qquad row q s).
  Proof. intros H. unfold b_qquad. apply cl_loopi; auto. intros i a s' Hs'. destruct (nth_error (q_extra q) i); auto. apply cl_rot; auto. Qed.
  Lemma cl_qquads qs : forall row s, P s -> P (b_qquads row qs s).
  Proof. induction qs as [|q qs IH]; intros row s H; simpl; auto. apply IH, cl_qquad, H. Qed.
  Lemma cl_socquad row q s : P s -> P (b_socquad row q s).
  Proof.
    intros H. unfold b_socquad. destruct (nth_error (q_extra q) 0); auto. apply cl_loopi; auto.
    intros i a s' Hs'. apply PH, cl_terms, Hs'.
  Qed.
  Lemma cl_socquads qs : forall row s, P s -> P (b_socquads row qs s).
  Proof. induction qs as [|q qs IH]; intros row s H; simpl; auto. apply IH, cl_socquad, H. Qed.
  Lemma cl_objq p row i c s : P s -> P (b_objq p row i c s).
  Proof. intros H. unfold b_objq. destruct (nth_error (q_terms (p_obj p)) i) as [[a l]|]; auto. apply PC, cl_rot, H. Qed.
  Lemma cl_soft p w row i q s : P s -> P (b_soft p w row i q s).
  Proof.
    intros H. unfold b_soft. destruct (rev (q_extra q)); auto. cbv zeta. apply PC. repeat apply PH. apply cl_terms, cl_grad. auto 10.
  Qed.
  (** the part of buildProblem before and after the quadratic objective *)
  Lemma cl_steps_before p thr iter (warm : bool) s r1 r2 r3 r4 : P s ->
    P ((fun s => if warm then s else loopi (b_trust p thr iter r4) 0 (filter q_trust (p_qineq p)) s)
       (b_objlin p (loopi (b_soclin r3) 0 (p_soc p) (loopi (b_qlin r2) 0 (p_qineq p) (loopi (b_lineq r1) 0 (p_lineq p)
          (loopi (b_bin p) 0 (p_bin p) (loopi b_leq 0 (p_leq p) s))))))).
  Proof.
    intros H.
    assert (H5 : P (b_objlin p (loopi (b_soclin r3) 0 (p_soc p) (loopi (b_qlin r2) 0 (p_qineq p) (loopi (b_lineq r1) 0 (p_lineq p)
          (loopi (b_bin p) 0 (p_bin p) (loopi b_leq 0 (p_leq p) s))))))).
    { unfold b_objlin. apply cl_fold; auto.
      apply cl_loopi.
      { intros i q s' Hs'. unfold b_soclin. cbv zeta. apply PH, cl_terms. destruct (nth_error (q_extra q) 0); auto. }
      apply cl_loopi.
      { intros i q s' Hs'. unfold b_qlin. cbv zeta. apply PH, cl_terms. apply cl_loopi; auto.
        intros k t s'' Hs''. destruct (nth_error (q_extra q) k); auto. }
      apply cl_loopi. { intros i e s' Hs'. unfold b_lineq. apply cl_fold; auto. }
      apply cl_loopi.
      { intros i c s' Hs'. unfold b_bin. destruct (nth_error (p_binlb p) i); auto. destruct (nth_error (p_binub p) i); auto 10. }
      apply cl_loopi; auto. intros i e s' Hs'. unfold b_leq. apply cl_fold; auto. }
    destruct warm; auto. apply cl_loopi; auto.
    intros i q s' Hs'. unfold b_trust. cbv zeta. apply PH, cl_terms, cl_grad. auto.
  Qed.
  Lemma cl_build thr w iter warm p : P (b_empty p warm) -> P (cp_build thr w iter warm p).
  Proof.
    intros H. unfold cp_build. cbv zeta. apply cl_socquads, cl_qquads.
    assert (B := cl_steps_before p thr iter warm (b_empty p warm) (2 * List.length (p_bin p))
       (2 * List.length (p_bin p) + List.length (p_lineq p)) (2 * List.length (p_bin p) + List.length (p_lineq p) + List.length (p_qineq p))
       (2 * List.length (p_bin p) + List.length (p_lineq p) + List.length (p_qineq p) + List.length (p_soc p)) H).
    cbv beta in B. set (s6 := if warm then _ else _) in B.
    assert (B7 : P (loopi (b_objq p (2 * List.length (p_bin p) + List.length (p_lineq p) + List.length (p_qineq p) + List.length (p_soc p)
         + (if warm then 0 else n_tr p))) 0 (q_extra (p_obj p)) s6)).
    { apply cl_loopi; auto. intros. apply cl_objq; auto. }
    destruct warm; [exact B7|]. apply cl_loopi; [|exact B7]. intros. apply cl_soft; auto.
  Qed.
End Closure.

(** every triplet in range, as long as the run is flagged ok *)
Definition in_range (s : storage) : Prop :=
  s_ok s = true ->
  (forall r c v, In (r, c, v) (s_A s) -> (r < s_me s)%nat /\ (c < s_n s)%nat) /\
  (forall r c v, In (r, c, v) (s_G s) -> (r < s_m s)%nat /\ (c < s_n s)%nat).

Lemma build_in_range thr w iter warm p : in_range (cp_build thr w iter warm p).
Proof.
  apply cl_build.
  - intros r c v s H Hok. simpl in Hok. apply andb_true_iff in Hok as [Hok H2]. apply andb_true_iff in Hok as [Hok H1].
    apply Nat.ltb_lt in H1, H2. destruct (H Hok) as [A B]. split; [|exact B].
    simpl. intros r' c' v' [E|Hin]; [injection E as <- <- <-; auto|eauto].
  - intros r c v s H Hok. simpl in Hok. apply andb_true_iff in Hok as [Hok H2]. apply andb_true_iff in Hok as [Hok H1].
    apply Nat.ltb_lt in H1, H2. destruct (H Hok) as [A B]. split; [exact A|].
    simpl. intros r' c' v' [E|Hin]; [injection E as <- <- <-; auto|eauto].
  - intros r v s H Hok. simpl in Hok. apply andb_true_iff in Hok as [Hok _]. apply (H Hok).
  - intros r v s H Hok. simpl in Hok. apply andb_true_iff in Hok as [Hok _]. apply (H Hok).
  - intros r v s H Hok. simpl in Hok. apply andb_true_iff in Hok as [Hok _]. apply (H Hok).
  - intros s H Hok. discriminate.
  - intros _. split; intros r c v [].
Qed.

(** undefined behaviour is never forgotten *)
Lemma objq_oob p : forall ex i s row, (List.length (q_terms (p_obj p)) < i + List.length ex)%nat ->
  (i <= List.length (q_terms (p_obj p)))%nat ->
  s_ok (loopi (b_objq p row) i ex s) = false.
Proof.
  assert (ST : forall ex i s row, s_ok s = false -> s_ok (loopi (b_objq p row) i ex s) = false).
  { intros. apply (cl_loopi (fun s => s_ok s = false)); auto. intros i' c' s' Hs'.
    apply (cl_objq (fun s => s_ok s = false)); auto; intros; simpl; rewrite ?H0; auto. }
  induction ex as [|c ex IH]; intros i s row H1 H2; simpl in *; [lia|].
  unfold b_objq at 2. destruct (nth_error (q_terms (p_obj p)) i) as [[a l]|] eqn:E.
  - apply IH; [lia|]. assert (i < List.length (q_terms (p_obj p)))%nat by (apply nth_error_Some; congruence). lia.
  - apply ST. reflexivity.
Qed.

Lemma build_oob thr w iter warm p : (List.length (q_terms (p_obj p)) < List.length (q_extra (p_obj p)))%nat ->
  s_ok (cp_build thr w iter warm p) = false.
Proof.
  intros H. unfold cp_build. cbv zeta.
  assert (F : forall f : (storage -> Prop) -> Prop, f (fun s => s_ok s = false) -> f (fun s => s_ok s = false)) by auto.
  set (s6 := if warm then b_objlin p _ else _).
  assert (B7 : forall row, s_ok (loopi (b_objq p row) 0 (q_extra (p_obj p)) s6) = false).
  { intros row. apply objq_oob; lia. }
  clearbody s6.
  apply (cl_socquads (fun s => s_ok s = false)); try (intros; simpl; rewrite ?H0; auto; fail).
  apply (cl_qquads (fun s => s_ok s = false)); try (intros; simpl; rewrite ?H0; auto; fail).
  destruct warm; [apply B7|]. apply (cl_loopi (fun s => s_ok s = false)); [|apply B7].
  intros i q s' Hs'. apply (cl_soft (fun s => s_ok s = false)); auto; intros; simpl; rewrite ?H0; auto.
Qed.

(** ** Number of columns *)
Lemma cols_total cs : List.length (p_vars (run_calls cs cp_init)) = sumn (map cols_of_call cs).
Proof.
  induction cs as [|c cs IH] using rev_ind; [reflexivity|].
  rewrite run_snoc, map_app. assert (SN : forall a b, sumn (a ++ b) = (sumn a + sumn b)%nat).
  { induction a; intros b; simpl; [reflexivity|]. rewrite IHa. lia. }
  rewrite SN, <- IH. cbn [map sumn fold_right]. rewrite Nat.add_0_r.
  destruct c as [ty lb ub g|a s b|q s l ap|q s l|q l]; cbn [do_call cols_of_call].
  - unfold cp_addVar. destruct (Rlt_dec ub lb); cbn [out_state]; [lia|].
    destruct ty; cbn [set_vars p_vars]; rewrite app_length; reflexivity.
  - unfold cp_addLin. destruct (String.eqb s "="); [cbn; lia|]. destruct (String.eqb s "<"); [cbn; lia|].
    destruct (String.eqb s ">"); cbn; lia.
  - unfold cp_addQua. rewrite addAuxs_eq. destruct (String.eqb s "<"); cbn [out_state p_vars]; apply grow_len.
  - unfold cp_addSoc. rewrite addAuxs_eq. destruct (String.eqb s "<"); cbn [out_state p_vars]; apply grow_len.
  - unfold cp_setObj. rewrite addAuxs_eq. cbn [out_state p_vars]. apply grow_len.
Qed.

(** ** Linear models: exact equality of the feasible sets *)
Lemma lin_hist x cs : (forall c, In c cs -> linear_call c) ->
  p_qineq (run_calls cs cp_init) = [] /\ p_soc (run_calls cs cp_init) = [] /\ q_terms (p_obj (run_calls cs cp_init)) = [] /\
  ((forall c, In c cs -> call_holds x c) -> lin_ok x (run_calls cs cp_init)).
Proof.
  induction cs as [|c cs IH] using rev_ind; intros H.
  - repeat split; try reflexivity; intros ? [].
  - destruct IH as (I1 & I2 & I3 & I4); [intros; apply H; apply in_or_app; auto|].
    assert (Hc : linear_call c) by (apply H; apply in_or_app; simpl; auto).
    rewrite run_snoc. set (p := run_calls cs cp_init) in *.
    destruct c as [ty lb ub g|a s b|q s l ap|q s l|q l]; cbn [do_call] in *; try contradiction.
    + assert (Q : forall p', p' = out_state (cp_addVar ty lb ub g p) -> p_leq p' = p_leq p /\ p_lineq p' = p_lineq p
         /\ p_qineq p' = p_qineq p /\ p_soc p' = p_soc p /\ p_obj p' = p_obj p).
      { intros p' ->. unfold cp_addVar. destruct (Rlt_dec ub lb); [auto 10|]. destruct ty; cbn; auto 10. }
      destruct (Q _ eq_refl) as (Q1 & Q2 & Q3 & Q4 & Q5). rewrite Q3, Q4, Q5. unfold lin_ok. rewrite Q1, Q2.
      repeat split; auto; intros; apply I4; auto; intros; apply H0 || apply H1; apply in_or_app; auto.
    + assert (HP : (forall c, In c (cs ++ [CAddLin a s b]) -> call_holds x c) -> lin_ok x p /\ call_holds x (CAddLin a s b)).
      { intros HH. split; [apply I4; intros; apply HH; apply in_or_app; auto|apply HH; apply in_or_app; simpl; auto]. }
      unfold cp_addLin.
      destruct (String.eqb_spec s "=") as [->|E1]; [|destruct (String.eqb_spec s "<") as [->|E2]; [|destruct (String.eqb_spec s ">") as [->|E3]]];
        cbn [out_state p_qineq p_soc p_obj]; (split; [exact I1|split; [exact I2|split; [exact I3|]]]);
        intros HH; destruct (HP HH) as [[L1 L2] (C1 & C2 & C3)]; (split; cbn [p_leq p_lineq]; auto);
        intros e He; apply in_app_or in He as [He|[<-|[]]]; auto.
      * apply row_lin_sat. rewrite (C1 eq_refl). lra.
      * apply row_lin_sat_le. specialize (C2 eq_refl). lra.
      * apply row_lin_sat_le. specialize (C3 eq_refl). lra.
    + unfold cp_setObj. rewrite addAuxs_eq. cbn [out_state p_qineq p_soc p_obj q_terms p_leq p_lineq grow set_vars].
      simpl in Hc. repeat split; auto; intros; apply I4; auto; intros; apply H0 || apply H1; apply in_or_app; auto.
Qed.

Lemma linear_iff thr w iter warm cs x :
  scoped cs -> (forall c, In c cs -> linear_call c) -> (forall c, In c cs -> call_not_absurd c) ->
  compiled_feasible thr w iter warm cs x <-> (forall c, In c cs -> call_holds x c) /\ binaries_ok cs x.
Proof.
  intros HS HL HA. assert (I := history_inv cs HS). destruct (lin_hist x cs HL) as (L1 & L2 & L3 & L4).
  unfold compiled_feasible. cbv zeta. rewrite feasible_iff by (apply (i_wf _ _ I)). rewrite bin_iff by assumption.
  unfold objq_ok, approx_ok. rewrite L1, L2, L3.
  split.
  - intros (A & B & _). split; [|exact B]. apply sound; auto.
    + intros c Hc. specialize (HL c Hc). destruct c; simpl in *; auto; try contradiction. rewrite HL. intros ? [].
    + rewrite L1. intros ? [].
    + rewrite L2. intros ? [].
  - intros [A B]. split; [apply L4, A|]. split; [exact B|].
    split; [intros ? []|]. split; [intros ? []|]. split; [intros k t Hk; destruct k; discriminate|].
    intros _. split; intros ? [].
Qed.

(** ** Optimum *)
Lemma optimum thr w iter warm cs x :
  scoped cs -> (forall c, In c cs -> call_convex c) -> (forall c, In c cs -> call_not_absurd c) -> 0 <= w ->
  let env := p_env (run_calls cs cp_init) in
  let feas y := (forall c, In c cs -> call_holds y c) /\ binaries_ok cs y /\
                (warm = false -> forall c, In c cs -> trust_holds env thr iter y c) in
  let cost y := user_obj cs y + (if warm then 0 else sumR (map (soft_penalty env w y) cs)) in
  compiled_feasible thr w iter warm cs x ->
  (forall y, compiled_feasible thr w iter warm cs y -> compiled_objective thr w iter warm cs x <= compiled_objective thr w iter warm cs y) ->
  feas x /\ (forall y, feas y -> cost x <= cost y) /\ compiled_objective thr w iter warm cs x + obj_const cs = cost x.
Proof.
  intros HS HC HA Hw env feas cost HF HO.
  destruct (compiled_sound thr w iter warm cs x HS HC HA Hw HF) as (S1 & S2 & S3 & S4).
  assert (FX : feas x) by (split; [exact S1|split; [exact S2|exact S3]]).
  assert (GE : forall y, feas y -> compiled_objective thr w iter warm cs x + obj_const cs <= cost y).
  { intros y (F1 & F2 & F3). destruct (compiled_complete thr w iter warm cs y HS F1 F2 F3) as (y' & _ & G1 & G2).
    fold env in G2. unfold cost. rewrite <- G2. specialize (HO y' G1). lra. }
  split; [exact FX|]. split.
  - intros y Hy. eapply Rle_trans; [exact S4|]. apply GE, Hy.
  - apply Rle_antisym; [apply GE, FX|exact S4].
Qed.

(** Optimal value is attained: a user optimum gives a compiled optimum. *)
Lemma optimum_back thr w iter warm cs x :
  scoped cs -> (forall c, In c cs -> call_convex c) -> (forall c, In c cs -> call_not_absurd c) -> 0 <= w ->
  let env := p_env (run_calls cs cp_init) in
  let feas y := (forall c, In c cs -> call_holds y c) /\ binaries_ok cs y /\
                (warm = false -> forall c, In c cs -> trust_holds env thr iter y c) in
  let cost y := user_obj cs y + (if warm then 0 else sumR (map (soft_penalty env w y) cs)) in
  feas x -> (forall y, feas y -> cost x <= cost y) ->
  exists x', (forall c, In c (user_cols cs) -> x' c = x c) /\ compiled_feasible thr w iter warm cs x' /\
    (forall y, compiled_feasible thr w iter warm cs y -> compiled_objective thr w iter warm cs x' <= compiled_objective thr w iter warm cs y).
Proof.
  intros HS HC HA Hw env feas cost (F1 & F2 & F3) HO.
  destruct (compiled_complete thr w iter warm cs x HS F1 F2 F3) as (x' & A & G1 & G2).
  exists x'. split; [exact A|]. split; [exact G1|]. intros y Hy.
  destruct (compiled_sound thr w iter warm cs y HS HC HA Hw Hy) as (S1 & S2 & S3 & S4).
  assert (FY : feas y) by (split; [exact S1|split; [exact S2|exact S3]]).
  specialize (HO y FY). unfold cost in HO. fold env in G2, S4. lra.
Qed.

(** ** Total number of auxiliary objective variables *)
Definition objterms (c : call) : nat := match c with CSetObj q _ => List.length (q_terms q) | _ => 0 end.
Lemma obj_extra_total cs : List.length (q_extra (p_obj (run_calls cs cp_init))) = sumn (map objterms cs).
Proof.
  induction cs as [|c cs IH] using rev_ind; [reflexivity|].
  rewrite map_app. assert (SN : forall a b, sumn (a ++ b) = (sumn a + sumn b)%nat).
  { induction a; intros b; simpl; [reflexivity|]. rewrite IHa. lia. }
  rewrite SN, <- IH. cbn [map sumn fold_right]. rewrite Nat.add_0_r.
  assert (D := do_lists c (run_calls cs cp_init)). rewrite <- run_snoc in D. destruct D as [_ D].
  destruct c as [ty lb ub g|a s b|q s l ap|q s l|q l]; cbn [objterms]; try (rewrite D; lia).
  rewrite run_snoc. cbn [do_call]. unfold cp_setObj. rewrite addAuxs_eq. cbn [out_state p_obj q_extra].
  rewrite app_length, seq_length. reflexivity.
Qed.

Lemma reset_oob thr w iter warm cs q l q2 l2 : In (CSetObj q l) cs -> q_terms q <> [] ->
  s_ok (cp_build thr w iter warm (run_calls (cs ++ [CSetObj q2 l2]) cp_init)) = false.
Proof.
  intros Hin Hq. apply build_oob. rewrite obj_extra_total, map_app.
  assert (SN : forall a b, sumn (a ++ b) = (sumn a + sumn b)%nat).
  { induction a; intros b; simpl; [reflexivity|]. rewrite IHa. lia. }
  rewrite SN. cbn [map objterms sumn fold_right].
  assert (1 <= sumn (map objterms cs))%nat.
  { clear - Hin Hq. induction cs as [|c cs IH]; [destruct Hin|]. cbn [map sumn fold_right]. destruct Hin as [->|Hin].
    - cbn [objterms]. destruct (q_terms q); [congruence|]. simpl. lia.
    - specialize (IH Hin). unfold sumn in IH. lia. }
  rewrite run_snoc. cbn [do_call]. unfold cp_setObj. rewrite addAuxs_eq. cbn [out_state p_obj q_terms]. lia.
Qed.

(** ** Rejected calls *)
Definition rejected (c : call) (p : problem) : Prop := exists p', do_call c p = Threw p'.

Lemma rejected_asks_nothing c p x : rejected c p -> call_holds x c.
Proof.
  intros [p' H]. destruct c as [ty lb ub g|a s b|q s l ap|q s l|q l]; simpl; auto; cbn [do_call] in H.
  - unfold cp_addLin in H. destruct (String.eqb_spec s "="); [discriminate|]. destruct (String.eqb_spec s "<"); [discriminate|].
    destruct (String.eqb_spec s ">"); [discriminate|]. repeat split; intros; contradiction.
  - unfold cp_addQua in H. rewrite addAuxs_eq in H. destruct (String.eqb_spec s "<"); [discriminate|]. intros; contradiction.
  - unfold cp_addSoc in H. rewrite addAuxs_eq in H. destruct (String.eqb_spec s "<"); [discriminate|]. intros; contradiction.
Qed.

Definition no_trust (c : call) : Prop := match c with CAddQua _ _ _ ApproxTrustRegion => False | _ => True end.

Lemma rejected_issue c p : rejected c p -> issue1 c p = [].
Proof.
  intros [p' H]. destruct c; simpl; auto. cbn [do_call] in H. unfold cp_addVar in H.
  destruct (Rlt_dec ub lb); [reflexivity|discriminate].
Qed.

Lemma rejected_same_projection thr w iter warm cs c x :
  scoped (cs ++ [c]) -> (forall c', In c' (cs ++ [c]) -> call_convex c' /\ call_not_absurd c' /\ no_trust c') -> 0 <= w ->
  rejected c (run_calls cs cp_init) ->
  (exists x', agree (user_cols cs) x x' /\ compiled_feasible thr w iter warm (cs ++ [c]) x') <->
  (exists x', agree (user_cols cs) x x' /\ compiled_feasible thr w iter warm cs x').
Proof.
  intros HS HC Hw HR. assert (HS' := HS). apply scoped_snoc in HS' as (HS1 & _ & _).
  assert (T : forall env y l, (forall c', In c' l -> In c' (cs ++ [c])) ->
     (warm = false -> forall c', In c' l -> trust_holds env thr iter y c')).
  { intros env y l Hl _ c' Hc'. destruct (HC c' (Hl c' Hc')) as (_ & _ & NT). destruct c' as [| |q s l0 ap| |]; simpl in *; auto.
    destruct ap; auto. contradiction. }
  assert (IS : issued (cs ++ [c]) cp_init = issued cs cp_init).
  { rewrite issued_snoc, (rejected_issue _ _ HR), app_nil_r. reflexivity. }
  assert (EU : user_cols (cs ++ [c]) = user_cols cs) by (unfold user_cols; rewrite IS; reflexivity).
  assert (IN : forall c', In c' cs -> In c' (cs ++ [c])) by (intros; apply in_or_app; auto).
  split; intros (x' & A & F).
  - destruct (compiled_sound thr w iter warm (cs ++ [c]) x' HS) as (S1 & S2 & _); auto; try (intros c' Hc'; apply (HC c' Hc')).
    destruct (compiled_complete thr w iter warm cs x' HS1) as (x'' & A'' & F'' & _); auto.
    + intros c' Hc'. unfold binaries_ok in S2. rewrite IS in S2. apply S2, Hc'.
    + apply T, IN.
    + exists x''. split; [|exact F'']. intros c' Hc'. rewrite (A'' c' Hc'). apply A, Hc'.
  - destruct (compiled_sound thr w iter warm cs x' HS1) as (S1 & S2 & _); auto; try (intros c' Hc'; apply (HC c' (IN c' Hc'))).
    destruct (compiled_complete thr w iter warm (cs ++ [c]) x' HS) as (x'' & A'' & F'' & _); auto.
    + intros c' Hc'. apply in_app_or in Hc' as [Hc'|[<-|[]]]; [auto|]. eapply rejected_asks_nothing; eauto.
    + unfold binaries_ok. rewrite IS. exact S2.
    + apply T. auto.
    + exists x''. split; [|exact F'']. intros c' Hc'. rewrite (A'' c'); [apply A, Hc'|]. rewrite EU. exact Hc'.
Qed.

(** ** Checking [scoped] on concrete histories *)
Fixpoint scoped_from (pre cs : list call) : Prop :=
  match cs with
  | [] => True
  | c :: r => call_scoped (user_cols pre) c /\ (match c with CSetObj _ _ => no_quad_obj pre | _ => True end)
              /\ scoped_from (pre ++ [c]) r
  end.
Lemma scoped_from_ok cs : forall pre0, scoped_from pre0 cs ->
  (forall pre c post, cs = pre ++ c :: post -> call_scoped (user_cols (pre0 ++ pre)) c
     /\ match c with CSetObj _ _ => no_quad_obj (pre0 ++ pre) | _ => True end).
Proof.
  induction cs as [|c cs IH]; intros pre0 H pre c' post E; [destruct pre; discriminate|]. destruct H as (H1 & H2 & H3).
  destruct pre as [|c0 pre]; simpl in E; injection E as -> ->.
  - rewrite app_nil_r. auto.
  - specialize (IH (pre0 ++ [c0]) H3 pre c' post eq_refl). rewrite <- app_assoc in IH. exact IH.
Qed.
Lemma scoped_check cs : scoped_from [] cs -> scoped cs.
Proof.
  intros H. split.
  - intros pre c post E. apply (scoped_from_ok cs [] H pre c post E).
  - intros pre q l post E. apply (scoped_from_ok cs [] H pre _ post E).
Qed.

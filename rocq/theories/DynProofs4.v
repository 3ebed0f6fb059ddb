From Coq Require Import Reals List Arith ZArith Bool String Ascii Lra Lia.
Import ListNotations.
From Verif Require Import Base BaseProofs Vec3 ExprsModel ExprsProofs ConicModel ConicSpec ConicProofs ConicProofs4 ConicProofs5 ConicProofs6 OptVarModel OptVarSpec OptVarProofs CntModel CntSpec CntProofs DynModel DynSpec DynProofs DynProofs2 DynProofs3.
Local Open Scope R_scope.

Definition ind (c : nat) : nat -> R := fun k => if (k =? c)%nat then 1 else 0.
Lemma ind_same : forall c, ind c c = 1. Proof. intros. unfold ind. now rewrite Nat.eqb_refl. Qed.
Lemma ind_other : forall c d, c <> d -> ind c d = 0. Proof. intros. unfold ind. destruct (Nat.eqb_spec d c); congruence. Qed.
Lemma row_depends : forall a s b c k, k <> 0 -> aval (ind c) a - aval (ind c) b = aval (fun _ => 0) a - aval (fun _ => 0) b + k -> call_not_absurd (CAddLin a s b).
Proof. intros a s b c k Hk E H. exfalso. specialize (H (ind c) (fun _ => 0)). lra. Qed.
Lemma fold_diff : forall (h : linexpr -> nat -> linexpr) x y l l0,
  (forall l0 a, In a l -> aval x (h l0 a) - aval y (h l0 a) = aval x l0 - aval y l0) -> aval x (fold_left h l l0) - aval y (fold_left h l l0) = aval x l0 - aval y l0.
Proof. intros h x y. induction l as [|a l IH]; intros l0 H; cbn [fold_left]; [reflexivity|]. rewrite IH by (intros; apply H; now right). apply H. now left. Qed.

Ltac sp := auto; first [now apply blk_lm|now apply blk_am|now apply blk_lmd|now apply blk_amd|intros; congruence|unfold bLMD, bAMD, bLM, bAM; cbn; lia].

Section Absurd.
  Variables (g : dset) (q : dseq) (ini : dstate) (cs : nat -> list contact) (kin : list kinref) (goal wtrack : vec3) (first : bool).
  Variable stray : nat -> nat -> option ctype.
  Hypothesis HR : ready g q cs stray.
  Let N := g_N g.
  Notation con t e := (contact_on cs q e t).

  Lemma vcol : forall x b i t, aval x (evt g q b i t) = x (col g q b i (Z.of_nat t)). Proof. intros. unfold evt, ev. apply aval_var. Qed.
  (** Different blocks or steps have different columns. *)
  Lemma sep : forall b rows b' rows' i i' t t', in_block g q b rows N -> in_block g q b' rows' N -> (i < rows)%nat -> (i' < rows')%nat -> (t < N)%nat -> (t' < N)%nat -> (b, t) <> (b', t') ->
    ind (col g q b i (Z.of_nat t)) (col g q b' i' (Z.of_nat t')) = 0.
  Proof.
    intros. apply ind_other. intros E. destruct (col_inj g q b b' rows rows' N N i i' t t') as (A & B & C); auto; subst; congruence.
  Qed.
  Lemma sep_eff : forall b rows i t e t' k r, in_block g q b rows N -> (i < rows)%nat -> (t < N)%nat -> (b < 6)%nat -> (timeopt g = false -> b < 3)%nat ->
    (e < g_neff g)%nat -> (t' < N)%nat -> act q t' e = true -> (k < 5)%nat -> (r < match k with 3%nat => 2 | 4%nat => 1 | _ => 3 end)%nat ->
    aval (ind (col g q b i (Z.of_nat t))) (eff_ev g q (bEff g e k) r t' e) = 0.
  Proof.
    intros b rows i t e t' k r Hb Hi Ht Hb6 Hb3 He Ht' Ha Hk Hr. unfold eff_ev, ev. rewrite aval_var. destruct (act_aid g q cs stray HR e t' He Ht' Ha) as (n & E & Hn). rewrite E.
    apply ind_other. intros X. destruct (col_inj g q b (bEff g e k) rows _ N _ i r t n Hb (blk_eff g q e k He Hk)) as (A & _ & _); auto.
    unfold bEff in A. destruct (timeopt g); [lia|]. specialize (Hb3 eq_refl). lia.
  Qed.
  Lemma zero_eff : forall b r t e, aval (fun _ => 0) (eff_ev g q b r t e) = 0. Proof. intros. unfold eff_ev, ev. now rewrite aval_var. Qed.
  Lemma before_sep : forall b rows i t v, in_block g q b rows N -> (i < rows)%nat -> (t < N)%nat ->
    aval (ind (col g q b i (Z.of_nat t))) (before g q b i t v) = aval (fun _ => 0) (before g q b i t v).
  Proof. intros b rows i [|t] v Hb Hi Ht; cbn [before]; unfold ec; [now rewrite !aval_const|]. rewrite !vcol. apply (sep b rows b rows); auto; try lia. intros X. injection X. lia. Qed.

  Lemma na_one : forall s b i z a, call_not_absurd (CAddLin (ev g q b i z) s (ec a)).
  Proof. intros. apply (row_depends _ _ _ (col g q b i z) 1); [lra|]. unfold ev, ec. rewrite !aval_var, !aval_const, ind_same. ring. Qed.
  Section Step.
    Variables (t i : nat).
    Hypothesis Ht : (t < N)%nat.
    Hypothesis Hi : In i axes.
    Let Hi3 : (i < 3)%nat := in_axes i Hi.
    Lemma na_com : call_not_absurd (com_call g q ini t i).
    Proof.
      unfold com_call. apply (row_depends _ _ _ (col g q bCOM i (Z.of_nat t)) 1); [lra|]. unfold ec. rewrite !aval_sub, !aval_scale, !aval_const, (before_sep bCOM 3 i t) by (auto; apply blk_com).
      rewrite !vcol, ind_same. rewrite (sep bCOM 3 bLM 3 i i t t) by (auto; first [apply blk_com|apply blk_lm|discriminate]). ring.
    Qed.
    Lemma na_rate : forall b bd v, in_block g q b 3 N -> in_block g q bd 3 N -> b <> bd -> call_not_absurd (rate_call g q b bd i t v).
    Proof.
      intros b bd v Hb Hd D. unfold rate_call. apply (row_depends _ _ _ (col g q b i (Z.of_nat t)) 1); [lra|]. unfold ec. rewrite !aval_sub, !aval_scale, !aval_const, (before_sep b 3 i t) by auto.
      rewrite !vcol, ind_same. rewrite (sep b 3 bd 3 i i t t) by (auto; congruence). ring.
    Qed.
    Lemma na_product : forall b ba v s k, timeopt g = true -> in_block g q b 3 N -> in_block g q ba 3 N -> b <> ba -> b <> bDT -> call_not_absurd (product_call g q b ba i t v s k).
    Proof.
      intros b ba v s k T Hb Hd D D2. unfold product_call, product_lin. apply (row_depends _ _ _ (col g q b i (Z.of_nat t)) (-1)); [lra|]. unfold ec.
      rewrite ?aval_add, ?aval_sub, ?aval_scale, ?aval_add, ?aval_sub, ?aval_scale, ?aval_subc, ?aval_add, ?aval_sub, ?aval_scale, ?aval_const. rewrite (before_sep b 3 i t) by auto.
      rewrite !vcol, ind_same. rewrite (sep b 3 ba 3 i i t t) by (auto; congruence). rewrite (sep b 3 bDT 1 i 0 t t) by (auto; first [now apply blk_dt|congruence|lia]). ring.
    Qed.
    Lemma na_lmomd : timeopt g = true -> call_not_absurd (lmomd_call g q t i).
    Proof.
      intros T. unfold lmomd_call. apply (row_depends _ _ _ (col g q bLMD i (Z.of_nat t)) (-1)); [lra|]. unfold ec. rewrite !aval_const.
      match goal with |- ?a - 0 = ?b - 0 + _ => enough (E : a - b = -1) by lra end. rewrite fold_diff.
      - rewrite !aval_sub, !aval_const, !vcol, ind_same. ring.
      - intros l e He. apply (in_effs g) in He. destruct (act q t e) eqn:Ha; [|reflexivity]. rewrite !aval_add, !aval_scale. unfold force, bFRC. rewrite zero_eff.
        rewrite (sep_eff bLMD 3) by sp. ring.
    Qed.
    Lemma na_amomd : timeopt g = true -> call_not_absurd (CAddLin (amomd_expr g q cs t i) "=" (ec 0)).
    Proof.
      intros T. unfold amomd_expr. apply (row_depends _ _ _ (col g q bAMD i (Z.of_nat t)) (-1)); [lra|]. unfold ec. rewrite !aval_const.
      match goal with |- ?a - 0 = ?b - 0 + _ => enough (E : a - b = -1) by lra end. rewrite fold_diff.
      - rewrite !aval_sub, !aval_const, !vcol, ind_same. ring.
      - intros l e He. apply (in_effs g) in He. destruct (act q t e) eqn:Ha; [|reflexivity]. rewrite !aval_add, !aval_scale, !aval_sub. unfold bUB, bLB, bTRQ. rewrite !zero_eff.
        rewrite !(sep_eff bAMD 3) by sp. ring.
    Qed.
    Lemma na_lmom : call_not_absurd (lmom_call g q ini t i).
    Proof.
      unfold lmom_call. apply (row_depends _ _ _ (col g q bLM i (Z.of_nat t)) 1); [lra|]. rewrite !(aval_const _ 0).
      match goal with |- ?a - 0 = ?b - 0 + _ => enough (E : a - b = 1) by lra end.
      match goal with |- aval ?x (if ?c then le_add ?l ?k else _) - aval ?y _ = _ => assert (E : aval x l - aval y l = 1); [|assert (K : aval x k = aval y k) by (unfold ec; now rewrite !aval_scale, !aval_const); destruct c; [rewrite !aval_add, K; lra|exact E]] end.
      rewrite fold_diff.
      - unfold ec. rewrite !aval_sub, !aval_const, (before_sep bLM 3 i t) by (auto; apply blk_lm). rewrite !vcol, ind_same. ring.
      - intros l e He. apply (in_effs g) in He. destruct (act q t e) eqn:Ha; [|reflexivity]. rewrite !aval_add, !aval_scale. unfold force, bFRC. rewrite zero_eff.
        rewrite (sep_eff bLM 3) by sp. ring.
    Qed.
    Lemma na_amom : call_not_absurd (CAddLin (amom_expr g q ini cs t i) "=" (ec 0)).
    Proof.
      unfold amom_expr. apply (row_depends _ _ _ (col g q bAM i (Z.of_nat t)) 1); [lra|]. unfold ec. rewrite !aval_const.
      match goal with |- ?a - 0 = ?b - 0 + _ => enough (E : a - b = 1) by lra end. rewrite fold_diff.
      - rewrite !aval_sub, (before_sep bAM 3 i t) by (auto; apply blk_am). rewrite !vcol, ind_same. ring.
      - intros l e He. apply (in_effs g) in He. destruct (act q t e) eqn:Ha; [|reflexivity]. rewrite !aval_add, !aval_scale, !aval_sub. unfold bUB, bLB, bTRQ. rewrite !zero_eff.
        rewrite !(sep_eff bAM 3) by sp. ring.
    Qed.
  End Step.
  Lemma na_horizon : timeopt g = true -> call_not_absurd (CAddLin (fold_left (fun l t => le_add l (evt g q bDT 0 t)) (steps g) (ec 0)) "=" (ec (INR (g_N g) * g_dt g))).
  Proof.
    intros T. unfold steps. fold N. destruct N as [|n] eqn:EN.
    - intros _. cbn [seq fold_left]. apply holds_eq. unfold ec. rewrite !aval_const. cbn. ring.
    - apply (row_depends _ _ _ (col g q bDT 0 (Z.of_nat 0)) 1); [lra|]. unfold ec. rewrite !aval_const.
      match goal with |- ?a - ?c = ?b - ?c + _ => enough (E : a - b = 1) by lra end. cbn [seq fold_left]. rewrite fold_diff.
      + rewrite !aval_add, !aval_const, !vcol, ind_same. ring.
      + intros l t Ht. apply in_seq in Ht. rewrite !aval_add, !vcol. rewrite (sep bDT 1 bDT 1 0 0 0 t); try (now apply blk_dt); try (fold N; lia); [ring|intros X; injection X; lia].
  Qed.
  Lemma constraints_not_absurd : forall c, In c (constraints g q ini cs first stray) -> call_not_absurd c.
  Proof.
    unfold constraints. rewrite !all_app. repeat match goal with |- _ /\ _ => split end.
    - unfold height_pure. apply (proj2 (all_flat _ _ _)). intros t Ht. intros c [<-|[]].
      apply (row_depends _ _ _ (col g q bCOM 2 (Z.of_nat t)) 1); [lra|]. unfold ec. rewrite !aval_sub, !aval_const, !vcol, ind_same. ring.
    - unfold horizon_calls. destruct (g_fixed g && timeopt g) eqn:T; [|intros c []]. apply andb_prop in T as [_ T]. intros c [<-|[]]. now apply na_horizon.
    - unfold bound_calls. apply (proj2 (all_flat _ _ _)). intros t Ht. apply (proj2 (all_app _ _ _)). split.
      + destruct (timeopt g) eqn:T; [|intros c []]. intros c [<-|[<-|[]]]; apply na_one.
      + apply (proj2 (all_flat _ _ _)). intros e He. destruct (act q t e) eqn:Ha; [|intros c []].
        intros c Hc. repeat (destruct Hc as [<-|Hc]; [apply na_one|]). destruct Hc.
    - unfold friction_pure. apply (proj2 (all_flat _ _ _)). intros t Ht. apply (proj2 (all_flat _ _ _)). intros e He.
      enough (G : forall c, In c (if act q t e then if g_linfric g then map (lin_friction g q (con t e) t e) [0; 1; 2; 3]%nat else [soc_friction g q (con t e) t e] else []) -> call_not_absurd c).
      { destruct (contact_type q cs stray t e) as [[]| |]; try exact G. intros c []. }
      destruct (act q t e) eqn:Ha; [|intros c []]. destruct (g_linfric g); [|intros c [<-|[]]; exact I].
      apply (proj2 (all_map _ _ _)). intros r _ _. apply holds_lt. unfold axes. cbn [fold_left]. rewrite !aval_add, !aval_scale. unfold force. rewrite !zero_eff. unfold ec. rewrite !aval_const. lra.
    - unfold dynamics_pure. apply (proj2 (all_flat _ _ _)). intros t Ht. apply (in_steps g) in Ht.
      destruct (timeopt g) eqn:T.
      + apply (proj2 (all_app _ _ _)). split; [|rewrite all_app, !all_map; split; intros; [now apply na_lmomd|now apply na_amomd]].
        destruct first; rewrite !all_app, !all_map; (split; [|split]); intros i Hi; first [now apply na_com|apply na_rate|apply na_product]; auto; first [now apply blk_com|now apply blk_lm|now apply blk_am|now apply blk_lmd|now apply blk_amd|discriminate].
      + rewrite !all_app, !all_map. split; [|split]; intros i Hi; [now apply na_com|now apply na_lmom|now apply na_amom].
    - unfold quad_pure. apply (proj2 (all_flat _ _ _)). intros t Ht. apply (proj2 (all_flat _ _ _)). intros e He. destruct (act q t e) eqn:Ha; [|intros c []].
      unfold cone_calls. rewrite !all_app, !all_map. split; [|split]; intros; [exact I|exact I|]. destruct H as [<-|[]]. exact I.
  Qed.

  (** *** Convexity *)
  Lemma nn3 : forall w i, nonneg3 w -> 0 <= vget3 w i. Proof. intros w [|[|i]] (A & B & C); assumption. Qed.
  Lemma constraints_convex : forall c, In c (constraints g q ini cs first stray) -> call_convex c.
  Proof.
    unfold constraints. assert (LIN : forall a s b, call_convex (CAddLin a s b)) by (intros; exact I).
    rewrite !all_app. repeat match goal with |- _ /\ _ => split end.
    - unfold height_pure. apply (proj2 (all_flat _ _ _)). intros t Ht. intros c [<-|[]]. exact I.
    - unfold horizon_calls. destruct (g_fixed g && timeopt g); [|intros c []]. intros c [<-|[]]. exact I.
    - unfold bound_calls. apply (proj2 (all_flat _ _ _)). intros t Ht. apply (proj2 (all_app _ _ _)). split.
      + destruct (timeopt g) eqn:T; [|intros c []]. intros c [<-|[<-|[]]]; exact I.
      + apply (proj2 (all_flat _ _ _)). intros e He. destruct (act q t e) eqn:Ha; [|intros c []].
        intros c Hc. repeat (destruct Hc as [<-|Hc]; [exact I|]). destruct Hc.
    - unfold friction_pure. apply (proj2 (all_flat _ _ _)). intros t Ht. apply (proj2 (all_flat _ _ _)). intros e He.
      enough (G : forall c, In c (if act q t e then if g_linfric g then map (lin_friction g q (con t e) t e) [0; 1; 2; 3]%nat else [soc_friction g q (con t e) t e] else []) -> call_convex c).
      { destruct (contact_type q cs stray t e) as [[]| |]; try exact G. intros c []. }
      destruct (act q t e) eqn:Ha; [|intros c []]. destruct (g_linfric g); [|intros c [<-|[]]; exact I].
      apply (proj2 (all_map _ _ _)). intros r _. exact I.
    - unfold dynamics_pure. apply (proj2 (all_flat _ _ _)). intros t Ht.
      destruct (timeopt g); [destruct first|]; rewrite !all_app, !all_map; repeat match goal with |- _ /\ _ => split end; intros; exact I.
    - unfold quad_pure. apply (proj2 (all_flat _ _ _)). intros t Ht. apply (proj2 (all_flat _ _ _)). intros e He. destruct (act q t e) eqn:Ha; [|intros c []].
      assert (Q1 : forall ts l ap, (forall x, In x ts -> 0 <= fst x) -> call_convex (CAddQua (q_of ts) "<" l ap)).
      { intros ts l ap H x Hx. destruct (q_of_props ts) as (_ & _ & T & _). now apply H, T. }
      unfold cone_calls. rewrite !all_app, !all_map. split; [|split].
      + intros i Hi. apply Q1. intros x [<-|[<-|[]]]; cbn; lra.
      + intros i Hi. apply Q1. intros x [<-|[<-|[]]]; cbn; lra.
      + intros c [<-|[]]. apply Q1. intros x Hx. apply in_map_iff in Hx. destruct Hx as (i & <- & _). cbn. lra.
  Qed.
  Lemma obj_nonneg : weights_ok g wtrack -> forall x, In x (obj_terms g q ini kin goal wtrack ++ soft_pure g q cs first) -> 0 <= fst x.
  Proof.
    intros W. unfold weights_ok in W. decompose [and] W. clear W.
    apply (proj2 (all_app _ _ _)). split; [unfold obj_terms; apply (proj2 (all_app _ _ _)); split|].
    - unfold via_terms. apply (proj2 (all_flat _ _ _)). intros v Hv. apply (proj2 (all_map _ _ _)). intros i Hi. cbn [fst]. now apply nn3.
    - apply (proj2 (all_flat _ _ _)). intros t Ht. apply (proj2 (all_app _ _ _)). split; [|apply (proj2 (all_app _ _ _)); split].
      + apply (proj2 (all_flat _ _ _)). intros i Hi. apply (proj2 (all_app _ _ _)). split; [|apply (proj2 (all_app _ _ _)); split; [|apply (proj2 (all_app _ _ _)); split]].
        * unfold mom_terms. destruct (S t =? g_N g)%nat; cbn [app]; intros x Hx; repeat (destruct Hx as [<-|Hx]; [cbn [fst]; now apply nn3|]); destruct Hx.
        * unfold rate_terms. destruct (timeopt g); intros x Hx; repeat (destruct Hx as [<-|Hx]; [cbn [fst]; now apply nn3|]); destruct Hx.
        * unfold force_terms. apply (proj2 (all_flat _ _ _)). intros e He. destruct (act q t e); [|intros x []]. intros x [<-|[]]. cbn [fst]. destruct (is_foot e); now apply nn3.
        * unfold force_rate_terms. apply (proj2 (all_flat _ _ _)). intros e He. destruct (act q t e); [|intros x []]. intros x [<-|[<-|[]]]; cbn [fst]; destruct (is_hand e); now apply nn3.
      + unfold torque_terms. apply (proj2 (all_flat _ _ _)). intros e He. destruct (act q t e); [|intros x []]. intros x [<-|[]]. cbn [fst]. destruct (is_foot e); assumption.
      + unfold time_terms. destruct (timeopt g); [|intros x []]. intros x [<-|[<-|[]]]; assumption.
    - unfold soft_pure. destruct (negb first && timeopt g); [|intros x []]. apply (proj2 (all_flat _ _ _)). intros t Ht. apply (proj2 (all_flat _ _ _)). intros e He.
      destruct (act q t e); [|intros x []]. apply (proj2 (all_flat _ _ _)). intros i Hi. intros x [<-|[<-|[]]]; assumption.
  Qed.
End Absurd.

(** ** The whole problem *)
Section Whole.
  Variables (g : dset) (q : dseq) (ini : dstate) (cs : nat -> list contact) (kin : list kinref) (goal wtrack : vec3) (first : bool).
  Variable stray : nat -> nat -> option ctype.
  Hypothesis HR : ready g q cs stray.
  Hypothesis HK : (g_N g <= List.length kin)%nat.
  Hypothesis HW : weights_ok g wtrack.
  Hypothesis HI : 0 <= g_inf g.
  Hypothesis HV : g_via g <> [] -> (0 < g_N g)%nat.
  Definition whole : list call := var_calls g q ++ CSetObj (objective g q ini cs kin goal wtrack first) (ec 0) :: constraints g q ini cs first stray.
  Lemma problem_is : problem_calls g q ini cs kin goal wtrack first stray = Ok whole.
  Proof. unfold problem_calls. rewrite setup_ok by assumption. reflexivity. Qed.
  Lemma whole_scoped : scoped whole. Proof. apply planner_scoped; auto. Qed.
  Lemma whole_convex : forall c, In c whole -> call_convex c.
  Proof.
    intros c Hc. unfold whole in Hc. apply in_app_or in Hc. destruct Hc as [Hc|[<-|Hc]].
    - destruct (var_calls_vars g q HI c Hc) as (? & ? & ? & -> & _). exact I.
    - intros x Hx. unfold objective in Hx. destruct (q_of_props (obj_terms g q ini kin goal wtrack ++ soft_pure g q cs first)) as (_ & _ & T & _). apply T in Hx. eapply obj_nonneg; eauto.
    - eapply constraints_convex; eauto.
  Qed.
  Lemma whole_not_absurd : forall c, In c whole -> call_not_absurd c.
  Proof.
    intros c Hc. unfold whole in Hc. apply in_app_or in Hc. destruct Hc as [Hc|[<-|Hc]].
    - destruct (var_calls_vars g q HI c Hc) as (? & ? & ? & -> & _). exact I.
    - exact I.
    - eapply constraints_not_absurd; eauto.
  Qed.
  Lemma whole_holds : forall x, (forall c, In c whole -> call_holds x c) <-> momentum_feasible g ini cs q first (plan_of g q x).
  Proof.
    intros x. rewrite <- (constraints_iff g q ini cs first stray HR x). unfold whole. rewrite all_app, all_cons. split; [tauto|]. intros H. split; [|split; [exact I|exact H]].
    intros c Hc. destruct (var_calls_vars g q HI c Hc) as (? & ? & ? & -> & _). exact I.
  Qed.
  Lemma whole_cols : user_cols whole = seq 0 (nvars g q) /\ forall x, binaries_ok whole x.
  Proof.
    assert (NV : forall c, In c (CSetObj (objective g q ini cs kin goal wtrack first) (ec 0) :: constraints g q ini cs first stray) -> no_var c).
    { intros c [<-|Hc]; [exact I|]. eapply constraints_plain; eauto. }
    destruct (vars_history (var_calls g q) (var_calls_vars g q HI)) as (I1 & _). rewrite var_calls_len in I1.
    assert (E : issued whole cp_init = map (fun k => (k, Continuous)) (seq 0 (nvars g q))) by (unfold whole; rewrite issued_rest by exact NV; exact I1).
    split; [unfold user_cols; rewrite E, map_map; apply map_id|]. intros x c. rewrite E, in_map_iff. intros (k & X & _). discriminate.
  Qed.
  Lemma planned_ext : forall x x', (forall c, (c < nvars g q)%nat -> x' c = x c) ->
    forall P, momentum_feasible g ini cs q first (plan_of g q x) -> P = plan_of g q x' -> momentum_feasible g ini cs q first P.
  Proof.
    intros x x' A P F ->. apply whole_holds. pose proof (proj2 (whole_holds x) F) as F0; clear F; rename F0 into F.
    (* every call uses only user columns *)
    intros c Hc. assert (SC := whole_scoped). destruct SC as (SC & _). apply in_split in Hc. destruct Hc as (l1 & l2 & E). assert (S1 := SC _ _ _ E). assert (F1 : call_holds x c) by (apply F; rewrite E; apply in_or_app; right; now left).
    assert (AG : agree (user_cols l1) x x').
    { intros k Hk. apply A. assert (Hk' : In k (user_cols whole)).
      { rewrite E. clear -Hk. unfold user_cols in *. rewrite in_map_iff in *. destruct Hk as (t & <- & Ht). exists t. split; [reflexivity|]. revert Ht. generalize cp_init. induction l1 as [|c0 l1 IH]; intros p Ht; [destruct Ht|]. cbn [issued app] in *. apply in_app_or in Ht as [Ht|Ht]; apply in_or_app; auto. }
      rewrite (proj1 whole_cols) in Hk'. apply in_seq in Hk'. lia. }
    destruct c as [ty lb ub gs|a s b|qq s l ap|qq s l|qq l]; cbn [call_holds call_scoped] in *; auto.
    - destruct S1 as (Ua & Ub). rewrite !(aval_uses _ x x' _ Ua AG), !(aval_uses _ x x' _ Ub AG). exact F1.
    - destruct S1 as ((Q1 & Q2) & _ & Ul). rewrite (wsq_uses _ x x' _ Q2 AG), (aval_uses _ x x' _ Q1 AG), (aval_uses _ x x' _ Ul AG). exact F1.
    - destruct S1 as ((Q1 & Q2) & _ & Ul). rewrite (aval_uses _ x x' _ Q1 AG), (aval_uses _ x x' _ Ul AG).
      assert (E1 : sq x' (q_terms qq) = sq x (q_terms qq)). { unfold sq. f_equal. apply map_ext_in. intros t Ht. rewrite (aval_uses _ x x' _ (Q2 t Ht) AG). reflexivity. }
      rewrite E1. exact F1.
  Qed.
End Whole.

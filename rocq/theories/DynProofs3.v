From Coq Require Import Reals List Arith ZArith Bool String Ascii Lra Lia.
Import ListNotations.
From Verif Require Import Base BaseProofs Vec3 ExprsModel ExprsProofs ConicModel ConicSpec ConicProofs ConicProofs4 ConicProofs5 ConicProofs6 OptVarModel OptVarSpec OptVarProofs CntModel CntSpec CntProofs DynModel DynSpec DynProofs DynProofs2.
Local Open Scope R_scope.

(** ** Histories of the form: variables, objective, constraints *)
Definition is_var (c : call) : Prop := exists lb ub gs, c = CAddVar Continuous lb ub gs /\ lb <= ub.
Lemma vars_history : forall vs, (forall c, In c vs -> is_var c) ->
  issued vs cp_init = map (fun k => (k, Continuous)) (seq 0 (List.length vs)) /\ List.length (p_vars (run_calls vs cp_init)) = List.length vs.
Proof.
  induction vs as [|c vs IH] using rev_ind; intros H; [split; reflexivity|]. destruct IH as (I1 & I2); [intros; apply H, in_or_app; now left|].
  destruct (H c) as (lb & ub & gs & -> & L); [apply in_or_app; right; now left|].
  rewrite issued_snoc, run_snoc, app_length, Nat.add_1_r, seq_S, map_app, I1, <- I2. unfold issue1. cbn [do_call]. unfold cp_addVar. destruct (Rlt_dec ub lb); [lra|]. split; [reflexivity|].
  cbn [out_state]. rewrite I2. cbn. rewrite app_length, I2. cbn. lia.
Qed.
Definition no_var (c : call) : Prop := match c with CAddVar _ _ _ _ => False | _ => True end.
Lemma issued_rest : forall vs cs, (forall c, In c cs -> no_var c) -> issued (vs ++ cs) cp_init = issued vs cp_init.
Proof.
  intros vs cs. induction cs as [|c cs IH] using rev_ind; intros H; [now rewrite app_nil_r|]. rewrite app_assoc, issued_snoc, IH by (intros; apply H, in_or_app; now left).
  assert (N : no_var c) by (apply H, in_or_app; right; now left). destruct c; [destruct N| | | |]; cbn [issue1]; apply app_nil_r.
Qed.
Lemma prefix_cases {A} : forall (vs cs pre : list A) c post, vs ++ cs = pre ++ c :: post ->
  (exists r, vs = pre ++ c :: r) \/ (exists r, pre = vs ++ r /\ cs = r ++ c :: post).
Proof.
  induction vs as [|v vs IH]; intros cs pre c post E; cbn [app] in E; [right; exists pre; auto|]. destruct pre as [|p pre]; cbn [app] in E; injection E as -> E.
  - left. now exists vs.
  - destruct (IH _ _ _ _ E) as [(r & ->)|(r & -> & R)]; [left; now exists r|right; exists r; auto].
Qed.
Lemma scoped_planner : forall vs ob cs, (forall c, In c vs -> is_var c) -> (forall c, In c cs -> no_var c /\ call_scoped (seq 0 (List.length vs)) c /\ (match c with CSetObj _ _ => False | _ => True end)) ->
  uses_q (seq 0 (List.length vs)) ob -> fresh_q ob -> scoped (vs ++ CSetObj ob (le_of_const 0) :: cs).
Proof.
  intros vs ob cs Hv Hc Ho Hf. destruct (vars_history vs Hv) as (I1 & _).
  assert (NV : forall c, In c (CSetObj ob (le_of_const 0) :: cs) -> no_var c) by (intros c [<-|H]; [exact I|now apply Hc]).
  assert (UC : forall r, (forall c, In c r -> no_var c) -> user_cols (vs ++ r) = seq 0 (List.length vs)).
  { intros r Hr. unfold user_cols. rewrite issued_rest, I1 by exact Hr. rewrite map_map. cbn. apply map_id. }
  split.
  - intros pre c post E. destruct (prefix_cases _ _ _ _ _ E) as [(r & ->)|(r & -> & R)].
    + destruct (Hv c) as (lb & ub & gs & -> & _); [apply in_or_app; right; now left|]. exact I.
    + rewrite UC by (intros c' Hc'; apply NV; rewrite R; apply in_or_app; now left). destruct r as [|r0 r]; cbn [app] in R.
      * injection R as <- _. cbn [call_scoped]. split; [exact Ho|]. split; [exact Hf|apply uses_const].
      * injection R as _ R. apply Hc. rewrite R. apply in_or_app. right. now left.
  - intros pre q l post E. destruct (prefix_cases _ _ _ _ _ E) as [(r & ->)|(r & -> & R)].
    + destruct (Hv (CSetObj q l)) as (lb & ub & gs & E' & _); [apply in_or_app; right; now left|]. discriminate.
    + destruct r as [|r0 r]; cbn [app] in R.
      * rewrite app_nil_r. intros q' l' Hin. destruct (Hv _ Hin) as (lb & ub & gs & E' & _). discriminate.
      * injection R as _ R. destruct (Hc (CSetObj q l)) as (_ & _ & []). rewrite R. apply in_or_app. right. now left.
Qed.

Ltac us := repeat match goal with |- uses _ (le_add _ _) => apply uses_add | |- uses _ (le_sub _ _) => apply uses_sub | |- uses _ (le_of_const _) => apply uses_const | |- uses _ (ec _) => apply uses_const
  | |- uses _ (le_scale _ _) => apply uses_scale | |- uses _ (le_subc _ _) => apply uses_subc end.

Section Scope.
  Variables (g : dset) (q : dseq) (ini : dstate) (cs : nat -> list contact) (kin : list kinref) (goal wtrack : vec3) (first : bool).
  Variable stray : nat -> nat -> option ctype.
  Hypothesis HR : ready g q cs stray.
  Let N := g_N g.
  Let nv := nvars g q.
  Let U := seq 0 nv.
  Notation con t e := (contact_on cs q e t).

  Lemma len_zcells : forall r c, List.length (flat_map (fun c => map (fun r => (r, c)) (zseq (Z.of_nat r))) (zseq (Z.of_nat c))) = (r * c)%nat.
  Proof.
    intros r c. unfold zseq. rewrite !Nat2Z.id. generalize (seq 0 c) as l, (seq_length c 0). intros l <-. induction l as [|a l IH]; cbn [map flat_map List.length]; [lia|]. rewrite app_length, IH, !map_length, seq_length. lia.
  Qed.
  Lemma var_calls_len : List.length (var_calls g q) = nv.
  Proof.
    unfold var_calls, nv, nvars. generalize (dblocks g q) as l. induction l as [|b l IH]; cbn [flat_map map]; [reflexivity|]. rewrite app_length, map_length, len_zcells, IH. reflexivity.
  Qed.
  Lemma var_calls_vars : 0 <= g_inf g -> forall c, In c (var_calls g q) -> is_var c.
  Proof.
    intros Hi c Hc. unfold var_calls in Hc. apply in_flat_map in Hc. destruct Hc as (b & Hb & Hc). apply in_map_iff in Hc. destruct Hc as (rc & <- & _).
    assert (F : exists r n, b = free_block r n (g_inf g)).
    { unfold dblocks, dyn_blocks in Hb. rewrite !in_app_iff in Hb. destruct Hb as [Hb|[Hb|Hb]].
      - cbn in Hb. intuition eauto.
      - destruct (timeopt g); cbn in Hb; intuition eauto.
      - apply in_flat_map in Hb. destruct Hb as (n & _ & Hb). cbn in Hb. intuition eauto. }
    destruct F as (r & n & ->). unfold is_var. eexists _, _, _. split; [reflexivity|]. cbn. lra.
  Qed.

  (** *** Columns in use *)
  Lemma u_evt : forall b rows i t, in_block g q b rows N -> (i < rows)%nat -> (t < N)%nat -> uses U (evt g q b i t).
  Proof. intros. apply uses_var. apply in_seq. pose proof (col_lt g q b rows N i t H H0 H1). unfold nv. lia. Qed.
  Lemma u_com : forall i t, In i axes -> (t < N)%nat -> uses U (evt g q bCOM i t). Proof. intros. eapply u_evt; [apply blk_com|now apply in_axes|assumption]. Qed.
  Lemma u_lm : forall i t, In i axes -> (t < N)%nat -> uses U (evt g q bLM i t). Proof. intros. eapply u_evt; [apply blk_lm|now apply in_axes|assumption]. Qed.
  Lemma u_am : forall i t, In i axes -> (t < N)%nat -> uses U (evt g q bAM i t). Proof. intros. eapply u_evt; [apply blk_am|now apply in_axes|assumption]. Qed.
  Lemma u_dt : forall t, timeopt g = true -> (t < N)%nat -> uses U (evt g q bDT 0 t). Proof. intros. eapply u_evt; [now apply blk_dt|lia|assumption]. Qed.
  Lemma u_lmd : forall i t, timeopt g = true -> In i axes -> (t < N)%nat -> uses U (evt g q bLMD i t). Proof. intros. eapply u_evt; [now apply blk_lmd|now apply in_axes|assumption]. Qed.
  Lemma u_amd : forall i t, timeopt g = true -> In i axes -> (t < N)%nat -> uses U (evt g q bAMD i t). Proof. intros. eapply u_evt; [now apply blk_amd|now apply in_axes|assumption]. Qed.
  Lemma u_before : forall b i t v, (forall t, (t < N)%nat -> uses U (evt g q b i t)) -> (t < N)%nat -> uses U (before g q b i t v).
  Proof. intros b i [|t] v H Ht; cbn [before]; [apply uses_const|apply H; lia]. Qed.
  Section UEff.
    Variables (e t : nat).
    Hypothesis He : (e < g_neff g)%nat.
    Hypothesis Ht : (t < N)%nat.
    Hypothesis Ha : act q t e = true.
    Lemma u_eff : forall k r, (k < 5)%nat -> (r < match k with 3%nat => 2 | 4%nat => 1 | _ => 3 end)%nat -> uses U (eff_ev g q (bEff g e k) r t e).
    Proof.
      intros k r Hk Hr. unfold eff_ev. destruct (act_aid g q cs stray HR e t He Ht Ha) as (n & E & Hn). rewrite E. apply uses_var, in_seq.
      pose proof (col_lt g q _ _ _ r n (blk_eff g q e k He Hk) Hr Hn). unfold nv. lia.
    Qed.
    Lemma u_lb : forall i, In i axes -> uses U (eff_ev g q (bLB g e) i t e). Proof. intros. apply u_eff; [lia|now apply in_axes]. Qed.
    Lemma u_ub : forall i, In i axes -> uses U (eff_ev g q (bUB g e) i t e). Proof. intros. apply u_eff; [lia|now apply in_axes]. Qed.
    Lemma u_frc : forall i, In i axes -> uses U (force g q t e i). Proof. intros. apply u_eff; [lia|now apply in_axes]. Qed.
    Lemma u_copx : uses U (eff_ev g q (bCOP g e) 0 t e). Proof. apply u_eff; cbn; lia. Qed.
    Lemma u_copy : uses U (eff_ev g q (bCOP g e) 1 t e). Proof. apply u_eff; cbn; lia. Qed.
    Lemma u_trq : uses U (eff_ev g q (bTRQ g e) 0 t e). Proof. apply u_eff; cbn; lia. Qed.
    Lemma u_lever : forall c i, In i axes -> uses U (lever g q c t e i).
    Proof. intros c i Hi. unfold lever, ec. auto 10 using uses_add, uses_sub, uses_scale, uses_const, u_com, u_copx, u_copy. Qed.
    Lemma u_ubp : forall c i, In i axes -> uses U (fst (ub_parts g q c t e i)) /\ uses U (snd (ub_parts g q c t e i)).
    Proof. intros c i Hi. destruct i as [|[|i]]; cbn [ub_parts fst snd]; unfold negadd, negsub, ec; split; us; first [apply u_lever|apply u_frc]; unfold axes; simpl; auto 6. Qed.
    Lemma u_lbp : forall c i, In i axes -> uses U (fst (lb_parts g q c t e i)) /\ uses U (snd (lb_parts g q c t e i)).
    Proof. intros c i Hi. destruct i as [|[|i]]; cbn [lb_parts fst snd]; unfold negadd, negsub, ec; split; us; first [apply u_lever|apply u_frc]; unfold axes; simpl; auto 6. Qed.
  End UEff.
  Lemma u_fold : forall (f : nat -> linexpr) l l0, uses U l0 -> (forall a, In a l -> uses U (f a)) -> uses U (fold_left (fun l a => le_add l (f a)) l l0).
  Proof. intros f. induction l as [|a l IH]; intros l0 H0 H; cbn [fold_left]; [exact H0|]. apply IH; [apply uses_add; [exact H0|apply H; now left]|intros; apply H; now right]. Qed.
  Lemma u_gfold : forall (h : linexpr -> nat -> linexpr) l l0, uses U l0 -> (forall l0 a, In a l -> uses U l0 -> uses U (h l0 a)) -> uses U (fold_left h l l0).
  Proof. intros h. induction l as [|a l IH]; intros l0 H0 H; cbn [fold_left]; [exact H0|]. apply IH; [apply H; [now left|exact H0]|intros; apply H; [now right|assumption]]. Qed.
  Lemma u_clamped : (0 < N)%nat -> forall i z, In i axes -> uses U (ev g q bCOM i z).
  Proof.
    intros HN i z Hi. apply uses_var, in_seq. unfold col, dovs. destruct (init_blocks_spec (dblocks g q) 0%nat) as (ovs & E & L & H). change (Z.of_nat 0) with 0%Z in E.
    destruct (H bCOM _ (blk_com g q)) as (ov & Eo & S). pose proof (in_axes i Hi).
    destruct (id_clamped _ _ ov (Z.of_nat i) z S) as (r' & c' & A & B & C & _); [cbn; lia|cbn; exact HN|].
    pose proof (col_lt g q bCOM 3 N r' c' (blk_com g q) A B) as CL. unfold col, dovs in CL. rewrite E in *. cbn [fst] in *. rewrite (nth_error_nth _ _ _ Eo) in *. rewrite C. unfold nv. lia.
  Qed.

  (** *** Objective *)
  Hypothesis HV : g_via g <> [] -> (0 < N)%nat.
  Lemma obj_uses : forall x, In x (obj_terms g q ini kin goal wtrack ++ soft_pure g q cs first) -> uses U (snd x).
  Proof.
    apply (proj2 (all_app _ _ _)). split; [unfold obj_terms; apply (proj2 (all_app _ _ _)); split|].
    - unfold via_terms. apply (proj2 (all_flat _ _ _)). intros v Hv. apply (proj2 (all_map _ _ _)). intros i Hi. cbn [snd]. unfold ec. us. apply u_clamped; [apply HV; intros E; rewrite E in Hv; destruct Hv|exact Hi].
    - apply (proj2 (all_flat _ _ _)). intros t Ht. apply (in_steps g) in Ht. fold N in Ht. apply (proj2 (all_app _ _ _)). split; [|apply (proj2 (all_app _ _ _)); split].
      + apply (proj2 (all_flat _ _ _)). intros i Hi. apply (proj2 (all_app _ _ _)). split; [|apply (proj2 (all_app _ _ _)); split; [|apply (proj2 (all_app _ _ _)); split]].
        * unfold mom_terms, ec. destruct (S t =? g_N g)%nat; cbn [app]; intros x Hx; repeat (destruct Hx as [<-|Hx]; [cbn [snd]; us; first [now apply u_com|now apply u_lm|now apply u_am]|]); destruct Hx.
        * unfold rate_terms. destruct (timeopt g) eqn:T.
          -- intros x Hx; repeat (destruct Hx as [<-|Hx]; [cbn [snd]; first [now apply u_lmd|now apply u_amd]|]); destruct Hx.
          -- intros x Hx. unfold ec in Hx. destruct t as [|t]; repeat (destruct Hx as [<-|Hx]; [cbn [snd]; us; first [now apply u_lm|now apply u_am|apply u_lm; [assumption|lia]|apply u_am; [assumption|lia]]|]); destruct Hx.
        * unfold force_terms. apply (proj2 (all_flat _ _ _)). intros e He. apply (in_effs g) in He. destruct (act q t e) eqn:Ha; [|intros x []]. intros x [<-|[]]. cbn [snd]. now apply u_frc.
        * unfold force_rate_terms. apply (proj2 (all_flat _ _ _)). intros e He. apply (in_effs g) in He. destruct (act q t e) eqn:Ha; [|intros x []]. intros x Hx. unfold ec in Hx.
          assert (C : uses U (force g q t e i)) by now apply u_frc.
          destruct Hx as [<-|[<-|[]]]; cbn [snd]; apply uses_sub; try exact C.
          -- destruct (Nat.eqb_spec (S t) (g_N g)) as [E1|E1]; [exact C|]. destruct (act q (S t) e) eqn:Ha'; [apply u_frc; auto; unfold N in *; lia|apply uses_const].
          -- destruct t as [|t]; [apply uses_const|]. destruct (act q t e) eqn:Ha'; [apply u_frc; auto; lia|apply uses_const].
      + unfold torque_terms. apply (proj2 (all_flat _ _ _)). intros e He. apply (in_effs g) in He. destruct (act q t e) eqn:Ha; [|intros x []]. intros x [<-|[]]. cbn [snd]. now apply u_trq.
      + unfold time_terms. destruct (timeopt g) eqn:T; [|intros x []]. unfold ec. intros x [<-|[<-|[]]]; cbn [snd]; us; now apply u_dt.
    - unfold soft_pure. destruct (negb first && timeopt g) eqn:T; [|intros x []]. apply (proj2 (all_flat _ _ _)). intros t Ht. apply (in_steps g) in Ht. apply (proj2 (all_flat _ _ _)). intros e He. apply (in_effs g) in He.
      destruct (act q t e) eqn:Ha; [|intros x []]. apply (proj2 (all_flat _ _ _)). intros i Hi.
      destruct (u_ubp e t He Ht Ha (con t e) i Hi) as (A1 & A2). destruct (u_lbp e t He Ht Ha (con t e) i Hi) as (B1 & B2).
      intros x [<-|[<-|[]]]; unfold soft_term, lin_sq, ec; cbn [snd]; us; auto; [now apply u_ub|now apply u_lb].
  Qed.
  Lemma objective_scoped : uses_q U (objective g q ini cs kin goal wtrack first) /\ fresh_q (objective g q ini cs kin goal wtrack first).
  Proof.
    unfold objective. destruct (q_of_props (obj_terms g q ini kin goal wtrack ++ soft_pure g q cs first)) as (L & F & T & _). split; [|exact F]. split; [rewrite L; apply uses_const|].
    intros x Hx. apply T in Hx. now apply obj_uses.
  Qed.

  (** *** Constraints *)
  Definition plain (c : call) : Prop := no_var c /\ call_scoped U c /\ (match c with CSetObj _ _ => False | _ => True end).
  Lemma plain_lin : forall a s b, uses U a -> uses U b -> plain (CAddLin a s b).
  Proof. intros. split; [exact I|]. split; [now split|exact I]. Qed.
  Lemma q_of_scoped : forall ts, (forall x, In x ts -> uses U (snd x)) -> uses_q U (q_of ts) /\ fresh_q (q_of ts).
  Proof. intros ts H. destruct (q_of_props ts) as (L & F & T & _). split; [|exact F]. split; [rewrite L; apply uses_const|]. intros x Hx. now apply H, T. Qed.
  Lemma constraints_plain : forall c, In c (constraints g q ini cs first stray) -> plain c.
  Proof.
    unfold constraints. rewrite !all_app. repeat match goal with |- _ /\ _ => split end.
    - unfold height_pure. apply (proj2 (all_flat _ _ _)). intros t Ht. apply (in_steps g) in Ht. intros c [<-|[]]. apply plain_lin; unfold ec; us. apply u_com; [cbn; auto|exact Ht].
    - unfold horizon_calls. destruct (g_fixed g && timeopt g) eqn:T; [|intros c []]. apply andb_prop in T as [_ T]. intros c [<-|[]]. apply plain_lin; [|apply uses_const]. apply u_fold; [apply uses_const|]. intros t Ht. apply (in_steps g) in Ht. now apply u_dt.
    - unfold bound_calls. apply (proj2 (all_flat _ _ _)). intros t Ht. apply (in_steps g) in Ht. apply (proj2 (all_app _ _ _)). split.
      + destruct (timeopt g) eqn:T; [|intros c []]. intros c [<-|[<-|[]]]; apply plain_lin; try apply uses_const; now apply u_dt.
      + apply (proj2 (all_flat _ _ _)). intros e He. apply (in_effs g) in He. destruct (act q t e) eqn:Ha; [|intros c []].
        intros c Hc. repeat (destruct Hc as [<-|Hc]; [apply plain_lin; [first [now apply u_trq|now apply u_copx|now apply u_copy]|apply uses_const]|]). destruct Hc.
    - unfold friction_pure. apply (proj2 (all_flat _ _ _)). intros t Ht. apply (in_steps g) in Ht. apply (proj2 (all_flat _ _ _)). intros e He. apply (in_effs g) in He.
      enough (G : forall c, In c (if act q t e then if g_linfric g then map (lin_friction g q (con t e) t e) [0; 1; 2; 3]%nat else [soc_friction g q (con t e) t e] else []) -> plain c).
      { destruct (contact_type q cs stray t e) as [[]| |]; try exact G. intros c []. }
      destruct (act q t e) eqn:Ha; [|intros c []].
      assert (LF : forall j, uses U (local_force g q (con t e) t e j)).
      { intros j. unfold local_force. apply u_fold; [apply uses_const|]. intros i Hi. us. now apply u_frc. }
      destruct (g_linfric g).
      + apply (proj2 (all_map _ _ _)). intros r _. apply plain_lin; [|apply uses_const]. apply u_fold; [apply uses_const|]. intros i Hi. us. now apply u_frc.
      + intros c [<-|[]]. split; [exact I|]. split; [|exact I]. unfold soc_friction. cbn [call_scoped].
        destruct (q_of_scoped [(1, local_force g q (con t e) t e 0); (1, local_force g q (con t e) t e 1)]) as (A & B).
        { intros x [<-|[<-|[]]]; apply LF. }
        split; [exact A|]. split; [exact B|]. us. apply LF.
    - unfold dynamics_pure. apply (proj2 (all_flat _ _ _)). intros t Ht. apply (in_steps g) in Ht. fold N in Ht.
      assert (C1 : forall i, In i axes -> plain (com_call g q ini t i)).
      { intros i Hi. unfold com_call. apply plain_lin; [|apply uses_const]. us; [now apply u_com|apply u_before; [intros; now apply u_com|exact Ht]|now apply u_lm]. }
      destruct (timeopt g) eqn:T.
      + apply (proj2 (all_app _ _ _)). split; [|apply (proj2 (all_app _ _ _)); split].
        * assert (C2 : forall b bd v i, In i axes -> (forall t, (t < N)%nat -> uses U (evt g q b i t)) -> (forall t, (t < N)%nat -> uses U (evt g q bd i t)) -> plain (rate_call g q b bd i t v)).
          { intros b bd v i Hi H1 H2. unfold rate_call. apply plain_lin; [|apply uses_const]. us; auto. now apply u_before. }
          assert (C3 : forall b ba v s k i, In i axes -> (forall t, (t < N)%nat -> uses U (evt g q b i t)) -> (forall t, (t < N)%nat -> uses U (evt g q ba i t)) -> plain (product_call g q b ba i t v s k)).
          { intros b ba v s k i Hi H1 H2. unfold product_call, product_lin, ec. apply plain_lin; [|apply uses_const]. us; auto; try now apply u_dt. now apply u_before. }
          destruct first; rewrite !all_app, !all_map; (split; [|split]); auto; intros i Hi; first [apply C2|apply C3]; auto; intros; first [now apply u_com|now apply u_lm|now apply u_am|now apply u_lmd|now apply u_amd].
        * apply (proj2 (all_map _ _ _)). intros i Hi. unfold lmomd_call. apply plain_lin; [|apply uses_const]. apply u_gfold; [unfold ec; us; now apply u_lmd|]. intros l e He Hl. apply (in_effs g) in He. destruct (act q t e) eqn:Ha; [us; auto; now apply u_frc|exact Hl].
        * apply (proj2 (all_map _ _ _)). intros i Hi. apply plain_lin; [|apply uses_const]. unfold amomd_expr. apply u_gfold; [unfold ec; us; now apply u_amd|]. intros l e He Hl. apply (in_effs g) in He. destruct (act q t e) eqn:Ha; [us; auto; [now apply u_ub|now apply u_lb|now apply u_trq]|exact Hl].
      + rewrite !all_app, !all_map. split; [exact C1|]. split.
        * intros i Hi. unfold lmom_call. apply plain_lin; [|apply uses_const].
          assert (G : uses U (fold_left (fun l e => if act q t e then le_add l (le_scale (force g q t e i) (- sdt q t * g_mg g)) else l) (effs g)
             (le_sub (le_sub (evt g q bLM i t) (ec (sdt q t * (g_mass g * vget3 (g_grav g) i)))) (before g q bLM i t (d_lmom ini))))).
          { apply u_gfold; [unfold ec; us; [now apply u_lm|apply u_before; [intros; now apply u_lm|exact Ht]]|]. intros l e He Hl. apply (in_effs g) in He. destruct (act q t e) eqn:Ha; [us; auto; now apply u_frc|exact Hl]. }
          destruct (t =? 0)%nat; [unfold ec at 2; us; exact G|exact G].
        * intros i Hi. apply plain_lin; [|apply uses_const]. unfold amom_expr. apply u_gfold; [us; [now apply u_am|apply u_before; [intros; now apply u_am|exact Ht]]|]. intros l e He Hl. apply (in_effs g) in He. destruct (act q t e) eqn:Ha; [us; auto; [now apply u_lb|now apply u_ub|now apply u_trq]|exact Hl].
    - unfold quad_pure. apply (proj2 (all_flat _ _ _)). intros t Ht. apply (in_steps g) in Ht. apply (proj2 (all_flat _ _ _)). intros e He. apply (in_effs g) in He. destruct (act q t e) eqn:Ha; [|intros c []].
      assert (QQ : forall ts l ap, (forall x, In x ts -> uses U (snd x)) -> uses U l -> plain (CAddQua (q_of ts) "<" l ap)).
      { intros ts l ap H1 H2. destruct (q_of_scoped ts H1) as (A & B). split; [exact I|]. split; [|exact I]. cbn [call_scoped]. auto. }
      unfold cone_calls. rewrite !all_app, !all_map. split; [|split].
      + intros i Hi. destruct (u_ubp e t He Ht Ha (con t e) i Hi). apply QQ; [intros x [<-|[<-|[]]]; assumption|now apply u_ub].
      + intros i Hi. destruct (u_lbp e t He Ht Ha (con t e) i Hi). apply QQ; [intros x [<-|[<-|[]]]; assumption|now apply u_lb].
      + intros c [<-|[]]. apply QQ; [|apply uses_const]. intros x Hx. apply in_map_iff in Hx. destruct Hx as (i & <- & Hi). cbn [snd]. us. now apply u_lever.
  Qed.
  Lemma planner_scoped : 0 <= g_inf g -> scoped (var_calls g q ++ CSetObj (objective g q ini cs kin goal wtrack first) (ec 0) :: constraints g q ini cs first stray).
  Proof.
    intros Hi. destruct objective_scoped. apply scoped_planner.
    - now apply var_calls_vars.
    - rewrite var_calls_len. exact constraints_plain.
    - now rewrite var_calls_len.
    - assumption.
  Qed.
End Scope.

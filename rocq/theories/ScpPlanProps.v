(** * Property C69: what the sequence of convex programmes achieves for the momentum planner *)
From Coq Require Import Reals List Arith ZArith Bool String Ascii Lra Lia Permutation.
Import ListNotations.
From Verif Require Import Base BaseProofs Vec3 ExprsModel ExprsProofs ConicModel ConicSpec ConicProofs ConicProofs4 ConicProofs5 ConicProofs6
  OptVarModel OptVarSpec OptVarProofs OptVarProofs2 OptVarProps CntModel CntSpec CntProofs CntProps DynModel DynSpec DynProofs DynProofs2 DynProofs3 DynProofs4 DynProps DynStoreProps KinModel KinSpec KinProofs KinProofs2 KinProofs3
  ScpModel ScpSpec ScpProofs ScpProps DynCostSpec DynCostProofs DynCostProofs2 DynCostProofs3 DynCostProps.
From Verif Require IpModel.
Local Open Scope R_scope.

(** Trust regions: the plan obeys the mechanical problem, the bounds touch the quadratic forms up to threshold^(1+refinements), and so the
    torques used differ from the true ones by at most a quarter of the weight times that; the planned angular momentum differs from the
    integral of the true torques by the accumulated error. *)
Lemma vget3_active : forall q n t f i, vget3 (active_sum q n t f) i = eff_sum q n t (fun e => vget3 (f e) i).
Proof.
  intros q n t f i. induction n as [|n IH]; [now destruct i as [|[|i]]|]. cbn [active_sum]. unfold eff_sum in *. cbn [rsum]. rewrite vget3_add, IH. f_equal. destruct (e_act _); [reflexivity|]. now destruct i as [|[|i]].
Qed.
Lemma eff_sum_minus : forall q n t f h, eff_sum q n t (fun e => f e - h e) = eff_sum q n t f - eff_sum q n t h.
Proof. intros q n t f h. unfold eff_sum. rewrite <- rsum_minus. apply rsum_ext. intros e He. destruct (e_act _); ring. Qed.
Lemma eff_sum_bound : forall q n t f d, (forall e, (e < n)%nat -> active q e t -> Rabs (f e) <= d) -> Rabs (eff_sum q n t f) <= eff_sum q n t (fun _ => 1) * d.
Proof.
  intros q n t f d H. unfold eff_sum. induction n as [|n IH]; [cbn; rewrite Rabs_R0; lra|]. cbn [rsum]. eapply Rle_trans; [apply Rabs_triang|]. rewrite Rmult_plus_distr_r. apply Rplus_le_compat; [apply IH; intros; apply H; [lia|assumption]|].
  destruct (e_act (look q n t)) eqn:E; [rewrite Rmult_1_l; apply H; [lia|exact E]|rewrite Rabs_R0; lra].
Qed.
Theorem C69_trust_region_planning : forall ss solve g q ini cs kin goal wtrack first stray calls,
  ready g q cs stray -> (g_N g <= List.length kin)%nat -> weights_ok g wtrack -> 0 <= g_inf g -> (g_via g <> [] -> (0 < g_N g)%nat) -> 0 <= c_wsoft ss -> 0 <= g_mg g ->
  g_heur g = TrustRegion -> sound_solver solve -> (0 < c_max ss)%Z -> problem_calls g q ini cs kin goal wtrack first stray = Ok calls ->
  sc_code (solved ss solve calls) = IpModel.Optimal ->
  let P := plan_of g q (values (solved ss solve calls)) in let eps := c_thr ss ^ (1 + Z.to_nat (c_refs ss)) in
  momentum_feasible g ini cs q first P /\
  (forall e t i, (e < g_neff g)%nat -> (t < g_N g)%nat -> active q e t -> In i [0; 1; 2]%nat ->
     0 <= vget3 (p_ub P e t) i - vget3 (upper (arm cs q P e t) (p_frc P e t)) i <= eps /\ 0 <= vget3 (p_lb P e t) i - vget3 (lower (arm cs q P e t) (p_frc P e t)) i <= eps /\
     Rabs (vget3 (torque_used g cs q P e t) i - vget3 (contact_torque g cs q P e t) i) <= g_mg g / 4 * eps) /\
  ((forall t, (t < g_N g)%nat -> 0 <= step_time q t) -> forall t i, (t < g_N g)%nat -> In i [0; 1; 2]%nat ->
     Rabs (vget3 (p_amom P t) i - vget3 (accum (d_amom ini) (fun s => vscale (step_time q s) (true_torque g cs q P s)) (S t)) i)
     <= rsum (S t) (fun s => step_time q s * contacts_at g q s) * (g_mg g / 4 * eps)).
Proof.
  intros ss solve g q ini cs kin goal wtrack first stray calls HR HK HW HI HV Hw Hmg Eh HSo HM EC EO P eps.
  rewrite (problem_is g q ini cs kin goal wtrack first stray HR HK) in EC. injection EC as <-. set (W := whole g q ini cs kin goal wtrack first stray) in *.
  assert (HSW := whole_scoped g q ini cs kin goal wtrack first stray HR HI HV). assert (HCW := whole_convex g q ini cs kin goal wtrack first stray HW HI). assert (HAW := whole_not_absurd g q ini cs kin goal wtrack first stray HR HI). fold W in HSW, HCW, HAW.
  destruct (C65_answer_is_feasible ss solve W HSW HCW HAW Hw HSo HM EO) as (FA & _).
  assert (FE : momentum_feasible g ini cs q first P) by (apply (whole_holds g q ini cs kin goal wtrack first stray HR HI); exact FA).
  split; [exact FE|].
  assert (B : forall e t i, (e < g_neff g)%nat -> (t < g_N g)%nat -> active q e t -> In i [0; 1; 2]%nat ->
     0 <= vget3 (p_ub P e t) i - vget3 (upper (arm cs q P e t) (p_frc P e t)) i <= eps /\ 0 <= vget3 (p_lb P e t) i - vget3 (lower (arm cs q P e t) (p_frc P e t)) i <= eps /\
     Rabs (vget3 (torque_used g cs q P e t) i - vget3 (contact_torque g cs q P e t) i) <= g_mg g / 4 * eps).
  { intros e t i He Ht Ha Hi.
    assert (QA : qapprox g = ApproxTrustRegion) by (unfold qapprox; now rewrite Eh).
    assert (I1 : In (ub_call g q cs t e i) W).
    { apply (whole_quad g q ini cs kin goal wtrack first stray e t _ He Ht Ha). unfold cone_calls. apply in_or_app. left. apply in_map_iff. exists i. split; [reflexivity|exact Hi]. }
    assert (I2 : In (lb_call g q cs t e i) W).
    { apply (whole_quad g q ini cs kin goal wtrack first stray e t _ He Ht Ha). unfold cone_calls. apply in_or_app. right. apply in_or_app. left. apply in_map_iff. exists i. split; [reflexivity|exact Hi]. }
    unfold ub_call in I1. unfold lb_call in I2. rewrite QA in I1, I2.
    destruct (C65_trust_region_accuracy ss solve W HSW HCW HAW Hw HSo HM) as (T & _); [eexists _, _; exact I1|exact EO|].
    apply T in I1. apply T in I2. rewrite (ub_qcon g q cs stray HR _ e t He Ht Ha i Hi) in I1. rewrite (lb_qcon g q cs stray HR _ e t He Ht Ha i Hi) in I2. fold P eps in I1, I2.
    split; [lra|]. split; [lra|]. apply C33_error_bound; [apply FE; assumption|exact Hmg|exact Hi|lra|lra]. }
  split; [exact B|]. intros HD t i Ht Hi.
  assert (D : forall t, (t < g_N g)%nat -> p_amom P t = vadd (prev (p_amom P) (d_amom ini) t) (vscale (step_time q t) (net_torque g cs q P t))).
  { intros s Hs. pose proof (mf_dynamics _ _ _ _ _ _ FE s Hs) as X. rewrite Eh in X. apply X. }
  assert (ST : forall s, (s < g_N g)%nat -> Rabs (vget3 (net_torque g cs q P s) i - vget3 (true_torque g cs q P s) i) <= contacts_at g q s * (g_mg g / 4 * eps)).
  { intros s Hs. unfold net_torque, true_torque, contacts_at. rewrite !vget3_active, <- eff_sum_minus. apply eff_sum_bound. intros e He Ha. now apply (B e s i). }
  induction t as [|t IH].
  - rewrite (D 0%nat Ht). cbn [prev accum rsum]. rewrite !vget3_add, !vget3_scale. specialize (ST 0%nat Ht). specialize (HD 0%nat Ht).
    match goal with |- Rabs ?a <= _ => replace a with (step_time q 0 * (vget3 (net_torque g cs q P 0) i - vget3 (true_torque g cs q P 0) i)) by ring end.
    rewrite Rabs_mult, (Rabs_right (step_time q 0)) by lra. rewrite Rplus_0_l, Rmult_assoc. apply Rmult_le_compat_l; assumption.
  - specialize (IH ltac:(lia)). rewrite (D _ Ht). cbn [prev]. change (accum ?a ?f (S (S t))) with (vadd (accum a f (S t)) (f (S t))). rewrite rsum_S, !vget3_add, !vget3_scale. specialize (ST _ Ht). specialize (HD _ Ht).
    match goal with |- Rabs (?a + step_time _ _ * ?b - (?c + step_time _ _ * ?d)) <= _ => replace (a + step_time q (S t) * b - (c + step_time q (S t) * d)) with ((a - c) + step_time q (S t) * (b - d)) by ring end.
    eapply Rle_trans; [apply Rabs_triang|]. rewrite Rmult_plus_distr_r. apply Rplus_le_compat; [exact IH|]. rewrite Rabs_mult, (Rabs_right (step_time q (S t))) by lra. rewrite Rmult_assoc. apply Rmult_le_compat_l; assumption.
Qed.

(** Soft constraints: every refinement yields a feasible plan whose cost plus penalised slack is no larger than before. *)
Theorem C69_soft_constraint_planning : forall ss solve g q ini cs kin goal wtrack first stray calls n,
  ready g q cs stray -> (g_N g <= List.length kin)%nat -> weights_ok g wtrack -> 0 <= g_inf g -> (g_via g <> [] -> (0 < g_N g)%nat) -> 0 <= c_wsoft ss ->
  g_heur g = SoftConstraint -> exact_solver solve -> (0 < c_max ss)%Z -> problem_calls g q ini cs kin goal wtrack first stray = Ok calls ->
  (forall j, (j <= n)%nat -> sc_code (solved (with_refs ss j) solve calls) = IpModel.Optimal) ->
  let P j := plan_of g q (values (solved (with_refs ss j) solve calls)) in
  (forall j, (j <= n)%nat -> momentum_feasible g ini cs q first (P j)) /\
  forall i j, (i <= j <= n)%nat -> relaxed_cost g ini cs q kin goal wtrack first (c_wsoft ss) (P j) <= relaxed_cost g ini cs q kin goal wtrack first (c_wsoft ss) (P i).
Proof.
  intros ss solve g q ini cs kin goal wtrack first stray calls n HR HK HW HI HV Hw Eh HE HM EC HO P.
  rewrite (problem_is g q ini cs kin goal wtrack first stray HR HK) in EC. injection EC as <-. set (W := whole g q ini cs kin goal wtrack first stray) in *.
  assert (HSW := whole_scoped g q ini cs kin goal wtrack first stray HR HI HV). assert (HCW := whole_convex g q ini cs kin goal wtrack first stray HW HI). assert (HAW := whole_not_absurd g q ini cs kin goal wtrack first stray HR HI). fold W in HSW, HCW, HAW.
  split.
  - intros j Hj. apply (whole_holds g q ini cs kin goal wtrack first stray HR HI). apply (C65_answer_is_feasible (with_refs ss j) solve W HSW HCW HAW Hw (exact_sound solve HE) HM (HO j Hj)).
  - intros i j Hij. pose proof (C66_soft_refinements_descend ss solve W n HSW HCW HAW Hw HE HM) as D.
    specialize (D (whole_no_trust g q ini cs kin goal wtrack first stray HI ltac:(rewrite Eh; discriminate)) HO i j Hij). unfold W in D. rewrite !(whole_penalised g q ini cs kin goal wtrack first stray HR HI HV) in D by exact Eh. exact D.
Qed.

(** Time optimisation: one exact solve per pass, whose plan is cheapest.  The warm start of the other heuristics likewise. *)
Theorem C69_single_solve_is_cheapest : forall ss solve g q ini cs kin goal wtrack first stray calls,
  ready g q cs stray -> numbered g q -> (g_N g <= List.length kin)%nat -> weights_ok g wtrack -> 0 <= g_inf g -> (g_via g <> [] -> (0 < g_N g)%nat) -> 0 <= c_wsoft ss ->
  exact_solver solve -> problem_calls g q ini cs kin goal wtrack first stray = Ok calls ->
  (g_heur g = TimeOptimization -> (0 < c_max ss)%Z -> sc_code (solved ss solve calls) = IpModel.Optimal -> cheapest g ini cs q kin goal wtrack first (plan_of g q (values (solved ss solve calls)))) /\
  (g_heur g <> TimeOptimization -> (0 < c_warm ss)%Z -> (exists e t, (e < g_neff g)%nat /\ (t < g_N g)%nat /\ active q e t) -> sc_code (solved (warm_only ss) solve calls) = IpModel.Optimal ->
     cheapest g ini cs q kin goal wtrack first (plan_of g q (values (solved (warm_only ss) solve calls)))).
Proof.
  intros ss solve g q ini cs kin goal wtrack first stray calls HR HN HK HW HI HV Hw HE EC.
  rewrite (problem_is g q ini cs kin goal wtrack first stray HR HK) in EC. injection EC as <-. set (W := whole g q ini cs kin goal wtrack first stray) in *.
  assert (HSW := whole_scoped g q ini cs kin goal wtrack first stray HR HI HV). assert (HCW := whole_convex g q ini cs kin goal wtrack first stray HW HI). assert (HAW := whole_not_absurd g q ini cs kin goal wtrack first stray HR HI). fold W in HSW, HCW, HAW.
  destruct (whole_cols g q ini cs kin goal wtrack first stray HR HI) as (_ & BO). fold W in BO.
  assert (FIN : forall S' iter warm s, 0 <= c_wsoft S' -> alike (run_calls W cp_init) (sc_p s) -> warm = true \/ no_approx_calls W -> sc_code (scp_round S' solve iter warm s) = IpModel.Optimal -> cheapest g ini cs q kin goal wtrack first (plan_of g q (values (scp_round S' solve iter warm s)))).
  { intros S' iter warm s Hw' AL HT E. destruct (round_best S' solve W iter warm s HSW HCW HAW Hw' HE AL HT E) as ((A & _) & M). apply (cheapest_plan g q ini cs kin goal wtrack first stray HR HI HV HN); [exact A|]. intros y Hy. apply M; [exact Hy|apply BO]. }
  destruct (stored_counters W HSW) as (N1 & N2). destruct (call_counters W) as (M1 & M2).
  split.
  - intros Eh HM. pose proof (whole_no_approx g q ini cs kin goal wtrack first stray HI Eh) as NA. fold W in NA.
    assert (Z : forall ap c, In c W -> wants ap c = false). { intros ap c Hc. destruct c as [ty lb ub gs|a s b|qq s l a'|qq s l|qq l]; try reflexivity. rewrite (NA _ _ _ _ Hc). reflexivity. }
    assert (Z1 : n_tr (run_calls W cp_init) = 0%nat /\ n_sc (run_calls W cp_init) = 0%nat).
    { rewrite N1, N2. clear - Z. assert (G : forall ap, List.length (filter (fun c => wants ap c && accepted_quad c) W) = 0%nat).
      { intros ap. induction W as [|c l IH]; [reflexivity|]. cbn [filter]. rewrite (Z ap c (or_introl eq_refl)). cbn [andb]. apply IH. intros a c0 H. apply Z. now right. }
      split; apply G. }
    unfold solved, scp_optimize, scp_refine, scp_main. replace (0 <? c_max ss)%Z with true by (symmetry; apply Z.ltb_lt; lia).
    assert (AL := warm_alike ss solve W). rewrite (round_counts ss solve W 1 false _ AL). rewrite (proj1 Z1), (proj2 Z1). cbn [Nat.ltb Nat.leb orb]. rewrite andb_false_r. apply FIN; auto.
  - intros Eh HWm (e & t & He & Ht & Ha). unfold solved, scp_optimize, scp_refine, scp_main. cbn [warm_only c_max c_refs]. cbn [Z.ltb Z.compare andb]. unfold scp_warm. cbn [warm_only c_warm sc_p].
    assert (AP : has_approx (run_calls W cp_init) = true).
    { assert (I1 : In (ub_call g q cs t e 0) W). { apply (whole_quad g q ini cs kin goal wtrack first stray e t _ He Ht Ha). unfold cone_calls. apply in_or_app. left. apply in_map_iff. exists 0%nat. split; [reflexivity|now left]. }
      unfold has_approx. rewrite M1, M2. unfold count_of. unfold ub_call in I1.
      assert (C : exists ap, ap <> ApproxNone /\ qapprox g = ap /\ ((ap = ApproxTrustRegion) \/ (ap = ApproxSoftConstraint))) by (unfold qapprox; destruct (g_heur g); [eexists; split; [|split; [reflexivity|]]; [discriminate|now left]|eexists; split; [|split; [reflexivity|]]; [discriminate|now right]|now elim Eh]).
      destruct C as (ap & _ & QA & [C|C]); rewrite QA, C in I1; apply orb_true_iff; [left|right]; apply Nat.ltb_lt.
      - assert (X : In (CAddQua (q_of [(1, fst (ub_parts g q (contact_on cs q e t) t e 0)); (1, snd (ub_parts g q (contact_on cs q e t) t e 0))]) "<" (eff_ev g q (bUB g e) 0 t e) ApproxTrustRegion) (filter (wants ApproxTrustRegion) W)) by (apply filter_In; split; [exact I1|reflexivity]).
        destruct (filter (wants ApproxTrustRegion) W); [destruct X|cbn; lia].
      - assert (X : In (CAddQua (q_of [(1, fst (ub_parts g q (contact_on cs q e t) t e 0)); (1, snd (ub_parts g q (contact_on cs q e t) t e 0))]) "<" (eff_ev g q (bUB g e) 0 t e) ApproxSoftConstraint) (filter (wants ApproxSoftConstraint) W)) by (apply filter_In; split; [exact I1|reflexivity]).
        destruct (filter (wants ApproxSoftConstraint) W); [destruct X|cbn; lia]. }
    rewrite AP. replace (0 <? c_warm ss)%Z with true by (symmetry; apply Z.ltb_lt; lia). cbn [andb]. apply FIN; [exact Hw|apply alike_refl|now left].
Qed.
Print Assumptions C69_trust_region_planning. Print Assumptions C69_soft_constraint_planning. Print Assumptions C69_single_solve_is_cheapest.

(** ** A concrete problem with non-trivial weights: one step, one flat contact with centre of pressure in its middle.  With a solver
    that answers with a best point whenever there is one, every round succeeds, for any thresholds, weights and numbers of refinements. *)
Definition ones : vec3 := V3 1 1 1.
Definition stand_g (h : heuristic) : dset :=
  DSet 1 1 1 1 1 (V3 0 0 (-1)) v0 h false (1 / 2) 0 (-5) 5 (fun _ _ => 0) (fun _ => v0) (fun _ => 2) false (1 / 2) 3
    100 1 [] 1 (1 / 100) (1 / 1000) ones ones ones ones ones ones v0 v0 v0 v0 v0 v0 0 0 0 0.
Definition stand_kin : list kinref := [Kin (V3 0 0 1) v0 v0].
Definition stand_x (h : heuristic) : nat -> R :=
  fun c => nth c (match h with TimeOptimization => [0;0;1; 0;0;0; 0;0;0; 1; 0;0;0; 0;0;0; 2;2;0; 2;2;0; 0;0;1; 0;0; 0] | _ => [0;0;1; 0;0;0; 0;0;0; 2;2;0; 2;2;0; 0;0;1; 0;0; 0] end) 0.
Notation stand_P h := (plan_of (stand_g h) demo_q (stand_x h)).
Notation stand_cost h := (momentum_cost (stand_g h) demo_ini demo_cs demo_q stand_kin (V3 0 0 1) ones true).
Notation stand_ok h := (momentum_feasible (stand_g h) demo_ini demo_cs demo_q true).
Lemma stand_ready : forall h, ready (stand_g h) demo_q demo_cs no_stray.
Proof. exact demo_ready. Qed.
Lemma stand_numbered : forall h, numbered (stand_g h) demo_q.
Proof. intros h e t t' _ Ht Ht' _ _ _. cbn in Ht, Ht'. lia. Qed.
Lemma stand_weights : forall h, weights_ok (stand_g h) ones.
Proof. intros h. unfold weights_ok, nonneg3, ones. cbn. repeat split; lra. Qed.
Lemma stand_values : forall h, p_com (stand_P h) 0 = V3 0 0 1 /\ p_lmom (stand_P h) 0 = v0 /\ p_amom (stand_P h) 0 = v0 /\ p_lb (stand_P h) 0 0 = V3 2 2 0 /\ p_ub (stand_P h) 0 0 = V3 2 2 0 /\
  p_frc (stand_P h) 0 0 = V3 0 0 1 /\ p_copx (stand_P h) 0 0 = 0 /\ p_copy (stand_P h) 0 0 = 0 /\ p_trq (stand_P h) 0 0 = 0 /\
  (h = TimeOptimization -> p_dt (stand_P h) 0 = 1 /\ p_lmomd (stand_P h) 0 = v0 /\ p_amomd (stand_P h) 0 = v0).
Proof. intros []; do 9 (split; [reflexivity|]); intros E; try discriminate E; repeat split; reflexivity. Qed.
Lemma stand_feasible : forall h, stand_ok h (stand_P h).
Proof.
  intros h. destruct (stand_values h) as (E1 & E2 & E3 & E4 & E5 & E6 & E7 & E8 & E9 & ET). set (P := stand_P h) in *. clearbody P.
  split.
  - intros t Ht. cbn in Ht. assert (t = 0%nat) by lia. subst. rewrite E1. cbn. lra.
  - intros t Ht. cbn in Ht. assert (t = 0%nat) by lia. subst. destruct h; cbn [stand_g g_heur].
    + unfold dynamics_fixed, net_force, net_torque, torque_used, prev. cbn [g_neff stand_g active_sum]. change (e_act (look demo_q 0 0)) with true. cbv iota. rewrite E1, E2, E3, E4, E5, E6, E9. unfold vadd, vscale, vsub, v0. cbn. split; [|split]; f_equal; field.
    + unfold dynamics_fixed, net_force, net_torque, torque_used, prev. cbn [g_neff stand_g active_sum]. change (e_act (look demo_q 0 0)) with true. cbv iota. rewrite E1, E2, E3, E4, E5, E6, E9. unfold vadd, vscale, vsub, v0. cbn. split; [|split]; f_equal; field.
    + destruct (ET eq_refl) as (T1 & T2 & T3). unfold dynamics_time, net_force, net_torque, torque_used, prev. cbn [g_neff stand_g active_sum]. change (e_act (look demo_q 0 0)) with true. cbv iota. rewrite E1, E2, E3, E4, E5, E6, E9, T2, T3. unfold vadd, vscale, vsub, v0. cbn. split; [|split; [|split; [|split]]]; f_equal; field.
  - intros Eh. cbn in Eh. destruct (ET Eh) as (T1 & _). split; [|discriminate]. intros t Ht. cbn in Ht. assert (t = 0%nat) by lia. subst. rewrite T1. cbn. lra.
  - intros e t He Ht _. cbn in He, Ht. assert (e = 0%nat) by lia. assert (t = 0%nat) by lia. subst. split; unfold arm; rewrite ?E1, ?E4, ?E5, ?E6, ?E7, ?E8, ?E9; unfold upper, lower, sqr, vle, vadd, vscale, vsub; cbn; try lra.
    + intros _. unfold coulomb, vdot, sqr. cbn. match goal with |- sqrt ?a <= _ => replace a with 0 by ring end. rewrite sqrt_0. lra.
    + unfold vdot. cbn. lra.
Qed.
Lemma stand_free : forall h, stand_cost h (stand_P h) = 0.
Proof.
  intros h. destruct (stand_values h) as (E1 & E2 & E3 & E4 & E5 & E6 & E7 & E8 & E9 & ET). set (P := stand_P h) in *. clearbody P.
  unfold momentum_cost, via_cost, sum_list, state_cost, rate_cost, time_cost, eff_sum, contact_cost, gaps. cbn [stand_g g_N g_neff g_via g_heur rsum map fold_right].
  cbn [Nat.eqb stand_kin nth k_com k_lmom k_amom negb]. change (e_act (look demo_q 0 0)) with true. cbv iota zeta. rewrite E1, E2, E3. unfold wlen, sqr, v0, ones. cbn. destruct h; cbn; ring.
Qed.
(** Plans of cost zero share lever arm and force. *)
Lemma stand_pinned : forall h P, stand_ok h P -> stand_cost h P <= 0 -> arm demo_cs demo_q P 0 0 = V3 0 0 (-1) /\ p_frc P 0 0 = V3 0 0 1.
Proof.
  intros h P F C. destruct F as [_ D _ K]. specialize (K 0%nat 0%nat ltac:(cbn; lia) ltac:(cbn; lia) eq_refl). destruct K as [_ CX CY _ _ _ _]. cbn in CX, CY.
  assert (X0 : p_copx P 0 0 = 0) by lra. assert (Y0 : p_copy P 0 0 = 0) by lra.
  assert (NN : forall w a, nonneg3 w -> 0 <= wlen w a) by apply wlen_nonneg.
  assert (ZL : p_com P 0 = V3 0 0 1 /\ p_lmom P 0 = v0 /\ (h = TimeOptimization -> True)).
  { revert C. unfold momentum_cost, via_cost, sum_list, state_cost, rate_cost, time_cost, eff_sum, contact_cost, gaps. cbn [stand_g g_N g_neff g_via g_heur rsum map fold_right].
    cbn [Nat.eqb stand_kin nth k_com k_lmom k_amom negb]. change (e_act (look demo_q 0 0)) with true. cbv iota zeta. unfold wlen, sqr, v0, ones. destruct (p_com P 0) as [a b c], (p_lmom P 0) as [d e f], (p_amom P 0) as [k l m]. cbn. intros C.
    assert (S : forall u, 0 <= u * u) by (intros; apply Rle_0_sqr).
    assert (Z : forall u, u * u <= 0 -> u = 0) by (intros u Hu; assert (U : u * u = 0) by (pose proof (S u); lra); apply Rmult_integral in U; lra).
    assert (C' : 2 * ((a - 0) * (a - 0)) + 2 * ((b - 0) * (b - 0)) + 2 * ((c - 1) * (c - 1)) + (d - 0) * (d - 0) + (e - 0) * (e - 0) + (f - 0) * (f - 0) + (k - 0) * (k - 0) + (l - 0) * (l - 0) + (m - 0) * (m - 0) <= 0) by (destruct h; lra).
    pose proof (S (a - 0)). pose proof (S (b - 0)). pose proof (S (c - 1)). pose proof (S (d - 0)). pose proof (S (e - 0)). pose proof (S (f - 0)). pose proof (S (k - 0)). pose proof (S (l - 0)). pose proof (S (m - 0)).
    assert (a - 0 = 0) by (apply Z; lra). assert (b - 0 = 0) by (apply Z; lra). assert (c - 1 = 0) by (apply Z; lra). assert (d - 0 = 0) by (apply Z; lra). assert (e - 0 = 0) by (apply Z; lra). assert (f - 0 = 0) by (apply Z; lra).
    split; [f_equal; lra|]. split; [unfold v0; f_equal; lra|auto]. }
  destruct ZL as (ZC & ZM & _). split.
  - unfold arm. rewrite ZC, X0, Y0. unfold vsub, vadd, vscale. cbn. f_equal; ring.
  - specialize (D 0%nat ltac:(cbn; lia)). destruct (p_frc P 0 0) as [a b c] eqn:EF.
    assert (EQ : p_lmom P 0 = vadd v0 (vscale 1 (net_force (stand_g h) demo_q P 0)) -> V3 a b c = V3 0 0 1).
    { rewrite ZM. unfold net_force. cbn [stand_g g_neff active_sum]. change (e_act (look demo_q 0 0)) with true. cbv iota. rewrite EF. unfold vadd, vscale, v0. cbn. intros E. injection E as H1 H2 H3. f_equal; lra. }
    apply EQ. destruct h; cbn [stand_g g_heur] in D.
    + destruct D as (_ & D & _). rewrite D at 1. cbn [prev Nat.eqb]. unfold vadd, vscale, v0. cbn. f_equal; ring.
    + destruct D as (_ & D & _). rewrite D at 1. cbn [prev Nat.eqb]. unfold vadd, vscale, v0. cbn. f_equal; ring.
    + destruct D as (_ & D & _ & D2 & _). rewrite D, D2. reflexivity.
Qed.
Notation stand_calls h := (whole (stand_g h) demo_q demo_ini demo_cs stand_kin (V3 0 0 1) ones true no_stray).
Lemma pen_nonneg : forall env w x l, 0 <= w -> 0 <= sumR (map (soft_penalty env w x) l).
Proof.
  intros env w x l Hw. induction l as [|c l IH]; [cbn; lra|]. cbn [map]. rewrite sumR_cons. apply Rplus_le_le_0_compat; [|exact IH]. destruct c as [ty lb ub gs|a1 s b1|qq s l1 ap|qq s l1|qq l1]; cbn [soft_penalty]; try lra.
  destruct ap; try lra. destruct (String.eqb s "<"); [|lra]. apply Rmult_le_pos; [exact Hw|apply Rle_0_sqr].
Qed.
Lemma stand_round : forall h ss iter warm s, 0 <= c_wsoft ss -> 0 <= c_thr ss -> alike (run_calls (stand_calls h) cp_init) (sc_p s) ->
  (warm = true \/ h = TimeOptimization \/ (stand_ok h (plan_of (stand_g h) demo_q (values s)) /\ stand_cost h (plan_of (stand_g h) demo_q (values s)) <= 0)) ->
  let s' := scp_round ss best_solver iter warm s in
  sc_code s' = IpModel.Optimal /\ stand_ok h (plan_of (stand_g h) demo_q (values s')) /\ stand_cost h (plan_of (stand_g h) demo_q (values s')) <= 0.
Proof.
  intros h ss iter warm s Hw Hth AL HT s'. set (g := stand_g h). assert (HR : ready g demo_q demo_cs no_stray) by apply stand_ready. assert (HI : 0 <= g_inf g) by (cbn; lra). assert (HV : g_via g <> [] -> (0 < g_N g)%nat) by (intros _; cbn; lia).
  assert (HW : weights_ok g ones) by apply stand_weights.
  set (W := stand_calls h) in *.
  assert (HSW : scoped W) by (now apply whole_scoped). assert (HCW : forall c, In c W -> call_convex c) by (now apply whole_convex). assert (HAW : forall c, In c W -> call_not_absurd c) by (now apply whole_not_absurd).
  destruct (whole_cols g demo_q demo_ini demo_cs stand_kin (V3 0 0 1) ones true no_stray HR HI) as (UC & BO).
  destruct (round_is ss best_solver W HSW iter warm s AL) as (vs & a & b & x & k & bnb & L & _ & _ & EE & ES & EP & AG). fold s' in ES, AG.
  set (P := Program _ _ _ _) in ES. set (env := p_env (revalued (run_calls W cp_init) vs a b)).
  assert (EV : forall c, env c = values s c) by (intros c; apply EE).
  assert (HX : forall c, In c W -> call_holds (stand_x h) c) by (apply (whole_holds g demo_q demo_ini demo_cs stand_kin (V3 0 0 1) ones true no_stray HR HI); apply stand_feasible).
  assert (MOD : warm = false -> forall qq s l ap, In (CAddQua qq s l ap) W -> ap <> ApproxNone -> lin_model env qq l (stand_x h) = 0).
  { intros Ew qq s0 l ap Hin NA. destruct HT as [HT|[HT|(F1 & C1)]]; [congruence| |].
    - exfalso. apply NA. refine (whole_no_approx g demo_q demo_ini demo_cs stand_kin (V3 0 0 1) ones true no_stray HI _ qq s0 l ap Hin). unfold g. now rewrite HT.
    - assert (EPL : plan_of g demo_q env = plan_of g demo_q (values s)) by (f_equal; apply FunctionalExtensionality.functional_extensionality; exact EV).
      destruct (approx_cases g demo_q demo_ini demo_cs stand_kin (V3 0 0 1) ones true no_stray HI qq s0 l ap Hin NA) as (e & t & i & He & Ht & Ha & Hi & Eq).
      assert (e = 0%nat) by (cbn in He; lia). assert (t = 0%nat) by (cbn in Ht; lia). subst e t.
      destruct (stand_pinned h _ F1 C1) as (A1 & A2). destruct (stand_pinned h _ (stand_feasible h) (Req_le _ _ (stand_free h))) as (B1 & B2).
      rewrite (models_exact g demo_q demo_cs no_stray env (stand_x h) 0 0 i HR He Ht Ha Hi) with (s := s0) (ap := ap); [|rewrite EPL; unfold g; congruence|rewrite EPL; unfold g; congruence|exact Eq].
      destruct (stand_values h) as (_ & _ & _ & E4 & E5 & E6 & _).
      destruct Eq as [Eq|Eq]; injection Eq as -> _ -> _.
      + rewrite (ub_qcon g demo_q demo_cs no_stray HR (stand_x h) 0 0 He Ht Ha i Hi). unfold g. rewrite B1, E5, E6. destruct Hi as [<-|[<-|[<-|[]]]]; unfold upper, sqr; cbn; ring.
      + rewrite (lb_qcon g demo_q demo_cs no_stray HR (stand_x h) 0 0 He Ht Ha i Hi). unfold g. rewrite B1, E4, E6. destruct Hi as [<-|[<-|[<-|[]]]]; unfold lower, sqr; cbn; ring. }
  destruct (complete_at (c_thr ss) (c_wsoft ss) iter warm W vs a b L HSW (stand_x h) HX (BO _)) as (x1 & _ & F1 & O1).
  { intros Ew c Hc. fold env. destruct c as [ty lb ub gs|a1 s1 b1|qq s1 l ap|qq s1 l|qq l]; cbn [trust_holds]; auto. destruct ap; auto. intros _. rewrite (MOD Ew _ _ _ _ Hc) by discriminate. assert (0 <= c_thr ss ^ iter) by now apply pow_le. lra. }
  fold P in F1, O1. fold env in O1.
  assert (PEN : (if warm then 0 else sumR (map (soft_penalty env (c_wsoft ss) (stand_x h)) W)) = 0).
  { destruct warm; [reflexivity|]. specialize (MOD eq_refl). clearbody env W. clear - MOD. induction W as [|c l IH]; [reflexivity|]. cbn [map]. rewrite sumR_cons, IH by (intros; eapply MOD; [right|]; eassumption).
    destruct c as [ty lb ub gs|a1 s1 b1|qq s1 l1 ap|qq s1 l1|qq l1]; cbn [soft_penalty]; try ring. destruct ap; try ring. destruct (String.eqb s1 "<"); [|ring]. rewrite (MOD qq s1 l1 ApproxSoftConstraint (or_introl eq_refl)) by discriminate. ring. }
  assert (UO : forall y, user_obj W y = stand_cost h (plan_of g demo_q y)) by (intros y; now apply whole_obj).
  rewrite PEN, UO in O1. unfold g in O1. rewrite (stand_free h), Rplus_0_r in O1.
  assert (LB : forall y, feasible_answer P y -> user_obj W y <= std_objective (g_stg P) y + obj_const W).
  { intros y Fy. destruct (sound_at (c_thr ss) (c_wsoft ss) iter warm W vs a b L HSW y HCW HAW Hw Fy) as (_ & _ & _ & LE). fold P env in LE. pose proof (pen_nonneg env (c_wsoft ss) y W Hw). destruct warm; lra. }
  assert (BA : best_answer P x1). { split; [exact F1|]. intros y Fy. specialize (LB y Fy). rewrite UO in LB. pose proof (cost_nonneg g demo_ini demo_cs demo_q stand_kin (V3 0 0 1) ones true (plan_of g demo_q y) HW). fold g in LB. lra. }
  assert (EC : sc_code s' = IpModel.Optimal).
  { unfold best_solver in ES at 1. destruct (ClassicalEpsilon.excluded_middle_informative _) as [H|H]; [now injection ES as <- _|elim H; now exists x1]. }
  split; [exact EC|]. rewrite EC in ES. apply best_solver_exact in ES as [Fx Bx].
  destruct (sound_at (c_thr ss) (c_wsoft ss) iter warm W vs a b L HSW x HCW HAW Hw Fx) as (S1 & _).
  split.
  - apply (whole_holds g demo_q demo_ini demo_cs stand_kin (V3 0 0 1) ones true no_stray HR HI). intros c Hc. eapply holds_agree; eauto.
  - specialize (Bx x1 F1). specialize (LB x Fx). fold g. rewrite <- UO, (obj_agree W x _ HSW AG). lra.
Qed.
Example C69_stand_solved : forall h ss, 0 <= c_wsoft ss -> 0 <= c_thr ss -> (0 < c_max ss)%Z -> (0 < c_warm ss)%Z ->
  problem_calls (stand_g h) demo_q demo_ini demo_cs stand_kin (V3 0 0 1) ones true no_stray = Ok (stand_calls h) /\
  sc_code (solved ss best_solver (stand_calls h)) = IpModel.Optimal /\ (h <> TimeOptimization -> sc_code (solved (warm_only ss) best_solver (stand_calls h)) = IpModel.Optimal).
Proof.
  intros h ss Hw Hth HM HWm. split; [apply problem_is; [apply stand_ready|cbn; lia]|].
  set (W := stand_calls h) in *. set (p := run_calls W cp_init).
  set (OKS := fun s => alike p (sc_p s) /\ stand_ok h (plan_of (stand_g h) demo_q (values s)) /\ stand_cost h (plan_of (stand_g h) demo_q (values s)) <= 0).
  assert (HSW : scoped W) by (apply whole_scoped; [apply stand_ready|cbn; lra|intros _; cbn; lia]).
  assert (AL0 : alike p (sc_p (Scp p 0 IpModel.Indeterminate))) by apply alike_refl.
  assert (RND : forall it s, OKS s -> sc_code (scp_round ss best_solver it false s) = IpModel.Optimal /\ OKS (scp_round ss best_solver it false s)).
  { intros it s (A & B & C). destruct (stand_round h ss it false s Hw Hth A) as (X & Y & Z); [right; right; now split|]. split; [exact X|]. split; [now apply round_alike|]. now split. }
  assert (W1 : forall ss', c_wsoft ss' = c_wsoft ss -> c_thr ss' = c_thr ss -> let s := scp_round ss' best_solver 0 true (Scp p 0 IpModel.Indeterminate) in sc_code s = IpModel.Optimal /\ OKS s).
  { intros ss' Ew Et s. destruct (stand_round h ss' 0 true (Scp p 0 IpModel.Indeterminate)) as (X & Y & Z); [now rewrite Ew|now rewrite Et|exact AL0|now left|]. split; [exact X|]. split; [now apply round_alike|]. now split. }
  assert (AP : h <> TimeOptimization -> has_approx p = true).
  { intros Eh. assert (I1 : In (ub_call (stand_g h) demo_q demo_cs 0 0 0) W). { apply whole_quad with (e := 0%nat) (t := 0%nat); [cbn; lia|cbn; lia|reflexivity|]. unfold cone_calls. apply in_or_app. left. apply in_map_iff. exists 0%nat. split; [reflexivity|now left]. }
    unfold has_approx. destruct (call_counters W) as (M1 & M2). fold p in M1, M2. rewrite M1, M2. apply orb_true_iff. unfold ub_call in I1. unfold count_of. destruct h; [left|right|now elim Eh]; apply Nat.ltb_lt.
    - assert (X := proj2 (filter_In (wants ApproxTrustRegion) _ W) (conj I1 eq_refl)). destruct (filter (wants ApproxTrustRegion) W); [destruct X|cbn; lia].
    - assert (X := proj2 (filter_In (wants ApproxSoftConstraint) _ W) (conj I1 eq_refl)). destruct (filter (wants ApproxSoftConstraint) W); [destruct X|cbn; lia]. }
  assert (ZM : (0 <? c_max ss)%Z = true) by (apply Z.ltb_lt; lia). assert (ZW : (0 <? c_warm ss)%Z = true) by (apply Z.ltb_lt; lia).
  split.
  - unfold solved, scp_optimize. fold p. set (s0 := scp_warm ss best_solver (Scp p 0 IpModel.Indeterminate)).
    assert (R1 : sc_code (scp_main ss best_solver s0) = IpModel.Optimal /\ OKS (scp_main ss best_solver s0)).
    { unfold scp_main. rewrite ZM. unfold s0, scp_warm. rewrite ZW. cbn [andb sc_p]. destruct (has_approx p) eqn:EA; [apply RND; now apply (W1 ss)|].
      assert (Eh : h = TimeOptimization) by (destruct h; try reflexivity; exfalso; discriminate (AP ltac:(discriminate))).
      destruct (stand_round h ss 1 false (Scp p 0 IpModel.Indeterminate) Hw Hth AL0) as (X & Y & Z); [right; now left|]. split; [exact X|]. split; [now apply round_alike|]. now split. }
    unfold scp_refine. destruct ((0 <? c_refs ss)%Z && has_approx (sc_p (scp_main ss best_solver s0)))%bool; [|apply R1].
    assert (G : forall l s, sc_code s = IpModel.Optimal /\ OKS s -> sc_code (fold_left (fun s ref => scp_round ss best_solver (ref + 1) false s) l s) = IpModel.Optimal).
    { induction l as [|r l IH]; intros s (X & Y); [exact X|]. cbn [fold_left]. apply IH. now apply RND. }
    now apply G.
  - intros Eh. unfold solved, scp_optimize, scp_refine, scp_main. cbn [warm_only c_max c_refs]. cbn [Z.ltb Z.compare andb]. unfold scp_warm. cbn [warm_only c_warm sc_p]. fold p. rewrite ZW, (AP Eh). cbn [andb]. now apply (W1 (warm_only ss)).
Qed.
Example C68_stand_cheapest : forall h, cheapest (stand_g h) demo_ini demo_cs demo_q stand_kin (V3 0 0 1) ones true (stand_P h).
Proof. intros h. split; [apply stand_feasible|]. intros P' _. rewrite stand_free. apply cost_nonneg, stand_weights. Qed.
(** The cost is not constant: a plan with angular momentum costs something. *)
Example C68_stand_dear : forall h, exists P, stand_cost h P > 0.
Proof.
  intros h. exists (Plan (fun _ => V3 0 0 1) (fun _ => v0) (fun _ => ones) (fun _ => 1) (fun _ => v0) (fun _ => v0) (fun _ _ => v0) (fun _ _ => v0) (fun _ _ => v0) (fun _ _ => 0) (fun _ _ => 0) (fun _ _ => 0)).
  unfold momentum_cost, via_cost, sum_list, state_cost, rate_cost, time_cost, eff_sum, contact_cost, gaps. cbn [stand_g g_N g_neff g_via g_heur rsum map fold_right].
  cbn [Nat.eqb stand_kin nth k_com k_lmom k_amom negb]. change (e_act (look demo_q 0 0)) with true. cbv iota zeta. unfold wlen, sqr, v0, ones. destruct h; cbn; lra.
Qed.

(** The problem of the momentum planner as a history of calls: objective, slack of the approximated constraints. *)
From Coq Require Import Reals List Arith ZArith Bool String Ascii Lra Lia Permutation.
Import ListNotations.
From Verif Require Import Base BaseProofs Vec3 ExprsModel ExprsProofs ConicModel ConicSpec ConicProofs ConicProofs4 ConicProofs5 ConicProofs6
  OptVarModel OptVarSpec OptVarProofs OptVarProofs2 OptVarProps CntModel CntSpec DynModel DynSpec DynProofs DynProofs2 DynProofs3 DynProofs4 DynProps KinModel KinSpec KinProofs KinProofs2 KinProofs3
  ScpModel ScpSpec ScpProofs DynCostSpec DynCostProofs DynCostProofs2.
From Verif Require IpModel.
Local Open Scope R_scope.

(** Best answers to programmes without approximations, or of a warm start. *)
Lemma round_best S solve cs iter warm s : scoped cs -> (forall c, In c cs -> call_convex c) -> (forall c, In c cs -> call_not_absurd c) -> 0 <= c_wsoft S ->
  exact_solver solve -> alike (run_calls cs cp_init) (sc_p s) -> warm = true \/ no_approx_calls cs -> sc_code (scp_round S solve iter warm s) = IpModel.Optimal ->
  let x := values (scp_round S solve iter warm s) in
  ((forall c, In c cs -> call_holds x c) /\ binaries_ok cs x) /\
  forall y, (forall c, In c cs -> call_holds y c) -> binaries_ok cs y -> user_obj cs x <= user_obj cs y.
Proof.
  intros HS HC HA Hw HE AL HT EC v. destruct (round_is S solve cs HS iter warm s AL) as (vs & a & b & x & k & bnb & L & _ & _ & _ & ES & EP & AG). rewrite EC in ES. apply HE in ES as [ES HB]. fold v in AG.
  set (env := p_env (revalued (run_calls cs cp_init) vs a b)).
  assert (PEN : forall y, (if warm then 0 else sumR (map (soft_penalty env (c_wsoft S) y) cs)) = 0).
  { intros y. destruct warm; [reflexivity|]. destruct HT as [HT|HT]; [discriminate|]. clearbody env. clear - HT. induction cs as [|c cs IH]; [reflexivity|]. cbn [map]. rewrite sumR_cons, IH by (intros q s l ap H; eapply HT; right; exact H).
    destruct c as [ty lb ub gs|a1 s b1|qq s l ap|qq s l|qq l]; cbn [soft_penalty]; try ring. rewrite (HT qq s l ap) by now left. ring. }
  destruct (sound_at (c_thr S) (c_wsoft S) iter warm cs vs a b L HS x HC HA Hw ES) as (S1 & S2 & _ & S4). fold env in S4. rewrite PEN in S4.
  split; [split; [intros c Hc; eapply holds_agree; eauto|eapply bin_agree; eauto]|].
  intros y Hy Hb. destruct (complete_at (c_thr S) (c_wsoft S) iter warm cs vs a b L HS y Hy Hb) as (y' & _ & F & O).
  { intros Ew c Hc. destruct HT as [HT|HT]; [congruence|]. destruct c as [ty lb ub gs|a1 s1 b1|qq s1 l ap|qq s1 l|qq l]; cbn [trust_holds]; auto. rewrite (HT _ _ _ _ Hc). exact I. }
  fold env in O. rewrite PEN in O. specialize (HB y' F). rewrite (obj_agree cs x v HS AG). lra.
Qed.

Section Plan.
  Variables (g : dset) (q : dseq) (ini : dstate) (cs : nat -> list contact) (kin : list kinref) (goal wtrack : vec3) (first : bool).
  Variable stray : nat -> nat -> option ctype.
  Hypothesis HR : ready g q cs stray.
  Hypothesis HW : weights_ok g wtrack.
  Hypothesis HI : 0 <= g_inf g.
  Hypothesis HV : g_via g <> [] -> (0 < g_N g)%nat.
  Notation W := (whole g q ini cs kin goal wtrack first stray).
  Notation con t e := (contact_on cs q e t).

  Lemma whole_obj : forall x, user_obj W x = momentum_cost g ini cs q kin goal wtrack first (plan_of g q x).
  Proof.
    intros x. rewrite <- (objective_value g q ini cs kin goal wtrack first stray HR x HV). unfold user_obj, whole. rewrite fold_left_app. cbn [fold_left].
    assert (G : forall l v, (forall c, In c l -> match c with CSetObj _ _ => False | _ => True end) -> fold_left (fun v c => match c with CSetObj q l => obj_value x q l | _ => v end) l v = v).
    { induction l as [|c l IH]; intros v H; cbn [fold_left]; [reflexivity|]. rewrite IH by (intros; apply H; now right). specialize (H c (or_introl eq_refl)). now destruct c. }
    rewrite G.
    2:{ intros c Hc. pose proof (constraints_plain g q ini cs first stray HR c Hc) as Z. now apply Z. }
    unfold obj_value, objective. destruct (q_of_props (obj_terms g q ini kin goal wtrack ++ soft_pure g q cs first)) as (Q1 & _ & _ & Q4). rewrite Q4, Q1. unfold ec. rewrite !aval_const. unfold cost_of. ring.
  Qed.
  Lemma whole_quad : forall e t c, (e < g_neff g)%nat -> (t < g_N g)%nat -> active q e t -> In c (cone_calls g q (con t e) t e) -> In c W.
  Proof.
    intros e t c He Ht Ha Hc. unfold whole. apply in_or_app. right. right. unfold constraints. rewrite !in_app_iff. do 5 right. unfold quad_pure. apply in_flat_map. exists t. split; [now apply in_steps|].
    apply in_flat_map. exists e. split; [now apply in_effs|]. unfold active in Ha. change (e_act (look q e t)) with (act q t e) in Ha. now rewrite Ha.
  Qed.
  Definition ub_call t e i := CAddQua (q_of [(1, fst (ub_parts g q (con t e) t e i)); (1, snd (ub_parts g q (con t e) t e i))]) "<" (eff_ev g q (bUB g e) i t e) (qapprox g).
  Definition lb_call t e i := CAddQua (q_of [(1, fst (lb_parts g q (con t e) t e i)); (1, snd (lb_parts g q (con t e) t e i))]) "<" (eff_ev g q (bLB g e) i t e) (qapprox g).
  Section At.
    Variables (x : nat -> R) (e t : nat).
    Hypothesis He : (e < g_neff g)%nat.
    Hypothesis Ht : (t < g_N g)%nat.
    Hypothesis Ha : act q t e = true.
    Let P := plan_of g q x.
    Lemma qcon_two : forall a b l, qcon x (q_of [(1, a); (1, b)]) l = sqr (aval x a) + sqr (aval x b) - aval x l.
    Proof. intros a b l. unfold qcon. destruct (q_of_props [(1, a); (1, b)]) as (L & _ & _ & Wq). rewrite L, Wq, aval_const. cbn [map fst snd]. rewrite !sumR_cons. change (sumR []) with 0. unfold sqr. ring. Qed.
    Lemma ub_qcon : forall i, In i axes -> qcon x (q_of [(1, fst (ub_parts g q (con t e) t e i)); (1, snd (ub_parts g q (con t e) t e i))]) (eff_ev g q (bUB g e) i t e)
      = vget3 (upper (arm cs q P e t) (p_frc P e t)) i - vget3 (p_ub P e t) i.
    Proof.
      intros i Hi. destruct axes3 as (A0 & A1 & A2). rewrite qcon_two. destruct Hi as [<-|[<-|[<-|[]]]]; cbn [ub_parts fst snd]; unfold negadd, negsub; rewrite ?aval_add, ?aval_sub, !(v_lever g q cs stray HR), !(v_frc g q cs stray HR), !(v_ub g q cs stray HR) by auto; fold P;
      unfold upper, sqr; unfold ec; rewrite ?aval_const; cbn [vget3 vx vy vz]; ring.
    Qed.
    Lemma lb_qcon : forall i, In i axes -> qcon x (q_of [(1, fst (lb_parts g q (con t e) t e i)); (1, snd (lb_parts g q (con t e) t e i))]) (eff_ev g q (bLB g e) i t e)
      = vget3 (lower (arm cs q P e t) (p_frc P e t)) i - vget3 (p_lb P e t) i.
    Proof.
      intros i Hi. destruct axes3 as (A0 & A1 & A2). rewrite qcon_two. destruct Hi as [<-|[<-|[<-|[]]]]; cbn [lb_parts fst snd]; unfold negadd, negsub; rewrite ?aval_add, ?aval_sub, !(v_lever g q cs stray HR), !(v_frc g q cs stray HR), !(v_lb g q cs stray HR) by auto; fold P;
      unfold lower, sqr; unfold ec; rewrite ?aval_const; cbn [vget3 vx vy vz]; ring.
    Qed.
    Lemma cones_slack : g_heur g = SoftConstraint -> sumR (map (slack_cost x) (cone_calls g q (con t e) t e)) = slack_sq cs q P e t.
    Proof.
      intros Eh. unfold cone_calls, axes. cbn [map app]. rewrite !sumR_cons. change (sumR []) with 0. unfold qapprox. rewrite Eh. cbn [slack_cost String.eqb Ascii.eqb Bool.eqb].
      rewrite !ub_qcon, !lb_qcon by (unfold axes; cbn; tauto). unfold slack_sq, vdot. cbn [vsub vget3 vx vy vz]. ring.
    Qed.
  End At.
  Lemma sum_flat : forall (f : call -> R) (h : nat -> list call) n, sumR (map f (flat_map h (seq 0 n))) = rsum n (fun k => sumR (map f (h k))).
  Proof.
    intros f h n. induction n as [|n IH]; [reflexivity|]. rewrite seq_S, flat_map_app, map_app, sumR_app, IH. cbn [rsum flat_map Nat.add]. rewrite app_nil_r. reflexivity.
  Qed.
  Definition not_qua (c : call) : Prop := match c with CAddQua _ _ _ _ => False | _ => True end.
  Lemma others : forall c, In c (var_calls g q ++ [CSetObj (objective g q ini cs kin goal wtrack first) (ec 0)] ++ height_pure g q cs ++ horizon_calls g q ++ bound_calls g q ++ friction_pure g q cs stray ++ dynamics_pure g q ini cs first) -> not_qua c.
  Proof.
    rewrite !all_app. repeat match goal with |- _ /\ _ => split end.
    - intros c Hc. destruct (var_calls_vars g q HI c Hc) as (? & ? & ? & -> & _). exact I.
    - intros c [<-|[]]. exact I.
    - unfold height_pure. apply (proj2 (all_flat _ _ _)). intros t Ht c [<-|[]]. exact I.
    - unfold horizon_calls. destruct (g_fixed g && timeopt g); [|intros c []]. intros c [<-|[]]. exact I.
    - unfold bound_calls. apply (proj2 (all_flat _ _ _)). intros t Ht. apply (proj2 (all_app _ _ _)). split.
      + destruct (timeopt g); [|intros c []]. intros c [<-|[<-|[]]]; exact I.
      + apply (proj2 (all_flat _ _ _)). intros e He. destruct (act q t e); [|intros c []]. intros c Hc. cbn in Hc. repeat destruct Hc as [<-|Hc]; try exact I. destruct Hc.
    - unfold friction_pure. apply (proj2 (all_flat _ _ _)). intros t Ht. apply (proj2 (all_flat _ _ _)). intros e He c Hc.
      assert (G : In c (if act q t e then (if g_linfric g then map (lin_friction g q (con t e) t e) [0; 1; 2; 3]%nat else [soc_friction g q (con t e) t e]) else []) -> not_qua c).
      { destruct (act q t e); [|intros []]. destruct (g_linfric g); [|intros [<-|[]]; exact I]. intros Hx. apply in_map_iff in Hx. destruct Hx as (? & <- & _). exact I. }
      destruct (contact_type q cs stray t e) as [[]| |]; first [exact (G Hc)|destruct Hc].
    - unfold dynamics_pure. apply (proj2 (all_flat _ _ _)). intros t Ht.
      assert (M : forall h : nat -> call, (forall i, match h i with CAddLin _ _ _ => True | _ => False end) -> forall c, In c (map h axes) -> not_qua c).
      { intros h Hh c Hc. apply in_map_iff in Hc. destruct Hc as (i & <- & _). specialize (Hh i). now destruct (h i). }
      destruct (timeopt g); [destruct first|]; rewrite !all_app; repeat match goal with |- _ /\ _ => split end; apply M; intros; exact I.
  Qed.
  Lemma whole_slack : forall x, g_heur g = SoftConstraint -> sumR (map (slack_cost x) W) = rsum (g_N g) (fun t => eff_sum q (g_neff g) t (fun e => slack_sq cs q (plan_of g q x) e t)).
  Proof.
    intros x Eh. assert (EW : W = (var_calls g q ++ [CSetObj (objective g q ini cs kin goal wtrack first) (ec 0)] ++ height_pure g q cs ++ horizon_calls g q ++ bound_calls g q ++ friction_pure g q cs stray ++ dynamics_pure g q ini cs first) ++ quad_pure g q cs).
    { unfold whole, constraints. rewrite <- !app_assoc. reflexivity. }
    rewrite EW, map_app, sumR_app.
    assert (Z : forall l, (forall c, In c l -> not_qua c) -> sumR (map (slack_cost x) l) = 0).
    { induction l as [|c l IH]; intros H; [reflexivity|]. cbn [map]. rewrite sumR_cons, IH by (intros; apply H; now right). specialize (H c (or_introl eq_refl)). destruct c; try destruct H; cbn [slack_cost]; ring. }
    rewrite (Z _ others). rewrite Rplus_0_l. unfold quad_pure, steps, effs. rewrite sum_flat. apply rsum_ext. intros t Ht. rewrite sum_flat. unfold eff_sum. apply rsum_ext. intros e He.
    change (e_act (look q e t)) with (act q t e). destruct (act q t e) eqn:Ea; [|reflexivity]. now apply cones_slack.
  Qed.
  Lemma whole_penalised : forall w x, g_heur g = SoftConstraint -> penalised w W x = relaxed_cost g ini cs q kin goal wtrack first w (plan_of g q x).
  Proof. intros w x Eh. unfold penalised, relaxed_cost. now rewrite whole_obj, whole_slack. Qed.
  Lemma whole_no_trust : g_heur g <> TrustRegion -> no_trust_calls W.
  Proof.
    intros H qq s l Hin. apply (approx_used g q ini cs kin goal wtrack first stray HI) in Hin. destruct Hin as [Hin|Hin]; [discriminate|]. unfold qapprox in Hin. destruct (g_heur g); try discriminate. now elim H.
  Qed.
  Lemma whole_no_approx : g_heur g = TimeOptimization -> no_approx_calls W.
  Proof.
    intros H qq s l ap Hin. apply (approx_used g q ini cs kin goal wtrack first stray HI) in Hin. destruct Hin as [Hin|Hin]; [exact Hin|]. unfold qapprox in Hin. now rewrite H in Hin.
  Qed.
  (** Least cost over the values of the variables is least cost over all plans. *)
  Lemma cheapest_plan : numbered g q -> forall x, (forall c, In c W -> call_holds x c) -> (forall y, (forall c, In c W -> call_holds y c) -> user_obj W x <= user_obj W y) ->
    cheapest g ini cs q kin goal wtrack first (plan_of g q x).
  Proof.
    intros HN x Hx HO. split; [now apply (whole_holds g q ini cs kin goal wtrack first stray HR HI)|]. intros P' F'. destruct (plan_exists g q cs stray HR HN P') as (y & SP).
    rewrite <- (same_plan_cost g q ini cs _ _ SP kin goal wtrack first HV), <- !whole_obj. apply HO. apply (whole_holds g q ini cs kin goal wtrack first stray HR HI).
    eapply same_feasible_plan; [|exact F']. now apply same_plan_sym.
  Qed.
End Plan.

(** The approximated constraints are the bounds of the torque decomposition. *)
Lemma approx_cases : forall g q ini cs kin goal wtrack first stray, 0 <= g_inf g -> forall qq s l ap, In (CAddQua qq s l ap) (whole g q ini cs kin goal wtrack first stray) -> ap <> ApproxNone ->
  exists e t i, (e < g_neff g)%nat /\ (t < g_N g)%nat /\ act q t e = true /\ In i axes /\ (CAddQua qq s l ap = ub_call g q cs t e i \/ CAddQua qq s l ap = lb_call g q cs t e i).
Proof.
  intros g q ini cs kin goal wtrack first stray HI qq s l ap Hin NA.
  assert (EW : whole g q ini cs kin goal wtrack first stray = (var_calls g q ++ [CSetObj (objective g q ini cs kin goal wtrack first) (ec 0)] ++ height_pure g q cs ++ horizon_calls g q ++ bound_calls g q ++ friction_pure g q cs stray ++ dynamics_pure g q ini cs first) ++ quad_pure g q cs).
  { unfold whole, constraints. rewrite <- !app_assoc. reflexivity. }
  rewrite EW in Hin. apply in_app_or in Hin as [Hin|Hin].
  - apply (others g q ini cs kin goal wtrack first stray HI) in Hin. destruct Hin.
  - unfold quad_pure in Hin. apply in_flat_map in Hin as (t & Ht & Hin). apply in_flat_map in Hin as (e & He & Hin). apply in_steps in Ht. apply in_effs in He. destruct (act q t e) eqn:Ea; [|destruct Hin].
    exists e, t. unfold cone_calls in Hin. rewrite !in_app_iff, !in_map_iff in Hin. destruct Hin as [(i & E & Hi)|[(i & E & Hi)|[E|[]]]].
    + exists i. repeat split; auto.
    + exists i. repeat split; auto.
    + injection E as _ _ _ <-. now elim NA.
Qed.
Lemma model_same : forall env x q l, (forall t, In t (q_terms q) -> aval env (snd t) = aval x (snd t)) -> lin_model env q l x = qcon x q l.
Proof.
  intros env x q l H. unfold lin_model, qcon. assert (E : wsq env (q_terms q) + sumR (map (fun t => 2 * fst t * aval env (snd t) * (aval x (snd t) - aval env (snd t))) (q_terms q)) = wsq x (q_terms q)).
  { unfold wsq. induction (q_terms q) as [|t ts IH]; [cbn; ring|]. cbn [map]. rewrite !sumR_cons. specialize (IH (fun t Ht => H t (or_intror Ht))). rewrite (H t (or_introl eq_refl)). lra. }
  lra.
Qed.
(** At values with the same lever arms and forces the models are exact. *)
Lemma models_exact : forall g q cs stray env x e t i, ready g q cs stray -> (e < g_neff g)%nat -> (t < g_N g)%nat -> act q t e = true -> In i axes ->
  arm cs q (plan_of g q env) e t = arm cs q (plan_of g q x) e t -> p_frc (plan_of g q env) e t = p_frc (plan_of g q x) e t ->
  forall qq s l ap, CAddQua qq s l ap = ub_call g q cs t e i \/ CAddQua qq s l ap = lb_call g q cs t e i -> lin_model env qq l x = qcon x qq l.
Proof.
  intros g q cs stray env x e t i HR He Ht Ha Hi EA EF qq s l ap E. apply model_same. intros u Hu. destruct axes3 as (A0 & A1 & A2).
  assert (LV : forall c j, c = contact_on cs q e t -> In j axes -> aval env (lever g q c t e j) = aval x (lever g q c t e j)) by (intros c j -> Hj; rewrite !(v_lever g q cs stray HR) by auto; now rewrite EA).
  assert (FV : forall j, In j axes -> aval env (force g q t e j) = aval x (force g q t e j)) by (intros j Hj; rewrite !(v_frc g q cs stray HR) by auto; now rewrite EF).
  destruct E as [E|E]; injection E as -> _ _ _; destruct (q_of_props) with (ts := [(1, fst (ub_parts g q (contact_on cs q e t) t e i)); (1, snd (ub_parts g q (contact_on cs q e t) t e i))]) as (_ & _ & T1 & _);
    destruct (q_of_props) with (ts := [(1, fst (lb_parts g q (contact_on cs q e t) t e i)); (1, snd (lb_parts g q (contact_on cs q e t) t e i))]) as (_ & _ & T2 & _).
  - apply T1 in Hu. destruct Hi as [<-|[<-|[<-|[]]]]; destruct Hu as [<-|[<-|[]]]; cbn [ub_parts fst snd]; unfold negadd, negsub; rewrite ?aval_add, ?aval_sub, ?LV, ?FV by auto; unfold ec; rewrite ?aval_const; reflexivity.
  - apply T2 in Hu. destruct Hi as [<-|[<-|[<-|[]]]]; destruct Hu as [<-|[<-|[]]]; cbn [lb_parts fst snd]; unfold negadd, negsub; rewrite ?aval_add, ?aval_sub, ?LV, ?FV by auto; unfold ec; rewrite ?aval_const; reflexivity.
Qed.

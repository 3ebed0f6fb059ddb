(** * Properties C68, C69: the momentum planner minimises its cost over all plans *)
From Coq Require Import Reals List Arith ZArith Bool String Ascii Lra Lia Permutation.
Import ListNotations.
From Verif Require Import Base BaseProofs Vec3 ExprsModel ExprsProofs ConicModel ConicSpec ConicProofs ConicProofs4 ConicProofs5 ConicProofs6
  OptVarModel OptVarSpec OptVarProofs OptVarProofs2 OptVarProps CntModel CntSpec CntProofs CntProps DynModel DynSpec DynProofs DynProofs2 DynProofs3 DynProofs4 DynProps DynStoreProps KinModel KinSpec KinProofs KinProofs2 KinProofs3
  ScpModel ScpSpec ScpProofs ScpProps DynCostSpec DynCostProofs DynCostProofs2 DynCostProofs3.
From Verif Require IpModel.
Local Open Scope R_scope.

(** ** C68: an optimum of the cone programme is a cheapest plan, over all plans, and a cheapest plan is an optimum
    (time optimisation, or the warm start programme of the other heuristics). *)
Theorem C68_optimum_is_cheapest_plan : forall g q ini cs kin goal wtrack first stray thr w iter warm calls x,
  ready g q cs stray -> numbered g q -> (g_N g <= List.length kin)%nat -> weights_ok g wtrack -> 0 <= g_inf g -> (g_via g <> [] -> (0 < g_N g)%nat) -> 0 <= w ->
  warm = true \/ g_heur g = TimeOptimization -> problem_calls g q ini cs kin goal wtrack first stray = Ok calls ->
  compiled_feasible thr w iter warm calls x ->
  (forall y, compiled_feasible thr w iter warm calls y -> compiled_objective thr w iter warm calls x <= compiled_objective thr w iter warm calls y) ->
  cheapest g ini cs q kin goal wtrack first (plan_of g q x).
Proof.
  intros g q ini cs kin goal wtrack first stray thr w iter warm calls x HR HN HK HW HI HV Hw HT EC HF HO.
  rewrite (problem_is g q ini cs kin goal wtrack first stray HR HK) in EC. injection EC as <-.
  set (W := whole g q ini cs kin goal wtrack first stray) in *.
  destruct (optimum thr w iter warm W x (whole_scoped g q ini cs kin goal wtrack first stray HR HI HV) (whole_convex g q ini cs kin goal wtrack first stray HW HI) (whole_not_absurd g q ini cs kin goal wtrack first stray HR HI) Hw HF HO) as ((F1 & _) & M & _).
  destruct (whole_cols g q ini cs kin goal wtrack first stray HR HI) as (_ & BO). fold W in BO.
  set (env := p_env (run_calls W cp_init)) in *.
  assert (PEN : forall y, (if warm then 0 else sumR (map (soft_penalty env w y) W)) = 0).
  { intros y. destruct HT as [->|HT]; [reflexivity|]. destruct warm; [reflexivity|]. pose proof (whole_no_approx g q ini cs kin goal wtrack first stray HI HT) as NA. fold W in NA. clearbody env W. clear - NA.
    induction W as [|c l IH]; [reflexivity|]. cbn [map]. rewrite sumR_cons, IH by (intros ? ? ? ? H; eapply NA; right; exact H).
    destruct c as [ty lb ub gs|a1 s b1|qq s l1 ap|qq s l1|qq l1]; cbn [soft_penalty]; try ring. rewrite (NA qq s l1 ap) by now left. ring. }
  apply (cheapest_plan g q ini cs kin goal wtrack first stray HR HI HV HN x F1). intros y Hy. specialize (M y). cbv zeta in M. fold env in M. rewrite !PEN, !Rplus_0_r in M. apply M.
  split; [exact Hy|]. split; [apply BO|]. intros Ew c Hc. destruct HT as [HT|HT]; [congruence|]. pose proof (whole_no_approx g q ini cs kin goal wtrack first stray HI HT) as NA.
  destruct c as [ty lb ub gs|a1 s1 b1|qq s1 l ap|qq s1 l|qq l]; cbn [trust_holds]; auto. rewrite (NA _ _ _ _ Hc). exact I.
Qed.
(** Every feasible plan is found among the feasible points; a cheapest one among the optima. *)
Theorem C68_plans_are_points : forall g q ini cs kin goal wtrack first stray thr w iter warm calls P,
  ready g q cs stray -> numbered g q -> (g_N g <= List.length kin)%nat -> weights_ok g wtrack -> 0 <= g_inf g -> (g_via g <> [] -> (0 < g_N g)%nat) -> 0 <= w ->
  warm = true \/ g_heur g = TimeOptimization -> problem_calls g q ini cs kin goal wtrack first stray = Ok calls ->
  momentum_feasible g ini cs q first P ->
  exists x, same_plan g q (plan_of g q x) P /\ compiled_feasible thr w iter warm calls x /\
    (cheapest g ini cs q kin goal wtrack first P -> forall y, compiled_feasible thr w iter warm calls y -> compiled_objective thr w iter warm calls x <= compiled_objective thr w iter warm calls y).
Proof.
  intros g q ini cs kin goal wtrack first stray thr w iter warm calls P HR HN HK HW HI HV Hw HT EC FP.
  rewrite (problem_is g q ini cs kin goal wtrack first stray HR HK) in EC. injection EC as <-.
  set (W := whole g q ini cs kin goal wtrack first stray) in *.
  destruct (plan_exists g q cs stray HR HN P) as (x & SP).
  assert (Hx : forall c, In c W -> call_holds x c).
  { apply (whole_holds g q ini cs kin goal wtrack first stray HR HI). eapply same_feasible_plan; [|exact FP]. now apply same_plan_sym. }
  destruct (whole_cols g q ini cs kin goal wtrack first stray HR HI) as (UC & BO). fold W in UC, BO.
  assert (TR : forall y, warm = false -> forall c, In c W -> trust_holds (p_env (run_calls W cp_init)) thr iter y c).
  { intros y Ew c Hc. destruct HT as [HT|HT]; [congruence|]. pose proof (whole_no_approx g q ini cs kin goal wtrack first stray HI HT) as NA.
    destruct c as [ty lb ub gs|a1 s1 b1|qq s1 l ap|qq s1 l|qq l]; cbn [trust_holds]; auto. rewrite (NA _ _ _ _ Hc). exact I. }
  assert (AG : forall x', (forall c, In c (user_cols W) -> x' c = x c) -> same_plan g q (plan_of g q x') P).
  { intros x' A. eapply same_plan_trans; [|exact SP]. apply (agree_same g q cs stray HR). intros c Hc. apply A. rewrite UC. apply in_seq. lia. }
  assert (HSW := whole_scoped g q ini cs kin goal wtrack first stray HR HI HV). assert (HCW := whole_convex g q ini cs kin goal wtrack first stray HW HI). assert (HAW := whole_not_absurd g q ini cs kin goal wtrack first stray HR HI). fold W in HSW, HCW, HAW.
  destruct (Classical_Prop.classic (cheapest g ini cs q kin goal wtrack first P)) as [CH|CH].
  - destruct (optimum_back thr w iter warm W x HSW HCW HAW Hw) as (x' & A & F & O).
    + split; [exact Hx|]. split; [apply BO|apply TR].
    + intros y (Hy & _).
      assert (PEN : forall y, (if warm then 0 else sumR (map (soft_penalty (p_env (run_calls W cp_init)) w y) W)) = 0).
      { intros z. generalize (p_env (run_calls W cp_init)). intros env. destruct HT as [->|HT]; [reflexivity|]. destruct warm; [reflexivity|]. pose proof (whole_no_approx g q ini cs kin goal wtrack first stray HI HT) as NA. fold W in NA. clearbody W. clear - NA.
        induction W as [|c l IH]; [reflexivity|]. cbn [map]. rewrite sumR_cons, IH by (intros ? ? ? ? H; eapply NA; right; exact H).
        destruct c as [ty lb ub gs|a1 s b1|qq s l1 ap|qq s l1|qq l1]; cbn [soft_penalty]; try ring. rewrite (NA qq s l1 ap) by now left. ring. }
      cbv zeta. rewrite !PEN, !Rplus_0_r. unfold W. rewrite !(whole_obj g q ini cs kin goal wtrack first stray HR HV). rewrite (same_plan_cost g q ini cs _ _ SP kin goal wtrack first HV).
      apply CH. now apply (whole_holds g q ini cs kin goal wtrack first stray HR HI).
    + exists x'. split; [now apply AG|]. split; [exact F|]. intros _. exact O.
  - destruct (compiled_complete thr w iter warm W x HSW) as (x' & A & F & _); [exact Hx|apply BO|apply TR|]. exists x'. split; [now apply AG|]. split; [exact F|]. intros H. now elim CH.
Qed.
(** The contact plans sampled into a fresh sequence (C32) number the steps in contact one to one. *)
Theorem C68_sampled_plan_is_numbered : forall g q0 cs q, 0 < g_dt g -> (g_neff g <= n_endeffs)%nat -> (forall e, (e < n_endeffs)%nat -> ordered (cs e)) ->
  fillDynamicsSequence (g_N g) (g_dt g) cs (dyn_initialize g q0) = Ok q -> numbered g q.
Proof.
  intros g q0 cs q Hdt Hn Ho E e t t' He Ht Ht' Ha Ha' EA. set (qi := dyn_initialize g q0) in *.
  assert (LI : List.length (states qi) = g_N g) by (unfold qi, dyn_initialize; cbn [states]; rewrite map_length; unfold dresize; cbn [states]; apply repeat_length).
  assert (FI : forall e t, (t < g_N g)%nat -> look qi e t = eff_new).
  { intros e1 t1 H1. unfold look, qi, dyn_initialize. cbn [states]. rewrite (nth_indep _ dstate_new (set_time (g_dt g) dstate_new)) by (rewrite map_length; unfold dresize; cbn [states]; rewrite repeat_length; lia).
    rewrite map_nth. unfold dresize. cbn [states]. rewrite nth_repeat. reflexivity. }
  destruct (C30_sampling (g_N g) (g_dt g) cs qi) as (q1 & E1 & L & HA & _); [lia|]. rewrite E in E1. injection E1 as <-.
  assert (He' : (e < n_endeffs)%nat) by lia. set (holds := fun t => any (g_dt g) (cs e) t).
  assert (HH : forall t, holds t = true <-> exists k c, scheduled (g_dt g) (cs e) k c t).
  { intros s. unfold holds. rewrite any_iff. split.
    - intros (c' & Hc & Hx). apply In_nth_error in Hc. destruct Hc as (k' & Hk'). apply hits_iff in Hx. exists k', c'. split; easy.
    - intros (k' & c' & X1 & X2 & X3). exists c'. split; [eapply nth_error_In; eauto|]. now apply hits_iff. }
  assert (ACT : forall t, (t < g_N g)%nat -> active q e t -> holds t = true).
  { intros s Hs H. apply HH. unfold active in H. apply (HA e s He' Hs) in H. rewrite FI in H by exact Hs. cbn in H. destruct H as [H|H]; [discriminate|exact H]. }
  destruct (C31_numbering (g_N g) (g_dt g) cs qi e Hdt ltac:(lia) He' (Ho e He') holds HH) as (q2 & E2 & NUM & _). rewrite E in E2. injection E2 as <-.
  rewrite (NUM t Ht (ACT t Ht Ha)), (NUM t' Ht' (ACT t' Ht' Ha')) in EA. apply Nat2Z.inj in EA. destruct (C31_no_gap_no_repetition holds (g_N g)) as (M & _).
  destruct (Nat.lt_trichotomy t t') as [T|[T|T]]; [|exact T|].
  - pose proof (M t t' T (ACT t Ht Ha)). lia.
  - pose proof (M t' t T (ACT t' Ht' Ha')). lia.
Qed.
Print Assumptions C68_optimum_is_cheapest_plan. Print Assumptions C68_plans_are_points. Print Assumptions C68_sampled_plan_is_numbered.

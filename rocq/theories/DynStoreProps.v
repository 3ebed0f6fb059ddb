(** * Properties C35 and the stored plan of C32 *)
From Coq Require Import Reals List Arith ZArith Bool String Lia Lra Psatz FunctionalExtensionality.
Import ListNotations.
From Verif Require Import Base BaseProofs Vec3 ExprsModel ConicModel ConicSpec OptVarModel OptVarSpec CntModel CntSpec CntProofs CntProps
  DynModel DynSpec DynProofs DynProofs2 DynProofs3 DynProofs4 DynProps DynStoreSpec DynStoreProofs.
Local Open Scope R_scope.

(** C35: with one state more than the horizon, storing writes exactly the planned values, at the places listed in [stored], and nothing else. *)
Theorem C35_store : forall g q cs stray x am, ready g q cs stray -> (0 < g_N g)%nat -> (g_N g < List.length (states q))%nat ->
  exists l, storeSolution g q x am (states q) = Ok l /\ stored g q (plan_of g q x) am l.
Proof. intros g q cs stray x am HR HN HL. exact (store_ok g q cs stray x HR am HN HL). Qed.
Print Assumptions C35_store.

(** C35 is false of the planner itself: the sequence it allocates has exactly N states, storeSolution writes state N.
    Whatever the solver returns, optimize() writes outside the sequence, for every horizon of at least one step. *)
Theorem C35_out_of_range_refuted : forall g q0 ini cs kin com_motion wtrack stray solve,
  (0 < g_N g)%nat -> 0 < g_dt g -> (g_neff g <= n_endeffs)%nat -> (forall e, (e < n_endeffs)%nat -> ordered (cs e)) ->
  (exists k c, scheduled (g_dt g) (cs 0%nat) k c 0) -> (forall e t, stray t e <> None) -> (g_N g <= List.length kin)%nat ->
  optimize g ini cs kin com_motion wtrack stray solve (dyn_initialize g q0) = UB.
Proof.
  intros g q0 ini cs kin cm wtrack stray solve HN Hdt Hn Ho H0 Hs HK.
  destruct (C32_sampled_plan_is_ready g q0 cs stray Hdt Hn Ho (fun _ => H0) Hs) as (q & E & HR & _).
  assert (L : List.length (states q) = g_N g).
  { destruct (C30_sampling (g_N g) (g_dt g) cs (dyn_initialize g q0)) as (q' & E' & L & _).
    - unfold dyn_initialize. cbn [states]. rewrite map_length. unfold dresize. cbn [states]. rewrite repeat_length. lia.
    - rewrite E in E'. injection E' as <-. rewrite L. unfold dyn_initialize. cbn [states]. rewrite map_length. unfold dresize. cbn [states]. apply repeat_length. }
  unfold optimize. rewrite E. cbn [bind]. unfold internalOptimize at 1. rewrite problem_is by assumption. cbn [bind]. rewrite store_ub by assumption. reflexivity.
Qed.
Print Assumptions C35_out_of_range_refuted.
(** Also with enough states the values are shifted: state 0 receives the center of mass after the first step, not the initial one. *)
Theorem C35_shift_refuted : forall g ini cs q P am l, (0 < g_N g)%nat -> stored g q P am l -> dynamics_fixed g ini cs q P 0 ->
  vscale (step_time q 0 / g_mass g) (p_lmom P 0%nat) <> v0 ->
  d_com (nth_state l 0) = d_com (nth_state l 1) /\ d_com (nth_state l 0) <> d_com ini.
Proof.
  intros g ini cs q P am l HN S (D & _) HV. split; [now rewrite (so_com0 _ _ _ _ _ S), (so_com _ _ _ _ _ S 0%nat HN)|]. rewrite (so_com0 _ _ _ _ _ S). cbn [prev] in D. intros E. rewrite E in D. apply HV.
  destruct (d_com ini) as [a b c], (vscale _ _) as [u v w]. unfold vadd in D. cbn [vx vy vz] in D. injection D as D1 D2 D3. unfold v0. f_equal; lra.
Qed.
Print Assumptions C35_shift_refuted.

(** C32, stored plan (given durations): whatever the solver returned, the stored angular momentum is the integral of the torques of the stored contact forces. *)
Theorem C32_stored_angular_momentum : forall g q ini cs kin goal wtrack first stray solve conv0 err0,
  ready g q cs stray -> (g_N g <= List.length kin)%nat -> (0 < g_N g)%nat -> (g_N g < List.length (states q))%nat -> g_heur g <> TimeOptimization ->
  exists o, internalOptimize g ini cs kin goal wtrack stray solve first conv0 err0 q = Ok o /\
    let P := plan_of g q (po_x o) in
    stored g q P (po_am o) (states (po_seq o)) /\
    forall t, (t < g_N g)%nat ->
      d_amom (nth_state (states (po_seq o)) (S t)) = accum (d_amom ini) (fun s => vscale (step_time q s) (active_sum q (g_neff g) s (fun e => contact_torque g cs q P e s))) (S t).
Proof.
  intros g q ini cs kin goal wtrack first stray solve conv0 err0 HR HK HN HL HT. unfold internalOptimize. rewrite problem_is by assumption. cbn [bind]. set (x := solve _).
  assert (T : is_timeopt (g_heur g) = false) by (destruct (g_heur g); [reflexivity|reflexivity|now elim HT]). rewrite T.
  destruct (store_ok g q cs stray x HR (angmom g q ini cs x) HN HL) as (l & E & S). rewrite E. cbn [bind]. eexists. split; [reflexivity|]. cbn [po_x po_am po_seq states]. split; [exact S|].
  intros t Ht. rewrite (so_amom _ _ _ _ _ S t Ht). rewrite (ang_is g q cs stray x ini HR t Ht). unfold about, timeopt. rewrite T. reflexivity.
Qed.
Print Assumptions C32_stored_angular_momentum.

(** Everything in the stored sequence together: if the solver's answer is feasible, the stored center of mass and momenta obey the equations with the stored forces. *)
Theorem C32_stored_plan_obeys_dynamics : forall g q ini cs kin goal wtrack first stray solve conv0 err0 thr w iter warm o,
  ready g q cs stray -> (g_N g <= List.length kin)%nat -> (0 < g_N g)%nat -> (g_N g < List.length (states q))%nat -> g_heur g <> TimeOptimization ->
  weights_ok g wtrack -> 0 <= g_inf g -> 0 <= w ->
  (forall calls, problem_calls g q ini cs kin goal wtrack first stray = Ok calls -> compiled_feasible thr w iter warm calls (solve calls)) ->
  internalOptimize g ini cs kin goal wtrack stray solve first conv0 err0 q = Ok o ->
  let L := states (po_seq o) in
  let weight_and_forces s := vadd (vscale (g_mass g) (g_grav g)) (active_sum q (g_neff g) s (fun e => vscale (g_mg g) (e_frc (look (po_seq o) e s)))) in
  forall t, (t < g_N g)%nat ->
    d_com (nth_state L (S t)) = accum (d_com ini) (fun s => vscale (step_time q s / g_mass g) (d_lmom (nth_state L (S s)))) (S t) /\
    d_lmom (nth_state L (S t)) = accum (d_lmom ini) (fun s => vscale (step_time q s) (vadd (weight_and_forces s) (if (s =? 0)%nat then vscale (g_mg g) (g_ext g) else v0))) (S t).
Proof.
  intros g q ini cs kin goal wtrack first stray solve conv0 err0 thr w iter warm o HR HK HN HL HT HW HI Hw HF HO L wf t Ht.
  destruct (C32_stored_angular_momentum g q ini cs kin goal wtrack first stray solve conv0 err0 HR HK HN HL HT) as (o' & E' & S & _). rewrite HO in E'. injection E' as <-.
  pose proof HO as HO'. unfold internalOptimize in HO'. rewrite problem_is in HO' by assumption. cbn [bind] in HO'.
  assert (T : is_timeopt (g_heur g) = false) by (destruct (g_heur g); [reflexivity|reflexivity|now elim HT]). rewrite T in HO'.
  destruct (storeSolution g q (solve (whole g q ini cs kin goal wtrack first stray)) _ (states q)) as [l| |]; try discriminate. cbn [bind] in HO'. injection HO' as HO'.
  assert (EX : po_x o = solve (whole g q ini cs kin goal wtrack first stray)) by (rewrite <- HO'; reflexivity).
  assert (EC := problem_is g q ini cs kin goal wtrack first stray HR HK). specialize (HF _ EC). rewrite <- EX in HF.
  destruct (C32_newton_euler_integral g q ini cs kin goal wtrack first stray thr w iter warm _ (po_x o) HR HK HW HI (fun _ => HN) Hw HT EC HF t Ht) as (D1 & D2 & _).
  set (P := plan_of g q (po_x o)) in *.
  assert (AE : forall a0 f h n, (forall s, (s < n)%nat -> f s = h s) -> accum a0 f n = accum a0 h n) by (induction n; intros Hx; cbn [accum]; [reflexivity|rewrite IHn, Hx by (auto; lia); reflexivity]).
  split.
  - unfold L. rewrite (so_com _ _ _ _ _ S t Ht). etransitivity; [exact D1|]. apply AE. intros s Hs. rewrite (so_lmom _ _ _ _ _ S s) by lia. reflexivity.
  - unfold L. rewrite (so_lmom _ _ _ _ _ S t Ht). etransitivity; [exact D2|]. apply AE. intros s Hs. f_equal. f_equal. unfold net_force, wf. f_equal. apply (active_ext g). intros e He Ha. f_equal.
    unfold look. change (nth s (states (po_seq o)) dstate_new) with (nth_state (states (po_seq o)) s). rewrite (so_eff _ _ _ _ _ S e s He ltac:(lia) Ha). reflexivity.
Qed.
Print Assumptions C32_stored_plan_obeys_dynamics.

(** Time optimisation: the momenta and center of mass recomputed from the forces obey the exact equations with the planned durations... *)
Theorem C32_time_recomputed_linear : forall g q ini cs stray x, ready g q cs stray -> g_heur g = TimeOptimization -> forall t, (t < g_N g)%nat ->
  let P := plan_of g q x in
  linmom g q ini x t = accum (d_lmom ini) (fun s => vscale (p_dt P s) (net_force g q P s)) (S t) /\
  compos g q ini x t = accum (d_com ini) (fun s => vscale (p_dt P s / g_mass g) (linmom g q ini x s)) (S t).
Proof. intros g q ini cs stray x HR HT t Ht P. apply (lin_is g q cs stray x ini HR t); [unfold timeopt; now rewrite HT|exact Ht]. Qed.
Print Assumptions C32_time_recomputed_linear.

(** Storing keeps the contact pattern, so a second store of the same point describes the same plan. *)
Lemma stored_same : forall g q P am l, stored g q P am l -> forall e t, let a := look (Seq l (act_steps q)) e t in let b := look q e t in
  e_act a = e_act b /\ e_cid a = e_cid b /\ e_aid a = e_aid b /\ e_pos a = e_pos b /\ e_vel a = e_vel b /\ e_acc a = e_acc b /\ e_ori a = e_ori b.
Proof.
  intros g q P am l S e t a b. unfold a. change (look (Seq l (act_steps q)) e t) with (d_eff (nth_state l t) e).
  destruct (Nat.lt_ge_cases e (g_neff g)) as [He|He]; [|rewrite (so_eff_kept _ _ _ _ _ S e t (or_introl He)); tauto].
  destruct (Nat.lt_ge_cases t (g_N g)) as [Ht|Ht]; [|rewrite (so_eff_kept _ _ _ _ _ S e t (or_intror (or_introl Ht))); tauto].
  destruct (e_act (look q e t)) eqn:A.
  - rewrite (so_eff _ _ _ _ _ S e t He Ht A). cbn [e_act e_cid e_aid e_pos e_vel e_acc e_ori]. unfold b. tauto.
  - rewrite (so_eff_kept _ _ _ _ _ S e t); [unfold b; tauto|]. right. right. unfold active. rewrite A. discriminate.
Qed.
Lemma stored_active : forall g q P am l, stored g q P am l -> forall e t, active (Seq l (act_steps q)) e t <-> active q e t.
Proof. intros g q P am l S e t. unfold active. destruct (stored_same g q P am l S e t) as (A & _). rewrite A. tauto. Qed.
Lemma stored_ready : forall g q cs stray P am l, stored g q P am l -> ready g q cs stray -> ready g (Seq l (act_steps q)) cs stray.
Proof.
  intros g q cs stray P am l S (R1 & R2 & R3 & R4). split; [cbn [states]; now rewrite (so_len _ _ _ _ _ S)|]. split; [|split].
  - intros e t He Ht Ha. apply (stored_active _ _ _ _ _ S) in Ha. destruct (stored_same g q P am l S e t) as (_ & C & A & _). rewrite C, A. cbn [act_steps]. now apply R2.
  - intros H. destruct (stored_same g q P am l S 0%nat 0%nat) as (_ & C & _). rewrite C. now apply R3.
  - intros e t Ha. apply R4. intros H. apply Ha. now apply (stored_active _ _ _ _ _ S).
Qed.
Lemma stored_plan : forall g q P am l x, stored g q P am l -> plan_of g (Seq l (act_steps q)) x = plan_of g q x.
Proof.
  intros g q P am l x S. assert (A : forall e t, e_aid (look (Seq l (act_steps q)) e t) = e_aid (look q e t)) by (intros e t; now destruct (stored_same g q P am l S e t) as (_ & _ & A & _)).
  unfold plan_of. change (dblocks g (Seq l (act_steps q))) with (dblocks g q). f_equal; extensionality e; extensionality t; now rewrite A.
Qed.
Lemma stored_trans : forall g q P am l am' l', stored g q P am l -> stored g (Seq l (act_steps q)) P am' l' -> stored g q P am' l'.
Proof.
  intros g q P am l am' l' S S'. split; try apply S'.
  - rewrite (so_len _ _ _ _ _ S'). apply S.
  - destruct (so_first _ _ _ _ _ S') as (A & B). cbn [states] in A, B. rewrite A, B. apply S.
  - intros t H. destruct (so_time_kept _ _ _ _ _ S' t H) as (A & B & C). cbn [states] in A, B, C. rewrite A, B, C. now apply (so_time_kept _ _ _ _ _ S).
  - intros e t He Ht Ha o. rewrite (so_eff _ _ _ _ _ S' e t He Ht) by now apply (stored_active _ _ _ _ _ S). cbv zeta.
    destruct (stored_same g q P am l S e t) as (A1 & A2 & A3 & A4 & A5 & A6 & A7). rewrite A1, A2, A3, A4, A5, A6, A7. reflexivity.
  - intros e t H. rewrite (so_eff_kept _ _ _ _ _ S' e t).
    + change (look (Seq l (act_steps q)) e t) with (d_eff (nth_state l t) e). now apply (so_eff_kept _ _ _ _ _ S).
    + destruct H as [H|[H|H]]; [now left|right; now left|right; right]. now rewrite (stored_active _ _ _ _ _ S).
  - intros t H. destruct (so_beyond _ _ _ _ _ S' t H) as (A & B & C). cbn [states] in A, B, C. rewrite A, B, C. now apply (so_beyond _ _ _ _ _ S).
Qed.
(** ... and the sequence stored at convergence contains the planned values, and angular momenta integrated with the durations of the sequence BEFORE the pass
    (about the recomputed center of mass), which the pass itself overwrites with the planned ones. *)
Theorem C32_time_optimal_stored : forall g q ini cs kin goal wtrack first stray solve conv0 err0,
  ready g q cs stray -> (g_N g <= List.length kin)%nat -> (0 < g_N g)%nat -> (g_N g < List.length (states q))%nat -> g_heur g = TimeOptimization ->
  exists o, internalOptimize g ini cs kin goal wtrack stray solve first conv0 err0 q = Ok o /\
    let P := plan_of g q (po_x o) in
    po_x o = solve (whole g q ini cs kin goal wtrack first stray) /\
    stored g q P (po_am o) (states (po_seq o)) /\
    let integral t := accum (d_amom ini) (fun s => vscale (step_time q s) (active_sum q (g_neff g) s (fun e => torque_about g q cs (po_x o) (compos g q ini (po_x o) s) e s))) (S t) in
    po_err o = Rmax (mean_distance (g_N g) (p_com P) (compos g q ini (po_x o))) (Rmax (mean_distance (g_N g) (p_lmom P) (linmom g q ini (po_x o)))
                     (mean_distance (g_N g) (p_amom P) integral)) /\
    (po_err o < g_tol g -> po_conv o = true) /\
    forall t, (t < g_N g)%nat -> po_am o t = if po_conv o then integral t else p_amom P t.
Proof.
  intros g q ini cs kin goal wtrack first stray solve conv0 err0 HR HK HN HL HT. unfold internalOptimize. rewrite problem_is by assumption. cbn [bind]. set (x := solve _).
  rewrite HT. cbn [is_timeopt]. set (own := fun t => val3 g q x bAM (Z.of_nat t)). set (ang := angmom g q ini cs x).
  destruct (store_ok g q cs stray x HR own HN HL) as (l & E & S). rewrite E. cbn [bind].
  set (err := Rmax _ _). 
  assert (NE : forall a b c d, (forall t, (t < g_N g)%nat -> a t = b t) -> (forall t, (t < g_N g)%nat -> c t = d t) -> norm3 (g_N g) a c / INR (g_N g) = mean_distance (g_N g) b d).
  { intros a b c d H H'. unfold norm3, mean_distance. rewrite <- rsum_list. do 2 f_equal. apply rsum_ext. intros t Ht. rewrite H, H' by exact Ht. unfold vdot, vsub. cbn [vx vy vz]. ring. }
  set (integral t := accum (d_amom ini) (fun s => vscale (step_time q s) (active_sum q (g_neff g) s (fun e => torque_about g q cs x (compos g q ini x s) e s))) (Datatypes.S t)).
  assert (EI : forall t, (t < g_N g)%nat -> ang t = integral t) by (intros t Ht; unfold ang; rewrite (ang_is g q cs stray x ini HR t Ht); unfold about, timeopt; rewrite HT; reflexivity).
  assert (EE : err = Rmax (mean_distance (g_N g) (p_com (plan_of g q x)) (compos g q ini x)) (Rmax (mean_distance (g_N g) (p_lmom (plan_of g q x)) (linmom g q ini x))
                     (mean_distance (g_N g) (p_amom (plan_of g q x)) integral))).
  { unfold err. f_equal; [|f_equal]; apply NE; intros t Ht; try reflexivity.
    - now apply (val_com g q x t).
    - now apply (val_lm g q x t).
    - now apply (val_am g q x t).
    - now apply EI. }
  set (conv := conv0 || _ || _).
  assert (CT : err < g_tol g -> conv = true) by (intros H; unfold conv; destruct (Rlt_dec err (g_tol g)) as [Z|Z]; [now rewrite orb_true_r|contradiction]).
  destruct conv eqn:CV.
  - destruct (store_ok g (Seq l (act_steps q)) cs stray x) with (am := ang) as (l' & E' & S').
    + exact (stored_ready _ _ _ _ _ _ _ S HR).
    + exact HN.
    + cbn [states]. rewrite (so_len _ _ _ _ _ S). exact HL.
    + cbn [states] in E'. rewrite E'. cbn [bind]. eexists. split; [reflexivity|]. cbn [po_x po_am po_seq po_err po_conv states]. split; [reflexivity|]. split; [|split; [exact EE|split; [exact CT|]]].
      * rewrite (stored_plan _ _ _ _ _ _ S) in S'. exact (stored_trans _ _ _ _ _ _ _ S S').
      * exact EI.
  - eexists. split; [reflexivity|]. cbn [po_x po_am po_seq po_err po_conv states]. split; [reflexivity|]. split; [exact S|]. split; [exact EE|]. split; [intros H; now apply CT|]. intros t Ht. now apply (val_am g q x t).
Qed.
Print Assumptions C32_time_optimal_stored.

(** ** A concrete problem: one step, one flat contact under the center of mass. *)
Definition demo_g (h : heuristic) : dset :=
  DSet 1 1 1 1 1 (V3 0 0 (-1)) v0 h false (1 / 2) 0 (-5) 5 (fun _ k => match k with O => -1 | 1%nat => 1 | 2%nat => -1 | _ => 1 end) (fun _ => v0) (fun _ => 2) false (1 / 2) 3
    100 1 [] 1 (1 / 100) (1 / 1000) v0 v0 v0 v0 v0 v0 v0 v0 v0 v0 v0 v0 0 0 0 0.
Definition demo_c : contact := Cnt 0 10 v0 qone FlatContact true 0 0.
Definition demo_cs : nat -> list contact := fun _ => [demo_c].
Definition demo_eff : effst := Eff true 0 0 v0 v0 v0 qone v0 v0 v0 v0.
Definition demo_q : dseq := Seq [Dyn 1 v0 v0 v0 v0 v0 (fun e => match e with O => demo_eff | _ => eff_new end); dstate_new] (fun e => match e with O => 1%Z | _ => 0%Z end).
Definition demo_ini : dstate := Dyn 1 (V3 0 0 1) v0 v0 v0 v0 (fun _ => eff_new).
Definition no_stray : nat -> nat -> option ctype := fun _ _ => Some FreeContact.
Lemma demo_ready : forall h, ready (demo_g h) demo_q demo_cs no_stray.
Proof.
  intros h. split; [cbn; lia|]. split; [|split].
  - intros e t He Ht _. cbn in He, Ht. assert (e = 0%nat) by lia. assert (t = 0%nat) by lia. subst. cbn. lia.
  - cbn. lia.
  - intros e t _. discriminate.
Qed.
Lemma demo_weights : forall h, weights_ok (demo_g h) v0.
Proof. intros h. unfold weights_ok, nonneg3. cbn. repeat split; lra. Qed.
(** Standing still; lb = ub = (2,2,0). *)
Definition demo_x : nat -> R := fun c => nth c [0;0;1; 0;0;0; 0;0;0; 2;2;0; 2;2;0; 0;0;1; 0;0; 0] 0.
Definition demo_P := plan_of (demo_g SoftConstraint) demo_q demo_x.
Lemma demo_values : p_com demo_P 0 = V3 0 0 1 /\ p_lmom demo_P 0 = v0 /\ p_amom demo_P 0 = v0 /\ p_lb demo_P 0 0 = V3 2 2 0 /\ p_ub demo_P 0 0 = V3 2 2 0 /\
  p_frc demo_P 0 0 = V3 0 0 1 /\ p_copx demo_P 0 0 = 0 /\ p_copy demo_P 0 0 = 0 /\ p_trq demo_P 0 0 = 0.
Proof. repeat split; reflexivity. Qed.
Example C32_demo_feasible : momentum_feasible (demo_g SoftConstraint) demo_ini demo_cs demo_q true demo_P.
Proof.
  destruct demo_values as (E1 & E2 & E3 & E4 & E5 & E6 & E7 & E8 & E9).
  split.
  - intros t Ht. cbn in Ht. assert (t = 0%nat) by lia. subst. rewrite E1. cbn. lra.
  - intros t Ht. cbn in Ht. assert (t = 0%nat) by lia. subst. cbn [demo_g g_heur]. unfold dynamics_fixed, net_force, net_torque, torque_used, prev. cbn [g_neff demo_g active_sum].
    change (e_act (look demo_q 0 0)) with true. cbv iota. rewrite E1, E2, E3, E4, E5, E6, E9. unfold vadd, vscale, vsub, v0. cbn. split; [|split]; f_equal; field.
  - intros H. discriminate.
  - intros e t He Ht _. cbn in He, Ht. assert (e = 0%nat) by lia. assert (t = 0%nat) by lia. subst. split; unfold arm; rewrite ?E1, ?E4, ?E5, ?E6, ?E7, ?E8, ?E9; unfold upper, lower, sqr, vle, vadd, vscale, vsub; cbn; try lra.
    + intros _. unfold coulomb, vdot, sqr. cbn. match goal with |- sqrt ?a <= _ => replace a with 0 by ring end. rewrite sqrt_0. lra.
    + unfold vdot. cbn. lra.
Qed.
(** Such a point is feasible for the solver (up to its own auxiliary columns), so the hypotheses of the theorems above are met. *)
Example C32_demo_solvable : forall kin, (1 <= List.length kin)%nat -> exists calls x', problem_calls (demo_g SoftConstraint) demo_q demo_ini demo_cs kin v0 v0 true no_stray = Ok calls /\
  (forall c, (c < nvars (demo_g SoftConstraint) demo_q)%nat -> x' c = demo_x c) /\ compiled_feasible 1 1 0 true calls x'.
Proof.
  intros kin HK. destruct (C32_problem_is_momentum_planning (demo_g SoftConstraint) demo_q demo_ini demo_cs kin v0 v0 true no_stray 1 1 0 true) as (calls & E & _ & S).
  - apply demo_ready.
  - exact HK.
  - apply demo_weights.
  - cbn. lra.
  - intros H. now elim H.
  - lra.
  - destruct (S ltac:(right; discriminate) demo_x C32_demo_feasible) as (x' & A & B). exists calls, x'. now split.
Qed.

(** Time optimisation, refuted: the angular momentum stored on convergence was integrated with the durations of the previous pass, not with
    the stored ones.  One step in contact with normal torque 1 and no net force; the sequence had duration 1, the plan has duration 2:
    the pass reports convergence with error 0, stores duration 2 and angular momentum 1 although the stored torque acts for 2. *)
Definition time_x : nat -> R := fun c => nth c [0;0;1; 0;0;0; 0;0;1; 2; 0;0;0; 0;0;1; 2;2;0; 2;2;0; 0;0;1; 0;0; 1] 0.
Definition time_P := plan_of (demo_g TimeOptimization) demo_q time_x.
Lemma time_values : p_com time_P 0 = V3 0 0 1 /\ p_lmom time_P 0 = v0 /\ p_amom time_P 0 = V3 0 0 1 /\ p_dt time_P 0 = 2 /\ p_lmomd time_P 0 = v0 /\ p_amomd time_P 0 = V3 0 0 1 /\
  p_lb time_P 0 0 = V3 2 2 0 /\ p_ub time_P 0 0 = V3 2 2 0 /\ p_frc time_P 0 0 = V3 0 0 1 /\ p_copx time_P 0 0 = 0 /\ p_copy time_P 0 0 = 0 /\ p_trq time_P 0 0 = 1.
Proof. repeat split; reflexivity. Qed.
Lemma time_feasible : momentum_feasible (demo_g TimeOptimization) demo_ini demo_cs demo_q true time_P.
Proof.
  destruct time_values as (E1 & E2 & E3 & E4 & E5 & E6 & E7 & E8 & E9 & E10 & E11 & E12).
  split.
  - intros t Ht. cbn in Ht. assert (t = 0%nat) by lia. subst. rewrite E1. cbn. lra.
  - intros t Ht. cbn in Ht. assert (t = 0%nat) by lia. subst. cbn [demo_g g_heur]. unfold dynamics_time, net_force, net_torque, torque_used, prev. cbn [g_neff demo_g active_sum].
    change (e_act (look demo_q 0 0)) with true. cbv iota. rewrite E1, E2, E3, E5, E6, E7, E8, E9, E12. unfold vadd, vscale, vsub, v0. cbn. split; [|split; [|split; [|split]]]; f_equal; field.
  - intros _. split; [intros t Ht; cbn in Ht; assert (t = 0%nat) by lia; subst; rewrite E4; cbn; lra|]. discriminate.
  - intros e t He Ht _. cbn in He, Ht. assert (e = 0%nat) by lia. assert (t = 0%nat) by lia. subst. split; unfold arm; rewrite ?E1, ?E7, ?E8, ?E9, ?E10, ?E11, ?E12; unfold upper, lower, sqr, vle, vadd, vscale, vsub; cbn; try lra.
    + intros _. unfold coulomb, vdot, sqr. cbn. match goal with |- sqrt ?a <= _ => replace a with 0 by ring end. rewrite sqrt_0. lra.
    + unfold vdot. cbn. lra.
Qed.
Theorem C32_time_optimal_angular_momentum_refuted : exists g q ini cs stray x,
  ready g q cs stray /\ (g_N g < List.length (states q))%nat /\ momentum_feasible g ini cs q true (plan_of g q x) /\
  forall kin goal wtrack, (g_N g <= List.length kin)%nat ->
  exists o, internalOptimize g ini cs kin goal wtrack stray (fun _ => x) true false 0 q = Ok o /\ po_conv o = true /\ po_err o = 0 /\
    let L := states (po_seq o) in
    d_amom (nth_state L 1) <> vadd (d_amom ini) (vscale (d_time (nth_state L 0)) (active_sum q (g_neff g) 0 (fun e => contact_torque g cs q (plan_of g q x) e 0))).
Proof.
  remember (demo_g TimeOptimization) as g eqn:Eg.
  exists g, demo_q, demo_ini, demo_cs, no_stray, time_x.
  assert (HR : ready g demo_q demo_cs no_stray) by (rewrite Eg; apply demo_ready). split; [exact HR|]. split; [rewrite Eg; cbn; lia|]. split; [rewrite Eg; exact time_feasible|].
  intros kin goal wtrack HK.
  destruct (C32_time_optimal_stored g demo_q demo_ini demo_cs kin goal wtrack true no_stray (fun _ => time_x) false 0 HR HK) as (o & E & X & S & Err & Cv & Am); [rewrite Eg; cbn; lia|rewrite Eg; cbn; lia|rewrite Eg; reflexivity|].
  exists o. split; [exact E|]. rewrite X in *. 
  destruct time_values as (E1 & E2 & E3 & E4 & E5 & E6 & E7 & E8 & E9 & E10 & E11 & E12).
  assert (HN : (0 < g_N g)%nat) by (rewrite Eg; cbn; lia). assert (N1 : g_N g = 1%nat) by (rewrite Eg; reflexivity). assert (T1 : timeopt g = true) by (rewrite Eg; reflexivity). assert (F1 : g_neff g = 1%nat) by (rewrite Eg; reflexivity).
  destruct (lin_is g demo_q demo_cs no_stray time_x demo_ini HR 0%nat T1 HN) as (L1 & L2).
  pose proof (ang_is g demo_q demo_cs no_stray time_x demo_ini HR 0%nat HN) as A1.
  assert (PP : plan_of g demo_q time_x = time_P) by (rewrite Eg; reflexivity).
  assert (LV : linmom g demo_q demo_ini time_x 0 = v0).
  { rewrite L1. cbn [accum]. rewrite PP, E4. unfold net_force. rewrite F1. cbn [active_sum]. change (e_act (look demo_q 0 0)) with true. cbv iota. rewrite E9, Eg. unfold vadd, vscale, v0. cbn. f_equal; ring. }
  assert (CV : compos g demo_q demo_ini time_x 0 = V3 0 0 1).
  { rewrite L2. cbn [accum]. rewrite LV. unfold vadd, vscale, v0. cbn. f_equal; ring. }
  assert (AV : angmom g demo_q demo_ini demo_cs time_x 0 = V3 0 0 1).
  { rewrite A1. cbn [accum]. rewrite F1. cbn [active_sum]. change (e_act (look demo_q 0 0)) with true. cbv iota. unfold torque_about, about. rewrite T1. 
    rewrite PP, CV, E9, E10, E11, E12, Eg. unfold vadd, vscale, v0, vsub, vcross. cbn. f_equal; ring. }
  assert (NZ : forall a b : nat -> vec3, a 0%nat = b 0%nat -> mean_distance (g_N g) a b = 0).
  { intros a b H. unfold mean_distance. rewrite N1. cbn [seq map fold_right INR]. rewrite H. destruct (b 0%nat) as [u v w]. cbn [vx vy vz]. match goal with |- sqrt ?e / 1 = 0 => replace e with 0 by ring end. rewrite sqrt_0. field. }
  cbv zeta in Err, Am. rewrite PP in *. unfold about in A1. rewrite T1 in A1. rewrite AV in A1.
  rewrite !NZ in Err by (rewrite ?LV, ?CV, ?E1, ?E2, ?E3; try reflexivity; exact A1). rewrite !(Rmax_left 0 0) in Err by lra.
  assert (Ct : po_conv o = true) by (apply Cv; rewrite Err, Eg; cbn; lra). split; [exact Ct|]. split; [exact Err|]. cbv zeta.
  rewrite (so_amom _ _ _ _ _ S 0%nat HN), (Am 0%nat HN), Ct, <- A1.
  assert (HT : g_heur g = TimeOptimization) by (rewrite Eg; reflexivity). destruct (so_time _ _ _ _ _ S HT 0%nat HN) as (D & _). rewrite D, E4, F1.
  cbn [active_sum]. change (e_act (look demo_q 0 0)) with true. cbv iota. unfold contact_torque, arm. rewrite E1, E9, E10, E11, E12. unfold vadd, vscale, v0, vsub, vcross. cbn. intros H. injection H as H1 H2 H3. lra.
Qed.
Print Assumptions C32_time_optimal_angular_momentum_refuted.

(** ** Swing phases read outside the contact list *)
Lemma vget_not_throw : forall A (l : list A) i, vget l i <> Throw.
Proof. intros A l i. unfold vget. destruct (0 <=? i)%Z; [|discriminate]. destruct (nth_error l (Z.to_nat i)); discriminate. Qed.
Lemma flatM_not_throw : forall A B (f : A -> res (list B)) l, (forall a, In a l -> f a <> Throw) -> flatM f l <> Throw.
Proof.
  intros A B f l. unfold flatM. generalize (@nil B). induction l; intros acc H; cbn [foldM]; [discriminate|].
  pose proof (H a (or_introl eq_refl)) as Ha. destruct (f a); cbn [bind]; [|congruence|discriminate]. apply IHl. intros b Hb. apply H. now right.
Qed.
Lemma flatM_ub : forall A B (f : A -> res (list B)) l, (forall a, In a l -> f a <> Throw) -> (exists a, In a l /\ f a = UB) -> flatM f l = UB.
Proof.
  intros A B f l. unfold flatM. generalize (@nil B). induction l; intros acc H (b & Hb & E); [contradiction|]. cbn [foldM].
  destruct Hb as [<-|Hb]; [rewrite E; reflexivity|]. pose proof (H a (or_introl eq_refl)) as Ha. destruct (f a); cbn [bind]; [|congruence|reflexivity].
  apply IHl; [intros c Hc; apply H; now right|]. now exists b.
Qed.
Lemma contact_at_not_throw : forall q cs t e, contact_at q cs t e <> Throw.
Proof. intros. apply vget_not_throw. Qed.
Theorem C32_swing_phase_refuted : forall g q0 ini cs kin goal wtrack first e t,
  (e < g_neff g)%nat -> (g_neff g <= n_endeffs)%nat -> (t < g_N g)%nat -> (forall k c, ~ scheduled (g_dt g) (cs e) k c t) ->
  exists q, fillDynamicsSequence (g_N g) (g_dt g) cs (dyn_initialize g q0) = Ok q /\ ~ active q e t /\ problem_calls g q ini cs kin goal wtrack first (fun _ _ => None) = UB.
Proof.
  intros g q0 ini cs kin goal wtrack first e t He Hn Ht Hs.
  destruct (C30_sampling (g_N g) (g_dt g) cs (dyn_initialize g q0)) as (q & E & L & HA & _ & HN & _).
  { unfold dyn_initialize. cbn [states]. rewrite map_length. unfold dresize. cbn [states]. rewrite repeat_length. lia. }
  assert (K : look q e t = eff_new).
  { rewrite HN by now left. unfold look, dyn_initialize. cbn [states]. unfold dresize. cbn [states]. rewrite (nth_indep _ dstate_new (set_time (g_dt g) dstate_new)).
    - rewrite map_nth. cbn [set_time d_eff]. rewrite nth_repeat. reflexivity.
    - rewrite map_length, repeat_length. lia. }
  exists q. split; [exact E|]. split; [unfold active; rewrite K; discriminate|].
  unfold problem_calls, setup_calls. destruct (_ || _)%bool; [reflexivity|].
  assert (S : soft_terms g q cs first <> Throw).
  { unfold soft_terms. destruct (_ && _)%bool; [|intros Z; discriminate Z]. apply flatM_not_throw. intros t' _. apply flatM_not_throw. intros e' _. destruct (act q t' e'); [|intros Z; discriminate Z]. pose proof (contact_at_not_throw q cs t' e') as C. now destruct (contact_at q cs t' e'). }
  assert (Hh : height_calls g q cs <> Throw).
  { unfold height_calls. apply flatM_not_throw. intros t' _. pose proof (contact_at_not_throw q cs 0 0) as C. now destruct (contact_at q cs 0 0). }
  destruct (soft_terms g q cs first); [|congruence|reflexivity]. cbn [bind]. destruct (height_calls g q cs); [|congruence|reflexivity]. cbn [bind].
  assert (F : friction_calls g q cs (fun _ _ => None) = UB).
  { assert (X : forall t' e', bind (contact_type q cs (fun _ _ => None) t' e') (fun ty => match ty with
      | FullContact => Ok []
      | _ => if act q t' e' then bind (contact_at q cs t' e') (fun c =>
               Ok (if g_linfric g then map (lin_friction g q c t' e') [0; 1; 2; 3]%nat else [soc_friction g q c t' e'])) else Ok [] end) <> Throw).
    { intros t' e'. unfold contact_type. pose proof (contact_at_not_throw q cs t' e') as C. destruct (contact_at q cs t' e') as [c| |]; [|congruence|discriminate]. cbn [bind]. destruct (c_type c); try discriminate; destruct (act q t' e'); discriminate. }
    unfold friction_calls. apply flatM_ub; [intros t' _; apply flatM_not_throw; intros e' _; apply X|]. exists t. split; [unfold steps; apply in_seq; lia|].
    apply flatM_ub; [intros e' _; apply X|]. exists e. split; [unfold effs; apply in_seq; lia|]. unfold contact_type, contact_at. change (d_eff (st q t) e) with (look q e t). rewrite K. reflexivity. }
  rewrite F. reflexivity.
Qed.
Print Assumptions C32_swing_phase_refuted.

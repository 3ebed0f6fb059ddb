(** * Properties C32, C33, C34, C45: the momentum planning problem
    (storing the result: DynStoreProps.v) *)
From Coq Require Import Reals List Arith ZArith Bool String Lia Lra Psatz.
Import ListNotations.
From Verif Require Import Base Vec3 ExprsModel ConicModel ConicSpec ConicProofs5 OptVarModel OptVarSpec OptVarProofs OptVarProofs2 OptVarProps CntModel CntSpec CntProofs CntProps
  DynModel DynSpec DynProofs DynProofs2 DynProofs3 DynProofs4.
Local Open Scope R_scope.

(** The approximation type asked for by a quadratic constraint of the problem. *)
Lemma approx_used : forall g q ini cs kin goal wtrack first stray, 0 <= g_inf g -> forall c, In c (whole g q ini cs kin goal wtrack first stray) ->
  match c with CAddQua _ _ _ ap => ap = ApproxNone \/ ap = qapprox g | _ => True end.
Proof.
  intros g q ini cs kin goal wtrack first stray HI. unfold whole. rewrite all_app, all_cons. split; [|split; [exact I|]].
  { intros c Hc. destruct (var_calls_vars g q HI c Hc) as (? & ? & ? & -> & _). exact I. }
  unfold constraints. rewrite !all_app. repeat match goal with |- _ /\ _ => split end.
  - unfold height_pure. apply (proj2 (all_flat _ _ _)). intros t Ht c [<-|[]]. exact I.
  - unfold horizon_calls. destruct (g_fixed g && timeopt g); [|intros c []]. intros c [<-|[]]. exact I.
  - unfold bound_calls. apply (proj2 (all_flat _ _ _)). intros t Ht. apply (proj2 (all_app _ _ _)). split.
    + destruct (timeopt g); [|intros c []]. intros c [<-|[<-|[]]]; exact I.
    + apply (proj2 (all_flat _ _ _)). intros e He. destruct (act q t e); [|intros c []]. intros c Hc. cbn in Hc. repeat destruct Hc as [<-|Hc]; try exact I. destruct Hc.
  - unfold friction_pure. apply (proj2 (all_flat _ _ _)). intros t Ht. apply (proj2 (all_flat _ _ _)). intros e He c Hc.
    assert (G : In c (if act q t e then (if g_linfric g then map (lin_friction g q (contact_on cs q e t) t e) [0; 1; 2; 3]%nat else [soc_friction g q (contact_on cs q e t) t e]) else []) ->
       match c with CAddQua _ _ _ ap => ap = ApproxNone \/ ap = qapprox g | _ => True end).
    { destruct (act q t e); [|intros []]. destruct (g_linfric g); [|intros [<-|[]]; exact I]. intros Hx. apply in_map_iff in Hx. destruct Hx as (? & <- & _). exact I. }
    destruct (contact_type q cs stray t e) as [[]| |]; first [exact (G Hc)|destruct Hc].
  - unfold dynamics_pure. apply (proj2 (all_flat _ _ _)). intros t Ht.
    assert (M : forall h : nat -> call, (forall i, match h i with CAddLin _ _ _ => True | _ => False end) -> forall c, In c (map h axes) -> match c with CAddQua _ _ _ ap => ap = ApproxNone \/ ap = qapprox g | _ => True end).
    { intros h Hh c Hc. apply in_map_iff in Hc. destruct Hc as (i & <- & _). specialize (Hh i). now destruct (h i). }
    destruct (timeopt g); [destruct first|]; rewrite !all_app; repeat match goal with |- _ /\ _ => split end; apply M; intros; exact I.
  - unfold quad_pure. apply (proj2 (all_flat _ _ _)). intros t Ht. apply (proj2 (all_flat _ _ _)). intros e He. destruct (act q t e); [|intros c []].
    unfold cone_calls. rewrite !all_app. split; [|split]; intros c Hc.
    + apply in_map_iff in Hc. destruct Hc as (? & <- & _). now right.
    + apply in_map_iff in Hc. destruct Hc as (? & <- & _). now right.
    + destruct Hc as [<-|[]]. now left.
Qed.

(** ** C32: the problem handed to the solver is exactly the mechanical problem.
    Every point feasible for the compiled cone programme is a plan obeying the discretised Newton-Euler equations and all contact
    constraints; conversely every such plan is the first [nvars] columns of a feasible point (trust region passes: of the warm start problem). *)
Theorem C32_problem_is_momentum_planning : forall g q ini cs kin goal wtrack first stray thr w iter warm,
  ready g q cs stray -> (g_N g <= List.length kin)%nat -> weights_ok g wtrack -> 0 <= g_inf g -> (g_via g <> [] -> (0 < g_N g)%nat) -> 0 <= w ->
  exists calls, problem_calls g q ini cs kin goal wtrack first stray = Ok calls /\
   (forall x, compiled_feasible thr w iter warm calls x -> momentum_feasible g ini cs q first (plan_of g q x)) /\
   (warm = true \/ g_heur g <> TrustRegion -> forall x, momentum_feasible g ini cs q first (plan_of g q x) ->
      exists x', (forall c, (c < nvars g q)%nat -> x' c = x c) /\ compiled_feasible thr w iter warm calls x').
Proof.
  intros g q ini cs kin goal wtrack first stray thr w iter warm HR HK HW HI HV Hw.
  exists (whole g q ini cs kin goal wtrack first stray). split; [now apply problem_is|]. split.
  - intros x HF. apply (whole_holds g q ini cs kin goal wtrack first stray HR HI).
    destruct (compiled_sound thr w iter warm _ x (whole_scoped g q ini cs kin goal wtrack first stray HR HI HV)
      (whole_convex g q ini cs kin goal wtrack first stray HW HI) (whole_not_absurd g q ini cs kin goal wtrack first stray HR HI) Hw HF) as (H & _). exact H.
  - intros HT x HF. destruct (whole_cols g q ini cs kin goal wtrack first stray HR HI) as (UC & BO).
    destruct (compiled_complete thr w iter warm (whole g q ini cs kin goal wtrack first stray) x (whole_scoped g q ini cs kin goal wtrack first stray HR HI HV)) as (x' & A & F & _).
    + now apply (whole_holds g q ini cs kin goal wtrack first stray HR HI).
    + apply BO.
    + intros Ew c Hc. destruct HT as [HT|HT]; [congruence|].
      apply (approx_used g q ini cs kin goal wtrack first stray HI) in Hc.
      destruct c as [ty lb ub gs|a s b|qq s l ap|qq s l|qq l]; try exact I. destruct ap; try exact I. exfalso. unfold qapprox in Hc. destruct Hc as [Hc|Hc]; [discriminate|].
      destruct (g_heur g); [now apply HT|discriminate|discriminate].
    + exists x'. split; [|exact F]. intros c Hc. apply A. rewrite UC. apply in_seq. lia.
Qed.
Print Assumptions C32_problem_is_momentum_planning.

(** Integral form for given durations: momentum is the initial momentum plus the impulses, the center of mass the initial one plus the displacements. *)
Lemma accum_step : forall a0 f (a : nat -> vec3) n, (forall t, (t < n)%nat -> a t = vadd (prev a a0 t) (f t)) -> forall t, (t < n)%nat -> a t = accum a0 f (S t).
Proof.
  intros a0 f a n H. induction t; intros Ht; rewrite (H _ Ht); [reflexivity|]. cbn [prev]. rewrite IHt by lia. reflexivity.
Qed.
Theorem C32_newton_euler_integral : forall g q ini cs kin goal wtrack first stray thr w iter warm calls x,
  ready g q cs stray -> (g_N g <= List.length kin)%nat -> weights_ok g wtrack -> 0 <= g_inf g -> (g_via g <> [] -> (0 < g_N g)%nat) -> 0 <= w -> g_heur g <> TimeOptimization ->
  problem_calls g q ini cs kin goal wtrack first stray = Ok calls -> compiled_feasible thr w iter warm calls x ->
  let P := plan_of g q x in forall t, (t < g_N g)%nat ->
    p_com P t = accum (d_com ini) (fun s => vscale (step_time q s / g_mass g) (p_lmom P s)) (S t) /\
    p_lmom P t = accum (d_lmom ini) (fun s => vscale (step_time q s) (vadd (net_force g q P s) (if (s =? 0)%nat then vscale (g_mg g) (g_ext g) else v0))) (S t) /\
    p_amom P t = accum (d_amom ini) (fun s => vscale (step_time q s) (net_torque g cs q P s)) (S t).
Proof.
  intros g q ini cs kin goal wtrack first stray thr w iter warm calls x HR HK HW HI HV Hw HT EC HF P.
  destruct (C32_problem_is_momentum_planning g q ini cs kin goal wtrack first stray thr w iter warm HR HK HW HI HV Hw) as (calls' & E & S1 & _). rewrite EC in E. injection E as <-.
  destruct (S1 x HF) as [_ D _ _]. fold P in D.
  assert (D' : forall t, (t < g_N g)%nat -> dynamics_fixed g ini cs q P t). { intros t Ht. specialize (D t Ht). destruct (g_heur g); try exact D. now elim HT. }
  intros t Ht. split; [|split]; (apply accum_step with (n := g_N g); [|exact Ht]); intros s Hs; apply (D' s Hs).
Qed.
Print Assumptions C32_newton_euler_integral.

(** The planner keeps the solver's variable of block entry i in vars_[i]; as blocks are added in the order they were numbered, that is column i. *)
Theorem C32_vars_are_columns : forall g q p0, 0 <= g_inf g ->
  exists p vars, (let '(ovs, nv) := init_blocks (dblocks g q) 0 in add_all false ovs nv (seq 0 (List.length (dblocks g q))) p0) = Ok (p, vars) /\
  forall i, (i < nvars g q)%nat -> nth_error vars i = Some (Some i).
Proof.
  intros g q p0 HI. destruct (added_variables false (dblocks g q) (seq 0 (List.length (dblocks g q))) p0) as (p & vars & E & H).
  - reflexivity.
  - apply (C08_dynamics_planner false (g_inf g) (g_N g) (timeopt g) (act_counts g q) HI).
  - exists p, vars. split; [exact E|]. intros i Hi. destruct (block_start_cover (dblocks g q) i Hi) as (k & b & j & Ek & Hj & ->).
    destruct (cell_range b j Hj) as (A & B & C). destruct (H k b _ _ Ek A B) as (v & _ & _ & _ & _ & _ & V).
    rewrite colseq in V by first [exact g|exact q|apply nth_error_Some; rewrite Ek; discriminate]. rewrite (nth_error_nth _ _ _ Ek) in V. rewrite C in V. exact V.
Qed.
Print Assumptions C32_vars_are_columns.

(** Sampling a well formed contact plan into a fresh sequence makes it ready: contacts listed in time order, the first end-effector in contact at the first step. *)
Theorem C32_sampled_plan_is_ready : forall g q0 cs stray, 0 < g_dt g -> (g_neff g <= n_endeffs)%nat -> (forall e, (e < n_endeffs)%nat -> ordered (cs e)) ->
  ((0 < g_N g)%nat -> exists k c, scheduled (g_dt g) (cs 0%nat) k c 0) -> (forall e t, stray t e <> None) ->
  exists q, fillDynamicsSequence (g_N g) (g_dt g) cs (dyn_initialize g q0) = Ok q /\ ready g q cs stray /\
    (forall t, (t < g_N g)%nat -> step_time q t = g_dt g) /\
    (forall e t, (e < g_neff g)%nat -> (t < g_N g)%nat -> (active q e t <-> exists k c, scheduled (g_dt g) (cs e) k c t) /\
       forall k c, scheduled (g_dt g) (cs e) k c t -> contact_on cs q e t = c).
Proof.
  intros g q0 cs stray Hdt Hn Ho H0 Hs. set (qi := dyn_initialize g q0).
  assert (LI : List.length (states qi) = g_N g) by (unfold qi, dyn_initialize; cbn [states]; rewrite map_length; unfold dresize; cbn [states]; apply repeat_length).
  destruct (C30_sampling (g_N g) (g_dt g) cs qi) as (q & E & L & HA & HC & HN & HT & _); [lia|]. exists q.
  assert (NI : forall e t : nat, (t < g_N g)%nat -> nth t (states qi) dstate_new = set_time (g_dt g) dstate_new).
  { intros e t Ht. unfold qi, dyn_initialize. cbn [states]. rewrite (nth_indep _ dstate_new (set_time (g_dt g) dstate_new)) by (rewrite map_length; unfold dresize; cbn [states]; rewrite repeat_length; lia).
    rewrite map_nth. f_equal. unfold dresize. cbn [states]. rewrite nth_repeat. reflexivity. }
  assert (FI : forall e t, (t < g_N g)%nat -> look qi e t = eff_new). { intros e t Ht. unfold look. rewrite (NI e t Ht). reflexivity. }
  assert (ACT : forall e t, (e < n_endeffs)%nat -> (t < g_N g)%nat -> e_act (look q e t) = true <-> exists k c, scheduled (g_dt g) (cs e) k c t).
  { intros e t He Ht. rewrite (HA e t He Ht), FI by exact Ht. cbn. split; [intros [X|X]; [discriminate|exact X]|now right]. }
  assert (CON : forall e t k c, (e < n_endeffs)%nat -> (t < g_N g)%nat -> scheduled (g_dt g) (cs e) k c t -> e_cid (look q e t) = Z.of_nat k /\ nth_error (cs e) k = Some c).
  { intros e t k c He Ht Hk. split; [|apply Hk]. apply (HC e t k c He Ht Hk). intros k' c' L' Hk'. pose proof (ordered_exclusive (g_dt g) (cs e) (g_N g) (Ho e He) k k' c c' t Ht Hk Hk'). lia. }
  split; [exact E|]. split; [|split].
  - split; [rewrite L, LI; lia|]. split; [|split; [|intros; apply Hs]].
    + intros e t He Ht Ha. assert (He' : (e < n_endeffs)%nat) by lia. apply (ACT e t He' Ht) in Ha. destruct Ha as (k & c & Hk). destruct (CON e t k c He' Ht Hk) as (EC & EN).
      assert (Hl : (k < List.length (cs e))%nat) by (apply nth_error_Some; rewrite EN; discriminate).
      set (holds := fun t => any (g_dt g) (cs e) t).
      assert (HH : forall t, holds t = true <-> exists k c, scheduled (g_dt g) (cs e) k c t).
      { intros s. unfold holds. rewrite any_iff. split.
        - intros (c' & Hc & Hx). apply In_nth_error in Hc. destruct Hc as (k' & Hk'). apply hits_iff in Hx. exists k', c'. split; easy.
        - intros (k' & c' & X1 & X2 & X3). exists c'. split; [eapply nth_error_In; eauto|]. now apply hits_iff. }
      destruct (C31_numbering (g_N g) (g_dt g) cs qi e Hdt ltac:(lia) He' (Ho e He') holds HH) as (q2 & E2 & NUM & TOT). rewrite E in E2. injection E2 as <-.
      assert (Ht' : holds t = true) by (apply HH; eauto). rewrite (NUM t Ht Ht'), TOT, EC.
      pose proof (proj1 (C31_no_gap_no_repetition holds (g_N g)) t (g_N g) Ht Ht'). lia.
    + intros HP. destruct (H0 HP) as (k & c & Hk). destruct (CON 0%nat 0%nat k c ltac:(unfold n_endeffs; lia) HP Hk) as (EC & EN). rewrite EC.
      assert (Hl : (k < List.length (cs 0%nat))%nat) by (apply nth_error_Some; rewrite EN; discriminate). lia.
  - intros t Ht. unfold step_time. rewrite (proj1 (HT t)), (NI 0%nat t Ht). reflexivity.
  - intros e t He Ht. split; [apply ACT; [lia|exact Ht]|]. intros k c Hk. destruct (CON e t k c ltac:(lia) Ht Hk) as (EC & EN). unfold contact_on. rewrite EC, Nat2Z.id. now apply nth_error_nth.
Qed.
Print Assumptions C32_sampled_plan_is_ready.

(** ** C33: the convex decomposition of the torque *)
Lemma veq3 : forall a b : vec3, vx a = vx b -> vy a = vy b -> vz a = vz b -> a = b. Proof. intros [] []; cbn; intros; subst; reflexivity. Qed.
Theorem C33_decomposition : forall l f, vscale 4 (vcross l f) = vsub (upper l f) (lower l f).
Proof. intros [a b c] [u v w]. unfold vscale, vcross, vsub, upper, lower, sqr. cbn [vx vy vz]. f_equal; ring. Qed.
(** What the angular momentum equation uses differs from the contact's torque by the weight times the difference of the two slacks over four. *)
Theorem C33_error_is_slack : forall g cs q P e t, let l := arm cs q P e t in let f := p_frc P e t in
  vsub (torque_used g cs q P e t) (contact_torque g cs q P e t)
  = vscale (g_mg g / 4) (vsub (vsub (p_ub P e t) (upper l f)) (vsub (p_lb P e t) (lower l f))).
Proof.
  intros g cs q P e t l f. unfold torque_used, contact_torque. fold l f. destruct l as [a b c], f as [u v w], (p_ub P e t) as [a1 a2 a3], (p_lb P e t) as [b1 b2 b3], (surf (contact_on cs q e t) 2) as [c1 c2 c3].
  unfold vscale, vcross, vsub, vadd, upper, lower, sqr. cbn [vx vy vz]. f_equal; field.
Qed.
Theorem C33_tight_is_exact : forall g cs q P e t, p_ub P e t = upper (arm cs q P e t) (p_frc P e t) -> p_lb P e t = lower (arm cs q P e t) (p_frc P e t) ->
  torque_used g cs q P e t = contact_torque g cs q P e t.
Proof.
  intros g cs q P e t EU EL. pose proof (C33_error_is_slack g cs q P e t) as H. cbv zeta in H. rewrite EU, EL in H.
  destruct (torque_used g cs q P e t) as [a b c], (contact_torque g cs q P e t) as [u v w]. unfold vscale, vsub in H. cbn [vx vy vz] in H. injection H as H1 H2 H3. f_equal; lra.
Qed.
(** Feasible plans: each component of the error is at most a quarter of the weight times the larger slack. *)
Theorem C33_error_bound : forall g cs q P e t d i, contact_feasible g cs q P e t -> 0 <= g_mg g -> In i [0; 1; 2]%nat ->
  vget3 (p_ub P e t) i - vget3 (upper (arm cs q P e t) (p_frc P e t)) i <= d -> vget3 (p_lb P e t) i - vget3 (lower (arm cs q P e t) (p_frc P e t)) i <= d ->
  Rabs (vget3 (torque_used g cs q P e t) i - vget3 (contact_torque g cs q P e t) i) <= g_mg g / 4 * d.
Proof.
  intros g cs q P e t d i [_ _ _ _ (U1 & U2 & U3) (L1 & L2 & L3) _] Hm Hi HU HL. pose proof (C33_error_is_slack g cs q P e t) as H. cbv zeta in H.
  set (u := upper _ _) in *. set (l := lower _ _) in *. clearbody u l. destruct (torque_used g cs q P e t) as [a b c], (contact_torque g cs q P e t) as [a' b' c'], (p_ub P e t) as [p1 p2 p3], (p_lb P e t) as [r1 r2 r3], u as [u1 u2 u3], l as [l1 l2 l3].
  unfold vscale, vsub in H. cbn [vx vy vz] in *. injection H as H1 H2 H3. cbn in Hi.
  assert (B : forall x y z : R, z = g_mg g / 4 * (x - y) -> 0 <= x <= d -> 0 <= y <= d -> Rabs z <= g_mg g / 4 * d).
  { intros x y z -> Hx Hy. rewrite Rabs_mult, (Rabs_right (g_mg g / 4)) by lra. apply Rmult_le_compat_l; [lra|]. apply Rabs_le. lra. }
  destruct Hi as [<-|[<-|[<-|[]]]]; cbn [vget3 vx vy vz] in *; (eapply B; [eassumption|lra|lra]).
Qed.
Print Assumptions C33_decomposition. Print Assumptions C33_error_is_slack. Print Assumptions C33_tight_is_exact. Print Assumptions C33_error_bound.

(** ** C34: friction *)
(** A unit quaternion gives an orthonormal right-handed frame, so the three components really are tangential and normal parts. *)
Theorem C34_surface_frame : forall c, unit_quat (c_ori c) ->
  (forall j, (j <= 2)%nat -> vdot (surf c j) (surf c j) = 1) /\ vdot (surf c 0) (surf c 1) = 0 /\ vdot (surf c 0) (surf c 2) = 0 /\ vdot (surf c 1) (surf c 2) = 0 /\
  vcross (surf c 0) (surf c 1) = surf c 2.
Proof.
  intros c H. unfold surf. destruct (c_ori c) as [w x y z]. unfold unit_quat in H. cbn [qw qx qy qz] in H. unfold rotcol, vdot, vcross. cbn [qw qx qy qz].
  assert (W : w * w = 1 - x * x - y * y - z * z) by lra.
  split; [|split; [|split; [|split]]].
  - intros j Hj. destruct j as [|[|[|]]]; try lia; cbn [vx vy vz].
    + replace (1 - (2 * y * y + 2 * z * z)) with (w * w + x * x - y * y - z * z) by lra. replace 1 with ((w * w + x * x + y * y + z * z) ^ 2) by (rewrite H; ring). ring.
    + replace (1 - (2 * x * x + 2 * z * z)) with (w * w - x * x + y * y - z * z) by lra. replace 1 with ((w * w + x * x + y * y + z * z) ^ 2) by (rewrite H; ring). ring.
    + replace (1 - (2 * x * x + 2 * y * y)) with (w * w - x * x - y * y + z * z) by lra. replace 1 with ((w * w + x * x + y * y + z * z) ^ 2) by (rewrite H; ring). ring.
  - cbn [vx vy vz]. replace (1 - (2 * y * y + 2 * z * z)) with (w * w + x * x - y * y - z * z) by lra. replace (1 - (2 * x * x + 2 * z * z)) with (w * w - x * x + y * y - z * z) by lra. ring.
  - cbn [vx vy vz]. replace (1 - (2 * y * y + 2 * z * z)) with (w * w + x * x - y * y - z * z) by lra. replace (1 - (2 * x * x + 2 * y * y)) with (w * w - x * x - y * y + z * z) by lra. ring.
  - cbn [vx vy vz]. replace (1 - (2 * x * x + 2 * z * z)) with (w * w - x * x + y * y - z * z) by lra. replace (1 - (2 * x * x + 2 * y * y)) with (w * w - x * x - y * y + z * z) by lra. ring.
  - cbn [vx vy vz].
    replace (1 - (2 * y * y + 2 * z * z)) with (w * w + x * x - y * y - z * z) by lra. replace (1 - (2 * x * x + 2 * z * z)) with (w * w - x * x + y * y - z * z) by lra.
    apply veq3; cbn [vx vy vz]; [| |replace (1 - (2 * x * x + 2 * y * y)) with ((w * w + x * x + y * y + z * z) * (w * w - x * x - y * y + z * z)) by (rewrite H; lra); ring].
    + replace (2 * x * z + 2 * y * w) with ((w * w + x * x + y * y + z * z) * (2 * x * z + 2 * y * w)) by (rewrite H; ring). ring.
    + replace (2 * y * z - 2 * x * w) with ((w * w + x * x + y * y + z * z) * (2 * y * z - 2 * x * w)) by (rewrite H; ring). ring.
Qed.
(** The pyramid contains the Coulomb cone and lies inside the cone of coefficient sqrt(2) mu. *)
Theorem C34_pyramid_bounds : forall mu c f, 0 <= mu -> (coulomb mu c f -> pyramid mu c f) /\ (pyramid mu c f -> coulomb (sqrt 2 * mu) c f).
Proof.
  intros mu c f Hm. unfold coulomb, pyramid, sqr. set (a := vdot (surf c 0) f). set (b := vdot (surf c 1) f). set (n := vdot (surf c 2) f).
  assert (S2 : sqrt 2 * sqrt 2 = 2) by (apply sqrt_sqrt; lra). assert (P2 : 0 < sqrt 2) by (apply sqrt_lt_R0; lra).
  assert (Ha := Rabs_pos a). assert (Hb := Rabs_pos b). assert (Qa : Rabs a * Rabs a = a * a) by (rewrite <- Rabs_mult; apply Rabs_right; nra). assert (Qb : Rabs b * Rabs b = b * b) by (rewrite <- Rabs_mult; apply Rabs_right; nra).
  assert (NN : 0 <= a * a + b * b) by nra. assert (SS := sqrt_sqrt _ NN). assert (SP := sqrt_pos (a * a + b * b)). set (s := sqrt (a * a + b * b)) in *.
  split; intros H.
  - apply Rle_trans with (sqrt 2 * s); [|rewrite Rmult_assoc; apply Rmult_le_compat_l; lra]. apply Rsqr_incr_0_var; [|apply Rmult_le_pos; lra]. unfold Rsqr.
    replace (sqrt 2 * s * (sqrt 2 * s)) with (2 * (a * a + b * b)) by (rewrite <- SS, <- S2 at 1; ring). pose proof (Rle_0_sqr (Rabs a - Rabs b)) as Z. unfold Rsqr in Z. lra.
  - apply Rle_trans with (Rabs a + Rabs b); [|exact H]. apply Rsqr_incr_0_var; [|lra]. unfold Rsqr. pose proof (Rmult_le_pos _ _ Ha Hb). lra.
Qed.
(** The pyramid is not contained in the Coulomb cone: the edge force (sqrt 2 mu, 0, 1) slips. *)
Theorem C34_pyramid_inside_cone_refuted : forall mu, 0 < mu -> exists c f, unit_quat (c_ori c) /\ pyramid mu c f /\ ~ coulomb mu c f.
Proof.
  intros mu Hm. exists (Cnt 0 0 v0 qone FreeContact true 0 0), (V3 (sqrt 2 * mu) 0 1). assert (P2 : 0 < sqrt 2) by (apply sqrt_lt_R0; lra). assert (S2 : sqrt 2 * sqrt 2 = 2) by (apply sqrt_sqrt; lra).
  split; [unfold unit_quat; cbn; lra|]. unfold pyramid, coulomb, sqr, surf, vdot. cbn. split.
  - match goal with |- Rabs ?a + Rabs ?b <= _ => replace a with (sqrt 2 * mu) by ring; replace b with 0 by ring end. rewrite Rabs_R0, Rabs_right by nra. lra.
  - match goal with |- ~ sqrt (?a) <= _ => replace a with ((sqrt 2 * mu) * (sqrt 2 * mu)) by ring end. rewrite sqrt_square by nra. intros H. nra.
Qed.
(** Every point feasible for the solver satisfies the friction condition at every contact that is not of the full type. *)
Theorem C34_friction_enforced : forall g q ini cs kin goal wtrack first stray thr w iter warm calls x,
  ready g q cs stray -> (g_N g <= List.length kin)%nat -> weights_ok g wtrack -> 0 <= g_inf g -> (g_via g <> [] -> (0 < g_N g)%nat) -> 0 <= w ->
  problem_calls g q ini cs kin goal wtrack first stray = Ok calls -> compiled_feasible thr w iter warm calls x ->
  forall e t, (e < g_neff g)%nat -> (t < g_N g)%nat -> active q e t -> c_type (contact_on cs q e t) <> FullContact ->
  let f := p_frc (plan_of g q x) e t in let c := contact_on cs q e t in
  (g_linfric g = false -> coulomb (g_mu g) c f) /\ (g_linfric g = true -> coulomb (sqrt 2 * Rmax (g_mu g) (1 / 1000)) c f).
Proof.
  intros g q ini cs kin goal wtrack first stray thr w iter warm calls x HR HK HW HI HV Hw EC HF e t He Ht Ha Hc f c.
  destruct (C32_problem_is_momentum_planning g q ini cs kin goal wtrack first stray thr w iter warm HR HK HW HI HV Hw) as (calls' & E & S1 & _). rewrite EC in E. injection E as <-.
  destruct (S1 x HF) as [_ _ _ C]. destruct (C e t He Ht Ha) as [_ _ _ F _ _ _]. specialize (F Hc). fold f c in F. split; intros B; rewrite B in F; [exact F|].
  apply C34_pyramid_bounds; [|exact F]. pose proof (Rmax_r (g_mu g) (1 / 1000)). lra.
Qed.
(** A coefficient below 0.001 is silently raised to 0.001 by the pyramid (not by the cone). *)
Theorem C34_small_coefficient_refuted : exists mu c f, 0 < mu /\ unit_quat (c_ori c) /\ pyramid (Rmax mu (1 / 1000)) c f /\ ~ coulomb (sqrt 2 * mu) c f.
Proof.
  exists (1 / 1000000), (Cnt 0 0 v0 qone FreeContact true 0 0), (V3 (1 / 1000) 0 1). assert (P2 : 0 < sqrt 2) by (apply sqrt_lt_R0; lra). assert (S2 : sqrt 2 * sqrt 2 = 2) by (apply sqrt_sqrt; lra).
  split; [lra|]. split; [unfold unit_quat; cbn; lra|]. unfold pyramid, coulomb, sqr, surf, vdot. cbn. rewrite Rmax_right by lra. split.
  - match goal with |- Rabs ?a + Rabs ?b <= _ => replace a with (1 / 1000) by field; replace b with 0 by ring end. rewrite Rabs_R0, Rabs_right by lra. nra.
  - match goal with |- ~ sqrt (?a) <= _ => replace a with ((1 / 1000) * (1 / 1000)) by field end. rewrite sqrt_square by nra. intros H. nra.
Qed.
Print Assumptions C34_surface_frame. Print Assumptions C34_pyramid_bounds. Print Assumptions C34_pyramid_inside_cone_refuted. Print Assumptions C34_friction_enforced. Print Assumptions C34_small_coefficient_refuted.

(** ** C45: the linearised product of duration and rate *)
Theorem C45_first_order_model : forall d0 a0 d a,
  vsub (vscale d a) (product_model d0 a0 d a) = vscale (d - d0) (vsub a a0).
Proof. intros d0 [a b c] d [u v w]. unfold product_model, vsub, vadd, vscale. cbn [vx vy vz]. f_equal; ring. Qed.
(** Value and all directional derivatives agree at the linearisation point. *)
Theorem C45_value_and_gradient : forall d0 a0 dd da (i : nat), (i <= 2)%nat ->
  product_model d0 a0 d0 a0 = vscale d0 a0 /\
  forall l, derivable_pt_lim (fun s => vget3 (vscale (d0 + s * dd) (vadd a0 (vscale s da))) i) 0 l <->
            derivable_pt_lim (fun s => vget3 (product_model d0 a0 (d0 + s * dd) (vadd a0 (vscale s da))) i) 0 l.
Proof.
  intros d0 a0 dd da i Hi. split.
  - destruct a0 as [a b c]. unfold product_model, vsub, vadd, vscale. cbn [vx vy vz]. f_equal; ring.
  - assert (G : forall a b, let L := dd * a + d0 * b in
      derivable_pt_lim (fun s => (d0 + s * dd) * (a + s * b)) 0 L /\ derivable_pt_lim (fun s => d0 * (a + s * b) + (d0 + s * dd) * a - d0 * a) 0 L).
    { intros a b L. split.
      - intros eps He. assert (Hq : 0 < eps / (Rabs (dd * b) + 1)) by (apply Rdiv_lt_0_compat; [lra|]; pose proof (Rabs_pos (dd * b)); lra).
        exists (mkposreal _ Hq). intros h Hh Hd. cbn in Hd. unfold L. match goal with |- Rabs ?z < _ => replace z with (h * (dd * b)) by (field; assumption) end.
        rewrite Rabs_mult. pose proof (Rabs_pos (dd * b)). apply Rle_lt_trans with (Rabs h * (Rabs (dd * b) + 1)); [pose proof (Rabs_pos h); nra|].
        apply (Rmult_lt_compat_r (Rabs (dd * b) + 1)) in Hd; [|lra]. unfold Rdiv in Hd. rewrite Rmult_assoc, Rinv_l in Hd by lra. lra.
      - intros eps He. exists (mkposreal 1 Rlt_0_1). intros h Hh _. unfold L. match goal with |- Rabs ?z < _ => replace z with 0 by (field; assumption) end. rewrite Rabs_R0. exact He. }
    intros l.
    assert (K : forall a b, derivable_pt_lim (fun s => (d0 + s * dd) * (a + s * b)) 0 l <-> derivable_pt_lim (fun s => d0 * (a + s * b) + (d0 + s * dd) * a - d0 * a) 0 l).
    { intros a b. destruct (G a b) as (G1 & G2). split; intros H; [rewrite (uniqueness_limite _ _ _ _ H G1); exact G2|rewrite (uniqueness_limite _ _ _ _ H G2); exact G1]. }
    destruct i as [|[|[|]]]; try lia; unfold product_model, vsub, vadd, vscale; cbn [vget3 vx vy vz]; apply K.
Qed.
(** With the duration at its stored value the increments are exact, so a feasible plan of a later pass obeys the exact equations there. *)
Theorem C45_exact_at_stored_duration : forall g ini cs q P t, dynamics_time g ini cs q false P t -> p_dt P t = step_time q t ->
  p_com P t = vadd (prev (p_com P) (d_com ini) t) (vscale (p_dt P t / g_mass g) (p_lmom P t)) /\
  p_lmom P t = vadd (prev (p_lmom P) (d_lmom ini) t) (vscale (p_dt P t) (net_force g q P t)) /\
  p_amom P t = vadd (prev (p_amom P) (d_amom ini) t) (vscale (p_dt P t) (net_torque g cs q P t)).
Proof.
  intros g ini cs q P t (H1 & H2 & H3 & H4 & H5) E. unfold step_time in E. rewrite E. cbv zeta in H1, H2, H3. rewrite E in H1, H2, H3. rewrite H4 in H2. rewrite H5 in H3.
  set (d := d_time (nth t (states q) dstate_new)) in *.
  assert (M : forall a0 a, product_model d a0 d a = vscale d a) by (intros [a1 a2 a3] [b1 b2 b3]; unfold product_model, vsub, vadd, vscale; cbn [vx vy vz]; f_equal; ring).
  rewrite M in H1, H2, H3. split; [|split; assumption]. rewrite H1 at 1. f_equal. destruct (p_lmom P t) as [a1 a2 a3]. unfold vscale. cbn [vx vy vz]. unfold Rdiv. f_equal; ring.
Qed.
Print Assumptions C45_first_order_model. Print Assumptions C45_value_and_gradient. Print Assumptions C45_exact_at_stored_duration.

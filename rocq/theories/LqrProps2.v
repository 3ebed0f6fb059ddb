(** * Theorems about the LQR solver on linear-quadratic problems (C25) *)
From Coq Require Import Reals List Arith ZArith Bool Lia Lra FunctionalExtensionality.
From Verif Require Import Base BaseProofs IpModel BnbProofs LbfgsProofs LqrModel LqrSpec LqrProofs LqrProofs2 LqrProofs3 LqrProofs4 LqrProofs5 LqrProofs6 LqrProofs7 LqrProps.
Import ListNotations.
Open Scope R_scope.

(** The problem handed to the solver by a user with increment [f], stage cost [l] and final cost [phi]. *)
Definition user_dyn (f : vec -> vec -> nat -> vec) : vec -> ctrl -> nat -> vec := fun x u t => f x (ff u) t.
Definition user_obj (l : vec -> vec -> nat -> R) (phi : vec -> R) : vec -> ctrl -> nat -> bool -> R := fun x u t fin => if fin then phi x else l x (ff u) t.
(** The transition of the discrete-time system the user gets. *)
Definition transition (S : stgs) (f : vec -> vec -> nat -> vec) : vec -> vec -> nat -> vec := fun x u t => (if s_rk S then rk4_step else euler_step) (fun y => f y u t) x.
Definition value_of (n : nat) (V : value) (dx : vec) : R := v_c V + inner n (v_x V) dx + 1 / 2 * bilin n n dx (v_xx V) dx.
Lemma value_of_val n V dx : value_of n V dx = val n V dx.
Proof. unfold value_of, val. now rewrite inner_dot, bilin_dot. Qed.

(** ** Backward pass: around any trajectory (xs, us) that follows the dynamics, with regularization 0 and no control limits, if the backward
    pass succeeds then its affine feedback law is optimal from every state at every time among all policies (hence among all control
    sequences), and the stored quadratic is the optimal cost-to-go. *)
Theorem C25_backward_pass_optimal S f l phi qp A B c l0 b d Q R_ N phi0 bf Qf xs us cost bs bs' Vs :
  let T := s_tdim S in let n := s_xdim S in let m := s_udim S in
  linear_quadratic T n m f l phi A B c l0 b d Q R_ N phi0 bf Qf -> s_limits S = false ->
  follows (transition S f) T xs (fun t => ff (us t)) ->
  (forall t, (t < T)%nat -> cost t = l (xs t) (ff (us t)) t) -> cost T = phi (xs T) ->
  optimizeController S qp (computeDerivatives S (user_dyn f) (user_obj l phi) xs us) cost 0 us bs = (bs', None, Vs) ->
  let law t x := fun i => ff (us t) i + (ff (bs' t) i + sum n (fun j => fb (bs' t) i j * (x j - xs t j))) in
  forall t x, (t <= T)%nat ->
    cost_to_go (transition S f) l phi (T - t) t x law = value_of n (Vs t) (fun i => x i - xs t i) /\
    forall pi, value_of n (Vs t) (fun i => x i - xs t i) <= cost_to_go (transition S f) l phi (T - t) t x pi.
Proof.
  intros T n m LQ HL HF HC HCT E law t x Ht. rewrite !value_of_val. change (fun i => x i - xs t i) with (vminus x (xs t)).
  assert (G := backward_optimal S f l phi qp _ _ _ _ _ _ _ _ _ _ _ _ LQ HL xs us cost HF HC HCT bs bs' Vs E t Ht). split; [|intros pi; apply (good_low _ _ _ _ _ _ _ _ _ G)].
  rewrite <- (good_att _ _ _ _ _ _ _ _ _ G). apply cost_to_go_ext. intros s y Hs. unfold law, opt. apply functional_extensionality. intros i. rewrite sum_rsum. reflexivity.
Qed.
Print Assumptions C25_backward_pass_optimal.

(** ** With costs that are convex (strictly in the control) the backward pass succeeds for every nonnegative regularization. *)
Theorem C25_backward_pass_succeeds S f l phi qp A B c l0 b d Q R_ N phi0 bf Qf xs us cost bs lambda :
  let T := s_tdim S in let n := s_xdim S in let m := s_udim S in
  linear_quadratic T n m f l phi A B c l0 b d Q R_ N phi0 bf Qf -> convex_costs T n m Q R_ N Qf -> s_limits S = false -> 0 <= lambda -> cost T = phi (xs T) ->
  exists bs' Vs, optimizeController S qp (computeDerivatives S (user_dyn f) (user_obj l phi) xs us) cost lambda us bs = (bs', None, Vs).
Proof. intros T n m LQ CV HL Hl HC. apply (convex_backward S f l phi qp _ _ _ _ _ _ _ _ _ _ _ _ LQ HL xs us cost HC CV lambda bs Hl). Qed.
Print Assumptions C25_backward_pass_succeeds.

(** ** One iteration solves the problem: at a state with regularization 0 and new derivatives (as after initialisation or an accepted step),
    with 1 as the first line search coefficient, and provided optimal trajectories respect the divergence limit, the iteration ends with a
    trajectory at least as good as every control sequence - unless it stops with SUCC_gradient. *)
Theorem C25_one_iteration S f l phi qp A B c l0 b d Q R_ N phi0 bf Qf alphas xs us bs ds F0 i L o :
  let T := s_tdim S in let n := s_xdim S in let m := s_udim S in let dyn := user_dyn f in let obj := user_obj l phi in
  linear_quadratic T n m f l phi A B c l0 b d Q R_ N phi0 bf Qf -> convex_costs T n m Q R_ N Qf -> s_limits S = false -> s_alphas S = 1 :: alphas ->
  (forall ys w, ys 0%nat = xs 0%nat -> follows (transition S f) T ys w ->
     (forall w', trajectory_cost l phi T ys w <= cost_to_go (transition S f) l phi T 0 (xs 0%nat) (open_loop w')) ->
     forall t j, (t <= T)%nat -> (j < n)%nat -> Rabs (ys t j) <= s_divlimit S) ->
  visited S dyn obj qp xs us bs ds F0 i L -> l_devs L = true -> l_reg L = 0 ->
  lqr_iter S dyn obj qp L o -> (forall L', o <> inl (SUCC_gradient, L')) ->
  let L' := match o with inl (_, L') => L' | inr L' => L' end in
  l_cost L' = trajectory_cost l phi T (l_x L') (fun t => ff (l_u L' t)) /\
  forall w, l_cost L' <= cost_to_go (transition S f) l phi T 0 (xs 0%nat) (open_loop w).
Proof.
  intros T n m dyn obj LQ CV HL HA HB HV HD HR Hit Hg. cbv zeta. fold (result o). assert (Hne : s_alphas S <> []) by (rewrite HA; discriminate).
  assert (HC := visited_consistent S dyn obj qp xs us bs ds F0 i L Hne HV). split.
  - assert (HC' := iter_consistent S dyn obj qp _ L o Hit HC). rewrite (con_cost _ _ _ _ _ _ _ HC'). reflexivity.
  - apply (one_iteration S f l phi qp _ _ _ _ _ _ _ _ _ _ _ _ LQ CV HL L (xs 0%nat) o alphas HC (matched_visited S f l phi qp xs us bs ds F0 i L Hne HV) HD HR HA HB Hit Hg).
Qed.
Print Assumptions C25_one_iteration.

(** ** Control limits.  When the limits are on the feedforward term comes from a quadratic program; if that program is solved exactly and half of
    the unconstrained Newton step respects the limits, the result is exactly that half: the limits, although inactive, change the step. *)
Definition solves_box (m : nat) (F : vec -> R) (lo hi v : vec) : Prop :=
  (forall i, (i < m)%nat -> lo i <= v i <= hi i) /\ forall w, (forall i, (i < m)%nat -> lo i <= w i <= hi i) -> F v <= F w.
Theorem C25_limits_halve_the_step S qp un K H C g step :
  let m := s_udim S in
  (forall i j, (i < m)%nat -> (j < m)%nat -> H i j = H j i) -> llt m H = Some C ->
  (forall i, (i < m)%nat -> sum m (fun j => H i j * step j) = - g i) ->
  (forall i, (i < m)%nat -> s_umin S i <= ff un i + step i / 2 <= s_umax S i) ->
  (let lo := fun i => s_umin S i - ff un i in let hi := fun i => s_umax S i - ff un i in solves_box m (constrained_objective S C g) lo hi (qp (constrained_objective S C g) lo hi)) ->
  forall i, (i < m)%nat -> ff (findConstrainedControls S qp un K C g) i = step i / 2.
Proof.
  intros m HS HC Hs Hbox Hq. subst m. set (m := s_udim S) in *. cbv zeta in Hq. set (v := qp _ _ _) in *. destruct Hq as (_ & Q2).
  assert (Hl : forall i, (i < m)%nat -> mv m H step i = - g i) by (intros i Hi; rewrite <- Hs by exact Hi; rewrite sum_rsum; reflexivity).
  specialize (Q2 (vscal (1 / 2) step) ltac:(intros i Hi; specialize (Hbox i Hi); unfold vscal; lra)). rewrite (half_argmin S H C g step v HS HC Hl) in Q2.
  assert (P := llt_posdef m H C HS HC). destruct (nz_dec m (vminus v (vscal (1 / 2) step))) as [Z|Z]; [|specialize (P _ Z); fold m in Q2; lra].
  intros i Hi. specialize (Z i Hi). unfold vminus, vscal in Z. unfold findConstrainedControls. cbn [ff]. fold v. lra.
Qed.
Print Assumptions C25_limits_halve_the_step.
(** Hence the claim of C25 fails with limits: minimise (u - 1)^2 / 2 over -10 <= u <= 10 from u = 0 (H = 1, g = -1): any exact solution of the
    program handed over is 1/2, whose cost is not minimal although the minimiser 1 respects the limits. *)
Theorem C25_with_limits_refuted : exists S un H C g, s_limits S = true /\ s_udim S = 1%nat /\ llt 1 H = Some C /\ ff un 0%nat = 0 /\
  (forall i, s_umin S i <= 1 <= s_umax S i) /\
  let model v := 1 / 2 * (v * H 0%nat 0%nat * v) + g 0%nat * v in (forall v, model 1 <= model v) /\
  forall qp K, let lo := fun i => s_umin S i - ff un i in let hi := fun i => s_umax S i - ff un i in
    solves_box 1 (constrained_objective S C g) lo hi (qp (constrained_objective S C g) lo hi) ->
    model 1 < model (ff (findConstrainedControls S qp un K C g) 0%nat).
Proof.
  pose (S := mkStgs 1 1 1 1 false true (fun _ => -10) (fun _ => 10) 100 [1] 0 1 2 1 1 0 0). pose (H := fun _ _ : nat => 1).
  destruct (posdef_llt 1 H) as (C & HC); [intros i j; reflexivity|intros x (i & Hi & Hx); assert (i = 0%nat) by lia; subst i; unfold vdot, mv, H; cbn; nra|].
  exists S, (mkCtrl (fun _ => 0) (fun _ _ => 0)), H, C, (fun _ => -1). split; [reflexivity|]. split; [reflexivity|]. split; [exact HC|]. split; [reflexivity|]. split; [intros; cbn; lra|]. split; [intros v; unfold H; cbv beta; assert (P := Rle_0_sqr (v - 1)); unfold Rsqr in P; lra|].
  intros qp K lo hi Hq. rewrite (C25_limits_halve_the_step S qp (mkCtrl (fun _ => 0) (fun _ _ => 0)) K H C (fun _ => -1) (fun _ => 1)); try assumption.
  - unfold H. lra.
  - reflexivity.
  - intros i Hi. rewrite sum_rsum. cbn. unfold H. ring.
  - intros i Hi. cbn. lra.
  - cbn. lia.
Qed.
Print Assumptions C25_with_limits_refuted.

(** ** Examples *)
(** The double integrator with position and velocity states and quadratic costs satisfies the hypotheses. *)
Definition di_f : vec -> vec -> nat -> vec := fun x u _ i => match i with O => x 1%nat / 10 | _ => u 0%nat / 10 end.
Definition di_l : vec -> vec -> nat -> R := fun x u _ => 1 / 2 * (x 0%nat * x 0%nat) + 1 / 2 * (x 1%nat * x 1%nat) + 1 / 2 * (u 0%nat * u 0%nat).
Definition di_phi : vec -> R := fun x => 1 / 2 * (x 0%nat * x 0%nat).
Definition di_A : mat := fun i j => match i, j with O, 1%nat => 1 / 10 | _, _ => 0 end.
Definition di_B : mat := fun i j => match i with 1%nat => 1 / 10 | _ => 0 end.
Definition di_Q : mat := fun i j => if Nat.eqb i j then 1 else 0.
Definition di_Qf : mat := fun i j => match i, j with O, O => 1 | _, _ => 0 end.
Example C25_hypotheses_met T : linear_quadratic T 2 1 di_f di_l di_phi (fun _ => di_A) (fun _ => di_B) (fun _ _ => 0) (fun _ => 0) (fun _ _ => 0) (fun _ _ => 0) (fun _ => di_Q) (fun _ _ _ => 1) (fun _ _ _ => 0) 0 (fun _ => 0) di_Qf
  /\ convex_costs T 2 1 (fun _ => di_Q) (fun _ _ _ => 1) (fun _ _ _ => 0) di_Qf.
Proof.
  split; constructor.
  - intros t Ht x u i Hi. destruct i as [|[|i]]; [| |lia]; cbn; unfold di_A, di_B, di_f; field.
  - intros t Ht. constructor; [intros i j Hi Hj; unfold di_Q; rewrite Nat.eqb_sym; reflexivity|reflexivity|]. intros x u. unfold di_l, inner, bilin, sum. cbn. field.
  - intros i j Hi Hj. destruct i as [|[|i]], j as [|[|j]]; reflexivity.
  - intros x. unfold di_phi, inner, bilin, sum. cbn. field.
  - intros t x u Ht. unfold bilin, sum. cbn. nra.
  - intros t u Ht (i & Hi & Hu). assert (i = 0%nat) by lia. subst i. unfold bilin, sum. cbn. nra.
  - intros x. unfold bilin, sum. cbn. nra.
Qed.

(** ** The divergence limit does not keep diverging trials out: x' = x + u, cost u^2 + (x_1 - 10^6)^2, limit 1.  The first trial leaves the limit
    and is accepted because it lowers the cost by more than 10^10. *)
Definition dv_S : stgs := mkStgs 1 1 1 1 false false (fun _ => 0) (fun _ => 0) 1 [1] 0 1 2 1 1 0 0.
Definition dv_f : vec -> vec -> nat -> vec := fun _ u _ => u.
Definition dv_l : vec -> vec -> nat -> R := fun _ u _ => u 0%nat * u 0%nat.
Definition dv_phi : vec -> R := fun x => (x 0%nat - 10 ^ 6) * (x 0%nat - 10 ^ 6).
Lemma dv_lq : linear_quadratic 1 1 1 dv_f dv_l dv_phi (fun _ _ _ => 0) (fun _ _ _ => 1) (fun _ _ => 0) (fun _ => 0) (fun _ _ => 0) (fun _ _ => 0) (fun _ _ _ => 0) (fun _ _ _ => 2) (fun _ _ _ => 0) (10 ^ 6 * 10 ^ 6) (fun _ => - 2 * 10 ^ 6) (fun _ _ => 2)
  /\ convex_costs 1 1 1 (fun _ _ _ => 0) (fun _ _ _ => 2) (fun _ _ _ => 0) (fun _ _ => 2).
Proof.
  split; constructor.
  - intros t Ht x u i Hi. assert (i = 0%nat) by lia. subst i. unfold sum, dv_f. cbn. ring.
  - intros t Ht. constructor; try reflexivity. intros x u. unfold dv_l, inner, bilin, sum. cbn. field.
  - reflexivity.
  - intros x. unfold dv_phi, inner, bilin, sum. cbn [map seq fold_right]. field.
  - intros t x u Ht. unfold bilin, sum. cbn. nra.
  - intros t u Ht (i & Hi & Hu). assert (i = 0%nat) by lia. subst i. unfold bilin, sum. cbn. nra.
  - intros x. unfold bilin, sum. cbn. nra.
Qed.
Theorem C23_divergence_accepted_refuted : forall qp ds F0 bs, exists m L,
  optimize dv_S (user_dyn dv_f) (user_obj dv_l dv_phi) qp (fun _ _ => 0) (fun _ => ctrl0) bs ds F0 (Ok (m, L)) /\ m <> EXIT_divergence /\ s_divlimit dv_S < Rabs (l_x L 1%nat 0%nat).
Proof.
  intros qp ds F0 bs. set (S := dv_S). set (dyn := user_dyn dv_f). set (obj := user_obj dv_l dv_phi). destruct dv_lq as (LQ & CV).
  set (F := applyController S dyn obj (fun _ _ => 0) (seqscal 1 (fun _ => ctrl0))).
  destruct (apply_ok S dyn obj (fun _ _ => 0) (seqscal 1 (fun _ => ctrl0))) as (I1 & I2 & _ & I4). fold F in I1, I2, I4.
  assert (U0 : forall i, ff (f_u F 0%nat) i = 0).
  { intros i. destruct (I2 0%nat ltac:(cbn; lia)) as (-> & _). cbn [ff]. unfold law. cbn [s_limits S dv_S]. unfold vplus, seqscal, cscal, vscal, mv, ctrl0. cbn. ring. }
  assert (X1 : forall i, f_x F 1%nat i = 0).
  { intros i. destruct (I2 0%nat ltac:(cbn; lia)) as (_ & E & _). change (f_x F 1%nat) with (f_x F (0 + 1)%nat). rewrite E. unfold internal_dynamics, vplus. cbn [s_rk S dv_S]. unfold dyn, user_dyn, dv_f. rewrite I1, U0. ring. }
  assert (ND : f_div F = false).
  { apply not_true_iff_false. intros D. apply I4 in D. destruct D as (t & Ht & D). change (s_tdim S) with 1%nat in Ht. assert (t = 0%nat) by lia. subst t. unfold exceeds in D. change (s_xdim S) with 1%nat in D. cbn [seq existsb] in D. rewrite orb_false_r in D. apply ltb_true in D.
    cbn [Nat.add] in D. rewrite X1, Rabs_R0 in D. cbn in D. lra. }
  assert (ER : initial_rollout S dyn obj (s_alphas S) (fun _ _ => 0) (fun _ => ctrl0) F0 = F) by (cbn [s_alphas S dv_S initial_rollout]; fold F; rewrite ND; reflexivity).
  set (L0 := mkL (f_x F) (f_u F) (newCost S F) F bs ds true (s_mult0 S) (s_reg0 S)).
  assert (Hst : start S dyn obj (fun _ _ => 0) (fun _ => ctrl0) bs ds F0 = inr L0) by (unfold start; rewrite ER, ND; reflexivity).
  assert (V0 : visited S dyn obj qp (fun _ _ => 0) (fun _ => ctrl0) bs ds F0 0 L0) by (now apply vis_start).
  assert (Hne : s_alphas S <> []) by discriminate.
  assert (HC := visited_consistent S dyn obj qp _ _ _ _ _ _ _ Hne V0).
  assert (HM := matched_visited S dv_f dv_l dv_phi qp _ _ _ _ _ _ _ Hne V0).
  destruct (full_step S dv_f dv_l dv_phi qp _ _ _ _ _ _ _ _ _ _ _ _ LQ CV eq_refl L0 _ bs HC HM eq_refl) as (bs' & Vs & E & K). cbv zeta in K.
  set (F1 := applyController S (pdyn dv_f) (pobj dv_l dv_phi) (l_x L0) (seqplus (l_u L0) (seqscal 1 bs'))) in *. destruct K as (K1 & K2 & K3 & K4).
  assert (C0 : l_cost L0 = 10 ^ 6 * 10 ^ 6).
  { rewrite (con_cost _ _ _ _ _ _ _ HC). unfold sum, obj, user_obj, dv_l, dv_phi. cbn [s_tdim S dv_S seq map fold_right]. cbn [l_x l_u L0]. rewrite U0, X1. ring. }
  assert (C1 := K1 (fun _ _ => 10 ^ 6 / 2)). cbn [s_tdim S dv_S cost_to_go] in C1. unfold open_loop, dv_l, dv_phi, pstep, euler_step, dv_f in C1. cbn [s_rk S dv_S] in C1.
  rewrite K4 in C1. unfold trajectory_cost, sum, dv_l, dv_phi in C1. cbn [s_tdim S dv_S seq map fold_right] in C1. assert (X2 := K3 0%nat ltac:(cbn; lia)). cbn [Nat.add] in X2. rewrite X2 in C1. unfold pstep, euler_step, dv_f in C1. cbn [s_rk S dv_S] in C1. rewrite K2 in C1.
  set (u := ff (f_u F1 0%nat) 0%nat) in *. assert (Eu : u = 10 ^ 6 / 2) by nra.
  assert (X3 : f_x F1 1%nat 0%nat = 10 ^ 6 / 2). { rewrite X2. unfold pstep, euler_step, dv_f. cbn [s_rk S dv_S]. rewrite K2. fold u. rewrite Eu. ring. }
  assert (C2 : newCost S F1 = 10 ^ 6 * 10 ^ 6 / 2).
  { rewrite K4. unfold trajectory_cost, sum, dv_l, dv_phi. cbn [s_tdim S dv_S seq map fold_right]. fold u. rewrite X3, Eu. field. }
  assert (CC : 0 < cost_change S L0 F1). { unfold cost_change. rewrite C0, C2. destruct (f_div F1); lra. }
  set (Lf := mkL (f_x F1) (f_u F1) (newCost S F1) F1 bs' (computeDerivatives S dyn obj (l_x L0) (l_u L0)) true (s_mult0 S) 0).
  exists EXIT_maxiter, Lf. split; [|split; [discriminate|]].
  - eapply opt_run; [discriminate|discriminate|exact Hst|]. eapply runs_next with (L' := Lf); [cbn; lia| |apply runs_end; cbn; lia].
    assert (B := bp_ok S qp (computeDerivatives S dyn obj (l_x L0) (l_u L0)) (f_cost (l_f L0)) (l_u L0) bs (s_mult0 S) 0 bs' Vs E).
    assert (G0 : s_gradtol S <= gradient_norm S bs' (l_u L0)).
    { unfold gradient_norm. change (l_u L0) with (f_u F). change (s_tdim S) with 1%nat. change (s_udim S) with 1%nat. change (s_gradtol S) with 0. cbn [rsum seq map rmaxl INR]. rewrite U0, Rabs_R0. assert (P := Rabs_pos (ff (bs' 0%nat) 0%nat)). replace (0 + 1) with 1 by ring. unfold Rdiv. rewrite Rinv_1. lra. }
    assert (HLS : (F1, Some 1) = line_search S dyn obj (s_alphas S) L0 bs' (l_f L0)).
    { change (s_alphas S) with [1]. cbn [line_search]. change (applyController S dyn obj (l_x L0) (seqplus (l_u L0) (seqscal 1 bs'))) with F1. rewrite (proj2 (ltb_true 0 (cost_change S L0 F1))) by exact CC. reflexivity. }
    assert (I := it_step S dyn obj qp L0 _ true bs' (s_mult0 S) 0 F1 (Some 1) eq_refl B G0 HLS). cbv zeta iota beta in I.
    assert (R1 : ltb (rmin_list (s_alphas S)) 1 = false) by (apply ltb_false; cbn; lra). rewrite !R1 in I.
    replace (ltb (Rabs (cost_change S L0 F1)) (s_costtol S)) with false in I by (symmetry; apply ltb_false; cbn; apply Rabs_pos).
    exact I.
  - change (l_x Lf 1%nat 0%nat) with (f_x F1 1%nat 0%nat). rewrite X3, Rabs_pos_eq by lra. cbn. lra.
Qed.
Print Assumptions C23_divergence_accepted_refuted.
(** The states the consistency theorems speak of exist, and a run of the solver with an accepted step is in the proof above. *)
Example C24_visited_exists qp bs ds F0 : exists L, visited (bad_settings 1 1 0) bad_dyn bad_obj qp (fun _ _ => 0) (fun _ => ctrl0) bs ds F0 0 L.
Proof. destruct (bad_rollout 1 1 0 F0) as (ND & _). eexists. apply vis_start. unfold start. rewrite ND. reflexivity. Qed.

(** * Theorems about the LQR solver (C23, C24, C26, C46) *)
From Coq Require Import Reals List Arith ZArith Bool Lia Lra FunctionalExtensionality.
From Verif Require Import Base BaseProofs IpModel BnbProofs LbfgsProofs LqrModel LqrSpec LqrProofs LqrProofs2 LqrProofs3 LqrProofs4 LqrProofs5 LqrProofs6.
Import ListNotations.
Open Scope R_scope.

(** ** C24: the stored trajectory is the one its controls produce, within the limits, and the stored cost is its cost. *)
Definition stored_ok (S : stgs) dyn (obj : vec -> ctrl -> nat -> bool -> R) (x0 : vec) (L : lstate) : Prop :=
  l_x L 0%nat = x0 /\
  (forall t, (t < s_tdim S)%nat -> l_x L (t + 1)%nat = internal_dynamics S dyn (l_x L t) (l_u L t) t) /\
  (s_limits S = true -> forall t i, (t < s_tdim S)%nat -> s_umin S i <= s_umax S i -> s_umin S i <= ff (l_u L t) i <= s_umax S i) /\
  l_cost L = sum (s_tdim S) (fun t => obj (l_x L t) (l_u L t) t false) + obj (l_x L (s_tdim S)) ctrl0 (s_tdim S) true.
Lemma stored_iff S dyn obj x0 L : stored_ok S dyn obj x0 L <-> consistent S dyn obj x0 (l_x L) (l_u L) (l_cost L).
Proof. split; [intros (H1 & H2 & H3 & H4); now constructor|intros [H1 H2 H3 H4]; repeat split; auto; now apply H3]. Qed.
(** At the head of every iteration ... *)
Theorem C24_trajectory_consistent S dyn obj qp xs us bs ds F0 i L : s_alphas S <> [] -> visited S dyn obj qp xs us bs ds F0 i L -> stored_ok S dyn obj (xs 0%nat) L.
Proof. intros Hne H. apply stored_iff. now apply (visited_consistent S dyn obj qp xs us bs ds F0 i). Qed.
Print Assumptions C24_trajectory_consistent.
(** ... and in the result of optimize. *)
Theorem C24_result_consistent S dyn obj qp xs us bs ds F0 m L : optimize S dyn obj qp xs us bs ds F0 (Ok (m, L)) -> m <> EXIT_divergence -> stored_ok S dyn obj (xs 0%nat) L.
Proof.
  intros H Hm. apply stored_iff. inversion H as [|o Ht Ha Hs E|L0 o Ht Ha Hs Hr E]; subst.
  - exfalso. unfold start in Hs. destruct (f_div _) in Hs; [|discriminate]. injection Hs as <- _. now apply Hm.
  - apply (runs_consistent S dyn obj qp (xs 0%nat) 0 L0 (m, L) Hr). now apply (start_consistent S dyn obj xs us bs ds F0).
Qed.
Print Assumptions C24_result_consistent.
(** EXIT_divergence is reported only when the given controls, scaled by every line search coefficient, all leave the divergence limit; the
    trajectory is then the one that was given. *)
Theorem C24_divergence S dyn obj qp xs us bs ds F0 L : optimize S dyn obj qp xs us bs ds F0 (Ok (EXIT_divergence, L)) ->
  l_x L = xs /\ l_u L = us /\ forall a, In a (s_alphas S) -> let F := applyController S dyn obj xs (seqscal a us) in
    exists t i, (t < s_tdim S)%nat /\ (i < s_xdim S)%nat /\ s_divlimit S < Rabs (f_x F (t + 1)%nat i).
Proof.
  intros H. inversion H as [|o Ht Ha Hs E|L0 o Ht Ha Hs Hr E]; subst.
  - unfold start in Hs. destruct (f_div (initial_rollout S dyn obj (s_alphas S) xs us F0)) eqn:E; [|discriminate]. injection Hs as <-. cbn. split; [reflexivity|]. split; [reflexivity|].
    intros a Hin. assert (D := rollout_div S dyn obj _ xs us F0 Ha E a Hin). destruct (apply_ok S dyn obj xs (seqscal a us)) as (_ & _ & _ & I4). apply I4 in D.
    destruct D as (t & Ht' & D). unfold exceeds in D. apply existsb_exists in D. destruct D as (i & Hi & D). apply in_seq in Hi. apply ltb_true in D. exists t, i. repeat split; auto. lia.
  - exfalso. clear - Hr. remember (EXIT_divergence, L) as o. revert Heqo. induction Hr as [i L1 Hi|i L1 o Hi Hit|i L1 L2 o Hi Hit Hr IH]; intros Hq; [discriminate|subst o|now apply IH].
    inversion Hit as [|ds' flag bs' mult reg F acc Hd Hb Hg HF Ho]. destruct acc as [a|]; cbv zeta in Ho.
    + destruct (ltb (Rabs _) (s_costtol S)); discriminate.
    + destruct (ltb (s_maxreg S) _); discriminate.
Qed.
Print Assumptions C24_divergence.

(** ** C23: the cost never increases *)
(** One iteration either strictly lowers the stored cost or leaves trajectory, controls and cost unchanged. *)
Theorem C23_iteration S dyn obj qp L o : lqr_iter S dyn obj qp L o ->
  let L' := match o with inl (_, L') => L' | inr L' => L' end in
  l_cost L' < l_cost L \/ (l_x L' = l_x L /\ l_u L' = l_u L /\ l_cost L' = l_cost L).
Proof. apply iter_drop. Qed.
Print Assumptions C23_iteration.
(** The same for a whole run, compared with the simulated initial controls. *)
Theorem C23_run S dyn obj qp xs us bs ds F0 m L L0 : start S dyn obj xs us bs ds F0 = inr L0 -> optimize S dyn obj qp xs us bs ds F0 (Ok (m, L)) ->
  l_cost L < l_cost L0 \/ (l_x L = l_x L0 /\ l_u L = l_u L0 /\ l_cost L = l_cost L0).
Proof.
  intros Hs H. inversion H as [|o Ht Ha Hs' E|L1 o Ht Ha Hs' Hr E]; subst; rewrite Hs in Hs'; [discriminate|]. injection Hs' as <-. apply (runs_drop S dyn obj qp 0 L0 (m, L) Hr).
Qed.
Print Assumptions C23_run.
(** No more iterations than the setting allows. *)
Theorem C23_iterations S dyn obj qp xs us bs ds F0 i L : visited S dyn obj qp xs us bs ds F0 i L -> (i <= s_maxit S)%nat.
Proof. intros H. destruct H; lia. Qed.
Print Assumptions C23_iterations.
(** With an increase factor above one and a positive minimal regularization optimize returns, whatever the problem. *)
Theorem C23_terminates S dyn obj qp xs us bs ds F0 : 1 < s_incr S -> 0 < s_minreg S -> exists r, optimize S dyn obj qp xs us bs ds F0 r.
Proof.
  intros H1 H2. destruct (Nat.eq_dec (s_tdim S) 0) as [E|E]; [eexists; now apply opt_ub; left|].
  destruct (s_alphas S) as [|a al] eqn:Ea; [eexists; apply opt_ub; right; exact Ea|]. assert (Ha : s_alphas S <> []) by congruence.
  destruct (start S dyn obj xs us bs ds F0) as [o|L] eqn:Es; [exists (Ok o); now apply opt_div|].
  destruct (runs_total S dyn obj qp H1 H2 (s_maxit S) 0 L ltac:(lia)) as (o & Ho). exists (Ok o). now apply (opt_run _ _ _ _ _ _ _ _ _ L).
Qed.
Print Assumptions C23_terminates.

(** *** What is false *)
(** A one-state, one-control problem over one step: x' = x + u, stage cost -u^2, no final cost.  The Hessian is -2 everywhere. *)
Definition bad_dyn : vec -> ctrl -> nat -> vec := fun _ u _ => ff u.
Definition bad_obj : vec -> ctrl -> nat -> bool -> R := fun _ u _ fin => if fin then 0 else - (ff u 0%nat * ff u 0%nat).
Definition bad_settings (minreg maxreg reg0 : R) : stgs := mkStgs 1 1 1 10 false false (fun _ => 0) (fun _ => 0) 100 [1] reg0 1 2 minreg maxreg (1 / 1000) (1 / 1000).
Lemma bad_fails minreg maxreg reg0 lambda xs us cost un bs qp : lambda < 2 -> let S := bad_settings minreg maxreg reg0 in
  exists Vs, optimizeController S qp (computeDerivatives S bad_dyn bad_obj xs us) cost lambda un bs = (bs, Some 0%nat, Vs).
Proof.
  intros Hl. cbv zeta. set (S := bad_settings minreg maxreg reg0). unfold optimizeController. change (s_tdim S) with 1%nat. cbn [bp_loop]. set (ds := computeDerivatives S bad_dyn bad_obj xs us).
  assert (E : bp_step S qp (ds 0%nat) (cost 0%nat) lambda (un 0%nat) (mkV (cost 1%nat) (d_cx (ds 1%nat)) (d_cxx (ds 1%nat))) = None).
  { assert (hp := h_pos).
    assert (X : d_cxx (ds 1%nat) 0%nat 0%nat = 0).
    { unfold ds, computeDerivatives. change (1 <? s_tdim S)%nat with false. cbv iota.
      destruct (derivatives_closed S bad_dyn bad_obj (xs 1%nat) (mkCtrl (fun _ => 0) (fb (us (s_tdim S - 1)%nat))) 1) as (_ & _ & _ & _ & X & _). rewrite X by (cbn; lia). unfold second, bad_obj. cbn. field. lra. }
    assert (Y : d_cuu (ds 0%nat) 0%nat 0%nat = -2).
    { unfold ds, computeDerivatives. change (0 <? s_tdim S)%nat with true. cbv iota.
      destruct (derivatives_closed S bad_dyn bad_obj (xs 0%nat) (us 0%nat) 0) as (_ & _ & _ & _ & _ & _ & Y). rewrite Y by (cbn; lia). unfold second, bad_obj, bump, upd. cbn. field. lra. }
    unfold bp_step. cbn [v_xx]. change (s_udim S) with 1%nat. change (s_xdim S) with 1%nat. cbn [llt].
    match goal with |- context [leb ?a 0] => assert (Z : a = -2 + lambda) end.
    { unfold mplus, mscal, mm, tr, ident. cbn [rsum Nat.eqb]. rewrite X, Y. ring. }
    rewrite Z. rewrite (proj2 (leb_true (-2 + lambda) 0)) by lra. reflexivity. }
  rewrite E. eexists. reflexivity.
Qed.
Lemma bad_rollout minreg maxreg reg0 F0 : let S := bad_settings minreg maxreg reg0 in
  let F := initial_rollout S bad_dyn bad_obj (s_alphas S) (fun _ _ => 0) (fun _ => ctrl0) F0 in f_div F = false /\ forall i, ff (f_u F 0%nat) i = 0.
Proof.
  cbv zeta. set (S := bad_settings minreg maxreg reg0).
  set (F := initial_rollout S bad_dyn bad_obj (s_alphas S) (fun _ _ => 0) (fun _ => ctrl0) F0).
  assert (EF : F = applyController S bad_dyn bad_obj (fun _ _ => 0) (seqscal 1 (fun _ => ctrl0))) by (unfold F; cbn [s_alphas S bad_settings initial_rollout]; destruct (f_div _); reflexivity).
  destruct (apply_ok S bad_dyn bad_obj (fun _ _ => 0) (seqscal 1 (fun _ => ctrl0))) as (I1 & I2 & _ & I4). rewrite <- EF in I1, I2, I4.
  assert (U0 : forall i, ff (f_u F 0%nat) i = 0).
  { intros i. destruct (I2 0%nat ltac:(cbn; lia)) as (-> & _). cbn [ff]. unfold law. cbn [s_limits S bad_settings]. unfold vplus, seqscal, cscal, vscal, mv, ctrl0. cbn. ring. }
  assert (ND : f_div F = false).
  { apply not_true_iff_false. intros D. apply I4 in D. destruct D as (t & Ht & D). change (s_tdim S) with 1%nat in Ht. assert (t = 0%nat) by lia. subst t. destruct (I2 0%nat ltac:(cbn; lia)) as (_ & E & _). rewrite E in D.
    unfold exceeds in D. change (s_xdim S) with 1%nat in D. cbn [seq existsb] in D. rewrite orb_false_r in D. apply ltb_true in D. unfold internal_dynamics, bad_dyn, vplus in D. cbn [s_rk S bad_settings] in D. rewrite I1, U0 in D. cbn in D. rewrite Rplus_0_l, Rabs_R0 in D. lra. }
  split; [exact ND|exact U0].
Qed.
(** Without a positive minimal regularization and starting from 0 the solver loops for ever. *)
Theorem C23_terminates_refuted : exists S dyn obj xs us, s_tdim S <> 0%nat /\ s_alphas S <> [] /\ 1 < s_incr S /\ forall qp bs ds F0, ~ exists r, optimize S dyn obj qp xs us bs ds F0 r.
Proof.
  exists (bad_settings 0 1 0), bad_dyn, bad_obj, (fun _ _ => 0), (fun _ => ctrl0). split; [discriminate|]. split; [discriminate|]. split; [cbn; lra|]. intros qp bs ds F0 (r & H).
  set (S := bad_settings 0 1 0) in *.
  assert (NB : forall xs us cost un bs mult reg o, reg = 0 -> ~ bp_runs S qp (computeDerivatives S bad_dyn bad_obj xs us) cost un bs mult reg o).
  { intros xs us cost un bs0 mult reg o Hr Hb. induction Hb as [bs1 mult reg bs' Vs E|bs1 mult reg bs' Vs t E C|bs1 mult reg bs' Vs t o E C Hb IH].
    - destruct (bad_fails 0 1 0 reg xs us cost un bs1 qp ltac:(lra)) as (Vs2 & E2). fold S in E2. rewrite E2 in E. discriminate.
    - rewrite Hr, Rmult_0_l in C. cbn in C. rewrite Rmax_left in C by lra. lra.
    - apply IH. rewrite Hr, Rmult_0_l. cbn. apply Rmax_left. lra. }
  inversion H as [[X|X]|o Ht Ha Hs E|L o Ht Ha Hs Hr E]; subst; try discriminate.
  - unfold start in Hs. destruct (bad_rollout 0 1 0 F0) as (ND & _). fold S in ND. rewrite ND in Hs. discriminate.
  - unfold start in Hs. destruct (f_div _) in Hs; [discriminate|]. injection Hs as <-. inversion Hr as [i L Hi|i L o' Hi Hit|i L L' o' Hi Hit Hr']; subst; [cbn in Hi; lia| |];
    inversion Hit as [ds' flag bs' mult reg Hd Hb Hg|ds' flag bs' mult reg F acc Hd Hb Hg HF]; cbn [l_devs] in Hd; subst ds'; eapply NB in Hb; auto.
Qed.
Print Assumptions C23_terminates_refuted.
(** SUCC_gradient does not mean that the controls are stationary: a backward pass that fails until the maximal regularization leaves the
    (zero) controls of the fresh solver, whose norm is below any tolerance.  Here every other control has a smaller cost than the "success". *)
Theorem C23_success_refuted : exists S dyn obj xs us, 1 < s_incr S /\ 0 < s_minreg S /\ forall qp ds F0,
  exists L, optimize S dyn obj qp xs us (fun _ => ctrl0) ds F0 (Ok (SUCC_gradient, L)) /\
  forall u : ctrl, ff u 0%nat <> 0 -> obj (xs 0%nat) u 0%nat false < obj (l_x L 0%nat) (l_u L 0%nat) 0%nat false.
Proof.
  exists (bad_settings 1 (1 / 2) 0), bad_dyn, bad_obj, (fun _ _ => 0), (fun _ => ctrl0). split; [cbn; lra|]. split; [cbn; lra|]. intros qp ds F0. set (S := bad_settings 1 (1 / 2) 0).
  destruct (bad_rollout 1 (1 / 2) 0 F0) as (ND & U0). fold S in ND, U0. set (F := initial_rollout S bad_dyn bad_obj (s_alphas S) (fun _ _ => 0) (fun _ => ctrl0) F0) in *.
  eexists. split.
  - eapply opt_run; [discriminate|discriminate|unfold start; fold F; rewrite ND; reflexivity|]. apply runs_out; [cbn; lia|].
    eapply it_gradient; [reflexivity| |].
    + cbn [l_devs l_x l_u l_b l_f l_mult l_reg]. destruct (bad_fails 1 (1 / 2) 0 (s_reg0 S) (f_x F) (f_u F) (f_cost F) (f_u F) (fun _ => ctrl0) qp ltac:(cbn; lra)) as (Vs & E). fold S in E.
      eapply bp_stop; [exact E|]. cbn. apply Rlt_le_trans with 1; [lra|apply Rmax_r].
    + cbn [l_u]. unfold gradient_norm. cbn. rewrite Rabs_R0. unfold Rdiv. rewrite !Rmult_0_l, Rplus_0_l, Rmult_0_l. lra.
  - cbn [l_x l_u]. intros u Hu. unfold bad_obj. rewrite U0. nra.
Qed.
Print Assumptions C23_success_refuted.

(** ** C26: finite differences *)
(** The arguments come back unchanged (in exact arithmetic), whatever is differentiated. *)
Theorem C26_arguments_restored {A} (quot : A -> A -> A) f zero k x g same cols rows (y z : vec) :
  fst (fd1 quot f zero k x) = x /\ exists D, fd2 g same cols rows y z y z = (y, z, y, z, D).
Proof. split; [apply fd1_ok|]. destruct (fd2_ok g same cols rows y z) as (D & E & _). now exists D. Qed.
Print Assumptions C26_arguments_restored.
(** Exact Jacobians for affine dynamics, exact gradients and Hessians for quadratic costs, at every point. *)
Theorem C26_exact_jacobian S (f : vec -> vec -> nat -> vec) obj x u t A B c :
  affine (s_xdim S) (s_udim S) (fun y v => internal_dynamics S (fun s w => f s (ff w)) y (mkCtrl v (fb u)) t) A B c ->
  let d := derivatives_at S (fun s w => f s (ff w)) obj x u t in
  (forall i j, (i < s_xdim S)%nat -> (j < s_xdim S)%nat -> d_fx d i j = A i j) /\ (forall i j, (i < s_xdim S)%nat -> (j < s_udim S)%nat -> d_fu d i j = B i j).
Proof.
  intros HA. cbv zeta. set (dyn := fun s w => f s (ff w)) in *. destruct (derivatives_closed S dyn obj x u t) as (Ex & Eu & _). assert (hp := h_pos).
  assert (G : forall y v i, (i < s_xdim S)%nat -> internal_dynamics S dyn y (mkCtrl v (fb u)) t i = mv (s_xdim S) A y i + mv (s_udim S) B v i + c i) by (intros y v i Hi; rewrite (HA y v i Hi), !sum_rsum; reflexivity).
  split; intros i j Hi Hj.
  - rewrite Ex by exact Hj. destruct u as [uf uK]. cbn [fb ff] in *. rewrite !G, !bump_unit, !mv_plus, !mv_scal, !mv_unit by assumption. field. lra.
  - rewrite Eu by exact Hj. rewrite !G, !bump_unit, !mv_plus, !mv_scal, !mv_unit by assumption. field. lra.
Qed.
Print Assumptions C26_exact_jacobian.
Theorem C26_exact_gradient_hessian S dyn (l : vec -> vec -> nat -> bool -> R) x u t c0 b d Q R_ N : let n := s_xdim S in let m := s_udim S in
  quadratic n m (fun y v => l y v t (Nat.eqb t (s_tdim S))) c0 b d Q R_ N ->
  let D := derivatives_at S dyn (fun s w => l s (ff w)) x u t in
  (forall i, (i < n)%nat -> d_cx D i = b i + sum n (fun j => Q i j * x j) + sum m (fun k => N k i * ff u k)) /\
  (forall k, (k < m)%nat -> d_cu D k = d k + sum m (fun j => R_ k j * ff u j) + sum n (fun j => N k j * x j)) /\
  (forall i j, (i < n)%nat -> (j < n)%nat -> d_cxx D i j = Q i j) /\ (forall k j, (k < m)%nat -> (j < m)%nat -> d_cuu D k j = R_ k j) /\
  (forall i k, (i < n)%nat -> (k < m)%nat -> d_cxu D i k = N k i).
Proof.
  intros n m HQ. cbv zeta. destruct (derivatives_closed S dyn (fun s w => l s (ff w)) x u t) as (_ & _ & Ecx & Ecu & Exx & Exu & Euu). cbn [ff] in *.
  split; [|split; [|split; [|split]]].
  - intros i Hi. rewrite Ecx, !sum_rsum by exact Hi. exact (quad_cx _ _ _ _ _ _ _ _ _ HQ x (ff u) i Hi).
  - intros i Hi. rewrite Ecu, !sum_rsum by exact Hi. exact (quad_cu _ _ _ _ _ _ _ _ _ HQ x (ff u) i Hi).
  - intros i j Hi Hj. rewrite Exx by assumption. exact (quad_cxx _ _ _ _ _ _ _ _ _ HQ x (ff u) i j Hi Hj).
  - intros i j Hi Hj. rewrite Euu by assumption. exact (quad_cuu _ _ _ _ _ _ _ _ _ HQ x (ff u) i j Hi Hj).
  - intros i j Hi Hj. rewrite Exu by assumption. exact (quad_cxu _ _ _ _ _ _ _ _ _ HQ x (ff u) i j Hi Hj).
Qed.
Print Assumptions C26_exact_gradient_hessian.
(** The Hessians are symmetric for every objective, quadratic or not. *)
Theorem C26_hessians_symmetric S dyn obj x u t : let D := derivatives_at S dyn obj x u t in
  (forall i j, (i < s_xdim S)%nat -> (j < s_xdim S)%nat -> d_cxx D i j = d_cxx D j i) /\ (forall i j, (i < s_udim S)%nat -> (j < s_udim S)%nat -> d_cuu D i j = d_cuu D j i).
Proof.
  cbv zeta. destruct (derivatives_closed S dyn obj x u t) as (_ & _ & _ & _ & Exx & _ & Euu). split; intros i j Hi Hj; [rewrite !Exx by assumption|rewrite !Euu by assumption]; apply second_sym.
Qed.
Print Assumptions C26_hessians_symmetric.
(** Beyond quadratics the differences are not exact: the gradient of x^3 at 0. *)
Theorem C26_exactness_refuted : exists S dyn (obj : vec -> ctrl -> nat -> bool -> R), (forall x u t b, obj x u t b = x 0%nat ^ 3) /\
  forall u, d_cx (derivatives_at S dyn obj (fun _ => 0) u 0) 0%nat = h_devs ^ 2 /\ h_devs ^ 2 <> 3 * 0 ^ 2.
Proof.
  exists (bad_settings 1 1 1), bad_dyn, (fun x _ _ _ => x 0%nat ^ 3). split; [reflexivity|]. intros u. assert (hp := h_pos). split.
  - destruct (derivatives_closed (bad_settings 1 1 1) bad_dyn (fun x _ _ _ => x 0%nat ^ 3) (fun _ => 0) u 0) as (_ & _ & Ecx & _). rewrite Ecx by (cbn; lia). unfold bump, upd. cbn. field. lra.
  - intros E. assert (0 < h_devs ^ 2) by (apply pow_lt; exact hp). lra.
Qed.
Print Assumptions C26_exactness_refuted.

(** ** C46: the integration step *)
(** Euler unless the setting asks for Runge-Kutta; then the classical scheme, for a problem whose dynamics ignore the feedback matrix. *)
Theorem C46_scheme S (f : vec -> vec -> nat -> vec) x u t :
  internal_dynamics S (fun y w s => f y (ff w) s) x u t = (if s_rk S then rk4_step else euler_step) (fun y => f y (ff u) t) x.
Proof. apply (internal_step S f). Qed.
Print Assumptions C46_scheme.
(** State (time, y) with y' = p(time): exact for cubic p. *)
Theorem C46_cubic_exact S (h c0 c1 c2 c3 : R) (x : vec) u t : s_rk S = true ->
  let p s := c0 + c1 * s + c2 * s ^ 2 + c3 * s ^ 3 in
  let P s := c0 * s + c1 * s ^ 2 / 2 + c2 * s ^ 3 / 3 + c3 * s ^ 4 / 4 in
  let dyn := fun (y : vec) (_ : ctrl) (_ : nat) (i : nat) => match i with O => h | _ => h * p (y 0%nat) end in
  let x' := internal_dynamics S dyn x u t in
  x' 0%nat = x 0%nat + h /\ x' 1%nat = x 1%nat + (P (x 0%nat + h) - P (x 0%nat)).
Proof.
  intros HR. cbv zeta. unfold internal_dynamics. rewrite HR. unfold vplus, vscal. split; field.
Qed.
Print Assumptions C46_cubic_exact.
(** x' = a x with step h (increment z x, z = a h): the growth factor is the exponential series up to order four. *)
Theorem C46_linear_order4 S (z : R) (x : vec) u t i : s_rk S = true ->
  internal_dynamics S (fun y _ _ => fun j => z * y j) x u t i = taylor4 z * x i.
Proof. intros HR. unfold internal_dynamics. rewrite HR. unfold vplus, vscal, taylor4. field. Qed.
Print Assumptions C46_linear_order4.
(** Affine dynamics give an affine step with either scheme, for any number of states and controls. *)
Theorem C46_affine_step S (f : vec -> vec -> nat -> vec) t A B c : affine (s_xdim S) (s_udim S) (fun x u => f x u t) A B c ->
  exists A' B' c', affine (s_xdim S) (s_udim S) (fun x u => internal_dynamics S (fun y w s => f y (ff w) s) x (mkCtrl u (fun _ _ => 0)) t) A' B' c'.
Proof.
  intros HA. pose (S1 := mkStgs 1 (s_xdim S) (s_udim S) 0 (s_rk S) false (fun _ => 0) (fun _ => 0) 0 [] 0 0 0 0 0 0 0).
  assert (LQ : linear_quadratic 1 (s_xdim S) (s_udim S) (fun x u _ => f x u t) (fun _ _ _ => 0) (fun _ => 0) (fun _ => A) (fun _ => B) (fun _ => c) (fun _ => 0) (fun _ _ => 0) (fun _ _ => 0) (fun _ _ _ => 0) (fun _ _ _ => 0) (fun _ _ _ => 0) 0 (fun _ => 0) (fun _ _ => 0)).
  { constructor; auto.
    - intros. constructor; auto. intros x u. rewrite !inner_dot, !bilin_dot. rewrite !dot_zero_l. unfold vdot. rewrite !rsum_zero; [ring|..]; intros; unfold mv; rewrite rsum_zero; intros; ring.
    - intros x. rewrite inner_dot, bilin_dot, dot_zero_l. unfold vdot. rewrite rsum_zero; [ring|]. intros; unfold mv; rewrite rsum_zero; intros; ring. }
  destruct (step_affine S1 (fun x u _ => f x u t) _ _ _ _ _ _ _ _ _ _ _ _ _ _ LQ 0 ltac:(cbn; lia)) as (A' & B' & c' & H). exists A', B', c'. intros x u i Hi. change (fun y w s => f y (ff w) s) with (pdyn f). rewrite (internal_step S f). exact (H x u i Hi).
Qed.
Print Assumptions C46_affine_step.
(** The settings loader always switches Runge-Kutta off (SolverLqrSetting.cpp l.27), so a problem keeps Euler's scheme unless the program
    itself changes the setting; Euler is not exact on a linear right-hand side. *)
Theorem C46_euler_inexact_refuted S (x : vec) u t : s_rk S = false -> x 0%nat = 0 ->
  let dyn := fun (y : vec) (_ : ctrl) (_ : nat) (i : nat) => match i with O => 1 | _ => 1 * y 0%nat end in
  internal_dynamics S dyn x u t 1%nat <> x 1%nat + ((x 0%nat + 1) ^ 2 / 2 - x 0%nat ^ 2 / 2).
Proof. intros HR Hx. cbv zeta. unfold internal_dynamics. rewrite HR. unfold vplus. rewrite Hx. lra. Qed.
Print Assumptions C46_euler_inexact_refuted.

(** * Properties C14 and C54: the interior-point loop.
    [step : nat -> itr -> stepres] is any behaviour of scaling update, factorisation and Newton step at each iteration; [best0], [binfo0],
    [last0] are whatever the solver object held before the call. *)
From Coq Require Import Reals List Arith Bool Lia Lra Psatz.
From Verif Require Import Base BaseProofs ConicSpec ConeModel ConeSpec ConeProofs ConeProofs2 ConeProofs3 ConeProps IpModel IpSpec IpProofs IpProofs2 IpProofs3 IpProofs4.
Import ListNotations.
Open Scope R_scope.

(** C14: at most SolverMaxIters steps are made, whatever they do (the outcome does not depend on the step oracle from that iteration on),
    and the returned code is never NotConverged. *)
Theorem C14_iteration_limit : forall S d step o0 best0 binfo0 last0,
  let out := ip_optimize S d step o0 best0 binfo0 last0 in
  (o_steps out <= t_maxiters S)%nat /\ o_code out <> NotConverged /\
  (forall step', (forall k o, (k < t_maxiters S)%nat -> step k o = step' k o) -> out = ip_optimize S d step' o0 best0 binfo0 last0).
Proof.
  intros. pose proof (loop_steps S d step (Datatypes.S (t_maxiters S)) 0 Indeterminate last0 (mkLs o0 best0 binfo0 (t_nan S) 0) ltac:(lia) ltac:(lia)) as [H1 H2].
  split; [exact H1|]. split; [exact H2|]. intros step' H. apply loop_calls; [exact H|lia].
Qed.
Print Assumptions C14_iteration_limit.

(** C14: the returned iterate is one of the iterates of the run, and the reported statistics are the ones of that iterate; a fallback to the
    best iterate never returns a larger gap than the starting point. *)
Theorem C14_returned_iterate : forall S d step o0 best0 binfo0 last0, (1 <= t_maxiters S)%nat ->
  let out := ip_optimize S d step o0 best0 binfo0 last0 in
  (exists k, (k <= t_maxiters S)%nat /\ visited step o0 k (o_opt out)) /\
  o_info out = updateStatistics S d (o_opt out) (computeResiduals d (o_opt out)) /\
  (In (o_code out) [OptimalInacc; DualInfInacc; PrimalInfInacc; ReachMaxIters; PrSearchDirection; PrSlacksLeaveCone] ->
   ip (rows d) (i_s (o_opt out)) (i_z (o_opt out)) <= ip (rows d) (i_s o0) (i_z o0)).
Proof.
  intros S d step o0 best0 binfo0 last0 HM out. destruct (optimize_good S d step o0 best0 binfo0 last0 HM) as [G1 G2 _ _ _ _ _ G8]. fold out in G1, G2, G8.
  split; [exact G1|]. split; [exact G2|]. intros HI. destruct G8 as [H|H]; [exfalso; simpl in H, HI; intuition congruence|].
  unfold statsof, updateStatistics in H. cbn [f_gap] in H. change vdot with ip in H. rewrite rows_m in H. exact H.
Qed.
Print Assumptions C14_returned_iterate.

(** C14: Optimal means that the returned iterate (divided by tau) meets the full tolerances, OptimalInacc the relaxed ones, and that
    variables are scaled back. *)
Theorem C14_optimal_tolerances : forall S d step o0 best0 binfo0 last0, (1 <= t_maxiters S)%nat ->
  t_rel (t_full S) <= t_nan S -> t_rel (t_inacc S) <= t_nan S ->
  let out := ip_optimize S d step o0 best0 binfo0 last0 in let o := o_opt out in 0 < i_tau o ->
  (o_code out = Optimal -> residuals_within (t_feas (t_full S)) d o /\ gap_within (t_full S) d o /\ o_scaled out = true) /\
  (o_code out = OptimalInacc -> residuals_within (t_feas (t_inacc S)) d o /\ gap_within (t_inacc S) d o /\ o_scaled out = true).
Proof.
  intros S d step o0 best0 binfo0 last0 HM HN1 HN2 out o HT. destruct (optimize_good S d step o0 best0 binfo0 last0 HM) as [_ _ _ G4 G5 _ G7 _]. fold out in G4, G5, G7. fold o in G4, G5.
  split; intros EC; rewrite EC in *.
  - specialize (G4 ltac:(simpl; auto)). pose proof (check_optimal S Full (computeResiduals d o) (statsof S d o) (i_tau o) (i_kappa o)) as C. rewrite G4 in C.
    destruct (C ltac:(simpl; auto)) as (P & D & G & _). split; [|split].
    + destruct (stat_pres S d o _ HT P). split; [assumption|]. split; [assumption|]. apply (stat_dres S d o _ HT D).
    + apply (stat_gap S d o _ HT HN1 G).
    + destruct G7 as [H|H]; [exact H|simpl in H; intuition discriminate].
  - destruct (G5 ltac:(simpl; auto)) as (k & o' & _ & E). pose proof (check_optimal S Reduced (computeResiduals d o') (statsof S d o) (i_tau o) (i_kappa o)) as C. rewrite E in C.
    destruct (C ltac:(simpl; auto)) as (P & D & G & _). split; [|split].
    + destruct (stat_pres S d o _ HT P). split; [assumption|]. split; [assumption|]. apply (stat_dres S d o _ HT D).
    + apply (stat_gap S d o _ HT HN2 G).
    + destruct G7 as [H|H]; [exact H|simpl in H; intuition discriminate].
Qed.
Print Assumptions C14_optimal_tolerances.

(** C14: what these tolerances imply: for multipliers in the cone, the returned x/tau costs at most
    gap/tau^2 plus a multiple of the feasibility tolerance more than any feasible point. *)
Theorem C14_optimal_is_near_optimal : forall feas d o x s, Forall (fun n => (1 <= n)%nat) (p_q d) ->
  0 < i_tau o -> in_closed_cone (p_nl d) (p_q d) (i_z o) -> residuals_within feas d o -> primal_feasible d x s ->
  let t := i_tau o in
  ip (p_n d) (p_c d) (i_x o) / t <= ip (p_n d) (p_c d) x + ip (rows d) (i_s o) (i_z o) / t ^ 2
    + feas * (scale_x d o * (norm2 (p_n d) (i_x o) / t + norm2 (p_n d) x) + scale_y d o * (norm2 (p_p d) (i_y o) / t) + scale_z d o * (norm2 (rows d) (i_z o) / t)).
Proof.
  intros feas d o x s F HT HZ (RY & RZ & RX) HP t. pose proof (suboptimality d o x s F HT HZ HP) as H. fold t in H, RX, RY, RZ, HT.
  pose proof (norm2_pos (p_n d) (i_x o)). pose proof (norm2_pos (p_n d) x). pose proof (norm2_pos (p_p d) (i_y o)). pose proof (norm2_pos (rows d) (i_z o)).
  assert (AUX : forall r f b, 0 <= b -> r / t < f -> r * b <= t * f * b).
  { intros r f b Hb Hr. apply Rmult_le_compat_r; [exact Hb|]. apply (Rmult_lt_compat_l t) in Hr; [|exact HT]. replace (t * (r / t)) with r in Hr by (field; lra). lra. }
  pose proof (AUX _ _ (norm2 (p_n d) (i_x o) + t * norm2 (p_n d) x) ltac:(nra) RX) as B1.
  pose proof (AUX _ _ (norm2 (p_p d) (i_y o)) ltac:(lra) RY) as B2. pose proof (AUX _ _ (norm2 (rows d) (i_z o)) ltac:(lra) RZ) as B3.
  apply Rmult_le_reg_l with (t * t); [nra|].
  replace (t * t * (ip (p_n d) (p_c d) (i_x o) / t)) with (t * ip (p_n d) (p_c d) (i_x o)) by (field; lra).
  replace (t * t * (ip (p_n d) (p_c d) x + ip (rows d) (i_s o) (i_z o) / t ^ 2
    + feas * (scale_x d o * (norm2 (p_n d) (i_x o) / t + norm2 (p_n d) x) + scale_y d o * (norm2 (p_p d) (i_y o) / t) + scale_z d o * (norm2 (rows d) (i_z o) / t))))
    with (t * (t * ip (p_n d) (p_c d) x) + ip (rows d) (i_s o) (i_z o) + t * (feas * scale_x d o) * (norm2 (p_n d) (i_x o) + t * norm2 (p_n d) x)
     + t * (feas * scale_y d o) * norm2 (p_p d) (i_y o) + t * (feas * scale_z d o) * norm2 (rows d) (i_z o)) by (field; lra).
  lra.
Qed.
Print Assumptions C14_optimal_is_near_optimal.

(** C14: PrimalInf (resp. PrimalInfInacc), with z in the cone: every feasible point has norm above reltol/feastol.
    DualInf (resp. DualInfInacc), with s in the cone: every dual feasible point is at least that far out. *)
Theorem C14_primal_infeasible : forall S d step o0 best0 binfo0 last0, (1 <= t_maxiters S)%nat -> Forall (fun n => (1 <= n)%nat) (p_q d) ->
  let out := ip_optimize S d step o0 best0 binfo0 last0 in let o := o_opt out in
  in_closed_cone (p_nl d) (p_q d) (i_z o) ->
  forall feas, feas <= t_nan S -> (o_code out = PrimalInf /\ feas = t_feas (t_full S)) \/ (o_code out = PrimalInfInacc /\ feas = t_feas (t_inacc S)) ->
  forall x s, primal_feasible d x s -> t_rel (t_full S) < feas * norm2 (p_n d) x.
Proof.
  intros S d step o0 best0 binfo0 last0 HM F out o HZ feas HN HC x s HP.
  destruct (optimize_good S d step o0 best0 binfo0 last0 HM) as [_ _ _ G4 G5 _ _ _]. fold out in G4, G5. fold o in G4, G5.
  assert (P : f_pinf (statsof S d o) < feas).
  { destruct HC as [[EC ->]|[EC ->]]; rewrite EC in *.
    - specialize (G4 ltac:(simpl; auto)). pose proof (check_primal S Full (computeResiduals d o) (statsof S d o) (i_tau o) (i_kappa o)) as C. rewrite G4 in C. apply C. simpl; auto.
    - destruct (G5 ltac:(simpl; auto)) as (k & o' & _ & E). pose proof (check_primal S Reduced (computeResiduals d o') (statsof S d o) (i_tau o) (i_kappa o)) as C. rewrite E in C. apply C. simpl; auto. }
  destruct (pinf_meaning S d o feas HN P) as [A B]. pose proof (primal_certificate d x s (i_y o) (i_z o) F HP HZ) as C.
  set (M := Rmax _ 1) in *. assert (HM1 : 1 <= M) by apply Rmax_r. pose proof (norm2_pos (p_n d) x).
  assert (t_rel (t_full S) * M < feas * norm2 (p_n d) x * M) by nra. nra.
Qed.
Print Assumptions C14_primal_infeasible.
Theorem C14_dual_infeasible : forall S d step o0 best0 binfo0 last0, (1 <= t_maxiters S)%nat -> Forall (fun n => (1 <= n)%nat) (p_q d) ->
  let out := ip_optimize S d step o0 best0 binfo0 last0 in let o := o_opt out in
  in_closed_cone (p_nl d) (p_q d) (i_s o) ->
  forall feas, feas <= t_nan S -> (o_code out = DualInf /\ feas = t_feas (t_full S)) \/ (o_code out = DualInfInacc /\ feas = t_feas (t_inacc S)) ->
  forall y z, dual_feasible d y z ->
    let M := Rmax (norm2 (p_n d) (i_x o)) 1 in let Ms := Rmax (norm2 (p_n d) (i_x o) + norm2 (rows d) (i_s o)) 1 in
    t_rel (t_full S) * M < feas * (norm2 (p_p d) y * M + norm2 (rows d) z * Ms).
Proof.
  intros S d step o0 best0 binfo0 last0 HM F out o HZ feas HN HC y z HP M Ms.
  destruct (optimize_good S d step o0 best0 binfo0 last0 HM) as [_ _ _ G4 G5 _ _ _]. fold out in G4, G5. fold o in G4, G5.
  assert (P : f_dinf (statsof S d o) < feas).
  { destruct HC as [[EC ->]|[EC ->]]; rewrite EC in *.
    - specialize (G4 ltac:(simpl; auto)). pose proof (check_dual S Full (computeResiduals d o) (statsof S d o) (i_tau o) (i_kappa o)) as C. rewrite G4 in C. apply C. simpl; auto.
    - destruct (G5 ltac:(simpl; auto)) as (k & o' & _ & E). pose proof (check_dual S Reduced (computeResiduals d o') (statsof S d o) (i_tau o) (i_kappa o)) as C. rewrite E in C. apply C. simpl; auto. }
  destruct (dinf_meaning S d o feas HN P) as (A & B & C). pose proof (dual_certificate d (i_x o) (i_s o) y z F HP HZ) as D.
  fold M Ms in A, B, C. pose proof (norm2_pos (p_p d) y). pose proof (norm2_pos (rows d) z).
  assert (B1 : norm2 (p_p d) y * norm2 (p_p d) (Ax d (i_x o)) <= norm2 (p_p d) y * (feas * M)) by (apply Rmult_le_compat_l; lra).
  assert (C1 : norm2 (rows d) z * norm2 (rows d) (fun r => Gx d (i_x o) r + i_s o r) <= norm2 (rows d) z * (feas * Ms)) by (apply Rmult_le_compat_l; lra).
  lra.
Qed.
Print Assumptions C14_dual_infeasible.

(** C54: with exact KKT solves every Newton step multiplies all four residuals of the homogeneous embedding by the same factor
    1 - step (1 - sigma), solves the linearised kappa-tau equation, and (lambda away from the division guard) the scaled
    complementarity equation lambda o (W^-1 ds + W dz) = - ds_combined with ds = W (W^-1 ds). *)
Theorem C54_newton_step : forall S d o W lam sv, Forall (fun n => (1 <= n)%nat) (p_q d) ->
  0 < i_tau o -> 0 < i_kappa o -> exact_solve d (conicNTScaling (p_nl d) (p_q d) W) sv ->
  let w := newton_step S d o W lam sv in let o' := advance o w in let rho := 1 - w_step w * (1 - w_sigma w) in
  (forall i, (i < p_n d)%nat -> emb_x d o' i = rho * emb_x d o i) /\
  (forall r, (r < p_p d)%nat -> emb_y d o' r = rho * emb_y d o r) /\
  (forall r, (r < rows d)%nat -> emb_z d o' r = rho * emb_z d o r) /\
  emb_t d o' = rho * emb_t d o /\
  i_kappa o * w_dtau w + i_tau o * w_dkappa w = - w_dkcomb w /\
  eqN (rows d) (w_ds w) (conicNTScaling (p_nl d) (p_q d) W (w_dsbyW w)) /\
  ((forall i, (i < p_nl d)%nat -> 1 / 10 ^ 13 <= lam i) -> each_block (soc_margin (1 / 10 ^ 13)) (p_nl d) (p_q d) lam ->
   is_product (p_nl d) (p_q d) lam (fun i => - (w_dsbyW w i + conicNTScaling (p_nl d) (p_q d) W (w_dz w) i)) (w_dscomb w)).
Proof.
  intros S d o W lam sv F HT HK HX w o' rho.
  assert (HD : i_kappa o / i_tau o - cbh_dot d (sv (mkDir (fun i => - p_c d i) (p_b d) (p_h d))) <> 0).
  { pose proof (denom_value d W sv F HX) as DV. cbn zeta in DV. rewrite DV.
    pose proof (ip_pos (rows d) (conicNTScaling (p_nl d) (p_q d) W (d_z (sv (mkDir (fun i => - p_c d i) (p_b d) (p_h d)))))).
    assert (0 < i_kappa o / i_tau o) by (apply Rdiv_lt_0_compat; assumption). lra. }
  destruct (newton_residuals S d o W lam sv ltac:(lra) HX HD) as (N1 & N2 & N3 & N4 & N5).
  do 5 (split; [assumption|]). split; [intros i _; reflexivity|]. intros M1 M2.
  destruct (C10_division_inverse_partial (p_nl d) (p_q d) lam F M1 M2) as [_ P].
  assert (E : (fun i => - (w_dsbyW w i + conicNTScaling (p_nl d) (p_q d) W (w_dz w) i)) = conicDivision (p_nl d) (p_q d) lam (w_dscomb w)).
  { apply FunctionalExtensionality.functional_extensionality. intros i.
    change (w_dsbyW w i) with (- (conicDivision (p_nl d) (p_q d) lam (w_dscomb w) i + conicNTScaling (p_nl d) (p_q d) W (w_dz w) i)). ring. }
  rewrite E. apply P.
Qed.
Print Assumptions C54_newton_step.

(** C54, centring.  The right-hand side of the complementarity equations is the predictor-corrector one: with mu = (s.z + kappa tau)/(m + 1),
    for the affine direction (scaled: dsa = W^-1 ds, dza = W dz; linearised complementarity dsa + dza = -lambda, kappa dtau + tau dkappa = -kappa tau)
    ds_combined is lambda o lambda + dsa o dza - sigma mu e and dk_combined is kappa tau + dka dta - sigma mu, with sigma within the configured bounds. *)
Theorem C54_centring_terms : forall S d o W lam sv, Forall (fun n => (1 <= n)%nat) (p_q d) -> i_tau o <> 0 -> t_mincent S <= t_maxcent S ->
  let w := newton_step S d o W lam sv in
  let mu := (ip (rows d) (i_s o) (i_z o) + i_kappa o * i_tau o) / (INR (rows d) + 1) in
  t_mincent S <= w_sigma w <= t_maxcent S /\
  exists dsa dza dta dka pp cc,
    (forall i, dsa i + dza i = - lam i) /\ i_kappa o * dta + i_tau o * dka = - (i_kappa o * i_tau o) /\
    is_product (p_nl d) (p_q d) lam lam pp /\ is_product (p_nl d) (p_q d) dsa dza cc /\
    moved (p_nl d) (p_q d) (- (w_sigma w * mu)) (fun i => pp i + cc i) (w_dscomb w) /\
    w_dkcomb w = i_kappa o * i_tau o + dka * dta - w_sigma w * mu.
Proof.
  assert (kt : forall k t x, t <> 0 -> k * x + t * (- k - k / t * x) = - (k * t)) by (intros; field; assumption).
  intros S d o W lam sv F HT HC w mu. assert (EM : f_merit (updateStatistics S d o (computeResiduals d o)) = mu) by reflexivity. clearbody mu.
  unfold w. clear w. unfold newton_step. rewrite EM. cbn [w_sigma w_dscomb w_dkcomb]. split; [split; [apply Rmax_r|apply Rmax_lub; [apply Rmin_r|exact HC]]|].
  match goal with |- context[add_identity _ _ _ (fun i => conicProduct _ _ _ _ i + conicProduct _ _ ?a ?b i)] => exists a, b end.
  match goal with |- context[- i_kappa o - i_kappa o / i_tau o * ?x] => exists x, (- i_kappa o - i_kappa o / i_tau o * x) end.
  eexists. eexists. split; [intros i; cbv beta; ring|]. split; [apply kt; exact HT|]. split; [apply C10_product; exact F|]. split; [apply C10_product; exact F|].
  split; [apply add_identity_moved; exact F|reflexivity].
Qed.
Print Assumptions C54_centring_terms.

(** C14, starting point.  For every solver answer and every content of the work arrays the starting point is strictly inside the cone with
    tau = kappa = 1, and differs from the solver's answer only by a shift along the identity of the cone. *)
Theorem C14_starting_point : forall d solve0 stale, Forall (fun n => (1 <= n)%nat) (p_q d) ->
  let o := initial_point d solve0 stale in
  interior (p_nl d) (p_q d) (i_s o) /\ interior (p_nl d) (p_q d) (i_z o) /\ i_tau o = 1 /\ i_kappa o = 1 /\
  i_x o = d_x (solve0 (mkDir (fun _ => 0) (p_b d) (p_h d))) /\
  exists a b, 1 <= a /\ 1 <= b /\ moved (p_nl d) (p_q d) a (fun i => - d_z (solve0 (mkDir (fun _ => 0) (p_b d) (p_h d))) i) (i_s o) /\
    moved (p_nl d) (p_q d) b (d_z (solve0 (mkDir (fun i => - p_c d i) (d_y stale) (d_z stale)))) (i_z o).
Proof.
  intros d solve0 stale F o. unfold o, initial_point. cbn [i_s i_z i_tau i_kappa i_x].
  destruct (C11_projection_interior (p_nl d) (p_q d) (fun i => - d_z (solve0 (mkDir (fun _ => 0) (p_b d) (p_h d))) i) F) as (a & A1 & A2 & A3 & _).
  destruct (C11_projection_interior (p_nl d) (p_q d) (d_z (solve0 (mkDir (fun i => - p_c d i) (d_y stale) (d_z stale)))) F) as (b & B1 & B2 & B3 & _).
  do 5 (split; [assumption || reflexivity|]). exists (a + 1), (b + 1). repeat split; try lra; try apply A2; try apply B2; assumption.
Qed.
Print Assumptions C14_starting_point.

(** C54: along a whole run with exact solves and positive tau, kappa, the residuals of iterate k are a common multiple in [0,1] of the
    initial ones: infeasibility never grows, in any direction. *)
Theorem C54_residuals_along_run : forall S d solve o0, Forall (fun n => (1 <= n)%nat) (p_q d) ->
  0 <= t_minstep S <= 1 -> 0 <= t_maxstep S <= 1 -> 0 <= t_scal S <= 1 -> 0 <= t_mincent S <= 1 -> 0 <= t_maxcent S <= 1 ->
  (forall k W sv, solve k W = Some sv -> exact_solve d (conicNTScaling (p_nl d) (p_q d) W) sv) ->
  (forall k o, visited (newton_inner S d solve) o0 k o -> 0 < i_tau o /\ 0 < i_kappa o) ->
  forall k o, visited (newton_inner S d solve) o0 k o -> exists theta, 0 <= theta <= 1 /\
    (forall i, (i < p_n d)%nat -> emb_x d o i = theta * emb_x d o0 i) /\
    (forall r, (r < p_p d)%nat -> emb_y d o r = theta * emb_y d o0 r) /\
    (forall r, (r < rows d)%nat -> emb_z d o r = theta * emb_z d o0 r) /\
    emb_t d o = theta * emb_t d o0.
Proof. intros S d solve o0 F H1 H2 H3 H4 H5. apply run_residuals; [exact F|repeat split; tauto]. Qed.
Print Assumptions C54_residuals_along_run.

(** ** Witnesses *)
Definition ex_tol (f : R) : tols := mkTol f (1/100) (1/100).
Definition ex_set (f1 f2 : R) (m : nat) : ipset := mkSet (ex_tol f1) (ex_tol f2) 9221120237041090560 500 (1/1000) 1 (1/2) 0 1 100 m.
Definition no_data := fun _ : nat => 0.
(** min x, -x <= 0 ; and the iterate x = s = 0, z = tau = kappa = 1. *)
Definition ex_lp : pdata := mkPD 1 0 1 [] (fun _ _ => 0) (fun _ _ => -1) (fun _ => 1) no_data no_data.
Definition ex_o : itr := mkIt no_data no_data (fun _ => 1) no_data 1 1.
Lemma norm_0 n : norm2 n no_data = 0.
Proof. unfold norm2, ip. rewrite rsum_zero; [apply sqrt_0|]. intros. unfold no_data. ring. Qed.
Lemma norm_z n u : (forall i, (i < n)%nat -> u i = 0) -> norm2 n u = 0.
Proof. intros H. rewrite (norm2_ext n u no_data H). apply norm_0. Qed.
Lemma norm_1 u : norm2 1 u = Rabs (u 0%nat).
Proof. unfold norm2, ip. simpl. rewrite Rplus_0_l. apply sqrt_Rsqr_abs. Qed.
Lemma Rmax_id a b : b <= a -> Rmax a b = a. Proof. apply Rmax_left. Qed.
Lemma ltb_no a b : b <= a -> ltb a b = false. Proof. intros. unfold ltb. destruct (Rlt_dec a b); [lra|reflexivity]. Qed.
Lemma ltb_yes a b : a < b -> ltb a b = true. Proof. apply ltb_true. Qed.
Lemma leb_yes a b : a <= b -> leb a b = true. Proof. apply leb_true. Qed.
Lemma eqb_refl a : eqb a a = true. Proof. now apply eqb_true. Qed.

Lemma ex_stats f1 f2 m : let f := updateStatistics (ex_set f1 f2 m) ex_lp ex_o (computeResiduals ex_lp ex_o) in
  f_pres f = 0 /\ f_dres f = 0 /\ f_gap f = 0 /\ f_pinf f = 9221120237041090560 /\ f_dinf f = 9221120237041090560.
Proof.
  unfold updateStatistics, computeResiduals. cbn [f_pres f_dres f_gap f_pinf f_dinf rs_x rs_y rs_z rs_hz rs_by rs_cx rs_resx rs_resy rs_resz].
  change vdot with ip. change vnorm with norm2. change (p_m ex_lp) with 1%nat. change (p_n ex_lp) with 1%nat. change (p_p ex_lp) with 0%nat.
  rewrite !norm_1. unfold ip, rsum, ex_lp, ex_o, ex_set, ex_tol, no_data. cbn [p_A p_G p_c p_b p_h i_x i_y i_z i_s i_tau i_kappa t_full t_rel t_nan p_q p_nl].
  rewrite !(norm_z 0) by (intros; lia).
  replace (Rabs (- 0 - (0 + -1 * 1) - 1 * 1)) with 0 by (replace (- 0 - (0 + -1 * 1) - 1 * 1) with 0 by ring; now rewrite Rabs_R0).
  replace (Rabs (0 + -1 * 0 + 0 - 1 * 0)) with 0 by (replace (0 + -1 * 0 + 0 - 1 * 0) with 0 by ring; now rewrite Rabs_R0).
  unfold Rdiv. rewrite !Rmult_0_l. rewrite Rmax_left by lra.
  repeat split; try lra.
  - destruct (Rlt_dec _ _) as [L|]; [|reflexivity]. exfalso. match type of L with ?a * ?b < _ => replace (a * b) with 0 in L by ring end. lra.
  - destruct (Rlt_dec _ _) as [L|]; [|reflexivity]. exfalso. match type of L with ?a * ?b < _ => replace (a * b) with 0 in L by ring end. lra.
Qed.
(** First pass of the loop. *)
Lemma first_pass S d step o0 b bi li : let r := computeResiduals d o0 in let f := updateStatistics S d o0 r in
  ip_optimize S d step o0 b bi li =
  match convergenceCheck S Full r f (i_tau o0) (i_kappa o0) with
  | NotConverged =>
     if Nat.eqb 0 (t_maxiters S) then
       let keep := isBetterThan S f bi in mkOut (fallback S r (if keep then o0 else b) (if keep then f else bi) ReachMaxIters) (if keep then o0 else b) true (if keep then f else bi) 0
     else match step 0%nat o0 with
       | Outside => match convergenceCheck S Reduced r f (i_tau o0) (i_kappa o0) with NotConverged => mkOut PrSlacksLeaveCone o0 false f 0 | e => mkOut e o0 true f 0 end
       | FactFail => mkOut Indeterminate o0 false f 0
       | Next o' a => ip_loop S d step (t_maxiters S) 1 NotConverged f (mkLs o' o0 f (f_pres f) a)
       end
  | e => mkOut e o0 true f 0
  end.
Proof. reflexivity. Qed.
Lemma check_accepts S m r f t k : let T := match m with Full => t_full S | Reduced => t_inacc S end in
  rs_by r + rs_hz r <= t_abs T -> f_pres f < t_feas T -> f_dres f < t_feas T -> f_gap f < t_abs T ->
  convergenceCheck S m r f t k = match m with Full => Optimal | Reduced => OptimalInacc end.
Proof.
  intros T H1 H2 H3 H4. unfold convergenceCheck. fold T. rewrite (leb_yes _ _ H1), (ltb_yes _ _ H2), (ltb_yes _ _ H3), (ltb_yes _ _ H4), orb_true_r. reflexivity.
Qed.
Lemma ex_byhz : rs_by (computeResiduals ex_lp ex_o) + rs_hz (computeResiduals ex_lp ex_o) = 0.
Proof. unfold computeResiduals. cbn [rs_by rs_hz]. change vdot with ip. unfold ip. rewrite !rsum_zero; [ring|intros; unfold ex_lp, no_data; cbn [p_h p_b]; ring|intros; unfold ex_lp, no_data; cbn [p_h p_b]; ring]. Qed.
(** The LP is recognised as solved at the first test. *)
Example ex_optimal : forall step b bi li, let out := ip_optimize (ex_set (1/100) 1 5) ex_lp step ex_o b bi li in
  o_code out = Optimal /\ 0 < i_tau (o_opt out) /\ in_closed_cone 1 [] (i_z (o_opt out)).
Proof.
  intros. destruct (ex_stats (1/100) 1 5) as (P & D & G & PI & DI). unfold out. rewrite first_pass.
  rewrite check_accepts.
  - cbn [o_code o_opt ex_o i_tau i_z]. split; [reflexivity|]. split; [lra|]. split; [intros; lra|exact I].
  - rewrite ex_byhz. cbn [ex_set t_full ex_tol t_abs]. lra.
  - rewrite P. cbn [ex_set t_full ex_tol t_feas]. lra.
  - rewrite D. cbn [ex_set t_full ex_tol t_feas]. lra.
  - rewrite G. cbn [ex_set t_full ex_tol t_abs]. lra.
Qed.
(** With a zero full tolerance and variables leaving the cone at once, the relaxed tolerance accepts the best iterate. *)
Lemma ex_not_full f2 m r : convergenceCheck (ex_set 0 f2 m) Full r (updateStatistics (ex_set 0 f2 m) ex_lp ex_o (computeResiduals ex_lp ex_o)) (i_tau ex_o) (i_kappa ex_o) = NotConverged.
Proof.
  destruct (ex_stats 0 f2 m) as (P & D & G & PI & DI). set (f := updateStatistics _ _ _ _) in *. clearbody f. unfold convergenceCheck. rewrite P, D, G, PI, DI. cbn [ex_set t_full t_nan ex_o i_tau i_kappa].
  rewrite (ltb_no 0 (t_feas (ex_tol 0))) by (cbn [ex_tol t_feas]; lra). rewrite !andb_false_r. cbn [andb]. rewrite eqb_refl. cbn [negb andb orb].
  rewrite (ltb_no 1 (t_feas (ex_tol 0))) by (cbn [ex_tol t_feas]; lra). reflexivity.
Qed.
Example ex_inacc : forall b bi li, o_code (ip_optimize (ex_set 0 1 5) ex_lp (fun _ _ => Outside) ex_o b bi li) = OptimalInacc.
Proof.
  intros. destruct (ex_stats 0 1 5) as (P & D & G & PI & DI). rewrite first_pass. rewrite ex_not_full. cbn [ex_set t_maxiters Nat.eqb]. fold (ex_set 0 1 5).
  rewrite check_accepts; [reflexivity|..].
  - rewrite ex_byhz. cbn [ex_set t_inacc ex_tol t_abs]. lra.
  - rewrite P. cbn [ex_set t_inacc ex_tol t_feas]. lra.
  - rewrite D. cbn [ex_set t_inacc ex_tol t_feas]. lra.
  - rewrite G. cbn [ex_set t_inacc ex_tol t_abs]. lra.
Qed.

(** 0 x + s = -1, s >= 0 is recognised as infeasible from z = 1; min -x, x >= 0 as unbounded from x = s = 1. *)
Definition ex_infeas : pdata := mkPD 1 0 1 [] (fun _ _ => 0) (fun _ _ => 0) no_data no_data (fun _ => -1).
Definition ex_oi : itr := mkIt no_data no_data (fun _ => 1) (fun _ => 1) (1/2) 1.
Definition ex_unb : pdata := mkPD 1 0 1 [] (fun _ _ => 0) (fun _ _ => -1) (fun _ => -1) no_data no_data.
Definition ex_ou : itr := mkIt (fun _ => 1) no_data (fun _ => 1) (fun _ => 1) (1/2) 1.
Lemma check_rejects_optimal S m r f t k : let T := match m with Full => t_full S | Reduced => t_inacc S end in t_feas T <= f_pres f \/ t_feas T <= f_dres f ->
  convergenceCheck S m r f t k = if (negb (eqb (f_dinf f) (t_nan S)) && ltb (f_dinf f) (t_feas T) && ltb t k)%bool then match m with Full => DualInf | Reduced => DualInfInacc end
    else if ((negb (eqb (f_pinf f) (t_nan S)) && ltb (f_pinf f) (t_feas T) && ltb t k) || (ltb t (t_feas T) && ltb k (t_feas T) && ltb (f_pinf f) (t_feas T)))%bool
    then match m with Full => PrimalInf | Reduced => PrimalInfInacc end else NotConverged.
Proof.
  intros T H. unfold convergenceCheck. fold T. destruct H as [H|H]; rewrite (ltb_no _ _ H), ?andb_false_r; cbn [andb]; rewrite ?andb_false_r; cbn [andb]; reflexivity.
Qed.
Lemma eqb_no a b : a <> b -> eqb a b = false.
Proof. intros H. unfold eqb. destruct (Req_EM_T a b); [contradiction|reflexivity]. Qed.
Ltac stats_tac := unfold updateStatistics, computeResiduals; cbn [f_pres f_dres f_gap f_pinf f_dinf rs_x rs_y rs_z rs_hz rs_by rs_cx rs_resx rs_resy rs_resz];
  unfold p_m, inires, ex_infeas, ex_oi, ex_unb, ex_ou, ex_set, ex_tol; change vdot with ip; change vnorm with norm2; cbn [p_A p_G p_c p_b p_h i_x i_y i_z i_s i_tau i_kappa t_full t_rel t_nan p_q p_nl p_n p_p fold_right Nat.add];
  rewrite ?norm_1; rewrite ?(norm_z 0) by (intros; lia); unfold ip, rsum, no_data.
Lemma abs_val a b : a = b -> 0 <= b -> Rabs a = b. Proof. intros -> H. apply Rabs_right. lra. Qed.
Lemma abs_val_n a b : a = - b -> 0 <= b -> Rabs a = b. Proof. intros -> H. rewrite Rabs_Ropp. apply Rabs_right. lra. Qed.
Example ex_primal_inf : forall step b bi li, let out := ip_optimize (ex_set (1/100) 1 5) ex_infeas step ex_oi b bi li in
  o_code out = PrimalInf /\ in_closed_cone 1 [] (i_z (o_opt out)).
Proof.
  intros step b bi li out. set (S := ex_set (1/100) 1 5) in *. set (f := updateStatistics S ex_infeas ex_oi (computeResiduals ex_infeas ex_oi)).
  assert (P : 1/100 <= f_pres f).
  { unfold f, S. stats_tac. rewrite (abs_val (0 + 0 * 0 + 1 - 1 / 2 * -1) (3/2)) by lra. rewrite Rabs_R0, Rabs_R1, (abs_val_n (-1) 1) by lra. rewrite (Rmax_left 1 1) by lra.
    rewrite (Rmax_left (1 + 0 + 1)) by lra. pose proof (Rmax_r (0 / Rmax (Rmax 1 0 + 0) 1) (3 / 2 / (1 + 0 + 1))).
    apply Rle_trans with (3 / 2 / (1 + 0 + 1) / (1/2)); [lra|]. apply Rmult_le_compat_r; lra. }
  assert (PI : f_pinf f = 0).
  { unfold f, S. stats_tac. destruct (Rlt_dec _ _) as [L|NL].
    - rewrite (abs_val (- 0 - (0 + 0 * 1)) 0) by lra. unfold Rdiv. ring.
    - exfalso. apply NL. rewrite Rabs_R1. rewrite Rmax_left by lra. lra. }
  assert (DI : f_dinf f = 9221120237041090560).
  { unfold f, S. stats_tac. destruct (Rlt_dec _ _) as [L|NL]; [|reflexivity]. exfalso. match type of L with ?a / ?b < _ => replace (a / b) with 0 in L by (unfold Rdiv; ring) end. lra. }
  assert (C : convergenceCheck S Full (computeResiduals ex_infeas ex_oi) f (i_tau ex_oi) (i_kappa ex_oi) = PrimalInf).
  { clearbody f. rewrite check_rejects_optimal by (left; exact P). rewrite PI, DI. unfold S. cbn [ex_set t_nan t_full ex_tol t_feas ex_oi i_tau i_kappa]. rewrite eqb_refl. cbn [negb andb].
    rewrite eqb_no by lra. rewrite (ltb_yes 0) by lra. rewrite (ltb_yes (1/2) 1) by lra. reflexivity. }
  unfold out. rewrite first_pass. fold f. rewrite C. cbn [o_code o_opt ex_oi i_z]. split; [reflexivity|]. split; [intros; lra|exact I].
Qed.
Example ex_dual_inf : forall step b bi li, let out := ip_optimize (ex_set (1/100) 1 5) ex_unb step ex_ou b bi li in
  o_code out = DualInf /\ in_closed_cone 1 [] (i_s (o_opt out)).
Proof.
  intros step b bi li out. set (S := ex_set (1/100) 1 5) in *. set (f := updateStatistics S ex_unb ex_ou (computeResiduals ex_unb ex_ou)).
  assert (P : 1/100 <= f_dres f).
  { unfold f, S. stats_tac. rewrite (abs_val (- 0 - (0 + -1 * 1) - 1 / 2 * -1) (3/2)) by lra. rewrite Rabs_R1, (abs_val_n (-1) 1) by lra. rewrite (Rmax_left 1 1) by lra. rewrite Rmax_left by lra. lra. }
  assert (DI : f_dinf f = 0).
  { unfold f, S. stats_tac. destruct (Rlt_dec _ _) as [L|NL].
    - rewrite (abs_val (0 + -1 * 1 + 1) 0) by lra. unfold Rdiv. rewrite !Rmult_0_l. apply Rmax_left. lra.
    - exfalso. apply NL. rewrite Rabs_R1. rewrite Rmax_left by lra. lra. }
  assert (C : convergenceCheck S Full (computeResiduals ex_unb ex_ou) f (i_tau ex_ou) (i_kappa ex_ou) = DualInf).
  { clearbody f. rewrite check_rejects_optimal by (right; exact P). rewrite DI. unfold S. cbn [ex_set t_nan t_full ex_tol t_feas ex_ou i_tau i_kappa].
    rewrite eqb_no by lra. rewrite (ltb_yes 0) by lra. rewrite (ltb_yes (1/2) 1) by lra. reflexivity. }
  unfold out. rewrite first_pass. fold f. rewrite C. cbn [o_code o_opt ex_ou i_s]. split; [reflexivity|]. split; [intros; lra|exact I].
Qed.
(** Exact solves exist: for the LP above, with any scaling. *)
Example ex_exact : forall W, exact_solve ex_lp (conicNTScaling 1 [] W)
  (fun u => let z := fun _ : nat => - d_x u 0%nat in mkDir (fun _ => - d_z u 0%nat - conicNTScaling 1 [] W (conicNTScaling 1 [] W z) 0%nat) no_data z).
Proof.
  intros W u. cbn zeta. cbn [d_x d_y d_z]. repeat split.
  - intros i Hi. assert (i = 0)%nat by (simpl in Hi; lia). subst i. unfold Aty_Gtz. simpl. ring.
  - intros r Hr. simpl in Hr. lia.
  - intros r Hr. assert (r = 0)%nat by (unfold rows in Hr; simpl in Hr; lia). subst r. unfold Gx. cbn [ex_lp p_n p_G rsum]. ring.
Qed.

(** C14, failure: with SolverMaxIters = 0 the relaxed code is decided from whatever statistics the object held before: OptimalInacc is
    returned for a stale iterate that violates the constraints by any amount. *)
Definition ex_bad : itr := mkIt (fun _ => -1000) no_data (fun _ => 1) no_data 1 1.
Theorem C14_zero_iterations_refuted : ~ (forall S d step o0 best0 binfo0 last0,
  let out := ip_optimize S d step o0 best0 binfo0 last0 in 0 < i_tau (o_opt out) -> o_code out = OptimalInacc ->
  residuals_within (t_feas (t_inacc S)) d (o_opt out)).
Proof.
  intros H. specialize (H (ex_set 0 (1/100) 0) ex_lp (fun _ _ => Outside) ex_o ex_bad (mkInf 0 0 0 0 0 0 0 0 0 0) (mkInf 0 0 0 0 0 0 0 0 0 0)). cbn zeta in H.
  assert (E : ip_optimize (ex_set 0 (1/100) 0) ex_lp (fun _ _ => Outside) ex_o ex_bad (mkInf 0 0 0 0 0 0 0 0 0 0) (mkInf 0 0 0 0 0 0 0 0 0 0) =
    mkOut OptimalInacc ex_bad true (mkInf 0 0 0 0 0 0 0 0 0 0) 0).
  { destruct (ex_stats 0 (1/100) 0) as (P & D & G & PI & DI). rewrite first_pass. rewrite ex_not_full. cbn [ex_set t_maxiters Nat.eqb]. fold (ex_set 0 (1/100) 0). cbn zeta.
    assert (B : isBetterThan (ex_set 0 (1/100) 0) (updateStatistics (ex_set 0 (1/100) 0) ex_lp ex_o (computeResiduals ex_lp ex_o)) (mkInf 0 0 0 0 0 0 0 0 0 0) = false).
    { destruct (isBetterThan _ _ _) eqn:EB; [|reflexivity]. apply better_gap in EB. rewrite G in EB. cbn [f_gap] in EB. lra. }
    rewrite B. f_equal. unfold fallback. rewrite check_accepts; [reflexivity|..]; cbn [ex_set t_inacc ex_tol t_abs t_feas f_pres f_dres f_gap]; try rewrite ex_byhz; lra. }
  rewrite E in H. cbn [o_opt o_code ex_bad i_tau] in H. destruct (H ltac:(lra) eq_refl) as (_ & HZ & _).
  fold ex_bad in HZ. unfold scale_z in HZ. change (rows ex_lp) with 1%nat in HZ. change (p_n ex_lp) with 1%nat in HZ. rewrite !norm_1 in HZ.
  unfold emb_z, Gx, rsum, ex_lp, ex_bad, ex_set, ex_tol, no_data in HZ. cbn [p_n p_G p_h i_x i_s i_tau t_inacc t_feas] in HZ.
  replace (0 + -1 * -1000 + 0 - 1 * 0) with 1000 in HZ by ring. rewrite Rabs_R0 in HZ. rewrite (Rmax_left 1 0) in HZ by lra.
  rewrite (Rabs_left (-1000)) in HZ by lra. rewrite Rabs_right in HZ by lra. lra.
Qed.
Print Assumptions C14_zero_iterations_refuted.

(** C14, failure: not every return undoes the equilibration: PrSlacksLeaveCone and Indeterminate (factorisation failure inside the loop)
    leave the variables unscaled. *)
Theorem C14_scaled_on_return_refuted : ~ (forall S d step o0 best0 binfo0 last0, (1 <= t_maxiters S)%nat ->
  o_scaled (ip_optimize S d step o0 best0 binfo0 last0) = true).
Proof.
  intros H. specialize (H (ex_set 0 0 1) ex_lp (fun _ _ => FactFail) ex_o ex_o (mkInf 0 0 0 0 0 0 0 0 0 0) (mkInf 0 0 0 0 0 0 0 0 0 0) (le_n 1)).
  rewrite first_pass, ex_not_full in H. cbn [ex_set t_maxiters Nat.eqb o_scaled] in H. discriminate.
Qed.
Print Assumptions C14_scaled_on_return_refuted.

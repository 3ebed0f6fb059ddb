(** * C81: the backward pass of the LQR on the manifold *)
From Coq Require Import Reals List Arith Bool Lia Lra FunctionalExtensionality.
Import ListNotations.
From Verif Require Import Base BaseProofs IpModel LqrModel LqrSpec LqrProofs LqrProofs2 MkoModel RicModel RicSpec RicProofs RicProofs2 RicProps ManModel ManSpec ManDynProps.
Local Open Scope R_scope.
Notation vdot := IpModel.vdot.

Lemma inverse_sym n M N : sym n M -> inverse n M N -> sym n N.
Proof.
  intros HS HI i j Hi Hj. assert (R : forall i j, (i < n)%nat -> (j < n)%nat -> rsum n (fun k => M i k * N k j) = if Nat.eqb i j then 1 else 0) by (intros; rewrite <- sum_rsum; now apply HI).
  transitivity (rsum n (fun k => (if Nat.eqb k i then 1 else 0) * N k j)).
  - rewrite (rsum_single n i) by (auto; intros k Hk Hne; rewrite (proj2 (Nat.eqb_neq k i) Hne); ring). rewrite Nat.eqb_refl. ring.
  - transitivity (rsum n (fun k => rsum n (fun l => M k l * N l i * N k j))).
    { apply rsum_ext. intros k Hk. rewrite <- (R k i Hk Hi). now rewrite <- rsum_scal_r. }
    rewrite rsum_swap. transitivity (rsum n (fun l => N l i * (if Nat.eqb l j then 1 else 0))).
    { apply rsum_ext. intros l Hl. rewrite <- (R l j Hl Hj), <- rsum_scal. apply rsum_ext. intros k Hk. rewrite (HS k l) by assumption. ring. }
    rewrite (rsum_single n j) by (auto; intros k Hk Hne; rewrite (proj2 (Nat.eqb_neq k j) Hne); ring). rewrite Nat.eqb_refl. ring.
Qed.

Section Gains.
Variable cho : nat -> mat -> option mat.
Variable smooth_inv : nat -> mat -> mat.
Hypothesis Hcho : cho_correct cho.

(** ** One step: the model of the cost is the value function plus the square of the deviation from the control -kff - kfb x, which therefore minimises it. *)
Definition deviation (n : nat) (kff : vec) (kfb : mat) (x u : vec) : vec := fun i => u i + kff i + sum n (fun j => kfb i j * x j).
Theorem C81_value_function n m q : symmetric m (q_uu q) -> pos_def m (q_uu q) -> exists kff kfb V, compute_value_function cho smooth_inv n m q = (kff, kfb, V) /\
  forall x u, quad2 n m (q_0 q) (q_x q) (q_u q) (q_xx q) (q_uu q) (q_xu q) x u =
    quad1 n (v_0 V) (v_x V) (v_xx V) x + 1 / 2 * bilin m m (deviation n kff kfb x u) (q_uu q) (deviation n kff kfb x u).
Proof.
  intros HS HP. pose proof (Hcho m (q_uu q) HS) as HC. unfold compute_value_function. destruct (cho m (q_uu q)) as [Si|]; [destruct HC as [HI _]|contradiction]. do 3 eexists. split; [reflexivity|]. cbn [v_0 v_x v_xx].
  intros x u. set (G := q_uu q) in *. set (kff := mv m Si (q_u q)). set (kfb := mm m Si (tr (q_xu q))). set (k := mv n kfb x).
  assert (Ek : forall i, (i < m)%nat -> mv m G k i = mv n (tr (q_xu q)) x i).
  { intros i Hi. rewrite <- (inverse_mv m G Si (mv n (tr (q_xu q)) x) i HI Hi). apply mv_ext. intros j Hj. unfold k, kfb. apply mv_mm. }
  assert (Ef : forall i, (i < m)%nat -> mv m G kff i = q_u q i) by (intros i Hi; unfold kff; now apply inverse_mv).
  assert (GT : forall y i, (i < m)%nat -> mv m (tr G) y i = mv m G y i) by (intros y i Hi; apply mv_mext; intros j Hj; unfold tr; now apply HS).
  unfold quad2, quad1. rewrite !inner_dot, !bilin_dot.
  set (d := vplus kff k). assert (Ed : deviation n kff kfb x u = vplus u d) by (apply functional_extensionality; intros i; unfold deviation, vplus, d, k, mv, vplus; rewrite sum_rsum; ring). rewrite Ed.
  rewrite (quad_plus m G u d HS).
  assert (E1 : vdot m d (mv m G u) = vdot m (q_u q) u + vdot n x (mv m (q_xu q) u)).
  { rewrite (dot_sym m G d u HS). assert (X : forall i, (i < m)%nat -> mv m G d i = vplus (q_u q) (mv n (tr (q_xu q)) x) i) by (intros i Hi; unfold d; rewrite mv_plus, Ef, Ek by exact Hi; reflexivity).
    rewrite (dot_ext m u u _ _ (fun _ _ => eq_refl) X), dot_plus_r, (dot_comm m u (q_u q)). f_equal. rewrite dot_comm, <- dot_tr. reflexivity. }
  assert (E2 : vdot m d (mv m G d) = vdot m kff (q_u q) + 2 * vdot m k (q_u q) + vdot m k (mv n (tr (q_xu q)) x)).
  { unfold d. rewrite (quad_plus m G kff k HS). rewrite (dot_ext m kff kff _ (q_u q) (fun _ _ => eq_refl) Ef), (dot_ext m k k (mv m G kff) (q_u q) (fun _ _ => eq_refl) Ef), (dot_ext m k k (mv m G k) _ (fun _ _ => eq_refl) Ek). ring. }
  assert (E3 : vdot m (mv m (tr G) kff) kff = vdot m kff (q_u q)).
  { rewrite (dot_ext m (mv m (tr G) kff) (q_u q) kff kff); [apply dot_comm|intros i Hi; rewrite GT by exact Hi; now apply Ef|auto]. }
  assert (E4 : vdot n (vplus (vplus (q_x q) (vscal (-2) (mv m (tr kfb) (q_u q)))) (mv m (tr kfb) (mv m (tr G) kff))) x = vdot n (q_x q) x - vdot m k (q_u q)).
  { rewrite !dot_plus_l, dot_scal_l. rewrite <- (dot_tr m n (q_u q) kfb x), <- (dot_tr m n (mv m (tr G) kff) kfb x). fold k. rewrite (dot_ext m (mv m (tr G) kff) (q_u q) k k); [|intros i Hi; rewrite GT by exact Hi; now apply Ef|auto]. rewrite (dot_comm m k). ring. }
  assert (E5 : vdot n x (mv n (mplus (q_xx q) (mscal (-1) (mm m (q_xu q) kfb))) x) = vdot n x (mv n (q_xx q) x) - vdot m k (mv n (tr (q_xu q)) x)).
  { rewrite dot_mplus. rewrite (dot_ext n x x (mv n (mscal (-1) (mm m (q_xu q) kfb)) x) (vscal (-1) (mv m (q_xu q) k))); [|auto|intros i Hi; rewrite mv_mscal, mv_mm; reflexivity].
    rewrite dot_scal_r, (dot_tr n m x (q_xu q) k), (dot_comm m _ k). ring. }
  rewrite E1, E2, E3, E4, E5. fold kff. field.
Qed.
Print Assumptions C81_value_function.

(** ** The pass *)
Lemma Q_is n m c0 cx cu cxx cuu cxu fx fu V x u : sym n (v_xx V) -> let q := compute_Q n c0 cx cu cxx cuu cxu fx fu V in
  quad2 n m c0 cx cu cxx cuu cxu x u + quad1 n (v_0 V) (v_x V) (v_xx V) (fun i => sum n (fun j => fx i j * x j) + sum m (fun k => fu i k * u k)) = quad2 n m (q_0 q) (q_x q) (q_u q) (q_xx q) (q_uu q) (q_xu q) x u.
Proof.
  intros HS q. unfold quad2, quad1. rewrite !inner_dot, !bilin_dot. cbn [q compute_Q q_0 q_x q_u q_xx q_uu q_xu]. set (P := v_xx V) in *.
  replace (fun i => sum n (fun j => fx i j * x j) + sum m (fun k => fu i k * u k)) with (vplus (mv n fx x) (mv m fu u)) by (apply functional_extensionality; intros i; unfold vplus, mv; now rewrite !sum_rsum).
  rewrite quad_plus by exact HS. rewrite !dot_plus_l, !dot_plus_r, !dot_mplus, !quad_mm.
  assert (D : vdot n x (mv m (mplus cxu (mm n (mm n (tr fx) P) fu)) u) = vdot n x (mv m cxu u) + vdot n (mv m fu u) (mv n P (mv n fx x))).
  { rewrite (dot_ext n x x _ (vplus (mv m cxu u) (mv n (tr fx) (mv n P (mv m fu u))))); [|auto|intros i Hi; rewrite mv_mplus, mv_mm, mv_mm; reflexivity]. rewrite dot_plus_r. f_equal. rewrite dot_tr. change (tr (tr fx)) with fx. apply (dot_sym n P _ _ HS). }
  rewrite D, !(dot_tr n _ (v_x V)). field.
Qed.
Lemma value_sym n m q kff kfb V : sym m (q_uu q) -> posdef m (q_uu q) -> sym n (q_xx q) -> compute_value_function cho smooth_inv n m q = (kff, kfb, V) -> sym n (v_xx V).
Proof.
  intros HS HP HX H. assert (PD : pos_def m (q_uu q)) by (intros y Hy; rewrite bilin_dot; now apply HP). pose proof (Hcho m (q_uu q) HS) as HC. unfold compute_value_function in H. destruct (cho m (q_uu q)) as [Si|]; [destruct HC as [HI _]|contradiction]. injection H as _ _ <-. cbn [v_xx].
  pose proof (inverse_sym m _ _ HS HI) as SS. apply sym_plus; [exact HX|]. intros i j Hi Hj. unfold mscal. f_equal. unfold mm, tr.
  transitivity (rsum m (fun k => rsum m (fun l => q_xu q i k * Si k l * q_xu q j l))); [apply rsum_ext; intros k Hk; rewrite <- rsum_scal; apply rsum_ext; intros; ring|]. rewrite rsum_swap.
  apply rsum_ext. intros l Hl. rewrite <- rsum_scal. apply rsum_ext. intros k Hk. rewrite (SS k l) by assumption. ring.
Qed.
Lemma quad1_zero n M x : quad1 n 0 (fun _ => 0) M x = 1 / 2 * bilin n n x M x.
Proof. unfold quad1. rewrite inner_dot, dot_zero_l. ring. Qed.
Lemma value_xx_only n m q kff kfb V : compute_value_function cho smooth_inv n m q = (kff, kfb, V) ->
  compute_value_function cho smooth_inv n m (QM 0 (fun _ => 0) (fun _ => 0) (q_xx q) (q_uu q) (q_xu q)) = (fun i => 0, kfb, VM 0 (fun _ => 0) (v_xx V)).
Proof.
  unfold compute_value_function. cbn [q_xx q_uu q_xu q_0 q_x q_u]. set (I := match cho m (q_uu q) with Some Si => Si | None => smooth_inv m (q_uu q) end). intros H. injection H as _ <- <-. cbn [v_xx].
  assert (Z : forall k M, mv k M (fun _ => 0) = fun _ => 0) by (intros k M; apply functional_extensionality; intros i; apply rsum_zero; intros; ring).
  rewrite !Z. rewrite !dot_zero_l. f_equal. f_equal; [ring|]. apply functional_extensionality; intros i. unfold vplus, vscal. ring.
Qed.

Section Pass.
Variables (n m : nat) (dyn : nat -> res (mat * mat)) (cst : nat -> res derivs) (fx fu : nat -> mat) (c0 : nat -> R) (cx cu : nat -> vec) (cxx cuu : nat -> mat) (V : vmodel).
Notation stage_cost := (fun x u t => quad2 n m (c0 t) (cx t) (cu t) (cxx t) (cuu t) (fun _ _ => 0) x u).
Notation final_cost := (quad1 n (v_0 V) (v_x V) (v_xx V)).
Notation total := (cost_to_go (lin_step n m fx fu) stage_cost final_cost).
(** With convex costs the pass returns one gain per time; with some feedforward they minimise, from every state and over all policies, the sum of the models of the stage costs and of the final cost along the linear dynamics. *)
Theorem C81_backward_optimal k : forall a, symmetric n (v_xx V) -> psd n (v_xx V) ->
  (forall t, (a <= t < a + k)%nat -> dyn t = Ok (fx t, fu t) /\ cst t = Ok (c0 t, cx t, cu t, cxx t, cuu t, fun _ _ => 0) /\ symmetric n (cxx t) /\ psd n (cxx t) /\ symmetric m (cuu t) /\ pos_def m (cuu t)) ->
  exists Ks W ffs, backward cho smooth_inv n m dyn cst V a k = Ok (Ks, W) /\ length Ks = k /\ (symmetric n (v_xx W) /\ psd n (v_xx W)) /\
  (forall x, total k a x (affine_policy n a ffs Ks) = quad1 n (v_0 W) (v_x W) (v_xx W) x) /\
  (forall x pi, total k a x (affine_policy n a ffs Ks) <= total k a x pi).
Proof.
  induction k as [|k IH]; intros a SV PV H.
  - exists [], V, (fun _ _ => 0). split; [reflexivity|]. split; [reflexivity|]. split; [now split|]. split; [reflexivity|]. intros; apply Rle_refl.
  - destruct (IH (S a) SV PV) as (Ks & W & ffs & E & L & [SW PW] & HV & HO). { intros t Ht. apply H. lia. }
    destruct (H a ltac:(lia)) as (Hd & Hc & Sx & Px & Su & Pu). cbn [backward]. rewrite E. cbn [bind]. rewrite Hd. cbn [bind]. rewrite Hc. cbn [bind].
    set (q := compute_Q n (c0 a) (cx a) (cu a) (cxx a) (cuu a) (fun _ _ => 0) (fx a) (fu a) W).
    assert (SQ : sym m (q_uu q)) by (apply sym_plus; [exact Su|now apply sym_mm]).
    assert (PQ : posdef m (q_uu q)). { intros u Hu. cbn [q compute_Q q_uu]. rewrite dot_mplus, quad_mm. pose proof (Pu u Hu) as P1. rewrite bilin_dot in P1. pose proof (PW (mv m (fu a) u)) as P2. rewrite bilin_dot in P2. lra. }
    assert (PQ' : pos_def m (q_uu q)) by (intros y Hy; rewrite bilin_dot; now apply PQ).
    assert (SX : sym n (q_xx q)) by (apply sym_plus; [exact Sx|now apply sym_mm]).
    destruct (C81_value_function n m q SQ PQ') as (kff & kfb & W' & EW & SqI). rewrite EW.
    exists (kfb :: Ks), W', (fun t => if Nat.eqb t a then kff else ffs t). split; [reflexivity|]. split; [cbn [length]; now rewrite L|].
    assert (SW' : symmetric n (v_xx W')) by exact (value_sym n m q kff kfb W' SQ PQ SX EW).
    assert (PW' : psd n (v_xx W')).
    { intros x. set (u := fun i => - sum n (fun j => kfb i j * x j)).
      pose proof (value_xx_only n m q kff kfb W' EW) as E0. set (q0 := QM 0 (fun _ => 0) (fun _ => 0) (q_xx q) (q_uu q) (q_xu q)) in E0.
      destruct (C81_value_function n m q0 SQ PQ') as (kf & kb & W0 & EW0 & I0). rewrite E0 in EW0. injection EW0 as <- <- <-. specialize (I0 x u). cbn [v_0 v_x v_xx] in I0. rewrite quad1_zero in I0.
      assert (Z : bilin m m (deviation n (fun _ => 0) kfb x u) (q_uu q0) (deviation n (fun _ => 0) kfb x u) = 0).
      { rewrite bilin_dot. rewrite (dot_ext m _ (fun _ => 0) _ (mv m (q_uu q0) (deviation n (fun _ => 0) kfb x u))); [apply dot_zero_l|intros; unfold deviation, u; ring|auto]. }
      rewrite Z in I0. pose proof (Q_is n m 0 (fun _ => 0) (fun _ => 0) (cxx a) (cuu a) (fun _ _ => 0) (fx a) (fu a) (VM 0 (fun _ => 0) (v_xx W)) x u SW) as QI. cbn [v_0 v_x v_xx compute_Q q_0 q_x q_u q_xx q_uu q_xu] in QI. rewrite quad1_zero in QI.
      assert (EQ : quad2 n m (q_0 q0) (q_x q0) (q_u q0) (q_xx q0) (q_uu q0) (q_xu q0) x u = quad2 n m 0 (fun _ => 0) (fun _ => 0) (cxx a) (cuu a) (fun _ _ => 0) x u +
         1 / 2 * bilin n n (fun i => sum n (fun j => fx a i j * x j) + sum m (fun k => fu a i k * u k)) (v_xx W) (fun i => sum n (fun j => fx a i j * x j) + sum m (fun k => fu a i k * u k))).
      { rewrite QI. unfold quad2. cbn [q0 q q_0 q_x q_u q_xx q_uu q_xu compute_Q]. rewrite !inner_dot. f_equal. f_equal. f_equal. rewrite !dot_zero_l.
        assert (Z0 : forall k0 r M y, vdot r (vplus (fun _ => 0) (mv k0 M (fun _ => 0))) y = 0) by (intros; rewrite dot_plus_l, dot_zero_l; unfold IpModel.vdot; rewrite rsum_zero; [ring|intros i Hi; unfold mv; rewrite rsum_zero by (intros; ring); ring]).
        rewrite !Z0. ring. }
      rewrite EQ in I0. pose proof (PW (fun i => sum n (fun j => fx a i j * x j) + sum m (fun k => fu a i k * u k))) as P1. pose proof (Px x) as P2.
      assert (P3 : 0 <= bilin m m u (cuu a) u). { rewrite bilin_dot. destruct (classic_some m u) as [X|X]; [apply Rlt_le; rewrite <- bilin_dot; now apply Pu|]. rewrite (dot_ext m u (fun _ => 0) _ (mv m (cuu a) u)) by auto. rewrite dot_zero_l. lra. }
      unfold quad2 in I0. rewrite !inner_dot, !dot_zero_l in I0. assert (P4 : bilin n m x (fun _ _ => 0) u = 0) by (rewrite bilin_dot; apply rsum_zero; intros; unfold mv; rewrite rsum_zero by (intros; ring); ring). rewrite P4 in I0. lra. }
    split; [now split|].
    assert (Step : forall x u, quad2 n m (c0 a) (cx a) (cu a) (cxx a) (cuu a) (fun _ _ => 0) x u + quad1 n (v_0 W) (v_x W) (v_xx W) (lin_step n m fx fu x u a) =
       quad1 n (v_0 W') (v_x W') (v_xx W') x + 1 / 2 * bilin m m (deviation n kff kfb x u) (q_uu q) (deviation n kff kfb x u)).
    { intros x u. unfold lin_step. rewrite (Q_is n m (c0 a) (cx a) (cu a) (cxx a) (cuu a) (fun _ _ => 0) (fx a) (fu a) W x u SW). apply SqI. }
    set (ffs' := fun t => if Nat.eqb t a then kff else ffs t).
    assert (SH : forall t y, (S a <= t)%nat -> affine_policy n a ffs' (kfb :: Ks) t y = affine_policy n (S a) ffs Ks t y).
    { intros t y Ht. apply functional_extensionality. intros i. unfold affine_policy, ffs'. rewrite (proj2 (Nat.eqb_neq t a)) by lia. replace (t - a)%nat with (S (t - S a)) by lia. reflexivity. }
    assert (D0 : forall x i, deviation n kff kfb x (affine_policy n a ffs' (kfb :: Ks) a x) i = 0).
    { intros x i. unfold deviation, affine_policy, ffs'. rewrite Nat.eqb_refl, Nat.sub_diag. cbn [nth]. ring. }
    assert (EV : forall x, total (S k) a x (affine_policy n a ffs' (kfb :: Ks)) = quad1 n (v_0 W') (v_x W') (v_xx W') x).
    { intros x. cbn [cost_to_go]. rewrite Nat.add_1_r. rewrite (cost_ext _ _ _ k (S a) _ _ _ SH), HV, Step.
      rewrite bilin_dot. rewrite (dot_ext m _ (fun _ => 0) _ (mv m (q_uu q) (deviation n kff kfb x (affine_policy n a ffs' (kfb :: Ks) a x)))); [rewrite dot_zero_l; ring|intros; apply D0|auto]. }
    split; [exact EV|]. intros x pi. rewrite EV. cbn [cost_to_go]. rewrite Nat.add_1_r. pose proof (HO (lin_step n m fx fu x (pi a x) a) pi) as O1. rewrite HV in O1. pose proof (Step x (pi a x)) as S1.
    assert (0 <= bilin m m (deviation n kff kfb x (pi a x)) (q_uu q) (deviation n kff kfb x (pi a x))).
    { destruct (classic_some m (deviation n kff kfb x (pi a x))) as [X|X]; [now apply Rlt_le, PQ'|]. rewrite bilin_dot. rewrite (dot_ext m _ (fun _ => 0) _ (mv m (q_uu q) (deviation n kff kfb x (pi a x)))) by auto. rewrite dot_zero_l. lra. }
    lra.
Qed.
Print Assumptions C81_backward_optimal.
End Pass.

(** ** The gains of compute_gains: if the second derivatives it computes for the states were positive semidefinite, its gains would be optimal for the linearisation at the reference and its model of the costs.
    (Missing: the second derivatives are in fact indefinite, C81_hessian_refuted.) *)
Theorem C81_compute_gains_partial act N x0 us Qw Rw fx fu c0 cx cu cxx cN gN gU HN HU HX :
  (forall t, (t < N)%nat -> dynamics_derivatives cho act t (x0 t) (us t) = Ok (fx t, fu t) /\ all_derivs N x0 us Qw Rw t = Ok (c0 t, cx t, cu t, cxx t, cost_dudu N Rw t, cost_dxdu) /\
     symmetric 12 (cxx t) /\ psd 12 (cxx t) /\ symmetric 6 (Rw t) /\ pos_def 6 (Rw t)) ->
  all_derivs N x0 (fun _ _ => 0) Qw Rw N = Ok (cN, gN, gU, HN, HU, HX) -> symmetric 12 HN -> psd 12 HN ->
  exists Ks ffs, compute_gains cho smooth_inv act N x0 us Qw Rw = Ok Ks /\ length Ks = N /\
  let total := cost_to_go (lin_step 12 6 fx fu) (fun x u t => quad2 12 6 (c0 t) (cx t) (cu t) (cxx t) (Rw t) (fun _ _ => 0) x u) (quad1 12 cN gN HN) N 0 in
  forall x pi, total x (affine_policy 12 0 ffs Ks) <= total x pi.
Proof.
  intros H EN SN PN. unfold compute_gains. rewrite EN. cbn [bind].
  assert (DU : forall t i j, (t < N)%nat -> (i < 6)%nat -> (j < 6)%nat -> cost_dudu N Rw t i j = Rw t i j).
  { intros t i j Ht Hi Hj. unfold cost_dudu. rewrite (proj2 (Nat.eqb_neq t N)) by lia. destruct (H t Ht) as (_ & _ & _ & _ & S & _). rewrite (S j i Hj Hi). field. }
  assert (DB : forall t x, (t < N)%nat -> bilin 6 6 x (cost_dudu N Rw t) x = bilin 6 6 x (Rw t) x).
  { intros t x Ht. rewrite !bilin_dot. apply dot_ext; [auto|]. intros i Hi. apply mv_mext. intros j Hj. now apply DU. }
  destruct (C81_backward_optimal 12 6 (fun t => dynamics_derivatives cho act t (x0 t) (us t)) (all_derivs N x0 us Qw Rw) fx fu c0 cx cu cxx (cost_dudu N Rw) (VM cN gN HN) N 0 SN PN) as (Ks & W & ffs & E & L & _ & _ & O).
  - intros t Ht. destruct (H t ltac:(lia)) as (H1 & H2 & H3 & H4 & H5 & H6). split; [exact H1|]. split; [exact H2|]. split; [exact H3|]. split; [exact H4|]. split.
    + intros i j Hi Hj. rewrite !DU by lia. now apply H5.
    + intros y Hy. rewrite DB by lia. now apply H6.
  - exists Ks, ffs. rewrite E. split; [reflexivity|]. split; [exact L|]. cbv zeta. intros x pi. cbn [v_0 v_x v_xx] in O.
    assert (CE : forall k a y p, (a + k <= N)%nat -> cost_to_go (lin_step 12 6 fx fu) (fun x u t => quad2 12 6 (c0 t) (cx t) (cu t) (cxx t) (cost_dudu N Rw t) (fun _ _ => 0) x u) (quad1 12 cN gN HN) k a y p =
       cost_to_go (lin_step 12 6 fx fu) (fun x u t => quad2 12 6 (c0 t) (cx t) (cu t) (cxx t) (Rw t) (fun _ _ => 0) x u) (quad1 12 cN gN HN) k a y p).
    { induction k as [|k IH]; intros a y p Hk; cbn [cost_to_go]; [reflexivity|]. rewrite IH by lia. f_equal. unfold quad2. now rewrite DB by lia. }
    rewrite <- !CE by lia. apply O.
Qed.
Print Assumptions C81_compute_gains_partial.

(** ** The sign of the derivatives does not matter for the gains: the pass with the negated matrices returns the same gains and second derivative of the value. *)
Definition negated (d : res (mat * mat)) : res (mat * mat) := match d with Ok (A, B) => Ok (fun i j => - A i j, fun i j => - B i j) | Throw => Throw | UB => UB end.
Theorem C81_sign_harmless n m dyn cst k : forall a V V' Ks W, v_xx V = v_xx V' -> backward cho smooth_inv n m dyn cst V a k = Ok (Ks, W) ->
  exists W', backward cho smooth_inv n m (fun t => negated (dyn t)) cst V' a k = Ok (Ks, W') /\ v_xx W' = v_xx W.
Proof.
  induction k as [|k IH]; intros a V V' Ks W EV H; cbn [backward] in *.
  - injection H as <- <-. exists V'. split; [reflexivity|now symmetry].
  - destruct (backward cho smooth_inv n m dyn cst V (S a) k) as [[Ks1 W1]| |] eqn:E; cbn [bind] in H; try discriminate. destruct (IH (S a) V V' Ks1 W1 EV E) as (W1' & E1 & EX). rewrite E1. cbn [bind].
    destruct (dyn a) as [[fx fu]| |]; cbn [bind negated] in *; try discriminate. destruct (cst a) as [[[[[[c0 cx] cu] cxx] cuu] cxu]| |]; cbn [bind] in *; try discriminate.
    unfold compute_value_function in *. cbn [compute_Q q_uu q_xu q_xx q_0 q_x q_u] in *. rewrite EX.
    assert (N2 : forall A B P, mm n (mm n (tr (fun i j => - A i j)) P) (fun i j => - B i j) = mm n (mm n (tr A) P) B).
    { intros A B P. apply functional_extensionality; intros i. apply functional_extensionality; intros j. unfold mm, tr. apply rsum_ext. intros l Hl. rewrite <- !rsum_scal_r. apply rsum_ext. intros. ring. }
    rewrite !N2. injection H as <- <-. eexists. split; [reflexivity|]. reflexivity.
Qed.
Print Assumptions C81_sign_harmless.
End Gains.

(** Instance: one state and one control, x' = x + u, cost (x^2 + u^2)/2 and x^2/2 at the end. *)
Example C81_gain_ex : exists Ks W ffs, backward cho_llt (fun _ M => M) 1 1 (fun _ => Ok (ident, ident)) (fun _ => Ok (0, fun _ => 0, fun _ => 0, ident, ident, fun _ _ => 0)) (VM 0 (fun _ => 0) ident) 0 1 = Ok (Ks, W) /\ length Ks = 1%nat /\
  forall x pi, cost_to_go (lin_step 1 1 (fun _ => ident) (fun _ => ident)) (fun x u _ => quad2 1 1 0 (fun _ => 0) (fun _ => 0) ident ident (fun _ _ => 0) x u) (quad1 1 0 (fun _ => 0) ident) 1 0 x (affine_policy 1 0 ffs Ks)
     <= cost_to_go (lin_step 1 1 (fun _ => ident) (fun _ => ident)) (fun x u _ => quad2 1 1 0 (fun _ => 0) (fun _ => 0) ident ident (fun _ _ => 0) x u) (quad1 1 0 (fun _ => 0) ident) 1 0 x pi.
Proof.
  assert (B : forall x : vec, bilin 1 1 x ident x = x 0%nat * x 0%nat) by (intros x; unfold bilin, sum, ident; cbn; ring).
  assert (P : psd 1 ident) by (intros x; rewrite B; nra). assert (D : pos_def 1 ident) by (intros x (i & Hi & Hx); rewrite B; replace i with 0%nat in Hx by lia; nra). assert (S : symmetric 1 ident) by (intros i j Hi Hj; now replace j with i by lia).
  destruct (C81_backward_optimal cho_llt (fun _ M => M) cho_llt_correct 1 1 (fun _ => Ok (ident, ident)) (fun _ => Ok (0, fun _ => 0, fun _ => 0, ident, ident, fun _ _ => 0)) (fun _ => ident) (fun _ => ident) (fun _ => 0) (fun _ _ => 0) (fun _ _ => 0) (fun _ => ident) (fun _ => ident) (VM 0 (fun _ => 0) ident) 1 0 S P) as (Ks & W & ffs & E & L & _ & _ & O).
  - intros t _. repeat split; auto.
  - exists Ks, W, ffs. split; [exact E|]. split; [exact L|]. exact O.
Qed.

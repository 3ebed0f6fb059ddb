(** * C80: the reference trajectory and the derivatives of the dynamics *)
From Coq Require Import Reals List Arith Bool Lia Lra Psatz.
Import ListNotations.
From Verif Require Import Base BaseProofs IpModel LqrModel LqrProofs LqrProofs2 MkoModel RicModel RicSpec RicProofs RicProps RicLinProps RicLinProps2 ManModel OriModel Vec3 OriSpec OriProofs LqrSpec ManSpec ManOriProps.
Local Open Scope R_scope.

Section Dyn.
Variable cho : nat -> mat -> option mat.
Hypothesis Hcho : cho_correct cho.
Notation Ix := (578574 / 100000000). Notation Iy := (1938108 / 100000000). Notation Iz := (2476124 / 100000000).

Lemma world_sym q : sym 3 (world_inertia q).
Proof.
  unfold world_inertia. set (r := quaternion_to_rotation q). change (sym 3 (mm 3 (mm 3 (tr (tr r)) inertia) (tr r))). apply sym_mm.
  intros i j Hi Hj. destruct i as [|[|[|i]]]; try lia; destruct j as [|[|[|j]]]; try lia; reflexivity.
Qed.
Lemma applied_mv M v : applied M v = v3of (mv 3 M (vget3 v)).
Proof. unfold applied, v3of, mv, rsum. cbn [vget3]. f_equal; ring. Qed.
Lemma tr_conj q i j : (i < 3)%nat -> (j < 3)%nat -> tr (quaternion_to_rotation q) i j = quaternion_to_rotation (Q4 (qw q) (- qx q) (- qy q) (- qz q)) i j.
Proof. intros Hi Hj. unfold tr. rewrite !rot_entry by lia. unfold rows_mat. destruct i as [|[|[|i]]]; try lia; destruct j as [|[|[|j]]]; try lia; cbn [nth qw qx qy qz]; ring. Qed.
Lemma world_applied q v : mv3 (world_inertia q) v = inertia_at Ix Iy Iz q v.
Proof.
  unfold inertia_at. cbv zeta. rewrite <- !(proj1 (C79_rotation_matrix _)). set (c := Q4 (qw q) (- qx q) (- qy q) (- qz q)). unfold mv3.
  assert (E : forall i, mv 3 (world_inertia q) (vget3 v) i = mv 3 (quaternion_to_rotation q) (mv 3 inertia (mv 3 (tr (quaternion_to_rotation q)) (vget3 v))) i) by (intros i; unfold world_inertia; rewrite mv_mm, mv_mm; reflexivity).
  assert (B : forall i, (i < 3)%nat -> mv 3 (tr (quaternion_to_rotation q)) (vget3 v) i = vget3 (applied (quaternion_to_rotation c) v) i).
  { intros i Hi. rewrite applied_mv. rewrite (mv_mext 3 _ (quaternion_to_rotation c)) by (intros; now apply tr_conj). destruct i as [|[|[|i]]]; try lia; reflexivity. }
  rewrite (applied_mv (quaternion_to_rotation q)). set (b := applied (quaternion_to_rotation c) v) in *. unfold v3of. rewrite !E.
  assert (D : forall i, (i < 3)%nat -> mv 3 inertia (mv 3 (tr (quaternion_to_rotation q)) (vget3 v)) i = vget3 (V3 (Ix * vx b) (Iy * vy b) (Iz * vz b)) i).
  { intros i Hi. rewrite (mv_ext 3 inertia _ (vget3 b)) by exact B. clear - Hi. unfold mv, rsum, inertia, rows_mat. destruct i as [|[|[|i]]]; try lia; cbn [nth vget3 vx vy vz]; ring. }
  f_equal; apply mv_ext; exact D.
Qed.
Lemma tr_norm q x : rsum 3 (fun i => mv 3 (tr (quaternion_to_rotation q)) x i * mv 3 (tr (quaternion_to_rotation q)) x i) = norm2 q * norm2 q * rsum 3 (fun i => x i * x i).
Proof. unfold mv, tr, rsum. rewrite !rot_entry by lia. unfold rows_mat. cbn [nth]. unfold norm2. ring. Qed.
Lemma world_pd q : 0 < norm2 q -> posdef 3 (world_inertia q).
Proof.
  intros Hq x (i & Hi & Hx). unfold world_inertia. set (r := quaternion_to_rotation q). change (mm 3 (mm 3 r inertia) (tr r)) with (mm 3 (mm 3 (tr (tr r)) inertia) (tr r)). rewrite quad_mm. set (y := mv 3 (tr r) x).
  pose proof (tr_norm q x) as T. fold r y in T.
  assert (0 < rsum 3 (fun i => x i * x i)). { assert (0 <= rsum 3 (fun i => x i * x i)) as [|E] by (apply rsum_nonneg; intros; nra); [assumption|]. exfalso. apply Hx. now apply (rsum_sq_zero 3 x). }
  assert (P : 0 < rsum 3 (fun i => y i * y i)) by (rewrite T; apply Rmult_lt_0_compat; [apply Rmult_lt_0_compat|]; assumption).
  unfold rsum in P. unfold IpModel.vdot, mv, inertia, rows_mat, rsum. cbn [nth]. clearbody y. clear - P. set (a := y 0%nat) in *. set (b := y 1%nat) in *. set (c := y 2%nat) in *. clearbody a b c.
  replace (0 + a * (0 + Ix * a + 0 * b + 0 * c) + b * (0 + 0 * a + Iy * b + 0 * c) + c * (0 + 0 * a + 0 * b + Iz * c)) with (Ix * (0 + a * a + b * b + c * c) + (Iy - Ix) * (b * b) + (Iz - Ix) * (c * c)) by ring. pose proof (Rle_0_sqr b) as B2. pose proof (Rle_0_sqr c) as C2. unfold Rsqr in *. lra.
Qed.
Lemma world_cho q : 0 < norm2 q -> exists N, cho 3 (world_inertia q) = Some N /\ inverse 3 (world_inertia q) N.
Proof.
  intros Hq. pose proof (Hcho 3%nat (world_inertia q) (world_sym q)) as H. destruct (cho 3 (world_inertia q)) as [N|]; [exists N; split; [reflexivity|apply H]|]. exfalso. apply H. intros x Hx. rewrite bilin_dot. now apply world_pd.
Qed.

(** ** A step exists for every nonzero quaternion and obeys the balances of a rigid body of 2.17 kg; the control counts only if it is active. *)
Theorem C80_step act t a x u : nth_error act t = Some a -> 0 < norm2 (m_q x) ->
  exists x', integrate_step cho act t x u = Ok x' /\ m_q x' = integrate_quaternion (m_q x) (vscale dt (m_w x)) /\ 0 < norm2 (m_q x') /\
  rigid_step (1 / 1000) (217 / 100) (981 / 100) Ix Iy Iz (m_c x) (m_v x) (m_q x) (m_w x) (vscale a (V3 (u 0%nat) (u 1%nat) (u 2%nat))) (vscale a (V3 (u 3%nat) (u 4%nat) (u 5%nat))) (m_c x') (m_v x') (m_w x').
Proof.
  intros Ha Hq. destruct (world_cho (m_q x) Hq) as (N & E & HN). unfold integrate_step, pyget. rewrite Ha. cbn [bind]. rewrite E. cbn [bind]. eexists. split; [reflexivity|]. cbn [m_q m_c m_v m_w]. split; [reflexivity|]. split.
  { destruct (C79_integration (m_q x) (vscale dt (m_w x))) as [_ [H _]]. apply Rlt_le_trans with (2 := H). apply Rmult_lt_0_compat; [unfold meps; lra|exact Hq]. }
  split.
  - unfold dt. apply vec_ext; vu; field.
  - unfold mweight, mass, dt, t3. cbn [Nat.add]. apply vec_ext; vu; field.
  - unfold t3. cbn [Nat.add]. rewrite <- !world_applied. set (W := world_inertia (m_q x)) in *. set (b := vsub (vscale a (V3 (u 3%nat) (u 4%nat) (u 5%nat))) (vcross (m_w x) (mv3 W (m_w x)))).
    replace (vsub (vadd (m_w x) (vscale dt (mv3 N b))) (m_w x)) with (vscale dt (mv3 N b)) by (apply vec_ext; vu; ring).
    assert (I : forall i, (i < 3)%nat -> mv 3 W (mv 3 N (vget3 b)) i = vget3 b i) by (intros i Hi; now apply inverse_mv).
    assert (J : forall i, (i < 3)%nat -> mv 3 W (vget3 (vscale dt (mv3 N b))) i = dt * vget3 b i).
    { intros i Hi. rewrite <- (I i Hi). rewrite <- mv_scal. apply mv_ext. intros j Hj. unfold vscal, mv3, v3of, vscale. destruct j as [|[|[|j]]]; try lia; reflexivity. }
    unfold mv3 at 1. unfold v3of. rewrite !J by lia. unfold dt. replace (1 / 1000) with (/ 1000) by field. reflexivity.
Qed.
Print Assumptions C80_step.

(** ** The reference trajectory starts at the first state of the plan and follows the dynamics at every time; the other planned states are not used. *)
Theorem C80_trajectory act us : forall t x, (t + length us <= length act)%nat -> 0 < norm2 (m_q x) ->
  exists l, trajectory_from cho act t x us = Ok l /\ length l = S (length us) /\ nth 0 l x = x /\
  forall k, (k < length us)%nat -> exists xk xk' u, nth_error l k = Some xk /\ nth_error l (S k) = Some xk' /\ nth_error us k = Some u /\ integrate_step cho act (t + k) xk u = Ok xk'.
Proof.
  induction us as [|u us IH]; intros t x Hl Hq; cbn [length trajectory_from] in *.
  - exists [x]. split; [reflexivity|]. split; [reflexivity|]. split; [reflexivity|lia].
  - destruct (nth_error act t) as [a|] eqn:Ea; [|apply nth_error_None in Ea; lia]. destruct (C80_step act t a x u Ea Hq) as (x' & E & _ & Hq' & _). destruct (IH (S t) x' ltac:(lia) Hq') as (l & El & L & H0 & HS).
    rewrite E. cbn [bind]. rewrite El. cbn [bind]. exists (x :: l). split; [reflexivity|]. split; [cbn [length]; lia|]. split; [reflexivity|]. intros [|k] Hk.
    + exists x, x', u. rewrite Nat.add_0_r. repeat split; try reflexivity; [|exact E]. destruct l as [|y l]; [discriminate|]. cbn [nth] in H0. now subst y.
    + destruct (HS k ltac:(lia)) as (xk & xk' & v & A & B & C & D). exists xk, xk', v. replace (t + S k)%nat with (S t + k)%nat by lia. repeat split; assumption.
Qed.
(** Over the whole trajectory the momentum changes by the impulse of the active forces and the weight. *)
Theorem C80_impulse act us : forall t x l, trajectory_from cho act t x us = Ok l ->
  vscale (217 / 100) (vsub (m_v (last l x)) (m_v x)) =
  fold_right vadd (V3 0 0 0) (map (fun '(a, u) => vscale (1 / 1000) (vsub (vscale a (V3 (u 0%nat) (u 1%nat) (u 2%nat))) (V3 0 0 (217 / 100 * (981 / 100))))) (combine (skipn t act) us)).
Proof.
  induction us as [|u us IH]; intros t x l H; cbn [trajectory_from] in H.
  - injection H as <-. cbn [last]. destruct (skipn t act); cbn [combine map fold_right]; apply vec_ext; vu; ring.
  - destruct (integrate_step cho act t x u) as [x'| |] eqn:E; cbn [bind] in H; try discriminate. destruct (trajectory_from cho act (S t) x' us) as [l'| |] eqn:E'; cbn [bind] in H; try discriminate. injection H as <-.
    specialize (IH (S t) x' l' E'). unfold integrate_step, pyget in E. destruct (nth_error act t) as [a|] eqn:Ea; cbn [bind] in E; [|discriminate]. destruct (cho 3 (world_inertia (m_q x))) as [N|]; cbn [bind] in E; [|discriminate].
    assert (Es : skipn t act = a :: skipn (S t) act). { clear - Ea. revert act Ea. induction t as [|t IH]; intros [|b act] Ea; try discriminate; [injection Ea as ->; reflexivity|]. cbn [skipn]. now rewrite (IH act Ea). }
    rewrite Es. cbn [combine map fold_right]. rewrite <- IH.
    replace (last (x :: l') x) with (last l' x'); [|destruct l' as [|y l']; [destruct us; cbn [trajectory_from] in E'; [discriminate|destruct (integrate_step _ _ _ _ _); cbn [bind] in E'; [destruct (trajectory_from _ _ _ _ _); discriminate|discriminate|discriminate]]|]].
    + injection E as E. assert (Ev : m_v x' = vadd (m_v x) (vscale (dt / mass) (vsub (vscale a (t3 u 0)) mweight))) by now rewrite <- E. rewrite Ev. unfold mweight, mass, dt, t3. cbn [Nat.add]. apply vec_ext; vu; field.
    + change (last (x :: y :: l') x) with (last (y :: l') x). clear. revert y. induction l' as [|z l' IH]; intros y; [reflexivity|]. change (last (z :: l') x' = last (z :: l') x). apply IH.
Qed.
Print Assumptions C80_trajectory.
Print Assumptions C80_impulse.

(** ** The derivatives have the wrong sign *)
Lemma vscale_neg k v : vscale k (vscale (-1) v) = vscale (-1) (vscale k v).
Proof. apply vec_ext; vu; ring. Qed.
Lemma log_conj q d : log_quaternion q = Ok d -> log_quaternion (qconj q) = Ok (vscale (-1) d).
Proof.
  unfold log_quaternion. change (qw (qconj q)) with (qw q). replace (qv (qconj q)) with (vscale (-1) (qv q)) by (unfold qv, qconj; apply vec_ext; vu; ring).
  rewrite norm_scale, Rabs_left1 by lra. replace (- -1 * norm (qv q)) with (norm (qv q)) by ring.
  destruct (Rle_dec _ _); [destruct (Req_EM_T _ _); [discriminate|]|]; intros [= <-]; now rewrite vscale_neg.
Qed.
Lemma difference_swap p q d : quaternion_difference p q = Ok d -> quaternion_difference q p = Ok (vscale (-1) d).
Proof.
  unfold quaternion_difference. intros H. replace (quaternion_product p (qconj q)) with (qconj (quaternion_product q (qconj p))); [now apply log_conj|].
  rewrite !product_hamilton. unfold qconj. apply quat_ext; vu; ring.
Qed.
Lemma diff_swap x y d : diff_x x y = Ok d -> exists e, diff_x y x = Ok e /\ forall i, e i = - d i.
Proof.
  unfold diff_x. destruct (quaternion_difference (m_q x) (m_q y)) as [dq| |] eqn:E; cbn [bind]; try discriminate. rewrite (difference_swap _ _ _ E). cbn [bind]. intros [= <-]. eexists. split; [reflexivity|]. intros i. cbv beta.
  assert (S : forall a b k, vget3 (vsub a b) k = - vget3 (vsub b a) k) by (intros a b [|[|k]]; unfold vget3; vu; ring).
  destruct (i <? 3)%nat; [apply S|]. destruct (i <? 6)%nat; [apply S|]. destruct (i <? 9)%nat; [|apply S]. destruct (i - 6)%nat as [|[|k]]; unfold vget3; vu; ring.
Qed.
Lemma diff_vector x y d i : diff_x x y = Ok d -> vector_coordinate i -> d i = coordinate (m_c y) (m_v y) (m_w y) i - coordinate (m_c x) (m_v x) (m_w x) i.
Proof.
  intros H Hi. unfold diff_x in H. destruct (quaternion_difference _ _); cbn [bind] in H; try discriminate. injection H as <-. unfold coordinate.
  assert (S : forall a b k, vget3 (vsub a b) k = vget3 a k - vget3 b k) by (clear; intros p r [|[|k]]; unfold vget3; vu; ring).
  destruct (Nat.ltb_spec i 3); [apply S|]. destruct (Nat.ltb_spec i 6); [apply S|]. destruct (Nat.ltb_spec i 9); [|apply S]. destruct Hi; lia.
Qed.
(** The computed matrices are the negatives of the difference quotients of the step; *)
Theorem C80_derivatives_sign_refuted act t x u fx fu f0 : dynamics_derivatives cho act t x u = Ok (fx, fu) -> integrate_step cho act t x u = Ok f0 ->
  (forall i, (i < 12)%nat -> exists f1 d, integrate_step cho act t (increment_x x (fun j => if (j =? i)%nat then 1 / 1000000 else 0)) u = Ok f1 /\ diff_x f0 f1 = Ok d /\ forall r, fx r i = - (d r / (1 / 1000000))) /\
  (forall i, (i < 6)%nat -> exists f1 d, integrate_step cho act t x (fun j => if (j =? i)%nat then u j + 1 / 1000000 else u j) = Ok f1 /\ diff_x f0 f1 = Ok d /\ forall r, fu r i = - (d r / (1 / 1000000))).
Proof.
  unfold dynamics_derivatives. intros H E0. rewrite E0 in H. cbn [bind] in H. destruct (columns_of 12 _) as [fx'| |] eqn:Ex; cbn [bind] in H; try discriminate. destruct (columns_of 6 _) as [fu'| |] eqn:Eu; cbn [bind] in H; try discriminate. injection H as <- <-.
  assert (M : meps = 1 / 1000000) by (unfold meps; field). split; intros i Hi.
  - destruct (columns_ok 12 _ fx' Ex i Hi) as (v & Ev & Hv). cbv beta in Ev. unfold unit_step in Ev. rewrite M in Ev. destruct (integrate_step cho act t (increment_x x _) u) as [f1| |]; cbn [bind] in Ev; try discriminate.
    destruct (diff_x f1 f0) as [e| |] eqn:Ed; cbn [bind] in Ev; try discriminate. injection Ev as <-. destruct (diff_swap f1 f0 e Ed) as (d & Ed' & Hd). exists f1, d. split; [reflexivity|]. split; [exact Ed'|]. intros r. rewrite Hv, Hd. field.
  - destruct (columns_ok 6 _ fu' Eu i Hi) as (v & Ev & Hv). cbv beta in Ev.
    replace (vplus u (unit_step i meps)) with (fun j => if (j =? i)%nat then u j + 1 / 1000000 else u j) in Ev by (apply FunctionalExtensionality.functional_extensionality; intros j; unfold vplus, unit_step; rewrite <- M; destruct (j =? i)%nat; ring).
    rewrite M in Ev. destruct (integrate_step cho act t x (fun j => if (j =? i)%nat then u j + 1 / 1000000 else u j)) as [f1| |]; cbn [bind] in Ev; try discriminate.
    destruct (diff_x f1 f0) as [e| |] eqn:Ed; cbn [bind] in Ev; try discriminate. injection Ev as <-. destruct (diff_swap f1 f0 e Ed) as (d & Ed' & Hd). exists f1, d. split; [reflexivity|]. split; [exact Ed'|]. intros r. rewrite Hv, Hd. field.
Qed.
(** in the rows of position and velocity they are exactly -I, -dt I and -dt/m I (0 without contact). *)
Theorem C80_linear_rows act t a x u fx fu : dynamics_derivatives cho act t x u = Ok (fx, fu) -> nth_error act t = Some a ->
  (forall r i, (r < 6)%nat -> (i < 12)%nat -> fx r i = - ((if (i =? r)%nat then 1 else 0) + (if (i =? r + 3)%nat then if (r <? 3)%nat then 1 / 1000 else 0 else 0))) /\
  (forall r i, (r < 6)%nat -> (i < 6)%nat -> fu r i = - (if (r =? i + 3)%nat then a * (1 / 1000) / (217 / 100) else 0)).
Proof.
  intros H Ha. assert (E0 : exists f0, integrate_step cho act t x u = Ok f0) by (unfold dynamics_derivatives in H; destruct (integrate_step cho act t x u); [eauto|discriminate|discriminate]). destruct E0 as [f0 E0].
  destruct (C80_derivatives_sign_refuted act t x u fx fu f0 H E0) as [HX HU].
  assert (CV : forall y v f, integrate_step cho act t y v = Ok f -> m_c f = vadd (m_c y) (vscale dt (m_v y)) /\ m_v f = vadd (m_v y) (vscale (dt / mass) (vsub (vscale a (t3 v 0)) mweight))).
  { intros y v f E. unfold integrate_step, pyget in E. rewrite Ha in E. cbn [bind] in E. destruct (cho 3 _); cbn [bind] in E; [|discriminate]. injection E as <-. split; reflexivity. }
  destruct (CV _ _ _ E0) as [C0 V0]. split; intros r i Hr Hi.
  - destruct (HX i Hi) as (f1 & d & E1 & Ed & Hd). destruct (CV _ _ _ E1) as [C1 V1]. rewrite Hd, (diff_vector _ _ _ r Ed) by (left; lia). f_equal. unfold coordinate. rewrite C0, V0, C1, V1. clear - Hr Hi. unfold increment_x, t3. cbn [m_c m_v Nat.add]. unfold dt, mass, mweight.
    destruct r as [|[|[|[|[|[|r]]]]]]; try lia; do 12 (destruct i as [|i]; [cbn [Nat.eqb Nat.ltb Nat.leb Nat.add Nat.sub]; unfold vget3, vdot, vcross, vsub, vadd, vscale; cbn [vx vy vz]; field; repeat split; lra|]); lia.
  - destruct (HU i Hi) as (f1 & d & E1 & Ed & Hd). destruct (CV _ _ _ E1) as [C1 V1]. rewrite Hd, (diff_vector _ _ _ r Ed) by (left; lia). f_equal. unfold coordinate. rewrite C0, V0, C1, V1. clear - Hr Hi. unfold t3. cbn [Nat.add]. unfold dt, mass.
    destruct r as [|[|[|[|[|[|r]]]]]]; try lia; do 6 (destruct i as [|i]; [cbn [Nat.eqb Nat.ltb Nat.leb Nat.add Nat.sub]; unfold vget3, vdot, vcross, vsub, vadd, vscale; cbn [vx vy vz]; field; repeat split; lra|]); lia.
Qed.
Print Assumptions C80_derivatives_sign_refuted.
Print Assumptions C80_linear_rows.

(** ** The differences of states and the derivatives exist: *)
Lemma difference_exists p q : meps ^ 2 < norm2 p * norm2 q -> exists d, quaternion_difference p q = Ok d.
Proof.
  intros H. unfold quaternion_difference, log_quaternion. set (d := quaternion_product q (qconj p)). assert (N : norm2 d = norm2 p * norm2 q) by (unfold d; rewrite product_hamilton, hamilton_norm; unfold qconj, norm2; cbn [qw qx qy qz]; ring).
  destruct (Rle_dec _ _) as [L|L]; [|eauto]. destruct (Req_EM_T (qw d) 0) as [E|E]; [|eauto]. exfalso.
  assert (norm2 d = norm (qv d) ^ 2) by (rewrite norm_sq; unfold norm2, qv, vdot; cbn [vx vy vz]; rewrite E; ring). pose proof (norm_nonneg (qv d)). assert (norm (qv d) ^ 2 <= meps ^ 2) by (apply pow_incr; lra). lra.
Qed.
Lemma diff_exists x y : meps ^ 2 < norm2 (m_q x) * norm2 (m_q y) -> exists d, diff_x x y = Ok d.
Proof. intros H. unfold diff_x. destruct (difference_exists _ _ H) as [d ->]. cbn [bind]. eauto. Qed.
Lemma step_norm act t a x u : nth_error act t = Some a -> 0 < norm2 (m_q x) -> exists x', integrate_step cho act t x u = Ok x' /\ (1 - meps ^ 2 / 12) * norm2 (m_q x) <= norm2 (m_q x').
Proof.
  intros Ha Hq. destruct (C80_step act t a x u Ha Hq) as (x' & E & Eq & _). exists x'. split; [exact E|]. rewrite Eq. apply C79_integration.
Qed.
Theorem C80_derivatives_exist act t a x u : nth_error act t = Some a -> 1 / 2 <= norm2 (m_q x) -> exists fx fu, dynamics_derivatives cho act t x u = Ok (fx, fu).
Proof.
  intros Ha Hq. unfold dynamics_derivatives. destruct (step_norm act t a x u Ha ltac:(lra)) as (f0 & -> & N0). cbn [bind].
  assert (Hm : 0 < meps < 1 / 100) by (unfold meps; lra). assert (Hm2 : 0 < meps ^ 2 < 1 / 100) by nra.
  assert (X : exists M, columns_of 12 (fun i => bind (integrate_step cho act t (increment_x x (unit_step i meps)) u) (fun fp => bind (diff_x fp f0) (fun d => Ok (fun r => d r / meps)))) = Ok M).
  { apply columns_exist. intros i Hi. assert (NI : (1 - meps ^ 2 / 12) * norm2 (m_q x) <= norm2 (m_q (increment_x x (unit_step i meps)))) by apply C79_integration.
    destruct (step_norm act t a (increment_x x (unit_step i meps)) u Ha ltac:(nra)) as (f1 & -> & N1). cbn [bind]. destruct (diff_exists f1 f0) as [d ->]; [|cbn [bind]; eauto].
    assert (1 / 4 <= norm2 (m_q f0)) by nra. assert (4 / 10 <= norm2 (m_q (increment_x x (unit_step i meps)))) by nra. assert (1 / 4 <= norm2 (m_q f1)) by nra. nra. }
  assert (U : exists M, columns_of 6 (fun i => bind (integrate_step cho act t x (vplus u (unit_step i meps))) (fun fp => bind (diff_x fp f0) (fun d => Ok (fun r => d r / meps)))) = Ok M).
  { apply columns_exist. intros i Hi. destruct (step_norm act t a x (vplus u (unit_step i meps)) Ha ltac:(lra)) as (f1 & -> & N1). cbn [bind]. destruct (diff_exists f1 f0) as [d ->]; [|cbn [bind]; eauto].
    assert (1 / 4 <= norm2 (m_q f0)) by nra. assert (1 / 4 <= norm2 (m_q f1)) by nra. nra. }
  destruct X as [fx ->]. cbn [bind]. destruct U as [fu ->]. cbn [bind]. eauto.
Qed.
Print Assumptions C80_derivatives_exist.
End Dyn.

(** A correct Cholesky routine exists, so that the hypotheses can be met; a standing robot with one foot down. *)
Definition cho_llt (n : nat) (M : mat) : option mat := match llt n M with Some C => Some (llt_inv n C) | None => None end.
Lemma cho_llt_correct : cho_correct cho_llt.
Proof.
  intros n M HS. unfold cho_llt. destruct (llt n M) as [C|] eqn:E.
  - split; [now apply llt_inverse|]. intros x Hx. rewrite bilin_dot. exact (llt_posdef n M C HS E x Hx).
  - intros P. assert (PD : posdef n M) by (intros x Hx; rewrite <- bilin_dot; now apply P). destruct (posdef_llt n M HS PD) as [C EC]. congruence.
Qed.
Definition standing_state : mstate := MX (V3 0 0 (/ 4)) (V3 0 0 0) (Q4 1 0 0 0) (V3 0 0 0).
Example C80_ex : exists x' fx fu, integrate_step cho_llt [1] 0 standing_state (fun i => if (i =? 2)%nat then 30 else 0) = Ok x' /\ vz (m_v x') = / 1000 * (30 / (217 / 100) - 981 / 100) /\
  dynamics_derivatives cho_llt [1] 0 standing_state (fun _ => 0) = Ok (fx, fu) /\ fx 0%nat 0%nat = -1.
Proof.
  assert (N : norm2 (m_q standing_state) = 1) by (unfold standing_state, norm2; cbn; ring).
  destruct (C80_step cho_llt cho_llt_correct [1] 0 1 standing_state (fun i => if (i =? 2)%nat then 30 else 0) eq_refl ltac:(lra)) as (x' & E & _ & _ & R).
  destruct (C80_derivatives_exist cho_llt cho_llt_correct [1] 0 1 standing_state (fun _ => 0) eq_refl ltac:(lra)) as (fx & fu & D). exists x', fx, fu. split; [exact E|]. split; [|split; [exact D|]].
  - pose proof (f_equal vz (rs_momentum _ _ _ _ _ _ _ _ _ _ _ _ _ _ _ R)) as M. unfold standing_state, vscale, vsub in M. cbn in M. lra.
  - destruct (C80_linear_rows cho_llt [1] 0 1 standing_state _ fx fu D eq_refl) as [H _]. rewrite (H 0%nat 0%nat) by lia. cbn. ring.
Qed.

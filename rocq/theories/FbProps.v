(** * C43: the feedback model and the plan *)
From Coq Require Import Reals List Arith ZArith Bool Lia Lra.
Import ListNotations.
From Verif Require Import Base BaseProofs Vec3 CntModel CntSpec LqrModel LqrProofs3 DynModel DynSpec DynStoreSpec DynStoreProps FbModel.
Local Open Scope R_scope.

Lemma seg9 : forall a b c, seg3 (vec9 a b c) 0 = a /\ seg3 (vec9 a b c) 3 = b /\ seg3 (vec9 a b c) 6 = c.
Proof. intros [a1 a2 a3] [b1 b2 b3] [c1 c2 c3]. repeat split; reflexivity. Qed.
Lemma fsum_is : forall g q t f s, fsum g q t f s = vadd s (active_sum q (g_neff g) t f).
Proof.
  intros g q t f s. unfold fsum. induction (g_neff g) as [|n IH].
  - cbn. destruct s as [a b c]. unfold vadd, v0. cbn [vx vy vz]. f_equal; ring.
  - rewrite seq_S, fold_left_app, IH. cbn [fold_left plus active_sum]. unfold fact. change (d_eff (nth t (states q) dstate_new) n) with (look q n t). destruct (e_act (look q n t)).
    + destruct s as [a b c], (active_sum q n t f) as [a' b' c'], (f n) as [a2 b2 c2]. unfold vadd. cbn [vx vy vz]. f_equal; ring.
    + destruct s as [a b c], (active_sum q n t f) as [a' b' c']. unfold vadd, v0. cbn [vx vy vz]. f_equal; ring.
Qed.
Lemma active_scale : forall q n t k f, active_sum q n t (fun e => vscale k (f e)) = vscale k (active_sum q n t f).
Proof.
  intros q n t k f. induction n; cbn [active_sum].
  - unfold vscale, v0. cbn. f_equal; ring.
  - rewrite IHn. destruct (e_act (look q n t)); destruct (active_sum q n t f) as [a b c], (f n) as [a' b' c']; unfold vadd, vscale, v0; cbn [vx vy vz]; f_equal; ring.
Qed.
Lemma active_sum_ext : forall q n t f h, (forall e, (e < n)%nat -> active q e t -> f e = h e) -> active_sum q n t f = active_sum q n t h.
Proof.
  intros q n t f h. induction n; intros H; cbn [active_sum]; [reflexivity|]. rewrite IHn by (intros e He; apply H; lia). destruct (e_act (look q n t)) eqn:E; [|reflexivity]. now rewrite H by (try lia; exact E).
Qed.
Lemma seg_plus : forall x y k, seg3 (vplus x y) k = vadd (seg3 x k) (seg3 y k).
Proof. reflexivity. Qed.

(** One step: the momenta change by weight and forces, and by the torques of the forces about the new center of mass, which moves with the new momentum. *)
Theorem C43_step : forall g q x u t, let x' := vplus x (fb_dynamics g q x u t) in let dt := step_time q t in
  seg3 x' 3 = vadd (seg3 x 3) (vscale dt (vadd (vscale (g_mass g) (g_grav g)) (active_sum q (g_neff g) t (fun e => seg3 (ff u) (3 * e))))) /\
  seg3 x' 0 = vadd (seg3 x 0) (vscale (dt / g_mass g) (seg3 x' 3)) /\
  seg3 x' 6 = vadd (seg3 x 6) (vscale dt (active_sum q (g_neff g) t (fun e => vcross (vsub (e_pos (look q e t)) (seg3 x' 0)) (seg3 (ff u) (3 * e))))).
Proof.
  intros g q x u t x' dt. unfold x'. rewrite !seg_plus. unfold fb_dynamics. fold (step_time q t). fold dt. set (dl := fsum g q t _ _). set (dc := vscale (dt / g_mass g) _). set (da := fsum g q t _ v0).
  destruct (seg9 dc dl da) as (-> & -> & ->). split; [|split].
  - f_equal. unfold dl. rewrite fsum_is, active_scale. destruct (active_sum q (g_neff g) t _) as [a b c], (g_grav g) as [a' b' c']. unfold vadd, vscale. cbn [vx vy vz]. f_equal; ring.
  - reflexivity.
  - f_equal. unfold da. rewrite fsum_is, active_scale. change (d_eff (nth t (states q) dstate_new)) with (fun e => look q e t). destruct (vscale dt _) as [a b c]. unfold vadd, v0. cbn [vx vy vz]. f_equal; ring.
Qed.
Print Assumptions C43_step.

(** The controls written are the planned forces in Newton, zero for end-effectors that are not in contact; the first state is the initial one;
    feedback gains are kept; a sequence of another length is rejected (the first state is overwritten nevertheless). *)
Theorem C43_set : forall g q tdim ini xs us, let r := setStatesAndControls g q tdim ini xs us in
  seg3 (fst r 0%nat) 0 = d_com ini /\ seg3 (fst r 0%nat) 3 = d_lmom ini /\ seg3 (fst r 0%nat) 6 = d_amom ini /\ (forall t, (0 < t)%nat -> fst r t = xs t) /\
  (tdim <> List.length (states q) -> snd r = Throw) /\
  (tdim = List.length (states q) -> exists us', snd r = Ok us' /\ forall t, (t < tdim)%nat ->
     fb (us' t) = fb (us t) /\ (forall e, (e < g_neff g)%nat -> seg3 (ff (us' t)) (3 * e) = if e_act (look q e t) then vscale (g_mg g) (e_frc (look q e t)) else v0) /\
     forall i, (3 * g_neff g <= i)%nat -> ff (us' t) i = 0).
Proof.
  intros g q tdim ini xs us r. unfold r, setStatesAndControls. cbn [fst snd].
  assert (S : forall k, (k <= 6)%nat -> seg3 (upd xs 0 (fun i => if (i <? 9)%nat then vec9 (d_com ini) (d_lmom ini) (d_amom ini) i else xs 0%nat i) 0%nat) k = seg3 (vec9 (d_com ini) (d_lmom ini) (d_amom ini)) k).
  { intros k Hk. unfold seg3. rewrite upd_same. f_equal; (destruct (Nat.ltb_spec k 9); try lia; destruct (Nat.ltb_spec (k+1) 9); try lia; destruct (Nat.ltb_spec (k+2) 9); try lia; reflexivity). }
  destruct (seg9 (d_com ini) (d_lmom ini) (d_amom ini)) as (E1 & E2 & E3). rewrite !S by lia. split; [exact E1|]. split; [exact E2|]. split; [exact E3|]. split; [intros t Ht; now apply upd_other; lia|]. split.
  - intros H. now rewrite (proj2 (Nat.eqb_neq _ _) H).
  - intros ->. rewrite Nat.eqb_refl. eexists. split; [reflexivity|]. intros t Ht. cbv beta. rewrite (proj2 (Nat.ltb_lt _ _) Ht). cbn [fb ff]. split; [reflexivity|]. split.
    + intros e He. unfold seg3, feedforward_of. rewrite !(Nat.mul_comm 3), Nat.div_mul by lia. rewrite !Nat.div_add_l by lia. change (1 / 3)%nat with 0%nat. change (2 / 3)%nat with 0%nat. rewrite !Nat.add_0_r.
      rewrite Nat.mod_mul by lia. rewrite (Nat.add_comm (e * 3) 1), (Nat.add_comm (e * 3) 2), !Nat.mod_add by lia. change (1 mod 3)%nat with 1%nat. change (2 mod 3)%nat with 2%nat.
      destruct (Nat.ltb_spec e (g_neff g)); [|lia]. unfold fact. change (d_eff (nth t (states q) dstate_new) e) with (look q e t). destruct (e_act (look q e t)); cbn [andb]; [|reflexivity]. now destruct (vscale _ _).
    + intros i Hi. unfold feedforward_of. destruct (Nat.ltb_spec (i / 3) (g_neff g)) as [H1|H1]; [|reflexivity]. exfalso. assert (i / 3 * 3 <= i)%nat by (pose proof (Nat.div_mod i 3); lia). pose proof (Nat.mod_upper_bound i 3). pose proof (Nat.div_mod i 3). lia.
Qed.
Print Assumptions C43_set.

(** Rolling the controls out (Euler integration, no control limits, no feedback): the linear momentum and the center of mass are those of the plan, the angular momentum integrates the torques of
    the forces applied at the end-effector positions, for every plan that obeys the
    planner's equations (C32) without external force; [l] is the sequence in which the plan has been stored (C35). *)
Theorem C43_rollout : forall Sg obj g q P am l ini cs xs us us' xs',
  stored g q P am l -> (forall t, (t < g_N g)%nat -> dynamics_fixed g ini cs q P t) -> g_heur g <> TimeOptimization -> g_ext g = v0 ->
  s_rk Sg = false -> s_limits Sg = false -> (forall t i j, fb (us t) i j = 0) -> (g_N g <= s_tdim Sg)%nat ->
  setStatesAndControls g (Seq l (act_steps q)) (s_tdim Sg) ini xs us = (xs', Ok us') ->
  let F := applyController Sg (fb_dynamics g (Seq l (act_steps q))) obj xs' us' in
  forall t, (t < g_N g)%nat ->
    seg3 (f_x F (t + 1)%nat) 0 = p_com P t /\ seg3 (f_x F (t + 1)%nat) 3 = p_lmom P t /\
    seg3 (f_x F (t + 1)%nat) 0 = d_com (nth_state l (t + 1)) /\ seg3 (f_x F (t + 1)%nat) 3 = d_lmom (nth_state l (t + 1)) /\
    seg3 (f_x F (t + 1)%nat) 6 = accum (d_amom ini) (fun s => vscale (step_time q s) (active_sum q (g_neff g) s (fun e => vcross (vsub (e_pos (look q e s)) (p_com P s)) (vscale (g_mg g) (p_frc P e s))))) (t + 1).
Proof.
  intros Sg obj g q P am l ini cs xs us us' xs' ST HD HT HE RK LM FB HN SET F.
  pose proof (C43_set g (Seq l (act_steps q)) (s_tdim Sg) ini xs us) as HS. cbv zeta in HS. rewrite SET in HS. cbn [fst snd] in HS. destruct HS as (X1 & X2 & X3 & _ & NT & HU).
  destruct (Nat.eq_dec (s_tdim Sg) (List.length (states (Seq l (act_steps q))))) as [ET|ET]; [|specialize (NT ET); discriminate].
  destruct (HU ET) as (u2 & EU & HU2). injection EU as <-. clear HU NT.
  destruct (apply_ok Sg (fb_dynamics g (Seq l (act_steps q))) obj xs' us') as (I1 & I2 & _ & _). fold F in I1, I2.
  assert (UF : forall t i, (t < s_tdim Sg)%nat -> ff (f_u F t) i = ff (us' t) i).
  { intros t i Ht. destruct (I2 t Ht) as (-> & _). cbn [ff]. unfold law. rewrite LM. unfold vplus, mv. rewrite rsum_zero; [ring|]. intros j Hj. destruct (HU2 t Ht) as (-> & _). rewrite FB. ring. }
  set (Q := Seq l (act_steps q)) in *.
  assert (LQ : forall e t, (e < g_neff g)%nat -> (t < g_N g)%nat -> e_act (look Q e t) = e_act (look q e t) /\ e_pos (look Q e t) = e_pos (look q e t) /\ (active q e t -> e_frc (look Q e t) = p_frc P e t)).
  { intros e t He Ht. change (look Q e t) with (d_eff (nth_state l t) e). destruct (e_act (look q e t)) eqn:A.
    - rewrite (so_eff _ _ _ _ _ ST e t He Ht A). cbn [e_act e_frc e_pos]. split; [exact A|]. split; reflexivity.
    - rewrite (so_eff_kept _ _ _ _ _ ST e t); [split; [exact A|]; split; [reflexivity|intros H; unfold active in H; congruence]|]. right. right. unfold active. rewrite A. discriminate. }
  assert (TQ : forall t, step_time Q t = step_time q t) by (intros t; apply (so_time_kept _ _ _ _ _ ST t (or_introl HT))).
  assert (AG : forall t h, (t < g_N g)%nat -> active_sum Q (g_neff g) t (fun e => h e (seg3 (ff (f_u F t)) (3 * e))) = active_sum q (g_neff g) t (fun e => h e (vscale (g_mg g) (p_frc P e t)))).
  { intros t h Ht. destruct (HU2 t ltac:(lia)) as (_ & HF & _).
    assert (G : forall n, (n <= g_neff g)%nat -> active_sum Q n t (fun e => h e (seg3 (ff (f_u F t)) (3 * e))) = active_sum q n t (fun e => h e (vscale (g_mg g) (p_frc P e t)))).
    { induction n; intros Hn; cbn [active_sum]; [reflexivity|]. rewrite IHn by lia. destruct (LQ n t ltac:(lia) Ht) as (A1 & _ & A2). rewrite A1. destruct (e_act (look q n t)) eqn:A; [|reflexivity]. f_equal. f_equal.
      assert (Z : seg3 (ff (f_u F t)) (3 * n) = seg3 (ff (us' t)) (3 * n)) by (unfold seg3; now rewrite !UF by lia). rewrite Z, HF by lia. rewrite A1. now rewrite A2. }
    apply G. lia. }
  assert (AS : forall t, (t < g_N g)%nat -> active_sum Q (g_neff g) t (fun e => seg3 (ff (f_u F t)) (3 * e)) = active_sum q (g_neff g) t (fun e => vscale (g_mg g) (p_frc P e t))).
  { intros t Ht. exact (AG t (fun _ v => v) Ht). }
  assert (M : forall t, (t < g_N g)%nat -> seg3 (f_x F (t + 1)%nat) 0 = p_com P t /\ seg3 (f_x F (t + 1)%nat) 3 = p_lmom P t).
  { assert (STEP : forall t, (t < g_N g)%nat -> seg3 (f_x F t) 0 = prev (p_com P) (d_com ini) t -> seg3 (f_x F t) 3 = prev (p_lmom P) (d_lmom ini) t ->
      seg3 (f_x F (t + 1)%nat) 0 = p_com P t /\ seg3 (f_x F (t + 1)%nat) 3 = p_lmom P t).
    { intros t Ht C L. destruct (I2 t ltac:(lia)) as (_ & E & _). destruct (HD t Ht) as (D1 & D2 & _).
      destruct (C43_step g Q (f_x F t) (f_u F t) t) as (S1 & S2 & _).
      assert (XE : f_x F (t + 1)%nat = vplus (f_x F t) (fb_dynamics g Q (f_x F t) (f_u F t) t)) by (rewrite E; unfold internal_dynamics; now rewrite RK). rewrite <- XE in S1, S2.
      assert (L' : seg3 (f_x F (t + 1)%nat) 3 = p_lmom P t).
      { rewrite S1, L, TQ, AS, D2 by exact Ht. unfold net_force. f_equal. f_equal. rewrite HE. destruct (vadd (vscale (g_mass g) (g_grav g)) _) as [a b c]. destruct (t =? 0)%nat; unfold vadd, vscale, v0; cbn [vx vy vz]; f_equal; ring. }
      split; [|exact L']. rewrite S2, C, TQ, L'. now symmetry. }
    induction t; intros Ht.
    - apply STEP; [exact Ht| |]; rewrite I1; assumption.
    - destruct (IHt ltac:(lia)) as (A & B). apply STEP; [exact Ht| |]; cbn [prev]; rewrite <- Nat.add_1_r; assumption. }
  assert (AM : forall t, (t <= g_N g)%nat -> seg3 (f_x F t) 6 = accum (d_amom ini) (fun s => vscale (step_time q s) (active_sum q (g_neff g) s (fun e => vcross (vsub (e_pos (look q e s)) (p_com P s)) (vscale (g_mg g) (p_frc P e s))))) t).
  { induction t; intros Ht; [rewrite I1; exact X3|]. cbn [accum]. rewrite <- IHt by lia. destruct (I2 t ltac:(lia)) as (_ & E & _). destruct (C43_step g Q (f_x F t) (f_u F t) t) as (_ & _ & S3).
    assert (XE : f_x F (t + 1)%nat = vplus (f_x F t) (fb_dynamics g Q (f_x F t) (f_u F t) t)) by (rewrite E; unfold internal_dynamics; now rewrite RK). rewrite <- XE, Nat.add_1_r in S3. rewrite S3, TQ. f_equal. f_equal.
    rewrite (AG t (fun e v => vcross (vsub (e_pos (look Q e t)) (seg3 (f_x F (S t)) 0)) v)) by lia. apply active_sum_ext. intros e He Ha. destruct (LQ e t He ltac:(lia)) as (_ & -> & _). destruct (M t ltac:(lia)) as (C & _). rewrite Nat.add_1_r in C. now rewrite C. }
  intros t Ht. destruct (M t Ht) as (A & B). split; [exact A|]. split; [exact B|]. rewrite A, B. split; [rewrite Nat.add_1_r; symmetry; apply (so_com _ _ _ _ _ ST t Ht)|]. split; [rewrite Nat.add_1_r; symmetry; apply (so_lmom _ _ _ _ _ ST t Ht)|]. apply AM. lia.
Qed.
Print Assumptions C43_rollout.

(** The planned angular momentum is reproduced if the end-effectors are at the contact locations, the centers of pressure there too, and no normal torque is used... *)
Theorem C43_angular : forall g q cs P ini N,
  (forall e t, (e < g_neff g)%nat -> (t < N)%nat -> active q e t -> e_pos (look q e t) = c_pos (contact_on cs q e t) /\ p_copx P e t = 0 /\ p_copy P e t = 0 /\ p_trq P e t = 0) ->
  accum (d_amom ini) (fun s => vscale (step_time q s) (active_sum q (g_neff g) s (fun e => vcross (vsub (e_pos (look q e s)) (p_com P s)) (vscale (g_mg g) (p_frc P e s))))) N
  = accum (d_amom ini) (fun s => vscale (step_time q s) (active_sum q (g_neff g) s (fun e => contact_torque g cs q P e s))) N.
Proof.
  intros g q cs P ini N. induction N as [|n IH]; intros H; [reflexivity|]. cbn [accum]. rewrite IH by (intros; apply H; auto). f_equal. f_equal. apply active_sum_ext. intros e He Ha.
  destruct (H e n He (Nat.lt_succ_diag_r n) Ha) as (E1 & E2 & E3 & E4). unfold contact_torque, arm. rewrite E1, E2, E3, E4. set (c := contact_on cs q e n). clearbody c.
  destruct (c_pos c) as [a1 a2 a3], (surf c 0) as [b1 b2 b3], (surf c 1) as [c1 c2 c3], (surf c 2) as [d1 d2 d3], (p_com P n) as [x1 x2 x3], (p_frc P e n) as [f1 f2 f3]. unfold vadd, vsub, vscale, vcross. cbn [vx vy vz]. f_equal; ring.
Qed.
Print Assumptions C43_angular.
(** ... and with a normal torque it is not: the model has none. *)
Theorem C43_angular_refuted : exists g q cs P ini, (0 < g_N g)%nat /\ dynamics_fixed g ini cs q P 0 /\ contact_feasible g cs q P 0 0 /\ active q 0 0 /\
  p_amom P 0%nat <> accum (d_amom ini) (fun s => vscale (step_time q s) (active_sum q (g_neff g) s (fun e => vcross (vsub (e_pos (look q e s)) (p_com P s)) (vscale (g_mg g) (p_frc P e s))))) 1.
Proof.
  exists (demo_g SoftConstraint), demo_q, demo_cs, (Plan (fun _ => V3 0 0 1) (fun _ => v0) (fun _ => V3 0 0 1) (fun _ => 0) (fun _ => v0) (fun _ => v0) (fun _ _ => V3 2 2 0) (fun _ _ => V3 2 2 0) (fun _ _ => V3 0 0 1) (fun _ _ => 0) (fun _ _ => 0) (fun _ _ => 1)), demo_ini.
  split; [cbn; lia|]. split; [|split; [|split]].
  - unfold dynamics_fixed, net_force, net_torque, torque_used, prev, vadd, vscale, vsub, v0. cbn. split; [|split]; f_equal; field.
  - split; unfold arm, upper, lower, sqr, vle, vadd, vscale, vsub; cbn; try lra.
    + intros _. unfold coulomb, vdot, sqr. cbn. match goal with |- sqrt ?a <= _ => replace a with 0 by ring end. rewrite sqrt_0. lra.
    + unfold vdot. cbn. lra.
  - reflexivity.
  - unfold vadd, vscale, vsub, vcross, v0. cbn. intros H. injection H as H1 H2 H3. lra.
Qed.
Print Assumptions C43_angular_refuted.
(** Runge-Kutta integration applies the momentum change one and a half times to the center of mass: with it no plan with a momentum change is reproduced. *)
Theorem C43_runge_kutta_refuted : forall Sg g q x u t, s_rk Sg = true ->
  let dt := step_time q t in let dl := vscale dt (vadd (vscale (g_mass g) (g_grav g)) (active_sum q (g_neff g) t (fun e => seg3 (ff u) (3 * e)))) in
  let x' := internal_dynamics Sg (fb_dynamics g q) x u t in
  seg3 x' 3 = vadd (seg3 x 3) dl /\
  seg3 x' 0 = vadd (seg3 x 0) (vscale (dt / g_mass g) (vadd (seg3 x 3) (vscale (3 / 2) dl))) /\
  (vscale (dt / g_mass g) dl <> v0 -> seg3 x' 0 <> vadd (seg3 x 0) (vscale (dt / g_mass g) (seg3 x' 3))).
Proof.
  intros Sg g q x u t RK dt dl x'.
  assert (ST : forall y, seg3 (fb_dynamics g q y u t) 3 = dl /\ seg3 (fb_dynamics g q y u t) 0 = vscale (dt / g_mass g) (vadd (seg3 y 3) dl)).
  { intros y. destruct (C43_step g q y u t) as (A & B & _). fold dt in A, B. fold dl in A. rewrite A in B. rewrite !seg_plus in A. rewrite !seg_plus in B.
    set (a := seg3 (fb_dynamics g q y u t) 3) in *. set (b := seg3 (fb_dynamics g q y u t) 0) in *. clearbody a b dl. destruct a as [a1 a2 a3], b as [b1 b2 b3], dl as [d1 d2 d3], (seg3 y 3) as [y1 y2 y3], (seg3 y 0) as [z1 z2 z3].
    set (K := dt / g_mass g) in *. clearbody K. unfold vadd, vscale in A, B |- *. cbn [vx vy vz] in A, B |- *. injection A as A1 A2 A3. injection B as B1 B2 B3. assert (a1 = d1) by lra. assert (a2 = d2) by lra. assert (a3 = d3) by lra. subst. split; [reflexivity|]. f_equal; lra. }
  unfold x', internal_dynamics. rewrite RK. set (k1 := fb_dynamics g q x u t). set (k2 := fb_dynamics g q (vplus x (vscal (1 / 2) k1)) u t). set (k3 := fb_dynamics g q (vplus x (vscal (1 / 2) k2)) u t). set (k4 := fb_dynamics g q (vplus x k3) u t).
  destruct (ST x) as (L1 & C1). destruct (ST (vplus x (vscal (1 / 2) k1))) as (L2 & C2). destruct (ST (vplus x (vscal (1 / 2) k2))) as (L3 & C3). destruct (ST (vplus x k3)) as (L4 & C4). fold k1 in L1, C1. fold k2 in L2, C2. fold k3 in L3, C3. fold k4 in L4, C4.
  assert (SC : forall c v k, seg3 (vscal c v) k = vscale c (seg3 v k)) by reflexivity. rewrite seg_plus, SC, L1 in C2. rewrite seg_plus, SC, L2 in C3. rewrite seg_plus, L3 in C4.
  assert (EX : forall k, seg3 (vplus (fun i => vplus k1 k4 i / 6) (fun i => vplus k2 k3 i / 3)) k = vadd (vscale (/ 6) (vadd (seg3 k1 k) (seg3 k4 k))) (vscale (/ 3) (vadd (seg3 k2 k) (seg3 k3 k)))).
  { intros k. unfold seg3, vplus, vadd, vscale. cbn [vx vy vz]. f_equal; unfold Rdiv; ring. }
  rewrite !(seg_plus x), !EX, L1, L2, L3, L4, C1, C2, C3, C4. clearbody dl k1 k2 k3 k4. clear ST C1 C2 C3 C4 L1 L2 L3 L4 EX. destruct (seg3 x 3) as [y1 y2 y3], (seg3 x 0) as [z1 z2 z3], dl as [d1 d2 d3]. set (K := dt / g_mass g). clearbody K.
  unfold vadd, vscale, v0. cbn [vx vy vz]. split; [f_equal; field|]. split; [f_equal; field|]. intros H E. apply H. injection E as E1 E2 E3. f_equal; lra.
Qed.
Print Assumptions C43_runge_kutta_refuted.

(** The objective at the final time, which the solver evaluates (C24), reads state number tdim: outside the sequence, which has exactly tdim states. *)
Theorem C43_final_objective_refuted : forall g q tdim ini xs us us' xs' wu wc wl wa fc fl fa x u,
  setStatesAndControls g q tdim ini xs us = (xs', Ok us') -> fb_objective g q wu wc wl wa fc fl fa x u tdim true = UB.
Proof.
  intros g q tdim ini xs us us' xs' wu wc wl wa fc fl fa x u H. unfold setStatesAndControls in H. destruct (Nat.eqb_spec tdim (List.length (states q))) as [->|]; [|discriminate].
  unfold fb_objective. now rewrite Nat.ltb_irrefl.
Qed.
Print Assumptions C43_final_objective_refuted.
(** The stage objective: control effort of the active end-effectors plus distance to the reference, which is state t-1 (state 0 at t = 0)... *)
Theorem C43_objective : forall g q wu wc wl wa fc fl fa x u t, (t < List.length (states q))%nat -> let r := nth (t - 1) (states q) dstate_new in
  exists effort, fb_objective g q wu wc wl wa fc fl fa x u t false = Ok (effort + quad3 wc (vsub (seg3 x 0) (d_com r)) + quad3 wl (vsub (seg3 x 3) (d_lmom r)) + quad3 wa (vsub (seg3 x 6) (d_amom r))) /\
  effort = rsum (g_neff g) (fun e => if e_act (look q e t) then quad3 wu (seg3 (ff u) (3 * e)) else 0).
Proof.
  intros g q wu wc wl wa fc fl fa x u t Ht r. unfold fb_objective. rewrite (proj2 (Nat.ltb_lt _ _) Ht). eexists. split; [reflexivity|].
  induction (g_neff g) as [|n IH]; [reflexivity|]. rewrite seq_S, fold_left_app, IH. cbn [fold_left plus rsum]. unfold fact. change (d_eff (nth t (states q) dstate_new) n) with (look q n t). destruct (e_act (look q n t)); ring.
Qed.
Print Assumptions C43_objective.
(** ... so a robot exactly on the plan (state t+1 holds what step t reaches, C35) is charged for tracking whenever the plan moves. *)
Theorem C43_reference_refuted : forall g q P am l ini cs t wc, stored g q P am l -> (S t < g_N g)%nat -> dynamics_fixed g ini cs q P (S t) ->
  vscale (step_time q (S t) / g_mass g) (p_lmom P (S t)) <> v0 -> 0 < vx wc -> 0 < vy wc -> 0 < vz wc ->
  forall x, seg3 x 0 = p_com P (S t) -> 0 < quad3 wc (vsub (seg3 x 0) (d_com (nth_state l (S (S t) - 1)))).
Proof.
  intros g q P am l ini cs t wc ST Ht (D & _) HV W1 W2 W3 x E. replace (S (S t) - 1)%nat with (S t) by lia. rewrite (so_com _ _ _ _ _ ST t ltac:(lia)). cbn [prev] in D. rewrite E, D.
  destruct (p_com P t) as [a b c], (vscale _ _) as [u v w]. unfold quad3, vdot, vadd, vsub. cbn [vx vy vz]. 
  replace (a + u - a) with u by ring. replace (b + v - b) with v by ring. replace (c + w - c) with w by ring.
  assert (Q : forall k y, 0 < k -> 0 <= y * (k * y)) by (intros k y Hk; replace (y * (k * y)) with (k * (y * y)) by ring; apply Rmult_le_pos; [lra|apply Rle_0_sqr]).
  assert (Q1 : forall k y, 0 < k -> y <> 0 -> 0 < y * (k * y)) by (intros k y Hk Hy; replace (y * (k * y)) with (k * (y * y)) by ring; apply Rmult_lt_0_compat; [lra|apply Rsqr_pos_lt; exact Hy]).
  pose proof (Q _ u W1). pose proof (Q _ v W2). pose proof (Q _ w W3).
  destruct (Req_dec u 0) as [->|U]; [|specialize (Q1 _ u W1 U); lra]. destruct (Req_dec v 0) as [->|V]; [|specialize (Q1 _ v W2 V); lra]. destruct (Req_dec w 0) as [->|W]; [now elim HV|specialize (Q1 _ w W3 W); lra].
Qed.
Print Assumptions C43_reference_refuted.
(** Gains beyond the horizon are those of its last step, before it those of the first. *)
Theorem C43_force_gain : forall tdim us t, (0 < tdim)%nat -> exists k, (k < tdim)%nat /\ forceGain tdim us t = Ok (fb (us k)) /\
  ((0 <= t < Z.of_nat tdim)%Z -> Z.of_nat k = t) /\ ((t < 0)%Z -> k = 0%nat) /\ ((Z.of_nat tdim <= t)%Z -> k = (tdim - 1)%nat).
Proof.
  intros tdim us t H. unfold forceGain. destruct (Nat.eqb_spec tdim 0); [lia|]. exists (Z.to_nat (Z.max (Z.min t (Z.of_nat tdim - 1)) 0)). split; [lia|]. split; [reflexivity|]. lia.
Qed.
Print Assumptions C43_force_gain.
(** The hypotheses of C43_rollout are met by the concrete plan of DynStoreProps. *)
Definition demo_lqr : stgs := mkStgs 2 9 3 1 false false (fun _ => 0) (fun _ => 0) 100 [1] 0 1 1 0 1 0 0.
Example C43_demo : exists am l us' xs', stored (demo_g SoftConstraint) demo_q demo_P am l /\ (forall t, (t < 1)%nat -> dynamics_fixed (demo_g SoftConstraint) demo_ini demo_cs demo_q demo_P t) /\
  setStatesAndControls (demo_g SoftConstraint) (Seq l (act_steps demo_q)) (s_tdim demo_lqr) demo_ini (fun _ _ => 0) (fun _ => ctrl0) = (xs', Ok us') /\ seg3 (ff (us' 0%nat)) 0 = V3 0 0 1.
Proof.
  destruct (C32_stored_angular_momentum (demo_g SoftConstraint) demo_q demo_ini demo_cs [Kin v0 v0 v0] v0 v0 true no_stray (fun _ => demo_x) false 0 (demo_ready _)) as (o & E & S & _); [cbn; lia|cbn; lia|cbn; lia|discriminate|].
  assert (X : po_x o = demo_x) by (unfold internalOptimize in E; destruct (problem_calls _ _ _ _ _ _ _ _ _); try discriminate; cbn [bind demo_g g_heur is_timeopt] in E; destruct (storeSolution _ _ _ _ _); try discriminate; cbn [bind] in E; injection E as <-; reflexivity).
  rewrite X in S. change (plan_of (demo_g SoftConstraint) demo_q demo_x) with demo_P in S. exists (po_am o), (states (po_seq o)).
  pose proof (C43_set (demo_g SoftConstraint) (Seq (states (po_seq o)) (act_steps demo_q)) 2 demo_ini (fun _ _ => 0) (fun _ => ctrl0)) as H. cbv zeta in H. destruct H as (_ & _ & _ & _ & _ & H).
  assert (L : 2%nat = List.length (states (Seq (states (po_seq o)) (act_steps demo_q)))) by (cbn [states]; rewrite (so_len _ _ _ _ _ S); reflexivity).
  destruct (H L) as (us' & E1 & E2). eexists us', _. split; [exact S|]. split; [exact (mf_dynamics _ _ _ _ _ _ C32_demo_feasible)|]. split.
  - rewrite <- E1. apply surjective_pairing.
  - destruct (E2 0%nat ltac:(lia)) as (_ & E3 & _). change 0%nat with (3 * 0)%nat at 2. rewrite E3 by (cbn; lia). change (look (Seq (states (po_seq o)) (act_steps demo_q)) 0 0) with (d_eff (nth_state (states (po_seq o)) 0) 0).
    rewrite (so_eff _ _ _ _ _ S 0%nat 0%nat) by (first [cbn; lia|reflexivity]). destruct demo_values as (_ & _ & _ & _ & _ & F & _). cbn [e_act look demo_q d_eff]. rewrite F. unfold vscale. cbn. f_equal; ring.
Qed.

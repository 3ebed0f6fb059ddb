(** * Theorems: second-order inverse kinematics: best compromise (C63), priorities (C64) *)
From Coq Require Import Reals List Arith Bool Lia Lra ZArith.
Import ListNotations.
From Verif Require Import Base BaseProofs Vec3 PyqpModel PyqpSpec PyqpProps QuadMin IkModel IkSpec IkProofs MkoModel MkoSpec MkoProofs SoModel SoSpec SoProofs SoProofs2 SoPinv SoProofs3.
Local Open Scope R_scope.

(** ** C63 *)
(** The joint acceleration returned minimises the weighted squared errors, whatever the object was used for before. *)
Theorem C63_minimises : forall sq pinv (rb : sorobot) st s a x s', quadprog_sound sq -> s_hier st = false -> so_reach sq pinv rb s -> so_step sq pinv rb st s a = Ok (x, s') ->
  pl x = r_nv rb /\ best_acc rb st a (pe x).
Proof. intros sq pinv rb st s a x s' Hs Hh Hr H. exact (step_minimises sq pinv rb st s a x s' Hs Hh (so_reach_inv sq pinv rb s Hr) H). Qed.
Print Assumptions C63_minimises.
(** With non-negative weights there is only one such acceleration: two objects with any histories, and any two solvers, agree. *)
Theorem C63_unique : forall (rb : sorobot) st a x y, nonneg_weights st -> length (sa_contact a) = r_ne rb -> best_acc rb st a x -> best_acc rb st a y -> forall i, (i < r_nv rb)%nat -> x i = y i.
Proof.
  intros rb st a x y (W1 & W2 & W3 & W4 & W5) L [_ Mx] [_ My]. set (w := fun k => nth k (so_weights rb st (sa_contact a)) 0).
  set (v := fun k => if (k <? 3)%nat then lin_rate_ref rb st a k - sr_dh rb (sa_q a) (sa_dq a) k else if (k <? 6)%nat then ang_rate_ref rb st a (k - 3) - sr_dh rb (sa_q a) (sa_dq a) k
    else if (k <? (r_ne rb + 2) * 3)%nat then eff_acc_ref rb st a ((k - 6) / 3) ((k - 6) mod 3) - sr_dv rb (sa_q a) (sa_dq a) ((k - 6) / 3) ((k - 6) mod 3) else joint_acc_ref st a (k - (r_ne rb + 2) * 3)).
  assert (C : forall z, acc_cost rb st a z = rsum (nrows rb) (fun k => w k * (dotv (r_nv rb) (J_of rb (sa_q a) k) z - v k) ^ 2) + / 1000000 * rsum (r_nv rb) (fun i => z i ^ 2)).
  { intros z. unfold w. rewrite so_weights_is, rows_split by exact L. unfold acc_cost. cbv zeta. f_equal. f_equal; [f_equal; [f_equal|]|].
    - f_equal. apply rsum_ext. intros i Hi. unfold v. rewrite (proj2 (Nat.ltb_lt i 3)) by lia. unfold momentum_rate. f_equal. ring.
    - f_equal. apply rsum_ext. intros i Hi. unfold v. rewrite (proj2 (Nat.ltb_ge (3 + i) 3)) by lia. rewrite (proj2 (Nat.ltb_lt (3 + i) 6)) by lia. replace (3 + i - 3)%nat with i by lia. unfold momentum_rate. f_equal. ring.
    - apply rsum_ext. intros e He. f_equal. apply rsum_ext. intros c Hc. unfold v. destruct (block_div e c Hc) as (B1 & B2).
      rewrite (proj2 (Nat.ltb_ge (6 + (e * 3 + c)) 3)) by lia. rewrite (proj2 (Nat.ltb_ge (6 + (e * 3 + c)) 6)) by lia. rewrite (proj2 (Nat.ltb_lt (6 + (e * 3 + c)) ((r_ne rb + 2) * 3))) by nia.
      replace (6 + (e * 3 + c) - 6)%nat with (e * 3 + c)%nat by lia. rewrite B1, B2. unfold eff_acceleration. f_equal. ring.
    - f_equal. apply rsum_ext. intros j Hj. unfold v. rewrite (proj2 (Nat.ltb_ge ((r_ne rb + 2) * 3 + j) 3)) by lia. rewrite (proj2 (Nat.ltb_ge ((r_ne rb + 2) * 3 + j) 6)) by lia. rewrite (proj2 (Nat.ltb_ge ((r_ne rb + 2) * 3 + j) ((r_ne rb + 2) * 3))) by lia.
      replace ((r_ne rb + 2) * 3 + j - (r_ne rb + 2) * 3)%nat with j by lia. reflexivity. }
  assert (Hw : forall k, (k < nrows rb)%nat -> 0 <= w k) by (unfold w; rewrite so_weights_is; now apply wlist_nonneg).
  assert (Q : forall z, qobj (r_nv rb) (pa (hessian rb (J_of rb (sa_q a)) w)) (pe (gradient rb (J_of rb (sa_q a)) w v)) z = / 2 * acc_cost rb st a z - / 2 * rsum (nrows rb) (fun k => w k * v k ^ 2)) by (intros z; cbn [pa pe hessian gradient]; rewrite least_squares, C; ring).
  apply (minimum_unique (r_nv rb) (pa (hessian rb (J_of rb (sa_q a)) w)) (pe (gradient rb (J_of rb (sa_q a)) w v)) (fun _ => True)); [now apply hessian_pd|intros ? ? _ _; exact Logic.I| |].
  - split; [exact Logic.I|]. intros z _. rewrite !Q. specialize (Mx z Logic.I). lra.
  - split; [exact Logic.I|]. intros z _. rewrite !Q. specialize (My z Logic.I). lra.
Qed.
Print Assumptions C63_unique.
(** It succeeds for non-negative weights and references of the right shapes. *)
Theorem C63_succeeds : forall sq pinv (rb : sorobot) st s a, quadprog_complete sq -> (6 <= r_nv rb)%nat -> so_reach sq pinv rb s -> so_shapes rb a -> nonneg_weights st -> exists x s', so_step sq pinv rb st s a = Ok (x, s').
Proof. intros sq pinv rb st s a Hc Hn Hr Hsh (W1 & W2 & W3 & W4 & W5). apply step_succeeds; try assumption. now apply so_reach_inv in Hr. Qed.
Print Assumptions C63_succeeds.

(** Number of inner steps: the largest k with k ms <= dt. *)
Lemma inner_floor : forall dt, 0 < dt -> INR (inner_steps dt) <= 1000 * dt < INR (inner_steps dt) + 1.
Proof.
  intros dt H. unfold inner_steps. assert (E : dt / / 1000 = 1000 * dt) by (field; lra). rewrite E. destruct (base_Int_part (1000 * dt)) as [B1 B2].
  assert (P : (0 <= Int_part (1000 * dt))%Z). { assert (-1 < Int_part (1000 * dt))%Z; [|lia]. apply lt_IZR. lra. }
  rewrite INR_IZR_INZ, Z2Nat.id by exact P. lra.
Qed.
(** The whole motion: semi-implicit integration with 1 ms of best accelerations; row j is the state after j k steps, k = floor(1000 dt); every row is consistent in itself. *)
Theorem C63_motion : forall sq pinv (rb : sorobot) st integ rf s N dt contacts q0 dq0 v rows, quadprog_sound sq -> s_hier st = false -> so_reach sq pinv rb s ->
  so_solve sq pinv rb st integ rf s N dt contacts q0 dq0 = Ok (v, rows) ->
  exists k Q DQ DDQ, (0 < k)%nat /\ INR k <= 1000 * dt < INR k + 1 /\ so_motion rb integ (best_acc rb st) rf contacts k q0 dq0 ((N - 1) * k) Q DQ DDQ /\
    length rows = N /\ forall j r, nth_error rows j = Some r -> records_all rb r (Q (j * k)%nat) (DQ (j * k)%nat).
Proof.
  intros sq pinv rb st integ rf s N dt contacts q0 dq0 v rows Hs Hh Hr H.
  destruct (solve_ok sq pinv rb st integ rf (best_acc rb st) s N dt contacts q0 dq0 v rows (so_reach_inv _ _ _ _ Hr)) as (_ & Pd & K & _ & L & Q & DQ & DDQ & M & RO); [|intros; now apply (good_ext rb st a x y)|exact H|].
  - intros s1 a x s1' I1 H1. now apply (step_minimises sq pinv rb st s1 a x s1').
  - exists (inner_steps dt), Q, DQ, DDQ. split; [exact K|]. split; [now apply inner_floor|]. split; [exact M|]. split; [exact L|exact RO].
Qed.
Print Assumptions C63_motion.
(** It succeeds when the time step is at least 1 ms. *)
Theorem C63_motion_succeeds : forall sq pinv (rb : sorobot) st integ rf s N dt contacts q0 dq0, quadprog_sound sq -> quadprog_complete sq -> (6 <= r_nv rb)%nat -> so_reach sq pinv rb s -> nonneg_weights st ->
  ref_shapes rb rf contacts N -> (forall q d, length (integ q d) = length q) -> (2 <= N)%nat -> / 1000 <= dt -> length q0 = (r_nv rb + 1)%nat -> length dq0 = r_nv rb ->
  exists v rows, so_solve sq pinv rb st integ rf s N dt contacts q0 dq0 = Ok (v, rows).
Proof.
  intros sq pinv rb st integ rf s N dt contacts q0 dq0 Hs Hc Hn Hr W SH Hi H2 Hdt Lq Ld. apply solve_succeeds; try assumption; [now apply so_reach_inv in Hr|].
  destruct (inner_floor dt ltac:(lra)) as [_ F]. destruct (inner_steps dt); [cbn [INR] in F; lra|lia].
Qed.
Print Assumptions C63_motion_succeeds.
(** With a time step below 1 ms (or fewer than two states) an exception is raised: the last acceleration is not defined (the references cannot be interpolated). *)
Theorem C63_short_step_refuted : forall sq pinv (rb : sorobot) st integ rf s N dt contacts q0 dq0, dt < / 1000 -> so_solve sq pinv rb st integ rf s N dt contacts q0 dq0 = Throw.
Proof.
  intros sq pinv rb st integ rf s N dt contacts q0 dq0 H. unfold so_solve. destruct (Nat.ltb_spec N 2) as [|G]; [reflexivity|]. destruct (Rle_dec dt 0) as [|P]; [reflexivity|]. destruct (negb _); [reflexivity|]. cbv zeta.
  destruct (inner_floor dt ltac:(lra)) as [F _]. destruct (inner_steps dt) eqn:E; [|rewrite S_INR in F; pose proof (pos_INR n); lra]. replace (N - 1)%nat with (S (N - 2)) by lia. reflexivity.
Qed.
Print Assumptions C63_short_step_refuted.
(** If the time step is not a multiple of 1 ms, the state recorded for step j is the one at an earlier time than j dt: the error grows with j. *)
Theorem C63_time_lag_refuted : forall dt k j, INR k <= 1000 * dt < INR k + 1 -> (0 < j)%nat -> (forall n : nat, dt <> INR n * / 1000) -> INR (j * k) * / 1000 < INR j * dt /\ INR j * dt - INR (j * k) * / 1000 = INR j * (dt - INR k * / 1000).
Proof. intros dt k j [H1 _] Hj Hn. rewrite mult_INR. split; [|ring]. assert (P : 0 < INR j) by (apply lt_0_INR; lia). assert (D : INR k * / 1000 < dt) by (specialize (Hn k); lra). rewrite Rmult_assoc. now apply Rmult_lt_compat_l. Qed.
Print Assumptions C63_time_lag_refuted.

(** The rows the optimizer stores: the same states, but every end-effector velocity is formed with the Jacobian the first-order object held before, at one fixed configuration. *)
Lemma refill_rows : forall (rb : sorobot) ks rows, snd (refill rb ks rows) = map (fun r => result rb ks (o_q r) (o_dq r)) rows /\ k_J (fst (refill rb ks rows)) = k_J ks.
Proof.
  intros rb ks rows. induction rows as [|r rows [IH1 IH2]] using rev_ind; [split; reflexivity|].
  assert (E : refill rb ks (rows ++ [r]) = (forward_robot (fst (refill rb ks rows)) (o_q r) (o_dq r), snd (refill rb ks rows) ++ [result rb (forward_robot (fst (refill rb ks rows)) (o_q r) (o_dq r)) (o_q r) (o_dq r)])) by (unfold refill; now rewrite fold_left_app).
  rewrite E. cbn [fst snd]. rewrite IH1, map_app. cbn [map]. split; [|exact IH2]. f_equal. f_equal. unfold result. cbn [forward_robot k_J]. rewrite IH2. reflexivity.
Qed.
Theorem C63_stored : forall sq pinv (rb : sorobot) st integ rf s ks N dt contacts q0 dq0 out, optimize_second sq pinv rb st integ rf s ks N dt contacts q0 dq0 = Ok out ->
  exists v rows, so_solve sq pinv rb st integ rf s N dt contacts q0 dq0 = Ok (v, rows) /\ length out = length rows /\
    forall j r o, nth_error rows j = Some r -> nth_error out j = Some o -> records rb o (o_q r) (o_dq r).
Proof.
  intros sq pinv rb st integ rf s ks N dt contacts q0 dq0 out H. unfold optimize_second in H. destruct (so_solve _ _ _ _ _ _ _ _ _ _ _ _) as [[v rows]| |] eqn:E; cbn [bind snd] in H; try discriminate. injection H as <-. destruct (refill_rows rb ks rows) as [-> _].
  exists v, rows. split; [reflexivity|]. split; [apply map_length|]. intros j r o Hr Ho. rewrite nth_error_map, Hr in Ho. injection Ho as <-. split; [reflexivity|]. split; [reflexivity|]. split; [reflexivity|]. split; [intros i Hi; reflexivity|reflexivity].
Qed.
Print Assumptions C63_stored.
Theorem C63_stale_velocity_refuted : forall sq pinv (rb : sorobot) st integ rf s ist ks0 x ks a N dt contacts q0 dq0 out, reach sq rb ks0 -> compute sq rb ist ks0 a = Ok (x, ks) ->
  optimize_second sq pinv rb st integ rf s ks N dt contacts q0 dq0 = Ok out ->
  forall o, In o out -> forall e c, (e < r_ne rb)%nat -> (c < 3)%nat -> o_vel o (e * 3 + c)%nat = eff_velocity_of rb (a_q a) e (entries (o_dq o)) c.
Proof.
  intros sq pinv rb st integ rf s ist ks0 x ks a N dt contacts q0 dq0 out Hr Hc H o Ho e c He Hc3. unfold optimize_second in H. destruct (so_solve _ _ _ _ _ _ _ _ _ _ _ _) as [[v rows]| |]; cbn [bind snd] in H; try discriminate. injection H as <-. destruct (refill_rows rb ks rows) as [E _]. rewrite E in Ho.
  apply in_map_iff in Ho. destruct Ho as (r & <- & _). unfold result. cbn [o_vel o_dq]. pose proof (compute_pure sq rb ks0 ist a (reach_inv sq rb ks0 Hr)) as P. rewrite Hc in P. destruct P as (_ & _ & _ & PJ). rewrite PJ.
  unfold eff_velocity_of, dotv, entries. apply rsum_ext. intros j _. now rewrite J_eff.
Qed.
Print Assumptions C63_stale_velocity_refuted.

(** ** C64 *)
(** With priorities and exact pseudo-inverses: the acceleration minimises the error of the first twelve rows (end-effectors 0..3, then joints), and the error of the momentum among the minimisers. *)
Theorem C64_priorities_general : forall sq pinv (rb : sorobot) st s a x s', s_hier st = true -> so_reach sq pinv rb s -> exact_pinv pinv rb (sa_q a) -> so_step sq pinv rb st s a = Ok (x, s') ->
  pl x = r_nv rb /\ lexi (fun x => eff_error rb st a x + joint_error rb st a x) (momentum_error rb st a) (pe x).
Proof. intros sq pinv rb st s a x s' Hh Hr X H. apply (step_lexi sq pinv rb st s a x s'); try assumption. now apply so_reach_inv in Hr. Qed.
Print Assumptions C64_priorities_general.
Lemma lexi_ext : forall f g f' g' x, (forall y, f y = f' y) -> (forall y, g y = g' y) -> lexi f g x -> lexi f' g' x.
Proof. intros f g f' g' x Hf Hg [A B]. split; [intros y; rewrite <- !Hf; apply A|]. intros y Hy. rewrite <- !Hg. apply B. intros z. rewrite !Hf. apply Hy. Qed.
(** Four end-effectors: their accelerations come first, the momentum second; joint posture and weights have no influence. *)
Definition all_effectors_error (rb : sorobot) (st : soset) (a : soarg) (x : nat -> R) : R := rsum (r_ne rb) (fun e => rsum 3 (fun c => (eff_acceleration rb (sa_q a) (sa_dq a) e x c - eff_acc_ref rb st a e c) ^ 2)).
Theorem C64_priorities : forall sq pinv (rb : sorobot) st s a x s', r_ne rb = 4%nat -> s_hier st = true -> so_reach sq pinv rb s -> exact_pinv pinv rb (sa_q a) -> so_step sq pinv rb st s a = Ok (x, s') ->
  pl x = r_nv rb /\ lexi (all_effectors_error rb st a) (momentum_error rb st a) (pe x).
Proof.
  intros sq pinv rb st s a x s' E4 Hh Hr X H. destruct (C64_priorities_general sq pinv rb st s a x s' Hh Hr X H) as [L M]. split; [exact L|]. revert M. apply lexi_ext; [|reflexivity].
  intros y. unfold joint_error, joints_first, eff_error, all_effectors_error. rewrite E4. change (Nat.min 4 4) with 4%nat. replace (Nat.min (12 - 3 * 4) (r_nv rb - 6)) with 0%nat by lia. rewrite (rsum_zero 0) by lia. ring.
Qed.
Print Assumptions C64_priorities.

(** The whole motion with priorities. *)
Theorem C64_motion : forall sq pinv (rb : sorobot) st integ rf s N dt contacts q0 dq0 v rows, (forall q, exact_pinv pinv rb q) -> r_ne rb = 4%nat -> s_hier st = true -> so_reach sq pinv rb s ->
  so_solve sq pinv rb st integ rf s N dt contacts q0 dq0 = Ok (v, rows) ->
  exists k Q DQ DDQ, (0 < k)%nat /\ INR k <= 1000 * dt < INR k + 1 /\ so_motion rb integ (fun a => lexi (all_effectors_error rb st a) (momentum_error rb st a)) rf contacts k q0 dq0 ((N - 1) * k) Q DQ DDQ /\
    length rows = N /\ forall j r, nth_error rows j = Some r -> records_all rb r (Q (j * k)%nat) (DQ (j * k)%nat).
Proof.
  intros sq pinv rb st integ rf s N dt contacts q0 dq0 v rows X E4 Hh Hr H.
  destruct (solve_ok sq pinv rb st integ rf (fun a => lexi (all_effectors_error rb st a) (momentum_error rb st a)) s N dt contacts q0 dq0 v rows (so_reach_inv _ _ _ _ Hr)) as (_ & Pd & K & _ & L & Q & DQ & DDQ & M & RO); [| |exact H|].
  - intros s1 a x s1' I1 H1. destruct (step_lexi sq pinv rb st s1 a x s1' I1 Hh (X _) H1) as [L M]. split; [exact L|]. revert M. apply lexi_ext; [|reflexivity].
    intros y. unfold joint_error, joints_first, eff_error, all_effectors_error. rewrite E4. change (Nat.min 4 4) with 4%nat. replace (Nat.min (12 - 3 * 4) (r_nv rb - 6)) with 0%nat by lia. rewrite (rsum_zero 0) by lia. ring.
  - intros a x y E [A B].
    assert (D : forall b, dotv (r_nv rb) b x = dotv (r_nv rb) b y) by (intros b; apply rsum_ext; intros j Hj; now rewrite E).
    assert (F : all_effectors_error rb st a x = all_effectors_error rb st a y) by (unfold all_effectors_error, eff_acceleration, eff_velocity_of; apply rsum_ext; intros; apply rsum_ext; intros; now rewrite D).
    assert (G : momentum_error rb st a x = momentum_error rb st a y) by (unfold momentum_error, momentum_rate, momentum_of; f_equal; apply rsum_ext; intros; now rewrite D).
    split; [intros z; rewrite <- F; apply A|intros z Hz; rewrite <- G; now apply B].
  - exists (inner_steps dt), Q, DQ, DDQ. split; [exact K|]. split; [now apply inner_floor|]. split; [exact M|]. split; [exact L|exact RO].
Qed.
Print Assumptions C64_motion.
(** More than four end-effectors: the references of the others have no influence. *)
Definition differ_beyond_four (a a' : soarg) : Prop :=
  sa_q a = sa_q a' /\ sa_dq a = sa_dq a' /\ sa_com a = sa_com a' /\ sa_ori a = sa_ori a' /\ sa_mom a = sa_mom a' /\ sa_dmom a = sa_dmom a' /\
  forall e, (e < 4)%nat -> nth e (sa_pos a) v0 = nth e (sa_pos a') v0 /\ nth e (sa_vel a) v0 = nth e (sa_vel a') v0 /\ nth e (sa_acc a) v0 = nth e (sa_acc a') v0.
Theorem C64_others_ignored_refuted : forall sq pinv (rb : sorobot) st s s' a a' x x' t t', (4 <= r_ne rb)%nat -> s_hier st = true -> so_reach sq pinv rb s -> so_reach sq pinv rb s' -> exact_pinv pinv rb (sa_q a) ->
  differ_beyond_four a a' -> so_step sq pinv rb st s a = Ok (x, t) -> so_step sq pinv rb st s' a' = Ok (x', t') -> forall j, pe x j = pe x' j.
Proof.
  intros sq pinv rb st s s' a a' x x' t t' H4 Hh Hr Hr' X (Eq & Edq & Ecom & Eori & Emom & Edmom & EE) H H' j. apply so_reach_inv in Hr. apply so_reach_inv in Hr'.
  destruct (step_state sq pinv rb st s a x t Hr H) as (_ & EJ & _ & ED). destruct (step_state sq pinv rb st s' a' x' t' Hr' H') as (_ & EJ' & _ & ED').
  destruct (targets rb st s a t Hr ED) as (T1 & T2 & _). destruct (targets rb st s' a' t' Hr' ED') as (T1' & T2' & _).
  unfold so_step in H, H'. cbv zeta in H, H'. rewrite ED in H. rewrite ED' in H'. cbn [bind] in H, H'. rewrite Hh in H, H'. injection H as <-. injection H' as <-.
  assert (D1 : forall i, (i < 6)%nat -> so_des t i - so_drift t i = so_des t' i - so_drift t' i).
  { intros i Hi. destruct (Nat.lt_ge_cases i 3) as [L|L].
    - destruct (T1 i L) as [-> _]. destruct (T1' i L) as [-> _]. unfold lin_rate_ref, rate_ref. now rewrite Eq, Edq, Ecom, Emom, Edmom.
    - replace i with (3 + (i - 3))%nat by lia. destruct (T1 (i - 3)%nat ltac:(lia)) as [_ ->]. destruct (T1' (i - 3)%nat ltac:(lia)) as [_ ->]. unfold ang_rate_ref, rate_ref. now rewrite Eq, Edq, Eori, Emom, Edmom. }
  assert (D2 : forall i, (i < 12)%nat -> so_des t (6 + i) - so_drift t (6 + i) = so_des t' (6 + i) - so_drift t' (6 + i)).
  { intros i Hi. pose proof (Nat.div_mod_eq i 3) as DM. pose proof (Nat.mod_upper_bound i 3 ltac:(lia)) as MB. assert (DB : (i / 3 < 4)%nat) by (apply Nat.div_lt_upper_bound; lia).
    replace i with (i / 3 * 3 + i mod 3)%nat by lia. rewrite T2, T2' by lia. destruct (EE _ DB) as (P1 & P2 & P3). unfold eff_acc_ref. now rewrite Eq, Edq, P1, P2, P3. }
  destruct (X (PM (nf rb) (r_nv rb) (fun i j => J_of rb (sa_q a) (6 + i) j)) (first_is rb (sa_q a))) as [PA XB]. destruct (pn_shape _ _ PA) as [_ SA2].
  unfold hier_solve. cbv zeta. cbn [pe]. rewrite EJ, EJ', <- Eq. change (PM (Nat.min 12 (nrows rb - 6)) (r_nv rb) (fun i j => J_of rb (sa_q a) (6 + i) j)) with (PM (nf rb) (r_nv rb) (fun i j => J_of rb (sa_q a) (6 + i) j)).
  set (A := PM (nf rb) (r_nv rb) (fun i j => J_of rb (sa_q a) (6 + i) j)) in *. assert (Nf : nf rb = 12%nat) by (unfold nf, nrows; lia). assert (SA3 : pc (pinv A) = 12%nat) by (rewrite SA2; exact Nf).
  assert (B1 : forall l, papp (pinv A) (fun i => so_des t (6 + i) - so_drift t (6 + i)) l = papp (pinv A) (fun i => so_des t' (6 + i) - so_drift t' (6 + i)) l).
  { intros l. unfold papp. apply rsum_ext. intros i Hi. rewrite D2 by lia. reflexivity. }
  set (B := pmul _ _). assert (PB : penrose B (pinv B)).
  { apply XB. split; [reflexivity|]. split; [reflexivity|]. unfold B, pmul. cbn [pr pc pa rest_matrix]. intros i k Hi Hk. apply rsum_ext. intros l Hl. rewrite J_mom by exact Hi. f_equal. f_equal. unfold mat_mul. apply rsum_ext. intros p Hp. f_equal. apply first_is; [change (p < nf rb)%nat; lia|exact Hk]. }
  destruct (pn_shape _ _ PB) as [_ SB2]. change (pr B) with 6%nat in SB2.
  assert (PE : forall M u v l, (forall i, (i < pc M)%nat -> u i = v i) -> papp M u l = papp M v l) by (intros M u v l E; unfold papp; apply rsum_ext; intros i Hi; now rewrite E).
  rewrite B1. f_equal. apply PE. intros i Hi. rewrite SB2 in Hi. rewrite D1 by lia. f_equal. apply PE. intros l _. apply B1.
Qed.
Print Assumptions C64_others_ignored_refuted.

(** ** Examples *)
Lemma penrose_same : forall A B P, same_mat A B -> penrose B P -> penrose A P.
Proof.
  intros A B P (S1 & S2 & E) [[H1 H2] APA PAP AP PA].
  assert (MA : forall i j, (i < pr A)%nat -> mat_mul A P i j = mat_mul B P i j) by (intros i j Hi; unfold mat_mul; rewrite S2; apply rsum_ext; intros k Hk; rewrite E by lia; reflexivity).
  assert (MP : forall i j, (j < pc A)%nat -> mat_mul P A i j = mat_mul P B i j) by (intros i j Hj; unfold mat_mul; apply rsum_ext; intros k Hk; rewrite E by lia; reflexivity).
  constructor.
  - split; congruence.
  - intros i j Hi Hj. rewrite E by assumption. rewrite <- (APA i j) by lia. rewrite S1. apply rsum_ext. intros k Hk. rewrite MA, E by lia. reflexivity.
  - intros i j Hi Hj. rewrite <- (PAP i j) by lia. rewrite S2. apply rsum_ext. intros k Hk. rewrite MP by lia. reflexivity.
  - intros i j Hi Hj. rewrite !MA by assumption. apply AP; lia.
  - intros i j Hi Hj. rewrite !MP by assumption. apply PA; lia.
Qed.
(** Orthonormal rows: the transpose. *)
Lemma penrose_transpose : forall A, (forall i j, (i < pr A)%nat -> (j < pr A)%nat -> rsum (pc A) (fun k => pa A i k * pa A j k) = if (i =? j)%nat then 1 else 0) -> penrose A (PM (pc A) (pr A) (fun i j => pa A j i)).
Proof.
  intros A H. constructor; unfold mat_mul; cbn [pr pc pa].
  - split; reflexivity.
  - intros i j Hi Hj. rewrite (rsum_single (pr A) i) by (assumption || (intros k Hk Nk; rewrite H by assumption; rewrite (proj2 (Nat.eqb_neq i k)) by auto; ring)). rewrite H by assumption. rewrite Nat.eqb_refl. ring.
  - intros i j Hi Hj. transitivity (rsum (pc A) (fun k => rsum (pr A) (fun l => pa A l i * (pa A l k * pa A j k)))). { apply rsum_ext. intros k _. rewrite <- rsum_scal_r. apply rsum_ext. intros. ring. }
    rewrite rsum_swap. transitivity (rsum (pr A) (fun l => pa A l i * (if (l =? j)%nat then 1 else 0))). { apply rsum_ext. intros l Hl. rewrite rsum_scal. f_equal. now apply H. }
    rewrite (rsum_single (pr A) j) by (assumption || (intros k Hk Nk; rewrite (proj2 (Nat.eqb_neq k j)) by auto; ring)). rewrite Nat.eqb_refl. ring.
  - intros i j Hi Hj. rewrite !H by assumption. now rewrite Nat.eqb_sym.
  - intros i j Hi Hj. apply rsum_ext. intros. ring.
Qed.
Lemma penrose_zero : forall A m n, pr A = m -> pc A = n -> (forall i j, (i < m)%nat -> (j < n)%nat -> pa A i j = 0) -> penrose A (PM n m (fun _ _ => 0)).
Proof.
  intros A m n <- <- Z. assert (M1 : forall i j, mat_mul A (PM (pc A) (pr A) (fun _ _ => 0)) i j = 0) by (intros; unfold mat_mul; cbn [pa]; apply rsum_zero; intros; ring). assert (M2 : forall i j, mat_mul (PM (pc A) (pr A) (fun _ _ => 0)) A i j = 0) by (intros; unfold mat_mul; cbn [pa]; apply rsum_zero; intros; ring).
  constructor; cbn [pr pc pa].
  - split; reflexivity.
  - intros i j Hi Hj. rewrite Z by assumption. apply rsum_zero. intros. rewrite M1. ring.
  - intros i j Hi Hj. apply rsum_zero. intros. rewrite M2. ring.
  - intros. now rewrite !M1.
  - intros. now rewrite !M2.
Qed.
(** Four legs with three joints each: the hypotheses of C64_priorities and C64_motion are met. *)
Definition quad_rb : sorobot := SR (Rob 4 18 (fun _ i j => if (j =? i)%nat then 1 else 0) (fun _ e c j => if (j =? 6 + (e * 3 + c))%nat then 1 else 0) (fun _ => v0) (fun _ _ => v0)) (fun _ _ _ => 0) (fun _ _ _ _ => 0) (fun _ _ => v0).
Definition transpose (A : pm) : pm := PM (pc A) (pr A) (fun i j => pa A j i).
Lemma sum_deltas : forall n a b, (a < n)%nat -> rsum n (fun k => (if (k =? a)%nat then 1 else 0) * (if (k =? b)%nat then 1 else 0)) = if (a =? b)%nat then 1 else 0.
Proof. intros n a b H. rewrite (rsum_single n a) by (assumption || (intros i Hi Ni; rewrite (proj2 (Nat.eqb_neq i a) Ni); ring)). rewrite Nat.eqb_refl. ring. Qed.
Lemma quad_first : forall q i j, (i < 12)%nat -> pa (first_matrix quad_rb q) i j = if (j =? 6 + i)%nat then 1 else 0.
Proof. intros q i j Hi. cbn [first_matrix pa quad_rb r_ne r_Jf sr]. rewrite (proj2 (Nat.ltb_lt i (3 * 4))) by lia. pose proof (Nat.div_mod_eq i 3) as DM. replace (i / 3 * 3 + i mod 3)%nat with i by lia. reflexivity. Qed.
Lemma transpose_same : forall A B, same_mat A B -> penrose B (transpose B) -> penrose A (transpose A).
Proof.
  intros A B S P. assert (Q : penrose A (transpose B)) by now apply (penrose_same A B). destruct S as (S1 & S2 & E). destruct Q as [[H1 H2] APA PAP AP PA].
  assert (MA : forall i j, (j < pr A)%nat -> mat_mul A (transpose A) i j = mat_mul A (transpose B) i j) by (intros i j Hj; unfold mat_mul; apply rsum_ext; intros k Hk; cbn [transpose pa]; rewrite (E j k) by assumption; reflexivity).
  assert (MP : forall i j, (i < pc A)%nat -> mat_mul (transpose A) A i j = mat_mul (transpose B) A i j) by (intros i j Hi; unfold mat_mul; cbn [transpose pa pc]; rewrite S1; apply rsum_ext; intros k Hk; rewrite <- (E k i) by lia; reflexivity).
  constructor.
  - split; reflexivity.
  - intros i j Hi Hj. rewrite <- (APA i j) by assumption. apply rsum_ext. intros k Hk. now rewrite MA.
  - intros i j Hi Hj. replace (pa (transpose A) i j) with (pa (transpose B) i j) by (cbn [transpose pa]; symmetry; now apply E). rewrite <- (PAP i j) by assumption. apply rsum_ext. intros k Hk. rewrite MP by assumption. f_equal. cbn [transpose pa]. now apply E.
  - intros i j Hi Hj. rewrite !MA by assumption. now apply AP.
  - intros i j Hi Hj. rewrite !MP by assumption. now apply PA.
Qed.
Example C64_quad : forall q, r_ne quad_rb = 4%nat /\ exact_pinv transpose quad_rb q.
Proof.
  intros q. split; [reflexivity|]. intros A SA. split.
  - apply (transpose_same A (first_matrix quad_rb q) SA). apply penrose_transpose. change (pr (first_matrix quad_rb q)) with 12%nat. change (pc (first_matrix quad_rb q)) with 18%nat. intros i j Hi Hj.
    transitivity (rsum 18 (fun k => (if (k =? 6 + i)%nat then 1 else 0) * (if (k =? 6 + j)%nat then 1 else 0))); [apply rsum_ext; intros; now rewrite !quad_first|]. rewrite sum_deltas by lia.
    destruct (Nat.eqb_spec (6 + i) (6 + j)); destruct (Nat.eqb_spec i j); lia || reflexivity.
  - intros B SB. destruct SA as (A1 & A2 & AE). change (pr (first_matrix quad_rb q)) with 12%nat in A1. change (pc (first_matrix quad_rb q)) with 18%nat in A2. rewrite A1, A2 in AE.
    apply (transpose_same B _ SB). apply penrose_transpose. change (pr (rest_matrix quad_rb q (transpose A))) with 6%nat. change (pc (rest_matrix quad_rb q (transpose A))) with 18%nat. intros i j Hi Hj.
    assert (RM : forall i k, (i < 6)%nat -> (k < 18)%nat -> pa (rest_matrix quad_rb q (transpose A)) i k = if (k =? i)%nat then 1 else 0).
    { clear i j Hi Hj. intros i k Hi Hk. cbn [rest_matrix pa quad_rb r_nv r_Ag sr]. rewrite (rsum_single 18 i) by (lia || (intros l Hl Nl; rewrite (proj2 (Nat.eqb_neq l i) Nl); ring)). rewrite Nat.eqb_refl.
      replace (mat_mul (transpose A) (first_matrix quad_rb q) i k) with 0; [rewrite Nat.eqb_sym; destruct (k =? i)%nat; ring|]. symmetry. unfold mat_mul. cbn [transpose pc pa]. rewrite A1. apply rsum_zero. intros l Hl. rewrite AE by lia. rewrite quad_first by lia.
      rewrite (proj2 (Nat.eqb_neq i (6 + l))) by lia. ring. }
    transitivity (rsum 18 (fun k => (if (k =? i)%nat then 1 else 0) * (if (k =? j)%nat then 1 else 0))); [apply rsum_ext; intros; now rewrite !RM|]. apply sum_deltas. lia.
Qed.
(** Both kinds of motion succeed for this robot, with twenty inner steps for each of the two rows. *)
Definition quad_st (h : bool) : soset := SS 1 1 1 1 1 1 1 1 1 1 (fun _ => 1) 1 1 h.
Definition quad_rf : sorefs := SF (fun t => V3 t 0 0) (fun _ => [0; 0; 0]) (fun _ _ => 0) (fun _ _ => 0) (fun _ => repeat v0 4) (fun _ => repeat v0 4) (fun _ => repeat v0 4) (fun _ => PV 12 (fun _ => 0)).
Definition plus_base (q d : config) : config := map (fun i => nth i q 0 + nth (Nat.min i 17) d 0) (seq 0 (length q)).
Example C63_demo : forall h sq, quadprog_sound sq -> quadprog_complete sq -> exists v rows, so_solve sq transpose quad_rb (quad_st h) plus_base quad_rf so_new 3 (/ 50) (repeat (repeat 1 4) 3) (repeat 0 19) (repeat 0 18) = Ok (v, rows).
Proof.
  intros h sq Hs Hc. apply C63_motion_succeeds; try assumption; try (cbn; lia); try lra; try apply so_reach_new.
  - unfold nonneg_weights, quad_st. cbn. repeat split; lra.
  - constructor; [split; [cbn; lia|]; intros [|[|[|]]] Hi; cbn; lia|]. intros t. cbn. repeat split; lia.
  - intros q d. unfold plus_base. now rewrite map_length, seq_length.
Qed.
(** Fewer than four end-effectors: the joint posture competes with the end-effectors, so their error is not minimal. *)
Definition few_rb : sorobot := SR (Rob 1 7 (fun _ _ _ => 0) (fun _ _ c j => if (j =? 6 + c)%nat then 1 else 0) (fun _ => v0) (fun _ _ => v0)) (fun _ _ _ => 0) (fun _ _ _ _ => 0) (fun _ _ => v0).
Definition few_pinv (A : pm) : pm := if (pr A =? 4)%nat then PM 7 4 (fun i j => if (i =? 6)%nat then (if (j =? 0)%nat then / 2 else if (j =? 3)%nat then / 2 else 0) else 0) else PM 7 6 (fun _ _ => 0).
Definition few_arg : soarg := SA (repeat 0 8) (repeat 0 7) v0 [0; 0; 0] (fun _ => 0) (fun _ => 0) [v0] [v0] [V3 1 0 0] [1] None.
Theorem C64_few_effectors_refuted : forall sq, exists pinv (rb : sorobot) st a x s', r_ne rb = 1%nat /\ s_hier st = true /\ exact_pinv pinv rb (sa_q a) /\ so_step sq pinv rb st so_new a = Ok (x, s') /\ exists y, all_effectors_error rb st a y < all_effectors_error rb st a (pe x).
Proof.
  intros sq. exists few_pinv, few_rb, (quad_st true), few_arg. 
  assert (X : exact_pinv few_pinv few_rb (sa_q few_arg)).
  { intros A SA. pose proof SA as (A1 & A2 & AE). change (pr (first_matrix few_rb (sa_q few_arg))) with 4%nat in A1. unfold few_pinv at 1 2. rewrite A1. cbn [Nat.eqb]. split.
    - apply (penrose_same A _ _ SA). constructor; change (pr (first_matrix few_rb (sa_q few_arg))) with 4%nat; change (pc (first_matrix few_rb (sa_q few_arg))) with 7%nat; unfold mat_mul; change (pc (first_matrix few_rb (sa_q few_arg))) with 7%nat; cbn [pr pc pa].
      + split; reflexivity.
      + intros i j Hi Hj. destruct i as [|[|[|[|]]]]; try lia; destruct j as [|[|[|[|[|[|[|]]]]]]]; try lia; cbn; lra.
      + intros i j Hi Hj. destruct j as [|[|[|[|]]]]; try lia; destruct i as [|[|[|[|[|[|[|]]]]]]]; try lia; cbn; lra.
      + intros i j Hi Hj. destruct i as [|[|[|[|]]]]; try lia; destruct j as [|[|[|[|]]]]; try lia; cbn; lra.
      + intros i j Hi Hj. destruct i as [|[|[|[|[|[|[|]]]]]]]; try lia; destruct j as [|[|[|[|[|[|[|]]]]]]]; try lia; cbn; lra.
    - intros B (B1 & B2 & BE). assert (B3 : pr B = 6%nat) by exact B1. assert (B4 : pc B = 7%nat) by exact B2. clear B1 B2. rename B3 into B1. rename B4 into B2. unfold few_pinv. rewrite B1. cbn [Nat.eqb]. apply penrose_zero; [exact B1|exact B2|]. intros i j Hi Hj. rewrite BE by lia. cbn [rest_matrix pa]. apply rsum_zero. intros k _. cbn [few_rb sr r_Ag]. ring. }
  assert (S : exists x s', so_step sq few_pinv few_rb (quad_st true) so_new few_arg = Ok (x, s')) by (unfold so_step; cbn; eexists _, _; reflexivity).
  destruct S as (x & s' & E). exists x, s'. split; [reflexivity|]. split; [reflexivity|]. split; [exact X|]. split; [exact E|].
  destruct (C64_priorities_general sq few_pinv few_rb (quad_st true) so_new few_arg x s' eq_refl (so_reach_new _ _ _) X E) as (_ & M & _).
  assert (F : forall y, all_effectors_error few_rb (quad_st true) few_arg y = (y 6%nat - 1) ^ 2) by (intros y; unfold all_effectors_error, eff_acceleration, eff_velocity_of, dotv, eff_acc_ref; cbn; lra).
  assert (G : forall y, eff_error few_rb (quad_st true) few_arg y + joint_error few_rb (quad_st true) few_arg y = (y 6%nat - 1) ^ 2 + y 6%nat ^ 2) by (intros y; unfold eff_error, joint_error, eff_acceleration, eff_velocity_of, dotv, eff_acc_ref, joint_acc_ref; cbn; lra).
  specialize (M (fun _ => / 2)). rewrite !G in M. cbv beta in M. exists (fun _ => 1). rewrite !F. assert (pe x 6%nat = / 2) as ->; [|lra]. pose proof (Rle_0_sqr (pe x 6%nat - / 2)) as Z. unfold Rsqr in Z. generalize dependent (pe x 6%nat). intros u M Z. assert (Z0 : (u - / 2) * (u - / 2) = 0) by nra. apply Rmult_integral in Z0. lra.
Qed.
Print Assumptions C64_few_effectors_refuted.

(** * Replaying a plan (C71, C72, C73) *)
From Coq Require Import Reals List Arith Bool Lia Lra.
Import ListNotations.
From Verif Require Import Base Vec3 MkoModel ItpModel ItpSpec ItpProofs ItpProofs2.
Local Open Scope R_scope.

(** ** C71: the functions returned by desired_state and interpolate evaluate the piecewise linear curve through the plan's states, for every time and every name. *)
Theorem C71_desired_state tv me sq gains dy sp : tv <> [] -> increasing tv -> plan (length tv) me sq gains dy -> same_size (length tv) (d_meaning sp sq gains dy) ->
  exists f, desired_state sp tv (Some sq) (Some gains) (Some dy) = Ok f /\ forall t, exists v, f t = Ok v /\ on_curve tv (d_meaning sp sq gains dy) t v.
Proof.
  intros Hne Hinc Hp Hsz. eexists; split; [reflexivity|]. intros t. apply eval_ok; try assumption. intros i Hi. now apply (dselect_ok _ _ _ _ _ Hp).
Qed.
Print Assumptions C71_desired_state.
(** The gains can be replayed without a kinematics sequence; without either nothing can. *)
Theorem C71_gains_alone tv me sq gains dy : tv <> [] -> increasing tv -> plan (length tv) me sq gains dy -> same_size (length tv) (d_meaning DFeedback sq gains dy) ->
  (exists f, desired_state DFeedback tv None (Some gains) None = Ok f /\ forall t, exists v, f t = Ok v /\ on_curve tv (d_meaning DFeedback sq gains dy) t v) /\
  forall sp, desired_state sp tv None None (Some dy) = Throw.
Proof.
  intros Hne Hinc Hp Hsz. split; [|reflexivity]. eexists; split; [reflexivity|]. intros t. apply eval_ok; try assumption. intros i Hi. exact (dselect_ok _ _ _ _ _ Hp DFeedback i Hi).
Qed.
Print Assumptions C71_gains_alone.
Theorem C71_interpolate tv me sq gains dy w sp : tv <> [] -> increasing tv -> plan (length tv) me sq gains dy -> same_size (length tv) (i_meaning sp me sq gains dy w) ->
  exists f, interpolate sp tv (Some me) (Some sq) (Some gains) (Some dy) (Some w) = Ok f /\ forall t, exists v, f t = Ok v /\ on_curve tv (i_meaning sp me sq gains dy w) t v.
Proof.
  intros Hne Hinc Hp Hsz. eexists; split; [reflexivity|]. intros t. apply eval_ok; try assumption. intros i Hi. now apply (iselect_ok _ _ _ _ _ w Hp).
Qed.
Print Assumptions C71_interpolate.
(** The curve passes through every state at its time stamp and never leaves the range of the planned values. *)
Theorem C71_range tv s t v : tv <> [] -> increasing tv -> same_size (length tv) s -> on_curve tv s t v ->
  (forall i, (i < length tv)%nat -> t = stamp tv i -> v = s i) /\
  (forall j a b, (forall i, (i < length tv)%nat -> a <= nth j (s i) 0 <= b) -> a <= nth j v 0 <= b).
Proof.
  intros Hne Hinc Hsz H. split; [|now apply (curve_bounds tv s t v)]. intros i Hi ->. now apply (curve_knot tv s v i).
Qed.
Print Assumptions C71_range.
(** The orientations are interpolated entry by entry: half way between two unit quaternions (rotations about z by 0 and 180 degrees) the result is not a unit quaternion. *)
Definition norm2 (l : list R) : R := fold_right (fun x a => x * x + a) 0 l.
Definition standing (q : list R) : kstate := KS [] [] ([0; 0; 1] ++ q) [0; 0; 0; 0; 0; 0] [] [0; 0; 1] [0; 0; 0] [0; 0; 0].
Theorem C71_quaternion_refuted : exists tv sq f v t, increasing tv /\ stamp tv 0 <= t <= stamp tv (length tv - 1) /\ length sq = length tv /\
  (forall i, (i < length tv)%nat -> norm2 (map (fun j => nth j (kin ks_gpos sq i) 0) [3; 4; 5; 6]%nat) = 1) /\
  interpolate IQuaternion tv None (Some sq) None None None = Ok f /\ f t = Ok v /\ norm2 v = / 2.
Proof.
  set (tv := [0; 1]). set (sq := [standing [0; 0; 0; 1]; standing [0; 0; 1; 0]]).
  assert (Hinc : increasing tv) by (intros i Hi; cbn in Hi; assert (i = 0)%nat as -> by lia; unfold stamp; cbn; lra).
  set (s := fun i => map (fun j => nth j (kin ks_gpos sq i) 0) [3; 4; 5; 6]%nat).
  destruct (eval_ok tv s (iselect IQuaternion None (Some sq) None None None) (/ 2)) as (v & E & C).
  - discriminate.
  - exact Hinc.
  - intros i Hi. cbn in Hi. destruct i as [|[|i]]; [reflexivity|reflexivity|lia].
  - intros i Hi. unfold s. now rewrite !map_length.
  - exists tv, sq, (eval_at (iselect IQuaternion None (Some sq) None None None) tv), v, (/ 2). split; [exact Hinc|]. split; [unfold stamp; cbn; lra|]. split; [reflexivity|].
    split; [|split; [reflexivity|split; [exact E|]]].
    + intros i Hi. cbn in Hi. destruct i as [|[|i]]; [cbn; lra|cbn; lra|lia].
    + rewrite (oc_between _ _ _ _ C 0%nat); [|cbn; lia|unfold stamp; cbn; lra]. unfold stamp, s, between, norm2. cbn. field.
Qed.
Print Assumptions C71_quaternion_refuted.
(** A step of duration zero gives a value that is not a number. *)
Theorem C71_zero_step_refuted : exists f, desired_state DCom (create_time_vector [1; 0; 1; 1]) (Some (repeat (standing [0; 0; 0; 1]) 4)) None None = Ok f /\ f 1 = UB.
Proof.
  eexists; split; [reflexivity|]. unfold eval_at, bracket, create_time_vector. cbn [times_from map argmin argmin_from].
  replace (0 + 1) with 1 by ring. replace (1 + 0) with 1 by ring. replace (0 - 1) with (-1) by ring. replace (1 - 1) with 0 by ring. replace (1 + 1 - 1) with 1 by ring.
  rewrite (Rabs_left (-1)) by lra. rewrite Rabs_R0, (Rabs_right 1) by lra.
  destruct (Rlt_dec 0 (- -1)); [|lra]. destruct (Rlt_dec 0 0); [lra|]. destruct (Rlt_dec 1 0); [lra|]. cbn [bind nth].
  destruct (Rlt_dec 1 1); [lra|]. cbn. destruct (Req_EM_T (1 - 1) 0); [reflexivity|lra].
Qed.
Print Assumptions C71_zero_step_refuted.

(** ** C72: the time stamps start at 0 and the gap after state i is the time step dt of state i. *)
Theorem C72_time_vector dts : length (create_time_vector dts) = length dts /\
  (forall i, (i < length dts)%nat -> stamp (create_time_vector dts) i = total_time i dts) /\
  (forall i, (S i < length dts)%nat -> stamp (create_time_vector dts) (S i) - stamp (create_time_vector dts) i = nth i dts 0) /\
  ((forall i, (i < length dts)%nat -> 0 < nth i dts 0) -> increasing (create_time_vector dts)).
Proof.
  split; [apply times_length|]. split; [|split].
  - intros i Hi. unfold stamp, create_time_vector. rewrite times_nth by exact Hi. ring.
  - intros i Hi. now apply time_gap.
  - intros H i Hi. unfold create_time_vector in Hi. rewrite times_length in Hi. pose proof (time_gap dts i Hi). pose proof (H i ltac:(lia)). lra.
Qed.
Print Assumptions C72_time_vector.
(** The replayed centre of mass moves, between states i and i+1, with the planned velocity of state i+1 times dt(i+1)/dt(i); *)
Theorem C72_replayed_velocity m dts com lmom : (forall i, (i < length dts)%nat -> 0 < nth i dts 0) -> follows_momentum m dts com lmom ->
  let tv := create_time_vector dts in forall i t t' v v', (S i < length dts)%nat -> stamp tv i <= t <= stamp tv (S i) -> stamp tv i <= t' <= stamp tv (S i) ->
  on_curve tv (fun i => [nth i com 0]) t v -> on_curve tv (fun i => [nth i com 0]) t' v' ->
  nth 0 v' 0 - nth 0 v 0 = (t' - t) * (nth (S i) dts 0 / nth i dts 0) * (nth (S i) lmom 0 / m).
Proof.
  intros Hpos Hf tv i t t' v v' Hi Ht Ht' C C'. assert (L : length tv = length dts) by apply times_length.
  rewrite (oc_between _ _ _ _ C i), (oc_between _ _ _ _ C' i) by (try lia; assumption). rewrite !between_nth by reflexivity. cbn [nth].
  pose proof (time_gap dts i Hi) as G. fold tv in G. rewrite (Hf i Hi). pose proof (Hpos i ltac:(lia)). rewrite !G. set (u := nth (S i) lmom 0 / m). field. lra.
Qed.
Print Assumptions C72_replayed_velocity.
(** so for constant time steps it moves with the planned momentum *)
Theorem C72_constant_step m h dts com lmom : 0 < h -> (forall i, (i < length dts)%nat -> nth i dts 0 = h) -> follows_momentum m dts com lmom ->
  let tv := create_time_vector dts in forall i t t' v v', (S i < length dts)%nat -> stamp tv i <= t <= stamp tv (S i) -> stamp tv i <= t' <= stamp tv (S i) ->
  on_curve tv (fun i => [nth i com 0]) t v -> on_curve tv (fun i => [nth i com 0]) t' v' -> nth 0 v' 0 - nth 0 v 0 = (t' - t) * (nth (S i) lmom 0 / m).
Proof.
  intros Hh Hc Hf tv i t t' v v' Hi Ht Ht' C C'. rewrite (C72_replayed_velocity m dts com lmom) with (i := i) (t := t) (t' := t'); try assumption.
  - rewrite (Hc i), (Hc (S i)) by lia. set (u := nth (S i) lmom 0 / m). field. lra.
  - intros j Hj. rewrite (Hc j Hj). exact Hh.
Qed.
Print Assumptions C72_constant_step.
(** but not for a plan with optimised time steps. *)
Theorem C72_optimised_steps_refuted : exists m dts com lmom v v', (forall i, (i < length dts)%nat -> 0 < nth i dts 0) /\ follows_momentum m dts com lmom /\
  let tv := create_time_vector dts in exists t t', stamp tv 0 <= t <= stamp tv 1 /\ stamp tv 0 <= t' <= stamp tv 1 /\ t < t' /\
  on_curve tv (fun i => [nth i com 0]) t v /\ on_curve tv (fun i => [nth i com 0]) t' v' /\ nth 0 v' 0 - nth 0 v 0 = 2 * ((t' - t) * (nth 1 lmom 0 / m)) /\ nth 1 lmom 0 / m <> 0.
Proof.
  set (dts := [1; 2]). set (com := [0; 2]). set (tv := create_time_vector dts).
  assert (Hpos : forall i, (i < length dts)%nat -> 0 < nth i dts 0) by (intros [|[|i]] Hi; cbn in *; [lra|lra|lia]).
  assert (Hinc : increasing tv) by (apply C72_time_vector, Hpos).
  destruct (eval_ok tv (fun i => [nth i com 0]) (fun i => Ok [nth i com 0]) 0) as (v & _ & C); [discriminate|exact Hinc|reflexivity|intros i Hi; reflexivity|].
  destruct (eval_ok tv (fun i => [nth i com 0]) (fun i => Ok [nth i com 0]) 1) as (v' & _ & C'); [discriminate|exact Hinc|reflexivity|intros i Hi; reflexivity|].
  assert (Hf : follows_momentum 1 dts com [0; 1]) by (intros [|i] Hi; cbn in *; [lra|lia]).
  exists 1, dts, com, [0; 1], v, v'. split; [exact Hpos|]. split; [exact Hf|]. cbv zeta. fold tv. exists 0, 1. split; [unfold stamp; cbn; lra|]. split; [unfold stamp; cbn; lra|]. split; [lra|]. split; [exact C|]. split; [exact C'|]. split; [|cbn; lra].
  rewrite (C72_replayed_velocity 1 dts com [0; 1] Hpos Hf 0%nat 0 1 v v'); try assumption; try (unfold stamp; cbn; lra); try (cbn; lia).
Qed.
Print Assumptions C72_optimised_steps_refuted.

(** ** C73: execution.  Every commanded torque respects the limits and is the feedback law where that respects them. *)
Theorem C73_torque_limits lo hi P D qerr dqerr jac force delta : lo <= hi ->
  let law := P * qerr + D * dqerr + fold_right Rplus 0 (map (fun p => fst p * (fst (snd p) + snd (snd p))) (combine jac (combine force delta))) in
  let c := joint_command lo hi P D qerr dqerr jac force delta in
  lo <= c <= hi /\ (lo <= law <= hi -> c = law) /\ (law < lo -> c = lo) /\ (hi < law -> c = hi).
Proof.
  intros H law c. unfold c, joint_command. fold law. unfold limit_torque. destruct (Rlt_dec law lo); destruct (Rlt_dec hi _); repeat split; intros; try lra.
Qed.
Print Assumptions C73_torque_limits.
(** At millisecond k the planned contact forces in force at that time are applied, for plans with time steps of at least the control period, as long as the plan lasts; *)
Theorem C73_forces_applied tv n : tv <> [] -> steps_at_least_1ms tv -> INR n / 1000 <= stamp tv (length tv - 1) ->
  exists ids, passes tv (S n) 0 0 = Ok ids /\ length ids = S n /\ forall k, (k <= n)%nat -> in_force tv (INR k / 1000) (nth k ids 0%nat).
Proof. intros Hne Hs. apply (execution_ok tv n Hne Hs). Qed.
Print Assumptions C73_forces_applied.
(** but the loop always runs for four seconds: the execution of a shorter plan ends in an exception. *)
Theorem C73_short_plan_refuted tv : tv <> [] -> steps_at_least_1ms tv -> stamp tv (length tv - 1) < 3999 / 1000 -> execute tv = Throw.
Proof.
  intros Hne Hs L. unfold execute. change max_num_iterations with (S 3999). apply (proj2 (execution_ok tv 3999 Hne Hs)). replace (INR 3999) with 3999; [exact L|]. rewrite INR_IZR_INZ. reflexivity.
Qed.
Print Assumptions C73_short_plan_refuted.
(** The velocity for the momentum feedback should be the configuration difference over one control period.  In the first execution the difference is divided by the time since the start, in later executions the velocity is zero. *)
Theorem C73_velocity_refuted n k diff : (0 < k < n)%nat ->
  velocity_of (delta_t n k 0) diff = map (fun x => x / (INR k * / 1000)) diff /\
  velocity_of (delta_t n k (INR (n - 1) / 1000)) diff = map (fun _ => 0) diff.
Proof.
  intros Hk. unfold delta_t. rewrite (proj2 (Nat.eqb_neq k 0)) by lia. unfold t_vec_last.
  assert (Kp : 1 <= INR k) by (change 1 with (INR 1); apply le_INR; lia). split.
  - rewrite (proj2 (Nat.ltb_ge _ _)) by lia. rewrite Rminus_0_r. unfold velocity_of. destruct (Rlt_dec _ _) as [L|L]; [|reflexivity]. exfalso.
    assert (/ 10 ^ 8 <= INR k / 1000); [|lra]. unfold Rdiv. apply Rle_trans with (1 * / 1000); [|apply Rmult_le_compat_r; lra]. rewrite Rmult_1_l. apply Rinv_le_contravar; [lra|]. simpl. lra.
  - assert (G : (if (n - 1 <? k)%nat then INR (n - 1) / 1000 else INR (n - 1) / 1000) = INR (n - 1) / 1000) by (destruct (n - 1 <? k)%nat; reflexivity). rewrite G.
    assert (INR k / 1000 <= INR (n - 1) / 1000) by (unfold Rdiv; apply Rmult_le_compat_r; [lra|]; apply le_INR; lia).
    assert (0 < / 10 ^ 8) by (apply Rinv_0_lt_compat, pow_lt; lra). unfold velocity_of. destruct (Rlt_dec _ _); [reflexivity|lra].
Qed.
Print Assumptions C73_velocity_refuted.

(** ** The hypotheses are met *)
Definition tv3 : list R := create_time_vector [/ 10; / 10; / 10].
Definition effs (f : R) : list (vec3 * vec3) := [(V3 0 0 f, V3 1 0 0); (V3 0 0 f, V3 (-1) 0 0)].
Definition dy3 : list dstate := [DS (V3 0 0 1) (effs (/ 2)); DS (V3 0 0 1) (effs 1); DS (V3 0 0 1) (effs 0)].
Definition sq3 : list kstate := repeat (standing [0; 0; 0; 1]) 3.
Example tv3_increasing : increasing tv3. Proof. apply C72_time_vector. intros [|[|[|i]]] Hi; cbn in *; try lra; lia. Qed.
Example plan3 : plan 3 (ME (repeat [1; 2; 3] 3) (repeat [0; 0; 0] 3) (repeat [1; 2; 3] 3) (repeat [0; 0; 0] 3)) sq3 (repeat [1; 0] 3) dy3.
Proof. repeat split; try (intros [|[|[|i]]] Hi; cbn; try discriminate; lia); intros; destruct i as [|[|[|i]]]; cbn; try discriminate; lia. Qed.
Example same3 : forall sp, same_size (length tv3) (d_meaning sp sq3 (repeat [1; 0] 3) dy3).
Proof. intros sp [|[|[|i]]] Hi; cbn in Hi; try lia; destruct sp; reflexivity. Qed.
(** Between the first and the second state the vertical force of each end-effector rises from 1/2 to 1. *)
Example interpolated_force : exists f v, desired_state DForces tv3 (Some sq3) (Some (repeat [1; 0] 3)) (Some dy3) = Ok f /\ f (/ 20) = Ok v /\ nth 2 v 0 = 3 / 4.
Proof.
  destruct (C71_desired_state tv3 _ sq3 (repeat [1; 0] 3) dy3 DForces ltac:(discriminate) tv3_increasing plan3 (same3 DForces)) as (f & E & H). destruct (H (/ 20)) as (v & Ev & C).
  exists f, v. split; [exact E|]. split; [exact Ev|]. rewrite (oc_between _ _ _ _ C 0%nat); [|cbn; lia|unfold stamp, tv3; cbn; lra]. unfold stamp, tv3, between. cbn. field.
Qed.
Example tv3_steps : steps_at_least_1ms tv3. Proof. split; [reflexivity|]. intros [|[|i]] Hi; cbn in Hi; try lia; unfold stamp, tv3; cbn; lra. Qed.
Example tv3_raises : execute tv3 = Throw. Proof. apply C73_short_plan_refuted; [discriminate|apply tv3_steps|]. unfold stamp, tv3. cbn. lra. Qed.
Example momentum_followed : follows_momentum 2 [/ 10; / 10; / 10] [0; / 10; 3 / 10] [0; 2; 4].
Proof. intros [|[|i]] Hi; cbn in *; try lia; lra. Qed.

(** * C38: the trajectory generator interpolates its way-points *)
From Coq Require Import Reals List Arith ZArith Bool Lia Lra Psatz.
Import ListNotations.
From Verif Require Import Base BaseProofs Vec3 TrajModel TrajSpec Hermite TrajProofs.
Local Open Scope R_scope.

(** Any numbers of way-points: if the linear system is solved exactly, all way-points are met.  Times different from zero for velocity and acceleration. *)
Theorem C38_waypoints : forall qr pos vel acc it, init_interp qr pos vel acc = Ok it ->
  solution (cons_size it) (reg_matrix pos vel acc) (reg_vector pos vel acc) (coeffs it) ->
  (forall t x, In (t, x) pos -> position (interpolate it t) = Some x) /\
  (forall t v, In (t, v) vel -> t <> 0 -> velocity (interpolate it t) = Some v) /\
  (forall t a, In (t, a) acc -> t <> 0 -> acceleration (interpolate it t) = Some a).
Proof.
  intros qr pos vel acc it E S. destruct (init_span _ _ _ _ _ E) as (Hn & Hc & Hs). rewrite Hn in S.
  split; [|split]; intros t x Hi; intros; assert (Q : query_time it t = t) by (apply query_inside; apply (Hs (t, x)); tauto).
  - rewrite position_is, Q, Hn. f_equal. exact (pos_solution pos vel acc (coeffs it) (t, x) S Hi).
  - rewrite velocity_is, Q, Hn by (rewrite Q; easy). f_equal. exact (vel_solution pos vel acc (coeffs it) (t, x) S Hi).
  - rewrite acceleration_is, Q, Hn by (rewrite Q; easy). f_equal. exact (acc_solution pos vel acc (coeffs it) (t, x) S Hi).
Qed.
(** Query times are clamped to the time span, which contains all way-point times. *)
Theorem C38_clamped : forall qr pos vel acc it, init_interp qr pos vel acc = Ok it ->
  (forall t x, In (t, x) pos \/ In (t, x) vel \/ In (t, x) acc -> span0 it <= t <= span1 it) /\
  (forall t, t <= span0 it -> interpolate it t = interpolate it (span0 it)) /\ (forall t, span1 it <= t -> interpolate it t = interpolate it (span1 it)).
Proof.
  intros qr pos vel acc it E. destruct (init_span _ _ _ _ _ E) as (_ & _ & Hs).
  assert (O : span0 it <= span1 it). { destruct pos as [|r pos]; [discriminate|]. assert (In r (r :: pos)) by now left. pose proof (Hs r ltac:(tauto)). lra. }
  split; [intros t x H; exact (Hs (t, x) H)|].
  assert (Q0 : query_time it (span0 it) = span0 it) by (apply query_inside; lra). assert (Q1 : query_time it (span1 it) = span1 it) by (apply query_inside; lra).
  split; intros t Ht; unfold interpolate; cbv zeta.
  - assert (Q : query_time it t = span0 it) by (unfold query_time; rewrite Rmax_right, Rmin_left; lra). now rewrite Q, Q0.
  - assert (Q : query_time it t = span1 it) by (unfold query_time; rewrite Rmax_left, Rmin_right; lra). now rewrite Q, Q1.
Qed.
(** Inside the span velocity and acceleration are the derivatives of the position. *)
Theorem C38_derivatives : forall it t, span0 it < t < span1 it -> t <> 0 ->
  exists p v a, (forall s, span0 it <= s <= span1 it -> position (interpolate it s) = Some (p s)) /\
    (forall s, span0 it <= s <= span1 it -> s <> 0 -> velocity (interpolate it s) = Some (v s)) /\
    acceleration (interpolate it t) = Some a /\ derivable_pt_lim p t (v t) /\ derivable_pt_lim v t a.
Proof.
  intros it t Ht Hz. exists (pval (cons_size it) (coeffs it)), (pder (cons_size it) (coeffs it)), (pder2 (cons_size it) (coeffs it) t).
  split; [intros s Hs; rewrite position_is, query_inside by lra; easy|].
  split; [intros s Hs Hn; rewrite velocity_is; rewrite query_inside by lra; easy|].
  split; [rewrite acceleration_is; rewrite query_inside by lra; easy|]. split; [apply pval_deriv|apply pder_deriv].
Qed.
(** TrajectoryGenerator, one direction: with tini <> tend and a solver that solves nonsingular systems, the position is the rest-to-rest profile through the via
    point: start, middle and end values, between them the closed form, velocity and acceleration zero at both ends. *)
Theorem C38_swing : forall qr tini pini tend pend via, tini < tend ->
  solves_if_regular qr 7 (reg_matrix (swing_pos tini pini tend pend via) (swing_d tini tend) (swing_d tini tend)) (reg_vector (swing_pos tini pini tend pend via) (swing_d tini tend) (swing_d tini tend)) ->
  exists it, traj_dir qr tini pini tend pend via = Ok it /\ span0 it = tini /\ span1 it = tend /\
  (forall t, tini <= t <= tend -> position (interpolate it t) = Some (swing pini via pend ((t - tini) / (tend - tini)))) /\
  position (interpolate it tini) = Some pini /\ position (interpolate it ((tini + tend) / 2)) = Some via /\ position (interpolate it tend) = Some pend /\
  (tini <> 0 -> velocity (interpolate it tini) = Some 0 /\ acceleration (interpolate it tini) = Some 0) /\
  (tend <> 0 -> velocity (interpolate it tend) = Some 0 /\ acceleration (interpolate it tend) = Some 0).
Proof.
  intros qr t0 x0 t1 x1 v Hlt Hqr. unfold traj_dir. fold (swing_pos t0 x0 t1 x1 v). fold (swing_d t0 t1).
  destruct (init_interp qr (swing_pos t0 x0 t1 x1 v) (swing_d t0 t1) (swing_d t0 t1)) as [it| |] eqn:E; [|discriminate E|discriminate E].
  exists it. split; [reflexivity|]. destruct (init_span _ _ _ _ _ E) as (Hn & Hc & Hs). change (length _ + length _ + length _)%nat with 7%nat in Hn.
  assert (S : solution (cons_size it) (reg_matrix (swing_pos t0 x0 t1 x1 v) (swing_d t0 t1) (swing_d t0 t1)) (reg_vector (swing_pos t0 x0 t1 x1 v) (swing_d t0 t1) (swing_d t0 t1)) (coeffs it)).
  { rewrite Hc, Hn. apply Hqr. apply swing_regular. lra. }
  assert (R : rest_to_rest (coeffs it) t0 t1 x0 v x1) by (rewrite Hn in S; now apply swing_solution).
  assert (SP : span0 it = t0 /\ span1 it = t1).
  { cbn in E. injection E as <-. cbn [span0 span1]. unfold Rmin, Rmax. repeat (destruct Rle_dec); lra. }
  destruct SP as [S0 S1]. split; [exact S0|]. split; [exact S1|].
  assert (F : forall t, t0 <= t <= t1 -> position (interpolate it t) = Some (swing x0 v x1 ((t - t0) / (t1 - t0)))).
  { intros t Ht. rewrite position_is, query_inside, Hn by lra. f_equal. rewrite (hermite _ t0 t1 x0 v x1 ltac:(lra) R). apply swing_eq. }
  destruct (C38_waypoints _ _ _ _ _ E S) as (W1 & W2 & W3). unfold swing_pos, swing_d in W1, W2, W3.
  split; [exact F|]. split; [apply W1; now left|]. split; [replace ((t0 + t1) / 2) with (/ 2 * (t0 + t1)) by field; apply W1; right; now left|]. split; [apply W1; right; right; now left|].
  split; intros Hz; split.
  - apply W2; [now left|exact Hz].
  - apply W3; [now left|exact Hz].
  - apply W2; [right; now left|exact Hz].
  - apply W3; [right; now left|exact Hz].
Qed.
(** Three directions. *)
Theorem C38_generator : forall qr tini pini tend pend via, tini < tend ->
  (forall d, (d < 3)%nat -> let p := swing_pos tini (vget3 pini d) tend (vget3 pend d) (vget3 via d) in let r := swing_d tini tend in
     solves_if_regular qr 7 (reg_matrix p r r) (reg_vector p r r)) ->
  exists tr, traj_init qr tini pini tend pend via = Ok tr /\ forall d t, (d < 3)%nat -> tini <= t <= tend ->
    position (traj_update tr t d) = Some (swing (vget3 pini d) (vget3 via d) (vget3 pend d) ((t - tini) / (tend - tini))).
Proof.
  intros qr t0 x0 t1 x1 v Hlt Hqr. unfold traj_init.
  destruct (C38_swing qr t0 (vx x0) t1 (vx x1) (vx v) Hlt (Hqr 0%nat ltac:(lia))) as (a & -> & _ & _ & Fa & _).
  destruct (C38_swing qr t0 (vy x0) t1 (vy x1) (vy v) Hlt (Hqr 1%nat ltac:(lia))) as (b & -> & _ & _ & Fb & _).
  destruct (C38_swing qr t0 (vz x0) t1 (vz x1) (vz v) Hlt (Hqr 2%nat ltac:(lia))) as (c & -> & _ & _ & Fc & _). cbn [bind].
  eexists. split; [reflexivity|]. intros d t Hd Ht. unfold traj_update. destruct d as [|[|[|d]]]; [apply Fa|apply Fb|apply Fc|]; easy || lia.
Qed.
(** The profile between rest points stays between them if the via point is the middle. *)
Theorem C38_no_overshoot : forall x0 x1 s, 0 <= s <= 1 -> Rmin x0 x1 <= swing x0 ((x0 + x1) / 2) x1 s <= Rmax x0 x1.
Proof.
  intros x0 x1 s H. pose proof (quintic_bounds s H) as Q. unfold swing. fold (quintic s). replace ((x0 + x1) / 2 - (x0 + x1) / 2) with 0 by ring. rewrite Rmult_0_l, Rplus_0_r.
  unfold Rmin, Rmax. destruct (Rle_dec x0 x1); nra.
Qed.
Print Assumptions C38_waypoints.
Print Assumptions C38_clamped.
Print Assumptions C38_derivatives.
Print Assumptions C38_swing.
Print Assumptions C38_generator.
Print Assumptions C38_no_overshoot.
(** The hypothesis on the solver can be met, and its premise holds. *)
Example C38_example : exists qr, let p := swing_pos 1 0 2 1 3 in let r := swing_d 1 2 in
  solves_if_regular qr 7 (reg_matrix p r r) (reg_vector p r r) /\ regular 7 (reg_matrix p r r) /\ solution 7 (reg_matrix p r r) (reg_vector p r r) (qr 7%nat (reg_matrix p r r) (reg_vector p r r)).
Proof.
  destruct (unisolvent 1 2 (fun i => match i with 1%nat => 3 | 2%nat => 1 | _ => 0 end) ltac:(lra)) as (c & H). exists (fun _ _ _ => c). cbv zeta.
  assert (S : solution 7 (reg_matrix (swing_pos 1 0 2 1 3) (swing_d 1 2) (swing_d 1 2)) (reg_vector (swing_pos 1 0 2 1 3) (swing_d 1 2) (swing_d 1 2)) c) by (apply swing_solution; exact H).
  split; [intros _; exact S|]. split; [apply swing_regular; lra|exact S].
Qed.

(** At time zero velocity and acceleration are 0 * infinity, not a number: a trajectory that starts at time 0 has no finite velocity there. *)
Theorem C38_zero_time_refuted : forall qr pini tend pend via it, 0 < tend -> traj_dir qr 0 pini tend pend via = Ok it ->
  velocity (interpolate it 0) = None /\ acceleration (interpolate it 0) = None.
Proof.
  intros qr x0 t1 x1 v it Ht E. apply not_finite_at_zero.
  - apply query_inside. destruct (init_span _ _ _ _ _ E) as (_ & _ & Hs). apply (Hs (0, x0)). left. now left.
  - destruct (init_span _ _ _ _ _ E) as (-> & _). cbn. lia.
Qed.
(** With tini = tend two rows of the system coincide: it is singular. *)
Theorem C38_equal_times_refuted : forall t x0 x1 v, x0 <> x1 ->
  ~ exists c, solution 7 (reg_matrix (swing_pos t x0 t x1 v) (swing_d t t) (swing_d t t)) (reg_vector (swing_pos t x0 t x1 v) (swing_d t t) (swing_d t t)) c.
Proof. intros t x0 x1 v N (c & S). apply swing_solution in S. destruct S as (a & _ & b & _). congruence. Qed.
Print Assumptions C38_zero_time_refuted.
Print Assumptions C38_equal_times_refuted.

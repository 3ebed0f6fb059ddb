(** * C44, C58, C59: kinematics optimizer *)
From Coq Require Import Reals List Arith ZArith Bool String Ascii Lra Lia Permutation.
Import ListNotations.
From Verif Require Import Base BaseProofs Vec3 ExprsModel ExprsProofs ConicModel ConicSpec ConicProofs ConicProofs4 ConicProofs5 ConicProofs6
  OptVarModel OptVarSpec OptVarProofs OptVarProofs2 OptVarProps CntModel DynModel DynSpec DynProofs DynProofs2 DynProofs3 DynProofs4 KinModel KinSpec
  KinProofs KinProofs2 KinProofs3 KinProofs4 KinProofs5.
Local Open Scope R_scope.

(** ** C44 Soundness: every point the cone programme accepts is a kinematic plan; completeness: every kinematic plan is accepted. *)
Theorem C44_problem_is_kinematic_planning : forall g rob dini dyn kini seqk thr w iter warm,
  0 <= k_inf g -> kweights_ok g -> 0 <= w ->
  let calls := traj_calls g rob dini dyn kini seqk in
  (forall x, compiled_feasible thr w iter warm calls x -> kin_feasible g rob dyn kini seqk (kplan_of g x)) /\
  (forall P, kin_feasible g rob dyn kini seqk P -> exists x, compiled_feasible thr w iter warm calls x /\ same_kplan g (kplan_of g x) P).
Proof.
  intros g rob dini dyn kini seqk thr w iter warm HI HW Hw calls.
  pose proof (t_vars g HI) as HV. pose proof (t_terms g dini dyn HI HW) as HT. pose proof (t_calls g rob dyn kini seqk HI) as HC. split.
  - intros x HF. apply (traj_iff g rob dyn kini seqk HI x). exact (lp_sound _ _ _ HV HT HC thr w iter warm x Hw HF).
  - intros P HP. destruct (kplan_exists g HI P) as (x & Hx).
    destruct (lp_complete _ _ _ HV HT HC thr w iter warm x) as (x' & Hx' & F).
    + apply (traj_iff g rob dyn kini seqk HI x). eapply same_feasible; [apply same_sym, Hx|exact HP].
    + exists x'. split; [exact F|]. assert (S : same_kplan g (kplan_of g x') (kplan_of g x)).
      { assert (E : forall k rows cols r c, blk (kin_blocks (k_inf g) (k_N g) (k_neff g) (k_next g)) k rows cols -> (r < rows)%nat -> (c < cols)%nat ->
          x' (column_of (kin_blocks (k_inf g) (k_N g) (k_neff g) (k_next g)) (kin_order (k_neff g)) k r c) = x (column_of (kin_blocks (k_inf g) (k_N g) (k_neff g) (k_next g)) (kin_order (k_neff g)) k r c)).
        { intros k rows cols r c Bk Hr Hc. apply Hx'. rewrite (k_vars_len). rewrite <- (k_col_is _ _ (t_perm g HI) (t_free g HI) k rows cols r c Bk Hr Hc). now apply (k_col_lt _ _ (t_perm g HI) (t_free g HI) k rows cols). }
        intros t Ht. unfold kplan_of. cbn [kp_com kp_lmom kp_amom kp_epos kp_evel kp_q kp_qd kp_tqd kp_tqdd].
        split; [|split; [|split; [|split]]].
        - rewrite !(E 0%nat 3%nat (k_N g)) by (try apply b_com; lia). reflexivity.
        - rewrite !(E 1%nat 3%nat (k_N g)) by (try apply b_lm; lia). reflexivity.
        - rewrite !(E 2%nat 3%nat (k_N g)) by (try apply b_am; lia). reflexivity.
        - intros e He. pose proof (b_ep g e He) as B1. pose proof (b_ev g e He) as B2. unfold kEV in B2. unfold kEP in B1. replace (3 + (2 * e + 1))%nat with (4 + 2 * e)%nat in B2 by lia.
          rewrite !(E (3 + 2 * e)%nat 3%nat (k_N g)), !(E (4 + 2 * e)%nat 3%nat (k_N g)) by first [apply B1|apply B2|lia]. now split.
        - intros d Hd. rewrite (E (3 + 2 * k_neff g)%nat (k_next g) (k_N g)), (E (3 + 2 * k_neff g + 1)%nat (k_next g) (k_N g)), (E (3 + 2 * k_neff g + 2)%nat (k_next g) (k_N g)), (E (3 + 2 * k_neff g + 3)%nat (k_next g) (k_N g))
            by first [apply b_q|apply b_qd|apply b_tqd|apply b_tqdd|lia]. auto. }
      intros t Ht. destruct (S t Ht) as (A & B & C & D & E). destruct (Hx t Ht) as (A' & B' & C' & D' & E').
      split; [congruence|]. split; [congruence|]. split; [congruence|]. split.
      * intros e He. destruct (D e He), (D' e He). split; congruence.
      * intros d Hd. destruct (E d Hd) as (? & ? & ? & ?), (E' d Hd) as (? & ? & ? & ?). repeat split; congruence.
Qed.
Print Assumptions C44_problem_is_kinematic_planning.

(** An optimum of the cone programme is a kinematic plan of least cost among all kinematic plans. *)
Theorem C44_optimal : forall g rob dini dyn kini seqk thr w iter warm x,
  0 <= k_inf g -> kweights_ok g -> 0 <= w ->
  let calls := traj_calls g rob dini dyn kini seqk in
  compiled_feasible thr w iter warm calls x ->
  (forall y, compiled_feasible thr w iter warm calls y -> compiled_objective thr w iter warm calls x <= compiled_objective thr w iter warm calls y) ->
  kin_feasible g rob dyn kini seqk (kplan_of g x) /\
  forall P, kin_feasible g rob dyn kini seqk P -> kin_cost g dini dyn (kplan_of g x) <= kin_cost g dini dyn P.
Proof.
  intros g rob dini dyn kini seqk thr w iter warm x HI HW Hw calls HF HO.
  split; [now apply (C44_problem_is_kinematic_planning g rob dini dyn kini seqk thr w iter warm HI HW Hw)|].
  intros P HP. destruct (kplan_exists g HI P) as (y & Hy). rewrite <- (same_cost g dini dyn _ _ Hy), <- !(t_cost g dini dyn HI).
  apply (lp_optimal _ _ _ (t_vars g HI) (t_terms g dini dyn HI HW) (t_calls g rob dyn kini seqk HI) thr w iter warm x Hw HF HO y).
  apply (traj_iff g rob dyn kini seqk HI y). eapply same_feasible; [apply same_sym, Hy|exact HP].
Qed.
Print Assumptions C44_optimal.

(** Integral form: postures are the initial posture plus the accumulated steps, velocities accumulate accelerations from rest; limits and floor hold. *)
Lemma integrated_step : forall a0 dt v (a : nat -> R) n, (forall t, (t < n)%nat -> a t = before1 a a0 t + dt t * v t) -> forall t, (t < n)%nat -> a t = integrated a0 dt v (S t).
Proof. intros a0 dt v a n H. induction t; intros Ht; rewrite (H _ Ht); [reflexivity|]. cbn [before1]. rewrite IHt by lia. reflexivity. Qed.
Theorem C44_integral : forall g rob dini dyn kini seqk thr w iter warm x,
  0 <= k_inf g -> kweights_ok g -> 0 <= w -> (forall t, (t < k_N g)%nat -> d_time (dyn t) <> 0) ->
  compiled_feasible thr w iter warm (traj_calls g rob dini dyn kini seqk) x ->
  let P := kplan_of g x in forall t, (t < k_N g)%nat ->
   (forall d, (d < k_next g)%nat ->
      kp_q P d t = integrated (coords g rob (ks_ori kini) kini d) (fun s => d_time (dyn s)) (kp_tqd P d) (S t) /\
      kp_tqd P d t = integrated 0 (fun s => d_time (dyn s)) (kp_tqdd P d) (S t)) /\
   (forall d, (d < List.length (k_act g))%nat -> let j := nth d (k_act g) 0%nat in k_min g j <= kp_q P (6 + d) t <= k_max g j) /\
   (forall e, (e < k_neff g)%nat -> k_floor g <= vz (kp_epos P e t)) /\
   kp_lmom P t = jac_times g (rb_ag rob (seqk t)) 0 (fun d => kp_tqd P d t) /\ kp_amom P t = jac_times g (rb_ag rob (seqk t)) 3 (fun d => kp_tqd P d t).
Proof.
  intros g rob dini dyn kini seqk thr w iter warm x HI HW Hw HD HF P t Ht.
  destruct (C44_problem_is_kinematic_planning g rob dini dyn kini seqk thr w iter warm HI HW Hw) as (S1 & _). specialize (S1 x HF). fold P in S1.
  split; [|destruct (S1 t Ht); auto]. intros d Hd. split.
  - apply integrated_step with (n := k_N g); [|exact Ht]. intros s Hs. destruct (S1 s Hs) as [_ _ _ _ _ _ F _ _ _]. rewrite (F d Hd). specialize (HD s Hs). field. exact HD.
  - apply integrated_step with (n := k_N g); [|exact Ht]. intros s Hs. destruct (S1 s Hs) as [_ _ _ _ _ _ _ F _ _]. rewrite (F d Hd). specialize (HD s Hs). field. exact HD.
Qed.
Print Assumptions C44_integral.

(** The variables used by objective and constraints have all been declared: vars_[block.id(r,c)] is never an empty Var. *)
Theorem C44_variables_are_declared : forall g, 0 <= k_inf g ->
  let bs := kin_blocks (k_inf g) (k_N g) (k_neff g) (k_next g) in let ord := kin_order (k_neff g) in
  exists p vars, k_vars bs ord = Ok (p, vars) /\ forall k b r c, nth_error bs k = Some b -> (r < b_rows b)%nat -> (c < b_cols b)%nat ->
    nth_error vars (Z.to_nat (ov_id (nth k (k_ovs bs) ov_none) (Z.of_nat r) (Z.of_nat c))) = Some (Some (column_of bs ord k r c)).
Proof. intros g HI bs ord. apply k_vars_ok; [apply (t_perm g HI)|apply (t_free g HI)]. Qed.
Print Assumptions C44_variables_are_declared.

(** If the sequence of the previous iteration respects joint limits and floor, the next problem has a solution (no correction). *)
Theorem C44_never_infeasible : forall g rob dini dyn kini seqk thr w iter warm,
  0 <= k_inf g -> kweights_ok g -> 0 <= w ->
  (forall t d, (t < k_N g)%nat -> (d < List.length (k_act g))%nat -> let j := nth d (k_act g) 0%nat in k_min g j <= ks_jnt (rb_update rob (seqk t) (k_step g)) j <= k_max g j) ->
  (forall t e, (t < k_N g)%nat -> (e < k_neff g)%nat -> k_floor g <= vz (ks_eff (rb_update rob (seqk t) (k_step g)) e)) ->
  exists x, compiled_feasible thr w iter warm (traj_calls g rob dini dyn kini seqk) x.
Proof.
  intros g rob dini dyn kini seqk thr w iter warm HI HW Hw HL HFl.
  destruct (C44_problem_is_kinematic_planning g rob dini dyn kini seqk thr w iter warm HI HW Hw) as (_ & S2).
  pose (q := fun d t => coords g rob (ks_ori (seqk t)) (rb_update rob (seqk t) (k_step g)) d).
  pose (tqd := fun d t => (q d t - before1 (q d) (coords g rob (ks_ori kini) kini d) t) * (1 / d_time (dyn t))).
  pose (tqdd := fun d t => (tqd d t - before1 (tqd d) 0 t) * (1 / d_time (dyn t))).
  assert (Z : forall J i0, jac_times g J i0 (fun _ => 0) = v0).
  { intros J i0. unfold jac_times. cbv zeta. rewrite !rsum_zero by (intros; ring). reflexivity. }
  destruct (S2 (KPlan (fun t => ks_com (rb_update rob (seqk t) (k_step g))) (fun t => jac_times g (rb_ag rob (seqk t)) 0 (fun d => tqd d t)) (fun t => jac_times g (rb_ag rob (seqk t)) 3 (fun d => tqd d t))
      (fun e t => ks_eff (rb_update rob (seqk t) (k_step g)) e) (fun _ _ => v0) q (fun _ _ => 0) tqd tqdd)) as (x & F & _); [|now exists x].
  assert (VZ : forall a k, a = vadd a (vscale k v0)) by (intros [a b c] k; unfold vadd, vscale, v0; cbn; f_equal; ring).
  intros t Ht. constructor; cbn [kp_com kp_lmom kp_amom kp_epos kp_evel kp_q kp_qd kp_tqd kp_tqdd]; try reflexivity.
  - rewrite Z. apply VZ.
  - intros e He. now rewrite Z.
  - intros e He. apply VZ.
  - intros d Hd. unfold q. ring.
  - intros e He. now apply HFl.
  - intros d Hd. cbv zeta. unfold q. cbn [coords Nat.add]. replace (S (S (S (S (S (S d))))) - 6)%nat with d by lia. now apply HL.
Qed.
Print Assumptions C44_never_infeasible.

(** ** C58 Stored motion.  With all joints active in order, the stored joint positions, velocities and accelerations are those of the plan,
    hence within the limits and consistent with each other. *)
Theorem C58_stored_joints_follow_plan : forall g rob dini dyn kini seqk thr w iter warm x,
  0 <= k_inf g -> kweights_ok g -> 0 <= w -> usual_joints rob -> k_act g = seq 0 (k_nact g) ->
  compiled_feasible thr w iter warm (traj_calls g rob dini dyn kini seqk) x ->
  let P := kplan_of g x in let after := k_after g rob dyn kini seqk x in
  forall t d, (t < k_N g)%nat -> (d < k_nact g)%nat ->
    ks_jnt (after t) d = kp_q P (6 + d) t /\ ks_vel (after t) (6 + d)%nat = kp_tqd P (6 + d) t /\ ks_acc (after t) (6 + d)%nat = kp_tqdd P (6 + d) t /\
    k_min g d <= ks_jnt (after t) d <= k_max g d.
Proof.
  intros g rob dini dyn kini seqk thr w iter warm x HI HW Hw [U1 U2 U3 U4] HA HF P after.
  destruct (C44_problem_is_kinematic_planning g rob dini dyn kini seqk thr w iter warm HI HW Hw) as (S1 & _). specialize (S1 x HF). fold P in S1.
  assert (ND : forall d, (d < k_nact g)%nat -> nth d (k_act g) 0%nat = d) by (intros d Hd; rewrite HA; now rewrite seq_nth).
  assert (AF : forall t, (t < k_N g)%nat -> after t = k_stored g rob dyn kini seqk x t) by (intros t Ht; unfold after, k_after; now apply Nat.ltb_lt in Ht as ->).
  assert (J : forall t d, (t < k_N g)%nat -> (d < k_nact g)%nat -> ks_jnt (k_stored g rob dyn kini seqk x t) d = kp_q P (6 + d) t).
  { intros t d Ht Hd. destruct (S1 t Ht) as [_ _ _ _ _ F _ _ _ _]. rewrite (F (6 + d)%nat) by (unfold k_next; lia).
    assert (E : coords g rob (ks_ori (seqk t)) (rb_update rob (seqk t) (k_step g)) (6 + d) = ks_jnt (seqk t) d).
    { cbn [coords Nat.add]. replace (S (S (S (S (S (S d))))) - 6)%nat with d by lia. rewrite ND by exact Hd. apply U1. }
    rewrite E. destruct t as [|t]; cbn [k_stored]; unfold k_store, set_acc; cbn [ks_jnt]; rewrite U3, U2; unfold set_vel; cbn [ks_jnt ks_vel]; unfold set_head;
      (replace (6 + d <? k_next g)%nat with true by (symmetry; apply Nat.ltb_lt; unfold k_next; lia)); rewrite (x_qd g HI x) by (unfold k_next; lia); reflexivity. }
  intros t d Ht Hd. rewrite (AF t Ht). split; [now apply J|]. split; [|split].
  - destruct (S1 t Ht) as [_ _ _ _ _ _ F _ _ _]. rewrite (F (6 + d)%nat) by (unfold k_next; lia).
    rewrite <- (J t d Ht Hd). destruct t as [|t]; cbn [k_stored before1]; unfold k_store, set_acc; cbn [ks_vel ks_jnt]; rewrite U4, U3.
    + cbn [coords Nat.add]. replace (S (S (S (S (S (S d))))) - 6)%nat with d by lia. now rewrite ND.
    + rewrite <- (J t d) by lia. reflexivity.
  - destruct t as [|t]; cbn [k_stored]; unfold k_store, set_acc; cbn [ks_acc]; unfold set_head; (replace (6 + d <? k_next g)%nat with true by (symmetry; apply Nat.ltb_lt; unfold k_next; lia)); rewrite (x_tqdd g HI x) by (unfold k_next; lia); reflexivity.
  - rewrite J by assumption. destruct (S1 t Ht) as [_ _ _ _ _ _ _ _ _ F]. specialize (F d Hd). cbv zeta in F. now rewrite ND in F.
Qed.
Print Assumptions C58_stored_joints_follow_plan.

(** Whatever the solver returned: the generalised coordinate written is the number of the variable, not the joint it stands for, and joints beyond
    the number of active ones are moved by the velocity that was stored before. *)
Theorem C58_what_moves : forall g rob dyn kini seqk x t j, 0 <= k_inf g -> usual_joints rob -> (t < k_N g)%nat ->
  ks_jnt (k_after g rob dyn kini seqk x t) j = ks_jnt (seqk t) j + k_step g * (if (j <? k_nact g)%nat then kp_qd (kplan_of g x) (6 + j) t else ks_vel (seqk t) (6 + j)%nat).
Proof.
  intros g rob dyn kini seqk x t j HI [U1 U2 U3 U4] Ht. unfold k_after. apply Nat.ltb_lt in Ht as ET. rewrite ET.
  assert (E : (6 + j <? k_next g)%nat = (j <? k_nact g)%nat).
  { unfold k_next. destruct (Nat.ltb_spec j (k_nact g)), (Nat.ltb_spec (6 + j) (k_nact g + 6)); try reflexivity; lia. }
  destruct t as [|t]; cbn [k_stored]; unfold k_store, set_acc; cbn [ks_jnt]; rewrite U3, U2; unfold set_vel; cbn [ks_jnt ks_vel]; unfold set_head; rewrite E;
    (destruct (Nat.ltb_spec j (k_nact g)); [|reflexivity]); rewrite (x_qd g HI x) by (unfold k_next; lia); reflexivity.
Qed.
Print Assumptions C58_what_moves.

(** A failed solve leaves the sequence as it was; so does an iteration limit of zero. *)
Theorem C58_failed_solver_keeps_motion : forall g rob dini dyn kini n seqk,
  optimizeTrajectory g rob dini dyn kini (fun _ => None) n seqk = seqk.
Proof. intros g rob dini dyn kini n. induction n as [|n IH]; intros seqk; cbn [optimizeTrajectory]; [reflexivity|apply IH]. Qed.
(** Motions found by repeated iterations with a correct solver respect the joint limits (all joints active in order). *)
Definition correct_solver (thr w : R) (iter : nat) (warm : bool) (solve : list call -> option (nat -> R)) : Prop :=
  forall calls x, solve calls = Some x -> compiled_feasible thr w iter warm calls x.
Theorem C58_limits_after_optimization : forall g rob dini dyn kini thr w iter warm solve n seqk,
  0 <= k_inf g -> kweights_ok g -> 0 <= w -> usual_joints rob -> k_act g = seq 0 (k_nact g) -> correct_solver thr w iter warm solve ->
  (forall t d, (t < k_N g)%nat -> (d < k_nact g)%nat -> k_min g d <= ks_jnt (seqk t) d <= k_max g d) ->
  forall t d, (t < k_N g)%nat -> (d < k_nact g)%nat -> k_min g d <= ks_jnt (optimizeTrajectory g rob dini dyn kini solve n seqk t) d <= k_max g d.
Proof.
  intros g rob dini dyn kini thr w iter warm solve n. induction n as [|n IH]; intros seqk HI HW Hw HU HA HS H0; cbn [optimizeTrajectory]; [exact H0|].
  apply IH; auto. destruct (solve (traj_calls g rob dini dyn kini seqk)) as [x|] eqn:E; [|exact H0].
  intros t d Ht Hd. now apply (C58_stored_joints_follow_plan g rob dini dyn kini seqk thr w iter warm x HI HW Hw HU HA (HS _ _ E) t d Ht Hd).
Qed.
Print Assumptions C58_limits_after_optimization.

(** ** A concrete robot: two joints whose angles are heights of two end-effectors. *)
Definition toy : robot := Robot (fun s _ => KS (ks_base s) (ks_ori s) (ks_jnt s) (ks_vel s) (ks_acc s) (ks_com s) (ks_lmom s) (ks_amom s) (fun e => V3 0 0 (ks_jnt s e)))
  (fun _ _ _ => 0) (fun _ _ _ => 0) (fun _ _ _ => 0) (fun _ e i d => if (i =? 2)%nat then (if (d =? 6 + e)%nat then 1 else 0) else 0) (fun _ _ _ => 0) (fun _ _ => 0) 0
  (fun s h => KS (ks_base s) (ks_ori s) (fun j => ks_jnt s j + h * ks_vel s (6 + j)%nat) (ks_vel s) (ks_acc s) (ks_com s) (ks_lmom s) (ks_amom s) (ks_eff s))
  (fun a b dt => set_vel (fun d => (ks_jnt b (d - 6)%nat - ks_jnt a (d - 6)%nat) * (1 / dt)) b) (fun _ => v0).
Lemma toy_usual : usual_joints toy.
Proof. constructor; intros; cbn [toy rb_update rb_integrate rb_diff ks_jnt ks_vel set_vel]; try reflexivity. replace (6 + j - 6)%nat with j by lia. reflexivity. Qed.
Definition toy_g (act : list nat) (lo hi : nat -> R) : kset :=
  KSet 1 0 act 1 0 100 (fun j => INR j) lo hi 1 1 1 1 1 v0 v0 v0 v0 v0 v0 v0 (fun _ => 1) (fun _ => 0) (fun _ => 0).
Lemma toy_weights : forall act lo hi, kweights_ok (toy_g act lo hi).
Proof. intros. unfold kweights_ok, nonneg3. cbn. repeat split; intros; lra. Qed.
Definition toy_dyn : nat -> dstate := fun _ => Dyn 1 v0 v0 v0 v0 v0 (fun _ => eff_new).

Definition toy_plan : kplan := let q := fun d t : nat => if (d =? 6)%nat then 1 else 0 in KPlan (fun _ => v0) (fun _ => v0) (fun _ => v0) (fun _ _ => v0) (fun _ _ => v0) q q q q.
Lemma toy_feasible : forall act lo hi, (forall d, (d < List.length act)%nat -> lo (nth d act 0%nat) <= (if (d =? 0)%nat then 1 else 0) <= hi (nth d act 0%nat)) ->
  kin_feasible (toy_g act lo hi) toy toy_dyn ks_new (fun _ => ks_new) toy_plan.
Proof.
  intros act lo hi HL t Ht. cbn in Ht. assert (t = 0)%nat as -> by lia.
  assert (Z : forall i0 w, jac_times (toy_g act lo hi) (fun _ _ => 0) i0 w = v0) by (intros; unfold jac_times; cbv zeta; rewrite !rsum_zero by (intros; ring); reflexivity).
  assert (C : forall d, coords (toy_g act lo hi) toy qone ks_new d = 0) by (intros d; do 6 (destruct d as [|d]; [reflexivity|]); reflexivity).
  constructor; cbn [toy_plan kp_com kp_lmom kp_amom kp_epos kp_evel kp_q kp_qd kp_tqd kp_tqdd before1 toy_g k_neff k_floor k_min k_max k_act k_step d_time toy_dyn].
  - change (rb_jcom toy ks_new) with (fun _ _ : nat => 0). rewrite Z. unfold vadd, vscale, v0. cbn. f_equal; ring.
  - intros e He. lia.
  - intros e He. lia.
  - change (rb_ag toy ks_new) with (fun _ _ : nat => 0). now rewrite Z.
  - change (rb_ag toy ks_new) with (fun _ _ : nat => 0). now rewrite Z.
  - intros d Hd. change (rb_update toy ks_new 1) with (KS v0 qone (fun _ => 0) (fun _ => 0) (fun _ => 0) v0 v0 v0 (fun _ => V3 0 0 0)).
    assert (E : coords (toy_g act lo hi) toy (ks_ori ks_new) (KS v0 qone (fun _ => 0) (fun _ => 0) (fun _ => 0) v0 v0 v0 (fun _ => V3 0 0 0)) d = 0) by (do 6 (destruct d as [|d]; [reflexivity|]); reflexivity).
    setoid_rewrite E. ring.
  - intros d Hd. setoid_rewrite C. field.
  - intros d Hd. field.
  - intros e He. lia.
  - intros d Hd. cbv zeta. specialize (HL d Hd). destruct d as [|d]; exact HL.
Qed.
(** The hypotheses of the theorems above are met: one joint, moved from 0 to 1. *)
Example C44_nonvacuous : exists x, compiled_feasible 0 0 0 false (traj_calls (toy_g [0%nat] (fun _ => -1) (fun _ => 1)) toy (toy_dyn 0) toy_dyn ks_new (fun _ => ks_new)) x /\
  kp_q (kplan_of (toy_g [0%nat] (fun _ => -1) (fun _ => 1)) x) 6 0 = 1.
Proof.
  destruct (C44_problem_is_kinematic_planning (toy_g [0%nat] (fun _ => -1) (fun _ => 1)) toy (toy_dyn 0) toy_dyn ks_new (fun _ => ks_new) 0 0 0 false ltac:(cbn; lra) (toy_weights _ _ _) ltac:(lra)) as (_ & S2).
  destruct (S2 toy_plan) as (x & F & E). { apply toy_feasible. intros [|d] Hd; cbn in *; [lra|lia]. }
  exists x. split; [exact F|]. destruct (E 0%nat ltac:(cbn; lia)) as (_ & _ & _ & _ & X). destruct (X 6%nat ltac:(cbn; lia)) as (-> & _). reflexivity.
Qed.
Example C58_nonvacuous : usual_joints toy /\ k_act (toy_g [0%nat] (fun _ => -1) (fun _ => 1)) = seq 0 (k_nact (toy_g [0%nat] (fun _ => -1) (fun _ => 1))) /\
  (forall t d, (t < k_N (toy_g [0%nat] (fun _ => (-1)%R) (fun _ => 1%R)))%nat -> (d < k_nact (toy_g [0%nat] (fun _ => (-1)%R) (fun _ => 1%R)))%nat -> -1 <= ks_jnt ks_new d <= 1).
Proof. split; [exact toy_usual|]. split; [reflexivity|]. intros. cbn. lra. Qed.

(** "The stored motion respects the limits of the active joints" fails when ActiveDofs is not 0,1,...: the plan moves joint 1 within its limits,
    the stored motion moves joint 0, whose limits are [0,0]. *)
Theorem C58_any_active_dofs_refuted : exists g rob dini dyn kini seqk x,
  0 <= k_inf g /\ kweights_ok g /\ usual_joints rob /\ NoDup (k_act g) /\ compiled_feasible 0 0 0 false (traj_calls g rob dini dyn kini seqk) x /\
  exists t j, (t < k_N g)%nat /\ In j (k_act g) /\ k_min g j <= ks_jnt (seqk t) j <= k_max g j /\ ~ (k_min g j <= ks_jnt (k_after g rob dyn kini seqk x t) j <= k_max g j).
Proof.
  set (lo := fun j : nat => if (j =? 0)%nat then 0 else -1). set (hi := fun j : nat => if (j =? 0)%nat then 0 else 1). set (g := toy_g [1;0]%nat lo hi).
  destruct (C44_problem_is_kinematic_planning g toy (toy_dyn 0) toy_dyn ks_new (fun _ => ks_new) 0 0 0 false ltac:(cbn; lra) (toy_weights _ _ _) ltac:(lra)) as (_ & S2).
  destruct (S2 toy_plan) as (x & F & E). { apply toy_feasible. intros [|[|d]] Hd; cbn in *; [unfold lo, hi; cbn; lra|unfold lo, hi; cbn; lra|lia]. }
  exists g, toy, (toy_dyn 0), toy_dyn, ks_new, (fun _ => ks_new), x. split; [cbn; lra|]. split; [apply toy_weights|]. split; [apply toy_usual|].
  split; [repeat constructor; cbn; intuition lia|]. split; [exact F|]. exists 0%nat, 0%nat. split; [cbn; lia|]. split; [cbn; tauto|]. split; [unfold g, toy_g, lo, hi; cbn; lra|].
  rewrite (C58_what_moves g toy toy_dyn ks_new (fun _ => ks_new) x 0 0 ltac:(cbn; lra) toy_usual ltac:(cbn; lia)).
  destruct (E 0%nat ltac:(cbn; lia)) as (_ & _ & _ & _ & X). destruct (X 6%nat ltac:(cbn; lia)) as (_ & Y & _). cbn [k_nact g toy_g k_act List.length Nat.ltb Nat.leb]. change (6 + 0)%nat with 6%nat. fold g.
  rewrite Y. unfold g, toy_g, lo, hi, toy_plan. cbn. lra.
Qed.
(** Joints that are not active do not stay where they are: they drift with the velocity stored before. *)
Theorem C58_inactive_joints_rest_refuted : exists g rob dini dyn kini seqk x,
  usual_joints rob /\ compiled_feasible 0 0 0 false (traj_calls g rob dini dyn kini seqk) x /\ exists t j, (t < k_N g)%nat /\ ~ In j (k_act g) /\ ks_jnt (k_after g rob dyn kini seqk x t) j <> ks_jnt (seqk t) j.
Proof.
  set (g := toy_g [0]%nat (fun _ => -1) (fun _ => 1)). set (s := set_vel (fun _ => 1) ks_new).
  destruct (C44_problem_is_kinematic_planning g toy (toy_dyn 0) toy_dyn ks_new (fun _ => s) 0 0 0 false ltac:(cbn; lra) (toy_weights _ _ _) ltac:(lra)) as (_ & _).
  destruct (C44_never_infeasible g toy (toy_dyn 0) toy_dyn ks_new (fun _ => s) 0 0 0 false ltac:(cbn; lra) (toy_weights _ _ _) ltac:(lra)) as (x & F).
  { intros t d Ht Hd. cbn. lra. } { intros t e Ht He. cbn in He. lia. }
  exists g, toy, (toy_dyn 0), toy_dyn, ks_new, (fun _ => s), x. split; [apply toy_usual|]. split; [exact F|]. exists 0%nat, 1%nat. split; [cbn; lia|]. split; [cbn; lia|].
  rewrite (C58_what_moves g toy toy_dyn ks_new (fun _ => s) x 0 1 ltac:(cbn; lra) toy_usual ltac:(cbn; lia)). cbn. lra.
Qed.
(** "The posture term vanishes at the default posture" fails when ActiveDofs is not 0,1,...: entry d of the default posture is compared with joint ActiveDofs[d]. *)
Theorem C44_default_posture_refuted : exists g dini dyn P, (forall t d, (d < List.length (k_act g))%nat -> kp_q P (6 + d) t = k_qdef g (nth d (k_act g) 0%nat)) /\
  (forall d, kw_vel g d = 0 /\ kw_acc g d = 0) /\ kw_com g = v0 /\ kw_lmom g = v0 /\ kw_amom g = v0 /\ kw_lmomd g = v0 /\ kw_amomd g = v0 /\ k_neff g = 0%nat /\ 0 < kin_cost g dini dyn P.
Proof.
  exists (toy_g [1;0]%nat (fun _ => -1) (fun _ => 1)), (toy_dyn 0), toy_dyn, toy_plan. split.
  - intros t [|[|d]] Hd; cbn in *; [reflexivity|reflexivity|lia].
  - split; [split; reflexivity|]. repeat (split; [reflexivity|]). unfold kin_cost, wsq3, sqr. cbn. lra.
Qed.
Print Assumptions C58_any_active_dofs_refuted. Print Assumptions C58_inactive_joints_rest_refuted. Print Assumptions C44_default_posture_refuted.

(** ** C59 Posture optimisation *)
Theorem C59_problem_is_posture_optimization : forall g rob s0 des thr w iter warm,
  0 <= k_inf g -> kweights_ok g -> 0 <= k_lambda g -> 0 <= k_slackw g -> 0 <= w ->
  let calls := post_calls g rob s0 des in
  (forall x, compiled_feasible thr w iter warm calls x -> posture_feasible g rob s0 (pplan_of g rob x)) /\
  (forall P, posture_feasible g rob s0 P -> exists x, compiled_feasible thr w iter warm calls x /\ same_pplan g rob (pplan_of g rob x) P).
Proof.
  intros g rob s0 des thr w iter warm HI HW HL HS Hw calls.
  pose proof (p_vars g rob HI) as HV. pose proof (p_terms g rob s0 des HI HW HL HS) as HT. pose proof (p_calls g rob s0 HI) as HC. split.
  - intros x HF. apply (post_iff g rob s0 HI x). exact (lp_sound _ _ _ HV HT HC thr w iter warm x Hw HF).
  - intros P HP. destruct (pplan_exists g rob P) as (x & Hx).
    destruct (lp_complete _ _ _ HV HT HC thr w iter warm x) as (x' & Hx' & F).
    + apply (post_iff g rob s0 HI x). eapply same_pfeasible; [apply same_psym, Hx|exact HP].
    + exists x'. split; [exact F|].
      assert (E : forall k rows r, blk (post_blocks g (rb_ncon rob)) k rows 1 -> (r < rows)%nat -> x' (column_of (post_blocks g (rb_ncon rob)) post_order k r 0) = x (column_of (post_blocks g (rb_ncon rob)) post_order k r 0)).
      { intros k rows r Bk Hr. apply Hx'. rewrite k_vars_len. rewrite <- (k_col_is _ _ (p_perm g rob) (p_free g rob HI) k rows 1 r 0 Bk Hr ltac:(lia)). now apply (k_col_lt _ _ (p_perm g rob) (p_free g rob HI) k rows 1); auto. }
      destruct Hx as (A & B & C). unfold pplan_of in *. cbn [pp_q pp_qd pp_slack pp_qdd pp_tqd] in *. split; [|split].
      * intros d Hd. cbn [pp_q]. rewrite (E 3%nat (k_nact g)) by first [apply c_q|exact Hd]. now apply A.
      * intros d Hd. cbn [pp_slack]. rewrite (E 2%nat (rb_ncon rob)) by first [apply c_slack|exact Hd]. now apply B.
      * intros d Hd. cbn [pp_qd pp_qdd pp_tqd]. rewrite (E 4%nat (k_next g)), (E 5%nat (k_next g)), (E 6%nat (k_next g)) by first [apply c_qd|apply c_qdd|apply c_tqd|exact Hd]. now apply C.
Qed.
Print Assumptions C59_problem_is_posture_optimization.

(** An optimum minimises the posture cost alone, over all feasible postures: the momentum part of the objective is separate (l.402, which would couple
    velocities and posture, is commented out). *)
Theorem C59_optimal_posture : forall g rob s0 des thr w iter warm x,
  0 <= k_inf g -> kweights_ok g -> 0 <= k_lambda g -> 0 <= k_slackw g -> 0 <= w ->
  let calls := post_calls g rob s0 des in
  compiled_feasible thr w iter warm calls x ->
  (forall y, compiled_feasible thr w iter warm calls y -> compiled_objective thr w iter warm calls x <= compiled_objective thr w iter warm calls y) ->
  posture_feasible g rob s0 (pplan_of g rob x) /\
  (forall P, posture_feasible g rob s0 P -> posture_cost g rob s0 des (pplan_of g rob x) <= posture_cost g rob s0 des P) /\
  (forall P, momentum_cost g rob s0 des (pplan_of g rob x) <= momentum_cost g rob s0 des P).
Proof.
  intros g rob s0 des thr w iter warm x HI HW HL HS Hw calls HF HO.
  assert (FX : posture_feasible g rob s0 (pplan_of g rob x)) by (now apply (C59_problem_is_posture_optimization g rob s0 des thr w iter warm HI HW HL HS Hw)).
  assert (T : forall P, posture_feasible g rob s0 P -> posture_cost g rob s0 des (pplan_of g rob x) + momentum_cost g rob s0 des (pplan_of g rob x) <= posture_cost g rob s0 des P + momentum_cost g rob s0 des P).
  { intros P HP. destruct (pplan_exists g rob P) as (y & Hy). rewrite <- (p_cost g rob s0 des HI x).
    destruct Hy as (A & B & C). rewrite <- (posture_cost_ext g rob s0 des _ _ A B (fun d Hd => proj1 (C d Hd))), <- (momentum_cost_ext g rob s0 des _ _ (fun d Hd => proj2 (C d Hd))), <- (p_cost g rob s0 des HI y).
    apply (lp_optimal _ _ _ (p_vars g rob HI) (p_terms g rob s0 des HI HW HL HS) (p_calls g rob s0 HI) thr w iter warm x Hw HF HO y).
    apply (post_iff g rob s0 HI y). eapply same_pfeasible; [apply same_psym; split; [exact A|split; [exact B|exact C]]|exact HP]. }
  split; [exact FX|]. split.
  - intros P [P1 P2 P3 P4]. specialize (T (PPlan (pp_q P) (pp_qd P) (pp_slack P) (pp_qdd (pplan_of g rob x)) (pp_tqd (pplan_of g rob x)))).
    assert (X : posture_cost g rob s0 des (pplan_of g rob x) + momentum_cost g rob s0 des (pplan_of g rob x) <= posture_cost g rob s0 des P + momentum_cost g rob s0 des (pplan_of g rob x)); [|lra].
    apply T. constructor; assumption.
  - intros P. destruct FX as [P1 P2 P3 P4]. specialize (T (PPlan (pp_q (pplan_of g rob x)) (pp_qd (pplan_of g rob x)) (pp_slack (pplan_of g rob x)) (pp_qdd P) (pp_tqd P))).
    assert (X : posture_cost g rob s0 des (pplan_of g rob x) + momentum_cost g rob s0 des (pplan_of g rob x) <= posture_cost g rob s0 des (pplan_of g rob x) + momentum_cost g rob s0 des P); [|lra].
    apply T. constructor; assumption.
Qed.
Print Assumptions C59_optimal_posture.

(** Hence the desired momenta have no influence on which postures are optimal. *)
Lemma C59_momentum_does_not_matter : forall g rob s0 des lmom amom P,
  posture_cost g rob s0 des P = posture_cost g rob s0 (Dyn (d_time des) (d_com des) lmom amom (d_lmomd des) (d_amomd des) (d_eff des)) P.
Proof. reflexivity. Qed.
(** "Different desired momenta lead to different postures" is false for every robot: swap the momenta, an optimum keeps an optimal posture. *)
Theorem C59_momentum_tracking_refuted : forall g rob s0 des des' thr w iter warm x y,
  0 <= k_inf g -> kweights_ok g -> 0 <= k_lambda g -> 0 <= k_slackw g -> 0 <= w ->
  d_com des' = d_com des -> d_eff des' = d_eff des ->
  let opt d z := compiled_feasible thr w iter warm (post_calls g rob s0 d) z /\
    forall v, compiled_feasible thr w iter warm (post_calls g rob s0 d) v -> compiled_objective thr w iter warm (post_calls g rob s0 d) z <= compiled_objective thr w iter warm (post_calls g rob s0 d) v in
  opt des x -> opt des' y -> posture_cost g rob s0 des (pplan_of g rob x) = posture_cost g rob s0 des (pplan_of g rob y).
Proof.
  intros g rob s0 des des' thr w iter warm x y HI HW HL HS Hw E1 E2 opt (F1 & O1) (F2 & O2).
  destruct (C59_optimal_posture g rob s0 des thr w iter warm x HI HW HL HS Hw F1 O1) as (A1 & A2 & _).
  destruct (C59_optimal_posture g rob s0 des' thr w iter warm y HI HW HL HS Hw F2 O2) as (B1 & B2 & _).
  assert (EQ : forall P, posture_cost g rob s0 des' P = posture_cost g rob s0 des P) by (intros P; unfold posture_cost; now rewrite E1, E2).
  specialize (A2 _ B1). specialize (B2 _ A1). rewrite !EQ in B2. lra.
Qed.
Print Assumptions C59_momentum_tracking_refuted.

(** The loop solves at most [k_conv] problems, a posture already at the target is returned (updated) without solving, and the initial state is at
    rest with the desired momenta, whatever the solver does. *)
Theorem C59_initial_state : forall g rob solve s des,
  let r := optimizePosture g rob solve s des true in
  (forall d, ks_vel r d = 0) /\ (forall d, ks_acc r d = 0) /\ ks_lmom r = d_lmom des /\ ks_amom r = d_amom des.
Proof. intros. unfold r, optimizePosture. cbn. auto. Qed.
Theorem C59_at_target_stops : forall g rob solve s des, (0 < k_conv g)%nat -> post_error g rob s des < k_tol g ->
  optimizePosture g rob solve s des false = rb_update rob s (k_step g).
Proof.
  intros g rob solve s des Hn He. unfold optimizePosture. destruct (k_conv g) as [|n]; [lia|]. cbn [post_loop]. destruct (Rlt_dec (post_error g rob s des) (k_tol g)); [reflexivity|contradiction].
Qed.
(** Joint limits of the posture are respected after each successful solve with active joints 0,1,... (here positions and limits are indexed by the
    variable, so this needs the number of active joints only). *)
Theorem C59_posture_limits : forall g rob s0 des start thr w iter warm x,
  0 <= k_inf g -> kweights_ok g -> 0 <= k_lambda g -> 0 <= k_slackw g -> 0 <= w -> usual_joints rob ->
  compiled_feasible thr w iter warm (post_calls g rob s0 des) x ->
  forall d, (d < k_nact g)%nat -> k_min g d <= ks_jnt (post_store g rob s0 des start x) d <= k_max g d.
Proof.
  intros g rob s0 des start thr w iter warm x HI HW HL HS Hw [U1 U2 U3 U4] HF d Hd.
  destruct (C59_problem_is_posture_optimization g rob s0 des thr w iter warm HI HW HL HS Hw) as (S1 & _). destruct (S1 x HF) as [_ _ P3 P4].
  unfold post_store. rewrite U3, U2. unfold set_vel, set_head. cbn [ks_jnt ks_vel]. replace (6 + d <? k_next g)%nat with true by (symmetry; apply Nat.ltb_lt; unfold k_next; lia).
  rewrite (y_qd g rob HI x) by (unfold k_next; lia). unfold cur. rewrite <- P3 by exact Hd. now apply P4.
Qed.
Print Assumptions C59_initial_state. Print Assumptions C59_at_target_stops. Print Assumptions C59_posture_limits.
Example C59_nonvacuous : exists P, posture_feasible (toy_g [0%nat] (fun _ => -1) (fun _ => 1)) toy ks_new P /\ pp_q P 0 = 1.
Proof.
  exists (PPlan (fun d => if (d =? 0)%nat then 1 else 0) (fun d => if (d =? 6)%nat then 1 else 0) (fun _ => 0) (fun _ => 0) (fun _ => 0)). split; [|reflexivity].
  constructor; intros c Hc; cbn in Hc; try lia; (assert (c = 0)%nat as -> by lia); cbn; lra.
Qed.

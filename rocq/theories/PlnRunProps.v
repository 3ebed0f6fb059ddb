(** * C83: the alternation of dynamics and kinematics. *)
From Coq Require Import ZArith Reals List Bool Lia Lra.
From Verif Require Import Base Vec3 ItpModel PlnModel PlnSpec.
Import ListNotations.

Section Run.
Variables (dplan kplan feedback kopt : Type).
Variable solve : wsetting -> vec3 -> kplan -> dplan -> res dplan.
Variable kin_optimize : kopt -> dplan -> res kopt.
Variable kin_sequence : kopt -> kplan.
Variable fb_optimize : dplan -> res feedback.
Variable durations : dplan -> list R.
Notation motion := (optimize_motion dplan kplan feedback kopt solve kin_optimize kin_sequence fb_optimize durations).
Notation alternate := (alternating dplan kplan kopt solve kin_optimize kin_sequence).

Lemma loop_iff n : forall i p p', kd_loop dplan kplan feedback kopt solve kin_optimize kin_sequence n i p = Ok p' <->
  exists ds ks, ds 0%nat = p_dyn p /\ ks 0%nat = p_kin p /\
    (forall j, (j < n)%nat -> kin_optimize (ks j) (ds j) = Ok (ks (S j)) /\ solve (tracking_weights (p_set p)) (w_track_com (p_set p)) (kin_sequence (ks (S j))) (ds j) = Ok (ds (S j))) /\
    p' = PL (match n with O => p_set p | _ => tracking_weights (p_set p) end) (ds n) (ks n) (p_fb p).
Proof.
  induction n as [|n IH]; intros i p p'; cbn [kd_loop].
  - split.
    + intros H. injection H as <-. exists (fun _ => p_dyn p), (fun _ => p_kin p). repeat split; try lia. now destruct p.
    + intros (ds & ks & E1 & E2 & _ & ->). rewrite E1, E2. now destruct p.
  - unfold optimize_kinematics. split.
    + destruct (kin_optimize (p_kin p) (p_dyn p)) as [k1| |] eqn:EK; try discriminate. cbn [bind]. unfold optimize_dynamics. rewrite Nat.add_1_r. cbn [Nat.ltb Nat.leb updateTrackingObjective p_set p_dyn p_kin p_fb].
      destruct (solve _ _ (kin_sequence k1) (p_dyn p)) as [d1| |] eqn:ED; try discriminate. cbn [bind]. intros H. apply IH in H as (ds & ks & E1 & E2 & St & ->). cbn [p_set p_dyn p_kin p_fb] in *.
      exists (fun j => match j with O => p_dyn p | S j => ds j end), (fun j => match j with O => p_kin p | S j => ks j end). repeat split.
      * destruct j as [|j]; [now rewrite E2|]. apply St. lia.
      * destruct j as [|j]; [now rewrite E1, E2|]. apply St. lia.
      * now destruct n.
    + intros (ds & ks & E1 & E2 & St & ->). destruct (St 0%nat ltac:(lia)) as [K0 D0]. rewrite E1, E2 in *. rewrite K0. cbn [bind]. unfold optimize_dynamics. rewrite Nat.add_1_r. cbn [Nat.ltb Nat.leb updateTrackingObjective p_set p_dyn p_kin p_fb].
      change (WS _ _ _ _ _) with (tracking_weights (p_set p)). rewrite D0. cbn [bind]. apply IH. exists (fun j => ds (S j)), (fun j => ks (S j)). cbn [p_set p_dyn p_kin p_fb]. repeat split.
      * apply (St (S j)). lia.
      * apply (St (S j)). lia.
      * now destruct n.
Qed.

(** ** C83: a call of optimize_motion returns exactly when there is an alternating run, with as many turns as configured (none for a negative number), whose
    last plans it returns; the feedback is computed from the returned dynamic plan if asked for, and left as it was otherwise. *)
Theorem C83_alternation iterations with_lqr p p' kp dp fb tv : motion iterations with_lqr p = Ok (p', (kp, dp, fb, tv)) <->
  exists ds ks, let n := Z.to_nat iterations in
    alternate (p_set p) (p_dyn p) (p_kin p) n ds ks /\ kp = kin_sequence (ks n) /\ dp = ds n /\ tv = create_time_vector (durations dp) /\
    (if with_lqr then exists f, fb_optimize dp = Ok f /\ fb = Some f else fb = p_fb p) /\
    p' = PL (if (0 <? iterations)%Z then tracking_weights (p_set p) else p_set p) dp (ks n) fb.
Proof.
  assert (NZ : (if (0 <? iterations)%Z then tracking_weights (p_set p) else p_set p) = match Z.to_nat iterations with O => p_set p | _ => tracking_weights (p_set p) end).
  { destruct (Z.ltb_spec 0 iterations); [destruct (Z.to_nat iterations) eqn:E; [lia|reflexivity]|]. now replace (Z.to_nat iterations) with 0%nat by lia. }
  rewrite NZ. clear NZ. unfold optimize_motion, optimize_dynamics at 1. cbn [Nat.ltb Nat.leb].
  split.
  - destruct (solve (p_set p) v0 (kin_sequence (p_kin p)) (p_dyn p)) as [d0| |] eqn:ED; try discriminate. cbn [bind].
    destruct (kd_loop _ _ _ _ _ _ _ (Z.to_nat iterations) 0 _) as [p2| |] eqn:EL; try discriminate. cbn [bind]. apply loop_iff in EL as (ds & ks & E1 & E2 & St & ->). cbn [p_set p_dyn p_kin p_fb] in *.
    intros H. exists ds, ks. cbv zeta. assert (A : alternate (p_set p) (p_dyn p) (p_kin p) (Z.to_nat iterations) ds ks) by (repeat split; [exact E2|now rewrite E1| |]; intros; now apply St).
    destruct with_lqr.
    + unfold optimize_dynamics_feedback in H. cbn [p_set p_dyn p_kin p_fb] in H. destruct (fb_optimize (ds (Z.to_nat iterations))) as [f| |] eqn:EF; try discriminate. cbn [bind p_fb] in H. injection H as <- <- <- <- <-. repeat split; auto; try apply A; auto. exists f. now split.
    + cbn [bind p_fb] in H. injection H as <- <- <- <- <-. repeat split; auto; try apply A; auto.
  - intros (ds & ks & (A0 & A1 & St) & -> & -> & -> & F & ->). rewrite A1. cbn [bind].
    assert (L := proj2 (loop_iff (Z.to_nat iterations) 0 (PL (p_set p) (ds 0%nat) (p_kin p) (p_fb p)) (PL (match Z.to_nat iterations with O => p_set p | _ => tracking_weights (p_set p) end) (ds (Z.to_nat iterations)) (ks (Z.to_nat iterations)) (p_fb p)))).
    rewrite L; [|exists ds, ks; repeat split; [exact A0| |]; intros; now apply St]. clear L.
    cbn [bind p_set p_dyn p_kin p_fb]. destruct with_lqr.
    + destruct F as (f & EF & ->). unfold optimize_dynamics_feedback. cbn [p_set p_dyn p_kin p_fb]. rewrite EF. reflexivity.
    + subst fb. reflexivity.
Qed.

(** With at least one turn, the returned dynamic plan was optimised against the returned kinematic plan with the weights of tracking; whatever every
    dynamics optimisation guarantees about its result and the kinematic plan it is given, holds of the two returned plans. *)
Theorem C83_consistent iterations with_lqr p p' kp dp fb tv (G : wsetting -> vec3 -> kplan -> dplan -> Prop) :
  (forall s w k d d', solve s w k d = Ok d' -> G s w k d') -> motion iterations with_lqr p = Ok (p', (kp, dp, fb, tv)) ->
  if (0 <? iterations)%Z then G (tracking_weights (p_set p)) (w_track_com (p_set p)) kp dp else G (p_set p) v0 (kin_sequence (p_kin p)) dp.
Proof.
  intros HG H. apply C83_alternation in H as (ds & ks & (A0 & A1 & St) & -> & -> & _). destruct (Z.ltb_spec 0 iterations).
  - destruct (Z.to_nat iterations) as [|n] eqn:E; [lia|]. destruct (St n ltac:(lia)) as [_ D]. now apply HG in D.
  - replace (Z.to_nat iterations) with 0%nat by lia. now apply HG in A1.
Qed.

(** Without turns the kinematic plan is the one from before the call: it was never optimised. *)
Theorem C83_no_turns iterations with_lqr p p' kp dp fb tv : (iterations <= 0)%Z -> motion iterations with_lqr p = Ok (p', (kp, dp, fb, tv)) ->
  kp = kin_sequence (p_kin p) /\ p_kin p' = p_kin p /\ p_set p' = p_set p.
Proof.
  intros HI H. apply C83_alternation in H as (ds & ks & (A0 & A1 & St) & -> & -> & _ & _ & ->). replace (Z.to_nat iterations) with 0%nat by lia. rewrite A0.
  destruct (Z.ltb_spec 0 iterations); [lia|]. now repeat split.
Qed.

(** The shared setting after the call: with at least one turn the regulation weights of the momenta are lost, and a second call starts its first, supposedly
    untracked, optimisation with the weights of tracking. *)
Theorem C83_second_run iterations with_lqr p p' kp dp fb tv p2 kp2 dp2 fb2 tv2 : (0 < iterations)%Z -> motion iterations with_lqr p = Ok (p', (kp, dp, fb, tv)) ->
  motion iterations with_lqr p' = Ok (p2, (kp2, dp2, fb2, tv2)) ->
  w_lmom (p_set p') = w_track_lmom (p_set p) /\ w_amom (p_set p') = w_track_amom (p_set p) /\
  exists ds ks, alternate (tracking_weights (p_set p)) dp (p_kin p') (Z.to_nat iterations) ds ks /\ kp2 = kin_sequence (ks (Z.to_nat iterations)) /\ dp2 = ds (Z.to_nat iterations).
Proof.
  intros HI H H2. apply C83_alternation in H as (ds & ks & _ & _ & _ & _ & _ & ->). destruct (Z.ltb_spec 0 iterations); [|lia]. cbn [p_set w_lmom w_amom tracking_weights]. split; [reflexivity|]. split; [reflexivity|].
  apply C83_alternation in H2 as (ds2 & ks2 & A & -> & -> & _). exists ds2, ks2. split; [exact A|]. now split.
Qed.
End Run.
Print Assumptions C83_alternation.
Print Assumptions C83_consistent.
Print Assumptions C83_second_run.

(** The expected statement, that a second call with the same configuration starts from the configured weights again, is false. *)
Definition logging (s : wsetting) (w : vec3) (k : unit) (d : list (vec3 * vec3)) : res (list (vec3 * vec3)) := Ok ((w_lmom s, w) :: d).
Definition demo_setting : wsetting := WS (V3 1 1 1) (V3 1 1 1) (V3 2 2 2) (V3 3 3 3) (V3 3 3 3).
Theorem C83_second_run_weights_refuted : ~ (forall (dplan kplan feedback kopt : Type) solve kin_optimize kin_sequence fb_optimize durations iterations with_lqr p p' r,
  optimize_motion dplan kplan feedback kopt solve kin_optimize kin_sequence fb_optimize durations iterations with_lqr p = Ok (p', r) -> p_set p' = p_set p).
Proof.
  intros H. specialize (H (list (vec3 * vec3)) unit unit unit logging (fun k _ => Ok k) (fun k => k) (fun _ => Ok tt) (fun _ => []) 1%Z false (PL demo_setting [] tt None) _ _ eq_refl).
  cbn [p_set] in H. apply (f_equal w_lmom) in H. cbn in H. injection H. intros. lra.
Qed.
Print Assumptions C83_second_run_weights_refuted.

(** Instance: two turns; the log of the weights: regulation and no tracking of the centre of mass first, then tracking twice. *)
Example C83_ex : exists p' r, optimize_motion (list (vec3 * vec3)) unit unit unit logging (fun k _ => Ok k) (fun k => k) (fun _ => Ok tt) (fun _ => [1%R; 2%R]) 2 true (PL demo_setting [] tt None) = Ok (p', r) /\
  p_dyn p' = [(V3 3 3 3, V3 2 2 2); (V3 3 3 3, V3 2 2 2); (V3 1 1 1, v0)] /\ p_fb p' = Some tt.
Proof. do 2 eexists. split; [reflexivity|]. split; reflexivity. Qed.

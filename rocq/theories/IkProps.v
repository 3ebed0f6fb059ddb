(** * C57: one step of the inverse kinematics *)
From Coq Require Import Reals List Arith Bool Lia Lra Psatz.
Import ListNotations.
From Verif Require Import Base BaseProofs Vec3 PyqpModel PyqpSpec PyqpProps IkModel IkSpec IkProofs.
Local Open Scope R_scope.

(** The joint velocity returned minimises the weighted squared errors of momentum, end-effector velocities and joint posture plus the regularisation; in a flight phase among the
    velocities that produce exactly the given momentum.  Any robot, weights, gains, references and any history of the object. *)
Theorem C57_minimises : forall sq rb st s a x s', quadprog_sound sq -> (6 <= r_nv rb)%nat -> reach sq rb s -> compute sq rb st s a = Ok (x, s') ->
  pl x = r_nv rb /\ minimises (admissible rb a) (task_cost rb st a) (pe x).
Proof.
  intros sq rb st s a x s' Hs Hn Hr H. pose proof (compute_pure sq rb s st a (reach_inv sq rb s Hr)) as P. rewrite H in P. destruct P as (P & _). clear H.
  unfold ik_solution in P. destruct (_ || _)%bool; [discriminate|]. destruct (match a_joint a with Some r => _ | None => _ end) as [u| |]; cbn [bind] in P; try discriminate.
  destruct (Nat.eqb_spec (List.length (weight_list rb st a)) (nrows rb)) as [E|]; [|discriminate]. rewrite weights_length in E. unfold nrows in E. assert (El : List.length (a_contact a) = r_ne rb) by lia.
  set (w := fun k => nth k (weight_list rb st a) 0) in *.
  assert (Q : forall y, qobj (r_nv rb) (pa (hessian rb (J_of rb (a_q a)) w)) (pe (gradient rb (J_of rb (a_q a)) w (vel_of rb st a))) y = / 2 * task_cost rb st a y - / 2 * rsum (nrows rb) (fun k => w k * vel_of rb st a k ^ 2)).
  { intros y. cbn [pa pe hessian gradient]. rewrite least_squares. rewrite <- (cost_rows rb st a y El). reflexivity. }
  destruct (a_flight a) eqn:F.
  - apply C41_solution in P; [|exact Hs|apply hessian_sym|].
    + destruct P as (L & M1 & M2). cbn [pr hessian] in L, M1, M2. split; [exact L|]. split; [now apply flight_feasible|]. intros y Hy. apply (flight_feasible rb a y F) in Hy. specialize (M2 y Hy). rewrite !Q in M2. lra.
    + split; [reflexivity|]. split; [reflexivity|]. split; [discriminate|]. intros A0 EA. injection EA as <-. split; [reflexivity|]. eexists. split; reflexivity.
  - apply C41_solution in P; [|exact Hs|apply hessian_sym|].
    + destruct P as (L & M1 & M2). cbn [pr hessian] in L, M1, M2. split; [exact L|]. split; [intros X; congruence|]. intros y _. specialize (M2 y ltac:(split; discriminate)). rewrite !Q in M2. lra.
    + split; [reflexivity|]. split; [reflexivity|]. split; discriminate.
Qed.
Print Assumptions C57_minimises.
(** Hence in flight the momentum of the result is exactly the reference. *)
Theorem C57_flight_momentum : forall sq rb st s a x s', quadprog_sound sq -> (6 <= r_nv rb)%nat -> reach sq rb s -> compute sq rb st s a = Ok (x, s') -> a_flight a = true ->
  forall i, (i < 3)%nat -> momentum_of rb (a_q a) (pe x) i = vget3 (a_lmom a) i /\ momentum_of rb (a_q a) (pe x) (3 + i) = vget3 (a_amom a) i.
Proof. intros sq rb st s a x s' Hs Hn Hr H F. exact (proj1 (proj2 (C57_minimises sq rb st s a x s' Hs Hn Hr H)) F). Qed.
Print Assumptions C57_flight_momentum.
(** The result depends only on the arguments and the settings: whatever was computed before, and although the kinematics are not updated when the configuration is unchanged. *)
Theorem C57_history : forall sq rb st s1 s2 a x s1', reach sq rb s1 -> reach sq rb s2 -> compute sq rb st s1 a = Ok (x, s1') -> exists s2', compute sq rb st s2 a = Ok (x, s2').
Proof.
  intros sq rb st s1 s2 a x s1' H1 H2 H. pose proof (compute_pure sq rb s1 st a (reach_inv sq rb s1 H1)) as P1. pose proof (compute_pure sq rb s2 st a (reach_inv sq rb s2 H2)) as P2. rewrite H in P1. destruct P1 as (P1 & _).
  destruct (compute sq rb st s2 a) as [[y s2']| |]; [|congruence|congruence]. destruct P2 as (P2 & _). rewrite P1 in P2. injection P2 as ->. now exists s2'.
Qed.
Print Assumptions C57_history.
(** It succeeds for non-negative weights whenever the references have the right shapes and, in flight, some velocity produces the momentum. *)
Theorem C57_succeeds : forall sq rb st s a, quadprog_complete sq -> (6 <= r_nv rb)%nat -> reach sq rb s -> arg_shapes rb a ->
  0 <= w_lin st -> 0 <= w_ang st -> 0 <= w_contact st -> 0 <= w_track st -> 0 <= w_joint st -> (exists y, admissible rb a y) -> exists x s', compute sq rb st s a = Ok (x, s').
Proof.
  intros sq rb st s a Hc Hn Hr (S1 & S2 & S3 & S4) W1 W2 W3 W4 W5 (y & Hy).
  assert (X : exists x, ik_solution sq rb st a = Ok x).
  { unfold ik_solution. rewrite (proj2 (Nat.ltb_ge _ _) S1), (proj2 (Nat.ltb_ge _ _) S2). cbn [orb].
    replace (match a_joint a with Some r => if (pl r =? r_nv rb - 6)%nat then Ok tt else Throw | None => Ok tt end) with (Ok tt : res unit) by (destruct (a_joint a) as [r|]; [rewrite (S4 r eq_refl), Nat.eqb_refl|]; reflexivity). cbn [bind].
    replace (List.length (weight_list rb st a) =? nrows rb)%nat with true by (symmetry; apply Nat.eqb_eq; rewrite weights_length, S3; unfold nrows; lia).
    set (w := fun k => nth k (weight_list rb st a) 0).
    assert (Hw : forall k, (k < nrows rb)%nat -> 0 <= w k).
    { intros k Hk. unfold w. assert (Hin : In (nth k (weight_list rb st a) 0) (weight_list rb st a)) by (apply nth_In; rewrite weights_length, S3; unfold nrows in Hk; lia). revert Hin. generalize (nth k (weight_list rb st a) 0). intros r Hin.
      unfold weight_list in Hin. rewrite !in_app_iff in Hin. destruct Hin as [Hin|[Hin|[Hin|Hin]]]; [apply repeat_spec in Hin; lra|apply repeat_spec in Hin; lra| |apply repeat_spec in Hin; lra].
      apply in_flat_map in Hin. destruct Hin as (c & _ & Hin). apply repeat_spec in Hin. destruct (Req_EM_T c 1); lra. }
    pose proof (hessian_pd rb (J_of rb (a_q a)) w Hw) as Pd. pose proof (hessian_sym rb (J_of rb (a_q a)) w) as Sy.
    destruct (a_flight a) eqn:F.
    - apply C41_succeeds; [exact Hc|exact Sy|exact Pd| |exists y; now apply flight_feasible]. split; [reflexivity|]. split; [reflexivity|]. split; [discriminate|]. intros A0 EA. injection EA as <-. split; [reflexivity|]. eexists. split; reflexivity.
    - apply C41_succeeds; [exact Hc|exact Sy|exact Pd| |exists y; split; discriminate]. split; [reflexivity|]. split; [reflexivity|]. split; discriminate. }
  destruct X as (x & X). pose proof (compute_pure sq rb s st a (reach_inv sq rb s Hr)) as P. rewrite X in P. destruct (compute sq rb st s a) as [[z s']| |]; [|discriminate|discriminate]. now exists z, s'.
Qed.
Print Assumptions C57_succeeds.
(** References of other shapes are rejected. *)
Theorem C57_rejects : forall sq rb st s a x s', (6 <= r_nv rb)%nat -> reach sq rb s -> compute sq rb st s a = Ok (x, s') -> arg_shapes rb a.
Proof.
  intros sq rb st s a x s' Hn Hr H. pose proof (compute_pure sq rb s st a (reach_inv sq rb s Hr)) as P. rewrite H in P. destruct P as (P & _). unfold ik_solution in P.
  destruct (Nat.ltb_spec (List.length (a_pos a)) (r_ne rb)) as [|L1]; [discriminate|]. destruct (Nat.ltb_spec (List.length (a_vel a)) (r_ne rb)) as [|L2]; [discriminate|]. cbn [orb] in P.
  destruct (match a_joint a with Some r => _ | None => _ end) as [u| |] eqn:EJ; cbn [bind] in P; try discriminate.
  destruct (Nat.eqb_spec (List.length (weight_list rb st a)) (nrows rb)) as [E|]; [|discriminate]. rewrite weights_length in E. unfold nrows in E.
  split; [exact L1|]. split; [exact L2|]. split; [lia|]. intros r Er. rewrite Er in EJ. destruct (Nat.eqb_spec (pl r) (r_nv rb - 6)); [assumption|discriminate].
Qed.
Print Assumptions C57_rejects.

(** ** Example: one end-effector moving with the base, momentum equal to the velocity; the conditions are met, in stance and in flight. *)
Definition demo_rb : robot := Rob 1 7 (fun _ i j => if (i =? j)%nat then 1 else 0) (fun _ _ i j => if (i =? j)%nat then 1 else 0) (fun _ => v0) (fun _ _ => v0).
Definition demo_arg (fl : bool) : ikarg := IkA [0; 0] [0; 0] v0 (V3 1 2 3) v0 [v0] [v0] [1] (Some (PV 1 (fun _ => 5))) fl.
Example C57_demo : forall fl sq, (6 <= r_nv demo_rb)%nat /\ arg_shapes demo_rb (demo_arg fl) /\ (exists y, admissible demo_rb (demo_arg fl) y) /\ reach sq demo_rb (forward_robot ik_new [0; 0] [1; 1]).
Proof.
  intros fl sq. split; [cbn; lia|]. split; [|split].
  - split; [cbn; lia|]. split; [cbn; lia|]. split; [reflexivity|]. intros r E. injection E as <-. reflexivity.
  - exists (fun i => match i with 0%nat => 1 | 1%nat => 2 | 2%nat => 3 | _ => 0 end). intros _ i Hi. unfold momentum_of, dotv. cbn. destruct i as [|[|[|]]]; cbn; [split; lra..|lia].
  - apply reach_forward, reach_new.
Qed.

(** * C85: the Pinocchio implementation of the kinematics interface *)
From Coq Require Import Reals String List Arith ZArith Bool Lia Lra.
Import ListNotations.
From Verif Require Import Base BaseProofs Vec3 RbsModel RbsProps KinModel KinSpec PkiModel.
Local Open Scope R_scope.

(** ** Specification *)
(** The members of the C++ class the optimizer reads after an update of a robot in configuration q with velocity dq. *)
Record updated (P : pin) (q dq : list R) (f : iface) : Prop := {
  up_jcom : if_jcom f = pin_jcom P q;
  up_cmm : if_cmm f = pin_ag P q;
  up_dcmm : if_dcmm f = pin_dag P q dq;
  up_neff : List.length (if_jeff f) = 4%nat }.
(** Rotations: orthonormal columns. *)
Definition orthonormal (r : nat -> nat -> R) : Prop := forall i j, (i < 3)%nat -> (j < 3)%nat ->
  r 0%nat i * r 0%nat j + r 1%nat i * r 1%nat j + r 2%nat i * r 2%nat j = if Nat.eqb i j then 1 else 0.
(** Height of a frame after a step dt with velocity qd, to first order: height now plus dt times the vertical row of the world Jacobian times qd. *)
Definition height_after (P : pin) (q : list R) (fr : string) (dt : R) (n : nat) (qd : nat -> R) : R :=
  vz (pin_pos P q fr) + dt * rsum n (fun d => pin_jw P q fr 2 d * qd d).
(** The row the interface writes down: matrix row times velocity at most vector entry. *)
Definition row_holds (P : pin) (z : R) (q : list R) (dt : R) (n : nat) (qd : nat -> R) (c : nat) : Prop :=
  rsum n (fun d => m_at (con_mat P q dt) c d * qd d) <= nth c (con_vec P z q) 0.

(** ** The four methods that read the positions raise TypeError, for every robot and every state: generalized_joint_positions is a read-only
    property whose value, an array, is then called. *)
Theorem C85_methods_raise_refuted : forall (P : pin) z dt s s1 f, List.length (po_jnt (rs_post s)) = po_n (rs_post s) ->
  update_state P z dt s f = PRaise TypeError /\ display_posture s = PRaise TypeError /\ integrate_posture P dt s = PRaise TypeError /\
  differentiate_postures P s s1 dt = PRaise TypeError.
Proof.
  intros P z dt s s1 f H. assert (E : read_positions s = PRaise TypeError).
  { unfold read_positions, posture_getattr. rewrite String.eqb_refl, gen_pos_eq by exact H. reflexivity. }
  unfold update_state, display_posture, integrate_posture, differentiate_postures. rewrite E. auto.
Qed.
Print Assumptions C85_methods_raise_refuted.
(** No state at all makes them return. *)
Theorem C85_methods_never_return : forall (P : pin) z dt s s1 f, exists e1 e2 e3 e4,
  update_state P z dt s f = PRaise e1 /\ display_posture s = PRaise e2 /\ integrate_posture P dt s = PRaise e3 /\ differentiate_postures P s s1 dt = PRaise e4.
Proof.
  intros P z dt s s1 f. assert (E : exists e, read_positions s = PRaise e).
  { unfold read_positions, posture_getattr. rewrite String.eqb_refl. destruct (gen_pos (rs_post s)); cbn; eauto. }
  destruct E as [e E]. exists e, e, e, e. unfold update_state, display_posture, integrate_posture, differentiate_postures. rewrite E. auto.
Qed.
Print Assumptions C85_methods_never_return.

(** ** With the parentheses removed (the bodies of the methods): what an update writes *)
Lemma set_effs_ok : forall P q f, List.length (if_jeff f) = 4%nat -> exists f', set_effs P q f = PVal f' /\
  if_jeff f' = map (fun e => PMat 3 (jlocal P q (eff_frame e))) [0; 1; 2; 3]%nat /\ if_cvec f' = if_cvec f /\ if_cmat f' = if_cmat f /\ if_jcom f' = if_jcom f /\
  if_cmm f' = if_cmm f /\ if_dcmm f' = if_dcmm f /\ if_dict f' = if_dict f.
Proof.
  intros P q [cv cm jc cmm dc je di] H. cbn [if_jeff] in H. do 4 (destruct je as [|? je]; [discriminate|]). destruct je; [|discriminate].
  eexists. split; [reflexivity|]. cbn. repeat split.
Qed.
Lemma update_body_ok : forall P z q dt s f, List.length (if_jeff f) = 4%nat -> exists f' s', update_body P z q dt s f = PVal (f', s') /\
  s' = upd_state P q (ra_gen (rs_vel s)) (ra_gen (rs_acc s)) s /\ updated P q (ra_gen (rs_vel s)) f' /\
  if_jeff f' = map (fun e => PMat 3 (jlocal P q (eff_frame e))) [0; 1; 2; 3]%nat /\ if_cvec f' = if_cvec f /\ if_cmat f' = if_cmat f /\
  if_dict f' = ("constraintsVector"%string, VArr (con_vec P z q)) :: ("constraintsMatrix"%string, VMat (con_mat P q dt)) :: if_dict f.
Proof.
  intros P z q dt s f H. unfold update_body.
  destruct (set_effs_ok P q (IFace (if_cvec f) (if_cmat f) (pin_jcom P q) (pin_ag P q) (pin_dag P q (ra_gen (rs_vel s))) (if_jeff f) (if_dict f)) H) as [f' [E K]].
  unfold iface_setattr at 1 2 3. cbn [String.eqb Ascii.eqb Bool.eqb pbind if_cvec if_cmat if_jcom if_cmm if_dcmm if_jeff if_dict].
  rewrite E. cbn [pbind]. destruct K as [K1 [K2 [K3 [K4 [K5 [K6 K7]]]]]]. cbn in K2, K3, K4, K5, K6, K7.
  unfold iface_setattr. cbn [String.eqb Ascii.eqb Bool.eqb pbind]. eexists. eexists. split; [reflexivity|]. split; [reflexivity|].
  cbn [if_cvec if_cmat if_jcom if_cmm if_dcmm if_jeff if_dict]. rewrite K2, K3, K7. split; [|repeat split; auto].
  constructor; cbn [if_cvec if_cmat if_jcom if_cmm if_dcmm if_jeff if_dict]; auto. now rewrite K1.
Qed.

(** Centre of mass, momenta, their matrices and the four end-effectors (BR, BL, FR, FL) are written to the state and to the C++ members. *)
Theorem C85_update_writes : forall P z q dt s f, List.length (if_jeff f) = 4%nat -> List.length (rs_effpos s) = 4%nat ->
  exists f' s', update_body P z q dt s f = PVal (f', s') /\ updated P q (ra_gen (rs_vel s)) f' /\
  rs_com s' = pin_com P q /\ rs_lmom s' = fst (pin_hg P q (ra_gen (rs_vel s)) (ra_gen (rs_acc s))) /\ rs_amom s' = snd (pin_hg P q (ra_gen (rs_vel s)) (ra_gen (rs_acc s))) /\
  rs_post s' = rs_post s /\ rs_vel s' = rs_vel s /\ rs_acc s' = rs_acc s /\
  rs_effpos s' = [pin_pos P q "BR_END"; pin_pos P q "BL_END"; pin_pos P q "FR_END"; pin_pos P q "FL_END"] /\
  (forall e fr, nth_error ["BR_END"; "BL_END"; "FR_END"; "FL_END"]%string e = Some fr -> exists m, nth_error (if_jeff f') e = Some m /\ m_rows m = 3%nat /\
     forall i d, m_at m i d = pin_rot P q fr 0 i * pin_jw P q fr 0 d + pin_rot P q fr 1 i * pin_jw P q fr 1 d + pin_rot P q fr 2 i * pin_jw P q fr 2 d).
Proof.
  intros P z q dt s f Hf Hs. destruct (update_body_ok P z q dt s f Hf) as [f' [s' [E [-> [U [J _]]]]]]. exists f'. eexists. split; [exact E|]. split; [exact U|].
  destruct s as [po ve ac n co lm am eo ep ev ea]. cbn [rs_effpos] in Hs. do 4 (destruct ep as [|? ep]; [discriminate|]). destruct ep; [|discriminate].
  do 7 (split; [reflexivity|]). intros e fr He. rewrite J.
  do 4 (destruct e as [|e]; [cbn in He; injection He as <-; eexists; split; [reflexivity|]; split; [reflexivity|]; intros; reflexivity|]). destruct e; discriminate.
Qed.
Print Assumptions C85_update_writes.

(** But the floor constraints never reach the C++ object: they are stored under attribute names (constraintsVector, constraintsMatrix) that are not
    the names of the properties (constraints_vector, constraints_matrix).  Whatever configurations, steps and states are updated, and however often,
    the vector and the matrix the optimizer reads stay empty. *)
Theorem C85_floor_is_never_handed_over_refuted : forall P z h, exists f, updates P z h (internal_init iface_new) = PVal f /\
  if_cvec f = [] /\ m_rows (if_cmat f) = 0%nat /\
  forall q dt s, exists f' s', update_body P z q dt s f = PVal (f', s') /\ hd_error (if_dict f') = Some ("constraintsVector"%string, VArr (con_vec P z q)) /\ con_vec P z q <> [] /\ if_cvec f' = [].
Proof.
  intros P z h. assert (G : forall h f, List.length (if_jeff f) = 4%nat -> exists f', updates P z h f = PVal f' /\ if_cvec f' = if_cvec f /\ if_cmat f' = if_cmat f /\ List.length (if_jeff f') = 4%nat).
  { intros h0. induction h0 as [|[[q dt] s] h0 IH]; intros f Hf; [exists f; auto|].
    destruct (update_body_ok P z q dt s f Hf) as [f' [s' [E [_ [_ [J [C1 [C2 _]]]]]]]]. cbn [updates]. rewrite E.
    destruct (IH f') as [f'' [E2 [D1 [D2 D3]]]]; [now rewrite J|]. exists f''. rewrite D1, D2. auto. }
  destruct (G h (internal_init iface_new) eq_refl) as [f [E [C1 [C2 C3]]]]. exists f. split; [exact E|]. rewrite C2. split; [exact C1|]. split; [reflexivity|].
  intros q dt s. destruct (update_body_ok P z q dt s f C3) as [f' [s' [E' [_ [_ [_ [D1 [_ D3]]]]]]]]. exists f', s'. split; [exact E'|].
  rewrite D3. split; [reflexivity|]. split; [discriminate|]. rewrite D1. exact C1.
Qed.
Print Assumptions C85_floor_is_never_handed_over_refuted.

(** So in the posture problem of the optimizer (C44, C59) the base may move with any velocity whatever: a plan that is acceptable stays acceptable
    when the base falls through the floor. *)
Theorem C85_base_may_fall_refuted : forall P z h f g rob s0 Pl w, updates P z h (internal_init iface_new) = PVal f ->
  rb_ncon rob = List.length (if_cvec f) -> posture_feasible g rob s0 Pl ->
  posture_feasible g rob s0 (PPlan (pp_q Pl) (fun d => if (d <? 6)%nat then w d else pp_qd Pl d) (pp_slack Pl) (pp_qdd Pl) (pp_tqd Pl)).
Proof.
  intros P z h f g rob s0 Pl w E N [F1 F2 F3 F4]. destruct (C85_floor_is_never_handed_over_refuted P z h) as [f' [E' [C _]]].
  rewrite E in E'. injection E' as <-. rewrite C in N. cbn in N.
  constructor; cbn [pp_q pp_qd pp_slack]; try (intros; lia); auto.
Qed.
Print Assumptions C85_base_may_fall_refuted.

(** ** Were they handed over, they would linearise the wrong height: row 2 of a LOCAL Jacobian is the motion along the axis z of the frame. *)
(** The rows are right, whatever the robot's Jacobian, exactly for frames whose z axis is vertical. *)
Theorem C85_rows_need_vertical_frames : forall P z q dt c n, (c < 12)%nat -> let fr := con_frame c in
  pin_rot P q fr 0 2 = 0 -> pin_rot P q fr 1 2 = 0 -> pin_rot P q fr 2 2 = 1 ->
  forall qd, row_holds P z q dt n qd c <-> z <= height_after P q fr dt n qd.
Proof.
  intros P z q dt c n Hc fr R0 R1 R2 qd. unfold row_holds, height_after, con_mat, con_vec. cbn [m_at].
  rewrite (nth_indep _ 0 (con_h P q 0 - z)) by (rewrite map_length, seq_length; exact Hc). rewrite (map_nth (fun c => con_h P q c - z)), seq_nth by exact Hc. cbn [Nat.add].
  unfold con_h, con_G, jlocal. fold fr. rewrite R0, R1, R2.
  rewrite (rsum_ext n _ (fun d => (- dt) * (pin_jw P q fr 2 d * qd d))) by (intros; ring). rewrite rsum_scal. lra.
Qed.
Print Assumptions C85_rows_need_vertical_frames.
(** For any other rotation there are Jacobians for which the row accepts a velocity that takes the frame below the floor. *)
Theorem C85_rows_accept_penetration_refuted : forall (r : nat -> nat -> R) z h0 dt, orthonormal r -> r 2%nat 2%nat <> 1 -> 0 < dt -> z <= h0 ->
  forall q, exists P qd, (forall fr i j, pin_rot P q fr i j = r i j) /\ (forall fr, vz (pin_pos P q fr) = h0) /\
    forall c, (c < 12)%nat -> row_holds P z q dt 3 qd c /\ height_after P q (con_frame c) dt 3 qd < z.
Proof.
  intros r z h0 dt O N Hdt Hz q.
  pose (P := Pin (fun _ => v0) (fun _ _ _ => (v0, v0)) (fun _ => no_mat) (fun _ _ => no_mat) (fun _ => no_mat) (fun _ _ => V3 0 0 h0) (fun _ _ => r) (fun _ _ i d => if Nat.eqb i d then 1 else 0) (fun q _ => q) (fun q _ => q)).
  pose proof (O 2%nat 2%nat ltac:(lia) ltac:(lia)) as U. cbn [Nat.eqb] in U.
  assert (L : r 2%nat 2%nat < 1) by nra.
  (* velocity -e_z + r_z: along the frame axis it is 1 - r22 >= 0, along the world vertical r22 - 1 < 0 *)
  pose (k := (h0 - z + 1) / (dt * (1 - r 2%nat 2%nat))).
  pose (qd := fun d => match d with O => k * r 0%nat 2%nat | 1%nat => k * r 1%nat 2%nat | _ => k * (r 2%nat 2%nat - 1) end).
  assert (K : k * (dt * (1 - r 2%nat 2%nat)) = h0 - z + 1) by (unfold k; field; split; lra).
  assert (Kp : 0 < k) by (unfold k; apply Rmult_lt_0_compat; [lra|apply Rinv_0_lt_compat; apply Rmult_lt_0_compat; lra]).
  exists P, qd. split; [reflexivity|]. split; [reflexivity|]. intros c Hc. split.
  - unfold row_holds, con_mat, con_vec. cbn [m_at].
    rewrite (nth_indep _ 0 (con_h P q 0 - z)) by (rewrite map_length, seq_length; exact Hc). rewrite (map_nth (fun c => con_h P q c - z)), seq_nth by exact Hc. cbn [Nat.add].
    unfold con_h, con_G, jlocal. cbn. nra.
  - unfold height_after. cbn. nra.
Qed.
Print Assumptions C85_rows_accept_penetration_refuted.

(** ** integratePosture and differentiatePostures (bodies): the configuration returned by Pinocchio is stored entry by entry, and read back as it was. *)
Theorem C85_integrate_stores : forall P q dt s, let q' := pin_integrate P q (map (fun v => v * dt) (ra_gen (rs_vel s))) in
  List.length q' = (po_n (rs_post s) + 7)%nat ->
  gen_pos (rs_post (integrate_body P q dt s)) = Ok q' /\ rs_vel (integrate_body P q dt s) = rs_vel s /\ rs_com (integrate_body P q dt s) = rs_com s.
Proof.
  intros P q dt s q' H. split; [|split; reflexivity].
  assert (J : exists a0 a1 a2 a3 a4 a5 a6 l, q' = a0 :: a1 :: a2 :: a3 :: a4 :: a5 :: a6 :: l /\ List.length l = po_n (rs_post s)).
  { destruct q' as [|a0 [|a1 [|a2 [|a3 [|a4 [|a5 [|a6 l]]]]]]]; try (cbn in H; lia). exists a0, a1, a2, a3, a4, a5, a6, l. split; [reflexivity|]. cbn in H. lia. }
  destruct J as [a0 [a1 [a2 [a3 [a4 [a5 [a6 [l [E L]]]]]]]]]. unfold integrate_body. fold q'. rewrite E. rewrite gen_pos_eq by (exact L). reflexivity.
Qed.
Print Assumptions C85_integrate_stores.
Theorem C85_differentiate_stores : forall P q0 q1 dt s1,
  ra_gen (rs_vel (differentiate_body P q0 q1 dt s1)) = map (fun v => v / dt) (pin_difference P q0 q1) /\ rs_post (differentiate_body P q0 q1 dt s1) = rs_post s1 /\
  (* with exact inverses of Pinocchio, integrating the stored velocity over dt from q0 gives q1 *)
  (dt <> 0 -> (forall a b, pin_integrate P a (pin_difference P a b) = b) -> pin_integrate P q0 (map (fun v => v * dt) (ra_gen (rs_vel (differentiate_body P q0 q1 dt s1)))) = q1).
Proof.
  intros P q0 q1 dt s1. split; [reflexivity|]. split; [reflexivity|]. intros Hdt HI. cbn [differentiate_body rs_vel up_vel ra_gen set_gen]. rewrite map_map.
  rewrite (map_ext _ (fun v => v)) by (intros; field; exact Hdt). rewrite map_id. apply HI.
Qed.
Print Assumptions C85_differentiate_stores.

(** ** Non-vacuity *)
Example ex_pin : pin := Pin (fun _ => V3 0 0 1) (fun _ _ _ => (v0, v0)) (fun _ => zero_mat 6) (fun _ _ => zero_mat 6) (fun _ => zero_mat 3)
  (fun _ _ => V3 0 0 1) (fun _ _ i j => if Nat.eqb i j then (match i with 0%nat => 1 | _ => -1 end) else 0) (fun _ _ i d => if Nat.eqb i d then 1 else 0) (fun q _ => q) (fun _ _ => []).
Example C85_nonvacuous_update : exists f' s', update_body ex_pin 0 [] (1/10) (rstate_new 8) (internal_init iface_new) = PVal (f', s') /\ rs_com s' = V3 0 0 1 /\ if_cvec f' = [].
Proof.
  destruct (update_body_ok ex_pin 0 [] (1/10) (rstate_new 8) (internal_init iface_new) eq_refl) as [f' [s' [E [-> [_ [_ [C _]]]]]]].
  exists f'. eexists. split; [exact E|]. split; [reflexivity|]. rewrite C. reflexivity.
Qed.
(** The hypotheses of the refutation of the rows: half a turn about x. *)
Example C85_nonvacuous_rotation : orthonormal (fun i j => if Nat.eqb i j then (match i with 0%nat => 1 | _ => -1 end) else 0).
Proof. intros [|[|[|i]]] [|[|[|j]]] Hi Hj; try lia; cbn; lra. Qed.

(** * C88: the robot wrapper *)
From Coq Require Import Reals String List Arith ZArith Bool Lia Lra.
Import ListNotations.
From Verif Require Import Base Vec3 SimModel RbwModel.
Local Open Scope R_scope.

(** ** Initial configurations *)
Lemma slice_length : forall a b c x v, length (slice_set a b c x v) = length v.
Proof. intros. unfold slice_set. rewrite map_length, combine_length, seq_length. lia. Qed.
Lemma nth_map_seq : forall (f : nat * R -> R) v s i, (i < length v)%nat -> nth i (map f (combine (seq s (length v)) v)) 0 = f ((s + i)%nat, nth i v 0).
Proof.
  intros f v. induction v as [|x v IH]; intros s i H; [cbn in H; lia|]. cbn [length seq combine map]. destruct i as [|i]; cbn [nth]; [now rewrite Nat.add_0_r|].
  rewrite IH by (cbn in H; lia). do 2 f_equal. lia.
Qed.
Lemma slice_nth : forall a b c x v i, (i < length v)%nat ->
  nth i (slice_set a b c x v) 0 = if (a <=? i)%nat && (i <? b)%nat && Nat.eqb ((i - a) mod c) 0 then x else nth i v 0.
Proof. intros. unfold slice_set. rewrite nth_map_seq by assumption. reflexivity. Qed.

(** Two joints per leg: every leg starts bent the same way, hip at minus half the knee angle. *)
Theorem C88_two_joints_per_leg : forall legs angle leg, (leg < legs)%nat ->
  length (init_two (2 * legs) angle) = (2 * legs)%nat /\ nth (2 * leg) (init_two (2 * legs) angle) 0 = - angle / 2 /\ nth (2 * leg + 1) (init_two (2 * legs) angle) 0 = angle.
Proof.
  intros legs angle leg H. unfold init_two. rewrite !slice_length, repeat_length. split; [reflexivity|]. rewrite !slice_nth by (rewrite ?slice_length, ?repeat_length; lia).
  rewrite !Nat.sub_0_r, !Nat.mod_1_r. cbn [Nat.leb Nat.eqb andb].
  assert ((2 * leg) mod 2 = 0)%nat as -> by (rewrite Nat.mul_comm; apply Nat.mod_mul; lia).
  assert ((2 * leg + 1) mod 2 = 1)%nat as -> by (rewrite Nat.add_comm, Nat.mul_comm, Nat.mod_add by lia; reflexivity).
  assert ((2 * leg <? 2 * legs)%nat = true) as -> by (apply Nat.ltb_lt; lia). assert ((2 * leg + 1 <? 2 * legs)%nat = true) as -> by (apply Nat.ltb_lt; lia).
  cbn [Nat.eqb andb]. split; [field|reflexivity].
Qed.
(** Three joints per leg: the second slice covers one leg only. The first leg gets minus half the angle at hip and knee, the others only the knee angle. *)
Theorem C88_three_joints_per_leg : forall legs angle leg, (leg < legs)%nat -> length (init_three (3 * legs) angle) = (3 * legs)%nat /\
  nth (3 * leg) (init_three (3 * legs) angle) 0 = 0 /\
  nth (3 * leg + 1) (init_three (3 * legs) angle) 0 = (if Nat.eqb leg 0 then - angle / 2 else 0) /\
  nth (3 * leg + 2) (init_three (3 * legs) angle) 0 = (if Nat.eqb leg 0 then - angle / 2 else angle).
Proof.
  intros legs angle leg H. unfold init_three. rewrite !slice_length, repeat_length. split; [reflexivity|]. rewrite !slice_nth by (rewrite ?slice_length, ?repeat_length; lia).
  rewrite !Nat.mod_1_r, !nth_repeat.
  assert (E0 : forall b, ((2 <=? 3 * leg)%nat && b && Nat.eqb ((3 * leg - 2) mod 3) 0)%bool = false).
  { intros b. destruct leg as [|k]; [reflexivity|]. replace (3 * S k - 2)%nat with (1 + k * 3)%nat by lia. rewrite Nat.mod_add by lia. cbn. apply andb_false_r. }
  assert (E1 : forall b, ((2 <=? 3 * leg + 1)%nat && b && Nat.eqb ((3 * leg + 1 - 2) mod 3) 0)%bool = false).
  { intros b. destruct leg as [|k]; [reflexivity|]. replace (3 * S k + 1 - 2)%nat with (2 + k * 3)%nat by lia. rewrite Nat.mod_add by lia. cbn. apply andb_false_r. }
  assert (E2 : Nat.eqb ((3 * leg + 2 - 2) mod 3) 0 = true).
  { replace (3 * leg + 2 - 2)%nat with (0 + leg * 3)%nat by lia. rewrite Nat.mod_add by lia. reflexivity. }
  rewrite E0, E1, E2.
  assert ((2 <=? 3 * leg + 2)%nat = true) as -> by (apply Nat.leb_le; lia). assert ((3 * leg + 2 <? 3 * legs)%nat = true) as -> by (apply Nat.ltb_lt; lia).
  assert ((1 <=? 3 * leg + 1)%nat = true) as -> by (apply Nat.leb_le; lia). assert ((1 <=? 3 * leg + 2)%nat = true) as -> by (apply Nat.leb_le; lia).
  destruct leg as [|k]; cbn [Nat.eqb].
  - cbn. repeat split; try field; lra.
  - assert ((3 * S k <? 3)%nat = false) as -> by (apply Nat.ltb_ge; lia). assert ((3 * S k + 1 <? 3)%nat = false) as -> by (apply Nat.ltb_ge; lia).
    assert ((3 * S k + 2 <? 3)%nat = false) as -> by (apply Nat.ltb_ge; lia). rewrite !andb_false_r. cbn [andb]. repeat split; reflexivity.
Qed.
(** Refuted: the legs of the robots with three joints per leg (four legs, two legs) are bent like those of the other robot. *)
Theorem C88_legs_alike_refuted : forall legs angle, angle <> 0 -> (2 <= legs)%nat ->
  nth 2 (init_three (3 * legs) angle) 0 <> nth 5 (init_three (3 * legs) angle) 0 /\ forall leg, (leg < legs)%nat ->
  ~ (nth (3 * leg + 1) (init_three (3 * legs) angle) 0 = - angle / 2 /\ nth (3 * leg + 2) (init_three (3 * legs) angle) 0 = angle).
Proof.
  intros legs angle A L. split.
  - destruct (C88_three_joints_per_leg legs angle 0 ltac:(lia)) as [_ [_ [_ E0]]]. destruct (C88_three_joints_per_leg legs angle 1 ltac:(lia)) as [_ [_ [_ E1]]].
    cbn [Nat.mul Nat.add Nat.eqb] in E0, E1. replace (legs + (legs + (legs + 0)))%nat with (3 * legs)%nat in E0, E1 by lia. rewrite E0, E1. lra.
  - intros leg Hl [K1 K2]. destruct (C88_three_joints_per_leg legs angle leg Hl) as [_ [_ [E1 E2]]]. rewrite E1 in K1. rewrite E2 in K2. destruct (Nat.eqb leg 0); lra.
Qed.
Example C88_four_legs : init_three 12 2 = [0; - (1 / 2) * 2; - (1 / 2) * 2; 0; 0; 2; 0; 0; 2; 0; 0; 2].
Proof. reflexivity. Qed.

(** ** Histories of calls *)
Section Wrapper.
  Context {Q DQ : Type}.
  Variable P : pin Q DQ.

  (** The configuration after a history, and the one at its last evaluation of a frame Jacobian, read off the list of calls. *)
  Fixpoint config (l : list (@call Q DQ)) (q : Q) : Q :=
    match l with [] => q | CSet q' :: r => config r q' | CUpdate d :: r => config r (pi_integrate P q d) | CJac _ _ :: r => config r q end.
  Definition of_frame (f : jfun) : Prop := f <> JComInternal.
  Definition last_frame_jac (l : list (@call Q DQ)) (q : Q) (o : option Q) : Prop :=
    (forall f a, In (CJac f a) l -> ~ of_frame f) /\ o = None \/
    exists pre f a post, l = pre ++ CJac f a :: post /\ of_frame f /\ (forall g b, In (CJac g b) post -> ~ of_frame g) /\ o = Some (config pre q).

  Local Lemma run_q : forall l w, w_q (run P l w) = config l (w_q w).
  Proof.
    intros l. induction l as [|c l IH]; intros w; [reflexivity|]. change (run P (c :: l) w) with (run P l (step P c w)). rewrite IH. destruct c as [q|d|f a]; try reflexivity.
    destruct f; reflexivity.
  Qed.
  Local Lemma run_snoc : forall l c w, run P (l ++ [c]) w = step P c (run P l w).
  Proof. intros. unfold run. now rewrite fold_left_app. Qed.

  (** Stored frame placements belong to the configuration of the last evaluated frame Jacobian. *)
  Theorem C88_placements_of : forall l q, w_q (run P l (Wrap q None)) = config l q /\ last_frame_jac l q (w_frames (run P l (Wrap q None))).
  Proof.
    intros l q. split; [apply run_q|]. induction l as [|c l IH] using rev_ind; [left; split; [intros f a []|reflexivity]|]. rewrite run_snoc.
    assert (SAME : (match c with CJac f _ => ~ of_frame f | _ => True end) -> w_frames (step P c (run P l (Wrap q None))) = w_frames (run P l (Wrap q None)) -> last_frame_jac (l ++ [c]) q (w_frames (step P c (run P l (Wrap q None))))).
    { intros HC ->. destruct IH as [[A B]|[pre [f [a [post [E [F [G H]]]]]]]].
      - left. split; [|exact B]. intros f a Hin. apply in_app_or in Hin. destruct Hin as [Hin|[->|[]]]; [eapply A; eassumption|exact HC].
      - right. exists pre, f, a, (post ++ [c]). split; [rewrite E, <- app_assoc; reflexivity|]. split; [exact F|]. split; [|exact H].
        intros g b Hin. apply in_app_or in Hin. destruct Hin as [Hin|[->|[]]]; [eapply G; eassumption|exact HC]. }
    assert (NEW : forall f a, c = CJac f a -> of_frame f -> w_frames (step P c (run P l (Wrap q None))) = Some (w_q (run P l (Wrap q None))) -> last_frame_jac (l ++ [c]) q (w_frames (step P c (run P l (Wrap q None))))).
    { intros f a -> F ->. right. exists l, f, a, []. split; [reflexivity|]. split; [exact F|]. split; [intros g b []|]. now rewrite run_q. }
    destruct c as [q'|d|f a]; [apply SAME; [exact I|reflexivity]|apply SAME; [exact I|reflexivity]|]. destruct f as [|nm r|nm r].
    - apply SAME; [|reflexivity]. intros K. now apply K.
    - apply (NEW (JFrameInternal nm r) a); [reflexivity|discriminate|reflexivity].
    - apply (NEW (JFrameAt nm r) a); [reflexivity|discriminate|reflexivity].
  Qed.

  (** Jacobians are those of the current configuration in world axes: R (R^T J) = J. The centre of mass and its Jacobian are current too. *)
  Theorem C88_jacobians_current : forall l q n r world arg f, f = JFrameInternal n r \/ f = JFrameAt n r ->
    (forall q v, mul3 (pi_rot P q n) (mulT3 (pi_rot P q n) v) = v) ->
    (forall q, pi_local P q n = map (fun c => (mulT3 (pi_rot P q n) (fst c), mulT3 (pi_rot P q n) (snd c))) (world q)) ->
    fst (call_jacobian P f arg (run P l (Wrap q None))) = match r with Lin => JLin (map fst (world (config l q))) | Ang => JLin (map snd (world (config l q))) | All => JAll (world (config l q)) end /\
    fst (call_jacobian P JComInternal arg (run P l (Wrap q None))) = JLin (pi_jcom P (config l q)) /\
    call_transformation P TCom (run P l (Wrap q None)) = PVec (pi_com P (config l q)).
  Proof.
    intros l q n r world arg f Hf HR HL. split; [|split].
    - assert (E : fst (world_jacobian P n (run P l (Wrap q None))) = world (config l q)).
      { unfold world_jacobian. cbn [fst]. rewrite run_q. cbn [w_q]. rewrite HL, map_map. cbn [fst snd]. rewrite <- (map_id (world (config l q))) at 2.
        apply map_ext. intros [a b]. cbn [fst snd]. now rewrite !HR. }
      destruct Hf as [-> | ->]; unfold call_jacobian; destruct (world_jacobian P n (run P l (Wrap q None))) as [x y]; cbn [fst] in *; rewrite E; destruct r; reflexivity.
    - cbn [call_jacobian fst]. now rewrite run_q.
    - cbn [call_transformation]. now rewrite run_q.
  Qed.
  (** Refuted: get_jacobian(internal=False) returns a function of the configuration. *)
  Theorem C88_argument_ignored_refuted : forall f a b w, call_jacobian P f a w = call_jacobian P f b w.
  Proof. intros f a b w. destruct f; reflexivity. Qed.
  (** Refuted: get_transformation is that of the current configuration, once it has been set anew. *)
  Theorem C88_stale_placement_refuted : forall q0 q n dofs, n <> "COM"%string -> forall t, get_transformation P n dofs = Ok t ->
    call_transformation P t (run P [CSet q] (Wrap q0 None)) = match the_part dofs with Lin => PVec v0 | Ang => PRot id_rot | All => PBoth id_rot v0 end /\
    forall f a, of_frame f -> call_transformation P t (run P [CJac f a; CSet q] (Wrap q0 None)) =
      match the_part dofs with Lin => PVec (pi_pos P q0 n) | Ang => PRot (pi_rot P q0 n) | All => PBoth (pi_rot P q0 n) (pi_pos P q0 n) end.
  Proof.
    intros q0 q n dofs N t H. unfold get_transformation in H. destruct (negb (known P n)); [discriminate|]. destruct (String.eqb_spec n "COM"); [contradiction|]. injection H as <-.
    split; [reflexivity|]. intros f a F. destruct f as [|m r|m r]; [now destruct F| |]; reflexivity.
  Qed.
  (** Which requests are refused. *)
  Theorem C88_refusals : forall n dofs,
    (get_jacobian P n dofs true = Throw <-> (pi_exists P n = false /\ n <> "COM"%string) \/ n = "universe"%string \/ n = "root_joint"%string \/ (n = "COM"%string /\ dofs = Some "ROTATION"%string)) /\
    (get_jacobian P "COM"%string dofs false = Throw) /\
    (n <> "COM"%string -> (get_jacobian P n dofs false = Throw <-> get_jacobian P n dofs true = Throw)).
  Proof.
    intros n dofs. split; [|split].
    - unfold get_jacobian, known, is_rotation. destruct (pi_exists P n) eqn:E; destruct (String.eqb_spec n "COM"); destruct (String.eqb_spec n "universe"); destruct (String.eqb_spec n "root_joint"); cbn; subst; try discriminate;
      try (split; [intros _; tauto|reflexivity]); try (split; [discriminate|intros [[? ?]|[?|[?|[? ?]]]]; congruence]);
      try (rewrite andb_false_r; split; [discriminate|intros [[? ?]|[?|[?|[? ?]]]]; congruence]);
      (destruct dofs as [d|]; [destruct (String.eqb_spec d "ROTATION"); cbn; [subst; split; [intros _; tauto|reflexivity]|split; [discriminate|intros [[? ?]|[?|[?|[? ?]]]]; congruence]]|cbn; split; [discriminate|intros [[? ?]|[?|[?|[? ?]]]]; congruence]]).
    - unfold get_jacobian. destruct (negb (known P "COM")); [reflexivity|]. rewrite String.eqb_refl. destruct (is_rotation dofs); reflexivity.
    - intros N. unfold get_jacobian. destruct (String.eqb_spec n "COM"); [contradiction|]. rewrite andb_false_r. destruct (negb (known P n)); [tauto|]. split; discriminate.
  Qed.
  (** Refuted: the rotation of the centre of mass is refused (get_transformation returns its position). *)
  Theorem C88_com_rotation_refuted : pi_exists P "COM"%string = false -> get_transformation P "COM"%string (Some "ROTATION"%string) = Ok TCom.
  Proof. intros H. unfold get_transformation, known. now rewrite H. Qed.
End Wrapper.

(** ** Desired velocity *)
Theorem C88_reaches_goal : forall goal here dt, dt <> 0 -> vadd here (vscale dt (desired_velocity goal here dt)) = goal.
Proof. intros [a b c] [x y z] dt H. unfold vadd, vscale, desired_velocity. cbn [vx vy vz]. f_equal; field; exact H. Qed.

(** A robot with one frame that moves with its single joint along x. *)
Definition slider : pin R R :=
  Pin (fun n => String.eqb n "foot") (fun _ _ => [(V3 1 0 0, v0)]) (fun _ _ => id_rot) (fun q _ => V3 q 0 0) (fun q => V3 (q / 2) 0 0) (fun _ => [V3 (1 / 2) 0 0]) Rplus.
Example C88_slider : get_jacobian slider "foot" (Some "TRANSLATION"%string) true = Ok (JFrameInternal "foot" Lin) /\
  (forall q v, mul3 (pi_rot slider q "foot") (mulT3 (pi_rot slider q "foot") v) = v) /\
  call_transformation slider (TFrame "foot" (Some "TRANSLATION"%string)) (run slider [CJac (JFrameInternal "foot" Lin) 0; CSet 3; CUpdate 1] (Wrap 1 None)) = PVec (V3 1 0 0) /\
  call_transformation slider TCom (run slider [CJac (JFrameInternal "foot" Lin) 0; CSet 3; CUpdate 1] (Wrap 1 None)) = PVec (V3 ((3 + 1) / 2) 0 0).
Proof.
  split; [reflexivity|]. split; [|split; reflexivity]. intros q [a b c]. cbn [slider pi_rot]. unfold id_rot, mul3, mulT3, vdot. cbn [vx vy vz]. f_equal; ring.
Qed.

Print Assumptions C88_two_joints_per_leg. Print Assumptions C88_three_joints_per_leg. Print Assumptions C88_legs_alike_refuted. Print Assumptions C88_placements_of.
Print Assumptions C88_jacobians_current. Print Assumptions C88_argument_ignored_refuted. Print Assumptions C88_stale_placement_refuted. Print Assumptions C88_refusals.
Print Assumptions C88_com_rotation_refuted. Print Assumptions C88_reaches_goal.

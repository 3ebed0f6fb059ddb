(** * Theorems: the kinematics over the whole motion (C61), regularisation trajectories (C62) *)
From Coq Require Import Reals List Arith Bool Lia Lra.
Import ListNotations.
From Verif Require Import Base BaseProofs Vec3 CntProofs TrajSpec TrajProofs Hermite PolyModel PolySpec PolyProofs PolyProps PyqpModel PyqpSpec PyqpProps IkModel IkSpec IkProofs IkProps MkoModel MkoSpec MkoProofs MkoProofs2.
Local Open Scope R_scope.

(** The recorded motion starts at the initial configuration; every velocity is the optimum of the inverse kinematics for the references of its step, every configuration follows from it. *)
Theorem C61_motion : forall sq rb integ olog g joint_des base_des st s0 q0 dq0 m, quadprog_sound sq -> (6 <= r_nv rb)%nat -> reach sq rb s0 ->
  optimize_motion sq rb integ olog g joint_des base_des st s0 q0 dq0 = Ok m ->
  exists Q DQ, motion rb integ olog st g joint_des base_des (fun i => dotv (r_nv rb) (k_J s0 i) (entries dq0)) q0 dq0 (mk_N g) Q DQ /\
    length (m_out m) = mk_N g /\ forall it r, nth_error (m_out m) it = Some r -> records rb r (Q it) (DQ it).
Proof.
  intros sq rb integ olog g jd bd st s0 q0 dq0 m Hs Hnv R H. pose proof (inv_all sq rb integ olog g jd bd st s0 q0 dq0 Hs Hnv R (mk_N g) m (le_n _) H) as I.
  exists (Qm m), (DQm m). split; [exact (i_mot _ _ _ _ _ _ _ _ _ _ _ _ _ I)|]. split; [exact (i_len _ _ _ _ _ _ _ _ _ _ _ _ _ I)|]. intros it r Hr. exact (proj1 (i_out _ _ _ _ _ _ _ _ _ _ _ _ _ I it r Hr)).
Qed.
Print Assumptions C61_motion.
(** In a flight the velocities keep the horizontal and the angular momentum of the last contact, and the vertical one decreases by weight * dt in every step. *)
Theorem C61_ballistic : forall rb integ olog st g joint_des base_des M0 q0 dq0 n Q DQ s k, motion rb integ olog st g joint_des base_des M0 q0 dq0 n Q DQ ->
  flight_from rb g s k -> (0 < s)%nat -> (s + k < n)%nat -> (0 < k)%nat ->
  let before := momentum_of rb (Q (s - 1)%nat) (entries (DQ s)) in let now := momentum_of rb (Q (s + k)%nat) (entries (DQ (S (s + k)))) in
  now 0%nat = before 0%nat /\ now 1%nat = before 1%nat /\ now 2%nat = vz (mk_lmom g s) - INR k * (mk_weight g * mk_dt g) /\ now 3%nat = before 3%nat /\ now 4%nat = before 4%nat /\ now 5%nat = before 5%nat.
Proof.
  intros rb integ olog st g jd bd M0 q0 dq0 n Q DQ s k MO F Hs0 L Hk. destruct (mo_step _ _ _ _ _ _ _ _ _ _ _ _ _ MO s k L F) as (_ & [AD _] & _). cbv zeta in *. unfold admissible, query in AD. cbv zeta in AD. cbn [a_flight a_q a_lmom a_amom] in AD.
  destruct s as [|p]; [lia|]. destruct k as [|k']; [lia|]. specialize (AD eq_refl). unfold lin_ref, ang_ref in AD. replace (S p - 1)%nat with p by lia.
  destruct (AD 0%nat ltac:(lia)) as [A0 A3]. destruct (AD 1%nat ltac:(lia)) as [A1 A4]. destruct (AD 2%nat ltac:(lia)) as [A2 A5]. cbn [vget3 vx vy vz Nat.add] in *. repeat split; assumption.
Qed.
Print Assumptions C61_ballistic.

(** It succeeds. *)
Definition motion_inputs (rb : robot) (g : mkin) (joint_des base_des : list (list R)) : Prop :=
  (mk_N g <= length joint_des)%nat /\ (mk_N g <= length base_des)%nat /\ forall it, (it < mk_N g)%nat ->
  length (nth it joint_des []) = (r_nv rb - 6)%nat /\ (r_ne rb <= length (mk_pos g it))%nat /\ (r_ne rb <= length (mk_vel g it))%nat /\ length (mk_contact g it) = r_ne rb.
Theorem C61_succeeds : forall sq rb integ olog g joint_des base_des st s0 q0 dq0, quadprog_sound sq -> quadprog_complete sq -> (6 <= r_nv rb)%nat -> reach sq rb s0 ->
  0 <= w_lin st -> 0 <= w_ang st -> 0 <= w_contact st -> 0 <= w_track st -> 0 <= w_joint st -> motion_inputs rb g joint_des base_des ->
  length q0 = (r_nv rb + 1)%nat -> (forall q d, length (integ q d) = length q) -> ~ in_flight rb g 0 -> (forall q h, exists x, forall i, (i < 6)%nat -> momentum_of rb q x i = h i) ->
  exists m, optimize_motion sq rb integ olog g joint_des base_des st s0 q0 dq0 = Ok m.
Proof.
  intros sq rb integ olog g jd bd st s0 q0 dq0 Hs Hc Hnv R W1 W2 W3 W4 W5 (LJ & LB & SH) Lq Hi NF AT.
  assert (NE : (0 < r_ne rb)%nat). { destruct (r_ne rb) eqn:E; [|lia]. exfalso. apply NF. intros e He. lia. }
  assert (X : forall n, (n <= mk_N g)%nat -> exists m, foldM (mko_step sq rb integ olog g jd bd st) (seq 0 n) (mko_start g s0 q0 dq0) = Ok m /\ length (m_q m) = (r_nv rb + 1)%nat).
  { induction n; intros Hn; [eexists; split; [reflexivity|exact Lq]|]. destruct (IHn ltac:(lia)) as (m & E & Lm). rewrite seq_S, foldM_append, E. cbn [bind Nat.add foldM].
    pose proof (inv_all sq rb integ olog g jd bd st s0 q0 dq0 Hs Hnv R n m ltac:(lia) E) as I. destruct (SH n ltac:(lia)) as (S1 & S2 & S3 & S4).
    unfold mko_step. cbv zeta. unfold flight_of. rewrite (proj2 (Nat.eqb_neq (r_ne rb) 0)) by lia. set (fl := forallb _ _).
    assert (FL : fl = true <-> in_flight rb g n) by (apply flight_dec; exact NE).
    assert (MR : exists lm v am, momentum_ref olog g bd m n fl (m_q m) = Ok (lm, v, am) /\ (v < length lm)%nat).
    { pose proof (i_llen _ _ _ _ _ _ _ _ _ _ _ _ _ I) as LL. unfold momentum_ref. destruct fl.
      - destruct n as [|p]; [exfalso; apply NF; now apply FL|]. destruct (i_view _ _ _ _ _ _ _ _ _ _ _ _ _ I ltac:(lia)) as (s & f & Ls & _ & -> & -> & _). rewrite (pyget_nth _ s v0) by lia. cbn [bind]. do 3 eexists. split; [reflexivity|]. rewrite set_nth_length. lia.
      - rewrite (pyget_nth _ n []) by lia. cbn [bind]. do 3 eexists. split; [reflexivity|]. lia. }
    destruct MR as (lm & v & am & -> & Hv). cbn [bind]. rewrite (pyget_nth _ n []) by lia. cbn [bind]. unfold joint_ref_of. rewrite skipn_length, Lm, S1. replace (r_nv rb + 1 - 7 =? r_nv rb - 6)%nat with true by (symmetry; apply Nat.eqb_eq; lia). cbn [bind].
    rewrite (pyget_nth _ v v0) by exact Hv. cbn [bind]. set (s1 := forward_robot _ _ _). set (a := IkA _ _ _ _ _ _ _ _ _ _).
    assert (R1 : reach sq rb s1) by (apply reach_forward; exact (i_reach _ _ _ _ _ _ _ _ _ _ _ _ _ I)).
    destruct (C57_succeeds sq rb (no_init st) s1 a Hc Hnv R1) as (x & s' & ->); try assumption.
    - split; [exact S2|]. split; [exact S3|]. split; [exact S4|]. intros r Er. injection Er as <-. cbn [pl]. lia.
    - destruct (AT (m_q m) (fun i => if (i <? 3)%nat then vget3 (nth v lm v0) i else vget3 am (i - 3))) as (y & Hy). exists y. intros _ i Hi3. unfold a. cbn [a_q a_lmom a_amom].
      rewrite !Hy by lia. rewrite (proj2 (Nat.ltb_lt i 3) Hi3), (proj2 (Nat.ltb_ge (3 + i) 3)) by lia. replace (3 + i - 3)%nat with i by lia. auto.
    - cbn [bind]. eexists. split; [reflexivity|]. cbn [m_q]. now rewrite Hi. }
  destruct (X (mk_N g) (le_n _)) as (m & E & _). exists m. exact E.
Qed.
Print Assumptions C61_succeeds.
(** A motion that starts in the air, or a robot without end-effectors, raises an exception: the momentum of the last contact does not exist. *)
Theorem C61_starts_in_flight_refuted : forall sq rb integ olog g joint_des base_des st s0 q0 dq0, (0 < mk_N g)%nat -> in_flight rb g 0 ->
  optimize_motion sq rb integ olog g joint_des base_des st s0 q0 dq0 = Throw.
Proof.
  intros sq rb integ olog g jd bd st s0 q0 dq0 HN F. unfold optimize_motion. destruct (mk_N g) as [|n] eqn:EN; [lia|]. cbn [seq foldM]. unfold mko_step at 1. cbv zeta. unfold flight_of, mko_start. cbn [m_flight].
  destruct (Nat.eqb_spec (r_ne rb) 0) as [|NE]; [reflexivity|]. rewrite (proj2 (flight_dec rb g 0 ltac:(lia)) F). reflexivity.
Qed.
Print Assumptions C61_starts_in_flight_refuted.
(** The array of planned momenta is overwritten: afterwards the row of the last step in contact before a flight of k steps is the reference of the last step of the flight; all other rows are unchanged. *)
Theorem C61_plan_overwritten_refuted : forall sq rb integ olog g joint_des base_des st s0 q0 dq0 m, quadprog_sound sq -> (6 <= r_nv rb)%nat -> reach sq rb s0 ->
  optimize_motion sq rb integ olog g joint_des base_des st s0 q0 dq0 = Ok m -> length (m_lmom m) = mk_N g /\ forall s k, (s + k < mk_N g)%nat -> flight_from rb g s k -> (S (s + k) = mk_N g \/ ~ in_flight rb g (S (s + k))) ->
  (k = 0%nat -> nth s (m_lmom m) v0 = mk_lmom g s) /\ ((0 < k)%nat -> vz (nth s (m_lmom m) v0) = vz (mk_lmom g s) - INR k * (mk_weight g * mk_dt g)) /\ forall j, (s < j <= s + k)%nat -> nth j (m_lmom m) v0 = mk_lmom g j.
Proof.
  intros sq rb integ olog g jd bd st s0 q0 dq0 m Hs Hnv R H. pose proof (inv_all sq rb integ olog g jd bd st s0 q0 dq0 Hs Hnv R (mk_N g) m (le_n _) H) as I. split; [exact (i_llen _ _ _ _ _ _ _ _ _ _ _ _ _ I)|].
  intros s k L F D. pose proof (i_rows _ _ _ _ _ _ _ _ _ _ _ _ _ I s k L F D) as RW. split; [intros ->; exact RW|]. split; [intros Hk; rewrite RW; destruct k; [lia|reflexivity]|].
  intros j Hj. apply (i_fl _ _ _ _ _ _ _ _ _ _ _ _ _ I); [lia|]. now apply F.
Qed.
Print Assumptions C61_plan_overwritten_refuted.
(** The recorded velocity of an end-effector belongs to the configuration of the step before, not to the recorded configuration. *)
Theorem C61_stale_velocity_refuted : forall sq rb integ olog g joint_des base_des st s0 q0 dq0 m, quadprog_sound sq -> (6 <= r_nv rb)%nat -> reach sq rb s0 ->
  optimize_motion sq rb integ olog g joint_des base_des st s0 q0 dq0 = Ok m -> forall it r r', nth_error (m_out m) it = Some r -> nth_error (m_out m) (S it) = Some r' ->
  forall e c, (e < r_ne rb)%nat -> (c < 3)%nat -> o_vel r' (e * 3 + c)%nat = eff_velocity_of rb (o_q r) e (entries (o_dq r')) c.
Proof.
  intros sq rb integ olog g jd bd st s0 q0 dq0 m Hs Hnv R H it r r' Hr Hr' e c He Hc. pose proof (inv_all sq rb integ olog g jd bd st s0 q0 dq0 Hs Hnv R (mk_N g) m (le_n _) H) as I.
  destruct (i_out _ _ _ _ _ _ _ _ _ _ _ _ _ I it r Hr) as [(-> & _) _]. destruct (i_out _ _ _ _ _ _ _ _ _ _ _ _ _ I (S it) r' Hr') as [(_ & -> & _) V]. now apply (V it e c eq_refl).
Qed.
Print Assumptions C61_stale_velocity_refuted.

(** ** Initial configuration *)
Theorem C61_initial : forall sq rb integ olog st maxit nj joints com effpos s s' q dq failed, quadprog_sound sq -> (6 <= r_nv rb)%nat -> reach sq rb s ->
  optimize_initial_position sq rb integ olog st maxit nj joints com effpos s = Ok (s', q, dq, failed) ->
  reach sq rb s' /\ dq = repeat 0 (r_nv rb) /\ exists d (Q V : nat -> config), (0 < d <= maxit)%nat /\ Q 0%nat = [0; 0; vz com; 0; 0; 0; 1] ++ joints /\ Q d = q /\
   (forall i, (i < d)%nat -> let a := IkA (Q i) dq com v0 (vscale (/ 10) (olog [0; 0; 0] (Q i))) effpos (repeat v0 (r_ne rb)) (repeat 1 (r_ne rb)) None false in
      length (V i) = r_nv rb /\ minimises (admissible rb a) (task_cost rb st a) (entries (V i)) /\ Q (S i) = integ (Q i) (V i)) /\
   (forall i, (S i < d)%nat -> / 1000 <= norm_of (r_nv rb) (V i)) /\ (d = maxit \/ norm_of (r_nv rb) (V (d - 1)%nat) < / 1000) /\ (failed = true <-> d = maxit).
Proof.
  intros sq rb integ olog st maxit nj joints com effpos s s' q dq failed Hs Hnv R H. unfold optimize_initial_position in H. destruct (length joints =? nj)%nat; [|discriminate]. cbv zeta in H.
  destruct (init_loop sq rb integ olog st com effpos (repeat 0 (r_nv rb)) maxit 0 s (start_q com joints)) as [[[s1 q1] k1]| |] eqn:E; cbn [bind] in H; try discriminate.
  destruct (Nat.eqb_spec k1 0) as [|K0]; [discriminate|]. injection H as <- <- <- <-.
  destruct (init_loop_ok sq rb integ olog st com effpos (repeat 0 (r_nv rb)) Hs Hnv maxit 0 s _ s1 q1 k1 R E) as (R1 & d & Q & V & -> & Hd & Q0 & Qd & D & NB & LAST & POS). cbn [Nat.add] in *.
  split; [exact R1|]. split; [reflexivity|]. exists d, Q, V. split; [lia|]. split; [exact Q0|]. split; [exact Qd|]. split; [exact D|]. split; [exact NB|]. split; [|apply Nat.eqb_eq].
  destruct LAST as [->|(p & -> & X)]; [now left|right]. now replace (S p - 1)%nat with p by lia.
Qed.
Print Assumptions C61_initial.
Theorem C61_initial_rejects : forall sq rb integ olog st maxit nj joints com effpos s, length joints <> nj -> optimize_initial_position sq rb integ olog st maxit nj joints com effpos s = Throw.
Proof. intros. unfold optimize_initial_position. now rewrite (proj2 (Nat.eqb_neq _ _)). Qed.
(** With max_iterations = 0 an exception is raised. *)
Theorem C61_no_iterations_refuted : forall sq rb integ olog st nj joints com effpos s, optimize_initial_position sq rb integ olog st 0 nj joints com effpos s = Throw.
Proof. intros. unfold optimize_initial_position. destruct (_ =? _)%nat; reflexivity. Qed.
(** A search that converges in its last iteration is reported as failed. *)
Theorem C61_reported_failed_refuted : forall sq rb integ olog st joints com effpos s x s1, compute sq rb st s (init_arg rb olog com effpos (start_q com joints) (repeat 0 (r_nv rb))) = Ok (x, s1) ->
  norm_of (pl x) (listing x) < / 1000 -> optimize_initial_position sq rb integ olog st 1 (length joints) joints com effpos s = Ok (s1, integ (start_q com joints) (listing x), repeat 0 (r_nv rb), true).
Proof.
  intros sq rb integ olog st joints com effpos s x s1 E Nm. unfold optimize_initial_position. rewrite Nat.eqb_refl. cbv zeta. cbn [init_loop]. rewrite E. cbn [bind fst snd]. rewrite (proj2 (norm_small_iff x) Nm). reflexivity.
Qed.
Print Assumptions C61_reported_failed_refuted.
(** Concrete case: the recorded velocity differs from the velocity at the recorded configuration. *)
Definition stale_rb : robot := Rob 1 6 (fun _ i j => if (i =? j)%nat then 1 else 0) (fun q _ i j => if (i =? j)%nat then nth 0 q 0 else 0) (fun _ => v0) (fun _ _ => v0).
Definition stale_integ (q d : config) : config := match q with [] => [] | a :: r => (a + nth 0 d 0) :: r end.
Definition stale_g : mkin := MK 2 1 1 0 0 (fun _ => v0) (fun _ => V3 1 0 0) (fun _ => v0) (fun _ _ => true) (fun _ => [v0]) (fun _ => [v0]) (fun _ => [1]).
Definition stale_st : iksetting := IkS 0 0 1 0 0 0 0 true.
Example C61_stale_case : forall sq, quadprog_sound sq -> quadprog_complete sq -> exists m r, optimize_motion sq stale_rb stale_integ (fun _ _ => v0) stale_g [[]; []] [[]; []] stale_st ik_new (repeat 0 7) (repeat 0 6) = Ok m /\
  nth_error (m_out m) 1 = Some r /\ o_vel r 0%nat <> eff_velocity_of stale_rb (o_q r) 0 (entries (o_dq r)) 0.
Proof.
  intros sq Hs Hc. destruct (C61_succeeds sq stale_rb stale_integ (fun _ _ => v0) stale_g [[]; []] [[]; []] stale_st ik_new (repeat 0 7) (repeat 0 6) Hs Hc) as (m & E); try (cbn; lra || lia).
  - apply reach_new.
  - split; [cbn; lia|]. split; [cbn; lia|]. intros it Hit. cbn in Hit. destruct it as [|[|]]; [cbn; lia..|lia].
  - intros q d. destruct q; reflexivity.
  - intros F. specialize (F 0%nat ltac:(cbn; lia)). discriminate.
  - intros q h. exists h. intros i Hi. unfold momentum_of, dotv. cbn [r_nv r_Ag stale_rb]. destruct i as [|[|[|[|[|[|]]]]]]; [cbn; ring..|lia].
  - pose proof (C61_motion sq stale_rb stale_integ (fun _ _ => v0) stale_g [[]; []] [[]; []] stale_st ik_new _ _ m Hs ltac:(cbn; lia) (reach_new _ _) E) as (Q & DQ & MO & L & REC).
    pose proof (C61_stale_velocity_refuted sq stale_rb stale_integ (fun _ _ => v0) stale_g [[]; []] [[]; []] stale_st ik_new _ _ m Hs ltac:(cbn; lia) (reach_new _ _) E) as ST.
    cbn [mk_N stale_g] in L. destruct (m_out m) as [|r0 [|r1 [|]]] eqn:EO; try (cbn in L; lia). exists m, r1. split; [exact E|]. rewrite EO. split; [reflexivity|].
    pose proof (ST 0%nat r0 r1 eq_refl eq_refl 0%nat 0%nat ltac:(cbn; lia) ltac:(lia)) as V. cbn [Nat.mul Nat.add] in V. rewrite V. clear V ST.
    destruct (REC 0%nat r0 eq_refl) as (-> & _). destruct (REC 1%nat r1 eq_refl) as (-> & -> & _).
    destruct (mo_start _ _ _ _ _ _ _ _ _ _ _ _ _ MO) as [Q0 _]. assert (F0 : flight_from stale_rb stale_g 0 0) by (split; [intros F; specialize (F 0%nat ltac:(cbn; lia)); discriminate|intros; lia]).
    destruct (mo_step _ _ _ _ _ _ _ _ _ _ _ _ _ MO 0%nat 0%nat ltac:(cbn; lia) F0) as (_ & [_ MN] & Q1). cbv zeta in MN. cbn [Nat.add] in *. rewrite Q1, Q0. set (x := DQ 1%nat) in *.
    unfold eff_velocity_of, dotv. cbn. fold (entries x 0).
    assert (X0 : nth 0 x 0 <> 0).
    { intros Z. specialize (MN (fun j => match j with O => 1 | _ => entries x j end)). assert (AD : admissible stale_rb (query stale_g (fun _ _ => v0) [[]; []] [[]; []] (fun s i => match s with O => dotv (r_nv stale_rb) (k_J ik_new i) (entries (repeat 0 6)) | S p => momentum_of stale_rb (Q p) (entries (DQ s)) i end) Q DQ 0 0) (fun j => match j with O => 1 | _ => entries x j end)) by (intros A; discriminate).
      specialize (MN AD). unfold task_cost, momentum_of, eff_velocity_of, dotv in MN. cbn in MN. unfold entries in MN. rewrite Z in MN. destruct (Req_EM_T 1 1); lra. }
    unfold entries. change (match map (Rmult 1) x with [] => 0 | a :: _ => a end) with (nth 0 (map (Rmult 1) x) 0). replace (nth 0 (map (Rmult 1) x) 0) with (nth 0 x 0) by (destruct x; cbn; lra). nra.
Qed.

(** ** Regularisation trajectories *)
Definition via_at (via : list (list R)) (k : nat) : R := nth 0 (nth k via []) 0.
(** The times of the n via points: positive and increasing. *)
Definition increasing (via : list (list R)) (n : nat) : Prop := 0 < via_at via 0 /\ forall k, (S k < n)%nat -> via_at via k < via_at via (S k).
Lemma increasing_knots : forall via n dt N j x0 xe, 0 < dt -> (0 < n)%nat -> increasing via n -> forall i, (i < n)%nat -> fst (knot via dt j x0 xe N n i) < fst (knot via dt j x0 xe N n (S i)).
Proof.
  intros via n dt N j x0 xe Hd Hn [P I] i Hi. rewrite knot_S by exact Hi. cbn [fst]. assert (0 < / dt) by now apply Rinv_0_lt_compat. destruct i as [|k]; [cbn [knot fst]; unfold via_at in P; unfold Rdiv; nra|].
  rewrite knot_S by lia. cbn [fst]. specialize (I k Hi). unfold via_at in I. unfold Rdiv. nra.
Qed.
(** Every step lies between two knots, and the trajectory is there the minimum jerk polynomial between them. *)
Theorem C62_trajectory : forall solve N n via dt init, sound solve -> complete solve -> 0 < dt -> (0 < n)%nat -> via_shape via n (length init) -> increasing via n ->
  exists tr, regularisation solve N n via dt init = Ok tr /\ length tr = N /\ forall it j, (it < N)%nat -> (j < length init)%nat -> let K := knot via dt j (nth j init 0) (nth j init 0) N n in
    length (nth it tr []) = length init /\ (exists i, (i <= n)%nat /\ fst (K i) < fst (K (S i)) /\ fst (K i) <= INR it <= fst (K (S i))) /\
    forall i, (i <= n)%nat -> fst (K i) < fst (K (S i)) -> fst (K i) <= INR it <= fst (K (S i)) -> nth j (nth it tr []) 0 = min_jerk (K i) (K (S i)) (INR it).
Proof.
  intros solve N n via dt init Hs Hc Hd Hn Sh Inc. unfold regularisation. rewrite (proj2 (Nat.eqb_neq n 0)) by lia. unfold interpolated. assert (Hd' : dt <> 0) by lra.
  assert (X0 : forall jx, In jx (combine (seq 0 (length init)) init) -> (fst jx < length init)%nat /\ snd jx = nth (fst jx) init 0).
  { intros [j x] Hj. apply (In_nth _ _ (0%nat, 0)) in Hj. destruct Hj as (k & Lk & Ek). rewrite combine_length, seq_length, Nat.min_id in Lk. rewrite combine_nth in Ek by apply seq_length. rewrite seq_nth in Ek by exact Lk. injection Ek as <- <-. split; [exact Lk|reflexivity]. }
  pose (KK := fun j => knot via dt j (nth j init 0) (nth j init 0) N n).
  assert (IK : forall j i, (i < n)%nat -> fst (KK j i) < fst (KK j (S i))) by (intros j i Hi; now apply increasing_knots).
  destruct (mapM_ok (fun jx => generate_traj solve N n via dt (fst jx) (snd jx) (snd jx)) (fun jx l => exists m, pieces N n via dt (fst jx) (nth (fst jx) init 0) (nth (fst jx) init 0) m l /\ ((m = S n /\ fst (KK (fst jx) n) <> INR N) \/ (m = n /\ fst (KK (fst jx) n) = INR N)))
     (combine (seq 0 (length init)) init)) as (trs & -> & F).
  { intros jx Hjx. destruct (X0 jx Hjx) as [Hj ->]. destruct (gen_ok solve Hs Hc N n (length init) via dt Hd' Sh Hn (fst jx) (nth (fst jx) init 0) (nth (fst jx) init 0) Hj (IK (fst jx))) as (l & m & E & P & D). exists l. split; [exact E|]. exists m. auto. }
  assert (LT : length trs = length init). { pose proof (Forall2_len _ _ _ F) as FLe. rewrite combine_length, seq_length, Nat.min_id in FLe. lia. }
  assert (FJ : forall j, (j < length init)%nat -> exists m, pieces N n via dt j (nth j init 0) (nth j init 0) m (nth j trs []) /\ ((m = S n /\ fst (KK j n) <> INR N) \/ (m = n /\ fst (KK j n) = INR N))).
  { intros j Hj. pose proof (Forall2_nth _ _ _ F j (0%nat, 0) [] ltac:(rewrite combine_length, seq_length; lia)) as Y. rewrite combine_nth in Y by apply seq_length. rewrite seq_nth in Y by exact Hj. cbn [fst snd Nat.add] in Y. exact Y. }
  assert (COV : forall it j, (it < N)%nat -> exists i, (i <= n)%nat /\ fst (KK j i) < fst (KK j (S i)) /\ fst (KK j i) <= INR it <= fst (KK j (S i))).
  { intros it j Hit. destruct (Rle_dec (fst (KK j n)) (INR it)) as [L|L].
    - exists n. split; [lia|]. unfold KK at 2 4. rewrite knot_last. cbn [fst]. apply lt_INR in Hit. lra.
    - assert (Y : forall d, (d <= n)%nat -> (fst (KK j d) <= INR it) \/ exists i, (i < d)%nat /\ fst (KK j i) <= INR it <= fst (KK j (S i))).
      { induction d; intros Hdn; [left; cbn; apply pos_INR|]. destruct (IHd ltac:(lia)) as [A|(i & A & B)]; [|right; exists i; split; [lia|exact B]]. destruct (Rle_dec (fst (KK j (S d))) (INR it)); [now left|right]. exists d. split; [lia|lra]. }
      destruct (Y n (le_n _)) as [A|(i & A & B)]; [lra|]. exists i. split; [lia|]. split; [now apply IK|exact B]. }
  assert (VAL : forall it j i, (j < length init)%nat -> (i <= n)%nat -> fst (KK j i) < fst (KK j (S i)) -> fst (KK j i) <= INR it <= fst (KK j (S i)) -> list_eval (nth j trs []) (INR it) = Ok (min_jerk (KK j i) (KK j (S i)) (INR it))).
  { intros it j i Hj Hi I B. destruct (FJ j Hj) as (m & P & D). assert (Him : (i < m)%nat). { destruct D as [[-> _]|[-> D]]; [lia|]. destruct (Nat.eq_dec i n) as [->|]; [|lia]. exfalso. revert I. unfold KK at 2. rewrite knot_last. cbn [fst]. lra. }
    now apply (eval_ok N n (length init) via dt Hn j _ _ Hj (IK j) _ m i (INR it) P Him Hi I B). }
  cbn [bind]. destruct (mapM_ok (fun it => mapM (fun tr => list_eval tr (INR it)) trs) (fun it row => length row = length init /\ forall j, (j < length init)%nat -> list_eval (nth j trs []) (INR it) = Ok (nth j row 0)) (seq 0 N)) as (tr & -> & FT).
  { intros it Hit. apply in_seq in Hit. destruct (mapM_ok (fun tr => list_eval tr (INR it)) (fun tr v => list_eval tr (INR it) = Ok v) trs) as (row & -> & FR).
    - intros tr Htr. apply (In_nth _ _ []) in Htr. destruct Htr as (j & Lj & <-). destruct (COV it j ltac:(lia)) as (i & A & B & C). assert (Lj' : (j < length init)%nat) by (rewrite <- LT; exact Lj). eexists. split; apply (VAL it j i Lj' A B C).
    - exists row. split; [reflexivity|]. pose proof (Forall2_len _ _ _ FR) as LR. split; [rewrite <- LT; symmetry; exact LR|]. intros j Hj. rewrite <- LT in Hj. exact (Forall2_nth _ _ _ FR j [] 0 Hj). }
  exists tr. split; [reflexivity|]. pose proof (Forall2_len _ _ _ FT) as L2. rewrite seq_length in L2. split; [symmetry; exact L2|]. intros it j Hit Hj. pose proof (Forall2_nth _ _ _ FT it 0%nat [] ltac:(rewrite seq_length; exact Hit)) as [A B]. rewrite seq_nth in B by exact Hit. cbn [Nat.add] in B.
  split; [exact A|]. split; [now apply COV|]. intros i Hi I Bd. specialize (B j Hj). rewrite (VAL it j i Hj Hi I Bd) in B. injection B as B. now rewrite <- B.
Qed.
Print Assumptions C62_trajectory.
(** It passes through the via points at their times, starts at the first value, and stays between neighbouring knots. *)
Theorem C62_passes : forall solve N n via dt init tr, sound solve -> complete solve -> 0 < dt -> (0 < n)%nat -> via_shape via n (length init) -> increasing via n ->
  regularisation solve N n via dt init = Ok tr -> forall it j, (it < N)%nat -> (j < length init)%nat -> let K := knot via dt j (nth j init 0) (nth j init 0) N n in
  (it = 0%nat -> nth j (nth it tr []) 0 = nth j init 0) /\ (forall k, (k < n)%nat -> INR it * dt = via_at via k -> nth j (nth it tr []) 0 = nth (S j) (nth k via []) 0) /\
  (forall i, (i <= n)%nat -> fst (K i) < fst (K (S i)) -> fst (K i) <= INR it <= fst (K (S i)) -> Rmin (snd (K i)) (snd (K (S i))) <= nth j (nth it tr []) 0 <= Rmax (snd (K i)) (snd (K (S i)))).
Proof.
  intros solve N n via dt init tr Hs Hc Hd Hn Sh Inc H it j Hit Hj K. destruct (C62_trajectory solve N n via dt init Hs Hc Hd Hn Sh Inc) as (tr' & E & L & V). rewrite H in E. injection E as <-.
  destruct (V it j Hit Hj) as (_ & _ & VV). fold K in VV. assert (IK : forall i, (i < n)%nat -> fst (K i) < fst (K (S i))) by (intros; now apply increasing_knots). split; [|split].
  - intros ->. rewrite (VV 0%nat ltac:(lia) (IK 0%nat Hn)); [|pose proof (IK 0%nat Hn) as I0; cbn [INR]; change (fst (K 0%nat)) with 0 in *; lra].
    change (INR 0) with (fst (K 0%nat)). rewrite (proj1 (jerk_ends (K 0%nat) (K 1%nat) ltac:(pose proof (IK 0%nat Hn); lra))). reflexivity.
  - intros k Hk Ek. assert (KS : K (S k) = (INR it, nth (j + 1) (nth k via []) 0)). { unfold K. rewrite knot_S by exact Hk. f_equal. unfold via_at in Ek. rewrite <- Ek. field. lra. }
    pose proof (IK k Hk) as I0. rewrite (VV k ltac:(lia) I0); [|rewrite KS in I0; rewrite KS; cbn [fst] in *; lra]. replace (INR it) with (fst (K (S k))) by now rewrite KS.
    rewrite (proj2 (jerk_ends (K k) (K (S k)) ltac:(lra))). rewrite KS. cbn [snd]. f_equal. lia.
  - intros i Hi I B. rewrite (VV i Hi I B). destruct (K i) as [ta xa]. destruct (K (S i)) as [tb xb]. cbn [fst snd] in *. unfold min_jerk. cbn [fst snd]. cbv zeta. set (u := (INR it - ta) / (tb - ta)).
    assert (U : 0 <= u <= 1). { unfold u. split; [apply Rmult_le_pos; [lra|left; apply Rinv_0_lt_compat; lra]|]. apply Rmult_le_reg_r with (tb - ta); [lra|]. field_simplify; lra. }
    pose proof (quintic_bounds u U) as QB. unfold quintic in QB. unfold Rmin, Rmax. destruct (Rle_dec xa xb); nra.
Qed.
Print Assumptions C62_passes.
(** Without via points it is constant. *)
Theorem C62_constant : forall solve N via dt init, regularisation solve N 0 via dt init = Ok (repeat init N).
Proof. reflexivity. Qed.
(** Two via points at the same time, or the first at time 0, with different values: an exception. *)
Theorem C62_equal_times_refuted : forall solve N n via dt init j k, sound solve -> dt <> 0 -> (j < length init)%nat -> (S k < n)%nat -> via_at via k = via_at via (S k) -> nth (S j) (nth k via []) 0 <> nth (S j) (nth (S k) via []) 0 ->
  forall tr, regularisation solve N n via dt init <> Ok tr.
Proof.
  intros solve N n via dt init j k Hs Hd Hj Hk Et Nx tr H. unfold regularisation in H. rewrite (proj2 (Nat.eqb_neq n 0)) in H by lia. unfold interpolated in H.
  destruct (mapM _ (combine (seq 0 (length init)) init)) as [trs| |] eqn:E; try discriminate. clear H.
  assert (G : exists l, generate_traj solve N n via dt j (nth j init 0) (nth j init 0) = Ok l).
  { assert (HI : In (j, nth j init 0) (combine (seq 0 (length init)) init)). { replace (j, nth j init 0) with (nth j (combine (seq 0 (length init)) init) (0%nat, 0)) by (rewrite combine_nth by apply seq_length; now rewrite seq_nth by exact Hj). apply nth_In. rewrite combine_length, seq_length. lia. }
    revert trs E HI. generalize (combine (seq 0 (length init)) init). induction l as [|a l IH]; intros trs E HI; [easy|]. cbn [mapM] in E. destruct (generate_traj solve N n via dt (fst a) (snd a) (snd a)) as [p| |] eqn:EA; cbn [bind] in E; try discriminate.
    destruct HI as [->|HI]; [exists p; exact EA|]. destruct (mapM _ l) as [bs| |] eqn:EB; cbn [bind] in E; try discriminate. now apply (IH bs). }
  destruct G as (l & G). unfold generate_traj in G.
  assert (SEG : exists p, segment solve N n via dt j (nth j init 0) (nth j init 0) (S k) = Ok p).
  { assert (HI : In (S k) (seq 0 (S n))) by (apply in_seq; lia). revert G HI. generalize (@nil (R * R * poly)) as acc. generalize (seq 0 (S n)). induction l0 as [|a l0 IH]; intros acc G HI; [easy|]. cbn [foldM] in G.
    destruct (segment solve N n via dt j (nth j init 0) (nth j init 0) a) as [p| |] eqn:EA; cbn [bind] in G; try discriminate. destruct HI as [->|HI]; [now exists p|]. now apply (IH _ G). }
  destruct SEG as (p & SEG). cbn [segment] in SEG. rewrite (proj2 (Nat.eqb_neq (S k) n)) in SEG by lia. unfold via_time in SEG. destruct (Req_EM_T dt 0); [easy|]. unfold via_get in SEG.
  destruct (pyget via k) as [r| |] eqn:P1; cbn [bind] in SEG; try discriminate. destruct (pyget r 0) as [t| |] eqn:P2; cbn [bind] in SEG; try discriminate.
  destruct (pyget via (S k)) as [r'| |] eqn:P3; cbn [bind] in SEG; try discriminate. destruct (pyget r' 0) as [t'| |] eqn:P4; cbn [bind] in SEG; try discriminate.
  destruct (pyget r (j + 1)) as [x| |] eqn:P5; cbn [bind] in SEG; try discriminate. destruct (pyget r' (j + 1)) as [x'| |] eqn:P6; cbn [bind] in SEG; try discriminate.
  apply (pyget_ok _ _ _ []) in P1, P3. apply (pyget_ok _ _ _ 0) in P2, P4, P5, P6. unfold via_at in Et. replace (S j) with (j + 1)%nat in Nx by lia. rewrite (proj2 P1), (proj2 P3) in Et, Nx. rewrite (proj2 P2), (proj2 P4) in Et. rewrite (proj2 P5), (proj2 P6) in Nx. subst t'.
  unfold piece in SEG. rewrite (C39_equal_times_refuted solve (t / dt) x x' None Hs Nx) in SEG. discriminate.
Qed.
Print Assumptions C62_equal_times_refuted.
Theorem C62_missing_rows : forall solve N n via dt init tr, (0 < length init)%nat -> (length via < n)%nat -> regularisation solve N n via dt init <> Ok tr.
Proof.
  intros solve N n via dt init tr Hl Hv H. unfold regularisation in H. rewrite (proj2 (Nat.eqb_neq n 0)) in H by lia. unfold interpolated in H. destruct init as [|x0 init]; [cbn in Hl; lia|]. cbn [length seq combine mapM fst snd] in H.
  destruct (generate_traj solve N n via dt 0 x0 x0) as [l| |] eqn:G; cbn [bind] in H; try discriminate. clear H. unfold generate_traj in G.
  assert (SEG : exists p, segment solve N n via dt 0 x0 x0 n = Ok p).
  { assert (HI : In n (seq 0 (S n))) by (apply in_seq; lia). revert G HI. generalize (@nil (R * R * poly)) as acc. generalize (seq 0 (S n)). induction l0 as [|a l0 IH]; intros acc G HI; [easy|]. cbn [foldM] in G.
    destruct (segment solve N n via dt 0 x0 x0 a) as [p| |] eqn:EA; cbn [bind] in G; try discriminate. destruct HI as [->|HI]; [now exists p|]. now apply (IH _ G). }
  destruct SEG as (p & SEG). destruct n as [|k]; [lia|]. cbn [segment] in SEG. rewrite Nat.eqb_refl in SEG. unfold via_time in SEG. destruct (Req_EM_T dt 0); [discriminate|]. unfold via_get in SEG. replace (pyget via k) with (@Throw (list R)) in SEG; [discriminate|].
  symmetry. unfold pyget. rewrite (proj2 (nth_error_None via k)) by lia. reflexivity.
Qed.
Print Assumptions C62_missing_rows.
Example C62_demo : via_shape [[1; 2]; [2; 3]] 2 1 /\ increasing [[1; 2]; [2; 3]] 2 /\ (0 < 1 / 10)%R.
Proof.
  split; [split; [cbn; lia|]; intros k Hk; destruct k as [|[|]]; cbn; lia|]. split; [|lra]. split; [cbn; lra|]. intros k Hk. destruct k; [cbn; lra|lia].
Qed.
(** A motion with a flight meets the hypotheses of C61_succeeds and C61_ballistic. *)
Definition air_g : mkin := MK 4 1 2 0 0 (fun _ => v0) (fun _ => V3 1 0 7) (fun _ => v0) (fun it _ => (it <? 2)%nat) (fun _ => [v0]) (fun _ => [v0]) (fun _ => [1]).
Example C61_flight_case : forall sq, quadprog_sound sq -> quadprog_complete sq -> flight_from stale_rb air_g 1 2 /\
  exists m Q DQ, optimize_motion sq stale_rb stale_integ (fun _ _ => v0) air_g [[]; []; []; []] [[]; []; []; []] stale_st ik_new (repeat 0 7) (repeat 0 6) = Ok m /\
   motion stale_rb stale_integ (fun _ _ => v0) stale_st air_g [[]; []; []; []] [[]; []; []; []] (fun i => dotv 6 (k_J ik_new i) (entries (repeat 0 6))) (repeat 0 7) (repeat 0 6) 4 Q DQ /\
   momentum_of stale_rb (Q 3%nat) (entries (DQ 4%nat)) 2 = 3 /\ vz (nth 1 (m_lmom m) v0) = 3.
Proof.
  intros sq Hs Hc. assert (F : flight_from stale_rb air_g 1 2). { split; [intros F; specialize (F 0%nat ltac:(cbn; lia)); discriminate|]. intros j Hj e He. cbn [mk_act air_g]. apply Nat.ltb_ge. lia. } split; [exact F|].
  destruct (C61_succeeds sq stale_rb stale_integ (fun _ _ => v0) air_g [[]; []; []; []] [[]; []; []; []] stale_st ik_new (repeat 0 7) (repeat 0 6) Hs Hc) as (m & E); try (cbn; lra || lia).
  - apply reach_new.
  - split; [cbn; lia|]. split; [cbn; lia|]. intros it Hit. cbn in Hit. destruct it as [|[|[|[|]]]]; [cbn; lia..|lia].
  - intros q d. destruct q; reflexivity.
  - intros F'. specialize (F' 0%nat ltac:(cbn; lia)). discriminate.
  - intros q h. exists h. intros i Hi. unfold momentum_of, dotv. cbn [r_nv r_Ag stale_rb]. destruct i as [|[|[|[|[|[|]]]]]]; [cbn; ring..|lia].
  - destruct (C61_motion sq stale_rb stale_integ (fun _ _ => v0) air_g [[]; []; []; []] [[]; []; []; []] stale_st ik_new _ _ m Hs ltac:(cbn; lia) (reach_new _ _) E) as (Q & DQ & MO & L & REC).
    exists m, Q, DQ. split; [exact E|]. split; [exact MO|]. split.
    + destruct (C61_ballistic _ _ _ _ _ _ _ _ _ _ _ _ _ 1%nat 2%nat MO F ltac:(lia) ltac:(cbn; lia) ltac:(lia)) as (_ & _ & X & _). cbn [Nat.add] in X. rewrite X. cbn. lra.
    + destruct (C61_plan_overwritten_refuted sq stale_rb stale_integ (fun _ _ => v0) air_g [[]; []; []; []] [[]; []; []; []] stale_st ik_new _ _ m Hs ltac:(cbn; lia) (reach_new _ _) E) as [_ X]. destruct (X 1%nat 2%nat ltac:(cbn; lia) F ltac:(left; reflexivity)) as (_ & Y & _). rewrite (Y ltac:(lia)). cbn. lra.
Qed.

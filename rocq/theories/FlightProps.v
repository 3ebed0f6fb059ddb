(** * C60: flight phases of the end-effectors *)
From Coq Require Import Reals List Arith ZArith Bool Lia Lra.
Import ListNotations.
From Verif Require Import Base BaseProofs Vec3 CntModel CntSpec CntProofs CntProps TrajModel TrajSpec FlightModel FlightSpec FlightProofs FlightProofs2 FlightProofs3.
Local Open Scope R_scope.

(** For every contact plan with flights of two steps at least and a viapoint for every flight: all flights are filled in, nothing else changes. *)
Theorem C60_flights : forall qr cs vias ini com_motion l via start stop, solves_swings qr -> (forall d, In d l -> 0 < d_time d) ->
  (forall eff, (eff < n_endeffs)%nat -> cs eff <> [] -> plan_ok l ini eff (cs eff) (vias eff) (via eff) (start eff) (stop eff)) ->
  exists l', updateEndeffectorTrajectories qr (length l) cs vias ini com_motion true l = Ok l' /\
    framed (fun eff t => (eff < n_endeffs)%nat /\ cs eff <> [] /\ (t < length l)%nat /\ ~ active l eff t) l l' /\
    forall eff, (eff < n_endeffs)%nat -> cs eff <> [] -> flown l l' ini com_motion eff (cs eff) (via eff) (start eff) (stop eff).
Proof.
  intros qr cs vias ini cm l via start stop Hqr HP HO. unfold updateEndeffectorTrajectories.
  destruct (all_ok qr cs vias ini cm l via start stop Hqr HP HO n_endeffs (le_n _)) as (s & -> & F & H). cbn [bind]. exists (fst s). auto.
Qed.
(** Without kinematics nothing happens. *)
Theorem C60_off : forall qr N cs vias ini cm l, updateEndeffectorTrajectories qr N cs vias ini cm false l = Ok l.
Proof. reflexivity. Qed.
(** A flight starts and ends at rest: in the first pose at its first step, in the last position and in an orientation q1 or -q1 (the same rotation) at its last one. *)
Theorem C60_ends : forall l l' eff a b p0 q0 v p1 q1, (forall d, In d l -> 0 < d_time d) -> (a < b < length l)%nat -> flies l l' eff a b p0 q0 v p1 q1 ->
  (let x := at_step l' a eff in e_pos x = p0 /\ e_vel x = v0 /\ e_acc x = v0 /\ e_ori x = q0) /\
  (let x := at_step l' b eff in e_pos x = p1 /\ e_vel x = v0 /\ e_acc x = v0 /\ (e_ori x = q1 \/ e_ori x = Q4 (- qw q1) (- qx q1) (- qy q1) (- qz q1))).
Proof.
  intros l l' eff a b p0 q0 v p1 q1 P H F. assert (L : clock l (S a) < clock l (S b)) by (apply clock_lt; [exact P|lia]). split; cbv zeta.
  - destruct (F a ltac:(lia)) as [O Q]. destruct (proj1 (on_swing_ends _ _ _ _ _ _ L) O) as (-> & -> & ->). repeat split; auto. rewrite Q, Nat.sub_diag. cbn [INR].
    rewrite Rmin_left. + replace (2 * 0 / INR (S b - a)) with 0; [apply slerp_start|]. unfold Rdiv. ring. + unfold Rdiv. rewrite Rmult_0_r, Rmult_0_l. lra.
  - destruct (F b ltac:(lia)) as [O Q]. destruct (proj2 (on_swing_ends _ _ _ _ _ _ L) O) as (-> & -> & ->). repeat split; auto. rewrite Q. rewrite Rmin_right.
    + rewrite slerp_end. unfold qneg. destruct (Rlt_dec _ _); auto.
    + replace (S b - a)%nat with (S (b - a)) by lia. rewrite S_INR. assert (1 <= INR (b - a)) by (change 1 with (INR 1); apply le_INR; lia).
      apply Rmult_le_reg_r with (INR (b - a) + 1); [lra|]. unfold Rdiv. rewrite Rmult_assoc, Rinv_l; lra.
Qed.
(** The orientations between unit quaternions are unit quaternions, up to the rounding of Eigen's branch for close quaternions ... *)
Theorem C60_orientations_unit : forall q o t, qdot q q = 1 -> qdot o o = 1 -> 0 <= t <= 1 -> 1 - eps / 2 <= qdot (slerp q t o) (slerp q t o) <= 1.
Proof. exact slerp_norm. Qed.
(** ... and turn at constant speed, over the shorter arc. *)
Theorem C60_orientations_arc : forall q o t, qdot q q = 1 -> qdot o o = 1 -> Rabs (qdot q o) < 1 - eps ->
  qdot (slerp q t o) (slerp q t o) = 1 /\ qdot q (slerp q t o) = cos (t * acos (Rabs (qdot q o))).
Proof. exact slerp_arc. Qed.

(** Together with the filling of the contacts (C30): on a fresh sequence, contact k of the end-effector on the steps start k .. stop k - 1. *)
Definition plan_of (dt : R) (N : nat) (ini : dstate) (eff : nat) (cl : list contact) (vias : list viapoint) (via : Z -> vec3) (start stop : nat -> nat) : Prop :=
  (forall k c, nth_error cl k = Some c -> c_sel c = true /\ (start k < stop k <= N)%nat /\ forall t, (t < N)%nat -> in_contact dt c t <-> (start k <= t < stop k)%nat) /\
  (forall k, (S k < length cl)%nat -> (stop k + 2 <= start (S k))%nat) /\
  (e_act (d_eff ini eff) = false -> (2 <= start 0)%nat /\ first_via vias (-1) (via (-1)%Z)) /\
  (stop (length cl - 1)%nat = N \/ (stop (length cl - 1)%nat + 2 <= N)%nat) /\
  (forall k, (S k < length cl)%nat \/ (S k = length cl /\ stop k < N)%nat -> first_via vias (Z.of_nat k) (via (Z.of_nat k))).
Theorem C60_contact_plan : forall qr dt N cs vias ini com_motion q0 via start stop, solves_swings qr -> 
  (forall eff, (eff < n_endeffs)%nat -> cs eff <> [] -> plan_of dt N ini eff (cs eff) (vias eff) (via eff) (start eff) (stop eff)) ->
  exists q l', fillDynamicsSequence N dt cs (dresize N q0) = Ok q /\ updateEndeffectorTrajectories qr N cs vias ini com_motion true (states q) = Ok l' /\ length l' = N /\
    forall eff, (eff < n_endeffs)%nat -> cs eff <> [] ->
      (forall k c t, nth_error (cs eff) k = Some c -> (start eff k <= t < stop eff k)%nat ->
         let x := at_step l' t eff in e_act x = true /\ e_cid x = Z.of_nat k /\ e_pos x = c_pos c /\ e_ori x = c_ori c) /\
      (forall t, (t < N)%nat -> (forall k, (k < length (cs eff))%nat -> ~ (start eff k <= t < stop eff k)%nat) -> e_act (at_step l' t eff) = false) /\
      flown (states q) l' ini com_motion eff (cs eff) (via eff) (start eff) (stop eff).
Proof.
  intros qr dt N cs vias ini cm q0 via start stop Hqr HO. destruct (C30_sampling N dt cs (dresize N q0)) as (q & E & HL & HA & HC & HN & HT & _).
  { cbn [dresize states]. rewrite repeat_length. lia. }
  assert (NL : length (states q) = N) by (rewrite HL; cbn [dresize states]; apply repeat_length).
  assert (FR : forall eff t, look (dresize N q0) eff t = eff_new).
  { intros eff t. unfold look, dresize. cbn [states]. destruct (lt_dec t N); [rewrite nth_repeat; reflexivity|rewrite nth_overflow by (rewrite repeat_length; lia); reflexivity]. }
  assert (P : forall d, In d (states q) -> 0 < d_time d).
  { intros d Hd. apply (In_nth _ _ dstate_new) in Hd. destruct Hd as (t & Ht & <-). destruct (HT t) as (-> & _). unfold dresize. cbn [states]. rewrite nth_repeat. cbn. lra. }
  assert (ACT : forall eff t, (eff < n_endeffs)%nat -> cs eff <> [] -> (t < N)%nat -> active (states q) eff t <-> exists k, (k < length (cs eff))%nat /\ (start eff k <= t < stop eff k)%nat).
  { intros eff t He NE Ht. destruct (HO eff He NE) as (A & _). change (active (states q) eff t) with (e_act (look q eff t) = true). rewrite (HA eff t He Ht), FR. split.
    - intros [X|(k & c & C & S & I)]; [discriminate X|]. exists k. split; [apply nth_error_Some; congruence|]. destruct (A k c C) as (_ & _ & Q). now apply Q.
    - intros (k & Hk & I). right. destruct (nth_error (cs eff) k) as [c|] eqn:C; [|apply nth_error_None in C; lia]. destruct (A k c C) as (S & _ & Q). exists k, c. split; [exact C|]. split; [exact S|]. now apply Q. }
  assert (PL : forall eff, (eff < n_endeffs)%nat -> cs eff <> [] -> plan_ok (states q) ini eff (cs eff) (vias eff) (via eff) (start eff) (stop eff)).
  { intros eff He NE. destruct (HO eff He NE) as (A & B & C & D & F). constructor; rewrite ?NL.
    - constructor; rewrite ?NL.
      + intros k Hk. destruct (nth_error (cs eff) k) as [c|] eqn:X; [|apply nth_error_None in X; lia]. apply (A k c X).
      + exact B.
      + intros t Ht. now apply ACT.
    - intros X. now apply C.
    - exact D.
    - intros X. now apply C.
    - intros k Hk. apply F. now left.
    - intros X. assert (length (cs eff) <> 0)%nat by (destruct (cs eff); [easy|cbn; lia]). replace (Z.of_nat (length (cs eff)) - 1)%Z with (Z.of_nat (length (cs eff) - 1)) by lia. apply F. right. split; [lia|exact X]. }
  destruct (C60_flights qr cs vias ini cm (states q) via start stop Hqr P PL) as (l' & U & F & H). rewrite NL in U. exists q, l'. split; [exact E|]. split; [exact U|]. split; [now rewrite (fr_len _ _ _ F)|].
  intros eff He NE. destruct (HO eff He NE) as (A & B & _). split; [|split].
  - intros k c t C Ht. cbv zeta. destruct (A k c C) as (S & R & Q). assert (TN : (t < N)%nat) by lia.
    assert (X : active (states q) eff t). { apply ACT; auto. exists k. split; [apply nth_error_Some; congruence|exact Ht]. }
    rewrite (fr_same _ _ _ F) by (intros (_ & _ & _ & Z); now apply Z). split; [exact X|]. apply (HC eff t k c He TN); [repeat split; auto; now apply Q|].
    intros k' c' L (C' & S' & I'). destruct (A k' c' C') as (_ & R' & Q'). apply Q' in I'; [|exact TN]. pose proof (iv_mono _ _ _ _ _ (po_iv _ _ _ _ _ _ _ _ (PL eff He NE)) k' k) as M.
    assert (k' < length (cs eff))%nat by (apply nth_error_Some; congruence). specialize (M ltac:(lia)). lia.
  - intros t Ht Z. pose proof (framed_active _ _ _ F eff t) as Y. destruct (e_act (at_step l' t eff)) eqn:X; [|reflexivity]. apply Y in X. apply ACT in X; auto. destruct X as (k & Hk & I). now elim (Z k Hk).
  - now apply H.
Qed.
Print Assumptions C60_flights.
Print Assumptions C60_ends.
Print Assumptions C60_orientations_unit.
Print Assumptions C60_orientations_arc.
Print Assumptions C60_contact_plan.

(** Nine steps, two contacts of end-effector 0 (steps 2..3 and 6), starting and ending in the air: all three kinds of flight; a solver exists. *)
Definition ex_c (a b x : R) : contact := Cnt a b (V3 x 0 0) qone FlatContact true 0 0.
Definition ex_cs (eff : nat) : list contact := match eff with O => [ex_c 3 5 1; ex_c 7 8 2] | _ => [] end.
Definition ex_vias (eff : nat) : list viapoint := match eff with O => [((-1)%Z, V3 0 0 1); (0%Z, V3 1 0 1); (1%Z, V3 2 0 1)] | _ => [] end.
Definition ex_via (k : Z) : vec3 := V3 (IZR k + 1) 0 1.
Definition ex_start (k : nat) : nat := match k with O => 2 | _ => 6 end.
Definition ex_stop (k : nat) : nat := match k with O => 4 | _ => 7 end.
Example C60_example : solves_swings swing_qr /\ forall eff, (eff < n_endeffs)%nat -> ex_cs eff <> [] -> plan_of 1 9 dstate_new eff (ex_cs eff) (ex_vias eff) ex_via ex_start ex_stop.
Proof.
  split; [exact swing_qr_solves|]. intros eff _ NE. destruct eff as [|eff]; [|easy]. unfold plan_of. cbn [ex_cs length Nat.sub].
  assert (V : forall z, z = (-1)%Z \/ z = 0%Z \/ z = 1%Z -> first_via (ex_vias 0) z (ex_via z)).
  { assert (E1 : ex_via (-1) = V3 0 0 1) by (unfold ex_via; f_equal; lra). assert (E2 : ex_via 0 = V3 1 0 1) by (unfold ex_via; f_equal; lra). assert (E3 : ex_via 1 = V3 2 0 1) by (unfold ex_via; f_equal; lra).
    unfold ex_vias. intros z [->|[->| ->]]; rewrite ?E1, ?E2, ?E3.
    - exists [], [(0%Z, V3 1 0 1); (1%Z, V3 2 0 1)]. split; [reflexivity|]. intros x [].
    - exists [((-1)%Z, V3 0 0 1)], [(1%Z, V3 2 0 1)]. split; [reflexivity|]. intros x [<-|[]]. cbn. lia.
    - exists [((-1)%Z, V3 0 0 1); (0%Z, V3 1 0 1)], []. split; [reflexivity|]. intros x [<-|[<-|[]]]; cbn; lia. }
  assert (G : forall a b t, in_contact 1 (ex_c (INR (S a)) (INR (S b)) 0) t <-> (a <= t < b)%nat).
  { intros a b t. unfold in_contact, ex_c. cbn [c_ini c_end]. rewrite Rmult_1_r, Nat.add_1_r. split.
    - intros [X Y]. apply INR_le in X. apply INR_lt in Y. lia.
    - intros [X Y]. split; [apply le_INR|apply lt_INR]; lia. }
  split; [|split; [|split; [|split]]].
  - intros k c Hc. destruct k as [|[|k]]; [injection Hc as <-|injection Hc as <-|destruct k; discriminate Hc]; cbn [ex_start ex_stop]; (split; [reflexivity|]; split; [lia|]); intros t _.
    + rewrite <- (G 2%nat 4%nat t). unfold in_contact, ex_c. cbn. split; intros; lra.
    + rewrite <- (G 6%nat 7%nat t). unfold in_contact, ex_c. cbn. split; intros; lra.
  - intros k Hk. destruct k; [|lia]. cbn. lia.
  - intros _. split; [cbn; lia|]. apply V. tauto.
  - right. cbn. lia.
  - intros k Hk. apply V. lia.
Qed.
(** Its flights, e.g. the middle one over steps 4 and 5. *)
Example C60_example_flight : exists q l', fillDynamicsSequence 9 1 ex_cs (dresize 9 (Seq [] (fun _ => 0%Z))) = Ok q /\
  updateEndeffectorTrajectories swing_qr 9 ex_cs ex_vias dstate_new v0 true (states q) = Ok l' /\ e_pos (at_step l' 4 0) = V3 1 0 0 /\ e_pos (at_step l' 5 0) = V3 2 0 0 /\ e_vel (at_step l' 5 0) = v0.
Proof.
  destruct C60_example as [S P]. destruct (C60_contact_plan swing_qr 1 9 ex_cs ex_vias dstate_new v0 (Seq [] (fun _ => 0%Z)) (fun _ => ex_via) (fun _ => ex_start) (fun _ => ex_stop) S P) as (q & l' & E & U & L & H).
  exists q, l'. split; [exact E|]. split; [exact U|]. destruct (H 0%nat ltac:(unfold n_endeffs; lia) ltac:(easy)) as (_ & _ & FL). pose proof (fl_mid _ _ _ _ _ _ _ _ _ FL 0%nat _ _ eq_refl eq_refl) as F. cbn [ex_stop ex_start Nat.sub] in F.
  destruct (C30_sampling 9 1 ex_cs (dresize 9 (Seq [] (fun _ => 0%Z)))) as (q2 & E2 & HL & _ & _ & _ & HT & _). { cbn. lia. } rewrite E in E2. injection E2 as <-.
  assert (P0 : forall d, In d (states q) -> 0 < d_time d). { intros d Hd; apply (In_nth _ _ dstate_new) in Hd; destruct Hd as (t & Ht & <-); destruct (HT t) as (-> & _); unfold dresize; cbn [states]; rewrite nth_repeat; cbn; lra. }
  assert (P1 : (4 < 5 < length (states q))%nat) by (rewrite HL; cbn; lia).
  destruct (C60_ends _ _ _ _ _ _ _ _ _ _ P0 P1 F) as [(A & _) (B & C & _)].
  cbn in A, B. auto.
Qed.

(** ** Limits *)
(** Two contacts without a break between them (e.g. the end time of the first is the start time of the second): the search for the break runs past the end of the sequence. *)
Theorem C60_no_break_refuted : forall qr N cs vias ini cm c0 c1 r l v, cs 0%nat = c0 :: c1 :: r -> e_act (d_eff ini 0) = true -> (forall t, (t < length l)%nat -> active l 0 t) ->
  updateEndeffectorTrajectories qr N cs vias ini cm true l = UB /\ flight_eff qr N cs vias ini cm (l, v) 0 = UB.
Proof.
  intros qr N cs vias ini cm c0 c1 r l v C A ACT. assert (E : forall v, flight_eff qr N cs vias ini cm (l, v) 0 = UB).
  { intros w. unfold flight_eff. rewrite C. unfold first_flight, on. rewrite A. cbn [fst snd bind length seq foldM]. unfold mid_flight at 1. rewrite find_break_none; [reflexivity|]. intros j _ Hj. right. apply ACT. exact Hj. }
  split; [|apply E]. unfold updateEndeffectorTrajectories. change (seq 0 n_endeffs) with [0; 1; 2; 3]%nat. cbn [foldM]. rewrite E. reflexivity.
Qed.
(** An end-effector that is not active in the initial state although its first contact starts at the first step and lasts. *)
Theorem C60_initially_inactive_refuted : forall qr N cs vias ini cm c0 r l, cs 0%nat = c0 :: r -> e_act (d_eff ini 0) = false -> (forall t, (t < length l)%nat -> active l 0 t) ->
  updateEndeffectorTrajectories qr N cs vias ini cm true l = UB.
Proof.
  intros qr N cs vias ini cm c0 r l C A ACT. unfold updateEndeffectorTrajectories. change (seq 0 n_endeffs) with [0; 1; 2; 3]%nat. cbn [foldM]. unfold flight_eff at 1. rewrite C. unfold first_flight, on. rewrite A.
  cbn [fst snd]. rewrite find_make_none; [reflexivity|]. intros j _ Hj. left. apply ACT. lia.
Qed.
(** No viapoint for the first flight: an uninitialised vector is read. *)
Theorem C60_missing_viapoint_refuted : forall qr N cs vias ini cm l start stop c0 r, cs 0%nat = c0 :: r -> e_act (d_eff ini 0) = false ->
  intervals l 0 (length (cs 0%nat)) start stop -> (1 <= start 0)%nat -> (forall x, In x (vias 0%nat) -> fst x <> (-1)%Z) ->
  updateEndeffectorTrajectories qr N cs vias ini cm true l = UB.
Proof.
  intros qr N cs vias ini cm l start stop c0 r C A I S V. unfold updateEndeffectorTrajectories. change (seq 0 n_endeffs) with [0; 1; 2; 3]%nat. cbn [foldM]. unfold flight_eff at 1. rewrite C. unfold first_flight, on. rewrite A. cbn [fst snd].
  assert (Hn : (0 < length (cs 0%nat))%nat) by (rewrite C; cbn; lia). pose proof (iv_len _ _ _ _ _ I 0%nat Hn) as L.
  rewrite (find_make_is l 0 (start 0%nat - 1) 0); [|lia|lia|apply (iv_before _ _ _ _ _ I); [exact Hn|lia]|apply (iv_on _ _ _ _ _ I 0); [exact Hn|lia]|intros j Hj; right; apply (iv_before _ _ _ _ _ I); [exact Hn|lia]].
  cbn [bind]. unfold phase. rewrite !map_time_clock by lia. cbn [bind]. unfold find_via. replace (find (fun v => Z.eqb (fst v) (-1)) (vias 0%nat)) with (@None viapoint); [reflexivity|].
  symmetry. destruct (find _ _) eqn:X; [|reflexivity]. apply find_some in X. destruct X as [X Y]. apply Z.eqb_eq in Y. now elim (V _ X).
Qed.
(** No viapoint for a later one: the viapoint of the previous flight is used, be it of another end-effector.  Here end-effector 1 flies over the viapoint of end-effector 0. *)
Definition st_cs (eff : nat) : list contact := match eff with O | 1%nat => [ex_c 0 3 1] | _ => [] end.
Definition st_vias (eff : nat) : list viapoint := match eff with O => [(0%Z, V3 5 6 7)] | _ => [] end.
Definition st_ini : dstate := Dyn 1 v0 v0 v0 v0 v0 (fun _ => Eff true 0 0 v0 v0 v0 qone v0 v0 v0 v0).
Definition st_l : list dstate := map (fun b => Dyn 1 v0 v0 v0 v0 v0 (fun _ => Eff b 0 0 v0 v0 v0 qone v0 v0 v0 v0)) [true; true; false; false].
Theorem C60_stale_viapoint_refuted : exists l', updateEndeffectorTrajectories swing_qr 4 st_cs st_vias st_ini v0 true st_l = Ok l' /\ st_vias 1 = [] /\
  flies st_l l' 1 2 3 (V3 1 0 0) qone (V3 5 6 7) v0 qone.
Proof.
  assert (P : forall d, In d st_l -> 0 < d_time d) by (intros d [<-|[<-|[<-|[<-|[]]]]]; cbn; lra).
  assert (ACT : forall eff t, (t < 4)%nat -> active st_l eff t <-> (t < 2)%nat). { intros eff t Ht. unfold active, at_step, st_l. do 4 (destruct t as [|t]; [cbn; split; intros; (reflexivity || lia || discriminate)|]). lia. }
  assert (IV : forall eff, intervals st_l eff 1 (fun _ => 0%nat) (fun _ => 2%nat)).
  { intros eff. constructor. - intros; cbn; lia. - intros; lia. - intros t Ht. rewrite ACT by exact Ht. split; [intros; exists 0%nat; lia|intros (k & ? & ?); lia]. }
  assert (OK : plan_ok st_l st_ini 0 (st_cs 0) (st_vias 0) (fun _ => V3 5 6 7) (fun _ => 0%nat) (fun _ => 2%nat)).
  { constructor; cbn [st_cs st_vias length Nat.sub]; try (cbn; discriminate); try (intros; lia). - apply IV. - right. cbn. lia.
    - intros _. exists [], []. split; [reflexivity|]. intros x []. }
  destruct (eff_ok swing_qr st_cs st_vias st_ini v0 0 st_l (fun _ => V3 5 6 7) (fun _ => 0%nat) (fun _ => 2%nat) swing_qr_solves P OK ltac:(cbn; lia) None) as ([l1 v1] & E1 & F1 & _ & V1). cbn [fst snd] in *.
  assert (V : v1 = Some (V3 5 6 7)) by (apply V1; cbn; lia). subst v1.
  set (vias2 := fun eff : nat => match eff with 1%nat => [(0%Z, V3 5 6 7)] | _ => [] end).
  assert (OK2 : plan_ok l1 st_ini 1 (st_cs 1) (vias2 1%nat) (fun _ => V3 5 6 7) (fun _ => 0%nat) (fun _ => 2%nat)).
  { eapply plan_framed; [exact F1|]. constructor; cbn [st_cs vias2 length Nat.sub]; try (cbn; discriminate); try (intros; lia). - apply IV. - right. cbn. lia.
    - intros _. exists [], []. split; [reflexivity|]. intros x []. }
  destruct (eff_ok swing_qr st_cs vias2 st_ini v0 1 l1 (fun _ => V3 5 6 7) (fun _ => 0%nat) (fun _ => 2%nat) swing_qr_solves (framed_positive _ _ _ F1 P) OK2 ltac:(cbn; lia) (Some (V3 5 6 7))) as ([l2 v2] & E2 & F2 & H2 & _). cbn [fst snd] in *.
  rewrite (fr_len _ _ _ F1) in E2. change (length st_l) with 4%nat in *.
  assert (E2' : flight_eff swing_qr 4 st_cs st_vias st_ini v0 (l1, Some (V3 5 6 7)) 1 = Ok (l2, v2)) by (rewrite <- E2; reflexivity).
  exists l2. split; [|split; [reflexivity|]].
  - unfold updateEndeffectorTrajectories. change (seq 0 n_endeffs) with [0; 1; 2; 3]%nat. cbn [foldM]. rewrite E1. cbn [bind]. rewrite E2'. cbn [bind]. reflexivity.
  - pose proof (flown_before _ _ _ _ _ _ _ _ _ _ _ F1 H2) as G. pose proof (fl_last _ _ _ _ _ _ _ _ _ G _ eq_refl ltac:(cbn; lia)) as Q. cbn in Q. unfold vadd in Q. cbn in Q.
    replace (V3 (0 + 0) (0 + 0) (0 + 0)) with v0 in Q by (unfold v0; f_equal; ring). exact Q.
Qed.
Print Assumptions C60_no_break_refuted.
Print Assumptions C60_initially_inactive_refuted.
Print Assumptions C60_missing_viapoint_refuted.
Print Assumptions C60_stale_viapoint_refuted.

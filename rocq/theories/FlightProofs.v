(** * Flight phases: values of a swing, one phase *)
From Coq Require Import Reals List Arith ZArith Bool Lia Lra.
Import ListNotations.
From Verif Require Import Base BaseProofs Vec3 CntModel CntProofs Hermite TrajModel TrajSpec TrajProofs FlightModel FlightSpec.
Local Open Scope R_scope.

(** ** One swing *)
Lemma dir_values : forall qr t0 x0 t1 x1 v, solves_swings qr -> t0 < t1 -> 0 < t0 -> exists it p w a, traj_dir qr t0 x0 t1 x1 v = Ok it /\
  (forall u, p u = swing x0 v x1 ((u - t0) / (t1 - t0))) /\ (forall u, derivable_pt_lim p u (w u)) /\ (forall u, derivable_pt_lim w u (a u)) /\
  forall t, t0 <= t <= t1 -> interpolate it t = (Some (p t), Some (w t), Some (a t)).
Proof.
  intros qr t0 x0 t1 x1 v Hqr Hlt Hp. unfold traj_dir. fold (swing_pos t0 x0 t1 x1 v). fold (swing_d t0 t1).
  destruct (init_interp qr (swing_pos t0 x0 t1 x1 v) (swing_d t0 t1) (swing_d t0 t1)) as [it| |] eqn:E; [|discriminate E|discriminate E].
  destruct (init_span _ _ _ _ _ E) as (Hn & Hc & _). change (length _ + length _ + length _)%nat with 7%nat in Hn.
  assert (S : solution 7 (reg_matrix (swing_pos t0 x0 t1 x1 v) (swing_d t0 t1) (swing_d t0 t1)) (reg_vector (swing_pos t0 x0 t1 x1 v) (swing_d t0 t1) (swing_d t0 t1)) (coeffs it)).
  { rewrite Hc, Hn. apply (Hqr t0 x0 t1 x1 v Hlt). apply swing_regular. lra. }
  assert (R : rest_to_rest (coeffs it) t0 t1 x0 v x1) by now apply swing_solution.
  assert (SP : span0 it = t0 /\ span1 it = t1).
  { cbn in E. injection E as <-. cbn [span0 span1]. unfold Rmin, Rmax. repeat (destruct Rle_dec); lra. }
  destruct SP as [S0 S1].
  exists it, (pval 7 (coeffs it)), (pder 7 (coeffs it)), (pder2 7 (coeffs it)). split; [reflexivity|].
  split; [intros u; rewrite (hermite _ t0 t1 x0 v x1 ltac:(lra) R); apply swing_eq|]. split; [intros; apply pval_deriv|]. split; [intros; apply pder_deriv|].
  intros t Ht. assert (Q : query_time it t = t) by (apply query_inside; lra).
  pose proof (position_is it t) as P1. pose proof (velocity_is it t ltac:(rewrite Q; lra)) as P2. pose proof (acceleration_is it t ltac:(rewrite Q; lra)) as P3.
  rewrite Q, Hn in P1, P2, P3. unfold position in P1. unfold velocity in P2. unfold acceleration in P3. destruct (interpolate it t) as [[i1 i2] i3]. cbn [fst snd] in *. now subst.
Qed.
Lemma deriv_ext : forall f g x l, (forall u, f u = g u) -> derivable_pt_lim f x l -> derivable_pt_lim g x l.
Proof. intros f g x l E D e He. destruct (D e He) as (d & H). exists d. intros h A B. rewrite <- !E. now apply H. Qed.
Lemma swing_values : forall qr t0 p0 t1 p1 v, solves_swings qr -> t0 < t1 -> 0 < t0 -> exists tr, traj_init qr t0 p0 t1 p1 v = Ok tr /\
  forall t, t0 <= t <= t1 -> exists u, sw_values tr t = Ok u /\ forall e o, on_swing t0 t1 p0 v p1 t (fly e (fst (fst u)) (snd (fst u)) (snd u) o).
Proof.
  intros qr t0 p0 t1 p1 v Hqr Hlt Hp. unfold traj_init.
  destruct (dir_values qr t0 (vx p0) t1 (vx p1) (vx v) Hqr Hlt Hp) as (i0 & f0 & w0 & a0 & -> & A0 & B0 & C0 & D0).
  destruct (dir_values qr t0 (vy p0) t1 (vy p1) (vy v) Hqr Hlt Hp) as (i1 & f1 & w1 & a1 & -> & A1 & B1 & C1 & D1).
  destruct (dir_values qr t0 (vz p0) t1 (vz p1) (vz v) Hqr Hlt Hp) as (i2 & f2 & w2 & a2 & -> & A2 & B2 & C2 & D2).
  cbn [bind]. eexists. split; [reflexivity|]. intros t Ht. unfold sw_values, traj_update, vec_of, fin. cbv zeta.
  rewrite (D0 t Ht), (D1 t Ht), (D2 t Ht). cbn [fst snd bind]. eexists. split; [reflexivity|]. cbn [fst snd]. intros e o i Hi. cbv zeta.
  destruct i as [|[|[|i]]]; [..|lia]; cbn [vget3 fly e_pos e_vel e_acc vx vy vz].
  - split; [apply A0|]. exists w0. split; [intros u; apply (deriv_ext f0); auto|]. split; auto.
  - split; [apply A1|]. exists w1. split; [intros u; apply (deriv_ext f1); auto|]. split; auto.
  - split; [apply A2|]. exists w2. split; [intros u; apply (deriv_ext f2); auto|]. split; auto.
Qed.

(** ** Times *)
Lemma map_time_clock : forall l n, (n <= length l)%nat -> map_time l n = Ok (clock l n).
Proof.
  unfold map_time, clock. intros l n. induction n; intros H; [reflexivity|]. rewrite seq_S, foldM_append, IHn by lia. cbn [bind Nat.add foldM].
  rewrite (vget_nth l n dstate_new) by lia. reflexivity.
Qed.
Definition positive (l : list dstate) : Prop := forall d, In d l -> 0 < d_time d.
Lemma clock_pos : forall l n, positive l -> (0 < n <= length l)%nat -> 0 < clock l n.
Proof.
  intros l n P H. unfold clock. destruct n; [lia|]. rewrite rsum_S. assert (0 < d_time (nth n l dstate_new)) by (apply P, nth_In; lia).
  assert (0 <= rsum n (fun t => d_time (nth t l dstate_new))) by (apply rsum_nonneg; intros; apply Rlt_le, P, nth_In; lia). lra.
Qed.
Lemma clock_lt : forall l a b, positive l -> (a < b <= length l)%nat -> clock l a < clock l b.
Proof.
  intros l a b P H. unfold clock. replace b with (a + S (b - a - 1))%nat by lia. rewrite rsum_split, rsum_S.
  assert (0 < d_time (nth (a + (b - a - 1)) l dstate_new)) by (apply P, nth_In; lia).
  assert (0 <= rsum (b - a - 1) (fun i => d_time (nth (a + i) l dstate_new))) by (apply rsum_nonneg; intros; apply Rlt_le, P, nth_In; lia). lra.
Qed.
Lemma clock_le : forall l a b, positive l -> (a <= b <= length l)%nat -> clock l a <= clock l b.
Proof. intros l a b P H. destruct (Nat.eq_dec a b) as [->|N]; [lra|]. apply Rlt_le, clock_lt; [exact P|lia]. Qed.

(** ** Frames *)
Lemma framed_refl : forall W l, framed W l l.
Proof. intros. constructor; auto. - intros; cbv zeta; tauto. - intros; unfold keeps; tauto. Qed.
Lemma keeps_trans : forall a b c, keeps a b -> keeps b c -> keeps a c.
Proof. unfold keeps. intros a b c (?&?&?&?&?&?&?) (?&?&?&?&?&?&?). repeat split; congruence. Qed.
Lemma framed_trans : forall (W W' : nat -> nat -> Prop) l1 l2 l3, framed W l1 l2 -> framed W' l2 l3 -> framed (fun e t => W e t \/ W' e t) l1 l3.
Proof.
  intros W W' l1 l2 l3 A B. constructor.
  - rewrite (fr_len _ _ _ B). apply A.
  - intros t. pose proof (fr_rest _ _ _ A t) as X. pose proof (fr_rest _ _ _ B t) as Y. cbv zeta in *. destruct X as (?&?&?&?&?&?), Y as (?&?&?&?&?&?). repeat split; congruence.
  - intros t e. apply (keeps_trans _ (at_step l2 t e)); [apply B|apply A].
  - intros t e N. rewrite (fr_same _ _ _ B) by tauto. apply A. tauto.
Qed.
Lemma framed_weaken : forall (W W' : nat -> nat -> Prop) l1 l2, (forall e t, W e t -> W' e t) -> framed W l1 l2 -> framed W' l1 l2.
Proof. intros W W' l1 l2 I A. constructor; try apply A. intros t e N. apply A. intros X. now apply N, I. Qed.
Lemma framed_clock : forall W l l', framed W l l' -> forall n, clock l' n = clock l n.
Proof. intros W l l' A n. unfold clock. apply rsum_ext. intros t _. apply (fr_rest _ _ _ A t). Qed.
Lemma framed_active : forall W l l', framed W l l' -> forall e t, active l' e t <-> active l e t.
Proof. intros W l l' A e t. unfold active. pose proof (fr_keep _ _ _ A t e) as (-> & _). tauto. Qed.
Lemma framed_positive : forall W l l', framed W l l' -> positive l -> positive l'.
Proof.
  intros W l l' A P d Hd. apply (In_nth _ _ dstate_new) in Hd. destruct Hd as (t & Ht & <-). pose proof (fr_rest _ _ _ A t) as X. cbv zeta in X. destruct X as (-> & _).
  apply P, nth_In. now rewrite <- (fr_len _ _ _ A).
Qed.
Lemma flies_before : forall W l0 l l' eff a b p0 q0 v p1 q1, framed W l0 l -> flies l l' eff a b p0 q0 v p1 q1 -> flies l0 l' eff a b p0 q0 v p1 q1.
Proof. intros W l0 l l' eff a b p0 q0 v p1 q1 F H t Ht. specialize (H t Ht). now rewrite !(framed_clock _ _ _ F) in H. Qed.
Lemma flies_after : forall (W : nat -> nat -> Prop) l l1 l2 eff a b p0 q0 v p1 q1, framed W l1 l2 -> (forall t, (a <= t <= b)%nat -> ~ W eff t) ->
  flies l l1 eff a b p0 q0 v p1 q1 -> flies l l2 eff a b p0 q0 v p1 q1.
Proof. intros W l l1 l2 eff a b p0 q0 v p1 q1 F N H t Ht. rewrite (fr_same _ _ _ F) by now apply N. now apply H. Qed.

(** ** Writing a phase *)
Lemma set_framed : forall l t eff e, (t < length l)%nat -> keeps e (at_step l t eff) ->
  framed (fun e' t' => e' = eff /\ t' = t) l (set_nth l t (set_eff (nth t l dstate_new) eff e)) /\ at_step (set_nth l t (set_eff (nth t l dstate_new) eff e)) t eff = e.
Proof.
  intros l t eff e Ht K. split.
  - constructor.
    + apply set_nth_length.
    + intros t'. cbv zeta. rewrite set_nth_nth by easy. destruct (Nat.eqb_spec t' t) as [->|N]; [|tauto]. cbn [set_eff d_time d_com d_lmom d_amom d_lmomd d_amomd]. tauto.
    + intros t' e'. unfold at_step in *. rewrite set_nth_nth by easy. destruct (Nat.eqb_spec t' t) as [->|N]; [|unfold keeps; tauto].
      cbn [set_eff d_eff]. unfold upd. destruct (Nat.eqb_spec e' eff) as [->|]; [exact K|unfold keeps; tauto].
    + intros t' e' N. unfold at_step. rewrite set_nth_nth by easy. destruct (Nat.eqb_spec t' t) as [->|N']; [|easy].
      cbn [set_eff d_eff]. unfold upd. destruct (Nat.eqb_spec e' eff) as [->|]; [tauto|easy].
  - unfold at_step. rewrite set_nth_nth by easy. rewrite Nat.eqb_refl. cbn [set_eff d_eff]. unfold upd. now rewrite Nat.eqb_refl.
Qed.
Lemma slerp_time_is : forall a b t, (a <= t <= b)%nat -> slerp_time a b t = Rmin (2 * INR (t - a) / INR (S b - a)) 1.
Proof. intros a b t H. unfold slerp_time. rewrite !minus_INR by lia. now rewrite S_INR. Qed.
Lemma generate : forall tr eff a b p0 v p1 q0 q1 l m, (b < length l)%nat -> (a + m <= S b)%nat -> 
  (forall t, clock l (S a) <= t <= clock l (S b) -> exists u, sw_values tr t = Ok u /\ forall e o, on_swing (clock l (S a)) (clock l (S b)) p0 v p1 t (fly e (fst (fst u)) (snd (fst u)) (snd u) o)) ->
  positive l ->
  exists l', foldM (fly_step tr eff a b q0 q1) (seq a m) l = Ok l' /\ framed (fun e t => e = eff /\ (a <= t < a + m)%nat) l l' /\
    forall t, (a <= t < a + m)%nat -> on_swing (clock l (S a)) (clock l (S b)) p0 v p1 (clock l (S t)) (at_step l' t eff) /\
      e_ori (at_step l' t eff) = slerp q0 (Rmin (2 * INR (t - a) / INR (S b - a)) 1) q1.
Proof.
  intros tr eff a b p0 v p1 q0 q1 l m Hb Hm Hv P. induction m.
  - exists l. split; [reflexivity|]. split; [apply framed_refl|]. intros; lia.
  - destruct (IHm ltac:(lia)) as (l1 & E & F & H). rewrite seq_S, foldM_append, E. cbn [bind foldM]. set (t := (a + m)%nat) in *. assert (Et : t = (a + m)%nat) by reflexivity. clearbody t. unfold fly_step.
    rewrite map_time_clock by (rewrite (fr_len _ _ _ F); lia). cbn [bind]. rewrite (framed_clock _ _ _ F).
    destruct (Hv (clock l (S t))) as (u & -> & Hu). { split; apply clock_le; try exact P; lia. }
    cbn [bind]. rewrite (vget_nth l1 t dstate_new) by (rewrite (fr_len _ _ _ F); lia). cbn [bind]. rewrite vset_nth by (rewrite (fr_len _ _ _ F); lia). cbn [bind].
    set (x := fly _ _ _ _ _). destruct (set_framed l1 t eff x) as [F2 V]. { rewrite (fr_len _ _ _ F); lia. } { unfold x, keeps, fly. cbn. tauto. }
    eexists. split; [reflexivity|]. split.
    + eapply framed_weaken; [|exact (framed_trans _ _ _ _ _ F F2)]. cbn beta. intros e t' [[-> ?]|[-> ->]]; split; auto; lia.
    + intros t' Ht'. destruct (Nat.eq_dec t' t) as [->|N].
      * rewrite V. split; [apply Hu|]. unfold x. cbn [fly e_ori]. now rewrite slerp_time_is by lia.
      * rewrite (fr_same _ _ _ F2) by tauto. apply H. lia.
Qed.
Lemma find_via_is : forall vs k v old, first_via vs k v -> find_via vs k old = Some v.
Proof.
  intros vs k v old (pre & post & -> & H). unfold find_via. induction pre as [|x pre IH]; cbn [app find].
  - cbn [fst]. rewrite Z.eqb_refl. reflexivity.
  - destruct (Z.eqb_spec (fst x) k) as [E|N]; [exfalso; apply (H x); [now left|exact E]|]. apply IH. intros y Hy. apply H. now right.
Qed.
Lemma phase_any : forall qr vias eff a b p0 q0 p1 q1 cnt l via v, solves_swings qr -> find_via (vias eff) cnt via = Some v -> (a < b < length l)%nat -> positive l ->
  exists l', phase qr vias eff a b p0 q0 p1 q1 cnt l via = Ok (l', Some v) /\ framed (fun e t => e = eff /\ (a <= t <= b)%nat) l l' /\ flies l l' eff a b p0 q0 v p1 q1.
Proof.
  intros qr vias eff a b p0 q0 p1 q1 cnt l via v Hqr Hv Hab P. unfold phase. rewrite Hv, !map_time_clock by lia. cbn [bind].
  destruct (swing_values qr (clock l (S a)) p0 (clock l (S b)) p1 v Hqr) as (tr & -> & Ht). { apply clock_lt; [exact P|lia]. } { apply clock_pos; [exact P|lia]. }
  cbn [bind]. unfold generateFlightPhase.
  destruct (generate tr eff a b p0 v p1 q0 q1 l (S b - a) ltac:(lia) ltac:(lia) Ht P) as (l' & -> & F & H). cbn [bind].
  exists l'. split; [reflexivity|]. split; [eapply framed_weaken; [|exact F]; cbn beta; intros e t [-> ?]; split; auto; lia|]. intros t Ht'. apply H. lia.
Qed.
Lemma phase_ok : forall qr vias eff a b p0 q0 p1 q1 cnt l via v, solves_swings qr -> first_via (vias eff) cnt v -> (a < b < length l)%nat -> positive l ->
  exists l', phase qr vias eff a b p0 q0 p1 q1 cnt l via = Ok (l', Some v) /\ framed (fun e t => e = eff /\ (a <= t <= b)%nat) l l' /\ flies l l' eff a b p0 q0 v p1 q1.
Proof. intros. apply phase_any; auto. now apply find_via_is. Qed.

(** ** Searching *)
Lemma skipn_nth {A} : forall (l : list A) i d, (i < length l)%nat -> skipn i l = nth i l d :: skipn (S i) l.
Proof. induction l; intros [|i] d H; cbn in H; try lia; [reflexivity|]. cbn [skipn nth]. apply IHl. lia. Qed.
Lemma on_active : forall l eff t, on eff (nth t l dstate_new) = true <-> active l eff t.
Proof. intros. unfold on, active, at_step. tauto. Qed.
Lemma on_inactive : forall l eff t, on eff (nth t l dstate_new) = false <-> ~ active l eff t.
Proof. intros. rewrite <- on_active. destruct (on eff (nth t l dstate_new)); split; congruence. Qed.
Lemma find_make_is : forall l eff i start, (start <= i)%nat -> (S i < length l)%nat -> ~ active l eff i -> active l eff (S i) ->
  (forall j, (start <= j < i)%nat -> active l eff j \/ ~ active l eff (S j)) -> findMakeContactId l start eff = Ok i.
Proof.
  intros l eff i. assert (G : forall m start, (m = i - start)%nat -> (start <= i)%nat -> (S i < length l)%nat -> ~ active l eff i -> active l eff (S i) ->
    (forall j, (start <= j < i)%nat -> active l eff j \/ ~ active l eff (S j)) -> findMakeContactId l start eff = Ok i).
  2:{ intros. eapply G; eauto. }
  unfold findMakeContactId. induction m; intros start Em Hs Hi A B N.
  - assert (start = i) by lia. subst start. rewrite (skipn_nth l i dstate_new), (skipn_nth l (S i) dstate_new) by lia. cbn [find_make].
    apply on_inactive in A. apply on_active in B. now rewrite A, B.
  - rewrite (skipn_nth l start dstate_new) by lia. specialize (IHm (S start) ltac:(lia) ltac:(lia) Hi A B). rewrite (skipn_nth l (S start) dstate_new) in * by lia. cbn [find_make] in *.
    replace (negb (on eff (nth start l dstate_new)) && on eff (nth (S start) l dstate_new)) with false; [apply IHm; intros; apply N; lia|].
    destruct (N start ltac:(lia)) as [X|X]; [apply on_active in X; now rewrite X|apply on_inactive in X; now rewrite X, andb_false_r].
Qed.
Lemma find_break_is : forall l eff i start, (start <= i)%nat -> (S i < length l)%nat -> active l eff i -> ~ active l eff (S i) ->
  (forall j, (start <= j < i)%nat -> ~ active l eff j \/ active l eff (S j)) -> findBreakContactId l start eff = Ok (S i).
Proof.
  intros l eff i. assert (G : forall m start, (m = i - start)%nat -> (start <= i)%nat -> (S i < length l)%nat -> active l eff i -> ~ active l eff (S i) ->
    (forall j, (start <= j < i)%nat -> ~ active l eff j \/ active l eff (S j)) -> findBreakContactId l start eff = Ok (S i)).
  2:{ intros. eapply G; eauto. }
  unfold findBreakContactId. induction m; intros start Em Hs Hi A B N.
  - assert (start = i) by lia. subst start. rewrite (skipn_nth l i dstate_new), (skipn_nth l (S i) dstate_new) by lia. cbn [find_break].
    apply on_inactive in B. apply on_active in A. now rewrite A, B.
  - rewrite (skipn_nth l start dstate_new) by lia. specialize (IHm (S start) ltac:(lia) ltac:(lia) Hi A B). rewrite (skipn_nth l (S start) dstate_new) in * by lia. cbn [find_break] in *.
    replace (on eff (nth start l dstate_new) && negb (on eff (nth (S start) l dstate_new))) with false; [apply IHm; intros; apply N; lia|].
    destruct (N start ltac:(lia)) as [X|X]; [apply on_inactive in X; now rewrite X|apply on_active in X; now rewrite X, andb_false_r].
Qed.
(** Nothing to find: the search leaves the vector. *)
Lemma find_make_none : forall l eff start, (forall j, (start <= j)%nat -> (S j < length l)%nat -> active l eff j \/ ~ active l eff (S j)) -> findMakeContactId l start eff = UB.
Proof.
  intros l eff. assert (G : forall m start, (m = length l - start)%nat -> (forall j, (start <= j)%nat -> (S j < length l)%nat -> active l eff j \/ ~ active l eff (S j)) -> findMakeContactId l start eff = UB).
  2:{ intros. eapply G; eauto. }
  unfold findMakeContactId. induction m; intros start Em N.
  - rewrite skipn_all2 by lia. reflexivity.
  - rewrite (skipn_nth l start dstate_new) by lia. specialize (IHm (S start) ltac:(lia) ltac:(intros; apply N; lia)). destruct (le_lt_dec (length l) (S start)) as [L|L].
    + rewrite skipn_all2 by lia. reflexivity.
    + rewrite (skipn_nth l (S start) dstate_new) in * by lia. cbn [find_make] in *. replace (negb (on eff (nth start l dstate_new)) && on eff (nth (S start) l dstate_new)) with false; [exact IHm|].
      destruct (N start ltac:(lia) ltac:(lia)) as [X|X]; [apply on_active in X; now rewrite X|apply on_inactive in X; now rewrite X, andb_false_r].
Qed.
Lemma find_break_none : forall l eff start, (forall j, (start <= j)%nat -> (S j < length l)%nat -> ~ active l eff j \/ active l eff (S j)) -> findBreakContactId l start eff = UB.
Proof.
  intros l eff. assert (G : forall m start, (m = length l - start)%nat -> (forall j, (start <= j)%nat -> (S j < length l)%nat -> ~ active l eff j \/ active l eff (S j)) -> findBreakContactId l start eff = UB).
  2:{ intros. eapply G; eauto. }
  unfold findBreakContactId. induction m; intros start Em N.
  - rewrite skipn_all2 by lia. reflexivity.
  - rewrite (skipn_nth l start dstate_new) by lia. specialize (IHm (S start) ltac:(lia) ltac:(intros; apply N; lia)). destruct (le_lt_dec (length l) (S start)) as [L|L].
    + rewrite skipn_all2 by lia. reflexivity.
    + rewrite (skipn_nth l (S start) dstate_new) in * by lia. cbn [find_break] in *. replace (on eff (nth start l dstate_new) && negb (on eff (nth (S start) l dstate_new))) with false; [exact IHm|].
      destruct (N start ltac:(lia) ltac:(lia)) as [X|X]; [apply on_inactive in X; now rewrite X|apply on_active in X; now rewrite X, andb_false_r].
Qed.

(** ** Contact intervals *)
Section Intervals.
  Variables (l : list dstate) (eff n : nat) (start stop : nat -> nat).
  Hypothesis IV : intervals l eff n start stop.
  Lemma iv_mono : forall k j, (j < k < n)%nat -> (stop j + 2 <= start k)%nat.
  Proof.
    induction k; intros j H; [lia|]. pose proof (iv_gap _ _ _ _ _ IV k ltac:(lia)). destruct (Nat.eq_dec j k) as [->|]; [easy|].
    specialize (IHk j ltac:(lia)). pose proof (iv_len _ _ _ _ _ IV k ltac:(lia)). lia.
  Qed.
  Lemma iv_on : forall k t, (k < n)%nat -> (start k <= t < stop k)%nat -> active l eff t.
  Proof. intros k t Hk Ht. pose proof (iv_len _ _ _ _ _ IV k Hk). apply (iv_act _ _ _ _ _ IV); [lia|]. now exists k. Qed.
  Lemma iv_off : forall k t, (k < n)%nat -> (t < length l)%nat -> (stop k <= t)%nat -> ((S k < n)%nat -> (t < start (S k))%nat) -> ~ active l eff t.
  Proof.
    intros k t Hk Ht A B X. apply (iv_act _ _ _ _ _ IV t Ht) in X. destruct X as (j & Hj & Hi). pose proof (iv_len _ _ _ _ _ IV k Hk).
    destruct (lt_eq_lt_dec j k) as [[L| ->]|G]; [|lia|]. - pose proof (iv_mono k j ltac:(lia)). lia.
    - destruct (Nat.eq_dec j (S k)) as [->|N]; [specialize (B Hj); lia|]. specialize (B ltac:(lia)). pose proof (iv_mono j (S k) ltac:(lia)).
      pose proof (iv_len _ _ _ _ _ IV (S k) ltac:(lia)). lia.
  Qed.
  Lemma iv_before : forall t, (0 < n)%nat -> (t < start 0)%nat -> ~ active l eff t.
  Proof.
    intros t Hn Ht X. pose proof (iv_len _ _ _ _ _ IV 0%nat Hn). apply (iv_act _ _ _ _ _ IV t ltac:(lia)) in X. destruct X as (j & Hj & Hi).
    destruct j; [lia|]. pose proof (iv_mono (S j) 0%nat ltac:(lia)). lia.
  Qed.
End Intervals.
Lemma intervals_framed : forall W l l' eff n start stop, framed W l l' -> intervals l eff n start stop -> intervals l' eff n start stop.
Proof.
  intros W l l' eff n start stop F I. constructor; rewrite ?(fr_len _ _ _ F); try apply I. intros t Ht. rewrite (framed_active _ _ _ F). now apply I.
Qed.

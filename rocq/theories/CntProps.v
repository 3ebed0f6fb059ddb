(** * C30, C31: the contact schedule on the time grid *)
From Coq Require Import Reals List Arith ZArith Bool Lia Lra.
Import ListNotations.
From Verif Require Import Base BaseProofs Vec3 CntModel CntSpec CntProofs.
Local Open Scope R_scope.

(** Every plan, horizon, time step (of any sign) and sequence with at least N states: the call does not access anything outside the sequence; an
    effector is active at step t < N iff it was before or a selected contact holds there; the entry of an active step is that of the last such contact
    of the list; steps with no contact, steps from N on and all other quantities are untouched. *)
Theorem C30_sampling : forall N dt cs q, (N <= length (states q))%nat ->
  exists q', fillDynamicsSequence N dt cs q = Ok q' /\ length (states q') = length (states q) /\
  (forall eff t, (eff < n_endeffs)%nat -> (t < N)%nat ->
     (e_act (look q' eff t) = true <-> e_act (look q eff t) = true \/ exists k c, scheduled dt (cs eff) k c t)) /\
  (forall eff t k c, (eff < n_endeffs)%nat -> (t < N)%nat -> scheduled dt (cs eff) k c t -> (forall k' c', (k < k')%nat -> ~ scheduled dt (cs eff) k' c' t) ->
     e_cid (look q' eff t) = Z.of_nat k /\ e_pos (look q' eff t) = c_pos c /\ e_ori (look q' eff t) = c_ori c) /\
  (forall eff t, (forall k c, ~ scheduled dt (cs eff) k c t) \/ (N <= t)%nat -> look q' eff t = look q eff t) /\
  (forall t, d_time (nth t (states q') dstate_new) = d_time (nth t (states q) dstate_new) /\ d_com (nth t (states q') dstate_new) = d_com (nth t (states q) dstate_new) /\
     d_lmom (nth t (states q') dstate_new) = d_lmom (nth t (states q) dstate_new) /\ d_amom (nth t (states q') dstate_new) = d_amom (nth t (states q) dstate_new)) /\
  (forall eff t, e_frc (look q' eff t) = e_frc (look q eff t) /\ e_trq (look q' eff t) = e_trq (look q eff t) /\ e_cop (look q' eff t) = e_cop (look q eff t)).
Proof.
  intros N dt cs q H. destruct (fill_spec N dt cs q H) as (q' & E & HL & HD & HE & HA). exists q'. split; [exact E|]. split; [exact HL|].
  assert (SH : forall eff t, (exists k c, scheduled dt (cs eff) k c t) <-> exists c, In c (cs eff) /\ hits dt c t = true).
  { intros eff t. split.
    - intros (k & c & Hn & Hs & Hi). exists c. split; [eapply nth_error_In; eauto|]. now apply hits_iff.
    - intros (c & Hc & Hh). apply In_nth_error in Hc. destruct Hc as (k & Hk). apply hits_iff in Hh. exists k, c. split; easy. }
  split; [|split; [|split; [|split]]].
  - intros eff t He Ht. rewrite HE. apply Nat.ltb_lt in He, Ht. rewrite He, Ht. cbn [andb]. rewrite final_act, SH. reflexivity.
  - intros eff t k c He Ht (Hn & Hs & Hi) Hlast. rewrite HE. apply Nat.ltb_lt in He, Ht. rewrite He, Ht. cbn [andb].
    destruct (in_split_nth _ _ _ Hn) as (pre & post & Ec & Ep). rewrite Ec.
    destruct (final_last dt N pre c post 0 0 t (look q eff t)) as (e' & -> & _).
    + now apply hits_iff.
    + intros c' Hc'. apply not_true_is_false. intros Hh. apply hits_iff in Hh. apply In_nth_error in Hc'. destruct Hc' as (j & Hj).
      apply (Hlast (length pre + S j)%nat c'); [lia|]. split; [rewrite Ec; now apply nth_post|easy].
    + cbn [mark e_cid e_pos e_ori]. repeat split. f_equal. lia.
  - intros eff t Hn. rewrite HE. destruct ((eff <? n_endeffs)%nat && (t <? N)%nat)%bool eqn:B; [|easy]. apply andb_true_iff in B. destruct B as [_ B]. apply Nat.ltb_lt in B.
    destruct Hn as [Hn|Hn]; [|lia]. apply final_none. intros c Hc. apply not_true_is_false. intros Hh. destruct (proj2 (SH eff t)) as (k & c' & S); [eauto|]. eapply Hn; eauto.
  - intros t. destruct (HD t) as (a1&a2&a3&a4&_). auto.
  - intros eff t. rewrite HE. destruct ((eff <? n_endeffs)%nat && (t <? N)%nat)%bool; [|auto].
    assert (G : forall l k0 c0 e, e_frc (final_eff dt N l k0 c0 t e) = e_frc e /\ e_trq (final_eff dt N l k0 c0 t e) = e_trq e /\ e_cop (final_eff dt N l k0 c0 t e) = e_cop e).
    { induction l; intros; cbn [final_eff]; auto. destruct (IHl (S k0) (c0 + Z.of_nat (count (hits dt a) N))%Z (if hits dt a t then mark e (Z.of_nat k0) (c0 + Z.of_nat (count (hits dt a) t)) a else e)) as (-> & -> & ->). now destruct (hits dt a t). }
    apply G.
Qed.
(** The claim of C30: on a freshly sized sequence, with contacts of an effector that exclude each other, active iff scheduled, with that contact. *)
Theorem C30_fresh_sequence : forall N dt cs q0, (forall eff, (eff < n_endeffs)%nat -> exclusive dt (cs eff) N) ->
  exists q', fillDynamicsSequence N dt cs (dresize N q0) = Ok q' /\
  forall eff t, (eff < n_endeffs)%nat -> (t < N)%nat ->
   (e_act (look q' eff t) = true <-> exists k c, scheduled dt (cs eff) k c t) /\
   (forall k c, scheduled dt (cs eff) k c t -> e_cid (look q' eff t) = Z.of_nat k /\ e_pos (look q' eff t) = c_pos c /\ e_ori (look q' eff t) = c_ori c) /\
   ((forall k c, ~ scheduled dt (cs eff) k c t) -> e_cid (look q' eff t) = (-1)%Z).
Proof.
  intros N dt cs q0 HX. destruct (C30_sampling N dt cs (dresize N q0)) as (q' & E & _ & HA & HC & HN & _). { cbn [dresize states]. rewrite repeat_length. lia. }
  exists q'. split; [exact E|]. intros eff t He Ht.
  assert (F : look (dresize N q0) eff t = eff_new).
  { unfold look, dresize. cbn [states]. replace (nth t (repeat dstate_new N) dstate_new) with dstate_new; [reflexivity|].
    destruct (nth_in_or_default t (repeat dstate_new N) dstate_new) as [I|I]; [symmetry; eapply repeat_spec; exact I | now symmetry]. }
  split; [|split].
  - rewrite HA, F by easy. cbn [eff_new e_act]. split; [intros [Bad|S]; [discriminate|exact S]|auto].
  - intros k c S. apply HC; auto. intros k' c' L S'. pose proof (HX eff He k k' c c' t Ht S S'). lia.
  - intros Hn. rewrite HN by auto. rewrite F. reflexivity.
Qed.
(** C31: the activation number of a scheduled step is the number of earlier scheduled steps, and the stored total is the number of scheduled steps. *)
Theorem C31_numbering : forall N dt cs q eff, 0 < dt -> (N <= length (states q))%nat -> (eff < n_endeffs)%nat -> ordered (cs eff) ->
  forall holds, (forall t, holds t = true <-> exists k c, scheduled dt (cs eff) k c t) ->
  exists q', fillDynamicsSequence N dt cs q = Ok q' /\
  (forall t, (t < N)%nat -> holds t = true -> e_aid (look q' eff t) = Z.of_nat (count holds t)) /\
  act_steps q' eff = Z.of_nat (count holds N).
Proof.
  intros N dt cs q eff Hdt HN He Ho holds Hh. destruct (fill_spec N dt cs q HN) as (q' & E & HL & HD & HE & HA). exists q'. split; [exact E|].
  assert (SH : forall t, holds t = any dt (cs eff) t).
  { intros t. apply eq_true_iff_eq. rewrite Hh, any_iff. split.
    - intros (k & c & Hn & Hs & Hi). exists c. split; [eapply nth_error_In; eauto|]. now apply hits_iff.
    - intros (c & Hc & Hx). apply In_nth_error in Hc. destruct Hc as (k & Hk). apply hits_iff in Hx. exists k, c. split; easy. }
  split.
  - intros t Ht Ha. rewrite HE. pose proof He as He'. pose proof Ht as Ht'. apply Nat.ltb_lt in He', Ht'. rewrite He', Ht'. cbn [andb].
    apply Hh in Ha. destruct Ha as (k & c & Hn & Hs & Hi). destruct (in_split_nth _ _ _ Hn) as (pre & post & Ec & Ep).
    destruct (final_last dt N pre c post 0 0 t (look q eff t)) as (e' & EF & _).
    + now apply hits_iff.
    + intros c' Hc'. apply not_true_is_false. intros Hx. apply hits_iff in Hx. apply In_nth_error in Hc'. destruct Hc' as (j & Hj).
      pose proof (ordered_exclusive dt (cs eff) N Ho k (length pre + S j)%nat c c' t Ht) as X. assert (k = length pre + S j)%nat; [apply X; split; try easy; rewrite Ec; now apply nth_post|lia].
    + rewrite Ec, EF. cbn [mark e_aid]. rewrite (count_before dt N pre c post t Hdt) by (rewrite <- ?Ec; auto; now apply hits_iff).
      rewrite (count_ext holds (any dt (pre ++ c :: post)) t); [lia|]. intros. rewrite SH. now rewrite Ec.
  - rewrite HA. pose proof He as He'. apply Nat.ltb_lt in He'. rewrite He'. rewrite (count_ext holds (any dt (cs eff)) N) by (intros; apply SH). f_equal. apply total_count.
    intros i j a b t Ht Hi Hj Ha Hb. apply hits_iff in Ha, Hb. eapply (ordered_exclusive dt (cs eff) N Ho i j a b t Ht); split; easy.
Qed.
Print Assumptions C30_sampling.
Print Assumptions C30_fresh_sequence.
Print Assumptions C31_numbering.
(** count is strictly monotone on the steps that hold: no number is given twice and none is skipped. *)
Lemma count_le : forall f a b, (a <= b)%nat -> (count f a <= count f b)%nat.
Proof. induction 1; [easy|]. cbn. lia. Qed.
Theorem C31_no_gap_no_repetition : forall holds N,
  (forall a b, (a < b)%nat -> holds a = true -> (count holds a < count holds b)%nat) /\
  (forall k, (k < count holds N)%nat -> exists t, (t < N)%nat /\ holds t = true /\ count holds t = k).
Proof.
  intros holds N. split.
  - intros a b L Ha. assert (count holds (S a) <= count holds b)%nat by (apply count_le; lia). cbn in H. rewrite Ha in H. lia.
  - induction N; intros k Hk; cbn in Hk; [lia|]. destruct (lt_dec k (count holds N)) as [L|L].
    + destruct (IHN k L) as (t & a & b & c). exists t. split; [lia|easy].
    + exists N. destruct (holds N) eqn:E; [|lia]. split; [lia|]. split; [easy|lia].
Qed.
Print Assumptions C31_no_gap_no_repetition.

(** ** Non-vacuity: two contacts [0,2) and [3,5) with dt = 1, N = 5: active at steps 0 | 2 3 | with numbers 0, 1, 2. *)
Definition cA := Cnt 0 2 (V3 1 0 0) qone FlatContact true 0 0.
Definition cB := Cnt 3 5 (V3 2 0 0) qone FlatContact true 1 0.
Definition demo (eff : nat) : list contact := match eff with O => [cA; cB] | _ => [] end.
Lemma demo_ordered : ordered (demo 0).
Proof.
  intros i j a b L Hi Hj _ _. destruct i as [|[|i]], j as [|[|j]]; cbn in Hi, Hj; try lia; try discriminate.
  - injection Hi as <-. injection Hj as <-. cbn. lra.
  - destruct j; discriminate.
  - destruct j; discriminate.
  - destruct i; discriminate.
Qed.
Example C31_example : (5 <= length (states (dresize 5 (Seq [] (fun _ => 0%Z)))))%nat /\ ordered (demo 0) /\
  scheduled 1 (demo 0) 0 cA 0 /\ scheduled 1 (demo 0) 1 cB 2 /\ scheduled 1 (demo 0) 1 cB 3 /\ (forall k c, ~ scheduled 1 (demo 0) k c 1) /\
  exists holds, (forall t, holds t = true <-> exists k c, scheduled 1 (demo 0) k c t) /\ count holds 3 = 2%nat.
Proof.
  assert (G : forall k c t, scheduled 1 (demo 0) k c t -> (k = 0%nat /\ c = cA /\ t = 0%nat) \/ (k = 1%nat /\ c = cB /\ (t = 2%nat \/ t = 3%nat))).
  { intros k c t (Hn & _ & Hi). unfold in_contact in Hi. rewrite Rmult_1_r in Hi. destruct k as [|[|k]]; cbn in Hn; try (destruct k; discriminate).
    - injection Hn as <-. left. cbn [cA c_ini c_end] in Hi. destruct Hi as [_ Hi]. change 2 with (INR 2) in Hi. apply INR_lt in Hi. repeat split. lia.
    - injection Hn as <-. right. cbn [cB c_ini c_end] in Hi. destruct Hi as [Hl Hi]. replace 3 with (INR 3) in Hl by (cbn; lra). replace 5 with (INR 5) in Hi by (cbn; lra). apply INR_lt in Hi. apply INR_le in Hl. repeat split. lia. }
  assert (A : scheduled 1 (demo 0) 0 cA 0) by (repeat split; cbn; lra).
  assert (B2 : scheduled 1 (demo 0) 1 cB 2) by (repeat split; cbn; lra).
  assert (B3 : scheduled 1 (demo 0) 1 cB 3) by (repeat split; cbn; lra).
  split; [cbn; lia|]. split; [apply demo_ordered|]. split; [exact A|]. split; [exact B2|]. split; [exact B3|]. split.
  - intros k c S. apply G in S. lia.
  - exists (fun t => match t with 0%nat | 2%nat | 3%nat => true | _ => false end). split; [|reflexivity].
    intros t. split.
    + intros H. destruct t as [|[|[|[|t]]]]; try discriminate; eauto.
    + intros (k & c & S). apply G in S. destruct S as [(_ & _ & ->)|(_ & _ & [->| ->])]; reflexivity.
Qed.

(** ** What goes wrong outside the hypotheses *)
(** A sequence that is filled twice with different plans without resizing keeps the old activations. *)
Theorem C30_refill_refuted : exists N dt cs1 cs2 q q1 q2 eff t, fillDynamicsSequence N dt cs1 q = Ok q1 /\ fillDynamicsSequence N dt cs2 q1 = Ok q2 /\
  (t < N)%nat /\ (forall k c, ~ scheduled dt (cs2 eff) k c t) /\ e_act (look q2 eff t) = true /\ act_steps q2 eff = 0%Z.
Proof.
  set (q := dresize 5 (Seq [] (fun _ => 0%Z))).
  destruct (C30_sampling 5 1 demo q) as (q1 & E1 & L1 & A1 & _). { cbn. lia. }
  destruct (C30_sampling 5 1 (fun _ => []) q1) as (q2 & E2 & L2 & _ & _ & N2 & _). { rewrite L1. cbn. lia. }
  exists 5%nat, 1, demo, (fun _ => []), q, q1, q2, 0%nat, 0%nat. split; [exact E1|]. split; [exact E2|]. split; [lia|].
  assert (NS : forall k c, ~ scheduled 1 [] k c 0) by (intros k c (H & _); now destruct k).
  split; [exact NS|]. split.
  - rewrite N2 by (left; exact NS). apply A1; [unfold n_endeffs; lia|lia|]. right. exists 0%nat, cA. apply C31_example.
  - destruct (fill_spec 5 1 (fun _ => []) q1) as (q3 & E3 & _ & _ & _ & HA). { rewrite L1. cbn. lia. }
    rewrite E2 in E3. injection E3 as <-. rewrite HA. reflexivity.
Qed.
(** Overlapping contacts: a number is skipped, the total exceeds the number of active steps. *)
Theorem C31_overlap_refuted : exists N dt cs q q' eff, fillDynamicsSequence N dt cs q = Ok q' /\ (N <= length (states q))%nat /\
  act_steps q' eff = 2%Z /\ N = 1%nat /\ e_aid (look q' eff 0) = 1%Z.
Proof.
  set (q := dresize 1 (Seq [] (fun _ => 0%Z))). set (cs := fun eff : nat => [cA; cA]).
  destruct (fill_spec 1 1 cs q) as (q' & E & _ & _ & HE & HA). { cbn. lia. }
  assert (H : hits 1 cA 0 = true) by (apply hits_iff; unfold in_contact; cbn; split; [easy|lra]).
  exists 1%nat, 1, cs, q, q', 0%nat. split; [exact E|]. split; [cbn; lia|]. split; [|split; [easy|]].
  - rewrite HA. change (0 <? n_endeffs)%nat with true. unfold cs. cbn [total count]. rewrite H. reflexivity.
  - rewrite HE. change ((0 <? n_endeffs) && (0 <? 1))%nat with true. unfold cs. cbn [final_eff count]. rewrite H. reflexivity.
Qed.
(** A sequence shorter than the horizon is written outside. *)
Theorem C30_short_sequence_refuted : exists N dt cs q, fillDynamicsSequence N dt cs q = UB.
Proof.
  exists 1%nat, 1, (fun _ => [cA]), (Seq [] (fun _ => 0%Z)). unfold fillDynamicsSequence, n_endeffs. cbn [seq foldM]. unfold fill_eff at 1. cbn [enumerate length seq combine foldM states act_steps].
  unfold fill_contact. cbn [snd fst cA c_sel seq foldM]. unfold fill_step. replace (covers 1 cA 0) with true. reflexivity.
  symmetry. apply covers_iff. unfold in_contact; cbn; lra.
Qed.
(** ** Loading: every contact of the file is selected, and contacts are numbered consecutively across the end-effectors. *)
Lemma trunc_floor : forall v z, 0 <= v -> IZR z <= v < IZR z + 1 -> trunc v = z.
Proof.
  intros v z H0 H. unfold trunc. destruct (Rle_dec 0 v); [|lra]. destruct (archimed v) as (A1 & A2).
  assert (IZR (up v - 1) <= v < IZR (up v - 1) + 1) by (rewrite minus_IZR; lra).
  assert (z < up v - 1 + 1)%Z by (apply lt_IZR; rewrite plus_IZR; lra). assert (up v - 1 < z + 1)%Z by (apply lt_IZR; rewrite plus_IZR; lra). lia.
Qed.
Lemma trunc_small : forall v, v < 1 -> (trunc v <= 0)%Z.
Proof.
  intros v H. unfold trunc. destruct (Rle_dec 0 v).
  - destruct (archimed v) as (A1 & A2). assert (up v - 1 < 1)%Z by (apply lt_IZR; rewrite minus_IZR; lra). lia.
  - destruct (archimed (- v)) as (A1 & A2). assert (0 < up (- v))%Z by (apply lt_IZR; lra). lia.
Qed.
Lemma trunc_large : forall v, 3 <= v -> (3 <= trunc v)%Z.
Proof. intros v H. unfold trunc. destruct (Rle_dec 0 v); [|lra]. destruct (archimed v) as (A1 & A2). assert (3 < up v)%Z by (apply lt_IZR; lra). lia. Qed.
Lemma contact_reads : forall p o c, contact_of p o = Ok c -> reads p c.
Proof.
  intros p o c E. unfold contact_of in E. do 11 (destruct p as [|? p]; [discriminate|]). injection E as <-. split; [cbn; lia|].
  cbn [nth c_ini c_end c_pos c_ori c_type c_terrain vx vy vz qw qx qy qz]. repeat (split; [reflexivity|]). split; [|split; [|split]].
  - intros H. rewrite (trunc_floor _ 1) by lra. reflexivity.
  - intros H. rewrite (trunc_floor _ 2) by lra. reflexivity.
  - unfold idToContactType. intros [H|H]; [apply trunc_small in H|apply trunc_large in H]; destruct (trunc _) as [|[[|[]|]|[|[]|]|]|]; reflexivity || lia.
  - intros z H H0. now apply trunc_floor.
Qed.
Lemma load_eff_spec : forall rows o l o', load_eff rows o = Ok (l, o') -> length l = length rows /\ o' = (o + Z.of_nat (length rows))%Z /\
  (forall k c, nth_error l k = Some c -> c_optid c = (o + Z.of_nat k)%Z) /\
  (forall k c p, nth_error l k = Some c -> nth_error rows k = Some p -> reads p c).
Proof.
  induction rows as [|p rows IH]; intros o l o' E; cbn [load_eff] in E.
  - injection E as <- <-. cbn. split; [easy|]. split; [lia|]. split; now intros [|k] c.
  - destruct (contact_of p o) as [cc| |] eqn:EC; try discriminate. cbn [bind] in E. destruct (load_eff rows (o + 1)) as [[l1 o1]| |] eqn:E1; try discriminate.
    cbn [bind fst snd] in E. injection E as <- <-. destruct (IH _ _ _ E1) as (a & b & c & d). cbn [length]. split; [lia|]. split; [lia|]. split.
    + intros [|k] c0 H; cbn in H. injection H as <-. unfold contact_of in EC. do 11 (destruct p as [|? p]; [discriminate|]). injection EC as <-. cbn. lia. rewrite (c _ _ H). lia.
    + intros [|k] c0 p0 H Hp; cbn in H, Hp. injection H as <-. injection Hp as <-. now apply contact_reads in EC. now apply (d k).
Qed.
Theorem C30_plan_from_file : forall plan cs n, plan_from_file plan = Ok (cs, n) ->
  length cs = length plan /\ n = Z.of_nat (length (concat plan)) /\
  (forall eff l rows, nth_error cs eff = Some l -> nth_error plan eff = Some rows -> length l = length rows /\
     forall k c row, nth_error l k = Some c -> nth_error rows k = Some row -> reads row c) /\
  (forall c, In c (concat cs) -> c_sel c = true) /\
  (forall k c, nth_error (concat cs) k = Some c -> c_optid c = Z.of_nat k).
Proof.
  intros plan cs n E. unfold plan_from_file in E. destruct (load_all plan 0) as [[l0 n0]| |] eqn:EL; try discriminate. cbn [bind fst snd] in E. injection E as <- <-.
  assert (G : forall plan o l o', load_all plan o = Ok (l, o') -> length l = length plan /\ o' = (o + Z.of_nat (length (concat plan)))%Z /\
    (forall eff x rows, nth_error l eff = Some x -> nth_error plan eff = Some rows -> length x = length rows /\ forall k c row, nth_error x k = Some c -> nth_error rows k = Some row -> reads row c) /\
    (length (concat l) = length (concat plan)) /\
    (forall k c, nth_error (concat l) k = Some c -> c_optid c = (o + Z.of_nat k)%Z)).
  { clear. induction plan as [|rows plan IH]; intros o l o' E; cbn [load_all] in E.
    - injection E as <- <-. cbn. split; [easy|]. split; [lia|]. split; [now intros [|e]|]. split; [easy|]. now intros [|k].
    - destruct (load_eff rows o) as [[l1 o1]| |] eqn:E1; try discriminate. cbn [bind fst snd] in E. destruct (load_all plan o1) as [[l2 o2]| |] eqn:E2; try discriminate.
      cbn [bind fst snd] in E. injection E as <- <-. destruct (load_eff_spec _ _ _ _ E1) as (a1 & a2 & a3 & a4). destruct (IH _ _ _ E2) as (b1 & b2 & b3 & b4 & b5).
      cbn [concat length]. rewrite !app_length. split; [lia|]. split; [lia|]. split; [|split; [lia|]].
      + intros [|eff] x r Hx Hr; cbn in Hx, Hr. injection Hx as <-. injection Hr as <-. split; [exact a1|exact a4]. eapply b3; eauto.
      + intros k c H. destruct (lt_dec k (length l1)). rewrite nth_error_app1 in H by easy. now apply a3. rewrite nth_error_app2 in H by lia. rewrite (b5 _ _ H). lia. }
  destruct (G _ _ _ _ EL) as (a & b & c & _ & d). split; [now rewrite map_length|]. split; [lia|]. split; [|split].
  - intros eff l rows Hl Hr. rewrite nth_error_map in Hl. destruct (nth_error l0 eff) as [x|] eqn:Ex; [|discriminate]. cbn in Hl. injection Hl as <-. rewrite map_length. destruct (c _ _ _ Ex Hr) as (c1 & c2). split; [exact c1|].
    intros k y row Hy Hrow. rewrite nth_error_map in Hy. destruct (nth_error x k) as [z|] eqn:Ez; [|discriminate]. injection Hy as <-. pose proof (c2 _ _ _ Ez Hrow) as RR. exact RR.
  - intros x Hx. rewrite <- concat_map in Hx. apply in_map_iff in Hx. destruct Hx as (y & <- & _). reflexivity.
  - intros k x Hx. rewrite <- concat_map in Hx. rewrite nth_error_map in Hx. destruct (nth_error (concat l0) k) as [y|] eqn:Ey; [|discriminate]. cbn in Hx. injection Hx as <-. cbn [select c_optid]. rewrite (d _ _ Ey). lia.
Qed.
Print Assumptions C30_refill_refuted.
Print Assumptions C31_overlap_refuted.
Print Assumptions C30_short_sequence_refuted.
Print Assumptions C30_plan_from_file.

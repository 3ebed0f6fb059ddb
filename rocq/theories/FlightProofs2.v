(** * Flight phases of one end-effector, of all end-effectors *)
From Coq Require Import Reals List Arith ZArith Bool Lia Lra.
Import ListNotations.
From Verif Require Import Base BaseProofs Vec3 CntModel CntProofs TrajModel TrajSpec FlightModel FlightSpec FlightProofs.
Local Open Scope R_scope.

Section One.
  Variable qr : nat -> (nat -> nat -> R) -> (nat -> R) -> (nat -> R).
  Variables (cs : nat -> list contact) (vias : nat -> list viapoint) (ini : dstate) (com_motion : vec3).
  Variables (eff : nat) (l : list dstate) (via : Z -> vec3) (start stop : nat -> nat).
  Hypothesis (Hqr : solves_swings qr) (HP : positive l) (OK : plan_ok l ini eff (cs eff) (vias eff) via start stop) (Hn : (0 < length (cs eff))%nat).
  Let n := length (cs eff).
  Definition air (e t : nat) : Prop := e = eff /\ (t < length l)%nat /\ ~ active l eff t.
  (** After k mid flights. *)
  Record inv (k : nat) (s : fstate) : Prop := {
    i_fr : framed air l (fst (fst s));
    i_e : (snd s <= start k)%nat /\ (forall j, k = S j -> (stop j <= snd s)%nat);
    i_first : e_act (d_eff ini eff) = false -> forall c, nth_error (cs eff) 0 = Some c ->
       flies l (fst (fst s)) eff 0 (start 0%nat - 1) (e_pos (d_eff ini eff)) (e_ori (d_eff ini eff)) (via (-1)%Z) (c_pos c) (c_ori c);
    i_mid : forall j c c', (j < k)%nat -> nth_error (cs eff) j = Some c -> nth_error (cs eff) (S j) = Some c' ->
       flies l (fst (fst s)) eff (stop j) (start (S j) - 1) (c_pos c) (c_ori c) (via (Z.of_nat j)) (c_pos c') (c_ori c') }.
  Let iv := po_iv _ _ _ _ _ _ _ _ OK.
  Lemma first_ok : forall c0 v, nth_error (cs eff) 0 = Some c0 -> exists s, first_flight qr vias ini eff c0 l v = Ok s /\ inv 0 s.
  Proof.
    intros c0 v H0. unfold first_flight, on. destruct (e_act (d_eff ini eff)) eqn:A.
    - exists (l, v, 0%nat). split; [reflexivity|]. constructor; cbn [fst snd]; [apply framed_refl|split; [lia|intros; lia]|congruence|intros; lia].
    - pose proof (po_first _ _ _ _ _ _ _ _ OK A) as F2. pose proof (iv_len _ _ _ _ _ iv 0%nat Hn) as L0.
      rewrite (find_make_is l eff (start 0%nat - 1) 0); [|lia|lia|apply (iv_before _ _ _ _ _ iv); [exact Hn|lia]|apply (iv_on _ _ _ _ _ iv 0); [exact Hn|lia]|].
      2:{ intros j Hj. right. apply (iv_before _ _ _ _ _ iv); [exact Hn|lia]. }
      cbn [bind]. destruct (phase_ok qr vias eff 0 (start 0%nat - 1) (e_pos (d_eff ini eff)) (e_ori (d_eff ini eff)) (c_pos c0) (c_ori c0) (-1) l v (via (-1)%Z) Hqr) as (l' & -> & F & G); [now apply OK|lia|exact HP|].
      cbn [bind]. exists (l', Some (via (-1)%Z), (start 0 - 1)%nat). split; [reflexivity|]. constructor; cbn [fst snd].
      + eapply framed_weaken; [|exact F]. intros e t [-> Ht]. split; [reflexivity|]. split; [lia|]. apply (iv_before _ _ _ _ _ iv); [exact Hn|lia].
      + split; [lia|intros; lia].
      + intros _ c Hc. rewrite H0 in Hc. injection Hc as <-. exact G.
      + intros; lia.
  Qed.
  Lemma break_is : forall k s, (k < n)%nat -> inv k s -> (stop k < length l)%nat -> ((S k < n)%nat \/ (S k = n)%nat) -> findBreakContactId (fst (fst s)) (snd s) eff = Ok (stop k).
  Proof.
    intros k s Hk I Hl Hc. pose proof (i_fr _ _ I) as F. pose proof (intervals_framed _ _ _ _ _ _ _ F iv) as iv'. destruct (i_e _ _ I) as [E1 E2].
    pose proof (iv_len _ _ _ _ _ iv k Hk) as Lk. replace (stop k) with (S (stop k - 1)) by lia.
    assert (OFF : forall t, (stop k <= t)%nat -> (t < length l)%nat -> ((S k < n)%nat -> (t < start (S k))%nat) -> ~ active (fst (fst s)) eff t).
    { intros t A B C. apply (iv_off _ _ _ _ _ iv' k); auto. now rewrite (fr_len _ _ _ F). }
    apply find_break_is.
    - lia.
    - rewrite (fr_len _ _ _ F). lia.
    - apply (iv_on _ _ _ _ _ iv' k); [exact Hk|lia].
    - apply OFF; [lia|lia|]. intros X. pose proof (iv_gap _ _ _ _ _ iv k X). lia.
    - intros j Hj. destruct (le_lt_dec (start k) j) as [G|L].
      + right. apply (iv_on _ _ _ _ _ iv' k); [exact Hk|lia].
      + left. destruct k as [|k].
        * apply (iv_before _ _ _ _ _ iv'); [exact Hn|exact L].
        * apply (iv_off _ _ _ _ _ iv' k); [unfold n in *; lia|rewrite (fr_len _ _ _ F); lia|specialize (E2 k eq_refl); lia|intros; exact L].
  Qed.
  Lemma mid_ok : forall k s, (S k < n)%nat -> inv k s -> exists s', mid_flight qr cs vias eff s k = Ok s' /\ inv (S k) s'.
  Proof.
    intros k [[lk vk] ek] Hk I. pose proof (i_fr _ _ I) as F. cbn [fst] in F. pose proof (intervals_framed _ _ _ _ _ _ _ F iv) as iv'.
    pose proof (iv_len _ _ _ _ _ iv k ltac:(unfold n in *; lia)) as Lk. pose proof (iv_len _ _ _ _ _ iv (S k) Hk) as Lk1. pose proof (iv_gap _ _ _ _ _ iv k Hk) as G.
    unfold mid_flight. pose proof (break_is k (lk, vk, ek) ltac:(lia) I ltac:(lia) ltac:(lia)) as B. cbn [fst snd] in B. rewrite B. cbn [bind].
    assert (OFF : forall t, (stop k <= t < start (S k))%nat -> ~ active l eff t) by (intros t Ht; apply (iv_off _ _ _ _ _ iv k); try lia; unfold n in *; lia).
    rewrite (find_make_is lk eff (start (S k) - 1) (stop k)); [|lia|rewrite (fr_len _ _ _ F); lia|rewrite (framed_active _ _ _ F); apply OFF; lia|apply (iv_on _ _ _ _ _ iv' (S k)); [exact Hk|lia]|].
    2:{ intros j Hj. right. rewrite (framed_active _ _ _ F). apply OFF. lia. }
    cbn [bind]. destruct (nth_error (cs eff) k) as [c|] eqn:C; [|apply nth_error_None in C; unfold n in *; lia].
    destruct (nth_error (cs eff) (S k)) as [c'|] eqn:C'; [|apply nth_error_None in C'; unfold n in *; lia].
    rewrite (vget_nth (cs eff) k c) by (unfold n in *; lia). cbn [bind]. rewrite (vget_nth (cs eff) (S k) c) by exact Hk. cbn [bind].
    rewrite (nth_error_nth _ _ c C), (nth_error_nth _ _ c C').
    destruct (phase_ok qr vias eff (stop k) (start (S k) - 1) (c_pos c) (c_ori c) (c_pos c') (c_ori c') (Z.of_nat k) lk vk (via (Z.of_nat k)) Hqr) as (l' & -> & F' & H').
    { now apply OK. } { rewrite (fr_len _ _ _ F). lia. } { exact (framed_positive _ _ _ F HP). }
    cbn [bind]. exists (l', Some (via (Z.of_nat k)), (start (S k) - 1)%nat). split; [reflexivity|]. constructor; cbn [fst snd].
    - eapply framed_weaken; [|exact (framed_trans _ _ _ _ _ F F')]. intros e t [X|[-> Ht]]; [exact X|]. split; [reflexivity|]. split; [lia|]. apply OFF. lia.
    - split; [lia|]. intros j Hj. injection Hj as <-. lia.
    - intros A d Hd. eapply flies_after; [exact F'| |exact (i_first _ _ I A d Hd)]. intros t Ht [_ Hx].
      destruct k as [|k]; [lia|]. pose proof (iv_mono _ _ _ _ _ iv (S k) 0%nat ltac:(unfold n in *; lia)). pose proof (iv_len _ _ _ _ _ iv 0%nat Hn). lia.
    - intros j d d' Hj Hd Hd'. destruct (Nat.eq_dec j k) as [->|N].
      + rewrite C in Hd. rewrite C' in Hd'. injection Hd as <-. injection Hd' as <-. exact (flies_before _ _ _ _ _ _ _ _ _ _ _ _ F H').
      + eapply flies_after; [exact F'| |exact (i_mid _ _ I j d d' ltac:(lia) Hd Hd')]. intros t Ht [_ Hx].
        assert (start (S j) <= start k)%nat; [|lia]. destruct (Nat.eq_dec (S j) k) as [->|]; [lia|]. pose proof (iv_mono _ _ _ _ _ iv k (S j) ltac:(unfold n in *; lia)).
        pose proof (iv_len _ _ _ _ _ iv (S j) ltac:(unfold n in *; lia)). lia.
  Qed.
  Lemma mids_ok : forall s, inv 0 s -> forall m, (m < n)%nat -> exists s', foldM (mid_flight qr cs vias eff) (seq 0 m) s = Ok s' /\ inv m s'.
  Proof.
    intros s I m. induction m; intros Hm; [exists s; split; [reflexivity|exact I]|]. destruct (IHm ltac:(lia)) as (s1 & E & I1). rewrite seq_S, foldM_append, E. cbn [bind Nat.add foldM].
    destruct (mid_ok m s1 Hm I1) as (s2 & -> & I2). exists s2. split; [reflexivity|exact I2].
  Qed.
  Lemma last_ok : forall s c, inv (n - 1) s -> nth_error (cs eff) (n - 1) = Some c ->
    exists s', last_flight qr (length l) cs vias ini com_motion eff c s = Ok s' /\ framed air l (fst s') /\ flown l (fst s') ini com_motion eff (cs eff) via start stop /\
      ((stop (n - 1) < length l)%nat -> snd s' = Some (via (Z.of_nat n - 1)%Z)).
  Proof.
    intros [[lk vk] ek] c I C. pose proof (i_fr _ _ I) as F. cbn [fst] in F. unfold last_flight. pose proof (iv_len _ _ _ _ _ iv (n - 1)%nat ltac:(unfold n in *; lia)) as L.
    fold n in Hn. replace (Z.of_nat (length l) - 1)%Z with (Z.of_nat (length l - 1)) by lia. rewrite (vget_nth lk (length l - 1) dstate_new) by (rewrite (fr_len _ _ _ F); lia). cbn [bind].
    destruct (le_lt_dec (length l) (stop (n - 1)%nat)) as [Q|Q].
    - assert (A : active lk eff (length l - 1)). { rewrite (framed_active _ _ _ F). apply (iv_on _ _ _ _ _ iv (n - 1)%nat); [unfold n in *; lia|lia]. }
      apply on_active in A. rewrite A. exists (lk, vk). split; [reflexivity|]. split; [exact F|]. split; [|intros; lia]. constructor; cbn [fst].
      + exact (i_first _ _ I).
      + intros k d d' Hd Hd'. apply (i_mid _ _ I); auto. assert (S k < n)%nat by (apply nth_error_Some; congruence). lia.
      + intros d Hd X. fold n in X. lia.
    - assert (OFF : forall t, (stop (n - 1) <= t < length l)%nat -> ~ active l eff t).
      { intros t Ht. apply (iv_off _ _ _ _ _ iv (n - 1)%nat); try lia; unfold n in *; lia. }
      assert (A : ~ active lk eff (length l - 1)) by (rewrite (framed_active _ _ _ F); apply OFF; lia).
      apply on_inactive in A. rewrite A. pose proof (break_is (n - 1) (lk, vk, ek) ltac:(lia) I Q ltac:(lia)) as B. cbn [fst snd] in B. rewrite B. cbn [bind].
      destruct (po_last _ _ _ _ _ _ _ _ OK) as [X|X]; fold n in X; [lia|].
      destruct (phase_ok qr vias eff (stop (n - 1)%nat) (length l - 1) (c_pos c) (c_ori c) (vadd (e_pos (d_eff ini eff)) com_motion) (e_ori (d_eff ini eff)) (Z.of_nat (length (cs eff)) - 1) lk vk (via (Z.of_nat (length (cs eff)) - 1)%Z) Hqr) as (l' & -> & F' & H').
      { now apply OK. } { rewrite (fr_len _ _ _ F). lia. } { exact (framed_positive _ _ _ F HP). }
      eexists. split; [reflexivity|]. cbn [fst]. split.
      { eapply framed_weaken; [|exact (framed_trans _ _ _ _ _ F F')]. intros e t [Y|[-> Ht]]; [exact Y|]. split; [reflexivity|]. split; [lia|]. apply OFF. lia. }
      assert (M : forall j, (S j < n)%nat -> (start (S j) < stop (n - 1))%nat).
      { intros j Hj. destruct (Nat.eq_dec (S j) (n - 1)) as [->|]; [lia|]. pose proof (iv_mono _ _ _ _ _ iv (n - 1)%nat (S j) ltac:(unfold n in *; lia)).
        pose proof (iv_len _ _ _ _ _ iv (S j) ltac:(unfold n in *; lia)). lia. }
      split; [|reflexivity]. constructor.
      + intros Z d Hd. eapply flies_after; [exact F'| |exact (i_first _ _ I Z d Hd)]. intros t Ht [_ Hx].
        destruct (Nat.eq_dec 0 (n - 1)) as [E|]; [rewrite <- E in *; lia|]. pose proof (iv_mono _ _ _ _ _ iv (n - 1)%nat 0%nat ltac:(unfold n in *; lia)). pose proof (iv_len _ _ _ _ _ iv 0%nat Hn). lia.
      + intros k d d' Hd Hd'. assert (S k < n)%nat by (apply nth_error_Some; congruence). eapply flies_after; [exact F'| |exact (i_mid _ _ I k d d' ltac:(lia) Hd Hd')].
        intros t Ht [_ Hx]. specialize (M k ltac:(lia)). lia.
      + intros d Hd _. fold n in Hd. rewrite C in Hd. injection Hd as <-. exact (flies_before _ _ _ _ _ _ _ _ _ _ _ _ F H').
  Qed.
  Lemma last_nth {A} : forall (r : list A) c0, nth_error (c0 :: r) (length r) = Some (last r c0).
  Proof. induction r as [|a r IH]; intros c0; [reflexivity|]. cbn [length nth_error]. rewrite IH. f_equal. destruct r; [reflexivity|]. cbn [last]. clear. revert a0. induction r; intros; [reflexivity|]. cbn [last] in *. apply IHr. Qed.
  Lemma eff_ok : forall v, exists s, flight_eff qr (length l) cs vias ini com_motion (l, v) eff = Ok s /\ framed air l (fst s) /\ flown l (fst s) ini com_motion eff (cs eff) via start stop /\
    ((stop (n - 1) < length l)%nat -> snd s = Some (via (Z.of_nat n - 1)%Z)).
  Proof.
    intros v. unfold flight_eff. cbn [fst snd]. pose proof (first_ok) as F. pose proof mids_ok as M. pose proof last_ok as L. unfold n in *. destruct (cs eff) as [|c0 r] eqn:E; [cbn in Hn; lia|].
    destruct (F c0 v eq_refl) as (s1 & -> & I1). cbn [bind]. destruct (M s1 I1 (length r)) as (s2 & -> & I2); [cbn [length]; lia|]. cbn [bind].
    apply L. - cbn [length]. now rewrite Nat.sub_succ, Nat.sub_0_r. - cbn [length]. rewrite Nat.sub_succ, Nat.sub_0_r. apply last_nth.
  Qed.
End One.

(** ** All end-effectors *)
Lemma plan_framed : forall W l l' ini eff cl vias via start stop, framed W l l' -> plan_ok l ini eff cl vias via start stop -> plan_ok l' ini eff cl vias via start stop.
Proof. intros W l l' ini eff cl vias via start stop F P. destruct P. constructor; rewrite ?(fr_len _ _ _ F); auto. eapply intervals_framed; eauto. Qed.
Lemma flown_before : forall W l0 l l' ini cm eff cl via start stop, framed W l0 l -> flown l l' ini cm eff cl via start stop -> flown l0 l' ini cm eff cl via start stop.
Proof.
  intros W l0 l l' ini cm eff cl via start stop F P. destruct P as [A B C]. rewrite (fr_len _ _ _ F) in C. constructor; intros; eapply flies_before; eauto.
Qed.
Lemma flown_after : forall (W : nat -> nat -> Prop) l l1 l2 ini cm eff cl via start stop, framed W l1 l2 -> (forall t, ~ W eff t) -> flown l l1 ini cm eff cl via start stop -> flown l l2 ini cm eff cl via start stop.
Proof. intros W l l1 l2 ini cm eff cl via start stop F N P. destruct P as [A B C]. constructor; intros; eapply flies_after; eauto. Qed.
Lemma all_ok : forall qr cs vias ini cm l via start stop, solves_swings qr -> positive l ->
  (forall eff, (eff < n_endeffs)%nat -> cs eff <> [] -> plan_ok l ini eff (cs eff) (vias eff) (via eff) (start eff) (stop eff)) ->
  forall m, (m <= n_endeffs)%nat -> exists s, foldM (flight_eff qr (length l) cs vias ini cm) (seq 0 m) (l, None) = Ok s /\
    framed (fun eff t => (eff < m)%nat /\ cs eff <> [] /\ (t < length l)%nat /\ ~ active l eff t) l (fst s) /\
    forall eff, (eff < m)%nat -> cs eff <> [] -> flown l (fst s) ini cm eff (cs eff) (via eff) (start eff) (stop eff).
Proof.
  intros qr cs vias ini cm l via start stop Hqr HP HO m. induction m; intros Hm.
  - exists (l, None). split; [reflexivity|]. split; [apply framed_refl|intros; lia].
  - destruct (IHm ltac:(lia)) as ([l1 v1] & E & F & H). cbn [fst] in *. rewrite seq_S, foldM_append, E. cbn [bind Nat.add foldM]. destruct (cs m) as [|c0 r] eqn:C.
    + unfold flight_eff at 1. rewrite C. cbn [bind]. exists (l1, v1). split; [reflexivity|]. cbn [fst]. split.
      * eapply framed_weaken; [|exact F]. cbn beta. intros e t (?&?&?&?). repeat split; auto.
      * intros e He N. apply H; [|exact N]. destruct (Nat.eq_dec e m) as [->|]; [congruence|lia].
    + assert (NE : cs m <> []) by congruence.
      destruct (eff_ok qr cs vias ini cm m l1 (via m) (start m) (stop m) Hqr (framed_positive _ _ _ F HP)) with (v := v1) as (s & Es & F' & H' & _).
      { eapply plan_framed; [exact F|]. apply HO; [lia|exact NE]. } { rewrite C. cbn. lia. }
      rewrite (fr_len _ _ _ F) in Es. rewrite Es. cbn [bind]. exists s. split; [reflexivity|]. split.
      * eapply framed_weaken; [|exact (framed_trans _ _ _ _ _ F F')]. cbn beta. intros e t [(?&?&?&?)|(-> & L & N)]; [repeat split; auto|].
        rewrite (fr_len _ _ _ F) in L. rewrite (framed_active _ _ _ F) in N. repeat split; auto.
      * intros e He N. destruct (Nat.eq_dec e m) as [->|D]; [exact (flown_before _ _ _ _ _ _ _ _ _ _ _ F H')|].
        eapply flown_after; [exact F'| |apply H; [lia|exact N]]. intros t (X & _). now apply D.
Qed.

From Coq Require Import Reals List Arith ZArith Bool Lia Lra.
Import ListNotations.
From Verif Require Import Base BaseProofs Vec3 CntModel CntSpec.
Local Open Scope R_scope.

Lemma set_nth_length {A} : forall (l : list A) i a, length (set_nth l i a) = length l.
Proof. induction l; destruct i; cbn; auto. Qed.
Lemma set_nth_nth {A} : forall (l : list A) i a d t, (i < length l)%nat -> nth t (set_nth l i a) d = if (t =? i)%nat then a else nth t l d.
Proof. induction l; intros i b d t H; cbn in H; [lia|]. destruct i, t; cbn; auto. apply IHl. lia. Qed.
Lemma vget_nth {A} : forall (l : list A) t d, (t < length l)%nat -> vget l (Z.of_nat t) = Ok (nth t l d).
Proof.
  intros. unfold vget. replace (0 <=? Z.of_nat t)%Z with true by (symmetry; apply Z.leb_le; lia). rewrite Nat2Z.id.
  rewrite (nth_error_nth' l d H). reflexivity.
Qed.
Lemma vset_nth {A} : forall (l : list A) t a, (t < length l)%nat -> vset l (Z.of_nat t) a = Ok (set_nth l t a).
Proof.
  intros. unfold vset. replace ((0 <=? Z.of_nat t) && (Z.of_nat t <? Z.of_nat (length l)))%Z with true; [now rewrite Nat2Z.id|].
  symmetry. apply andb_true_intro. split; [apply Z.leb_le | apply Z.ltb_lt]; lia.
Qed.
Lemma covers_iff : forall dt c t, covers dt c t = true <-> in_contact dt c t.
Proof.
  intros. unfold covers, in_contact, grid_time. rewrite plus_INR. cbn [INR].
  destruct (Rle_dec (c_ini c) ((INR t + 1) * dt)); [|split; [discriminate|lra]].
  destruct (Rlt_dec ((INR t + 1) * dt) (c_end c)); split; try discriminate; auto; lra.
Qed.
Definition eff_at (l : list dstate) (eff t : nat) : effst := d_eff (nth t l dstate_new) eff.
(** d' is d except for effector eff. *)
Definition same_but (eff : nat) (d d' : dstate) : Prop :=
  d_time d' = d_time d /\ d_com d' = d_com d /\ d_lmom d' = d_lmom d /\ d_amom d' = d_amom d /\ d_lmomd d' = d_lmomd d /\ d_amomd d' = d_amomd d /\
  forall k, k <> eff -> d_eff d' k = d_eff d k.
Lemma same_but_refl : forall eff d, same_but eff d d.
Proof. intros. repeat split; auto. Qed.
Lemma same_but_trans : forall eff a b c, same_but eff a b -> same_but eff b c -> same_but eff a c.
Proof. intros eff a b c (a1&a2&a3&a4&a5&a6&a7) (b1&b2&b3&b4&b5&b6&b7). repeat split; try congruence. intros. rewrite b7 by easy. now apply a7. Qed.

Lemma fill_steps : forall dt eff c cid n l c0, (n <= length l)%nat ->
  exists l', foldM (fill_step dt eff c cid) (seq 0 n) (l, c0) = Ok (l', (c0 + Z.of_nat (count (covers dt c) n))%Z) /\ length l' = length l /\
   (forall t, same_but eff (nth t l dstate_new) (nth t l' dstate_new)) /\
   (forall t, eff_at l' eff t = if ((t <? n)%nat && covers dt c t)%bool then mark (eff_at l eff t) cid (c0 + Z.of_nat (count (covers dt c) t))%Z c else eff_at l eff t).
Proof.
  induction n; intros l c0 H.
  - exists l. cbn [seq foldM count]. rewrite Z.add_0_r. repeat split; auto. 
  - destruct (IHn l c0 ltac:(lia)) as (l1 & E & HL & HS & HE). rewrite seq_S, foldM_append, E. cbn [bind Nat.add foldM]. unfold fill_step. cbn [fst snd]. cbn [count].
    destruct (covers dt c n) eqn:C.
    + rewrite (vget_nth l1 n dstate_new) by lia. cbn [bind]. rewrite vset_nth by lia. cbn [bind]. eexists. split; [f_equal; f_equal; lia|].
      split; [now rewrite set_nth_length|]. split.
      * intros t. rewrite set_nth_nth by lia. destruct (Nat.eqb_spec t n) as [->|]; [|apply HS].
        eapply same_but_trans; [apply HS|]. repeat split; auto. intros k Hk. unfold set_eff. cbn [d_eff]. now rewrite upd_other.
      * intros t. unfold eff_at at 1. rewrite set_nth_nth by lia. destruct (Nat.eqb_spec t n) as [->|N].
        -- unfold set_eff. cbn [d_eff]. rewrite upd_same. replace (n <? S n)%nat with true by (symmetry; apply Nat.ltb_lt; lia). rewrite C. cbn [andb].
           f_equal. change (d_eff (nth n l1 dstate_new) eff) with (eff_at l1 eff n). rewrite HE, Nat.ltb_irrefl. reflexivity.
        -- change (d_eff (nth t l1 dstate_new) eff) with (eff_at l1 eff t). rewrite HE. replace (t <? S n)%nat with (t <? n)%nat; [easy|].
           destruct (Nat.ltb_spec t n), (Nat.ltb_spec t (S n)); try easy; lia.
    + exists l1. cbn [bind]. rewrite Nat.add_0_r. split; [easy|]. split; [easy|]. split; [easy|].
      intros t. rewrite HE. destruct (Nat.eqb_spec t n) as [->|N].
      * rewrite C, !andb_false_r. reflexivity.
      * replace (t <? S n)%nat with (t <? n)%nat; [easy|]. destruct (Nat.ltb_spec t n), (Nat.ltb_spec t (S n)); try easy; lia.
Qed.

(** The steps counted for one contact. *)
Definition hits (dt : R) (c : contact) (t : nat) : bool := (c_sel c && covers dt c t)%bool.
Lemma hits_iff : forall dt c t, hits dt c t = true <-> c_sel c = true /\ in_contact dt c t.
Proof. intros. unfold hits. rewrite andb_true_iff, covers_iff. reflexivity. Qed.
Lemma count_ext : forall f g n, (forall t, (t < n)%nat -> f t = g t) -> count f n = count g n.
Proof. induction n; intros H; cbn; auto. rewrite IHn, H by auto. reflexivity. Qed.
Lemma count_none : forall f n, (forall t, (t < n)%nat -> f t = false) -> count f n = 0%nat.
Proof. induction n; intros H; cbn; auto. rewrite IHn, H by auto. reflexivity. Qed.
(** What one pass over the contacts (k0, ...) leaves in effector entry e of step t < N. *)
Fixpoint final_eff (dt : R) (N : nat) (cs : list contact) (k0 : nat) (c0 : Z) (t : nat) (e : effst) : effst :=
  match cs with
  | [] => e
  | c :: r => final_eff dt N r (S k0) (c0 + Z.of_nat (count (hits dt c) N))%Z t (if hits dt c t then mark e (Z.of_nat k0) (c0 + Z.of_nat (count (hits dt c) t))%Z c else e)
  end.
Fixpoint total (dt : R) (N : nat) (cs : list contact) : nat := match cs with [] => 0%nat | c :: r => (count (hits dt c) N + total dt N r)%nat end.
Lemma fill_contacts : forall dt eff N cs k0 l c0, (N <= length l)%nat ->
  exists l', foldM (fill_contact N dt eff) (combine (seq k0 (length cs)) cs) (l, c0) = Ok (l', (c0 + Z.of_nat (total dt N cs))%Z) /\ length l' = length l /\
   (forall t, same_but eff (nth t l dstate_new) (nth t l' dstate_new)) /\
   (forall t, eff_at l' eff t = if (t <? N)%nat then final_eff dt N cs k0 c0 t (eff_at l eff t) else eff_at l eff t).
Proof.
  induction cs as [|c cs IH]; intros k0 l c0 H.
  - exists l. cbn [length seq combine foldM total final_eff]. rewrite Z.add_0_r. repeat split; auto. intros t. now destruct (t <? N)%nat.
  - cbn [length seq combine foldM]. unfold fill_contact at 1. cbn [fst snd].
    assert (E1 : exists l1, (if c_sel c then foldM (fill_step dt eff c (Z.of_nat k0)) (seq 0 N) (l, c0) else Ok (l, c0)) = Ok (l1, (c0 + Z.of_nat (count (hits dt c) N))%Z) /\ length l1 = length l /\
       (forall t, same_but eff (nth t l dstate_new) (nth t l1 dstate_new)) /\
       (forall t, eff_at l1 eff t = if ((t <? N)%nat && hits dt c t)%bool then mark (eff_at l eff t) (Z.of_nat k0) (c0 + Z.of_nat (count (hits dt c) t))%Z c else eff_at l eff t)).
    { destruct (c_sel c) eqn:S.
      - destruct (fill_steps dt eff c (Z.of_nat k0) N l c0 H) as (l1 & E & HL & HS & HE). exists l1.
        assert (X : forall n, count (hits dt c) n = count (covers dt c) n) by (intros; apply count_ext; intros; unfold hits; now rewrite S).
        rewrite X. split; [easy|]. split; [easy|]. split; [easy|]. intros t. rewrite HE. unfold hits at 1. rewrite S. cbn [andb]. now rewrite X.
      - exists l. rewrite count_none by (intros; unfold hits; now rewrite S). rewrite Z.add_0_r. repeat split; auto. intros t. unfold hits. rewrite S. cbn [andb]. now rewrite andb_false_r. }
    destruct E1 as (l1 & -> & HL & HS & HE). cbn [bind]. destruct (IH (S k0) l1 (c0 + Z.of_nat (count (hits dt c) N))%Z ltac:(lia)) as (l2 & E2 & HL2 & HS2 & HE2).
    exists l2. split; [rewrite E2; cbn [total]; f_equal; f_equal; lia|]. split; [lia|]. split; [intros t; eapply same_but_trans; [apply HS|apply HS2]|].
    intros t. rewrite HE2. cbn [final_eff]. rewrite HE. destruct (t <? N)%nat; [|easy]. now destruct (hits dt c t).
Qed.

(** Reading the final entry. *)
Lemma final_act : forall dt N cs k0 c0 t e, e_act (final_eff dt N cs k0 c0 t e) = true <-> e_act e = true \/ exists c, In c cs /\ hits dt c t = true.
Proof.
  induction cs as [|c cs IH]; intros k0 c0 t e; cbn [final_eff].
  - split; [auto|]. intros [H|[c [[] _]]]. easy.
  - rewrite IH. destruct (hits dt c t) eqn:E; cbn [mark e_act].
    + split; [|tauto]. intros _. right. exists c. split; [now left|easy].
    + split; intros [H|(c' & Hc & Hh)]; auto. right. exists c'. split; [now right|easy]. right. destruct Hc as [->|Hc]; [congruence|]. eauto.
Qed.
Lemma final_none : forall dt N cs k0 c0 t e, (forall c, In c cs -> hits dt c t = false) -> final_eff dt N cs k0 c0 t e = e.
Proof. induction cs as [|c cs IH]; intros k0 c0 t e H; cbn [final_eff]; auto. rewrite (H c) by now left. apply IH. intros. apply H. now right. Qed.
Lemma total_app : forall dt N a b, total dt N (a ++ b) = (total dt N a + total dt N b)%nat.
Proof. induction a; intros; cbn; auto. rewrite IHa. lia. Qed.
(** c, at place k of the list, is the last one that holds at t. *)
Lemma final_last : forall dt N pre c post k0 c0 t e, hits dt c t = true -> (forall c', In c' post -> hits dt c' t = false) ->
  exists e', final_eff dt N (pre ++ c :: post) k0 c0 t e = mark e' (Z.of_nat (k0 + length pre)) (c0 + Z.of_nat (total dt N pre + count (hits dt c) t))%Z c
    /\ e_vel e' = e_vel e /\ e_acc e' = e_acc e /\ e_frc e' = e_frc e /\ e_trq e' = e_trq e /\ e_cop e' = e_cop e /\ e_trqc e' = e_trqc e.
Proof.
  induction pre as [|a pre IH]; intros c post k0 c0 t e Hc Hp; cbn [app final_eff].
  - rewrite Hc, final_none by easy. exists e. cbn [length total]. rewrite Nat.add_0_r. repeat split; auto.
  - destruct (IH c post (S k0) (c0 + Z.of_nat (count (hits dt a) N))%Z t (if hits dt a t then mark e (Z.of_nat k0) (c0 + Z.of_nat (count (hits dt a) t))%Z a else e) Hc Hp) as (e' & -> & P).
    exists e'. cbn [length total]. split; [f_equal; [f_equal|]; lia|]. now destruct (hits dt a t).
Qed.
(** The whole call. *)
Lemma fill_spec : forall N dt cs q, (N <= length (states q))%nat ->
  exists q', fillDynamicsSequence N dt cs q = Ok q' /\ length (states q') = length (states q) /\
   (forall t, d_time (nth t (states q') dstate_new) = d_time (nth t (states q) dstate_new) /\ d_com (nth t (states q') dstate_new) = d_com (nth t (states q) dstate_new) /\
              d_lmom (nth t (states q') dstate_new) = d_lmom (nth t (states q) dstate_new) /\ d_amom (nth t (states q') dstate_new) = d_amom (nth t (states q) dstate_new) /\
              d_lmomd (nth t (states q') dstate_new) = d_lmomd (nth t (states q) dstate_new) /\ d_amomd (nth t (states q') dstate_new) = d_amomd (nth t (states q) dstate_new)) /\
   (forall eff t, look q' eff t = if ((eff <? n_endeffs)%nat && (t <? N)%nat)%bool then final_eff dt N (cs eff) 0 0 t (look q eff t) else look q eff t) /\
   (forall eff, act_steps q' eff = if (eff <? n_endeffs)%nat then Z.of_nat (total dt N (cs eff)) else 0%Z).
Proof.
  intros N dt cs q H.
  assert (G : forall n, exists q', foldM (fill_eff N dt cs) (seq 0 n) (Seq (states q) (fun _ => 0%Z)) = Ok q' /\ length (states q') = length (states q) /\
     (forall t, d_time (nth t (states q') dstate_new) = d_time (nth t (states q) dstate_new) /\ d_com (nth t (states q') dstate_new) = d_com (nth t (states q) dstate_new) /\
              d_lmom (nth t (states q') dstate_new) = d_lmom (nth t (states q) dstate_new) /\ d_amom (nth t (states q') dstate_new) = d_amom (nth t (states q) dstate_new) /\
              d_lmomd (nth t (states q') dstate_new) = d_lmomd (nth t (states q) dstate_new) /\ d_amomd (nth t (states q') dstate_new) = d_amomd (nth t (states q) dstate_new)) /\
     (forall eff t, look q' eff t = if ((eff <? n)%nat && (t <? N)%nat)%bool then final_eff dt N (cs eff) 0 0 t (look q eff t) else look q eff t) /\
     (forall eff, act_steps q' eff = if (eff <? n)%nat then Z.of_nat (total dt N (cs eff)) else 0%Z)).
  { induction n.
    - eexists. split; [reflexivity|]. cbn [states act_steps]. repeat split; auto.
    - destruct IHn as (q1 & E & HL & HD & HE & HA). rewrite seq_S, foldM_append, E. cbn [bind Nat.add foldM]. unfold fill_eff, enumerate.
      destruct (fill_contacts dt n N (cs n) 0 (states q1) 0 ltac:(lia)) as (l & -> & HL2 & HS2 & HE2). cbn [bind fst snd].
      eexists. split; [reflexivity|]. cbn [states act_steps]. split; [lia|]. split; [|split].
      + intros t. destruct (HS2 t) as (a1&a2&a3&a4&a5&a6&_). destruct (HD t) as (b1&b2&b3&b4&b5&b6). repeat split; congruence.
      + intros eff t. unfold look at 1. cbn [states]. destruct (Nat.eq_dec eff n) as [->|Nn].
        * change (d_eff (nth t l dstate_new) n) with (eff_at l n t). rewrite HE2. change (eff_at (states q1) n t) with (look q1 n t). rewrite HE, Nat.ltb_irrefl. cbn [andb].
          replace (n <? S n)%nat with true by (symmetry; apply Nat.ltb_lt; lia). reflexivity.
        * destruct (HS2 t) as (_&_&_&_&_&_&a7). rewrite a7 by easy. change (d_eff (nth t (states q1) dstate_new) eff) with (look q1 eff t). rewrite HE.
          replace (eff <? S n)%nat with (eff <? n)%nat; [easy|]. destruct (Nat.ltb_spec eff n), (Nat.ltb_spec eff (S n)); try easy; lia.
      + intros eff. unfold upd. destruct (Nat.eqb_spec eff n) as [->|Nn].
        * replace (n <? S n)%nat with true by (symmetry; apply Nat.ltb_lt; lia). lia.
        * rewrite HA. replace (eff <? S n)%nat with (eff <? n)%nat; [easy|]. destruct (Nat.ltb_spec eff n), (Nat.ltb_spec eff (S n)); try easy; lia. }
  apply G.
Qed.

(** Counting the active steps of time ordered contacts. *)
Definition any (dt : R) (cs : list contact) (t : nat) : bool := existsb (fun c => hits dt c t) cs.
Lemma any_iff : forall dt cs t, any dt cs t = true <-> exists c, In c cs /\ hits dt c t = true.
Proof. intros. unfold any. rewrite existsb_exists. reflexivity. Qed.
Lemma count_or : forall f g n, (forall t, (t < n)%nat -> f t = true -> g t = true -> False) -> count (fun t => f t || g t)%bool n = (count f n + count g n)%nat.
Proof.
  induction n; intros H; cbn; auto. rewrite IHn by (intros; eapply H; eauto). pose proof (H n ltac:(lia)). destruct (f n), (g n); cbn; try lia; exfalso; now apply H0.
Qed.
Lemma total_count : forall dt N cs, (forall i j a b t, (t < N)%nat -> nth_error cs i = Some a -> nth_error cs j = Some b -> hits dt a t = true -> hits dt b t = true -> i = j) ->
  total dt N cs = count (any dt cs) N.
Proof.
  induction cs as [|c cs IH]; intros H; cbn [total]. { symmetry. now apply count_none. }
  rewrite IH.
  - rewrite <- count_or; [apply count_ext; intros; reflexivity|]. intros t Ht Hc Ha. apply any_iff in Ha. destruct Ha as (b & Hb & Hh).
    apply In_nth_error in Hb. destruct Hb as (j & Hj). assert (0 = S j)%nat by (eapply (H 0%nat (S j) c b t); eauto). lia.
  - intros i j a b t Ht Hi Hj Ha Hb. assert (S i = S j)%nat by (eapply (H (S i) (S j) a b t); eauto). lia.
Qed.
Lemma in_split_nth : forall (cs : list contact) k c, nth_error cs k = Some c -> exists pre post, cs = pre ++ c :: post /\ length pre = k.
Proof. intros. now apply nth_error_split. Qed.
Lemma nth_pre : forall (pre : list contact) c post i a, nth_error pre i = Some a -> nth_error (pre ++ c :: post) i = Some a.
Proof. intros. rewrite nth_error_app1; [easy|]. apply nth_error_Some. congruence. Qed.
Lemma nth_post : forall (pre : list contact) c post j b, nth_error post j = Some b -> nth_error (pre ++ c :: post) (length pre + S j) = Some b.
Proof. intros. rewrite nth_error_app2 by lia. replace (length pre + S j - length pre)%nat with (S j) by lia. easy. Qed.
Lemma ordered_exclusive : forall dt cs N, ordered cs -> exclusive dt cs N.
Proof.
  intros dt cs N H i j a b t Ht (Hi & Sa & Ia) (Hj & Sb & Ib). unfold in_contact in *.
  destruct (lt_eq_lt_dec i j) as [[L|E]|L]; [|exact E|]; exfalso.
  - pose proof (H i j a b L Hi Hj Sa Sb). lra.
  - pose proof (H j i b a L Hj Hi Sb Sa). lra.
Qed.
Lemma count_before : forall dt N pre c post t, 0 < dt -> ordered (pre ++ c :: post) -> (t < N)%nat -> hits dt c t = true ->
  (total dt N pre + count (hits dt c) t)%nat = count (any dt (pre ++ c :: post)) t.
Proof.
  intros dt N pre c post t Hdt Ho Ht Hc. apply hits_iff in Hc. destruct Hc as [Sc Ic].
  assert (Nc : nth_error (pre ++ c :: post) (length pre) = Some c) by (rewrite nth_error_app2, Nat.sub_diag; [easy|lia]).
  assert (Before : forall t', (t' < t)%nat -> any dt (pre ++ c :: post) t' = (any dt pre t' || hits dt c t')%bool).
  { intros t' Ht'. unfold any. rewrite existsb_app. cbn [existsb]. f_equal. replace (existsb (fun c0 => hits dt c0 t') post) with false; [apply orb_false_r|].
    symmetry. apply not_true_is_false. intros E. apply existsb_exists in E. destruct E as (b & Hb & Hh). apply hits_iff in Hh. destruct Hh as [Sb Ib].
    apply In_nth_error in Hb. destruct Hb as (j & Hj). pose proof (Ho (length pre) (length pre + S j)%nat c b ltac:(lia) Nc (nth_post _ _ _ _ _ Hj) Sc Sb).
    unfold in_contact in *. assert (INR (t' + 1) < INR (t + 1)) by (apply lt_INR; lia). nra. }
  rewrite (count_ext (any dt (pre ++ c :: post)) (fun t' => any dt pre t' || hits dt c t')%bool t) by exact Before.
  assert (D : forall t', any dt pre t' = true -> hits dt c t' = true -> False).
  { intros t' Ha Hh. apply any_iff in Ha. destruct Ha as (a & Ha & Hha). apply In_nth_error in Ha. destruct Ha as (i & Hi).
    apply hits_iff in Hh. destruct Hh as [_ Ih]. apply hits_iff in Hha. destruct Hha as [Sa Ia].
    pose proof (Ho i (length pre) a c ltac:(apply nth_error_Some; congruence) (nth_pre _ _ _ _ _ Hi) Nc Sa Sc). unfold in_contact in *. lra. }
  rewrite count_or by (intros; eapply D; eauto). f_equal.
  rewrite total_count.
  - (* everything in pre happens before t *)
    assert (Late : forall t', (t <= t')%nat -> any dt pre t' = false).
    { intros t' Ht'. apply not_true_is_false. intros Ha. apply any_iff in Ha. destruct Ha as (a & Ha & Hha). apply In_nth_error in Ha. destruct Ha as (i & Hi).
      apply hits_iff in Hha. destruct Hha as [Sa Ia].
      pose proof (Ho i (length pre) a c ltac:(apply nth_error_Some; congruence) (nth_pre _ _ _ _ _ Hi) Nc Sa Sc). unfold in_contact in *.
      assert (INR (t + 1) <= INR (t' + 1)) by (apply le_INR; lia). nra. }
    clear - Late Ht. induction N; [lia|]. destruct (Nat.eq_dec t N) as [->|]. cbn. rewrite Late by lia. lia. cbn. rewrite IHN, Late by lia. lia.
  - intros i j a b t' Ht' Hi Hj Ha Hb. apply hits_iff in Ha, Hb.
    apply (ordered_exclusive dt (pre ++ c :: post) N Ho i j a b t' Ht'); split; try apply nth_pre; easy.
Qed.

From Coq Require Import Reals List Arith ZArith Bool Lra Lia.
Import ListNotations.
From Verif Require Import Base BaseProofs Vec3 ExprsModel ConicModel ConicSpec OptVarModel OptVarSpec CntModel CntSpec CntProofs DynModel DynSpec DynProofs DynProofs2 DynStoreSpec.
Local Open Scope R_scope.

Section Store.
  Variables (g : dset) (q : dseq) (x : nat -> R).
  Let N := g_N g.

  Lemma upd_state_ok : forall l t f, (t < length l)%nat -> upd_state l (Z.of_nat t) f = Ok (set_nth l t (f (nth_state l t))).
  Proof. intros. unfold upd_state. rewrite (vget_nth l t dstate_new) by assumption. cbn [bind]. now rewrite vset_nth. Qed.
  Lemma upd_state_ub : forall l t f, (length l <= t)%nat -> upd_state l (Z.of_nat t) f = UB.
  Proof.
    intros. unfold upd_state, vget. replace (0 <=? Z.of_nat t)%Z with true by (symmetry; apply Z.leb_le; lia). rewrite Nat2Z.id.
    rewrite (proj2 (nth_error_None l t)) by assumption. reflexivity.
  Qed.
  Lemma store_steps : forall off f n l, (off + n <= length l)%nat ->
    exists l', foldM (fun l t => upd_state l (Z.of_nat t + Z.of_nat off) (f t)) (seq 0 n) l = Ok l' /\ length l' = length l /\
      forall t, nth_state l' t = if ((off <=? t) && (t <? off + n))%nat then f (t - off)%nat (nth_state l t) else nth_state l t.
  Proof.
    induction n; intros l H.
    - exists l. cbn [seq foldM]. split; [reflexivity|]. split; [reflexivity|]. intros t. destruct (Nat.leb_spec off t), (Nat.ltb_spec t (off + 0)); try reflexivity; lia.
    - destruct (IHn l ltac:(lia)) as (l1 & E & L & H1). rewrite seq_S, foldM_append, E. cbn [bind foldM Nat.add].
      replace (Z.of_nat n + Z.of_nat off)%Z with (Z.of_nat (off + n)) by lia. rewrite upd_state_ok by lia. cbn [bind]. eexists. split; [reflexivity|]. split; [rewrite set_nth_length; exact L|].
      intros t. unfold nth_state at 1. rewrite set_nth_nth by lia. destruct (Nat.eqb_spec t (off + n)) as [->|D].
      + replace (off <=? off + n)%nat with true by (symmetry; apply Nat.leb_le; lia). replace (off + n <? off + S n)%nat with true by (symmetry; apply Nat.ltb_lt; lia). cbn [andb].
        rewrite (H1 (off + n)%nat), Nat.ltb_irrefl, andb_false_r. f_equal. lia.
      + change (nth t l1 dstate_new) with (nth_state l1 t). rewrite H1. replace (t <? off + S n)%nat with (t <? off + n)%nat; [reflexivity|].
        destruct (Nat.ltb_spec t (off + n)), (Nat.ltb_spec t (off + S n)); try reflexivity; lia.
  Qed.
  Lemma store_loop_ok : forall off f l, (off + N <= length l)%nat ->
    exists l', store_loop g (Z.of_nat off) f l = Ok l' /\ length l' = length l /\
      forall t, nth_state l' t = if ((off <=? t) && (t <? off + N))%nat then f (t - off)%nat (nth_state l t) else nth_state l t.
  Proof. intros. unfold store_loop, steps. now apply store_steps. Qed.
  (** A sequence of exactly N states is written outside. *)
  Lemma store_loop_ub : forall f l, (length l = N)%nat -> (0 < N)%nat -> store_loop g 1 f l = UB.
  Proof.
    intros f l L HN. unfold store_loop, steps. change 1%Z with (Z.of_nat 1). fold N. replace N with (S (pred N)) by lia. rewrite seq_S, foldM_append.
    destruct (store_steps 1 f (pred N) l) as (l1 & E1 & L1 & _); [lia|]. rewrite E1. cbn [bind foldM Nat.add]. replace (Z.of_nat (pred N) + Z.of_nat 1)%Z with (Z.of_nat N) by lia.
    rewrite upd_state_ub by lia. reflexivity.
  Qed.

  Definition shell (d d' : dstate) : Prop :=
    d_time d' = d_time d /\ d_com d' = d_com d /\ d_lmom d' = d_lmom d /\ d_amom d' = d_amom d /\ d_lmomd d' = d_lmomd d /\ d_amomd d' = d_amomd d.
  Lemma shell_refl : forall d, shell d d. Proof. repeat split. Qed.
  Lemma shell_trans : forall a b c, shell a b -> shell b c -> shell a c.
  Proof. intros a b c (a1&a2&a3&a4&a5&a6) (b1&b2&b3&b4&b5&b6). repeat split; congruence. Qed.
  Definition here (l : list dstate) (e n t : nat) : bool := ((t <? n)%nat && e_act (d_eff (nth_state l t) e))%bool.
  Lemma eff_steps : forall e f n l, (n <= length l)%nat ->
    (forall t, (t < n)%nat -> e_act (d_eff (nth_state l t) e) = true -> (0 <= e_aid (d_eff (nth_state l t) e) < act_steps q e)%Z) ->
    exists l', foldM (fun l t => bind (vget l (Z.of_nat t)) (fun d => if e_act (d_eff d e)
        then bind (guess_col q e d) (fun k => vset l (Z.of_nat t) (set_eff d e (f k (d_eff d e)))) else Ok l)) (seq 0 n) l = Ok l' /\ length l' = length l /\
      (forall t, shell (nth_state l t) (nth_state l' t)) /\
      forall t k, d_eff (nth_state l' t) k = if ((k =? e)%nat && here l e n t)%bool then f (e_aid (d_eff (nth_state l t) e)) (d_eff (nth_state l t) e) else d_eff (nth_state l t) k.
  Proof.
    intros e f. induction n; intros l H HA.
    - exists l. cbn [seq foldM]. split; [reflexivity|]. split; [reflexivity|]. split; [intros; apply shell_refl|]. intros t k. unfold here. cbn. now rewrite andb_false_r.
    - destruct (IHn l ltac:(lia)) as (l1 & E & L & HS & H1); [intros; apply HA; [lia|assumption]|]. rewrite seq_S, foldM_append, E. cbn [bind foldM Nat.add].
      rewrite (vget_nth l1 n dstate_new) by lia. cbn [bind]. change (nth n l1 dstate_new) with (nth_state l1 n).
      assert (SE : forall k, d_eff (nth_state l1 n) k = d_eff (nth_state l n) k) by (intros k; rewrite H1; unfold here; now rewrite Nat.ltb_irrefl, andb_false_r).
      destruct (e_act (d_eff (nth_state l1 n) e)) eqn:A.
      + unfold guess_col. rewrite SE in A. assert (HB := HA n ltac:(lia) A). rewrite SE.
        replace ((0 <=? e_aid (d_eff (nth_state l n) e)) && (e_aid (d_eff (nth_state l n) e) <? act_steps q e))%Z with true by (symmetry; apply andb_true_intro; split; [apply Z.leb_le|apply Z.ltb_lt]; lia).
        cbn [bind]. rewrite vset_nth by lia. cbn [bind]. eexists. split; [reflexivity|]. split; [rewrite set_nth_length; exact L|]. split.
        * intros t. unfold nth_state at 2. rewrite set_nth_nth by lia. destruct (Nat.eqb_spec t n) as [->|D]; [|apply HS]. eapply shell_trans; [apply HS|]. repeat split.
        * intros t k. unfold nth_state at 1. rewrite set_nth_nth by lia. destruct (Nat.eqb_spec t n) as [->|D].
          -- unfold set_eff. cbn [d_eff]. destruct (Nat.eqb_spec k e) as [->|K].
             ++ rewrite upd_same. unfold here. replace (n <? S n)%nat with true by (symmetry; apply Nat.ltb_lt; lia). rewrite A. reflexivity.
             ++ rewrite upd_other by exact K. cbn [andb]. apply SE.
          -- change (nth t l1 dstate_new) with (nth_state l1 t). rewrite H1. unfold here. replace (t <? S n)%nat with (t <? n)%nat; [reflexivity|]. destruct (Nat.ltb_spec t n), (Nat.ltb_spec t (S n)); try reflexivity; lia.
      + exists l1. cbn [bind foldM]. split; [reflexivity|]. split; [exact L|]. split; [exact HS|]. intros t k. rewrite H1. destruct (Nat.eqb_spec t n) as [->|D].
        * unfold here. rewrite SE in A. rewrite A, !andb_false_r. reflexivity.
        * unfold here. replace (t <? S n)%nat with (t <? n)%nat; [reflexivity|]. destruct (Nat.ltb_spec t n), (Nat.ltb_spec t (S n)); try reflexivity; lia.
  Qed.
  Lemma eff_loop_ok : forall e f l, (N <= length l)%nat ->
    (forall t, (t < N)%nat -> e_act (d_eff (nth_state l t) e) = true -> (0 <= e_aid (d_eff (nth_state l t) e) < act_steps q e)%Z) ->
    exists l', store_eff_loop g q e f l = Ok l' /\ length l' = length l /\ (forall t, shell (nth_state l t) (nth_state l' t)) /\
      forall t k, d_eff (nth_state l' t) k = if ((k =? e)%nat && here l e N t)%bool then f (e_aid (d_eff (nth_state l t) e)) (d_eff (nth_state l t) e) else d_eff (nth_state l t) k.
  Proof. intros. unfold store_eff_loop, steps. now apply eff_steps. Qed.

  (** All four loops of one end-effector. *)
  Definition eff_final (e : nat) (o : effst) : effst :=
    let k := e_aid o in
    let o1 := set_trq (V3 0 0 (val g q x (bTRQ g e) 0 k)) (set_cop (V3 (val g q x (bCOP g e) 0 k) (val g q x (bCOP g e) 1 k) 0) (set_frc (val3 g q x (bFRC g e) k) o)) in
    set_trqc (trq_contact g o1) o1.
  Definition store_one (e : nat) (l : list dstate) : res (list dstate) :=
      bind (store_eff_loop g q e (fun k => set_frc (val3 g q x (bFRC g e) k)) l) (fun l =>
      bind (store_eff_loop g q e (fun k => set_cop (V3 (val g q x (bCOP g e) 0 k) (val g q x (bCOP g e) 1 k) 0)) l) (fun l =>
      bind (store_eff_loop g q e (fun k => set_trq (V3 0 0 (val g q x (bTRQ g e) 0 k))) l) (fun l =>
      store_eff_loop g q e (fun k es => set_trqc (trq_contact g es) es) l))).
  Lemma store_one_ok : forall e l, (N <= length l)%nat ->
    (forall t, (t < N)%nat -> e_act (d_eff (nth_state l t) e) = true -> (0 <= e_aid (d_eff (nth_state l t) e) < act_steps q e)%Z) ->
    exists l', store_one e l = Ok l' /\ length l' = length l /\ (forall t, shell (nth_state l t) (nth_state l' t)) /\
      forall t k, d_eff (nth_state l' t) k = if ((k =? e)%nat && here l e N t)%bool then eff_final e (d_eff (nth_state l t) e) else d_eff (nth_state l t) k.
  Proof.
    intros e l HL HA. unfold store_one.
    destruct (eff_loop_ok e (fun k => set_frc (val3 g q x (bFRC g e) k)) l HL HA) as (l1 & E1 & L1 & S1 & D1). rewrite E1. cbn [bind].
    assert (K1 : forall t, e_act (d_eff (nth_state l1 t) e) = e_act (d_eff (nth_state l t) e) /\ e_aid (d_eff (nth_state l1 t) e) = e_aid (d_eff (nth_state l t) e)).
    { intros t. rewrite D1, Nat.eqb_refl. cbn [andb]. destruct (here l e N t); split; reflexivity. }
    destruct (eff_loop_ok e (fun k => set_cop (V3 (val g q x (bCOP g e) 0 k) (val g q x (bCOP g e) 1 k) 0)) l1) as (l2 & E2 & L2 & S2 & D2); [lia| |].
    { intros t Ht. destruct (K1 t) as (-> & ->). now apply HA. }
    rewrite E2. cbn [bind].
    assert (K2 : forall t, e_act (d_eff (nth_state l2 t) e) = e_act (d_eff (nth_state l t) e) /\ e_aid (d_eff (nth_state l2 t) e) = e_aid (d_eff (nth_state l t) e)).
    { intros t. destruct (K1 t) as (<- & <-). rewrite D2, Nat.eqb_refl. cbn [andb]. destruct (here l1 e N t); split; reflexivity. }
    destruct (eff_loop_ok e (fun k => set_trq (V3 0 0 (val g q x (bTRQ g e) 0 k))) l2) as (l3 & E3 & L3 & S3 & D3); [lia| |].
    { intros t Ht. destruct (K2 t) as (-> & ->). now apply HA. }
    rewrite E3. cbn [bind].
    assert (K3 : forall t, e_act (d_eff (nth_state l3 t) e) = e_act (d_eff (nth_state l t) e) /\ e_aid (d_eff (nth_state l3 t) e) = e_aid (d_eff (nth_state l t) e)).
    { intros t. destruct (K2 t) as (<- & <-). rewrite D3, Nat.eqb_refl. cbn [andb]. destruct (here l2 e N t); split; reflexivity. }
    destruct (eff_loop_ok e (fun k es => set_trqc (trq_contact g es) es) l3) as (l4 & E4 & L4 & S4 & D4); [lia| |].
    { intros t Ht. destruct (K3 t) as (-> & ->). now apply HA. }
    exists l4. split; [exact E4|]. split; [lia|]. split; [intros t; eapply shell_trans; [apply S1|]; eapply shell_trans; [apply S2|]; eapply shell_trans; [apply S3|apply S4]|].
    intros t k.
    assert (H1 : here l1 e N t = here l e N t) by (unfold here; now rewrite (proj1 (K1 t))). assert (H2 : here l2 e N t = here l e N t) by (unfold here; now rewrite (proj1 (K2 t))). assert (H3 : here l3 e N t = here l e N t) by (unfold here; now rewrite (proj1 (K3 t))).
    destruct ((k =? e)%nat && here l e N t)%bool eqn:C.
    - apply andb_prop in C as [C1 C2]. apply Nat.eqb_eq in C1. subst k. rewrite D4, H3, C2, Nat.eqb_refl. cbn [andb]. rewrite D3, H2, C2, Nat.eqb_refl. cbn [andb]. rewrite (proj2 (K2 t)). rewrite D2, H1, C2, Nat.eqb_refl. cbn [andb].
      rewrite (proj2 (K1 t)). rewrite D1, C2, Nat.eqb_refl. cbn [andb]. reflexivity.
    - rewrite D4, H3, C, D3, H2, C, D2, H1, C, D1, C. reflexivity.
  Qed.
  Lemma store_effs_ok : forall n l, (N <= length l)%nat ->
    (forall e t, (e < n)%nat -> (t < N)%nat -> e_act (d_eff (nth_state l t) e) = true -> (0 <= e_aid (d_eff (nth_state l t) e) < act_steps q e)%Z) ->
    exists l', foldM (fun l e => store_one e l) (seq 0 n) l = Ok l' /\ length l' = length l /\ (forall t, shell (nth_state l t) (nth_state l' t)) /\
      forall t k, d_eff (nth_state l' t) k = if ((k <? n)%nat && here l k N t)%bool then eff_final k (d_eff (nth_state l t) k) else d_eff (nth_state l t) k.
  Proof.
    induction n; intros l HL HA.
    - exists l. cbn [seq foldM]. split; [reflexivity|]. split; [reflexivity|]. split; [intros; apply shell_refl|reflexivity].
    - destruct (IHn l HL) as (l1 & E & L & HS & H1); [intros; apply HA; [lia|assumption|assumption]|]. rewrite seq_S, foldM_append, E. cbn [bind foldM Nat.add].
      assert (SE : forall t, d_eff (nth_state l1 t) n = d_eff (nth_state l t) n) by (intros t; rewrite H1; now rewrite Nat.ltb_irrefl).
      destruct (store_one_ok n l1) as (l2 & E2 & L2 & S2 & D2); [lia| |]. { intros t Ht. rewrite SE. apply HA; [lia|exact Ht]. }
      rewrite E2. cbn [bind]. exists l2. split; [reflexivity|]. split; [lia|]. split; [intros t; eapply shell_trans; [apply HS|apply S2]|].
      intros t k. rewrite D2. destruct (Nat.eqb_spec k n) as [->|K].
      + unfold here. rewrite SE. replace (n <? S n)%nat with true by (symmetry; apply Nat.ltb_lt; lia). cbn [andb]. reflexivity.
      + cbn [andb]. rewrite H1. replace (k <? S n)%nat with (k <? n)%nat; [reflexivity|]. destruct (Nat.ltb_spec k n), (Nat.ltb_spec k (S n)); try reflexivity; lia.
  Qed.
End Store.

Section Whole.
  Variables (g : dset) (q : dseq) (cs : nat -> list contact) (stray : nat -> nat -> option ctype) (x : nat -> R) (ini : dstate).
  Hypothesis HR : ready g q cs stray.
  Let N := g_N g.
  Let P := plan_of g q x.
  Lemma val_com : forall t, (t < N)%nat -> val3 g q x bCOM (Z.of_nat t) = p_com P t.
  Proof. intros t Ht. apply veq_axes. intros i Hi. unfold P. rewrite <- (v_com g q x t i Ht Hi). unfold evt, ev. rewrite aval_var. now rewrite (vget3_V3 (fun r => val g q x bCOM r (Z.of_nat t))). Qed.
  Lemma val_lm : forall t, (t < N)%nat -> val3 g q x bLM (Z.of_nat t) = p_lmom P t.
  Proof. intros t Ht. apply veq_axes. intros i Hi. unfold P. rewrite <- (v_lm g q x t i Ht Hi). unfold evt, ev. rewrite aval_var. now rewrite (vget3_V3 (fun r => val g q x bLM r (Z.of_nat t))). Qed.
  Lemma val_am : forall t, (t < N)%nat -> val3 g q x bAM (Z.of_nat t) = p_amom P t.
  Proof. intros t Ht. apply veq_axes. intros i Hi. unfold P. rewrite <- (v_am g q x t i Ht Hi). unfold evt, ev. rewrite aval_var. now rewrite (vget3_V3 (fun r => val g q x bAM r (Z.of_nat t))). Qed.
  Lemma val_dt : forall t, timeopt g = true -> (t < N)%nat -> dt_val g q x t = p_dt P t.
  Proof. intros t T Ht. unfold P. rewrite <- (v_dt g q x t T Ht). unfold evt, ev. rewrite aval_var. reflexivity. Qed.
  Lemma val_lmd : forall t, timeopt g = true -> (t < N)%nat -> val3 g q x bLMD (Z.of_nat t) = p_lmomd P t.
  Proof. intros t T Ht. apply veq_axes. intros i Hi. unfold P. rewrite <- (v_lmd g q x t i T Ht Hi). unfold evt, ev. rewrite aval_var. now rewrite (vget3_V3 (fun r => val g q x bLMD r (Z.of_nat t))). Qed.
  Lemma val_amd : forall t, timeopt g = true -> (t < N)%nat -> val3 g q x bAMD (Z.of_nat t) = p_amomd P t.
  Proof. intros t T Ht. apply veq_axes. intros i Hi. unfold P. rewrite <- (v_amd g q x t i T Ht Hi). unfold evt, ev. rewrite aval_var. now rewrite (vget3_V3 (fun r => val g q x bAMD r (Z.of_nat t))). Qed.
  Lemma val_eff : forall e t, (e < g_neff g)%nat -> (t < N)%nat -> act q t e = true ->
    val3 g q x (bFRC g e) (aid q t e) = p_frc P e t /\ val g q x (bCOP g e) 0 (aid q t e) = p_copx P e t /\ val g q x (bCOP g e) 1 (aid q t e) = p_copy P e t /\ val g q x (bTRQ g e) 0 (aid q t e) = p_trq P e t.
  Proof.
    intros e t He Ht Ha. split; [|split; [|split]].
    - apply veq_axes. intros i Hi. unfold P. rewrite <- (v_frc g q cs stray HR x e t He Ht Ha i Hi). unfold force, eff_ev, ev. rewrite aval_var. now rewrite (vget3_V3 (fun r => val g q x (bFRC g e) r (aid q t e))).
    - unfold P. rewrite <- (v_copx g q cs stray HR x e t He Ht Ha). unfold eff_ev, ev. now rewrite aval_var.
    - unfold P. rewrite <- (v_copy g q cs stray HR x e t He Ht Ha). unfold eff_ev, ev. now rewrite aval_var.
    - unfold P. rewrite <- (v_trq g q cs stray HR x e t He Ht Ha). unfold eff_ev, ev. now rewrite aval_var.
  Qed.

  Lemma in1 : forall t, ((1 <=? t) && (t <? 1 + N))%nat = match t with O => false | S t' => (t' <? N)%nat end.
  Proof. intros [|t]; [reflexivity|]. cbn [Nat.leb andb]. destruct (Nat.ltb_spec t N), (Nat.ltb_spec (S t) (1 + N)); try reflexivity; lia. Qed.
  Ltac facts t D := let H := fresh in pose proof (D t) as H.
  Theorem store_ok : forall am, (0 < N)%nat -> (N < length (states q))%nat -> exists l, storeSolution g q x am (states q) = Ok l /\ stored g q P am l.
  Proof.
    intros am HN HL. unfold storeSolution. change 0%Z with (Z.of_nat 0) at 1. rewrite upd_state_ok by lia. cbn [bind].
    set (l0 := set_nth (states q) 0 _). assert (L0 : length l0 = length (states q)) by apply set_nth_length.
    assert (D0 : forall t, nth_state l0 t = match t with O => set_com (val3 g q x bCOM 0) (nth_state (states q) 0) | _ => nth_state (states q) t end).
    { intros t. unfold nth_state at 1, l0. rewrite set_nth_nth by lia. destruct t; reflexivity. }
    change 1%Z with (Z.of_nat 1).
    destruct (store_loop_ok g 1 (fun t => set_com (val3 g q x bCOM (Z.of_nat t))) l0) as (l1 & E1 & L1 & D1); [fold N; lia|]. rewrite E1. cbn [bind].
    destruct (store_loop_ok g 1 (fun t => set_lmom (val3 g q x bLM (Z.of_nat t))) l1) as (l2 & E2 & L2 & D2); [fold N; lia|]. rewrite E2. cbn [bind].
    destruct (store_loop_ok g 1 (fun t => set_amom (am t)) l2) as (l3 & E3 & L3 & D3); [fold N; lia|]. rewrite E3. cbn [bind].
    fold N in D1, D2, D3.
    assert (X : exists l4, (if timeopt g then
            bind (store_loop g 0 (fun t => set_time (dt_val g q x t)) l3) (fun l =>
            bind (store_loop g 0 (fun t => set_lmomd (val3 g q x bLMD (Z.of_nat t))) l) (fun l =>
            store_loop g 0 (fun t => set_amomd (val3 g q x bAMD (Z.of_nat t))) l)) else Ok l3) = Ok l4 /\ length l4 = length l3 /\
       forall t, d_com (nth_state l4 t) = d_com (nth_state l3 t) /\ d_lmom (nth_state l4 t) = d_lmom (nth_state l3 t) /\ d_amom (nth_state l4 t) = d_amom (nth_state l3 t) /\ d_eff (nth_state l4 t) = d_eff (nth_state l3 t) /\
         d_time (nth_state l4 t) = (if (timeopt g && (t <? N)%nat)%bool then dt_val g q x t else d_time (nth_state l3 t)) /\
         d_lmomd (nth_state l4 t) = (if (timeopt g && (t <? N)%nat)%bool then val3 g q x bLMD (Z.of_nat t) else d_lmomd (nth_state l3 t)) /\
         d_amomd (nth_state l4 t) = (if (timeopt g && (t <? N)%nat)%bool then val3 g q x bAMD (Z.of_nat t) else d_amomd (nth_state l3 t))).
    { destruct (timeopt g) eqn:T.
      - change 0%Z with (Z.of_nat 0).
        destruct (store_loop_ok g 0 (fun t => set_time (dt_val g q x t)) l3) as (a1 & F1 & M1 & G1); [fold N; lia|]. rewrite F1. cbn [bind].
        destruct (store_loop_ok g 0 (fun t => set_lmomd (val3 g q x bLMD (Z.of_nat t))) a1) as (a2 & F2 & M2 & G2); [fold N; lia|]. rewrite F2. cbn [bind].
        destruct (store_loop_ok g 0 (fun t => set_amomd (val3 g q x bAMD (Z.of_nat t))) a2) as (a3 & F3 & M3 & G3); [fold N; lia|].
        exists a3. split; [exact F3|]. split; [lia|]. intros t. specialize (G1 t). specialize (G2 t). specialize (G3 t). fold N in G1, G2, G3. cbn [Nat.leb andb Nat.add] in *. rewrite Nat.sub_0_r in *.
        rewrite G3, G2, G1. destruct (t <? N)%nat; cbn [set_time set_lmomd set_amomd d_com d_lmom d_amom d_eff d_time d_lmomd d_amomd]; repeat split; reflexivity.
      - exists l3. cbn [andb]. repeat split. }
    destruct X as (l4 & E4 & L4 & D4). rewrite E4. cbn [bind]. unfold effs.
    assert (SAME : forall t, d_eff (nth_state l4 t) = d_eff (nth_state (states q) t)).
    { intros t. destruct (D4 t) as (_ & _ & _ & -> & _). rewrite D3, D2, D1, !D0. rewrite in1. destruct t; [reflexivity|]. destruct (t <? N)%nat; reflexivity. }
    destruct (store_effs_ok g q x (g_neff g) l4) as (l5 & E5 & L5 & S5 & D5); [fold N; lia| |].
    { intros e t He Ht. rewrite SAME. intros Ha. destruct HR as (_ & H & _). apply (H e t He Ht Ha). }
    exists l5. split; [exact E5|]. fold N in D5.
    assert (HERE : forall e t, here l4 e N t = ((t <? N)%nat && act q t e)%bool) by (intros; unfold here; now rewrite SAME).
    split.
    - lia.
    - destruct (S5 0%nat) as (_ & -> & _). destruct (D4 0%nat) as (-> & _). rewrite D3, D2, D1, !D0. cbn [Nat.leb andb]. cbn [set_com d_com]. apply (val_com 0). exact HN.
    - intros t Ht. fold N in Ht. destruct (S5 (S t)) as (_ & -> & _). destruct (D4 (S t)) as (-> & _). rewrite D3, D2, D1, in1. apply Nat.ltb_lt in Ht as Ht'. rewrite Ht'. cbn [set_com set_lmom set_amom d_com Nat.sub]. rewrite Nat.sub_0_r. now apply val_com.
    - intros t Ht. fold N in Ht. destruct (S5 (S t)) as (_ & _ & -> & _). destruct (D4 (S t)) as (_ & -> & _). rewrite D3, D2, in1. apply Nat.ltb_lt in Ht as Ht'. rewrite Ht'. cbn [set_lmom set_amom d_lmom Nat.sub]. rewrite Nat.sub_0_r. now apply val_lm.
    - intros t Ht. fold N in Ht. destruct (S5 (S t)) as (_ & _ & _ & -> & _). destruct (D4 (S t)) as (_ & _ & -> & _). rewrite D3, in1. apply Nat.ltb_lt in Ht as Ht'. rewrite Ht'. cbn [set_amom d_amom Nat.sub]. now rewrite Nat.sub_0_r.
    - destruct (S5 0%nat) as (_ & _ & -> & -> & _). destruct (D4 0%nat) as (_ & -> & -> & _). rewrite D3, D2, D1, !D0. cbn [Nat.leb andb set_com d_lmom d_amom]. split; reflexivity.
    - intros HT t Ht. assert (T : timeopt g = true) by (unfold timeopt; now rewrite HT). destruct (S5 t) as (-> & _ & _ & _ & -> & ->). destruct (D4 t) as (_ & _ & _ & _ & -> & -> & ->). rewrite T. apply Nat.ltb_lt in Ht as Ht'. fold N in Ht'. rewrite Ht'. cbn [andb].
      split; [now apply val_dt|]. split; [now apply val_lmd|now apply val_amd].
    - intros t HT. destruct (S5 t) as (-> & _ & _ & _ & -> & ->). destruct (D4 t) as (_ & _ & _ & _ & -> & -> & ->).
      assert (C : (timeopt g && (t <? N)%nat)%bool = false). { destruct HT as [HT|HT]; [unfold timeopt; destruct (g_heur g); [reflexivity|reflexivity|now elim HT]|]. apply andb_false_intro2. apply Nat.ltb_ge. exact HT. }
      rewrite C. rewrite D3, D2, D1, !D0, in1. destruct t; [repeat split|]. destruct (t <? N)%nat; repeat split.
    - intros e t He Ht Ha o. rewrite D5, HERE. replace (e <? g_neff g)%nat with true by (symmetry; now apply Nat.ltb_lt). replace (t <? N)%nat with true by (symmetry; now apply Nat.ltb_lt). change (act q t e) with (e_act (look q e t)). rewrite Ha. cbn [andb].
      rewrite SAME. change (d_eff (nth_state (states q) t) e) with o. destruct (val_eff e t He Ht Ha) as (V1 & V2 & V3 & V4). change (aid q t e) with (e_aid o) in V1, V2, V3, V4.
      unfold eff_final. cbn [set_frc set_cop set_trq set_trqc e_act e_cid e_aid e_pos e_vel e_acc e_ori e_frc e_trq e_cop trq_contact]. rewrite V1, V2, V3, V4. reflexivity.
    - intros e t H. rewrite D5, HERE. rewrite SAME. change (d_eff (nth_state (states q) t) e) with (look q e t).
      assert (C : ((e <? g_neff g)%nat && ((t <? N)%nat && act q t e))%bool = false).
      { destruct H as [H|[H|H]]; [apply andb_false_intro1, Nat.ltb_ge; exact H|apply andb_false_intro2, andb_false_intro1, Nat.ltb_ge; exact H|]. apply andb_false_intro2, andb_false_intro2. unfold active in H. change (act q t e) with (e_act (look q e t)). destruct (e_act (look q e t)); [now elim H|reflexivity]. }
      rewrite C. reflexivity.
    - intros t Ht. fold N in Ht. destruct (S5 t) as (_ & -> & -> & -> & _). destruct (D4 t) as (-> & -> & -> & _). rewrite D3, D2, D1, !D0, in1. destruct t as [|t]; [lia|]. replace (t <? N)%nat with false by (symmetry; apply Nat.ltb_ge; lia). repeat split.
  Qed.
  Theorem store_ub : forall am, (0 < N)%nat -> (length (states q) = N) -> storeSolution g q x am (states q) = UB.
  Proof.
    intros am HN HL. unfold storeSolution. change 0%Z with (Z.of_nat 0) at 1. rewrite upd_state_ok by lia. cbn [bind]. rewrite store_loop_ub; [reflexivity|rewrite set_nth_length; exact HL|exact HN].
  Qed.

  (** ** What is computed after the solve *)
  Lemma fold_active : forall (f : nat -> vec3) (k : R) t n v, fold_left (fun l e => if act q t e then vadd l (vscale k (f e)) else l) (seq 0 n) v = vadd v (vscale k (active_sum q n t f)).
  Proof.
    intros f k t. induction n; intros v.
    - cbn. destruct v as [a b c]. unfold vadd, vscale, v0. cbn [vx vy vz]. f_equal; ring.
    - rewrite seq_S, fold_left_app, IHn. cbn [fold_left Nat.add active_sum]. change (e_act (look q n t)) with (act q t n). destruct (act q t n); destruct v as [a b c], (active_sum q n t f) as [u1 u2 u3]; unfold vadd, vscale, v0; cbn [vx vy vz]; f_equal; ring.
  Qed.
  Lemma active_ext : forall (f h : nat -> vec3) t n, (forall e, (e < n)%nat -> act q t e = true -> f e = h e) -> active_sum q n t f = active_sum q n t h.
  Proof.
    intros f h t. induction n; intros H; [reflexivity|]. cbn [active_sum]. rewrite IHn by (intros; apply H; [lia|assumption]). change (e_act (look q n t)) with (act q t n). destruct (act q t n) eqn:A; [|reflexivity]. rewrite H by (auto; lia). reflexivity.
  Qed.
  Lemma contact_active : forall e t, (e < g_neff g)%nat -> (t < N)%nat -> act q t e = true -> contact_of_active q cs t e = contact_on cs q e t.
  Proof. intros e t He Ht Ha. unfold contact_of_active. now rewrite (act_contact g q cs stray HR e t He Ht Ha). Qed.
  (** Contact torque about a point. *)
  Definition torque_about (com : vec3) (e t : nat) : vec3 :=
    let c := contact_on cs q e t in
    vadd (vcross (vsub (vadd (c_pos c) (vadd (vscale (p_copx P e t) (surf c 0)) (vscale (p_copy P e t) (surf c 1)))) com) (vscale (g_mg g) (p_frc P e t)))
         (vscale (p_trq P e t) (surf c 2)).
  Definition about (t : nat) : vec3 := if timeopt g then compos g q ini x t else p_com P t.
  Lemma ang_is : forall t, (t < N)%nat -> angmom g q ini cs x t = accum (d_amom ini) (fun s => vscale (step_time q s) (active_sum q (g_neff g) s (fun e => torque_about (about s) e s))) (S t).
  Proof.
    assert (ST : forall t v, (t < N)%nat -> ang_step g q ini cs x t v = vadd v (vscale (step_time q t) (active_sum q (g_neff g) t (fun e => torque_about (about t) e t)))).
    { intros t v Ht. unfold ang_step, effs. rewrite (fold_active (fun e => vadd (vcross (len_val g q ini cs x t e) (frc_val g q x t e)) (trq_val g q cs x t e)) (sdt q t)).
      f_equal. unfold step_time, sdt, st. f_equal. apply active_ext. intros e He Ha. destruct (val_eff e t He Ht Ha) as (V1 & V2 & V3 & V4).
      unfold len_val, frc_val, trq_val, torque_about, surf. rewrite contact_active, V1, V2, V3, V4 by assumption.
      assert (AB : (if timeopt g then compos g q ini x t else val3 g q x bCOM (Z.of_nat t)) = about t) by (unfold about; destruct (timeopt g); [reflexivity|now apply val_com]). rewrite AB.
      f_equal. f_equal. destruct (c_pos (contact_on cs q e t)) as [a b c], (about t) as [a' b' c']. unfold vadd, vsub, vscale. cbn [vx vy vz]. f_equal; ring. }
    induction t; intros Ht; cbn [angmom]; rewrite ST by exact Ht; [reflexivity|]. rewrite IHt by lia. reflexivity.
  Qed.
  Lemma lin_is : forall t, timeopt g = true -> (t < N)%nat ->
    linmom g q ini x t = accum (d_lmom ini) (fun s => vscale (p_dt P s) (net_force g q P s)) (S t) /\
    compos g q ini x t = accum (d_com ini) (fun s => vscale (p_dt P s / g_mass g) (linmom g q ini x s)) (S t).
  Proof.
    intros t T.
    assert (ST : forall t v, (t < N)%nat -> lin_step g q x t v = vadd v (vscale (p_dt P t) (net_force g q P t))).
    { intros s v Hs. unfold lin_step, effs. rewrite (fold_active (fun e => frc_val g q x s e) (dt_val g q x s)). rewrite (val_dt s T Hs).
      rewrite (active_ext _ (fun e => vscale (g_mg g) (p_frc P e s))). { unfold net_force. destruct v as [a b c], (active_sum q (g_neff g) s _) as [u1 u2 u3]. unfold vadd, vscale. cbn [vx vy vz]. f_equal; ring. }
      intros e He Ha. unfold frc_val. destruct (val_eff e s He Hs Ha) as (-> & _). reflexivity. }
    induction t; intros Ht.
    - split; [cbn [linmom]; rewrite ST by exact Ht; reflexivity|]. cbn [compos]. unfold com_step. rewrite (val_dt 0 T Ht). cbn [accum]. f_equal. f_equal. unfold Rdiv. ring.
    - destruct (IHt ltac:(lia)) as (I1 & I2). split; [cbn [linmom]; rewrite ST by exact Ht; rewrite I1; reflexivity|]. cbn [compos]. unfold com_step. rewrite (val_dt (S t) T Ht), I2. cbn [accum]. f_equal. f_equal. unfold Rdiv. ring.
  Qed.
End Whole.

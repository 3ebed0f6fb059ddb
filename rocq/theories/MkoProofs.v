(** * The motion computed by inverse kinematics: invariant over the steps *)
From Coq Require Import Reals List Arith Bool Lia Lra.
Import ListNotations.
From Verif Require Import Base BaseProofs Vec3 CntProofs PyqpModel PyqpSpec IkModel IkSpec IkProofs IkProps MkoModel MkoSpec.
Local Open Scope R_scope.

Lemma momentum_ext : forall rb q x y i, (forall j, (j < r_nv rb)%nat -> x j = y j) -> momentum_of rb q x i = momentum_of rb q y i.
Proof. intros. unfold momentum_of, dotv. apply rsum_ext. intros j Hj. now rewrite H. Qed.
Lemma task_cost_ext : forall rb st a x y, (forall j, (j < r_nv rb)%nat -> x j = y j) -> task_cost rb st a x = task_cost rb st a y.
Proof.
  intros rb st a x y E. unfold task_cost. f_equal; [f_equal; [f_equal; [f_equal|]|]|].
  - f_equal. apply rsum_ext. intros. now rewrite (momentum_ext rb _ x y).
  - f_equal. apply rsum_ext. intros. now rewrite (momentum_ext rb _ x y).
  - apply rsum_ext. intros e He. f_equal. apply rsum_ext. intros i Hi. f_equal. f_equal. unfold eff_velocity_of, dotv. apply rsum_ext. intros j Hj. now rewrite E.
  - f_equal. apply rsum_ext. intros j Hj. rewrite E by lia. reflexivity.
  - f_equal. apply rsum_ext. intros j Hj. now rewrite E.
Qed.
Lemma admissible_ext : forall rb a x y, (forall j, (j < r_nv rb)%nat -> x j = y j) -> admissible rb a x -> admissible rb a y.
Proof. intros rb a x y E H F i Hi. rewrite <- !(momentum_ext rb _ x y) by exact E. now apply H. Qed.
Lemma minimises_ext : forall rb st a x y, (forall j, (j < r_nv rb)%nat -> x j = y j) -> minimises (admissible rb a) (task_cost rb st a) x -> minimises (admissible rb a) (task_cost rb st a) y.
Proof. intros rb st a x y E (A & B). split; [now apply (admissible_ext rb a x)|]. intros z Hz. rewrite <- (task_cost_ext rb st a x y E). now apply B. Qed.
Lemma listing_length : forall x, length (listing x) = pl x.
Proof. intros. unfold listing. now rewrite map_length, seq_length. Qed.
Lemma listing_entries : forall x j, (j < pl x)%nat -> entries (listing x) j = pe x j.
Proof. intros x j H. unfold entries, listing. rewrite (nth_indep _ 0 (pe x 0%nat)) by (rewrite map_length, seq_length; exact H). rewrite map_nth, seq_nth by exact H. reflexivity. Qed.
Lemma pyget_ok {A} : forall (l : list A) i a d, pyget l i = Ok a -> (i < length l)%nat /\ nth i l d = a.
Proof. intros l i a d H. unfold pyget in H. destruct (nth_error l i) as [b|] eqn:E; [|discriminate]. injection H as ->. split; [apply nth_error_Some; congruence|now apply nth_error_nth]. Qed.
Lemma pyget_nth {A} : forall (l : list A) i d, (i < length l)%nat -> pyget l i = Ok (nth i l d).
Proof. intros l i d H. unfold pyget. destruct (nth_error l i) eqn:E; [now rewrite (nth_error_nth _ _ d E)|apply nth_error_None in E; lia]. Qed.

Section Mko.
  Variables (sq : pm -> pv -> option (pm * pv) -> nat -> res pv) (rb : robot) (integ : config -> config -> config) (olog : list R -> config -> vec3) (g : mkin)
    (joint_des base_des : list (list R)) (st : iksetting) (s0 : ikst) (q0 dq0 : config).
  Notation nv := (r_nv rb). Notation ne := (r_ne rb).
  Notation step := (mko_step sq rb integ olog g joint_des base_des st).
  Definition M0 : nat -> R := fun i => rsum nv (fun j => k_J s0 i j * nth j dq0 0).
  Definition Mof (Q DQ : nat -> config) : nat -> nat -> R := fun s i => match s with O => M0 i | S p => momentum_of rb (Q p) (entries (DQ s)) i end.
  Definition trail (m : mst) : list (config * config) := map (fun r => (o_q r, o_dq r)) (m_out m) ++ [(m_q m, m_dq m)].
  Definition Qm (m : mst) (t : nat) : config := fst (nth t (trail m) ([], [])).
  Definition DQm (m : mst) (t : nat) : config := snd (nth t (trail m) ([], [])).
  Notation Mm m := (Mof (Qm m) (DQm m)).
  Notation motionn := (motion rb integ olog st g joint_des base_des M0 q0 dq0).

  Lemma flight_dec : forall it, (0 < ne)%nat -> forallb (fun e => negb (mk_act g it e)) (seq 0 ne) = true <-> in_flight rb g it.
  Proof.
    intros it _. rewrite forallb_forall. split.
    - intros H e He. specialize (H e). rewrite in_seq in H. specialize (H ltac:(lia)). now destruct (mk_act g it e).
    - intros H e He. apply in_seq in He. rewrite (H e) by lia. reflexivity.
  Qed.
  Lemma flight_cases : forall it, in_flight rb g it \/ ~ in_flight rb g it.
  Proof.
    intros it. destruct (Nat.eq_dec ne 0) as [E|E]; [left; intros e He; lia|]. destruct (forallb (fun e => negb (mk_act g it e)) (seq 0 ne)) eqn:F; [left|right]; rewrite <- flight_dec by lia; congruence.
  Qed.
  (** Every step after a first contact belongs to a contact or to a flight. *)
  Lemma flight_exists : ~ in_flight rb g 0 -> forall it, exists s k, it = (s + k)%nat /\ flight_from rb g s k.
  Proof.
    intros H it. induction it as [|it (s & k & E & F)]; [exists 0%nat, 0%nat; split; [easy|]; split; [exact H|intros; lia]|].
    destruct (flight_cases (S it)) as [Y|Nn].
    - exists s, (S k). split; [lia|]. split; [apply F|]. intros j Hj. destruct (Nat.eq_dec j (S it)) as [->|]; [exact Y|]. apply F. lia.
    - exists (S it), 0%nat. split; [lia|]. split; [exact Nn|intros; lia].
  Qed.
  Lemma flight_unique : forall s k s' k', flight_from rb g s k -> flight_from rb g s' k' -> (s + k = s' + k')%nat -> s = s' /\ k = k'.
  Proof.
    intros s k s' k' [A B] [A' B'] E. destruct (lt_eq_lt_dec s s') as [[L| ->]|L]; [|lia|].
    - exfalso. apply A'. apply B. lia.
    - exfalso. apply A. apply B'. lia.
  Qed.
  Lemma query_ext : forall M M' (Q Q' DQ DQ' : nat -> config) s k, (forall t, (t <= s + k)%nat -> Q t = Q' t /\ DQ t = DQ' t) -> (forall i, M s i = M' s i) ->
    query g olog joint_des base_des M Q DQ s k = query g olog joint_des base_des M' Q' DQ' s k.
  Proof.
    intros M M' Q Q' DQ DQ' s k A B. unfold query, lin_ref, ang_ref. cbv zeta. destruct (A (s + k)%nat ltac:(lia)) as [-> ->]. destruct (A s ltac:(lia)) as [-> _]. now rewrite !B.
  Qed.
  Lemma Mof_ext : forall (Q Q' DQ DQ' : nat -> config) s, (forall t, (t <= s)%nat -> Q t = Q' t /\ DQ t = DQ' t) -> forall i, Mof Q DQ s i = Mof Q' DQ' s i.
  Proof. intros Q Q' DQ DQ' s A i. unfold Mof. destruct s as [|p]; [reflexivity|]. destruct (A p ltac:(lia)) as [-> _]. destruct (A (S p) ltac:(lia)) as [_ ->]. reflexivity. Qed.
  Lemma motion_ext : forall n (Q Q' DQ DQ' : nat -> config), (forall t, (t <= n)%nat -> Q t = Q' t /\ DQ t = DQ' t) -> motionn n Q DQ -> motionn n Q' DQ'.
  Proof.
    intros n Q Q' DQ DQ' A [S0 S1 S2]. constructor.
    - destruct (A 0%nat ltac:(lia)) as [<- <-]. exact S0.
    - exact S1.
    - intros s k L F. specialize (S2 s k L F). cbv zeta in *. fold (Mof Q DQ) in S2. fold (Mof Q' DQ').
      rewrite <- (query_ext (Mof Q DQ) (Mof Q' DQ') Q Q' DQ DQ'); [|intros; apply A; lia|apply Mof_ext; intros; apply A; lia].
      destruct (A (S (s + k)) ltac:(lia)) as [<- <-]. destruct (A (s + k)%nat ltac:(lia)) as [<- _]. exact S2.
  Qed.

  Record inv (n : nat) (m : mst) : Prop := {
    i_len : length (m_out m) = n;
    i_mot : motionn n (Qm m) (DQm m);
    i_out : forall it r, nth_error (m_out m) it = Some r -> records rb r (Qm m it) (DQm m it) /\
       (forall p e c, it = S p -> (e < ne)%nat -> (c < 3)%nat -> o_vel r (e * 3 + c)%nat = eff_velocity_of rb (Qm m p) e (entries (DQm m it)) c);
    i_reach : reach sq rb (m_ik m);
    i_J : match n with O => k_J (m_ik m) = k_J s0 | S p => k_J (m_ik m) = J_of rb (Qm m p) end;
    i_none : n = 0%nat -> m_view m = None /\ m_mom m = None /\ m_flight m = None;
    i_llen : length (m_lmom m) = mk_N g;
    i_future : forall t, (n <= t < mk_N g)%nat -> nth t (m_lmom m) v0 = mk_lmom g t;
    i_view : (0 < n)%nat -> exists s f, (s < n)%nat /\ flight_from rb g s (n - 1 - s) /\ m_view m = Some s /\ m_mom m = Some f /\ forall i, (i < 6)%nat -> f i = Mm m s i;
    i_rows : forall t k, (t + k < n)%nat -> flight_from rb g t k -> (S (t + k) = n \/ ~ in_flight rb g (S (t + k))) -> nth t (m_lmom m) v0 = lin_ref g (Mm m) t k;
    i_fl : forall t, (t < n)%nat -> in_flight rb g t -> nth t (m_lmom m) v0 = mk_lmom g t }.

  Lemma trail_old : forall m, length (trail m) = S (length (m_out m)).
  Proof. intros. unfold trail. rewrite app_length, map_length. cbn. lia. Qed.
  Lemma trail_step : forall m s1 out' q' dq' lm v fl mom, out' = m_out m ++ [result rb s1 (m_q m) (m_dq m)] ->
    let m' := MS s1 q' dq' lm v fl mom out' in forall s, trail (MS s q' dq' lm v fl mom out') = trail m ++ [(q', dq')].
  Proof. intros m s1 out' q' dq' lm v fl mom -> m' s. unfold trail. cbn [m_out m_q m_dq]. rewrite map_app. cbn [map result o_q o_dq]. reflexivity. Qed.
  Lemma last_is : forall m, Qm m (length (m_out m)) = m_q m /\ DQm m (length (m_out m)) = m_dq m.
  Proof. intros m. unfold Qm, DQm, trail. rewrite app_nth2 by (rewrite map_length; lia). rewrite map_length, Nat.sub_diag. split; reflexivity. Qed.

  Lemma inv_start : reach sq rb s0 -> inv 0 (mko_start g s0 q0 dq0).
  Proof.
    intros R. constructor; cbn [mko_start m_out m_ik m_view m_mom m_flight m_lmom].
    - reflexivity.
    - constructor; [split; reflexivity|lia|intros; lia].
    - intros it r H. now destruct it.
    - exact R.
    - reflexivity.
    - auto.
    - now rewrite map_length, seq_length.
    - intros t Ht. rewrite (nth_indep _ v0 (mk_lmom g 0)) by (rewrite map_length, seq_length; lia). rewrite map_nth, seq_nth by lia. reflexivity.
    - lia.
    - lia.
    - lia.
  Qed.
  Lemma J_eff : forall q e c j, (e < ne)%nat -> (c < 3)%nat -> J_of rb q (6 + (e * 3 + c)) j = r_Jf rb q e c j.
  Proof.
    intros q e c j He Hc. unfold J_of. replace (6 + (e * 3 + c) <? 6)%nat with false by (symmetry; apply Nat.ltb_ge; lia). replace (6 + (e * 3 + c) <? (ne + 2) * 3)%nat with true by (symmetry; apply Nat.ltb_lt; lia).
    replace (6 + (e * 3 + c) - 6)%nat with (e * 3 + c)%nat by lia. destruct (block_div e c Hc) as [-> ->]. reflexivity.
  Qed.
  Lemma J_mom : forall q i j, (i < 6)%nat -> J_of rb q i j = r_Ag rb q i j.
  Proof. intros q i j H. unfold J_of. now rewrite (proj2 (Nat.ltb_lt _ _) H). Qed.

  Lemma inv_step : quadprog_sound sq -> (6 <= nv)%nat -> forall n m m', (n < mk_N g)%nat -> inv n m -> step m n = Ok m' -> inv (S n) m'.
  Proof.
    intros Hs Hnv n m m' Hn I H. unfold mko_step in H. cbv zeta in H. pose proof (i_len _ _ I) as L. destruct (last_is m) as [LQ LD]. rewrite L in LQ, LD.
    destruct (flight_of rb g (m_flight m) n) as [fl|] eqn:EF; [|discriminate].
    assert (NE : (0 < ne)%nat).
    { destruct n as [|n].
      - destruct (i_none _ _ I eq_refl) as (_ & _ & X). unfold flight_of in EF. destruct (Nat.eqb_spec ne 0); [congruence|lia].
      - destruct (Nat.eq_dec ne 0) as [E|]; [|lia]. exfalso. apply (mo_first _ _ _ _ _ _ _ _ _ _ _ _ _ (i_mot _ _ I) ltac:(lia)). intros e He. lia. }
    assert (FL : fl = true <-> in_flight rb g n).
    { unfold flight_of in EF. destruct (Nat.eqb_spec ne 0) as [E|_]; [lia|]. injection EF as <-. now apply flight_dec. }
    clear EF. destruct (momentum_ref olog g base_des m n fl (m_q m)) as [[[lm v] am]| |] eqn:EM; cbn [bind] in H; try discriminate.
    destruct (pyget joint_des n) as [jd| |] eqn:EJ; cbn [bind] in H; try discriminate. destruct (joint_ref_of g (m_q m) jd) as [jr| |] eqn:ER; cbn [bind] in H; try discriminate.
    set (s1 := forward_robot (m_ik m) (m_q m) (m_dq m)) in *. destruct (pyget lm v) as [lref| |] eqn:EL; cbn [bind] in H; try discriminate.
    set (a := IkA (m_q m) (m_dq m) (mk_com g n) lref am (mk_pos g n) (mk_vel g n) (mk_contact g n) (Some jr) fl) in *.
    destruct (compute sq rb (no_init st) s1 a) as [[x s2]| |] eqn:EC; cbn [bind fst snd] in H; try discriminate. injection H as H.
    assert (R1 : reach sq rb s1) by (apply reach_forward; apply I).
    destruct (C57_minimises sq rb (no_init st) s1 a x s2 Hs Hnv R1 EC) as [PL MIN]. pose proof (compute_pure sq rb s1 (no_init st) a (reach_inv sq rb s1 R1)) as CP. rewrite EC in CP. destruct CP as (_ & _ & _ & CJ).
    set (q' := integ (m_q m) (map (Rmult (mk_dt g)) (listing x))) in *. set (dq' := listing x) in *.
    assert (TR : trail m' = trail m ++ [(q', dq')]) by (subst m'; unfold trail; cbn [m_out m_q m_dq]; rewrite map_app; reflexivity).
    assert (OLD : forall t, (t <= n)%nat -> Qm m t = Qm m' t /\ DQm m t = DQm m' t). { intros t Ht. unfold Qm, DQm. rewrite TR, app_nth1 by (rewrite trail_old; lia). auto. }
    assert (NEW : Qm m' (S n) = q' /\ DQm m' (S n) = dq'). { unfold Qm, DQm. rewrite TR, app_nth2 by (rewrite trail_old; lia). rewrite trail_old, L, Nat.sub_diag. auto. }
    assert (ME : forall s, (s <= n)%nat -> forall i, Mm m s i = Mm m' s i) by (intros s Hs' i; apply Mof_ext; intros; apply OLD; lia).
    assert (LE : forall s k, (s <= n)%nat -> lin_ref g (Mm m) s k = lin_ref g (Mm m') s k) by (intros s k Hs'; unfold lin_ref; now rewrite !(ME s Hs')).
    assert (J1 : k_J s1 = k_J (m_ik m)) by reflexivity.
    assert (OUT : m_out m' = m_out m ++ [result rb s1 (m_q m) (m_dq m)]) by (subst m'; reflexivity).
    (* momentum references *)
    assert (REF : exists s f, (s <= n)%nat /\ flight_from rb g s (n - s) /\ v = s /\ m_mom m' = Some f /\ (forall i, (i < 6)%nat -> f i = Mm m s i) /\ lref = lin_ref g (Mm m) s (n - s) /\
       am = ang_ref g olog base_des (Mm m) (Qm m) s (n - s) /\ fl = negb (n - s =? 0)%nat /\ nth s lm v0 = lref /\ length lm = mk_N g /\ (forall t, t <> s -> nth t lm v0 = nth t (m_lmom m) v0)).
    { unfold momentum_ref in EM. destruct fl.
      - assert (F : in_flight rb g n) by now apply FL. destruct n as [|p].
        { destruct (i_none _ _ I eq_refl) as (_ & X & _). rewrite X in EM. discriminate. }
        destruct (i_view _ _ I ltac:(lia)) as (s & f & Ls & Fs & Vs & Ms & Hf). rewrite Vs, Ms in EM.
        assert (Hsl : (s < length (m_lmom m))%nat) by (rewrite (i_llen _ _ I); lia). rewrite (pyget_nth _ s v0 Hsl) in EM. cbn [bind] in EM. injection EM as E1 E2 E3. subst lm v am.
        exists s, f. split; [lia|].
        assert (Fn : flight_from rb g s (S p - s)). { split; [apply Fs|]. intros j Hj. destruct (Nat.eq_dec j (S p)) as [->|]; [exact F|]. apply Fs. lia. }
        split; [exact Fn|]. split; [reflexivity|]. split; [subst m'; exact Ms|]. split; [exact Hf|].
        pose proof (pyget_ok _ _ _ v0 EL) as [_ EV]. rewrite set_nth_nth in EV by exact Hsl. rewrite Nat.eqb_refl in EV.
        pose proof (i_rows _ _ I s (p - s)%nat ltac:(lia)) as RW. replace (S p - 1 - s)%nat with (p - s)%nat in Fs by lia. specialize (RW Fs ltac:(left; lia)).
        assert (LR : lref = lin_ref g (Mm m) s (S p - s)).
        { rewrite <- EV. rewrite RW. replace (S p - s)%nat with (S (p - s)) by lia. unfold lin_ref at 2. rewrite !Hf by lia. f_equal. rewrite S_INR. unfold lin_ref. destruct (p - s)%nat as [|r]; cbn [vz]; [cbn [INR]; ring|ring]. }
        split; [exact LR|]. split; [replace (S p - s)%nat with (S (p - s)) by lia; cbn [ang_ref]; now rewrite !Hf by lia|]. split; [symmetry; apply negb_true_iff, Nat.eqb_neq; lia|].
        split; [rewrite set_nth_nth by exact Hsl; now rewrite Nat.eqb_refl|]. split; [now rewrite set_nth_length, (i_llen _ _ I)|]. intros t Ht. rewrite set_nth_nth by exact Hsl. now rewrite (proj2 (Nat.eqb_neq _ _) Ht).
      - assert (F : ~ in_flight rb g n) by (rewrite <- FL; discriminate). destruct (pyget base_des n) as [b| |] eqn:EB; cbn [bind] in EM; try discriminate. injection EM as E1 E2 E3. subst lm v am.
        exists n, (fun i => rsum nv (fun j => k_J s1 i j * nth j (m_dq m) 0)). split; [lia|]. rewrite Nat.sub_diag. split; [split; [exact F|intros; lia]|]. split; [reflexivity|]. split; [subst m'; reflexivity|].
        pose proof (pyget_ok _ _ _ v0 EL) as [_ EV]. rewrite (i_future _ _ I) in EV by lia.
        split. { intros i Hi. rewrite J1. pose proof (i_J _ _ I) as JJ. unfold Mof. destruct n as [|p].
          - rewrite JJ. unfold M0. destruct (mo_start _ _ _ _ _ _ _ _ _ _ _ _ _ (i_mot _ _ I)) as [_ D0]. rewrite LD in D0. now rewrite D0.
          - rewrite JJ, LD. unfold momentum_of, dotv, entries. apply rsum_ext. intros j Hj. now rewrite J_mom by exact Hi. }
        split; [now rewrite <- EV|]. split; [cbn [ang_ref]; pose proof (pyget_ok _ _ _ [] EB) as [_ ->]; now rewrite LQ|]. split; [reflexivity|]. split; [rewrite (i_future _ _ I) by lia; exact EV|]. split; [apply I|easy]. }
    destruct REF as (s & f & Ls & Fs & -> & Mf & Hf & LR & AR & FN & LN & LL & LO).
    assert (AQ : a = query g olog joint_des base_des (Mm m) (Qm m) (DQm m) s (n - s)).
    { unfold a, query. cbv zeta. replace (s + (n - s))%nat with n by lia. rewrite LQ, LD, <- LR, <- AR, <- FN. f_equal. unfold joint_ref_of in ER. destruct (length (skipn 7 (m_q m)) =? length jd)%nat; [|discriminate]. injection ER as <-.
      pose proof (pyget_ok _ _ _ [] EJ) as [_ ->]. reflexivity. }
    destruct NEW as [NQ ND].
    assert (LM : m_lmom m' = lm) by (subst m'; reflexivity).
    constructor.
    - rewrite OUT, app_length. cbn. lia.
    - pose proof (motion_ext n _ (Qm m') _ (DQm m') OLD (i_mot _ _ I)) as [P1 P2 P3]. constructor; [exact P1| |].
      + intros _ X. destruct n as [|p]; [|now apply P2; [lia|]]. assert (s = 0%nat) by lia. subst s. now apply (proj1 Fs).
      + intros s' k' Hlt F'. cbv zeta. fold (Mof (Qm m') (DQm m')). destruct (Nat.eq_dec (s' + k') n) as [E|E]; [|apply P3; [lia|exact F']].
        destruct (flight_unique s' k' s (n - s) F' Fs ltac:(lia)) as [-> ->].
        rewrite <- (query_ext (Mm m) (Mm m') (Qm m) (Qm m') (DQm m) (DQm m')); [|intros; apply OLD; lia|apply ME; lia]. rewrite <- AQ.
        replace (s + (n - s))%nat with n by lia. rewrite NQ, ND. split; [unfold dq'; now rewrite listing_length|]. split.
        * eapply minimises_ext; [|exact MIN]. intros j Hj. unfold dq'. rewrite listing_entries by lia. reflexivity.
        * destruct (OLD n ltac:(lia)) as [<- _]. rewrite LQ. reflexivity.
    - intros it r Hr. rewrite OUT in Hr. destruct (lt_dec it n) as [Lt|Ge].
      + rewrite nth_error_app1 in Hr by lia. destruct (OLD it ltac:(lia)) as [<- <-]. destruct (i_out _ _ I it r Hr) as [A B]. split; [exact A|]. intros p e c Ep He Hc. destruct (OLD p ltac:(lia)) as [<- _]. now apply B.
      + rewrite nth_error_app2 in Hr by lia. rewrite L in Hr. destruct (it - n)%nat as [|z] eqn:Z; [|destruct z; discriminate]. injection Hr as <-. assert (it = n) by lia. subst it. destruct (OLD n ltac:(lia)) as [<- <-]. rewrite LQ, LD.
        split. * repeat split.
        * intros p e c -> He Hc. cbn [result o_vel]. rewrite J1. pose proof (i_J _ _ I) as JJ. cbn beta iota in JJ. destruct (OLD p ltac:(lia)) as [<- _]. unfold eff_velocity_of, dotv, entries. apply rsum_ext. intros j Hj. rewrite JJ. now rewrite J_eff.
    - subst m'. cbn [m_ik]. eapply reach_compute; eauto.
    - subst m'. cbn [m_ik]. rewrite CJ. destruct (OLD n ltac:(lia)) as [<- _]. rewrite LQ. reflexivity.
    - discriminate.
    - rewrite LM. exact LL.
    - intros t Ht. rewrite LM, LO by lia. apply I. lia.
    - intros _. exists s, f. split; [lia|]. replace (S n - 1 - s)%nat with (n - s)%nat by lia. split; [exact Fs|]. split; [subst m'; reflexivity|]. split; [exact Mf|]. intros i Hi. rewrite Hf by exact Hi. apply ME. lia.
    - intros t k Hlt F' D. rewrite LM, <- LE by lia. destruct (Nat.eq_dec (t + k) n) as [E|E].
      + destruct (flight_unique t k s (n - s) F' Fs ltac:(lia)) as [-> ->]. rewrite LN. exact LR.
      + destruct (Nat.eq_dec t s) as [->|Nt].
        * destruct D as [D|D]; [lia|]. exfalso. apply D. apply Fs. lia.
        * rewrite LO by exact Nt. apply I; [lia|exact F'|]. destruct D as [D|D]; [lia|]. now right.
    - intros t Ht Ft. rewrite LM. assert (t <> s) by (intros ->; now apply (proj1 Fs)). rewrite LO by easy. destruct (Nat.eq_dec t n) as [->|]; [apply (i_future _ _ I); lia|]. apply (i_fl _ _ I); [lia|exact Ft].
  Qed.
  Lemma inv_all : quadprog_sound sq -> (6 <= nv)%nat -> reach sq rb s0 -> forall n m, (n <= mk_N g)%nat -> foldM step (seq 0 n) (mko_start g s0 q0 dq0) = Ok m -> inv n m.
  Proof.
    intros Hs Hnv R. induction n; intros m Hn H.
    - cbn in H. injection H as <-. now apply inv_start.
    - rewrite seq_S, foldM_append in H. destruct (foldM step (seq 0 n) (mko_start g s0 q0 dq0)) as [m1| |] eqn:E; cbn [bind] in H; try discriminate. cbn [Nat.add foldM] in H.
      destruct (step m1 n) as [m2| |] eqn:E2; cbn [bind] in H; try discriminate. injection H as <-. apply (inv_step Hs Hnv n m1 m2); [lia|apply IHn; [lia|reflexivity]|exact E2].
  Qed.
End Mko.

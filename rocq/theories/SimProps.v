(** * C86, C87: simulator wrapper and bookkeeping of the execution loop *)
From Coq Require Import Reals String List Arith ZArith Bool Permutation Lia Lra.
Import ListNotations.
From Verif Require Import Base Vec3 SimModel SimSpec.
Local Open Scope R_scope.

(** ** Lists *)
Lemma nth_set_nth : forall (l : list R) i k x, (i < length l)%nat -> nth k (set_nth l i x) 0 = if Nat.eqb k i then x else nth k l 0.
Proof.
  intros l. induction l as [|y l IH]; intros [|i] [|k] x H; cbn in *; try lia; auto. apply IH. lia.
Qed.
Lemma set_nth_length : forall A (l : list A) i x, length (set_nth l i x) = length l.
Proof. intros A l. induction l as [|y l IH]; intros [|i] x; cbn; auto. Qed.
Lemma lookup_len : forall m l r, lookup_all m l = Ok r -> length r = length l /\ forall k, (k < length l)%nat -> m (nth k l EmptyString) = Some (nth k r 0%nat).
Proof.
  intros m l. induction l as [|n l IH]; intros r H; cbn in H; [injection H as <-; split; [reflexivity|cbn; lia]|].
  destruct (m n) as [i|] eqn:E; [|discriminate]. destruct (lookup_all m l) as [is| |] eqn:F; [|discriminate|discriminate]. cbn in H. injection H as <-.
  destruct (IH _ eq_refl) as [L K]. split; [cbn; lia|]. intros [|k] Hk; cbn; [exact E|]. apply K. cbn in Hk. lia.
Qed.
Lemma where_first_spec : forall ids i p, where_first ids i = Some p -> (p < length ids)%nat /\ nth p ids 0%nat = i.
Proof.
  intros ids. induction ids as [|k ids IH]; intros i p H; [discriminate|]. cbn in H. destruct (Nat.eqb_spec k i).
  - injection H as <-. cbn. split; [lia|auto].
  - destruct (where_first ids i) as [p'|] eqn:E; [|discriminate]. injection H as <-. destruct (IH _ _ E). cbn. split; [lia|auto].
Qed.
Lemma where_first_nth : forall ids p, NoDup ids -> (p < length ids)%nat -> where_first ids (nth p ids 0%nat) = Some p.
Proof.
  intros ids. induction ids as [|k ids IH]; intros p ND H; [cbn in H; lia|]. inversion ND as [|? ? NI ND']; subst. cbn. destruct p as [|p].
  - now rewrite Nat.eqb_refl.
  - cbn in H. destruct (Nat.eqb_spec k (nth p ids 0%nat)) as [E|E]; [exfalso; apply NI; rewrite E; apply nth_In; lia|]. rewrite IH by (auto; lia). reflexivity.
Qed.
Lemma where_all_spec : forall ids is ps, where_all ids is = Ok ps -> length ps = length is /\ forall k, (k < length is)%nat -> where_first ids (nth k is 0%nat) = Some (nth k ps 0%nat).
Proof.
  intros ids is. induction is as [|i is IH]; intros ps H; cbn in H; [injection H as <-; split; [reflexivity|cbn; lia]|].
  destruct (where_first ids i) as [p|] eqn:E; [|discriminate]. destruct (where_all ids is) as [q| |] eqn:F; [|discriminate|discriminate]. cbn in H. injection H as <-.
  destruct (IH _ eq_refl) as [L K]. split; [cbn; lia|]. intros [|k] Hk; cbn; [exact E|]. apply K. cbn in Hk. lia.
Qed.

(** What a constructed simulator knows: places form a permutation, bullet ids are distinct. *)
Lemma sim_new_ok : forall bmap pinid frameid nq nv joints effs s, unique_names bmap -> sim_new bmap pinid frameid nq nv joints effs = Ok s ->
  si_nq s = nq /\ si_nv s = nv /\ si_nj s = length joints /\ si_pin s = map pinid joints /\ Permutation (si_pin s) (seq 2 (length joints)) /\ NoDup (si_pin s) /\
  length (si_bul s) = length joints /\ (forall k, (k < length joints)%nat -> bmap (nth k joints EmptyString) = Some (nth k (si_bul s) 0%nat)) /\ NoDup (si_bul s) /\
  length (si_p2b s) = length joints /\ (forall k, (k < length joints)%nat -> (nth k (si_p2b s) 0 < length joints)%nat /\ nth (nth k (si_p2b s) 0%nat) (si_pin s) 0%nat = (k + 2)%nat) /\
  lookup_all bmap effs = Ok (si_bef s) /\ si_pef s = map frameid effs.
Proof.
  intros bmap pinid frameid nq nv joints effs s U H. unfold sim_new in H.
  destruct (lookup_all bmap joints) as [bul| |] eqn:E1; [|discriminate|discriminate]. cbn [bind] in H.
  destruct (where_all (map pinid joints) (seq 2 (length joints))) as [p2b| |] eqn:E2; [|discriminate|discriminate]. cbn [bind] in H.
  destruct (lookup_all bmap effs) as [bef| |] eqn:E3; [|discriminate|discriminate]. cbn [bind] in H. injection H as <-.
  cbn [si_nq si_nv si_nj si_pin si_bul si_p2b si_bef si_pef].
  destruct (lookup_len _ _ _ E1) as [L1 K1]. destruct (where_all_spec _ _ _ E2) as [L2 K2]. rewrite seq_length in L2, K2.
  assert (W : forall k, (k < length joints)%nat -> (nth k p2b 0 < length joints)%nat /\ nth (nth k p2b 0%nat) (map pinid joints) 0%nat = (k + 2)%nat).
  { intros k Hk. specialize (K2 k Hk). rewrite seq_nth in K2 by exact Hk. apply where_first_spec in K2. rewrite map_length in K2. destruct K2. split; [auto|lia]. }
  assert (IN : incl (seq 2 (length joints)) (map pinid joints)).
  { intros x Hx. apply in_seq in Hx. destruct (W (x - 2)%nat ltac:(lia)) as [A B]. replace (x - 2 + 2)%nat with x in B by lia. rewrite <- B. apply nth_In. now rewrite map_length. }
  assert (P : Permutation (map pinid joints) (seq 2 (length joints))).
  { symmetry. apply NoDup_Permutation_bis; [apply seq_NoDup| |exact IN]. rewrite map_length, seq_length. lia. }
  assert (ND : NoDup (map pinid joints)) by (eapply Permutation_NoDup; [symmetry; exact P|apply seq_NoDup]).
  assert (NJ : NoDup joints) by (eapply NoDup_map_inv; exact ND).
  assert (NB : NoDup bul).
  { apply (NoDup_nth bul 0%nat). intros i j Hi Hj E. rewrite L1 in Hi, Hj. pose proof (K1 i Hi) as A. pose proof (K1 j Hj) as B. rewrite E in A.
    pose proof (U _ _ _ A B) as C. exact (proj1 (NoDup_nth joints EmptyString) NJ i j Hi Hj C). }
  repeat (split; [solve [auto]|]). reflexivity.
Qed.

Lemma nth_repeat' : forall A (x d : A) n k, (k < n)%nat -> nth k (repeat x n) d = x.
Proof. intros A x d n. induction n as [|n IH]; intros [|k] H; cbn; try lia; auto. apply IH. lia. Qed.

(** ** Loops *)
Lemma scatter_ok : forall off f pin bul v, length pin = length bul -> NoDup pin -> (forall p, In p pin -> (off + p < length v)%nat) ->
  exists v', scatter off f pin bul v = Ok v' /\ length v' = length v /\
   (forall k, (k < length pin)%nat -> nth (off + nth k pin 0%nat) v' 0 = f (nth k bul 0%nat)) /\
   (forall i, (forall p, In p pin -> i <> (off + p)%nat) -> nth i v' 0 = nth i v 0).
Proof.
  intros off f pin. induction pin as [|p pin IH]; intros bul v L ND B.
  - exists v. destruct bul; cbn; repeat split; auto; intros; lia.
  - destruct bul as [|b bul]; [discriminate|]. inversion ND as [|? ? NI ND']; subst. cbn [scatter]. unfold lset.
    pose proof (B p (or_introl eq_refl)) as Bp. apply Nat.ltb_lt in Bp as Bp'. rewrite Bp'. cbn [bind].
    destruct (IH bul (set_nth v (off + p) (f b))) as [v' [E [Lv [G O]]]]; [cbn in L; lia|exact ND'|intros q Hq; rewrite set_nth_length; apply B; now right|].
    exists v'. split; [exact E|]. rewrite set_nth_length in Lv. split; [exact Lv|]. split.
    + intros [|k] Hk.
      * cbn [nth]. rewrite O; [rewrite nth_set_nth by exact Bp; now rewrite Nat.eqb_refl|]. intros q Hq Eq. apply NI. replace p with q by lia. exact Hq.
      * cbn [nth]. apply G. cbn in Hk. lia.
    + intros i Hi. rewrite O by (intros q Hq; apply Hi; now right). rewrite nth_set_nth by exact Bp. destruct (Nat.eqb_spec i (off + p)); [exfalso; apply (Hi p); [now left|auto]|reflexivity].
Qed.
Lemma put_joints_other : forall q dq pin bul f b, ~ In b bul -> put_joints q dq pin bul f b = f b.
Proof.
  intros q dq pin. induction pin as [|p pin IH]; intros bul f b H; [reflexivity|]. destruct bul as [|c bul]; [reflexivity|]. cbn [put_joints].
  rewrite IH by (intros K; apply H; now right). unfold upd_fun. destruct (Nat.eqb_spec b c); [exfalso; apply H; now left|reflexivity].
Qed.
Lemma put_joints_at : forall q dq pin bul f, length pin = length bul -> NoDup bul -> forall k, (k < length bul)%nat ->
  put_joints q dq pin bul f (nth k bul 0%nat) = (rd q (5 + nth k pin 0%nat), rd dq (4 + nth k pin 0%nat)).
Proof.
  intros q dq pin. induction pin as [|p pin IH]; intros bul f L ND k Hk; destruct bul as [|c bul]; try discriminate; cbn in Hk; [lia|].
  inversion ND as [|? ? NI ND']; subst. cbn [put_joints]. destruct k as [|k]; cbn [nth].
  - rewrite put_joints_other by exact NI. unfold upd_fun. now rewrite Nat.eqb_refl.
  - apply IH; [cbn in L; lia|exact ND'|lia].
Qed.
Lemma put_torques_other : forall bul fs f b, ~ In b bul -> put_torques bul fs f b = f b.
Proof.
  intros bul. induction bul as [|c bul IH]; intros fs f b H; [reflexivity|]. destruct fs as [|x fs]; [reflexivity|]. cbn [put_torques].
  rewrite IH by (intros K; apply H; now right). unfold upd_fun. destruct (Nat.eqb_spec b c); [exfalso; apply H; now left|reflexivity].
Qed.
Lemma put_torques_at : forall bul fs f, length bul = length fs -> NoDup bul -> forall k, (k < length bul)%nat -> put_torques bul fs f (nth k bul 0%nat) = nth k fs 0.
Proof.
  intros bul. induction bul as [|c bul IH]; intros fs f L ND k Hk; [cbn in Hk; lia|]. destruct fs as [|x fs]; [discriminate|]. inversion ND as [|? ? NI ND']; subst.
  cbn [put_torques]. destruct k as [|k]; cbn [nth].
  - rewrite put_torques_other by exact NI. unfold upd_fun. now rewrite Nat.eqb_refl.
  - apply IH; [cbn in L; lia|exact ND'|cbn in Hk; lia].
Qed.

(** ** The matrix of a quaternion is a rotation *)
Lemma bu_rotation : forall q v, qx q * qx q + qy q * qy q + qz q * qz q + qw q * qw q = 1 ->
  mul3 (bu_matrix q) (mulT3 (bu_matrix q) v) = v /\ mulT3 (bu_matrix q) (mul3 (bu_matrix q) v) = v.
Proof.
  intros [w x y z] [a b c] H. cbn [qw qx qy qz] in H. unfold bu_matrix. cbn [qw qx qy qz]. rewrite H. unfold mul3, mulT3, vdot. cbn [vx vy vz].
  assert (E : w * w = 1 - x * x - y * y - z * z) by lra. clear H.
  split; f_equal; field_simplify; replace (w ^ 2) with (1 - x * x - y * y - z * z) by (rewrite <- E; ring); try field.
Qed.

(** ** Swing times *)
Lemma swing_rec_snoc : forall low t d x, swing_rec low t (d ++ [x]) =
  if low then if Nat.eqb (length x) 2 then (d ++ [x]) ++ [[t]] else d ++ [x] else if Nat.eqb (length x) 1 then d ++ [x ++ [t]] else d ++ [x].
Proof.
  intros low t d x. unfold swing_rec. rewrite last_last, removelast_last. destruct (d ++ [x]) eqn:E; [now destruct d|]. reflexivity.
Qed.
Lemma swing_rec_intervals : forall l (done : list (list R)) start, (forall x, In x done -> length x = 2%nat) ->
  fold_left (fun a e => swing_rec (snd e) (fst e) a) l (done ++ match start with Some t => [[t]] | None => [] end) = done ++ intervals start l.
Proof.
  intros l. induction l as [|[t low] l IH]; intros done start HD; [cbn; destruct start; reflexivity|]. cbn [fold_left fst snd intervals].
  destruct start as [st|].
  - rewrite swing_rec_snoc. cbn [length Nat.eqb]. destruct low.
    + apply (IH done (Some st) HD).
    + cbn [app]. replace (done ++ [st; t] :: intervals None l) with ((done ++ [[st; t]]) ++ intervals None l) by (now rewrite <- app_assoc).
      rewrite <- IH; [now rewrite app_nil_r|]. intros x Hx. apply in_app_or in Hx. destruct Hx as [Hx|[<-|[]]]; auto.
  - rewrite app_nil_r. destruct done as [|d0 done'] using rev_ind.
    + destruct low.
      * apply (IH [] (Some t)). intros x [].
      * apply (IH [] None). intros x [].
    + clear IHdone'. rewrite swing_rec_snoc. assert (length d0 = 2%nat) as -> by (apply HD; apply in_or_app; right; now left). cbn [Nat.eqb]. destruct low.
      * apply (IH _ (Some t) HD).
      * rewrite <- (IH _ None HD). now rewrite app_nil_r.
Qed.

Section Simulator.
  Variables (bmap : string -> option nat) (pinid frameid : string -> nat) (joints effs : list string) (s : sim).
  Hypothesis U : unique_names bmap.
  Hypothesis HS : sim_new bmap pinid frameid (length joints + 7) (length joints + 6) joints effs = Ok s.
  Let n := length joints.

  Local Lemma in_places : forall p, In p (si_pin s) <-> (2 <= p < n + 2)%nat.
  Proof.
    intros p. destruct (sim_new_ok _ _ _ _ _ _ _ _ U HS) as [_ [_ [_ [_ [P _]]]]]. split; intros H.
    - apply (Permutation_in _ P) in H. apply in_seq in H. unfold n. lia.
    - apply (Permutation_in _ (Permutation_sym P)). apply in_seq. unfold n in H. lia.
  Qed.

  (** get_state always succeeds: base pose as stored, base velocities in body axes, every joint at the place pinocchio gives it. *)
  Theorem C86_get_state : forall b, exists q d, get_state s b = Ok (q, d) /\ length q = (n + 7)%nat /\ length d = (n + 6)%nat /\
    firstn 7 q = [vx (bu_pos b); vy (bu_pos b); vz (bu_pos b); qx (bu_orn b); qy (bu_orn b); qz (bu_orn b); qw (bu_orn b)] /\
    (forall nm j, In nm joints -> bmap nm = Some j -> nth (7 + place pinid nm) q 0 = fst (bu_joint b j) /\ nth (6 + place pinid nm) d 0 = snd (bu_joint b j)) /\
    (qx (bu_orn b) * qx (bu_orn b) + qy (bu_orn b) * qy (bu_orn b) + qz (bu_orn b) * qz (bu_orn b) + qw (bu_orn b) * qw (bu_orn b) = 1 ->
     mul3 (bu_matrix (bu_orn b)) (V3 (nth 0 d 0) (nth 1 d 0) (nth 2 d 0)) = bu_lin b /\ mul3 (bu_matrix (bu_orn b)) (V3 (nth 3 d 0) (nth 4 d 0) (nth 5 d 0)) = bu_ang b).
  Proof.
    intros b. destruct (sim_new_ok _ _ _ _ _ _ _ _ U HS) as [N1 [N2 [N3 [PN [P [ND [LB [KB [NB _]]]]]]]]].
    unfold get_state. rewrite N1, N2. cbv zeta.
    replace (length joints + 7 - 7)%nat with n by (unfold n; lia). replace (length joints + 6 - 6)%nat with n by (unfold n; lia).
    assert (LP : length (si_pin s) = length (si_bul s)) by (rewrite PN, map_length; auto).
    match goal with |- context [scatter 5 ?f _ _ ?v] => destruct (scatter_ok 5 f (si_pin s) (si_bul s) v LP ND) as [q [Eq [Lq [Gq Oq]]]] end.
    { intros p Hp. apply in_places in Hp. rewrite app_length, repeat_length. cbn [length]. lia. }
    rewrite Eq. cbn [bind].
    match goal with |- context [scatter 4 ?f _ _ ?v] => destruct (scatter_ok 4 f (si_pin s) (si_bul s) v LP ND) as [d [Ed [Ld [Gd Od]]]] end.
    { intros p Hp. apply in_places in Hp. rewrite app_length, repeat_length. cbn [length]. lia. }
    rewrite Ed. cbn [bind]. exists q, d. split; [reflexivity|].
    rewrite app_length, repeat_length in Lq, Ld. cbn [length] in Lq, Ld. split; [lia|]. split; [lia|].
    assert (Q7 : forall i, (i < 7)%nat -> nth i q 0 = nth i [vx (bu_pos b); vy (bu_pos b); vz (bu_pos b); qx (bu_orn b); qy (bu_orn b); qz (bu_orn b); qw (bu_orn b)] 0).
    { intros i Hi. rewrite Oq by (intros p Hp; apply in_places in Hp; lia). apply app_nth1. exact Hi. }
    split; [|split].
    - do 7 (destruct q as [|? q]; [cbn in Lq; lia|]). cbn [firstn].
      pose proof (Q7 0%nat ltac:(lia)) as A0. pose proof (Q7 1%nat ltac:(lia)) as A1. pose proof (Q7 2%nat ltac:(lia)) as A2. pose proof (Q7 3%nat ltac:(lia)) as A3.
      pose proof (Q7 4%nat ltac:(lia)) as A4. pose proof (Q7 5%nat ltac:(lia)) as A5. pose proof (Q7 6%nat ltac:(lia)) as A6. cbn [nth] in A0, A1, A2, A3, A4, A5, A6. congruence.
    - intros nm j Hin Hj. destruct (In_nth _ _ EmptyString Hin) as [k [Hk E]]. pose proof (KB k Hk) as KK. rewrite E, Hj in KK. injection KK as KK.
      assert (PK : nth k (si_pin s) 0%nat = pinid nm) by (rewrite PN; rewrite (nth_indep _ 0%nat (pinid EmptyString)) by (now rewrite map_length); rewrite map_nth, E; reflexivity).
      assert (HP : (2 <= pinid nm)%nat). { assert (In (pinid nm) (si_pin s)) by (rewrite PN; now apply in_map). apply in_places in H. lia. }
      assert (Hk' : (k < length (si_pin s))%nat) by (rewrite PN, map_length; exact Hk). specialize (Gq k Hk'). specialize (Gd k Hk'). rewrite PK, <- KK in Gq, Gd.
      unfold place. replace (7 + (pinid nm - 2))%nat with (5 + pinid nm)%nat by lia. replace (6 + (pinid nm - 2))%nat with (4 + pinid nm)%nat by lia. auto.
    - intros H. set (ll := mulT3 (bu_matrix (bu_orn b)) (bu_lin b)) in *. set (la := mulT3 (bu_matrix (bu_orn b)) (bu_ang b)) in *.
      assert (D6 : forall i, (i < 6)%nat -> nth i d 0 = nth i [vx ll; vy ll; vz ll; vx la; vy la; vz la] 0).
      { intros i Hi. rewrite Od by (intros p Hp; apply in_places in Hp; lia). apply app_nth1. exact Hi. }
      rewrite !D6 by lia. cbn [nth]. replace (V3 (vx ll) (vy ll) (vz ll)) with ll by (now destruct ll). replace (V3 (vx la) (vy la) (vz la)) with la by (now destruct la).
      unfold ll, la. split; now apply bu_rotation.
  Qed.

  (** reset_state and get_state are inverse: the state set is the state read. *)
  Theorem C86_round_trip : forall q dq b, length q = (n + 7)%nat -> length dq = (n + 6)%nat -> unit_quat q -> get_state s (reset_state s q dq b) = Ok (q, dq).
  Proof.
    intros q dq b Hq Hd HU. destruct (sim_new_ok _ _ _ _ _ _ _ _ U HS) as [_ [_ [_ [PN [P [ND [LB [KB [NB _]]]]]]]]].
    destruct (C86_get_state (reset_state s q dq b)) as [q' [d' [E [Lq [Ld [F7 [J V]]]]]]]. rewrite E. f_equal. f_equal.
    - apply (nth_ext _ _ 0 0); [lia|]. intros i Hi. destruct (Nat.lt_ge_cases i 7) as [H|H].
      + rewrite <- (firstn_skipn 7 q'). rewrite app_nth1 by (rewrite firstn_length; lia). rewrite F7. cbn [reset_state bu_pos bu_orn vx vy vz qx qy qz qw]. unfold rd.
        do 7 (destruct i as [|i]; [reflexivity|]). lia.
      + assert (In (i - 5)%nat (si_pin s)) as IN by (apply in_places; lia). rewrite PN in IN. apply in_map_iff in IN. destruct IN as [nm [Ep Hin]].
        destruct (In_nth _ _ EmptyString Hin) as [k [Hk En]]. pose proof (KB k Hk) as KK. rewrite En in KK.
        destruct (J nm _ Hin KK) as [J1 _]. unfold place in J1. replace (7 + (pinid nm - 2))%nat with i in J1 by lia. rewrite J1. cbn [reset_state bu_joint].
        rewrite put_joints_at; [|rewrite PN, map_length; auto|exact NB|rewrite LB; exact Hk].
        rewrite PN, (nth_indep _ 0%nat (pinid EmptyString)) by (now rewrite map_length). rewrite map_nth, En, Ep. unfold rd. cbn [fst]. f_equal. lia.
    - apply (nth_ext _ _ 0 0); [lia|]. intros i Hi. destruct (Nat.lt_ge_cases i 6) as [H|H].
      + destruct V as [V1 V2]. { cbn [reset_state bu_orn qx qy qz qw]. unfold rd, unit_quat in *. exact HU. }
        cbn [reset_state bu_orn bu_lin bu_ang] in V1, V2. set (o := Q4 (rd q 6) (rd q 3) (rd q 4) (rd q 5)) in *.
        assert (HO : qx o * qx o + qy o * qy o + qz o * qz o + qw o * qw o = 1) by (unfold o; cbn [qx qy qz qw]; unfold rd; unfold unit_quat in HU; exact HU).
        apply (f_equal (mulT3 (bu_matrix o))) in V1. apply (f_equal (mulT3 (bu_matrix o))) in V2.
        rewrite !(proj2 (bu_rotation o _ HO)) in V1. rewrite !(proj2 (bu_rotation o _ HO)) in V2. unfold rd in V1, V2. injection V1 as A0 A1 A2. injection V2 as A3 A4 A5.
        do 6 (destruct i as [|i]; [assumption|]). lia.
      + assert (In (i - 4)%nat (si_pin s)) as IN by (apply in_places; lia). rewrite PN in IN. apply in_map_iff in IN. destruct IN as [nm [Ep Hin]].
        destruct (In_nth _ _ EmptyString Hin) as [k [Hk En]]. pose proof (KB k Hk) as KK. rewrite En in KK.
        destruct (J nm _ Hin KK) as [_ J1]. unfold place in J1. replace (6 + (pinid nm - 2))%nat with i in J1 by lia. rewrite J1. cbn [reset_state bu_joint].
        rewrite put_joints_at; [|rewrite PN, map_length; auto|exact NB|rewrite LB; exact Hk].
        rewrite PN, (nth_indep _ 0%nat (pinid EmptyString)) by (now rewrite map_length). rewrite map_nth, En, Ep. unfold rd. cbn [snd]. f_equal. lia.
  Qed.

  (** Commands: a vector of another size than the number of joints is refused; otherwise only the torques of the listed joints change. *)
  Theorem C86_command_size : forall tau b, (send_joint_command s tau b = Throw <-> length tau <> n) /\
    (forall b', send_joint_command s tau b = Ok b' -> bu_pos b' = bu_pos b /\ bu_orn b' = bu_orn b /\ bu_lin b' = bu_lin b /\ bu_ang b' = bu_ang b /\ bu_joint b' = bu_joint b /\
       forall j, ~ In j (si_bul s) -> bu_torque b' j = bu_torque b j).
  Proof.
    intros tau b. destruct (sim_new_ok _ _ _ _ _ _ _ _ U HS) as [_ [N2 _]]. unfold send_joint_command. rewrite N2. replace (length joints + 6 - 6)%nat with n by (unfold n; lia).
    destruct (Nat.eqb_spec (length tau) n) as [E|E]; split.
    - split; [discriminate|intros K; now destruct K].
    - intros b' H. injection H as <-. cbn. repeat split; auto. intros j Hj. now apply put_torques_other.
    - split; auto.
    - discriminate.
  Qed.

  (** The torques reach the right joints, whatever the torques, exactly if the places of the listed joints form an involution (going from the position in
      the list to the place in the model twice leads back): the array that selects the torques is the inverse of the one needed. *)
  Theorem C86_torques : (forall tau b b', length tau = n -> send_joint_command s tau b = Ok b' -> torques_right joints bmap pinid tau b') <->
    (forall k, (k < n)%nat -> place pinid (nth (place pinid (nth k joints EmptyString)) joints EmptyString) = k).
  Proof.
    destruct (sim_new_ok _ _ _ _ _ _ _ _ U HS) as [_ [N2 [_ [PN [P [ND [LB [KB [NB [LP [KP _]]]]]]]]]]].
    assert (AT : forall k, (k < n)%nat -> nth k (si_pin s) 0%nat = pinid (nth k joints EmptyString)).
    { intros k Hk. rewrite PN, (nth_indep _ 0%nat (pinid EmptyString)) by (now rewrite map_length). apply map_nth. }
    assert (RG : forall k, (k < n)%nat -> (2 <= pinid (nth k joints EmptyString) < n + 2)%nat).
    { intros k Hk. apply in_places. rewrite PN. apply in_map, nth_In. exact Hk. }
    assert (INJ : forall i j, (i < n)%nat -> (j < n)%nat -> pinid (nth i joints EmptyString) = pinid (nth j joints EmptyString) -> i = j).
    { intros i j Hi Hj E. rewrite <- !AT in E by assumption. apply (proj1 (NoDup_nth (si_pin s) 0%nat) ND); [rewrite PN, map_length; exact Hi|rewrite PN, map_length; exact Hj|exact E]. }
    assert (VAL : forall tau b b' k, length tau = n -> send_joint_command s tau b = Ok b' -> (k < n)%nat -> bu_torque b' (nth k (si_bul s) 0%nat) = nth (nth k (si_p2b s) 0%nat) tau 0).
    { intros tau b b' k Ht H Hk. unfold send_joint_command in H. destruct (Nat.eqb (length tau) (si_nv s - 6)); [|discriminate]. injection H as <-. cbn [bu_torque].
      rewrite put_torques_at; [|rewrite map_length; unfold n in *; lia|exact NB|unfold n in *; lia].
      rewrite (nth_indep _ 0 (rd tau 0)) by (rewrite map_length; unfold n in *; lia). rewrite (map_nth (fun p => rd tau p)). reflexivity. }
    (* the selected entry e of joint k satisfies pinid (joints e) = k + 2 *)
    assert (SEL : forall k, (k < n)%nat -> (nth k (si_p2b s) 0 < n)%nat /\ pinid (nth (nth k (si_p2b s) 0%nat) joints EmptyString) = (k + 2)%nat).
    { intros k Hk. destruct (KP k Hk) as [A B]. split; [exact A|]. rewrite AT in B by exact A. exact B. }
    split.
    - intros H k Hk. set (e := nth k (si_p2b s) 0%nat). destruct (SEL k Hk) as [He Ee]. fold e in He, Ee.
      set (tau := map (fun i => if Nat.eqb i e then 1 else 0) (seq 0 n)).
      assert (Lt : length tau = n) by (unfold tau; now rewrite map_length, seq_length).
      assert (NT : forall i, (i < n)%nat -> nth i tau 0 = if Nat.eqb i e then 1 else 0).
      { intros i Hi. unfold tau. rewrite (nth_indep _ 0 (if Nat.eqb 0 e then 1 else 0)) by (rewrite map_length, seq_length; exact Hi).
        rewrite (map_nth (fun i => if Nat.eqb i e then 1 else 0)), seq_nth by exact Hi. reflexivity. }
      set (b0 := Bullet v0 qone v0 v0 (fun _ => (0, 0)) (fun _ => 0)).
      destruct (send_joint_command s tau b0) as [b'| |] eqn:S; [| |].
      + specialize (H tau b0 b' Lt S (nth k joints EmptyString) (nth k (si_bul s) 0%nat)). rewrite VAL with (tau := tau) (b := b0) in H by assumption.
        specialize (H (nth_In _ _ Hk) (KB k Hk)). fold e in H. rewrite NT in H by exact He. rewrite Nat.eqb_refl in H.
        pose proof (RG k Hk) as R. assert (PR : (place pinid (nth k joints EmptyString) < n)%nat) by (unfold place; lia).
        rewrite NT in H by exact PR. destruct (Nat.eqb_spec (place pinid (nth k joints EmptyString)) e) as [E|E]; [|lra].
        rewrite E. unfold place. rewrite Ee. lia.
      + exfalso. apply C86_command_size in S. now apply S.
      + exfalso. unfold send_joint_command in S. destruct (Nat.eqb (length tau) (si_nv s - 6)); discriminate.
    - intros H tau b b' Lt S nm j Hin Hj. destruct (In_nth _ _ EmptyString Hin) as [k [Hk En]]. pose proof (KB k Hk) as KK. rewrite En, Hj in KK. injection KK as ->.
      rewrite (VAL tau b b' k Lt S Hk). f_equal. destruct (SEL k Hk) as [He Ee]. specialize (H k Hk). rewrite En in H.
      assert (PR : (place pinid nm < n)%nat) by (pose proof (RG k Hk); rewrite En in *; unfold place; lia).
      apply INJ; [exact He|exact PR|]. rewrite Ee. pose proof (RG _ PR). unfold place in H at 1. unfold place in *. lia.
  Qed.

  (** Contact forces: one entry per contact point whose second link is one of the feet, in the order of the points, with the frame of that foot. *)
  Hypothesis FI : forall i j, (i < length effs)%nat -> (j < length effs)%nat -> frameid (nth i effs EmptyString) = frameid (nth j effs EmptyString) -> i = j.
  Theorem C86_forces : forall cp i link, (i < length effs)%nat -> bmap (nth i effs EmptyString) = Some link ->
    map snd (filter (fun e => Nat.eqb (fst e) (frameid (nth i effs EmptyString))) (get_force s cp)) = map point_force (filter (fun c => Nat.eqb (co_link c) link) cp).
  Proof.
    intros cp i link Hi Hl. destruct (sim_new_ok _ _ _ _ _ _ _ _ U HS) as [_ [_ [_ [_ [_ [_ [_ [_ [_ [_ [_ [LE PE]]]]]]]]]]]].
    destruct (lookup_len _ _ _ LE) as [L K]. pose proof (K i Hi) as Ki. rewrite Hl in Ki. injection Ki as ->.
    assert (PF : forall k, (k < length effs)%nat -> nth k (si_pef s) 0%nat = frameid (nth k effs EmptyString)).
    { intros k Hk. rewrite PE, (nth_indep _ 0%nat (frameid EmptyString)) by (now rewrite map_length). apply map_nth. }
    assert (NE : NoDup effs). { apply (NoDup_nth effs EmptyString). intros a c Ha Hc E. apply FI; [exact Ha|exact Hc|now rewrite E]. }
    assert (NB : NoDup (si_bef s)).
    { apply (NoDup_nth _ 0%nat). intros a c Ha Hc E. rewrite L in Ha, Hc. pose proof (K a Ha) as A. pose proof (K c Hc) as C. rewrite E in A.
      exact (proj1 (NoDup_nth effs EmptyString) NE a c Ha Hc (U _ _ _ A C)). }
    induction cp as [|c cp IH]; [reflexivity|]. cbn [get_force filter].
    destruct (where_first (si_bef s) (co_link c)) as [k|] eqn:W.
    - apply where_first_spec in W. destruct W as [Wk We]. rewrite L in Wk. cbn [filter fst]. rewrite PF by exact Wk.
      destruct (Nat.eqb_spec (frameid (nth k effs EmptyString)) (frameid (nth i effs EmptyString))) as [E|E].
      + apply FI in E; [|exact Wk|exact Hi]. subst k. rewrite We, Nat.eqb_refl. cbn [map snd]. f_equal. rewrite <- We. exact IH.
      + destruct (Nat.eqb_spec (co_link c) (nth i (si_bef s) 0%nat)) as [E2|E2]; [|exact IH].
        exfalso. apply E. rewrite <- We in E2. rewrite (proj1 (NoDup_nth (si_bef s) 0%nat) NB k i) by (rewrite ?L; auto). reflexivity.
    - destruct (Nat.eqb_spec (co_link c) (nth i (si_bef s) 0%nat)) as [E2|E2]; [|exact IH].
      rewrite E2, where_first_nth in W by (auto; rewrite L; exact Hi). discriminate.
  Qed.


  Local Lemma swing_fold : forall i t es sw, (i < length effs)%nat -> fold_left (fun sw e => swing_contact s t e sw) es sw i =
    fold_left (fun a e => swing_rec (snd e) (fst e) a) (map (fun f => (t, is_low f)) (map snd (filter (fun e => Nat.eqb (fst e) (frameid (nth i effs EmptyString))) es))) (sw i).
  Proof.
    intros i t es sw Hi. destruct (sim_new_ok _ _ _ _ _ _ _ _ U HS) as [_ [_ [_ [_ [_ [_ [_ [_ [_ [_ [_ [_ PE]]]]]]]]]]]].
    assert (PF : forall k, (k < length effs)%nat -> nth k (si_pef s) 0%nat = frameid (nth k effs EmptyString)).
    { intros k Hk. rewrite PE, (nth_indep _ 0%nat (frameid EmptyString)) by (now rewrite map_length). apply map_nth. }
    assert (LP : length (si_pef s) = length effs) by (rewrite PE; apply map_length).
    assert (NP : NoDup (si_pef s)).
    { apply (NoDup_nth _ 0%nat). intros a c Ha Hc E. rewrite LP in Ha, Hc. rewrite !PF in E by assumption. now apply FI. }
    revert sw. induction es as [|[fid f] es IH]; intros sw; [reflexivity|]. cbn [fold_left filter fst snd]. rewrite IH. unfold swing_contact at 1. cbn [fst snd].
    destruct (Nat.eqb_spec fid (frameid (nth i effs EmptyString))) as [E|E].
    - rewrite E, <- (PF i Hi), where_first_nth by (rewrite ?LP; auto). cbn [map fold_left fst snd]. f_equal. unfold upd_fun. now rewrite Nat.eqb_refl.
    - destruct (where_first (si_pef s) fid) as [k|] eqn:W; [|reflexivity]. apply where_first_spec in W. destruct W as [W1 W2]. unfold upd_fun.
      destruct (Nat.eqb_spec i k) as [->|]; [|reflexivity]. exfalso. apply E. rewrite <- W2. apply PF. exact Hi.
  Qed.

  (** The swing times of a foot are the intervals of the readings of its contact points: from the first reading with a small force to the first one without. *)
  Theorem C87_swing_times : forall cps i link, (i < length effs)%nat -> bmap (nth i effs EmptyString) = Some link ->
    swing_run s 0 cps (fun _ => []) i = intervals None (readings link 0 cps).
  Proof.
    intros cps i link Hi Hl.
    assert (G : forall cps k sw, swing_run s k cps sw i = fold_left (fun a e => swing_rec (snd e) (fst e) a) (readings link k cps) (sw i)).
    { intros c. induction c as [|cp c IH]; intros k sw; [reflexivity|]. cbn [swing_run readings]. rewrite IH, fold_left_app. f_equal.
      unfold swing_pass. rewrite swing_fold by exact Hi. rewrite (C86_forces cp i link Hi Hl), map_map. reflexivity. }
    rewrite G. apply (swing_rec_intervals _ [] None). intros x [].
  Qed.

  (** So a foot in the air, for which the simulator reports no contact point, has no swing time, whatever it does; a contact point that vanishes with its
      force still on does not start a swing. *)
  Theorem C87_flight_unseen : forall cps i link, (i < length effs)%nat -> bmap (nth i effs EmptyString) = Some link ->
    (forall cp c, In cp cps -> In c cp -> co_link c = link -> is_low (point_force c) = false) -> swing_run s 0 cps (fun _ => []) i = [].
  Proof.
    intros cps i link Hi Hl H. rewrite (C87_swing_times cps i link Hi Hl).
    assert (R : forall k c, (forall cp x, In cp c -> In x cp -> co_link x = link -> is_low (point_force x) = false) -> forall e, In e (readings link k c) -> snd e = false).
    { intros k c. revert k. induction c as [|cp c IH]; intros k Hc e He; [destruct He|]. cbn [readings] in He. apply in_app_or in He. destruct He as [He|He].
      - apply in_map_iff in He. destruct He as [x [<- Hx]]. apply filter_In in Hx. destruct Hx as [Hx1 Hx2]. apply Nat.eqb_eq in Hx2. cbn [snd]. apply (Hc cp); auto. now left.
      - apply (IH (S k)); [intros; eapply Hc; [right|..]; eassumption|exact He]. }
    specialize (R 0%nat cps H). generalize dependent (readings link 0 cps). intros l R. induction l as [|[t low] l IH]; [reflexivity|]. cbn [intervals].
    assert (low = false) as -> by (apply (R (t, low)); now left). apply IH. intros e He. apply R. now right.
  Qed.
End Simulator.

(** ** The shipped robot and others *)
(** A simulator of three joints whose places in the model are a rotation of their positions in the list. *)
Definition rot_map (n : string) : option nat := if String.eqb n "A" then Some 0%nat else if String.eqb n "B" then Some 1%nat else if String.eqb n "C" then Some 2%nat else if String.eqb n "F" then Some 3%nat else None.
Definition rot_pin (n : string) : nat := if String.eqb n "A" then 3%nat else if String.eqb n "B" then 4%nat else if String.eqb n "C" then 2%nat else 9%nat.
Definition rot_joints : list string := ["A"; "B"; "C"]%string.
Definition still : bullet := Bullet v0 qone v0 v0 (fun _ => (0, 0)) (fun _ => 0).
Lemma rot_unique : unique_names rot_map.
Proof.
  intros n m i. unfold rot_map. repeat match goal with |- context [String.eqb ?a ?b] => destruct (String.eqb_spec a b) end; subst; intros H K; try congruence.
Qed.
Theorem C86_torques_refuted : exists s b', unique_names rot_map /\ sim_new rot_map rot_pin (fun _ => 20%nat) 10 9 rot_joints ["F"%string] = Ok s /\
  send_joint_command s [1; 0; 0] still = Ok b' /\ ~ torques_right rot_joints rot_map rot_pin [1; 0; 0] b'.
Proof.
  eexists. eexists. split; [exact rot_unique|]. split; [reflexivity|]. split; [reflexivity|]. intros H.
  specialize (H "C"%string 2%nat (or_intror (or_intror (or_introl eq_refl))) eq_refl). cbn in H. lra.
Qed.

(** The shipped list of joints: pinocchio orders them by name within the tree (FL, FR, HL, HR). *)
Definition solo_pin (n : string) : nat :=
  match where_first (map (fun m => if String.eqb m n then 1%nat else 0%nat) ["FL_HFE"; "FL_KFE"; "FR_HFE"; "FR_KFE"; "HL_HFE"; "HL_KFE"; "HR_HFE"; "HR_KFE"]%string) 1 with
  | Some p => (p + 2)%nat | None => 99%nat end.
Definition solo_frame (n : string) : nat :=
  match where_first (map (fun m => if String.eqb m n then 1%nat else 0%nat) sim_feet) 1 with Some p => (p + 30)%nat | None => 99%nat end.
Theorem C86_shipped_torques : forall bmap s, unique_names bmap -> sim_new bmap solo_pin solo_frame 15 14 controlled_joints sim_feet = Ok s ->
  forall tau b b', length tau = 8%nat -> send_joint_command s tau b = Ok b' -> torques_right controlled_joints bmap solo_pin tau b'.
Proof.
  intros bmap s U H. apply (proj2 (C86_torques bmap solo_pin solo_frame controlled_joints sim_feet s U H)).
  intros k Hk. do 8 (destruct k as [|k]; [reflexivity|]). cbn in Hk. lia.
Qed.
Definition solo_bmap (n : string) : option nat := where_first (map (fun m => if String.eqb m n then 1%nat else 0%nat) (controlled_joints ++ sim_feet)) 1.
Example C86_not_vacuous : exists s, sim_new solo_bmap solo_pin solo_frame 15 14 controlled_joints sim_feet = Ok s /\ si_p2b s = [4; 5; 6; 7; 0; 1; 2; 3]%nat /\ si_bul s = [0; 1; 2; 3; 4; 5; 6; 7]%nat.
Proof. eexists. split; [reflexivity|]. split; reflexivity. Qed.
Lemma solo_unique : unique_names solo_bmap.
Proof.
  assert (G : forall n i, solo_bmap n = Some i -> n = nth i (controlled_joints ++ sim_feet) EmptyString).
  { intros n i H. unfold solo_bmap in H. apply where_first_spec in H. destruct H as [H1 H2]. rewrite map_length in H1.
    rewrite (nth_indep _ 0%nat ((fun m => if String.eqb m n then 1%nat else 0%nat) EmptyString)) in H2 by (now rewrite map_length).
    rewrite (map_nth (fun m => if String.eqb m n then 1%nat else 0%nat)) in H2. destruct (String.eqb_spec (nth i (controlled_joints ++ sim_feet) EmptyString) n); [auto|discriminate]. }
  intros n m i H K. rewrite (G n i H), (G m i K). reflexivity.
Qed.
Definition rest_q : list R := [0; 0; 1; 0; 0; 0; 1] ++ repeat (1 / 2) 8.
Example C86_round_trip_not_vacuous : unit_quat rest_q /\ length rest_q = 15%nat.
Proof. unfold unit_quat, rest_q. cbn. split; [lra|reflexivity]. Qed.

(** The contact points of other bodies count as well: only the number of the link is compared. *)
Theorem C86_other_bodies_refuted : exists s c, unique_names rot_map /\ sim_new rot_map rot_pin (fun _ => 20%nat) 10 9 rot_joints ["F"%string] = Ok s /\ co_body c <> 1%nat /\
  get_force s [c] = [(20%nat, point_force c)] /\ vz (point_force c) = 5.
Proof.
  eexists. exists (Contact 7 3 (V3 0 0 1) 5 v0 0 v0 0). split; [exact rot_unique|]. split; [reflexivity|]. split; [cbn; lia|]. split; [reflexivity|].
  unfold point_force. cbn. lra.
Qed.

(** ** C87: which configuration the Jacobians belong to *)
Lemma last_cons : forall Q (l : list Q) x d, last (x :: l) d = last l x.
Proof. intros Q l. induction l as [|y l IH]; intros x d; [reflexivity|]. change (last (x :: y :: l) d) with (last (y :: l) d). rewrite IH. symmetry. apply IH. Qed.
Lemma jac_configs_fb : forall Q (qs : list Q) wq, jac_configs true wq qs = (removelast (wq :: qs), last qs wq).
Proof.
  intros Q qs. induction qs as [|q qs IH]; intros wq; [reflexivity|]. cbn [jac_configs]. rewrite IH, last_cons. reflexivity.
Qed.
Lemma jac_configs_nofb : forall Q (qs : list Q) wq, jac_configs false wq qs = (repeat wq (length qs), wq).
Proof. intros Q qs. induction qs as [|q qs IH]; intros wq; [reflexivity|]. cbn [jac_configs]. now rewrite IH. Qed.
Lemma last_indep : forall Q (l : list Q) a b, l <> [] -> last l a = last l b.
Proof. intros Q l a b. induction l as [|x l IH]; [congruence|]. intros _. destruct l; [reflexivity|]. apply IH. discriminate. Qed.

(** With feedback the Jacobians of pass k are those of the configuration of pass k-1; without feedback those of the configuration at the start, in every pass. *)
Theorem C87_jacobian_configs : forall (Q : Type) (qs : list Q) wq k d, (k < length qs)%nat ->
  length (fst (jac_configs true wq qs)) = length qs /\ length (fst (jac_configs false wq qs)) = length qs /\
  nth k (fst (jac_configs true wq qs)) d = match k with O => wq | S j => nth j qs d end /\
  nth k (fst (jac_configs false wq qs)) d = wq.
Proof.
  intros Q qs wq k d Hk. rewrite jac_configs_fb, jac_configs_nofb. cbn [fst].
  assert (G : forall (l : list Q) k d, (k < length l - 1)%nat -> nth k (removelast l) d = nth k l d).
  { intros l. induction l as [|x l IH]; intros j e Hj; [cbn in Hj; lia|]. destruct l as [|y l]; [cbn in Hj; lia|]. change (removelast (x :: y :: l)) with (x :: removelast (y :: l)). destruct j; [reflexivity|]. cbn [nth]. apply IH. cbn in *. lia. }
  assert (L : forall (l : list Q), length (removelast l) = (length l - 1)%nat).
  { intros l. induction l as [|x l IH]; [reflexivity|]. destruct l as [|y l]; [reflexivity|]. change (removelast (x :: y :: l)) with (x :: removelast (y :: l)). cbn [length] in *. lia. }
  split; [rewrite L; cbn; lia|]. split; [apply repeat_length|]. split.
  - rewrite G by (cbn; lia). now destruct k.
  - apply nth_repeat'. exact Hk.
Qed.
(** A further run starts from the configuration the run before ended with. *)
Theorem C87_next_run : forall (Q : Type) fb (wq : Q) qs1 q qs2, jac_runs fb wq [qs1 ++ [q]; qs2] = [fst (jac_configs fb wq (qs1 ++ [q])); fst (jac_configs fb q qs2)].
Proof. intros Q fb wq qs1 q qs2. cbn [jac_runs]. unfold after_run. rewrite last_last. reflexivity. Qed.
(** So the Jacobians are never those of the simulated configuration unless it stands still. *)
Theorem C87_current_refuted : forall (Q : Type) fb (wq : Q) qs, fst (jac_configs fb wq qs) = qs -> forall q, In q qs -> q = wq.
Proof.
  intros Q fb wq qs. revert wq. induction qs as [|q0 qs IH]; intros wq H q Hq; [destruct Hq|]. cbn [jac_configs] in H.
  destruct (jac_configs fb (if fb then q0 else wq) qs) as [l e] eqn:E. cbn [fst] in H. injection H as H1 H2. destruct Hq as [->|Hq]; [auto|].
  rewrite H1. apply (IH q0); [|exact Hq]. replace (if fb then q0 else wq) with q0 in E by (destruct fb; auto). rewrite E. cbn [fst]. exact H2.
Qed.
Example C87_jacobian_example : fst (jac_configs true 0%nat [1; 2; 3]%nat) = [0; 1; 2]%nat /\ fst (jac_configs false 0%nat [1; 2; 3]%nat) = [0; 0; 0]%nat.
Proof. split; reflexivity. Qed.

(** The swing times of a foot are filed under the name of another foot: position i of the simulator's feet is never position i of the robot's. *)
Theorem C87_names_refuted : length sim_feet = length robot_feet /\ (forall i, (i < 4)%nat -> nth i robot_feet ""%string <> nth i sim_feet ""%string) /\
  (forall n, In n sim_feet <-> In n robot_feet).
Proof.
  split; [reflexivity|]. split.
  - intros i Hi. do 4 (destruct i as [|i]; [discriminate|]). lia.
  - intros n. unfold sim_feet, robot_feet. cbn. tauto.
Qed.
(** A foot that touches down, hovers with a contact point without force, and touches down again. *)
Definition touch (f : R) : contact := Contact 1 3 (V3 0 0 1) f v0 0 v0 0.
Lemma touch_low : forall f, is_low (point_force (touch f)) = (if Rlt_dec (Rabs f) (/ 1000) then true else false).
Proof.
  intros f. unfold is_low, point_force, touch, vadd, vscale, v0. cbn [co_nf co_normal co_f1 co_d1 co_f2 co_d2 vx vy vz].
  replace (f * 0 + 0 * 0 + 0 * 0) with 0 by ring. replace (f * 1 + 0 * 0 + 0 * 0) with f by ring. rewrite Rabs_R0. replace (0 + 0 + Rabs f) with (Rabs f) by ring. reflexivity.
Qed.
Example C87_swing_example : exists s, sim_new rot_map rot_pin (fun _ => 20%nat) 10 9 rot_joints ["F"%string] = Ok s /\
  swing_run s 0 [[touch 1]; [touch 0]; [touch 0]; [touch 1]; []; [touch 1]] (fun _ => []) 0%nat = [[INR 1 / 1000; INR 3 / 1000]] /\
  swing_run s 0 [[touch 1]; []; []; [touch 1]] (fun _ => []) 0%nat = [].
Proof.
  destruct (sim_new rot_map rot_pin (fun _ => 20%nat) 10 9 rot_joints ["F"%string]) as [s| |] eqn:E; [|discriminate|discriminate].
  exists s. split; [reflexivity|].
  assert (F : forall i j, (i < 1)%nat -> (j < 1)%nat -> 20%nat = 20%nat -> i = j) by (intros; lia).
  assert (L0 : is_low (point_force (touch 0)) = true) by (rewrite touch_low, Rabs_R0; destruct (Rlt_dec 0 (/ 1000)); [reflexivity|lra]).
  assert (L1 : is_low (point_force (touch 1)) = false) by (rewrite touch_low, Rabs_R1; destruct (Rlt_dec 1 (/ 1000)); [lra|reflexivity]).
  split.
  - rewrite (C87_swing_times rot_map rot_pin (fun _ => 20%nat) rot_joints ["F"%string] s rot_unique E F _ 0%nat 3%nat) by (try reflexivity; cbn; lia).
    cbn [readings map filter touch co_link Nat.eqb app]. fold (touch 0) (touch 1). rewrite L0, L1. reflexivity.
  - apply (C87_flight_unseen rot_map rot_pin (fun _ => 20%nat) rot_joints ["F"%string] s rot_unique E F _ 0%nat 3%nat); [cbn; lia|reflexivity|].
    intros cp c Hcp Hc _. cbn in Hcp. destruct Hcp as [<-|[<-|[<-|[<-|[]]]]]; cbn in Hc; try (destruct Hc; fail); destruct Hc as [<-|[]]; exact L1.
Qed.

Print Assumptions C86_get_state. Print Assumptions C86_round_trip. Print Assumptions C86_command_size. Print Assumptions C86_torques. Print Assumptions C86_torques_refuted.
Print Assumptions C86_shipped_torques. Print Assumptions C86_forces. Print Assumptions C86_other_bodies_refuted. Print Assumptions C87_swing_times. Print Assumptions C87_flight_unseen.
Print Assumptions C87_jacobian_configs. Print Assumptions C87_next_run. Print Assumptions C87_current_refuted. Print Assumptions C87_names_refuted.

(** Proofs for C16, part 2: the numeric factorisation. *)
From Coq Require Import Reals List Arith Bool Lia Lra.
From Verif Require Import Base BaseProofs LdlModel LdlSpec LdlProofs.
Import ListNotations.
Open Scope nat_scope.

(** Order of the pattern: the parent of a node is k or comes later. *)
Fixpoint topo (p : nat -> option nat) (k : nat) (l rest : list nat) : Prop :=
  match l with
  | [] => True
  | j :: l' => (exists m, p j = Some m /\ (m = k \/ In m (l' ++ rest))) /\ topo p k l' rest
  end.
Lemma topo_app p k l1 l2 rest : topo p k l1 (l2 ++ rest) -> topo p k l2 rest -> topo p k (l1 ++ l2) rest.
Proof. induction l1; simpl; [auto|]. rewrite <- app_assoc. intuition. Qed.

Section Tree.
Variable p : nat -> option nat.
Variable n : nat.
Hypothesis Hp : forall i m, i < n -> p i = Some m -> i < m < n.

Lemma reach_le' i j : reach p i j -> i < n -> i <= j < n.
Proof. induction 1 as [|i m j E R IH]; intros Hi; [lia|]. pose proof (Hp _ _ Hi E). specialize (IH ltac:(lia)). lia. Qed.
Lemma reach_chain i a b : reach p i a -> reach p i b -> a <= b -> i < n -> reach p a b.
Proof.
  induction 1 as [|i m j E R IH]; intros Hb Hle Hi; [assumption|].
  pose proof (Hp _ _ Hi E). destruct Hb as [|i m' b E' R'].
  - pose proof (reach_le' _ _ R ltac:(lia)). lia.
  - assert (m' = m) by congruence. subst m'. apply IH; auto; lia.
Qed.

Lemma f_walk_spec k : k < n -> forall fuel row flag V, row <= k -> k - row < fuel -> reach p row k ->
  (forall j, j <= k -> (flag j = k <-> j = k \/ In j V)) ->
  exists path flag', f_walk fuel p k row flag = Ok (path, flag') /\
    (forall j, j <= k -> (flag' j = k <-> j = k \/ In j (path ++ V))) /\
    (forall j, ~ In j path -> flag' j = flag j) /\
    topo p k path V /\ NoDup path /\ (forall j, In j path -> row <= j < k /\ ~ In j V /\ reach p row j) /\
    (row = k \/ In row (path ++ V)).
Proof.
  intros Hkn. induction fuel as [|f IH]; intros row flag V Hrow Hf Hreach Hflag; [lia|].
  cbn [f_walk]. destruct (Nat.eqb_spec (flag row) k) as [E|E].
  - exists [], flag. split; [reflexivity|]. split; [assumption|]. split; [auto|]. split; [exact I|]. split; [constructor|]. split; [intros j []|].
    apply Hflag in E; auto.
  - assert (Hne : row <> k /\ ~ In row V) by (split; intros X; apply E; apply Hflag; auto). destruct Hne as [Hne HnV].
    inversion Hreach as [|x m y Em Rm]; subst; [congruence|]. rewrite Em.
    pose proof (Hp row m ltac:(lia) Em) as Hm. pose proof (reach_le' _ _ Rm ltac:(lia)) as Hmk.
    destruct (IH m (upd flag row k) (row :: V) ltac:(lia) ltac:(lia) Rm) as (path & flag' & W1 & W2 & W2' & W3 & W4 & W5 & W6).
    { intros j Hj. unfold upd. destruct (Nat.eqb_spec j row) as [->|Hjr]; [simpl; tauto|]. rewrite Hflag by assumption. simpl. intuition congruence. }
    rewrite W1. cbn [bind]. exists (row :: path), flag'. split; [reflexivity|].
    assert (HrP : ~ In row path) by (intros X; apply W5 in X; lia).
    split; [|split; [|split; [|split; [|split]]]].
    + intros j Hj. rewrite W2 by assumption. simpl. rewrite !in_app_iff. simpl. tauto.
    + intros j Hj. simpl in Hj. rewrite W2' by tauto. apply upd_other. intros ->; tauto.
    + cbn [topo]. split.
      * exists m. split; [assumption|]. destruct W6 as [X|X]; [now left|right]. rewrite in_app_iff in *. simpl in X.
        destruct X as [X|[X|X]]; auto. lia.
      * assert (G : forall l, (forall j, In j l -> row < j < n) -> topo p k l (row :: V) -> topo p k l V).
        { induction l as [|a l IHl]; intros Hg; [auto|]. cbn [topo]. intros ((m' & E1 & E2) & T). split; [|apply IHl; auto; intros; apply Hg; now right].
          exists m'. split; [assumption|]. destruct E2 as [E2|E2]; [now left|right]. rewrite in_app_iff in *. simpl in E2.
          destruct E2 as [E2|[E2|E2]]; auto. subst m'. assert (row < a < n) by (apply Hg; now left).
          pose proof (Hp a row ltac:(lia) E1). lia. }
        apply G; auto. intros j Hj. apply W5 in Hj. lia.
    + constructor; assumption.
    + intros j [<-|Hj]; [repeat split; auto; try lia; constructor|]. destruct (W5 j Hj) as (A1 & A2 & A3).
      simpl in A2. repeat split; try lia; [tauto|]. econstructor; eauto.
    + right. now left.
Qed.

Lemma topo_In k l rest : topo p k l rest -> forall j, In j l -> exists m, p j = Some m /\ (m = k \/ In m (l ++ rest)).
Proof.
  induction l as [|a l IH]; cbn [topo]; intros H j []; destruct H as ((m & E1 & E2) & T).
  - subst. exists m. simpl. tauto.
  - destruct (IH T j H0) as (m' & A1 & A2). exists m'. simpl. tauto.
Qed.
Lemma topo_reach k l : topo p k l [] -> k < n -> (forall j, In j l -> j < k) -> forall i j, In i l -> reach p i j -> j < k -> In j l.
Proof.
  intros T Hk Hl i j Hi R Hj. induction R as [|i m j E R IH]; [assumption|].
  destruct (topo_In k l [] T i Hi) as (m' & E' & X). rewrite app_nil_r in X. assert (m' = m) by congruence. subst m'.
  destruct X as [->|X]; auto. pose proof (reach_le' _ _ R Hk). lia.
Qed.
(** Proper ancestors below k come later in the list. *)
Lemma topo_later k l1 j l2 : topo p k (l1 ++ j :: l2) [] -> k < n -> (forall i, In i (l1 ++ j :: l2) -> i < k) ->
  forall r, reach p j r -> r <> j -> r < k -> In r l2.
Proof.
  intros T Hk Hl r R Hne Hr.
  assert (T2 : topo p k (j :: l2) []). { clear - T. induction l1; simpl in *; tauto. }
  inversion R as [|x m y E R']; subst; [congruence|].
  destruct T2 as ((m' & E' & X) & T2). rewrite app_nil_r in X. assert (m' = m) by congruence. subst m'.
  destruct X as [->|X]; [pose proof (reach_le' _ _ R' Hk); lia|].
  apply (topo_reach k l2 T2 Hk) with (i := m); auto. intros; apply Hl. rewrite in_app_iff. right; now right.
Qed.
End Tree.

Lemma entry_app l r v q : ~ In r (map fst l) -> entry (l ++ [(r, v)]) q = if Nat.eqb q r then v else entry l q.
Proof.
  unfold entry. induction l as [|[a b] l IH]; cbn [app find map fst snd]; intros H.
  - rewrite (Nat.eqb_sym q r). destruct (Nat.eqb r q); reflexivity.
  - destruct (Nat.eqb_spec a q) as [Ea|Ha].
    + destruct (Nat.eqb_spec q r) as [Er|]; [|reflexivity]. exfalso. apply H. left. congruence.
    + apply IH. simpl in H. tauto.
Qed.

(** The pattern and scattered column of row k. *)
Record PIn (p : nat -> option nat) (k : nat) (s0 : num) (pre : list (nat * R)) (pat : list nat) (s : num) : Prop := {
  pi_flag : forall j, j <= k -> (m_flag s j = k <-> j = k \/ In j pat);
  pi_fo : forall j, ~ In j pat -> m_flag s j = m_flag s0 j;
  pi_topo : topo p k pat [];
  pi_nd : NoDup pat;
  pi_lt : forall j, In j pat -> j < k;
  pi_Y : forall r, r <= k -> m_Y s r = entry pre r;
  pi_in : forall j, In j pat <-> j < k /\ exists i, In i (map fst pre) /\ reach p i j;
  pi_D : m_D s = m_D s0; pi_l : m_lnnz s = m_lnnz s0; pi_Li : m_Li s = m_Li s0; pi_Lx : m_Lx s = m_Lx s0 }.

Lemma NoDup_lt_length l k : NoDup l -> (forall j, In j l -> j < k) -> length l <= k.
Proof.
  intros H1 H2. rewrite <- (seq_length k 0). apply NoDup_incl_length; auto. intros j Hj. apply in_seq. specialize (H2 j Hj). lia.
Qed.

Lemma f_entries_spec p n k s0 : (forall i m, i < n -> p i = Some m -> i < m < n) -> k < n ->
  forall l pre pat s, PIn p k s0 pre pat s -> NoDup (map fst (pre ++ l)) ->
  (forall r v, In (r, v) l -> r <= k /\ reach p r k) ->
  exists pat' s', foldM (f_entry n p k) l (s, pat) = Ok (s', pat') /\ PIn p k s0 (pre ++ l) pat' s'.
Proof.
  intros Hp Hk. induction l as [|[r v] l IH]; intros pre pat s H Hnd Hl.
  - exists pat, s. rewrite app_nil_r. split; [reflexivity|assumption].
  - cbn [foldM]. unfold f_entry at 1. cbn [fst snd]. destruct (Hl r v (or_introl eq_refl)) as [Hr Rr].
    destruct H as [h1 h2 h3 h4 h5 h6 h7 h8 h9 h10 h11].
    assert (Hnr : ~ In r (map fst pre)).
    { rewrite map_app in Hnd. cbn [map fst] in Hnd. apply NoDup_remove_2 in Hnd. rewrite in_app_iff in Hnd. tauto. }
    cbn [m_flag set_Y].
    destruct (f_walk_spec p n Hp k Hk (S n) r (m_flag s) pat Hr ltac:(lia) Rr h1) as (path & flag' & W1 & W2 & W2' & W3 & W4 & W5 & W6).
    rewrite W1. cbn [bind].
    assert (Hnd' : NoDup (path ++ pat)).
    { clear - W4 h4 W5. assert (forall j, In j path -> ~ In j pat) by (intros j Hj; apply W5; assumption).
      induction path as [|a path IH]; cbn [app]; [assumption|]. inversion W4; subst. constructor.
      - rewrite in_app_iff. intros [X|X]; [tauto|]. apply (H a); [now left|assumption].
      - apply IH; auto. intros j Hj. apply W5. now right. intros j Hj. apply H. now right. }
    assert (Hlt' : forall j, In j (path ++ pat) -> j < k).
    { intros j. rewrite in_app_iff. intros [X|X]; [apply W5 in X; lia|auto]. }
    assert (Hlen : Nat.leb (length path + length pat) n = true).
    { apply Nat.leb_le. rewrite <- app_length. pose proof (NoDup_lt_length _ k Hnd' Hlt'). lia. }
    rewrite Hlen. cbn [bind].
    destruct (IH (pre ++ [(r, v)]) (path ++ pat) (set_flag flag' (set_Y (upd (m_Y s) r v) s))) as (pat' & s' & X1 & X2).
    + constructor; unfold set_flag, set_Y; cbn [m_D m_Y m_lnnz m_flag m_Li m_Lx]; auto.
      * intros j Hj. rewrite W2', h2; auto; intros X; apply Hj; rewrite in_app_iff; auto.
      * apply topo_app; [now rewrite app_nil_r|assumption].
      * intros q Hq. rewrite (entry_app pre r v q Hnr). unfold upd. destruct (Nat.eqb q r); auto.
      * intros j. rewrite map_app. cbn [map fst]. split.
        -- intros Hj. split; [auto|]. rewrite in_app_iff in Hj. destruct Hj as [Hj|Hj].
           ++ exists r. rewrite in_app_iff. split; [right; now left|]. apply W5; assumption.
           ++ apply h7 in Hj. destruct Hj as (_ & i & A1 & A2). exists i. rewrite in_app_iff. auto.
        -- intros (Hj & i & Hi & R). rewrite in_app_iff in Hi. destruct Hi as [Hi|[<-|[]]].
           ++ rewrite in_app_iff. right. apply h7. eauto.
           ++ destruct W6 as [->|W6]; [pose proof (reach_le' p n Hp _ _ R Hk); lia|].
              apply (topo_reach p n Hp k (path ++ pat)) with (i := r); auto.
              apply topo_app; [now rewrite app_nil_r|assumption].
    + rewrite <- app_assoc. exact Hnd.
    + intros r0 v0 Hrv; apply (Hl r0 v0); right; assumption.
    + exists pat', s'. split; [exact X1|]. rewrite <- app_assoc in X2. exact X2.
Qed.

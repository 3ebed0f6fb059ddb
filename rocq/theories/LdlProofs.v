(** Proofs for C16, part 1: the symbolic analysis. *)
From Coq Require Import Reals List Arith Bool Lia Lra.
From Verif Require Import Base BaseProofs LdlModel LdlSpec.
Import ListNotations.
Open Scope nat_scope.

Definition mem (j : nat) (l : list nat) : bool := existsb (Nat.eqb j) l.
Lemma mem_In j l : mem j l = true <-> In j l.
Proof. unfold mem. rewrite existsb_exists. split; [intros (x & H & E)| intros H]. { apply Nat.eqb_eq in E; now subst. } exists j; now rewrite Nat.eqb_refl. Qed.
Lemma mem_nIn j l : mem j l = false <-> ~ In j l.
Proof. rewrite <- mem_In. destruct (mem j l); split; congruence. Qed.
Definition b2n (b : bool) : nat := if b then 1 else 0.

Inductive reach (p : nat -> option nat) : nat -> nat -> Prop :=
| reach_refl i : reach p i i
| reach_step i m j : p i = Some m -> reach p m j -> reach p i j.
Lemma reach_snoc p i j m : reach p i j -> p j = Some m -> reach p i m.
Proof. induction 1; intros; [econstructor; [eassumption|constructor]|econstructor; eauto]. Qed.
Lemma reach_mono (p q : nat -> option nat) i j : (forall a m, p a = Some m -> q a = Some m) -> reach p i j -> reach q i j.
Proof. induction 2; [constructor|econstructor; eauto]. Qed.

Definition inP (A : smatrix) (p : nat -> option nat) (c j : nat) : Prop := j < c /\ exists i, In i (map fst (A c)) /\ reach p i j.

(** Invariant of the analysis after columns 0..k-1. *)
Record AInv (A : smatrix) (k : nat) (PL : nat -> list nat) (st : sym) : Prop := {
  ai_par : forall i m, i < k -> y_parent st i = Some m -> i < m < k;
  ai_reach : forall c i, c < k -> In i (map fst (A c)) -> reach (y_parent st) i c;
  ai_P : forall c j, c < k -> (In j (PL c) <-> inP A (y_parent st) c j);
  ai_nd : forall c, c < k -> NoDup (PL c);
  ai_lnnz : forall j, j < k -> y_lnnz st j = nsum k (fun c => b2n (mem j (PL c)));
  ai_flag : forall j, j < k -> y_flag st j < k }.

(** Invariant inside column k: [V] visited, [done] processed rows, [row] the pending node of the walk. *)
Record AIn (k : nat) (st0 : sym) (done V : list nat) (row : nat) (st : sym) : Prop := {
  in_k : y_parent st k = None;
  in_par : forall i m, i < k -> y_parent st i = Some m -> i < m <= k;
  in_ext : forall i m, i < k -> y_parent st0 i = Some m -> y_parent st i = Some m;
  in_new : forall i m, i < k -> y_parent st i = Some m -> m <> k -> y_parent st0 i = Some m;
  in_flag : forall j, j <= k -> (y_flag st j = k <-> j = k \/ In j V);
  in_nd : NoDup V;
  in_lt : forall j, In j V -> j < k;
  in_cl : forall j, In j V -> exists m, y_parent st j = Some m /\ (m = k \/ In m V \/ m = row);
  in_ln : forall j, j < k -> y_lnnz st j = y_lnnz st0 j + b2n (mem j V);
  in_lnk : y_lnnz st k = 0;
  in_from : forall j, In j V -> exists i, In i done /\ reach (y_parent st) i j;
  in_done : forall i, In i done -> i = k \/ In i V \/ i = row;
  in_fo : forall j, j < k -> ~ In j V -> y_flag st j = y_flag st0 j }.

Lemma a_walk_spec k st0 : forall fuel row done V st, AIn k st0 done V row st -> row <= k -> k - row < fuel ->
  (exists i, In i done /\ reach (y_parent st) i row) ->
  exists V' st', a_walk fuel k row st = Ok st' /\ AIn k st0 done V' k st' /\
    (forall i j, reach (y_parent st) i j -> reach (y_parent st') i j).
Proof.
  induction fuel as [|f IH]; intros row done V st H Hrow Hf (i0 & Hi0 & Hr0); [lia|].
  cbn [a_walk]. destruct (Nat.eqb_spec (y_flag st row) k) as [E|E].
  - exists V, st. split; [reflexivity|]. split; [|auto].
    apply (in_flag _ _ _ _ _ _ H) in E; [|assumption].
    destruct H as [h1 h2 h3 h4 h5 h6 h7 h8 h9 h10 h11 h12 h13]. constructor; auto.
    + intros j Hj. destruct (h8 j Hj) as (m & Hm & [X|[X|X]]); exists m; split; auto. subst m. tauto.
    + intros i Hi. destruct (h12 i Hi) as [X|[X|X]]; auto. subst i. tauto.
  - assert (Hne : row <> k /\ ~ In row V).
    { split; intros X; apply E; apply (in_flag _ _ _ _ _ _ H); auto. }
    destruct Hne as [Hne HnV]. assert (Hlt : row < k) by lia.
    set (par := match y_parent st row with None => _ | Some _ => _ end).
    assert (Hpar : exists r, par row = Some r /\ row < r <= k /\
      (forall a m, y_parent st a = Some m -> par a = Some m) /\
      (forall a m, par a = Some m -> y_parent st a = Some m \/ (a = row /\ m = k)) /\ par k = None).
    { unfold par. destruct (y_parent st row) as [r|] eqn:Er.
      - exists r. split; [assumption|]. split; [apply (in_par _ _ _ _ _ _ H) in Er; auto|]. split; [auto|]. split; [auto|]. apply (in_k _ _ _ _ _ _ H).
      - exists k. rewrite upd_same. split; [reflexivity|]. split; [lia|]. split; [|split].
        + intros a m Ha. rewrite upd_other; [assumption|]. congruence.
        + intros a m. unfold upd. destruct (Nat.eqb_spec a row); intros X; [right; split; congruence|auto].
        + rewrite upd_other by lia. apply (in_k _ _ _ _ _ _ H). }
    destruct Hpar as (r & Er & Hr & Hmono & Hback & Hpk). rewrite Er.
    destruct (IH r done (row :: V) (mkSym par (upd (y_lnnz st) row (S (y_lnnz st row))) (upd (y_flag st) row k))) as (V' & st' & W1 & W2 & W3).
    { destruct H as [h1 h2 h3 h4 h5 h6 h7 h8 h9 h10 h11 h12 h13]. constructor; cbn [y_parent y_lnnz y_flag].
      - assumption.
      - intros i m Hi Hm. destruct (Hback _ _ Hm) as [X|[-> ->]]; [eauto|lia].
      - intros i m Hi Hm. apply Hmono. eauto.
      - intros i m Hi Hm Hmk. destruct (Hback _ _ Hm) as [X|[-> ->]]; [eauto|congruence].
      - intros j Hj. unfold upd. destruct (Nat.eqb_spec j row) as [->|Hjr]; [simpl; tauto|].
        rewrite h5 by assumption. simpl. intuition congruence.
      - constructor; assumption.
      - intros j [<-|Hj]; auto.
      - intros j [<-|Hj]; [exists r; auto|]. destruct (h8 j Hj) as (m & Hm & X). exists m. split; [auto|]. simpl. intuition congruence.
      - intros j Hj. unfold upd. simpl. destruct (Nat.eqb_spec j row) as [->|Hjr]; simpl.
        + rewrite h9 by assumption. assert (Y : mem row V = false) by now apply mem_nIn. rewrite Y. simpl. lia.
        + rewrite h9 by assumption. reflexivity.
      - rewrite upd_other by lia. assumption.
      - intros j [<-|Hj]; [exists i0; split; auto; eapply reach_mono; eauto|]. destruct (h11 j Hj) as (i & A1 & A2). exists i; split; auto. eapply reach_mono; eauto.
      - intros i Hi. destruct (h12 i Hi) as [X|[X|X]]; simpl; auto.
      - intros j Hj HnV'. simpl in HnV'. rewrite upd_other by (intros ->; tauto). apply h13; tauto. }
    { lia. } { lia. }
    { exists i0. split; [assumption|]. cbn [y_parent]. eapply reach_snoc; [eapply reach_mono; eauto|assumption]. }
    exists V', st'. split; [assumption|]. split; [assumption|].
    intros i j Hij. apply W3. cbn [y_parent]. eapply reach_mono; eauto.
Qed.

Lemma a_fold_spec n k st0 : k < n -> forall (l : list (nat * R)) done V st, AIn k st0 done V k st -> (forall r v, In (r, v) l -> r <= k) ->
  exists V' st', foldM (fun st e => a_walk (S n) k (fst e) st) l st = Ok st' /\ AIn k st0 (rev (map fst l) ++ done) V' k st'.
Proof.
  intros Hkn. induction l as [|[r v] l IH]; intros done V st H Hle; cbn [foldM].
  - exists V, st. auto.
  - assert (Hrk : r <= k) by (eapply Hle; left; reflexivity).
    assert (H' : AIn k st0 (r :: done) V r st).
    { destruct H as [h1 h2 h3 h4 h5 h6 h7 h8 h9 h10 h11 h12 h13]. constructor; auto.
      - intros j Hj. destruct (h8 j Hj) as (m & A1 & A2). exists m; split; auto. intuition.
      - intros j Hj. destruct (h11 j Hj) as (i & A1 & A2). exists i; split; auto. now right.
      - intros i [<-|Hi]; auto. destruct (h12 i Hi) as [X|[X|X]]; auto. }
    destruct (a_walk_spec k st0 (S n) r (r :: done) V st H' Hrk ltac:(lia)) as (V1 & st1 & W1 & W2 & _).
    { exists r. split; [now left|constructor]. }
    cbn [fst]. rewrite W1. cbn [bind].
    destruct (IH (r :: done) V1 st1 W2) as (V2 & st2 & X1 & X2). { intros; eapply Hle; right; eassumption. }
    exists V2, st2. split; [assumption|]. cbn [map rev fst]. rewrite <- app_assoc. exact X2.
Qed.

Lemma reach_le k (p : nat -> option nat) : (forall i m, i < k -> p i = Some m -> i < m <= k) -> p k = None ->
  forall i j, reach p i j -> i <= k -> i <= j.
Proof.
  intros Hp Hk i j H. induction H as [|i m j E H IH]; intros Hi; [lia|].
  destruct (Nat.eq_dec i k) as [->|]; [congruence|]. apply Hp in E; [|lia]. specialize (IH ltac:(lia)). lia.
Qed.

Lemma nsum_count_S k PL V j : nsum (S k) (fun c => b2n (mem j (upd PL k V c))) = nsum k (fun c => b2n (mem j (PL c))) + b2n (mem j V).
Proof.
  cbn [nsum]. rewrite upd_same. f_equal. apply nsum_ext. intros i Hi. now rewrite upd_other by lia.
Qed.

Lemma a_col_spec n A k PL st : k < n -> upper n A -> AInv A k PL st ->
  exists V st', a_col n A st k = Ok st' /\ AInv A (S k) (upd PL k V) st'.
Proof.
  intros Hkn HA H. unfold a_col.
  set (st1 := mkSym _ _ _). destruct (HA k Hkn) as [_ Hrows].
  assert (H0 : AIn k st1 [] [] k st1).
  { constructor; unfold st1; cbn [y_parent y_lnnz y_flag].
    - apply upd_same.
    - intros i m Hi. rewrite upd_other by lia. intros X. apply (ai_par _ _ _ _ H) in X; lia.
    - auto.
    - auto.
    - intros j Hj. unfold upd. destruct (Nat.eqb_spec j k); [tauto|]. split; [|simpl; intuition lia].
      intros X. assert (y_flag st j < k) by (apply (ai_flag _ _ _ _ H); lia). lia.
    - constructor.
    - intros j [].
    - intros j [].
    - intros j Hj. simpl. lia.
    - apply upd_same.
    - intros j [].
    - intros j [].
    - auto. }
  destruct (a_fold_spec n k st1 Hkn (A k) [] [] st1 H0 Hrows) as (V & st' & E & W).
  exists V, st'. split; [exact E|].
  destruct W as [h1 h2 h3 h4 h5 h6 h7 h8 h9 h10 h11 h12 h13]. rewrite app_nil_r in *.
  assert (Hsub : forall a m, a < k -> y_parent st a = Some m -> y_parent st' a = Some m).
  { intros a m Ha Hm. apply h3; [assumption|]. unfold st1; cbn [y_parent]. now rewrite upd_other by lia. }
  assert (Hrm : forall i j, i < k -> j < k -> reach (y_parent st) i j -> reach (y_parent st') i j).
  { intros i j Hi Hj R. induction R as [|i m j E' R IH]; [constructor|]. econstructor; [apply Hsub; eassumption|].
    apply IH; auto. apply (ai_par _ _ _ _ H) in E'; lia. }
  assert (Hvk : forall i, In i V -> reach (y_parent st') i k).
  { intros i Hi. assert (G : forall d i, k - i <= d -> In i V -> reach (y_parent st') i k).
    { induction d; intros i' Hd Hi'. { apply h7 in Hi'. lia. }
      destruct (h8 i' Hi') as (m & Hm & X). pose proof (h7 i' Hi') as L. pose proof (h2 i' m L Hm) as L2.
      econstructor; [eassumption|]. destruct X as [->|[X| ->]]; try constructor. apply IHd; auto; lia. }
    eapply G; eauto. }
  constructor.
  - intros i m Hi Hm. destruct (Nat.eq_dec i k) as [->|]; [congruence|]. apply h2 in Hm; lia.
  - intros c i Hc Hi. destruct (Nat.eq_dec c k) as [->|Hck].
    + destruct (h12 i) as [->|[X| ->]]; [now apply -> in_rev|constructor|auto|constructor].
    + assert (c < k) by lia. assert (R := ai_reach _ _ _ _ H c i ltac:(lia) Hi).
      apply Hrm; auto. destruct (HA c ltac:(lia)) as [_ Hr]. apply in_map_iff in Hi. destruct Hi as ([r v] & <- & Hi).
      apply Hr in Hi. simpl. lia.
  - intros c j Hc. destruct (Nat.eq_dec c k) as [->|Hck].
    + rewrite upd_same. split.
      * intros Hj. split; [auto|]. destruct (h11 j Hj) as (i & A1 & A2). exists i. split; [now apply in_rev|assumption].
      * intros (Hj & i & Hi & R). assert (Hi' : i = k \/ In i V). { destruct (h12 i) as [X|[X|X]]; auto. now apply -> in_rev. }
        assert (G : j = k \/ In j V).
        { clear Hi Hj. induction R as [|i m j E' R IH]; auto. apply IH. destruct Hi' as [->|Hi']; [congruence|].
          destruct (h8 i Hi') as (m' & E2 & X). rewrite E' in E2. injection E2 as <-. tauto. }
        destruct G; [lia|assumption].
    + rewrite upd_other by assumption. rewrite (ai_P _ _ _ _ H) by lia. unfold inP.
      split; intros (Hj & i & Hi & R); (split; [assumption|]; exists i; split; [assumption|]).
      * apply Hrm; try lia; auto. destruct (HA c ltac:(lia)) as [_ Hr]. apply in_map_iff in Hi. destruct Hi as ([r v] & <- & Hi).
        apply Hr in Hi. simpl. lia.
      * assert (Hjk : j < k) by lia. assert (Hik : i < k).
        { destruct (HA c ltac:(lia)) as [_ Hr]. apply in_map_iff in Hi. destruct Hi as ([r v] & <- & Hi). apply Hr in Hi. simpl. lia. }
        clear Hi Hj. induction R as [|i m j E' R IH]; [constructor|].
        pose proof (h2 i m Hik E') as Hm.
        assert (m <= j) by (eapply (reach_le k); eauto; lia).
        econstructor; [|apply IH; auto; lia].
        assert (X : y_parent st1 i = Some m) by (apply h4; auto; lia). unfold st1 in X; cbn [y_parent] in X. now rewrite upd_other in X by lia.
  - intros c Hc. destruct (Nat.eq_dec c k) as [->|]; [rewrite upd_same; assumption|]. rewrite upd_other by assumption. apply (ai_nd _ _ _ _ H); lia.
  - intros j Hj. rewrite nsum_count_S. destruct (Nat.eq_dec j k) as [->|Hjk].
    + rewrite h10. assert (X : mem k V = false). { apply mem_nIn. intros X. apply h7 in X. lia. } rewrite X.
      cbn [b2n]. rewrite Nat.add_0_r. clear - H. assert (G : forall m, m <= k -> nsum m (fun c => b2n (mem k (PL c))) = 0).
      { induction m; intros Hm; [reflexivity|]. cbn [nsum]. rewrite IHm by lia.
        assert (X : mem k (PL m) = false). { apply mem_nIn. intros X. apply (ai_P _ _ _ _ H) in X; [|lia]. destruct X; lia. } now rewrite X. }
      symmetry. apply G. lia.
    + rewrite h9 by lia. f_equal. unfold st1; cbn [y_lnnz]. rewrite upd_other by lia. apply (ai_lnnz _ _ _ _ H). lia.
  - intros j Hj. destruct (Nat.eq_dec j k) as [->|Hjk].
    + assert (y_flag st' k = k) by (apply h5; auto). lia.
    + assert (Hd : In j V \/ ~ In j V) by (destruct (mem j V) eqn:X; [left; now apply mem_In|right; now apply mem_nIn]).
      destruct Hd as [X|X]; [assert (y_flag st' j = k) by (apply h5; [lia|auto]); lia|].
      rewrite h13 by (auto; lia). unfold st1; cbn [y_flag]. rewrite upd_other by lia. pose proof (ai_flag _ _ _ _ H j ltac:(lia)). lia.
Qed.


Lemma analyze_spec n A st0 : upper n A -> exists PL st, analyze n A st0 = Ok st /\ AInv A n PL st.
Proof.
  intros HA. unfold analyze.
  assert (G : forall k, k <= n -> exists PL st, foldM (a_col n A) (seq 0 k) st0 = Ok st /\ AInv A k PL st).
  { induction k as [|k IH]; intros Hk.
    - exists (fun _ => []), st0. split; [reflexivity|]. constructor; intros; lia.
    - destruct (IH ltac:(lia)) as (PL & st & E & I).
      destruct (a_col_spec n A k PL st ltac:(lia) HA I) as (V & st' & E' & I').
      exists (upd PL k V), st'. split; [|assumption]. rewrite seq_S, foldM_append, E. cbn [bind foldM]. simpl Nat.add. rewrite E'. reflexivity. }
  apply G. lia.
Qed.

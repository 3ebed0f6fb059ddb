(** Proofs for C16, part 3: elimination of one row and the factorisation invariant. *)
From Coq Require Import Reals List Arith Bool Lia Lra.
From Verif Require Import Base BaseProofs LdlModel LdlSpec LdlProofs LdlProofs2.
Import ListNotations.
Open Scope R_scope.

Definition colL (s : num) (Lp : nat -> nat) (j : nat) : list (nat * R) := map (fun q => (m_Li s q, m_Lx s q)) (seq (Lp j) (m_lnnz s j)).
Definition rowsof (PL : nat -> list nat) (j k : nat) : list nat := filter (fun r => mem j (PL r)) (seq 0 k).
Definition colspec (Lv : nat -> nat -> R) (PL : nat -> list nat) (k j : nat) : list (nat * R) := map (fun r => (r, Lv r j)) (rowsof PL j k).

Lemma rowsof_S PL j k : rowsof PL j (S k) = rowsof PL j k ++ (if mem j (PL k) then [k] else []).
Proof. unfold rowsof. rewrite seq_S, filter_app. simpl. reflexivity. Qed.
Lemma rowsof_In PL j k r : In r (rowsof PL j k) <-> (r < k)%nat /\ mem j (PL r) = true.
Proof. unfold rowsof. rewrite filter_In, in_seq. intuition lia. Qed.
Lemma rowsof_nd PL j k : NoDup (rowsof PL j k).
Proof. apply NoDup_filter, seq_NoDup. Qed.
Lemma rowsof_length PL j k : length (rowsof PL j k) = nsum k (fun c => b2n (mem j (PL c))).
Proof. induction k; [reflexivity|]. rewrite rowsof_S, app_length, IHk. cbn [nsum]. destruct (mem j (PL k)); reflexivity. Qed.
Lemma entry_colspec Lv PL k j r : entry (colspec Lv PL k j) r = if (Nat.ltb r k && mem j (PL r))%bool then Lv r j else 0.
Proof.
  unfold entry, colspec. set (l := rowsof PL j k).
  assert (G : forall l, find (fun e => Nat.eqb (fst e) r) (map (fun r => (r, Lv r j)) l) = if mem r l then Some (r, Lv r j) else None).
  { clear. induction l as [|a l IH]; [reflexivity|]. cbn [map find fst]. rewrite IH. unfold mem. simpl.
    rewrite (Nat.eqb_sym a r). destruct (Nat.eqb_spec r a) as [->|]; reflexivity. }
  rewrite G. destruct (mem r l) eqn:E.
  - apply mem_In, rowsof_In in E. destruct E as [E1 E2]. apply Nat.ltb_lt in E1. rewrite E1, E2. reflexivity.
  - apply mem_nIn in E. destruct (Nat.ltb_spec r k); simpl; auto. destruct (mem j (PL r)) eqn:E'; auto.
    exfalso. apply E. apply rowsof_In. auto.
Qed.
Lemma entry_nIn l r : ~ In r (map fst l) -> entry l r = 0.
Proof.
  unfold entry. induction l as [|[a b] l IH]; cbn [find map fst]; intros H; auto.
  destruct (Nat.eqb_spec a r) as [->|]; [simpl in H; tauto|]. apply IH. simpl in H; tauto.
Qed.
(** y[row] -= value * c over a list of entries. *)
Definition sub_col (c : R) (l : list (nat * R)) (Y : nat -> R) : nat -> R :=
  fold_left (fun Y e => upd Y (fst e) (Y (fst e) - snd e * c)) l Y.
Lemma sub_col_spec c l : NoDup (map fst l) -> forall Y r, sub_col c l Y r = Y r - entry l r * c.
Proof.
  induction l as [|[a b] l IH]; intros Hnd Y r; unfold sub_col in *; cbn [fold_left].
  - unfold entry. simpl. lra.
  - cbn [map fst] in Hnd. inversion Hnd; subst. rewrite IH by assumption. cbn [fst snd]. unfold entry at 2. cbn [find fst]. unfold upd.
    destruct (Nat.eqb_spec a r) as [->|Ha].
    + rewrite Nat.eqb_refl. rewrite entry_nIn by assumption. cbn [snd]. lra.
    + destruct (Nat.eqb_spec r a); [congruence|]. unfold entry. lra.
Qed.
Lemma sub_col_flat s yi l Y : fold_left (fun Y p => upd Y (m_Li s p) (Y (m_Li s p) - m_Lx s p * yi)) l Y = sub_col yi (map (fun q => (m_Li s q, m_Lx s q)) l) Y.
Proof. unfold sub_col. revert Y. induction l as [|a l IH]; intros Y; [reflexivity|]. cbn [fold_left map fst snd]. apply IH. Qed.

Section Fact.
Variables (n : nat) (A : smatrix) (PL : nat -> list nat) (y : sym).
Hypothesis HA : upper n A.
Hypothesis HI : AInv A n PL y.
Let p := y_parent y.
Let Lp := Lp_of (y_lnnz y).

Lemma Hp : forall i m, (i < n)%nat -> p i = Some m -> (i < m < n)%nat.
Proof. intros. eapply ai_par; eauto. Qed.
Lemma PL_lt c j : (c < n)%nat -> In j (PL c) -> (j < c)%nat.
Proof. intros Hc H. apply (ai_P _ _ _ _ HI) in H; auto. destruct H; auto. Qed.
Lemma PL_reach c j : (c < n)%nat -> In j (PL c) -> reach p j c.
Proof.
  intros Hc H. apply (ai_P _ _ _ _ HI) in H; auto. destruct H as (Hj & i & Hi & R).
  assert (R2 := ai_reach _ _ _ _ HI c i Hc Hi). destruct (HA c Hc) as [_ Hr].
  pose proof Hi as Hi'. apply in_map_iff in Hi'. destruct Hi' as ([r v] & E & Hi'). simpl in E. subst r. apply Hr in Hi'.
  eapply (reach_chain p n Hp); eauto; lia.
Qed.
Lemma Lp_S j : Lp (S j) = (Lp j + y_lnnz y j)%nat.
Proof. reflexivity. Qed.
Lemma Lp_mono i j : (i <= j)%nat -> (Lp i <= Lp j)%nat.
Proof. apply nsum_mono. Qed.
Lemma cap j : (j < n)%nat -> y_lnnz y j = length (rowsof PL j n).
Proof. intros. rewrite rowsof_length. now apply (ai_lnnz _ _ _ _ HI). Qed.
Lemma rowsof_mono j k m : (k <= m)%nat -> (length (rowsof PL j k) <= length (rowsof PL j m))%nat.
Proof. intros. rewrite !rowsof_length. now apply nsum_mono. Qed.

Definition lowrow (Lv : nat -> nat -> R) (i : nat) : Prop :=
  Lv i i = 1 /\ (forall j, (i < j)%nat -> Lv i j = 0) /\ (forall j, (j < i)%nat -> ~ In j (PL i) -> Lv i j = 0).

(** Elimination of row k: [done] eliminated so far, [yv] the values of the triangular solve. *)
Record EIn (k : nat) (Lv : nat -> nat -> R) (s0 : num) (pat done : list nat) (yv : nat -> R) (s : num) : Prop := {
  e_Y : forall r, (r < k)%nat -> m_Y s r = entry (A k) r - rsum k (fun j => Lv r j * yv j);
  e_done0 : forall r, In r done -> m_Y s r = 0;
  e_out : forall r, (r < k)%nat -> ~ In r pat -> m_Y s r = 0;
  e_Yk : m_Y s k = 0;
  e_supp : forall j, ~ In j done -> yv j = 0;
  e_Dk : m_D s k = entry (A k) k - rsum k (fun j => yv j * yv j / m_D s0 j);
  e_D : forall j, j <> k -> m_D s j = m_D s0 j;
  e_col : forall j, (j < k)%nat -> colL s Lp j = colspec Lv PL k j ++ (if mem j done then [(k, yv j / m_D s0 j)] else []);
  e_flag : m_flag s = m_flag s0;
  e_lk : m_lnnz s k = 0%nat }.

Lemma colL_length s j : length (colL s Lp j) = m_lnnz s j.
Proof. unfold colL. now rewrite map_length, seq_length. Qed.

Lemma f_elim_spec k Lv s0 done i rest yv s : (k < n)%nat -> (forall r, (r < k)%nat -> lowrow Lv r) ->
  topo p k (done ++ i :: rest) [] -> NoDup (done ++ i :: rest) -> (forall j, In j (done ++ i :: rest) <-> In j (PL k)) ->
  EIn k Lv s0 (done ++ i :: rest) done yv s ->
  exists yv' s', f_elim Lp k s i = Ok s' /\ EIn k Lv s0 (done ++ i :: rest) (done ++ [i]) yv' s'.
Proof.
  intros Hk HL HT HN HP [h1 h2 h3 h4 h5 h6 h7 h8 h9 h10].
  assert (Hlt : forall j, In j (done ++ i :: rest) -> (j < k)%nat) by (intros j Hj; apply HP in Hj; eapply PL_lt; eauto).
  assert (Hi : (i < k)%nat) by (apply Hlt, in_elt).
  assert (Hnd : ~ In i done) by (apply NoDup_remove_2 in HN; rewrite in_app_iff in HN; tauto).
  assert (Hmd : mem i done = false) by now apply mem_nIn.
  pose proof (h8 i Hi) as Hci. rewrite Hmd, app_nil_r in Hci.
  assert (Hln : m_lnnz s i = length (rowsof PL i k)).
  { rewrite <- colL_length, Hci. unfold colspec. now rewrite map_length. }
  unfold f_elim. rewrite sub_col_flat. fold (colL s Lp i). rewrite Hci.
  assert (Hcap : (length (rowsof PL i k) < y_lnnz y i)%nat).
  { rewrite cap by lia. apply Nat.lt_le_trans with (length (rowsof PL i (S k))).
    - rewrite rowsof_S, app_length. assert (E : mem i (PL k) = true) by (apply mem_In, HP, in_elt). rewrite E. simpl. lia.
    - apply rowsof_mono. lia. }
  assert (Hlt' : Nat.ltb (Lp i + m_lnnz s i) (Lp (S i)) = true) by (apply Nat.ltb_lt; rewrite Lp_S, Hln; lia).
  rewrite Hlt'.
  assert (HndC : NoDup (map fst (colspec Lv PL k i))).
  { unfold colspec. rewrite map_map. cbn [fst]. rewrite map_id. apply rowsof_nd. }
  set (yi := m_Y s i) in *.
  assert (Hii : mem i (PL i) = false). { apply mem_nIn. intros X. apply PL_lt in X; lia. }
  assert (Hlater : forall r, (r < k)%nat -> In i (PL r) -> In r rest).
  { intros r Hr Hir. eapply (topo_later p n Hp k done i rest); eauto. - eapply PL_reach; eauto; lia. - apply PL_lt in Hir; lia. }
  assert (HY' : forall r, (r < k)%nat -> sub_col yi (colspec Lv PL k i) (upd (m_Y s) i 0) r = m_Y s r - Lv r i * yi).
  { intros r Hr. rewrite sub_col_spec by assumption. rewrite entry_colspec.
    replace (Nat.ltb r k) with true by (symmetry; now apply Nat.ltb_lt). cbn [andb].
    destruct (HL r Hr) as (L1 & L2 & L3). unfold upd. destruct (Nat.eqb_spec r i) as [->|Hri].
    - rewrite Hii, L1. fold yi. lra.
    - destruct (mem i (PL r)) eqn:E; [lra|]. apply mem_nIn in E.
      assert (Z : Lv r i = 0). { destruct (Nat.lt_ge_cases r i); [auto|apply L3; [lia|assumption]]. } rewrite Z. lra. }
  assert (Hzero : forall r, (r < k)%nat -> ~ In r rest -> entry (colspec Lv PL k i) r = 0).
  { intros r Hr Hnr. rewrite entry_colspec. destruct (Nat.ltb r k); [|reflexivity]. cbn [andb].
    destruct (mem i (PL r)) eqn:E; [|reflexivity]. apply mem_In in E. exfalso. apply Hnr. now apply Hlater. }
  exists (upd yv i yi). eexists. split; [reflexivity|].
  assert (Hsum : forall (f : nat -> R -> R), (forall j, f j 0 = 0) -> rsum k (fun j => f j (upd yv i yi j)) = rsum k (fun j => f j (yv j)) + f i yi).
  { intros f Hf. rewrite <- (rsum_delta k i (f i yi)) by assumption. rewrite <- rsum_plus. apply rsum_ext. intros j Hj.
    unfold upd. destruct (Nat.eqb_spec j i) as [->|]; [|lra]. rewrite (h5 i Hnd), Hf. lra. }
  assert (Hpos : forall j, (j < k)%nat -> j <> i -> (Lp j + m_lnnz s j <= Lp i + m_lnnz s i \/ Lp i + m_lnnz s i < Lp j)%nat).
  { intros j Hj Hji. assert (Hlj : (m_lnnz s j <= y_lnnz y j)%nat).
    { rewrite <- colL_length, (h8 j Hj), app_length. unfold colspec. rewrite map_length.
      apply Nat.le_trans with (length (rowsof PL j (S k))).
      - rewrite rowsof_S, app_length. destruct (mem j done) eqn:E; [|simpl; lia].
        assert (E2 : mem j (PL k) = true). { apply mem_In, HP. apply mem_In in E. rewrite in_app_iff. now left. } rewrite E2. simpl. lia.
      - rewrite cap by lia. apply rowsof_mono. lia. }
    destruct (Nat.lt_ge_cases j i) as [L|L].
    - left. assert (Lp (S j) <= Lp i)%nat by (apply Lp_mono; lia). rewrite Lp_S in H. lia.
    - right. assert (Lp (S i) <= Lp j)%nat by (apply Lp_mono; lia). rewrite Lp_S in H. lia. }
  constructor; cbn [m_D m_Y m_lnnz m_flag m_Li m_Lx].
  - intros r Hr. rewrite HY', h1 by assumption. rewrite (Hsum (fun j v => Lv r j * v)) by (intros; lra). lra.
  - intros r Hr. rewrite in_app_iff in Hr. rewrite sub_col_spec by assumption. destruct Hr as [Hr|[<-|[]]].
    + assert (r <> i) by congruence. rewrite upd_other, h2 by assumption. rewrite Hzero; [lra| apply Hlt; rewrite in_app_iff; auto|].
      intros X. clear - HN Hr X. induction done as [|a d IH]; cbn [app] in HN; [inversion Hr|]. inversion HN; subst. destruct Hr as [->|Hr]; [|auto].
      apply H1. rewrite in_app_iff. right. now right.
    + rewrite upd_same, entry_colspec, Hii, andb_false_r. lra.
  - intros r Hr Hnp. rewrite sub_col_spec by assumption. rewrite upd_other, h3, Hzero; auto; try lra.
    + intros X; apply Hnp; rewrite in_app_iff; right; now right.
    + intros ->. apply Hnp, in_elt.
  - rewrite sub_col_spec by assumption. rewrite upd_other, h4, entry_colspec by lia. rewrite Nat.ltb_irrefl. simpl. lra.
  - intros j Hj. rewrite in_app_iff in Hj. simpl in Hj. rewrite upd_other by (intros ->; tauto). apply h5. tauto.
  - rewrite upd_same, h6, (Hsum (fun j v => v * v / m_D s0 j)) by (intros; unfold Rdiv; lra). rewrite (h7 i) by lia. unfold Rdiv. lra.
  - intros j Hj. rewrite upd_other by assumption. auto.
  - intros j Hj. unfold colL. cbn [m_Li m_Lx m_lnnz]. destruct (Nat.eq_dec j i) as [->|Hji].
    + rewrite upd_same. rewrite seq_S, map_app. cbn [map]. rewrite !upd_same.
      assert (E : mem i (done ++ [i]) = true) by (apply mem_In; rewrite in_app_iff; right; now left). rewrite E. f_equal.
      * rewrite <- Hci. unfold colL. apply map_ext_in. intros q Hq. apply in_seq in Hq. rewrite !upd_other by lia. reflexivity.
      * rewrite (h7 i) by lia. reflexivity.
    + rewrite (upd_other _ _ _ j) by assumption. 
      assert (E : mem j (done ++ [i]) = mem j done).
      { destruct (mem j done) eqn:E. - apply mem_In. rewrite in_app_iff. left. now apply mem_In. - apply mem_nIn. rewrite in_app_iff. simpl. apply mem_nIn in E. intuition congruence. }
      rewrite E. rewrite upd_other by assumption. rewrite <- (h8 j Hj). unfold colL. apply map_ext_in. intros q Hq. apply in_seq in Hq.
      pose proof (Hpos j Hj Hji). rewrite !upd_other by lia. reflexivity.
  - assumption.
  - rewrite upd_other by lia. assumption.
Qed.

Lemma f_elims_spec k Lv s0 : (k < n)%nat -> (forall r, (r < k)%nat -> lowrow Lv r) -> forall rest done yv s,
  topo p k (done ++ rest) [] -> NoDup (done ++ rest) -> (forall j, In j (done ++ rest) <-> In j (PL k)) ->
  EIn k Lv s0 (done ++ rest) done yv s ->
  exists yv' s', foldM (f_elim Lp k) rest s = Ok s' /\ EIn k Lv s0 (done ++ rest) (done ++ rest) yv' s'.
Proof.
  intros Hk HL. induction rest as [|i rest IH]; intros done yv s HT HN HP H.
  - exists yv, s. split; [reflexivity|]. rewrite app_nil_r in *. assumption.
  - destruct (f_elim_spec k Lv s0 done i rest yv s Hk HL HT HN HP H) as (yv1 & s1 & E1 & H1).
    cbn [foldM]. rewrite E1. cbn [bind].
    assert (EQ : done ++ i :: rest = (done ++ [i]) ++ rest) by (rewrite <- app_assoc; reflexivity). rewrite EQ in *.
    apply (IH (done ++ [i]) yv1 s1); auto.
Qed.

Variables (sign : nat -> R) (eps delta : R).
Hypothesis Heps : 0 <= eps.
Hypothesis Hdelta : 0 < delta.
Hypothesis Hsign : forall k, (k < n)%nat -> sign k = 1 \/ sign k = -1.

Record NInv (k : nat) (Lv : nat -> nat -> R) (E : nat -> R) (s : num) : Prop := {
  ni_flag : forall j, (j < k)%nat -> (m_flag s j < k)%nat;
  ni_Y : forall j, (j < k)%nat -> m_Y s j = 0;
  ni_col : forall j, (j < k)%nat -> colL s Lp j = colspec Lv PL k j;
  ni_low : forall i, (i < k)%nat -> lowrow Lv i;
  ni_D : forall i, (i < k)%nat -> m_D s i <> 0 /\ regularised (sign i) eps delta (m_D s i - E i) (m_D s i);
  ni_fact : forall i j, (j < k)%nat -> (i <= j)%nat -> rsum k (fun l => Lv i l * m_D s l * Lv j l) = entry (A j) i + (if Nat.eqb i j then E i else 0) }.

Lemma dyn_reg_spec k raw : (k < n)%nat -> regularised (sign k) eps delta raw (dyn_reg (sign k) eps delta raw) /\ dyn_reg (sign k) eps delta raw <> 0.
Proof.
  intros Hk. unfold dyn_reg, regularised. destruct (Rle_dec _ _) as [L|L]; destruct (Hsign k Hk) as [Es|Es]; rewrite Es in *; split; try (right; split; lra); try (left; split; lra); intros Z; lra.
Qed.

Lemma f_row_spec k Lv E s : (k < n)%nat -> NInv k Lv E s ->
  exists Lv' E' s', f_row n A sign eps delta p Lp s k = Ok s' /\ NInv (S k) Lv' E' s'.
Proof.
  intros Hk [h1 h2 h3 h4 h5 h6]. unfold f_row. set (s1 := mkNum (m_D s) (upd (m_Y s) k 0) _ _ _ _).
  destruct (HA k Hk) as [Hnd Hrows].
  destruct (f_entries_spec p n k s1 Hp Hk (A k) [] [] s1) as (pat & s2 & E2 & P).
  { constructor; unfold s1; cbn [m_D m_Y m_lnnz m_flag m_Li m_Lx]; auto.
    - intros j Hj. unfold upd. destruct (Nat.eqb_spec j k); [tauto|]. assert (m_flag s j < k)%nat by (apply h1; lia). simpl. lia.
    - exact I.
    - constructor.
    - intros j [].
    - intros r Hr. unfold upd. destruct (Nat.eqb_spec r k); [reflexivity|]. apply h2. lia.
    - intros j. simpl. split; [tauto|]. intros (_ & i & [] & _). }
  { exact Hnd. }
  { intros r v Hin. split; [eauto|]. apply (ai_reach _ _ _ _ HI k r Hk). apply in_map_iff. exists (r, v). auto. }
  rewrite E2. cbn [bind app] in *. destruct P as [q1 q2 q3 q4 q5 q6 q7 q8 q9 q10 q11].
  set (s3 := mkNum (upd (m_D s2) k (m_Y s2 k)) _ _ _ _ _).
  assert (HP : forall j, In j pat <-> In j (PL k)). { intros j. rewrite q7, (ai_P _ _ _ _ HI) by assumption. reflexivity. }
  assert (Hlnk : m_lnnz s3 k = 0%nat). { unfold s3; cbn [m_lnnz]. rewrite q9. unfold s1; cbn [m_lnnz]. apply upd_same. }
  destruct (f_elims_spec k Lv s3 Hk h4 pat [] (fun _ => 0) s3) as (yv & s4 & E4 & X); auto.
  { constructor; auto.
    - intros r Hr. unfold s3; cbn [m_Y]. rewrite upd_other by lia. rewrite q6 by lia. rewrite rsum_zero; [lra|]. intros; lra.
    - intros r [].
    - intros r Hr Hnr. unfold s3; cbn [m_Y]. rewrite upd_other by lia. rewrite q6 by lia. apply entry_nIn.
      intros Hin. apply Hnr, HP, (ai_P _ _ _ _ HI); auto. split; [assumption|]. exists r. split; [assumption|constructor].
    - unfold s3; cbn [m_Y]. apply upd_same.
    - unfold s3; cbn [m_D]. rewrite upd_same. rewrite q6 by lia. rewrite rsum_zero; [lra|]. intros; unfold Rdiv; lra.
    - intros j Hj. unfold s3, colL. cbn [m_Li m_Lx m_lnnz mem existsb]. rewrite q9, q10, q11, app_nil_r. unfold s1; cbn [m_Li m_Lx m_lnnz].
      rewrite upd_other by lia. apply h3. assumption. }
  cbn [app] in X. rewrite E4. cbn [bind]. destruct X as [g1 g2 g3 g4 g5 g6 g7 g8 g9 g10].
  set (raw := m_D s4 k) in *. set (d := dyn_reg (sign k) eps delta raw).
  set (row := fun j => if Nat.ltb j k then yv j / m_D s3 j else if Nat.eqb j k then 1 else 0).
  exists (upd Lv k row), (upd E k (d - raw)). eexists. split; [reflexivity|].
  assert (HY0 : forall r, (r < k)%nat -> m_Y s4 r = 0).
  { intros r Hr. destruct (mem r pat) eqn:M; [apply g2; now apply mem_In|apply g3; auto; now apply mem_nIn]. }
  assert (HD3 : forall j, (j < k)%nat -> m_D s3 j = m_D s j).
  { intros j Hj. unfold s3; cbn [m_D]. rewrite upd_other by lia. rewrite q8. reflexivity. }
  assert (HD4 : forall j, (j < k)%nat -> m_D s4 j = m_D s j). { intros j Hj. rewrite g7 by lia. auto. }
  assert (Hrowk : forall j, (j < k)%nat -> row j = yv j / m_D s j). { intros j Hj. unfold row. apply Nat.ltb_lt in Hj as Hj'. rewrite Hj', HD3 by assumption. reflexivity. }
  assert (Hrk : row k = 1). { unfold row. rewrite Nat.ltb_irrefl, Nat.eqb_refl. reflexivity. }
  destruct (dyn_reg_spec k raw Hk) as [Hreg Hdnz]. fold d in Hreg, Hdnz.
  constructor; unfold set_D; cbn [m_D m_Y m_lnnz m_flag m_Li m_Lx].
  - intros j Hj. rewrite g9. unfold s3; cbn [m_flag]. destruct (Nat.eq_dec j k) as [->|Hjk].
    + assert (m_flag s2 k = k) by (apply q1; auto). lia.
    + destruct (mem j pat) eqn:M. * apply mem_In in M. assert (m_flag s2 j = k) by (apply q1; [lia|auto]). lia.
      * apply mem_nIn in M. rewrite (q2 j M). unfold s1; cbn [m_flag]. rewrite upd_other by assumption. assert (m_flag s j < k)%nat by (apply h1; lia). lia.
  - intros j Hj. destruct (Nat.eq_dec j k) as [->|]; [assumption|]. apply HY0; lia.
  - intros j Hj. unfold colL. cbn [m_Li m_Lx m_lnnz]. change (map (fun q => (m_Li s4 q, m_Lx s4 q)) (seq (Lp j) (m_lnnz s4 j))) with (colL s4 Lp j).
    unfold colspec. rewrite rowsof_S, map_app. destruct (Nat.eq_dec j k) as [->|Hjk].
    + unfold colL. rewrite g10. cbn [seq map].
      assert (Z : mem k (PL k) = false). { apply mem_nIn. intros X. apply (PL_lt k k) in X; lia. } rewrite Z. rewrite app_nil_r.
      assert (Z2 : rowsof PL k k = []).
      { destruct (rowsof PL k k) as [|a l] eqn:W; [reflexivity|]. exfalso. assert (In a (rowsof PL k k)) by (rewrite W; now left).
        apply rowsof_In in H. destruct H as [H1 H2]. apply mem_In in H2. apply PL_lt in H2; lia. }
      rewrite Z2. reflexivity.
    + rewrite g8 by lia. f_equal.
      * unfold colspec. apply map_ext_in. intros r Hr. apply rowsof_In in Hr. rewrite upd_other by lia. reflexivity.
      * assert (M : mem j pat = mem j (PL k)).
        { destruct (mem j (PL k)) eqn:M. - apply mem_In, HP, mem_In, M. - apply mem_nIn. rewrite HP. now apply mem_nIn. }
        rewrite M. destruct (mem j (PL k)); [|reflexivity]. cbn [map]. rewrite upd_same. unfold row.
        replace (Nat.ltb j k) with true by (symmetry; apply Nat.ltb_lt; lia). reflexivity.
  - intros i Hi. destruct (Nat.eq_dec i k) as [->|Hik].
    + unfold lowrow. rewrite upd_same. split; [assumption|]. split.
      * intros j Hj. unfold row. replace (Nat.ltb j k) with false by (symmetry; apply Nat.ltb_ge; lia).
        replace (Nat.eqb j k) with false by (symmetry; apply Nat.eqb_neq; lia). reflexivity.
      * intros j Hj Hn. rewrite Hrowk by assumption. rewrite g5; [unfold Rdiv; lra|]. now rewrite HP.
    + assert (Hl : lowrow Lv i) by (apply h4; lia). unfold lowrow in *. rewrite upd_other by assumption. exact Hl.
  - intros i Hi. destruct (Nat.eq_dec i k) as [->|Hik].
    + rewrite !upd_same. split; [assumption|]. replace (d - (d - raw)) with raw by lra. assumption.
    + rewrite !upd_other by assumption. rewrite HD4 by lia. apply h5. lia.
  - intros i j Hj Hij. rewrite rsum_S. destruct (Nat.eq_dec j k) as [->|Hjk].
    + rewrite upd_same, Hrk. rewrite upd_same.
      destruct (Nat.eq_dec i k) as [->|Hik].
      * rewrite upd_same, Nat.eqb_refl, upd_same, Hrk.
        rewrite (rsum_ext k _ (fun l => yv l * yv l / m_D s3 l)). { fold raw in g6. unfold raw in *. lra. }
        intros l Hl. rewrite upd_other by lia. rewrite Hrowk, HD4, HD3 by assumption. field. apply h5. lia.
      * rewrite (upd_other Lv k row i) by assumption. replace (Nat.eqb i k) with false by (symmetry; apply Nat.eqb_neq; lia).
        assert (Hi : (i < k)%nat) by lia. destruct (h4 i Hi) as (_ & L2 & _). rewrite (L2 k) by assumption.
        pose proof (g1 i Hi) as G. rewrite HY0 in G by assumption.
        rewrite (rsum_ext k _ (fun l => Lv i l * yv l)); [lra|]. intros l Hl. rewrite upd_other by lia. rewrite HD4, Hrowk by assumption. field. apply h5; lia.
    + rewrite (upd_other Lv k row i), (upd_other Lv k row j) by lia.
      assert (Hi : (i < k)%nat) by lia. destruct (h4 i Hi) as (_ & L2 & _). rewrite (L2 k) by assumption.
      rewrite (upd_other E) by lia. rewrite <- (h6 i j) by lia.
      rewrite (rsum_ext k _ (fun l => Lv i l * m_D s l * Lv j l)); [lra|]. intros l Hl. rewrite upd_other by lia. rewrite HD4 by assumption. reflexivity.
Qed.

Lemma factorize_spec s0 : exists Lv E s, factorize n A sign eps delta y Lp s0 = Ok s /\ NInv n Lv E s.
Proof.
  unfold factorize. fold p.
  assert (G : forall k, (k <= n)%nat -> exists Lv E s, foldM (f_row n A sign eps delta p Lp) (seq 0 k) s0 = Ok s /\ NInv k Lv E s).
  { induction k as [|k IH]; intros Hk.
    - exists (fun _ _ => 0), (fun _ => 0), s0. split; [reflexivity|]. constructor; intros; lia.
    - destruct (IH ltac:(lia)) as (Lv & E & s & F & N). destruct (f_row_spec k Lv E s ltac:(lia) N) as (Lv' & E' & s' & F' & N').
      exists Lv', E', s'. split; [|assumption]. rewrite seq_S, foldM_append, F. cbn [bind foldM]. simpl Nat.add. rewrite F'. reflexivity. }
  apply G. lia.
Qed.

(** ** The triangular solves *)
Section Solve.
Variables (Lv : nat -> nat -> R) (E : nat -> R) (s : num).
Hypothesis HN : NInv n Lv E s.

Lemma colfull j : (j < n)%nat -> map (fun q => (m_Li s q, m_Lx s q)) (seq (Lp j) (Lp (S j) - Lp j)) = colspec Lv PL n j.
Proof.
  intros Hj. rewrite <- (ni_col _ _ _ _ HN j Hj). unfold colL. f_equal. f_equal. rewrite Lp_S, (cap j Hj).
  pose proof (colL_length s j) as X. rewrite (ni_col _ _ _ _ HN j Hj) in X. unfold colspec in X. rewrite map_length in X. lia.
Qed.
Lemma Lv_upper i j : (i < n)%nat -> (i < j)%nat -> Lv i j = 0.
Proof. intros Hi Hj. destruct (ni_low _ _ _ _ HN i Hi) as (_ & X & _). auto. Qed.
Lemma Lv_diag i : (i < n)%nat -> Lv i i = 1.
Proof. intros Hi. destruct (ni_low _ _ _ _ HN i Hi) as (X & _). auto. Qed.
Lemma entry_col j r : (j < n)%nat -> (r < n)%nat -> entry (colspec Lv PL n j) r = if Nat.eqb r j then 0 else Lv r j.
Proof.
  intros Hj Hr. rewrite entry_colspec. replace (Nat.ltb r n) with true by (symmetry; now apply Nat.ltb_lt). cbn [andb].
  destruct (Nat.eqb_spec r j) as [->|Hrj].
  - destruct (mem j (PL j)) eqn:M; [|reflexivity]. apply mem_In, PL_lt in M; lia.
  - destruct (mem j (PL r)) eqn:M; [reflexivity|]. apply mem_nIn in M. destruct (ni_low _ _ _ _ HN r Hr) as (_ & L2 & L3).
    destruct (Nat.lt_ge_cases r j); [rewrite L2; auto|]. rewrite L3; auto; lia.
Qed.

(** A column subtraction never reads the entry x[j] after changing it: rows are below j. *)
Lemma fwd_flat j l x : ~ In j (map (m_Li s) l) ->
  fold_left (fun x q => upd x (m_Li s q) (x (m_Li s q) - m_Lx s q * x j)) l x = sub_col (x j) (map (fun q => (m_Li s q, m_Lx s q)) l) x.
Proof.
  unfold sub_col. assert (G : forall c x, x j = c -> ~ In j (map (m_Li s) l) ->
    fold_left (fun x q => upd x (m_Li s q) (x (m_Li s q) - m_Lx s q * x j)) l x =
    fold_left (fun Y e => upd Y (fst e) (Y (fst e) - snd e * c)) (map (fun q => (m_Li s q, m_Lx s q)) l) x).
  { clear x. induction l as [|a l IH]; intros c x Hc Hn; [reflexivity|]. cbn [fold_left map fst snd] in *. simpl in Hn. rewrite Hc. apply IH; [|tauto].
    rewrite upd_other; [assumption|]. intros X. apply Hn. left. congruence. }
  intros Hn. apply G; auto.
Qed.
Lemma rows_gt j q : (j < n)%nat -> In q (seq (Lp j) (Lp (S j) - Lp j)) -> (j < m_Li s q < n)%nat.
Proof.
  intros Hj Hq. assert (In (m_Li s q, m_Lx s q) (colspec Lv PL n j)).
  { rewrite <- colfull by assumption. apply in_map_iff. exists q. auto. }
  unfold colspec in H. apply in_map_iff in H. destruct H as (r & Er & Hr). injection Er as <- _.
  apply rowsof_In in Hr. destruct Hr as [H1 H2]. apply mem_In, PL_lt in H2; auto.
Qed.
Lemma fwd_col_spec x j r : (j < n)%nat -> (r < n)%nat -> fwd_col s Lp x j r = if Nat.eqb r j then x j else x r - Lv r j * x j.
Proof.
  intros Hj Hr. unfold fwd_col. rewrite fwd_flat.
  2:{ intros Hin. apply in_map_iff in Hin. destruct Hin as (q & Eq & Hq). apply rows_gt in Hq; auto. lia. }
  rewrite colfull by assumption. rewrite sub_col_spec, entry_col by (auto; unfold colspec; rewrite map_map; cbn [fst]; rewrite map_id; apply rowsof_nd).
  destruct (Nat.eqb_spec r j) as [->|]; lra.
Qed.
Lemma fwd_spec b : forall k, (k <= n)%nat -> forall r, (r < n)%nat ->
  b r = fold_left (fwd_col s Lp) (seq 0 k) b r + rsum k (fun j => if Nat.eqb j r then 0 else Lv r j * fold_left (fwd_col s Lp) (seq 0 k) b j).
Proof.
  induction k as [|k IH]; intros Hk r Hr; [simpl; lra|].
  rewrite seq_S, fold_left_app. cbn [fold_left]. simpl Nat.add. set (X := fold_left (fwd_col s Lp) (seq 0 k) b) in *.
  rewrite rsum_S. rewrite (fwd_col_spec X k r) by lia. rewrite (fwd_col_spec X k k), Nat.eqb_refl by lia.
  rewrite (rsum_ext k _ (fun j => if Nat.eqb j r then 0 else Lv r j * X j)).
  - rewrite (IH ltac:(lia) r Hr) at 1. rewrite (Nat.eqb_sym k r). destruct (Nat.eqb_spec r k) as [->|]; lra.
  - intros j Hj. destruct (Nat.eqb j r); [reflexivity|]. rewrite fwd_col_spec by lia.
    replace (Nat.eqb j k) with false by (symmetry; apply Nat.eqb_neq; lia). rewrite (Lv_upper j k) by lia. lra.
Qed.
Lemma fwd_final b : forall r, (r < n)%nat -> rsum n (fun j => Lv r j * fold_left (fwd_col s Lp) (seq 0 n) b j) = b r.
Proof.
  intros r Hr. rewrite (fwd_spec b n (le_n n) r Hr) at 1. set (X := fold_left _ _ b).
  rewrite <- (rsum_delta n r (X r)) by assumption. rewrite <- rsum_plus. apply rsum_ext. intros j Hj.
  destruct (Nat.eqb_spec j r) as [->|]; [rewrite Lv_diag by assumption; lra|lra].
Qed.
Lemma div_spec x : forall k, (k <= n)%nat -> forall r, fold_left (fun x j => upd x j (x j / m_D s j)) (seq 0 k) x r = if Nat.ltb r k then x r / m_D s r else x r.
Proof.
  induction k as [|k IH]; intros Hk r; [reflexivity|]. rewrite seq_S, fold_left_app. cbn [fold_left]. simpl Nat.add. unfold upd at 1.
  rewrite !IH by lia. destruct (Nat.eqb_spec r k) as [->|Hrk].
  - rewrite Nat.ltb_irrefl. replace (Nat.ltb k (S k)) with true by (symmetry; apply Nat.ltb_lt; lia). reflexivity.
  - destruct (Nat.ltb_spec r k), (Nat.ltb_spec r (S k)); try lia; reflexivity.
Qed.
Lemma bwd_flat j l : forall x, ~ In j (map (m_Li s) l) -> forall r,
  fold_left (fun x q => upd x j (x j - m_Lx s q * x (m_Li s q))) l x r =
  if Nat.eqb r j then x j - fold_right Rplus 0 (map (fun e => snd e * x (fst e)) (map (fun q => (m_Li s q, m_Lx s q)) l)) else x r.
Proof.
  induction l as [|a l IH]; intros x Hn r; cbn [fold_left map fold_right fst snd] in *.
  - destruct (Nat.eqb_spec r j) as [->|]; lra.
  - simpl in Hn. rewrite IH by tauto. destruct (Nat.eqb_spec r j) as [->|]; [|now rewrite upd_other].
    rewrite upd_same. rewrite (map_ext_in _ (fun e => snd e * x (fst e))).
    + lra.
    + intros [u v] Hin. apply in_map_iff in Hin. destruct Hin as (q & Eq & Hq). injection Eq as <- <-. cbn [fst snd].
      rewrite upd_other; [reflexivity|]. intros Z. apply Hn. right. rewrite <- Z. now apply in_map.
Qed.
Lemma sum_filter (f : nat -> R) g k : fold_right Rplus 0 (map f (filter g (seq 0 k))) = rsum k (fun r => if g r then f r else 0).
Proof.
  induction k; [reflexivity|]. rewrite seq_S, filter_app, map_app. simpl rsum. rewrite <- IHk.
  assert (G : forall l a, fold_right Rplus a l = fold_right Rplus 0 l + a) by (induction l as [|z l IHl]; intros a; simpl; [lra| rewrite IHl; lra]).
  rewrite fold_right_app, G. f_equal. simpl. destruct (g k); simpl; lra.
Qed.
Lemma bwd_col_spec x j r : (j < n)%nat -> bwd_col s Lp x j r = if Nat.eqb r j then x j - rsum n (fun i => if Nat.eqb i j then 0 else Lv i j * x i) else x r.
Proof.
  intros Hj. unfold bwd_col. rewrite bwd_flat.
  2:{ intros Hin. apply in_map_iff in Hin. destruct Hin as (q & Eq & Hq). apply rows_gt in Hq; auto. lia. }
  rewrite colfull by assumption. destruct (Nat.eqb r j); [|reflexivity]. f_equal. unfold colspec. rewrite map_map. cbn [fst snd].
  unfold rowsof. rewrite sum_filter. apply rsum_ext. intros i Hi.
  pose proof (entry_col j i Hj Hi) as X. rewrite entry_colspec in X. replace (Nat.ltb i n) with true in X by (symmetry; now apply Nat.ltb_lt). cbn [andb] in X.
  destruct (mem j (PL i)), (Nat.eqb i j); rewrite ?X; try lra; rewrite <- X; lra.
Qed.
Lemma bwd_spec u : forall k, (k <= n)%nat -> let X := fold_left (bwd_col s Lp) (rev (seq (n - k) k)) u in
  (forall r, (r < n - k)%nat -> X r = u r) /\
  (forall r, (n - k <= r < n)%nat -> rsum n (fun i => Lv i r * (if Nat.ltb i (n - k) then 0 else X i)) = u r).
Proof.
  induction k as [|k IH]; intros Hk; cbv zeta.
  - simpl. split; [reflexivity|]. intros r Hr. lia.
  - replace (seq (n - S k) (S k)) with ((n - S k)%nat :: seq (n - k) k). 2:{ cbn [seq]. f_equal. f_equal. lia. }
    cbn [rev]. rewrite fold_left_app. cbn [fold_left]. destruct (IH ltac:(lia)) as [I1 I2]. set (X := fold_left _ (rev (seq (n - k) k)) u) in *.
    set (j := (n - S k)%nat) in *. split.
    + intros r Hr. rewrite bwd_col_spec by lia. replace (Nat.eqb r j) with false by (symmetry; apply Nat.eqb_neq; lia). apply I1. lia.
    + intros r Hr. destruct (Nat.eq_dec r j) as [->|Hrj].
      * rewrite <- (I1 j) by lia. pose proof (bwd_col_spec X j j ltac:(lia)) as B. rewrite Nat.eqb_refl in B.
        rewrite (rsum_ext n _ (fun i => (if Nat.eqb i j then bwd_col s Lp X j j else 0) + (if Nat.eqb i j then 0 else Lv i j * X i))).
        -- rewrite rsum_plus, rsum_delta by lia. lra.
        -- intros i Hi. destruct (Nat.eqb_spec i j) as [->|Hij].
           ++ rewrite Nat.ltb_irrefl, Lv_diag by lia. lra.
           ++ destruct (Nat.ltb_spec i j). { rewrite (Lv_upper i j) by lia. lra. }
              rewrite bwd_col_spec by lia. apply Nat.eqb_neq in Hij. rewrite Hij. lra.
      * rewrite <- (I2 r) by lia. apply rsum_ext. intros i Hi. destruct (Nat.eq_dec i j) as [->|Hij].
        -- rewrite (Lv_upper j r) by lia. lra.
        -- destruct (Nat.ltb_spec i j), (Nat.ltb_spec i (n - k)); try lia; try lra.
           rewrite bwd_col_spec by lia. apply Nat.eqb_neq in Hij. rewrite Hij. lra.
Qed.

Lemma ldl_solve_spec b i : (i < n)%nat -> mulv n (LDLt n Lv (m_D s)) (ldl_solve n s Lp b) i = b i.
Proof.
  intros Hi. unfold ldl_solve. set (w := fold_left (fwd_col s Lp) (seq 0 n) b). set (u := fold_left _ (seq 0 n) w).
  pose proof (bwd_spec u n (le_n n)) as [_ B]. cbv zeta in B. rewrite Nat.sub_diag in B. set (x := fold_left (bwd_col s Lp) (rev (seq 0 n)) u) in *.
  assert (Hw : rsum n (fun j => Lv i j * w j) = b i) by (apply fwd_final; assumption). rewrite <- Hw. clear Hw.
  unfold mulv, LDLt.
  rewrite (rsum_ext n _ (fun j => rsum n (fun k => Lv i k * m_D s k * (Lv j k * x j)))).
  2:{ intros j Hj. rewrite <- rsum_scal_r. apply rsum_ext. intros; lra. }
  rewrite rsum_swap. apply rsum_ext. intros k Hk. rewrite (rsum_scal n (Lv i k * m_D s k) (fun j => Lv j k * x j)).
  assert (B' : rsum n (fun j => Lv j k * x j) = u k). { rewrite <- (B k) by lia. apply rsum_ext. intros. simpl. lra. }
  rewrite B'. unfold u. rewrite div_spec by lia. replace (Nat.ltb k n) with true by (symmetry; now apply Nat.ltb_lt).
  field. apply (ni_D _ _ _ _ HN). assumption.
Qed.
End Solve.
End Fact.

Lemma AInv_pattern A A0 n PL y : (forall k, (k < n)%nat -> map fst (A k) = map fst (A0 k)) -> AInv A0 n PL y -> AInv A n PL y.
Proof.
  intros HP [h1 h2 h3 h4 h5 h6]. constructor; auto.
  - intros c i Hc Hi. rewrite HP in Hi by assumption. auto.
  - intros c j Hc. rewrite h3 by assumption. unfold inP. rewrite HP by assumption. reflexivity.
Qed.
Lemma ldl_run_correct n A0 A sign eps delta y0 s0 b : upper n A -> (forall k, (k < n)%nat -> map fst (A k) = map fst (A0 k)) -> 0 <= eps -> 0 < delta ->
  (forall k, (k < n)%nat -> sign k = 1 \/ sign k = -1) ->
  exists x s L E, ldl_run n A0 A sign eps delta y0 s0 b = Ok (x, s) /\ unit_lower n L /\
    (forall i j, (i < n)%nat -> (j < n)%nat -> LDLt n L (m_D s) i j = symm A i j + (if Nat.eqb i j then E i else 0)) /\
    (forall k, (k < n)%nat -> m_D s k <> 0 /\ regularised (sign k) eps delta (m_D s k - E k) (m_D s k)) /\
    (forall i, (i < n)%nat -> mulv n (LDLt n L (m_D s)) x i = b i).
Proof.
  intros HA HP He Hd Hs. unfold ldl_run.
  assert (HA0 : upper n A0).
  { intros k Hk. destruct (HA k Hk) as [X1 X2]. split; [rewrite <- HP; assumption|]. intros r v Hin.
    assert (In r (map fst (A k))) by (rewrite HP by assumption; apply in_map_iff; exists (r, v); auto).
    apply in_map_iff in H. destruct H as ([r' v'] & <- & H). apply X2 in H. exact H. }
  destruct (analyze_spec n A0 y0 HA0) as (PL & y & E1 & I). rewrite E1. cbn [bind]. apply (AInv_pattern A) in I; [|assumption].
  destruct (factorize_spec n A PL y HA I sign eps delta He Hd Hs s0) as (Lv & E & s & E2 & N).
  rewrite E2. cbn [bind]. exists (ldl_solve n s (Lp_of (y_lnnz y)) b), s, Lv, E. split; [reflexivity|].
  pose proof N as [_ _ _ h4 h5 h6]. split; [|split; [|split]].
  - intros i j Hi Hj. destruct (h4 i Hi) as (L1 & L2 & _). split; [intros <-; assumption|apply L2].
  - intros i j Hi Hj. unfold LDLt, symm. destruct (Nat.leb_spec i j) as [L|L].
    + apply h6; auto.
    + rewrite (rsum_ext n _ (fun k => Lv j k * m_D s k * Lv i k)) by (intros; lra). rewrite h6 by lia.
      rewrite (Nat.eqb_sym j i). destruct (Nat.eqb_spec i j); [lia|]. reflexivity.
  - assumption.
  - intros i Hi. eapply ldl_solve_spec; eauto.
Qed.

Lemma unit_lower_inj n L v : unit_lower n L -> (forall i, (i < n)%nat -> rsum n (fun j => L i j * v j) = 0) -> forall i, (i < n)%nat -> v i = 0.
Proof.
  intros HL H. assert (G : forall m, (m <= n)%nat -> forall i, (i < m)%nat -> v i = 0).
  { induction m as [|m IH]; intros Hm i Hi; [lia|]. destruct (Nat.eq_dec i m) as [->|]; [|apply IH; lia].
    rewrite <- (H m) by lia. rewrite (rsum_single n m); [|lia|].
    - destruct (HL m m) as [X _]; try lia. rewrite (X eq_refl); lra.
    - intros j Hj Hne. destruct (Nat.lt_ge_cases j m). { rewrite (IH ltac:(lia) j) by assumption. lra. }
      destruct (HL m j) as [_ X]; try lia. rewrite X by lia. lra. }
  intros i Hi. apply (G n); lia.
Qed.
Lemma unit_upper_inj n L v : unit_lower n L -> (forall j, (j < n)%nat -> rsum n (fun i => L i j * v i) = 0) -> forall i, (i < n)%nat -> v i = 0.
Proof.
  intros HL H. assert (G : forall m, forall i, (i < n)%nat -> (n - m <= i)%nat -> v i = 0).
  { induction m as [|m IH]; intros i Hi Him; [lia|]. destruct (Nat.eq_dec i (n - S m)) as [->|]; [|apply IH; lia].
    set (q := (n - S m)%nat) in *. rewrite <- (H q) by lia. rewrite (rsum_single n q); [|lia|].
    - destruct (HL q q) as [X _]; try lia. rewrite (X eq_refl); lra.
    - intros j Hj Hne. destruct (Nat.lt_ge_cases q j). { rewrite (IH j) by lia. lra. }
      destruct (HL j q) as [_ X]; try lia. rewrite X by lia. lra. }
  intros i Hi. apply (G n); lia.
Qed.
Lemma LDLt_mulv n L D x i : mulv n (LDLt n L D) x i = rsum n (fun k => L i k * (D k * rsum n (fun j => L j k * x j))).
Proof.
  unfold mulv, LDLt. rewrite (rsum_ext n _ (fun j => rsum n (fun k => L i k * D k * (L j k * x j)))).
  2:{ intros j Hj. rewrite <- rsum_scal_r. apply rsum_ext. intros; lra. }
  rewrite rsum_swap. apply rsum_ext. intros k Hk. rewrite (rsum_scal n (L i k * D k) (fun j => L j k * x j)). lra.
Qed.
Lemma LDLt_inj n L D x x' : unit_lower n L -> (forall k, (k < n)%nat -> D k <> 0) ->
  (forall i, (i < n)%nat -> mulv n (LDLt n L D) x i = mulv n (LDLt n L D) x' i) -> forall i, (i < n)%nat -> x i = x' i.
Proof.
  intros HL HD H. set (d := fun i => x i - x' i).
  assert (E : forall i, (i < n)%nat -> d i = 0); [|intros i Hi; specialize (E i Hi); unfold d in E; lra].
  apply (unit_upper_inj n L); auto. intros k Hk.
  assert (Z : D k * rsum n (fun j => L j k * d j) = 0).
  { apply (unit_lower_inj n L (fun k => D k * rsum n (fun j => L j k * d j))); auto. intros i Hi.
    specialize (H i Hi). rewrite !LDLt_mulv in H.
    rewrite (rsum_ext n _ (fun k => L i k * (D k * rsum n (fun j => L j k * x j)) - L i k * (D k * rsum n (fun j => L j k * x' j)))).
    - rewrite rsum_minus. lra.
    - intros l Hl. unfold d. rewrite (rsum_ext n _ (fun j => L j l * x j - L j l * x' j)) by (intros; lra). rewrite rsum_minus. lra. }
  apply Rmult_integral in Z. destruct Z; [exfalso; eapply HD; eauto|assumption].
Qed.

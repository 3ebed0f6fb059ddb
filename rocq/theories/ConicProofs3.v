(** Proofs about the modelling layer, part 3: meaning of the compiled rows. *)
From Coq Require Import String Reals List Arith Bool Lra Lia.
From Verif Require Import ExprsModel ExprsProofs ConicModel ConicSpec ConicProofs ConicProofs2.
Import ListNotations.
Open Scope R_scope.

Lemma in_soc_ext v v' n : (1 <= n)%nat -> (forall j, (j < n)%nat -> v j = v' j) -> in_soc v n <-> in_soc v' n.
Proof.
  intros Hn H. unfold in_soc. rewrite (H 0%nat) by lia.
  replace (map (fun j => v j * v j) (seq 1 (n - 1))) with (map (fun j => v' j * v' j) (seq 1 (n - 1))); [reflexivity|].
  apply map_ext_in. intros j Hj. apply in_seq in Hj. rewrite H by lia. reflexivity.
Qed.

Definition rowat (b : list rowfn) (x : nat -> R) (j : nat) : R := nth j b (fun _ => 0) x.

Lemma in_socs_blocks x : forall blocks v start,
  (forall b, In b blocks -> (1 <= List.length b)%nat) ->
  (forall j, (j < List.length (concat blocks))%nat -> v (start + j)%nat = rowat (concat blocks) x j) ->
  in_socs v start (map (@List.length rowfn) blocks) <->
  (forall b, In b blocks -> in_soc (rowat b x) (List.length b)).
Proof.
  induction blocks as [|b bs IH]; intros v start Hne H; cbn [map in_socs].
  - split; [intros _ b []|auto].
  - cbn [concat] in H. rewrite app_length in H.
    rewrite (in_soc_ext (fun j => v (start + j)%nat) (rowat b x)).
    2:{ apply Hne; simpl; auto. }
    2:{ intros j Hj. rewrite H by lia. unfold rowat. rewrite app_nth1 by lia. reflexivity. }
    rewrite IH.
    + split.
      * intros [A B] b' [<-|Hb]; auto.
      * intros A; split; [apply A; simpl; auto|]. intros; apply A; simpl; auto.
    + intros; apply Hne; simpl; auto.
    + intros j Hj. replace (start + List.length b + j)%nat with (start + (List.length b + j))%nat by lia.
      rewrite H by lia. unfold rowat. rewrite app_nth2 by lia. f_equal. f_equal. lia.
Qed.

Lemma rot_iff x c (r2 : rowfn) :
  in_soc (rowat [ (fun x => 1 + x c); (fun x => -1 + x c); r2 ] x) 3 <-> (r2 x / 2) * (r2 x / 2) <= x c.
Proof.
  unfold in_soc, rowat. simpl. set (t := x c). set (u := r2 x).
  replace ((-1 + t) * (-1 + t) + (u * u + 0)) with ((t - 1)^2 + u^2) by ring.
  assert (P : 0 <= (t - 1)^2 + u^2) by (apply Rplus_le_le_0_compat; apply pow2_ge_0).
  split; intros H.
  - assert (0 <= 1 + t) by (eapply Rle_trans; [apply sqrt_pos|exact H]).
    apply Rsqr_incr_1 in H; [|apply sqrt_pos|assumption]. rewrite Rsqr_sqrt in H by assumption.
    unfold Rsqr in H. nra.
  - assert (0 <= t) by nra.
    rewrite <- (sqrt_Rsqr (1 + t)) by lra. apply sqrt_le_1_alt. unfold Rsqr. nra.
Qed.

Lemma sumR_map_seq_nth {A} (f : A -> R) (d : A) l k :
  sumR (map (fun j => f (nth (j - k) l d)) (seq k (List.length l))) = sumR (map f l).
Proof.
  revert k. induction l as [|a l IH]; intros k; simpl; [reflexivity|].
  unfold sumR in *; simpl. rewrite Nat.sub_diag. f_equal.
  rewrite <- (IH (S k)). f_equal. apply map_ext_in. intros j Hj. apply in_seq in Hj.
  destruct (j - k)%nat as [|m] eqn:E; [lia|]. replace (j - S k)%nat with m by lia. reflexivity.
Qed.

Lemma soc_iff x q :
  in_soc (rowat (block_soc q) x) (List.length (block_soc q)) <->
  sqrt (sq x (q_terms q)) <= x (nth 0 (q_extra q) 0%nat).
Proof.
  unfold in_soc. assert (E0 : rowat (block_soc q) x 0 = x (nth 0 (q_extra q) 0%nat)) by reflexivity. rewrite E0.
  replace (sumR _) with (sq x (q_terms q)); [reflexivity|].
  unfold block_soc. simpl List.length. rewrite map_length.
  replace (S (List.length (q_terms q)) - 1)%nat with (List.length (q_terms q)) by lia.
  unfold sq. rewrite <- (sumR_map_seq_nth _ (0, le_of_const 0) (q_terms q) 1).
  f_equal. apply map_ext_in. intros j Hj. apply in_seq in Hj. destruct j as [|j]; [lia|].
  unfold rowat. cbn [nth]. rewrite Nat.sub_succ, Nat.sub_0_r.
  rewrite (nth_indep _ (fun _ => 0) (fun x => aval x (snd (0, le_of_const 0)))) by (rewrite map_length; lia).
  rewrite (map_nth (fun t x => aval x (snd t))). reflexivity.
Qed.

(** Meaning of the compiled rows, problem level. *)
Definition lin_ok (x : nat -> R) (p : problem) : Prop :=
  (forall e, In e (p_leq p) -> row_lin e x = 0) /\
  (forall e, In e (p_lineq p) -> 0 <= row_lin e x).
Definition q_ok (x : nat -> R) (q : quadexpr) : Prop :=
  tdot x (q_extra q) (q_terms q) + aval x (q_lexpr q) <= 0 /\
  (forall k t, nth_error (q_terms q) k = Some t -> aval x (snd t) * aval x (snd t) <= x (nth k (q_extra q) 0%nat)).
Definition soc_ok (x : nat -> R) (q : quadexpr) : Prop :=
  x (nth 0 (q_extra q) 0%nat) + aval x (q_lexpr q) <= 0 /\
  sqrt (sq x (q_terms q)) <= x (nth 0 (q_extra q) 0%nat).
Definition bin_ok (x : nat -> R) (p : problem) : Prop :=
  forall i c, nth_error (p_bin p) i = Some c -> - nth i (p_binlb p) 0 <= x c <= nth i (p_binub p) 0.
Definition objq_ok (x : nat -> R) (p : problem) : Prop :=
  forall k t, nth_error (q_terms (p_obj p)) k = Some t ->
    aval x (snd t) * aval x (snd t) <= x (nth k (q_extra (p_obj p)) 0%nat).
Definition approx_ok (thr : R) (iter : nat) (x : nat -> R) (p : problem) : Prop :=
  (forall q, In q (p_qineq p) -> q_trust q = true -> 0 <= qlinear p q x + thr ^ iter) /\
  (forall q, In q (p_qineq p) -> q_soft q = true -> qlinear p q x * qlinear p q x <= x (last (q_extra q) 0%nat)).

Lemma In_mapi {A B} (f : nat -> A -> B) l b :
  In b (mapi f 0 l) <-> exists k a, nth_error l k = Some a /\ b = f k a.
Proof.
  split.
  - intros H. apply In_nth_error in H as [k H]. rewrite mapi_nth_error in H.
    destruct (nth_error l k) eqn:E; [|discriminate]. injection H as <-. eauto.
  - intros (k & a & H & ->). apply (nth_error_In _ k). rewrite mapi_nth_error, H. reflexivity.
Qed.

Lemma nth_error_Some_iff_len {A B} (l : list A) (l' : list B) k a :
  List.length l = List.length l' -> nth_error l k = Some a -> exists b, nth_error l' k = Some b.
Proof.
  intros Hl H. destruct (nth_error l' k) eqn:E; [eauto|]. apply nth_error_None in E.
  assert (k < List.length l)%nat by (apply nth_error_Some; congruence). lia.
Qed.

Lemma lin_rows_iff thr iter warm p x :
  (forall j, (j < b_nlineq p warm)%nat -> 0 <= rowat (lin_rows thr iter warm p) x j) <->
  (forall r, In r (lin_rows thr iter warm p) -> 0 <= r x).
Proof.
  rewrite <- (lin_rows_len thr iter warm p). split.
  - intros H r Hr. apply In_nth_error in Hr as [j Hj].
    assert (j < List.length (lin_rows thr iter warm p))%nat by (apply nth_error_Some; congruence).
    specialize (H j H0). unfold rowat in H. rewrite (nth_error_nth _ _ _ Hj) in H. assumption.
  - intros H j Hj. unfold rowat. apply H. apply nth_In; assumption.
Qed.

Lemma feasible_iff thr w iter warm p x :
  wf_problem p ->
  std_feasible (b_nlineq p warm) (b_q p warm) (cp_build thr w iter warm p) x <->
  lin_ok x p /\ bin_ok x p /\ (forall q, In q (p_qineq p) -> q_ok x q) /\
  (forall q, In q (p_soc p) -> soc_ok x q) /\ objq_ok x p /\ (warm = false -> approx_ok thr iter x p).
Proof.
  intros W. destruct (build_spec thr w iter warm p W) as (Hok & Hn & Hme & Hm & HA & HG).
  cbv zeta in *. set (s := cp_build thr w iter warm p) in *.
  unfold std_feasible.
  assert (E1 : (forall r, (r < s_me s)%nat -> matvec (s_A s) x r = s_b s r)
               <-> (forall e, In e (p_leq p) -> row_lin e x = 0)).
  { split.
    - intros H e He. apply In_nth_error in He as [k Hk]. specialize (HA x k e Hk).
      assert (k < List.length (p_leq p))%nat by (apply nth_error_Some; congruence).
      rewrite H in HA by lia. lra.
    - intros H r Hr. rewrite Hme in Hr. destruct (nth_error (p_leq p) r) as [e|] eqn:E.
      + specialize (HA x r e E). rewrite (H e) in HA by (eapply nth_error_In; eassumption). lra.
      + apply nth_error_None in E. lia. }
  assert (E2 : (forall r, (r < b_nlineq p warm)%nat -> 0 <= slack s x r)
               <-> (forall r, In r (lin_rows thr iter warm p) -> 0 <= r x)).
  { rewrite <- lin_rows_iff. unfold rowat.
    split; intros H j Hj; specialize (H j Hj); rewrite HG in *; try lia;
      unfold all_rows in *; rewrite app_nth1 in * by (rewrite lin_rows_len; assumption); assumption. }
  assert (E3 : in_socs (slack s x) (b_nlineq p warm) (b_q p warm)
               <-> (forall b, In b (soc_blocks warm p) -> in_soc (rowat b x) (List.length b))).
  { rewrite <- soc_blocks_lens. apply in_socs_blocks.
    - intros b Hb. apply (in_map (@List.length rowfn)) in Hb. rewrite soc_blocks_lens in Hb.
      unfold b_q in Hb. apply in_app_or in Hb as [Hb|Hb].
      + apply repeat_spec in Hb. lia.
      + apply in_map_iff in Hb as (q & <- & _). lia.
    - intros j Hj. rewrite HG.
      + unfold all_rows, rowat. rewrite app_nth2 by (rewrite lin_rows_len; lia). rewrite lin_rows_len.
        f_equal. f_equal. lia.
      + rewrite Hm, <- soc_blocks_lens, sumn_concat. lia. }
  rewrite E1, E2, E3. clear E1 E2 E3.
  destruct W as [Wb Wl Wu Weq Wli Wq Ws [Wo Wo2]].
  unfold lin_rows, soc_blocks.
  split.
  - intros (A & B & C).
    split; [split; [exact A|]|].
    { intros e He. apply B. apply in_or_app; right; apply in_or_app; left. apply in_map; assumption. }
    split.
    { intros i c Hi.
      assert (R1 : In (rows_bin p i c) (mapi (rows_bin p) 0 (p_bin p))) by (apply In_mapi; eauto).
      assert (T : forall r, In r (rows_bin p i c) -> 0 <= r x).
      { intros r Hr. apply B. apply in_or_app; left. apply in_concat. eauto. }
      assert (T1 := T _ (or_introl eq_refl)). assert (T2 := T _ (or_intror (or_introl eq_refl))).
      simpl in T1, T2. lra. }
    split.
    { intros q Hq. split.
      - assert (H : 0 <= row_qlin q x).
        { apply B. do 2 (apply in_or_app; right). apply in_or_app; left. apply in_map; assumption. }
        unfold row_qlin in H. lra.
      - intros k t Hk. assert (H : in_soc (rowat (rows_rot (nth k (q_extra q) 0%nat) (snd t)) x) 3).
        { apply (C (rows_rot (nth k (q_extra q) 0%nat) (snd t))).
          do 2 (apply in_or_app; right). apply in_or_app; left.
          apply in_flat_map. exists q. split; [assumption|]. unfold blocks_qquad. apply In_mapi.
          exists k, t. auto. }
        unfold rows_rot in H. apply rot_iff in H. lra. }
    split.
    { intros q Hq. split.
      - assert (H : 0 <= row_soclin q x).
        { apply B. do 3 (apply in_or_app; right). apply in_or_app; left. apply in_map; assumption. }
        unfold row_soclin in H. lra.
      - apply soc_iff. apply C. do 3 (apply in_or_app; right). apply in_map; assumption. }
    split.
    { intros k t Hk. destruct (nth_error_Some_iff_len _ (q_extra (p_obj p)) _ _ (eq_sym Wo2) Hk) as [c Hc].
      assert (H : in_soc (rowat (rows_objq p k c) x) 3).
      { apply (C (rows_objq p k c)). apply in_or_app; left. apply In_mapi. eauto. }
      unfold rows_objq, rows_rot in H. rewrite (nth_error_nth _ _ _ Hk) in H. apply rot_iff in H.
      rewrite (nth_error_nth _ _ _ Hc). lra. }
    intros ->. split.
    { intros q Hq Ht. apply (B (row_trust p thr iter q)). do 4 (apply in_or_app; right).
      apply in_map. apply filter_In; auto. }
    { intros q Hq Ht. assert (H : in_soc (rowat (rows_soft p q) x) 3).
      { apply (C (rows_soft p q)). apply in_or_app; right; apply in_or_app; left. apply in_map. apply filter_In; auto. }
      unfold rows_soft in H. apply rot_iff in H. lra. }
  - intros ([A1 A2] & B & C & D & E & F). split; [exact A1|]. split.
    + intros r Hr. apply in_app_or in Hr as [Hr|Hr].
      { apply in_concat in Hr as (rs & H1 & H2). apply In_mapi in H1 as (i & c & Hi & ->).
        specialize (B i c Hi). destruct H2 as [<-|[<-|[]]]; lra. }
      apply in_app_or in Hr as [Hr|Hr].
      { apply in_map_iff in Hr as (e & <- & He). auto. }
      apply in_app_or in Hr as [Hr|Hr].
      { apply in_map_iff in Hr as (e & <- & He). destruct (C e He) as [C1 _]. unfold row_qlin. lra. }
      apply in_app_or in Hr as [Hr|Hr].
      { apply in_map_iff in Hr as (e & <- & He). destruct (D e He) as [C1 _]. unfold row_soclin. lra. }
      destruct warm; [destruct Hr|]. apply in_map_iff in Hr as (q & <- & Hq). apply filter_In in Hq as [Hq Ht].
      apply (proj1 (F eq_refl)); assumption.
    + intros b Hb. apply in_app_or in Hb as [Hb|Hb].
      { apply In_mapi in Hb as (k & c & Hk & ->).
        destruct (nth_error_Some_iff_len _ (q_terms (p_obj p)) _ _ Wo2 Hk) as [t Ht].
        specialize (E k t Ht). rewrite (nth_error_nth _ _ _ Hk) in E.
        unfold rows_objq, rows_rot. rewrite (nth_error_nth _ _ _ Ht). apply rot_iff. lra. }
      apply in_app_or in Hb as [Hb|Hb].
      { destruct warm; [destruct Hb|]. apply in_map_iff in Hb as (q & <- & Hq). apply filter_In in Hq as [Hq Ht].
        destruct (F eq_refl) as [_ F2]. specialize (F2 q Hq Ht). unfold rows_soft. apply rot_iff. lra. }
      apply in_app_or in Hb as [Hb|Hb].
      { apply in_flat_map in Hb as (q & Hq & Hb). unfold blocks_qquad in Hb. apply In_mapi in Hb as (k & t & Hk & ->).
        destruct (C q Hq) as [_ C2]. specialize (C2 k t Hk). unfold rows_rot. apply rot_iff. lra. }
      apply in_map_iff in Hb as (q & <- & Hq). apply soc_iff. apply D; assumption.
Qed.

(** ** The cost vector *)
Definition cwrites (ws : list (nat * R)) (c : nat -> R) : nat -> R :=
  fold_left (fun c t => upd c (fst t) (snd t)) ws c.
Definition ceff (f : storage -> storage) (ws : list (nat * R)) : Prop :=
  forall s j, s_c (f s) j = cwrites ws (s_c s) j.

Lemma cwrites_ext ws : forall c c' j, (forall j, c j = c' j) -> cwrites ws c j = cwrites ws c' j.
Proof.
  induction ws as [|t ws IH]; intros c c' j H; simpl; [apply H|].
  apply IH. intros i. unfold upd. destruct (Nat.eqb i (fst t)); [reflexivity|apply H].
Qed.
Lemma cwrites_app w1 w2 c j : cwrites (w1 ++ w2) c j = cwrites w2 (cwrites w1 c) j.
Proof. unfold cwrites. rewrite fold_left_app. reflexivity. Qed.

Lemma ceff_comp f g w1 w2 : ceff f w1 -> ceff g w2 -> ceff (fun s => g (f s)) (w1 ++ w2).
Proof. intros H1 H2 s j. rewrite H2, cwrites_app. apply cwrites_ext. intros i; apply H1. Qed.
Lemma ceff_id f : (forall s j, s_c (f s) j = s_c s j) -> ceff f [].
Proof. intros H s j; apply H. Qed.
Lemma ceff_loopi {A} (f : nat -> A -> storage -> storage) (ws : nat -> A -> list (nat * R)) l : forall i,
  (forall k a, nth_error l k = Some a -> ceff (f (i + k)%nat a) (ws (i + k)%nat a)) ->
  ceff (loopi f i l) (concat (mapi ws i l)).
Proof.
  induction l as [|a l IH]; intros i H; simpl.
  - intros s j; reflexivity.
  - apply (ceff_comp (f i a) (loopi f (S i) l)).
    + specialize (H 0%nat a eq_refl). rewrite Nat.add_0_r in H. exact H.
    + apply IH. intros k b Hk. replace (S i + k)%nat with (i + S k)%nat by lia. apply H. exact Hk.
Qed.
Lemma concat_nils {A B} (l : list A) i : concat (mapi (fun _ _ => @nil B) i l) = [].
Proof. revert i; induction l; intros i; simpl; auto. Qed.
Lemma ceff_loopi0 {A} (f : nat -> A -> storage -> storage) l i :
  (forall k a s j, s_c (f k a s) j = s_c s j) -> ceff (loopi f i l) [].
Proof.
  intros H. rewrite <- (concat_nils (A:=A) l i). apply ceff_loopi. intros k a _ s j. apply H.
Qed.

Lemma cwrites_dot n ws : forall c x,
  NoDup (map fst ws) -> (forall t, In t ws -> (fst t < n)%nat /\ c (fst t) = 0) ->
  sumR (map (fun j => cwrites ws c j * x j) (seq 0 n)) = sumR (map (fun j => c j * x j) (seq 0 n)) + tsum x ws.
Proof.
  induction ws as [|t ws IH]; intros c x ND H.
  - unfold tsum; simpl. lra.
  - change (cwrites (t :: ws) c) with (cwrites ws (upd c (fst t) (snd t))). inversion ND as [|? ? N1 N2]; subst.
    rewrite IH; [|assumption|].
    + rewrite tsum_cons. destruct (H t (or_introl eq_refl)) as [Ht Hz].
      assert (E : sumR (map (fun j => upd c (fst t) (snd t) j * x j) (seq 0 n))
              = sumR (map (fun j => c j * x j) (seq 0 n)) + snd t * x (fst t)); [|lra].
      assert (G : forall k m, sumR (map (fun j => upd c (fst t) (snd t) j * x j) (seq k m))
        = sumR (map (fun j => c j * x j) (seq k m)) + if (Nat.leb k (fst t) && Nat.ltb (fst t) (k + m))%bool then snd t * x (fst t) else 0).
      { intros k m; revert k. induction m as [|m IHm]; intros k.
        - simpl. destruct (Nat.leb_spec k (fst t)), (Nat.ltb_spec (fst t) (k + 0)); simpl; try lra; lia.
        - cbn [seq map]. rewrite !sumR_cons, IHm. unfold upd at 1. destruct (Nat.eqb_spec k (fst t)) as [->|Hk].
          + rewrite Hz. destruct (Nat.leb_spec (S (fst t)) (fst t)); [lia|]. simpl andb.
            destruct (Nat.leb_spec (fst t) (fst t)); [|lia]. destruct (Nat.ltb_spec (fst t) (fst t + S m)); [|lia]. simpl. lra.
          + replace (Nat.leb (S k) (fst t) && Nat.ltb (fst t) (S k + m))%bool
              with (Nat.leb k (fst t) && Nat.ltb (fst t) (k + S m))%bool; [lra|].
            destruct (Nat.leb_spec k (fst t)), (Nat.ltb_spec (fst t) (k + S m)),
              (Nat.leb_spec (S k) (fst t)), (Nat.ltb_spec (fst t) (S k + m)); simpl; try reflexivity; lia. }
      rewrite G. simpl. destruct (Nat.ltb_spec (fst t) n); [|lia]. simpl. lra.
    + intros t' Ht'. destruct (H t' (or_intror Ht')) as [A B]. split; [assumption|].
      unfold upd. destruct (Nat.eqb_spec (fst t') (fst t)) as [E|]; [|assumption].
      exfalso. apply N1. rewrite <- E. apply in_map; assumption.
Qed.

Definition obj_writes (w : R) (warm : bool) (p : problem) : list (nat * R) :=
  le_terms (q_lexpr (p_obj p))
  ++ concat (mapi (fun i c => [(c, fst (nth i (q_terms (p_obj p)) (0, le_of_const 0)))]) 0 (q_extra (p_obj p)))
  ++ (if warm then [] else map (fun q => (last (q_extra q) 0%nat, w)) (filter q_soft (p_qineq p))).

Lemma c_b_rot r c l s j : s_c (b_rot r c l s) j = s_c s j.
Proof. unfold b_rot; cbv zeta. cbn [setH s_c]. rewrite c_b_terms. reflexivity. Qed.
Lemma c_fold_lin {A} (f : storage -> A -> storage) (l : list A) :
  (forall s a j, s_c (f s a) j = s_c s j) -> forall s j, s_c (fold_left f l s) j = s_c s j.
Proof. intros H. induction l as [|a l IH]; intros s j; simpl; [reflexivity|]. rewrite IH, H; reflexivity. Qed.
Lemma c_loopi {A} (f : nat -> A -> storage -> storage) l :
  (forall k a s j, s_c (f k a s) j = s_c s j) -> forall i s j, s_c (loopi f i l s) j = s_c s j.
Proof. intros H. induction l as [|a l IH]; intros i s j; simpl; [reflexivity|]. rewrite IH, H; reflexivity. Qed.

Lemma build_ceff thr w iter warm p :
  wf_problem p ->
  ceff (run_steps (build_steps thr w iter warm p)) (obj_writes w warm p).
Proof.
  intros [Wb Wl Wu Weq Wli Wq Ws [Wo Wo2]].
  unfold build_steps, obj_writes. cbv zeta. cbn [run_steps snd].
  assert (Q : forall qs row s j, s_c (b_qquads row qs s) j = s_c s j).
  { induction qs as [|q qs IH]; intros row s j; simpl; [reflexivity|]. rewrite IH. unfold b_qquad.
    apply c_loopi. intros k a s' j'. destruct (nth_error (q_extra q) k); [apply c_b_rot|reflexivity]. }
  assert (QS : forall qs row s j, s_c (b_socquads row qs s) j = s_c s j).
  { induction qs as [|q qs IH]; intros row s j; simpl; [reflexivity|]. rewrite IH. unfold b_socquad.
    destruct (nth_error (q_extra q) 0); [|reflexivity].
    rewrite c_loopi; [reflexivity|]. intros k a s' j'. cbn [setH s_c]. apply c_b_terms. }
  intros s j. rewrite QS, Q.
  set (s5 := b_objlin p _).
  assert (E5 : forall j, s_c s5 j = cwrites (le_terms (q_lexpr (p_obj p))) (s_c s) j).
  { intros i. unfold s5. set (s4 := loopi (b_soclin _) 0 (p_soc p) _).
    assert (E4 : forall i, s_c s4 i = s_c s i).
    { intros i'. unfold s4. repeat (rewrite c_loopi; [|clear]).
      - reflexivity.
      - intros k c s' j'. unfold b_bin. destruct (nth_error (p_binlb p) k); [|reflexivity].
        destruct (nth_error (p_binub p) k); reflexivity.
      - intros k c s' j'. unfold b_lineq. apply c_fold_lin. reflexivity.
      - intros k q s' j'. unfold b_qlin. cbv zeta. cbn [setH s_c]. rewrite c_b_terms. apply c_loopi.
        intros k' a s'' j''. destruct (nth_error (q_extra q) k'); reflexivity.
      - intros k q s' j'. unfold b_soclin. cbv zeta. cbn [setH s_c]. rewrite c_b_terms.
        destruct (nth_error (q_extra q) 0); reflexivity. }
    clearbody s4. unfold b_objlin. revert i s4 E4.
    assert (G : forall ts s4 i, s_c (fold_left (fun s t => setC (fst t) (snd t) s) ts s4) i = cwrites ts (s_c s4) i).
    { induction ts as [|t ts IH]; intros s4 i; simpl; [reflexivity|]. rewrite IH. reflexivity. }
    intros i s4 E4. rewrite G. apply cwrites_ext. exact E4. }
  clearbody s5. rewrite !cwrites_app.
  set (s6 := if warm then s5 else _).
  assert (E6 : forall j, s_c s6 j = s_c s5 j).
  { intros i. unfold s6. destruct warm; [reflexivity|]. apply c_loopi. intros k q s' j'.
    unfold b_trust. cbv zeta. cbn [setH s_c]. rewrite c_b_terms, c_b_grad. reflexivity. }
  set (r5 := (_ + (if warm then 0 else n_tr p))%nat).
  set (s7 := loopi (b_objq p r5) 0 _ s6).
  assert (E7 : forall j, s_c s7 j = cwrites
     (concat (mapi (fun i c => [(c, fst (nth i (q_terms (p_obj p)) (0, le_of_const 0)))]) 0 (q_extra (p_obj p)))) (s_c s6) j).
  { apply ceff_loopi. intros k c Hk s' j'. simpl Nat.add. unfold b_objq.
    destruct (nth_error_Some_iff_len _ (q_terms (p_obj p)) _ _ Wo2 Hk) as [[a l] Ht]. rewrite Ht.
    rewrite (nth_error_nth _ _ _ Ht). cbn [setC s_c cwrites fold_left fst snd]. unfold upd.
    destruct (Nat.eqb j' c); [reflexivity|apply c_b_rot]. }
  assert (E8 : forall r6, s_c (if warm then s7 else loopi (b_soft p w r6) 0 (filter q_soft (p_qineq p)) s7) j
     = cwrites (if warm then [] else map (fun q => (last (q_extra q) 0%nat, w)) (filter q_soft (p_qineq p))) (s_c s7) j).
  { intros r6. destruct warm; [reflexivity|].
    rewrite <- (concat_singletons (fun q => (last (q_extra q) 0%nat, w))), <- (mapi_const _ 0).
    apply (ceff_loopi (b_soft p w r6) (fun _ q => [(last (q_extra q) 0%nat, w)])).
    intros k q Hk s' j'. apply nth_error_In, filter_In in Hk as [Hq Hs]. destruct (Wq q Hq) as [_ HL].
    rewrite Hs in HL. unfold b_soft. destruct (rev (q_extra q)) as [|c cs] eqn:E.
    - apply (f_equal (@List.length nat)) in E. rewrite rev_length in E. simpl in E. lia.
    - rewrite (rev_last _ _ _ 0%nat E). cbv zeta. cbn [setC s_c cwrites fold_left fst snd]. unfold upd.
      destruct (Nat.eqb j' c); [reflexivity|]. cbn [setH s_c]. rewrite c_b_terms, c_b_grad. reflexivity. }
  rewrite E8. apply cwrites_ext. intros i. rewrite E7. apply cwrites_ext. intros i'. rewrite E6, E5. reflexivity.
Qed.

Lemma objq_tsum x ts ex d : List.length ex = List.length ts ->
  forall i0, (forall k, nth_error ts k = nth_error d (i0 + k)) ->
  tsum x (concat (mapi (fun i c => [(c, fst (nth i d (0, le_of_const 0)))]) i0 ex)) = tdot x ex ts.
Proof.
  revert ts. induction ex as [|c ex IH]; intros [|t ts] HL i0 H; simpl in HL; try lia; cbn [mapi concat app tdot].
  - unfold tsum; reflexivity.
  - rewrite tsum_cons. cbn [fst snd]. rewrite (IH ts).
    + f_equal. specialize (H 0%nat). rewrite Nat.add_0_r in H. simpl in H. symmetry in H.
      rewrite (nth_error_nth _ _ _ H). reflexivity.
    + lia.
    + intros k. specialize (H (S k)). simpl in H. rewrite H. f_equal. lia.
Qed.

Lemma objective_spec thr w iter warm p x :
  wf_problem p -> NoDup (map fst (obj_writes w warm p)) ->
  std_objective (cp_build thr w iter warm p) x =
  tsum x (le_terms (q_lexpr (p_obj p))) + tdot x (q_extra (p_obj p)) (q_terms (p_obj p))
  + (if warm then 0 else sumR (map (fun q => w * x (last (q_extra q) 0%nat)) (filter q_soft (p_qineq p)))).
Proof.
  intros W ND. assert (CE := build_ceff thr w iter warm p W).
  destruct (build_spec thr w iter warm p W) as (_ & Hn & _).
  unfold std_objective. cbv zeta in Hn. rewrite Hn. rewrite build_as_steps in *.
  set (s0 := loopi b_leq 0 (p_leq p) (b_empty p warm)) in *.
  assert (E0 : forall j, s_c s0 j = 0).
  { intros j. unfold s0. rewrite c_loopi; [reflexivity|]. intros k e s j'. unfold b_leq. apply c_fold_lin. reflexivity. }
  assert (EQ : map (fun j => s_c (run_steps (build_steps thr w iter warm p) s0) j * x j) (seq 0 (List.length (p_vars p)))
     = map (fun j => cwrites (obj_writes w warm p) (s_c s0) j * x j) (seq 0 (List.length (p_vars p)))).
  { apply map_ext. intros j. rewrite CE. reflexivity. }
  rewrite EQ, cwrites_dot; [|assumption|].
  - assert (Z : sumR (map (fun j => s_c s0 j * x j) (seq 0 (List.length (p_vars p)))) = 0).
    { clear - E0. clearbody s0. induction (seq 0 (List.length (p_vars p))) as [|a l IH]; cbn [map]; [reflexivity|].
      rewrite sumR_cons, IH, E0. lra. }
    rewrite Z. unfold obj_writes. rewrite !tsum_app.
    destruct W as [Wb Wl Wu Weq Wli Wq Ws [Wo Wo2]].
    rewrite (objq_tsum x (q_terms (p_obj p)) (q_extra (p_obj p)) (q_terms (p_obj p)) Wo2 0%nat) by reflexivity.
    destruct warm; [unfold tsum; simpl; lra|].
    assert (S : tsum x (map (fun q => (last (q_extra q) 0%nat, w)) (filter q_soft (p_qineq p)))
      = sumR (map (fun q => w * x (last (q_extra q) 0%nat)) (filter q_soft (p_qineq p)))).
    { induction (filter q_soft (p_qineq p)) as [|q l IH]; cbn [map]; [reflexivity|]. rewrite tsum_cons, sumR_cons, IH. reflexivity. }
    lra.
  - intros t Ht. split; [|apply E0]. destruct W as [Wb Wl Wu Weq Wli Wq Ws [Wo Wo2]].
    unfold obj_writes in Ht. apply in_app_or in Ht as [Ht|Ht].
    { apply (wq_l _ _ Wo). apply in_map; assumption. }
    apply in_app_or in Ht as [Ht|Ht].
    { apply in_concat in Ht as (l & H1 & H2). apply In_mapi in H1 as (k & c & Hk & ->). destruct H2 as [<-|[]].
      simpl. apply (wq_e _ _ Wo). eapply nth_error_In; eassumption. }
    destruct warm; [destruct Ht|]. apply in_map_iff in Ht as (q & <- & Hq). apply filter_In in Hq as [Hq Hs].
    destruct (Wq q Hq) as [A B]. rewrite Hs in B. simpl. apply (wq_e _ _ A).
    assert (q_extra q <> []). { intros E. rewrite E in B. simpl in B. lia. }
    destruct (exists_last H) as (l' & a & E). rewrite E, last_last. apply in_or_app; simpl; auto.
Qed.

(** Proofs for the KKT layer, part 5: the stored matrix, the permuted solve and the refinement loop. *)
From Coq Require Import Reals List Arith Bool Lia Lra FunctionalExtensionality.
From Verif Require Import Base BaseProofs ConeModel LdlModel LdlSpec LdlProofs LdlProofs2 LdlProofs3 LdlProps LinModel LinSpec LinProofs LinProofs2 LinProofs3 LinProofs4.
Import ListNotations.
Open Scope R_scope.

(** Values of the stored matrix after any history of updates (None = initializeMatrix). *)
Definition run_updates (d : ldata) (reg : R) (pK : list nat) (hist : list (option scaling)) (value : nat -> R) : nat -> R :=
  fold_left (fun v o => match o with None => initializeMatrix d pK v | Some W => updateMatrix d reg pK W v end) hist value.
Lemma run_updates_holds d reg inv T0 : sizes_ok (d_q d) -> forall hist value lpv fs,
  (forall W, In (Some W) hist -> length (sc_soc W) = length (d_q d)) -> length fs = length (d_q d) -> holds inv T0 (gen_T d reg lpv fs) value ->
  exists lpv' fs', length fs' = length (d_q d) /\ holds inv T0 (gen_T d reg lpv' fs') (run_updates d reg (permK inv T0) hist value).
Proof.
  intros Hq. induction hist as [|[W|] hist IH]; intros value lpv fs HW Hf HH.
  - exists lpv, fs. auto.
  - cbn [run_updates fold_left]. eapply (IH _ _ _ ltac:(intros; apply HW; now right)); [|eapply updateMatrix_holds; eauto]. apply upd_slots_length. apply HW. now left. apply HW. now left.
  - cbn [run_updates fold_left]. eapply (IH _ _ _ ltac:(intros; apply HW; now right)); [|eapply initializeMatrix_holds; eauto]. apply map_length.
Qed.

Lemma symv_kkt d reg W : wfdata d -> length (sc_soc W) = length (d_q d) ->
  is_kkt (d_n d) (d_p d) (d_nl d) (d_q d) (fun r i => entry (d_At d r) i) (fun r i => entry (d_Gt d r) i) reg (sc_lp2 W) (sc_soc W)
    (fun X i => symv (gen_T d reg (fun i => - sc_lp2 W i - reg) (upd_slots reg (d_q d) (sc_soc W))) X i).
Proof.
  intros WD HW. assert (Hf : length (upd_slots reg (d_q d) (sc_soc W)) = length (d_q d)) by now apply upd_slots_length. split.
  - intros X i Hi. now apply row_x.
  - intros X r Hr. now apply row_y.
  - intros X r Hr. rewrite row_lp by assumption. lra.
  - intros X k m b Hk Hb. cbv zeta. pose proof (upd_slots_nth reg _ _ _ _ _ Hk Hb) as Hs. pose proof (sizes_nth _ _ _ (wd_q d WD) Hk) as Hm. pose proof (blk_range _ _ _ (d_nl d) Hk) as Hr.
    assert (Hc : forall id, (id < m)%nat -> col_ok (d_n d) (d_Gt d (blk_start (d_nl d) (d_q d) k + id)%nat)) by (intros; apply (wd_G d WD); lia).
    pose proof (row_soc d reg (fun i => - sc_lp2 W i - reg) _ X WD Hf k m _ Hk Hs) as E. unfold block_arrow. split; [|split].
    + intros j Hj. rewrite E by lia. rewrite (arrow_row X (d_Gt d) (d_n d)) by (auto; lia). rewrite (col_dot_entry (d_n d)) by auto. reflexivity.
    + rewrite E by lia. now apply (arrow_v X (d_Gt d) (d_n d)); [|lia|].
    + rewrite <- Nat.add_assoc, E by lia. rewrite Nat.add_assoc. rewrite (arrow_u X (d_Gt d) (d_n d)) by (auto; lia). rewrite (Nat.add_1_r m). reflexivity.
Qed.

Lemma symv_ext lo hi T X Y i : WFT lo hi T -> (forall k, (k < hi)%nat -> X k = Y k) -> symv T X i = symv T Y i.
Proof.
  intros [w1 w2 _] H. apply lsum_ext. intros t Ht. unfold contrib. specialize (w1 t Ht). specialize (w2 t Ht). rewrite (H (t_col t)), (H (t_row t)) by lia. reflexivity.
Qed.
Lemma perm_inj N perm inv : is_perm N perm inv -> forall i j, (i < N)%nat -> (j < N)%nat -> inv i = inv j -> i = j.
Proof. intros [H _] i j Hi Hj E. apply H in Hi. apply H in Hj. destruct Hi as [_ <-], Hj as [_ <-]. now rewrite E. Qed.

Lemma perm_pattern inv T0 T T' v v' c : holds inv T0 T v -> holds inv T0 T' v' -> map fst (perm_matrix inv T0 v c) = map fst (perm_matrix inv T0 v' c).
Proof. intros _ _. unfold perm_matrix. rewrite !map_map. reflexivity. Qed.

Lemma kkt_product d reg perm inv T0 lpv fs value X i : wfdata d -> length fs = length (d_q d) -> is_perm (extSizeProb d) perm inv ->
  holds inv T0 (gen_T d reg lpv fs) value -> (i < extSizeProb d)%nat ->
  mulv (extSizeProb d) (symm (perm_matrix inv T0 value)) X (inv i) = symv (gen_T d reg lpv fs) (fun k => X (inv k)) i.
Proof.
  intros WD Hf HP HH Hi. apply (perm_product (extSizeProb d) inv T0 (gen_T d reg lpv fs) value X i).
  - intros j Hj. now apply (proj1 HP).
  - now apply (perm_inj _ perm).
  - now apply WFT_gen.
  - exact HH.
  - exact Hi.
Qed.

(** ** Order of the returned solution *)
Lemma unperm_soc_spec inv Px : forall q k j dz r, (unperm_soc inv Px k j q dz) r = if (Nat.leb j r && Nat.ltb r (j + total q))%bool then Px (inv (k + (r - j) + extra q (r - j))%nat) else dz r.
Proof.
  induction q as [|m q IH]; intros k j dz r; cbn [unperm_soc total fold_right extra].
  - destruct (Nat.leb_spec j r), (Nat.ltb_spec r (j + 0)); try reflexivity; lia.
  - fold (total q). rewrite IH. destruct (Nat.leb_spec (j + m) r), (Nat.ltb_spec r (j + m + total q)), (Nat.leb_spec j r), (Nat.ltb_spec r (j + (m + total q))), (Nat.ltb_spec r (j + m)), (Nat.ltb_spec (r - j) m); cbn [andb]; try lia; try reflexivity.
    + do 2 f_equal. replace (r - j - m)%nat with (r - (j + m))%nat by lia. lia.
    + do 2 f_equal. lia.
Qed.
Lemma unpermute_order d inv Px : (forall i, dx (unpermute d inv Px) i = Px (inv i)) /\ (forall r, dy (unpermute d inv Px) r = Px (inv (d_n d + r)%nat)) /\
  (forall r, (r < d_nl d + total (d_q d))%nat -> dz (unpermute d inv Px) r = Px (inv (d_n d + d_p d + ext_row (d_nl d) (d_q d) r)%nat)).
Proof.
  unfold unpermute. cbn [dx dy dz]. split; [reflexivity|]. split; [intros r; do 2 f_equal; lia|]. intros r Hr. rewrite unperm_soc_spec. unfold ext_row.
  destruct (Nat.leb_spec (d_nl d) r), (Nat.ltb_spec r (d_nl d + total (d_q d))), (Nat.ltb_spec r (d_nl d)); cbn [andb]; try lia; do 2 f_equal; lia.
Qed.

Lemma sign_ext_pm e q f : (forall i, f i = 1 \/ f i = -1) -> forall i, sign_ext e q f i = 1 \/ sign_ext e q f i = -1.
Proof. revert e f. induction q; intros e f H i; [apply H|]. cbn [sign_ext]. apply IHq. intros j. unfold upd. destruct (Nat.eqb j (e + a + 1)); auto. Qed.
Lemma sign_pm d i : sign d i = 1 \/ sign d i = -1.
Proof. apply sign_ext_pm. intros j. destruct (Nat.ltb j (d_n d)); auto. Qed.

(** ** Refinement *)
Lemma norm_step m l (v : nat -> R) : fold_left (fun m i => Rmax m (Rabs (v i))) l m >= m.
Proof. revert m. induction l; intros m; cbn [fold_left]; [lra|]. eapply Rge_trans; [apply IHl|]. apply Rle_ge, Rmax_l. Qed.
Lemma norm_inf_ge N v i : (i < N)%nat -> Rabs (v i) <= norm_inf N v.
Proof.
  intros Hi. unfold norm_inf. assert (G : forall l m, In i l -> Rabs (v i) <= fold_left (fun m i => Rmax m (Rabs (v i))) l m).
  { induction l as [|a l IH]; intros m []; subst; cbn [fold_left]; [|now apply IH].
    eapply Rle_trans; [apply (Rmax_r m)|]. apply Rge_le, norm_step. }
  apply G. apply in_seq. lia.
Qed.
Lemma perm_scatter_spec N perm inv err Pe : is_perm N perm inv -> forall i, (i < N)%nat -> perm_scatter N inv err Pe (inv i) = err i.
Proof.
  intros HP i Hi. unfold perm_scatter. pose proof (scatter_spec 0 (map inv (seq 0 N)) (map err (seq 0 N)) Pe) as E.
  assert (Hnd : NoDup (map inv (seq 0 N))).
  { apply NoDup_nth with 0%nat. intros a b. rewrite map_length, seq_length. intros Ha Hb E'. rewrite !(nth_map_in inv _ _ 0%nat 0%nat) in E' by now rewrite seq_length.
    rewrite !seq_nth in E' by assumption. now apply (perm_inj N perm inv HP). }
  specialize (E Hnd ltac:(now rewrite !map_length) i ltac:(now rewrite map_length, seq_length)).
  rewrite (nth_map_in inv _ _ 0%nat 0%nat), (nth_map_in err _ _ 0 0%nat), !seq_nth in E by (rewrite ?seq_length; assumption). exact E.
Qed.

Section Refine.
Context (N : nat) (error : (nat -> R) -> nat -> R) (chol : (nat -> R) -> nat -> R) (perm inv : nat -> nat) (limit : nat) (thresh factor : R).
Hypothesis HP : is_perm N perm inv.
(** The correction computed from an iterate. *)
Definition corrected (X X' : nat -> R) : Prop := exists P, (forall i, (i < N)%nat -> P (inv i) = error X i) /\ forall i, X' i = X i + chol P i.
Lemma refine_spec : forall fuel Pe k X dX prev Xs,
  (limit + 2 <= fuel + k)%nat -> (k <= limit)%nat ->
  (forall i, (i <= k)%nat -> forall j, i = k -> Xs i j = X j) ->
  (forall i, (i < k)%nat -> corrected (Xs i) (Xs (S i))) ->
  (forall i, (S i < k)%nat -> norm_inf N (error (Xs (S i))) <= norm_inf N (error (Xs i))) ->
  ((0 < k)%nat -> prev = norm_inf N (error (Xs (k - 1)%nat)) /\ forall j, X j = Xs (k - 1)%nat j + dX j) ->
  exists Xr r Ys, refine fuel N error chol inv Pe limit thresh factor k X dX prev = Ok (Xr, r) /\ (r <= limit)%nat /\
    (forall j, Ys 0%nat j = Xs 0%nat j) /\ (forall j, Xr j = Ys r j) /\
    (forall i, (i < r)%nat -> corrected (Ys i) (Ys (S i))) /\
    (forall i, (i < r)%nat -> norm_inf N (error (Ys (S i))) <= norm_inf N (error (Ys i))).
Proof.
  induction fuel as [|fuel IH]; intros Pe k X dX prev Xs Hfuel Hk HX HC HM HPrev; [lia|].
  cbn [refine]. rewrite (proj2 (Nat.ltb_ge limit k)) by assumption.
  assert (EX : Xs k = X). { apply functional_extensionality. intros j. apply (HX k); auto. }
  destruct (Nat.ltb_spec 0 k) as [K0|K0]; cbn [andb].
  - destruct (HPrev K0) as [-> HdX]. destruct (Rlt_dec _ _) as [L|L].
    + exists (fun i => X i - dX i), (k - 1)%nat, Xs. split; [reflexivity|]. split; [lia|]. split; [reflexivity|]. split.
      { intros j. rewrite HdX. lra. }
      split; intros i Hi; [apply HC; lia|apply HM; lia].
    + assert (LE : norm_inf N (error X) <= norm_inf N (error (Xs (k - 1)%nat))) by lra.
      assert (HM' : forall i, (i < k)%nat -> norm_inf N (error (Xs (S i))) <= norm_inf N (error (Xs i))).
      { intros i Hi. destruct (Nat.eq_dec (S i) k) as [E|E]; [|apply HM; lia]. rewrite E, EX. replace i with (k - 1)%nat by lia. exact LE. }
      destruct (Nat.eqb k limit || _ || _)%bool eqn:B.
      * exists X, k, Xs. rewrite EX. repeat split; auto.
      * apply orb_false_iff in B. destruct B as [B _]. apply orb_false_iff in B. destruct B as [B _]. apply Nat.eqb_neq in B.
        set (Xs' := fun i => if Nat.eqb i (S k) then (fun j => X j + chol (perm_scatter N inv (error X) Pe) j) else Xs i).
        destruct (IH (perm_scatter N inv (error X) Pe) (S k) (fun i => X i + chol (perm_scatter N inv (error X) Pe) i) (chol (perm_scatter N inv (error X) Pe)) (norm_inf N (error X)) Xs') as (Xr & r & Ys & H); try lia.
        { intros i Hi j ->. unfold Xs'. now rewrite Nat.eqb_refl. }
        { intros i Hi. unfold Xs'. destruct (Nat.eqb_spec i (S k)); [lia|]. destruct (Nat.eqb_spec (S i) (S k)) as [E|E]; [|apply HC; lia].
          injection E as ->. rewrite EX. exists (perm_scatter N inv (error X) Pe). split; [|reflexivity]. now apply (perm_scatter_spec N perm). }
        { intros i Hi. unfold Xs'. destruct (Nat.eqb_spec i (S k)); [lia|]. destruct (Nat.eqb_spec (S i) (S k)); [lia|]. apply HM'. lia. }
        { intros _. unfold Xs'. replace (S k - 1)%nat with k by lia. destruct (Nat.eqb_spec k (S k)); [lia|]. rewrite EX. auto. }
        exists Xr, r, Ys. destruct H as (H1 & H2 & H3 & H4). split; [exact H1|]. split; [exact H2|]. split; [|exact H4].
        intros j. rewrite H3. unfold Xs'. now destruct (Nat.eqb_spec 0 (S k)).
  - assert (k = 0)%nat by lia. subst k. rewrite orb_false_r. destruct (Nat.eqb 0 limit || _)%bool eqn:B.
    + exists X, 0%nat, Xs. rewrite EX. repeat split; auto; intros; lia.
    + apply orb_false_iff in B. destruct B as [B _]. apply Nat.eqb_neq in B.
      set (Xs' := fun i => if Nat.eqb i 1 then (fun j => X j + chol (perm_scatter N inv (error X) Pe) j) else Xs i).
      destruct (IH (perm_scatter N inv (error X) Pe) 1%nat (fun i => X i + chol (perm_scatter N inv (error X) Pe) i) (chol (perm_scatter N inv (error X) Pe)) (norm_inf N (error X)) Xs') as (Xr & r & Ys & H); try lia.
      { intros i Hi j ->. unfold Xs'. now rewrite Nat.eqb_refl. }
      { intros i Hi. assert (i = 0)%nat by lia. subst i. unfold Xs'. cbn [Nat.eqb]. rewrite EX. exists (perm_scatter N inv (error X) Pe). split; [|reflexivity]. now apply (perm_scatter_spec N perm). }
      { intros _. unfold Xs'. cbn [Nat.eqb Nat.sub]. rewrite EX. auto. }
      exists Xr, r, Ys. destruct H as (H1 & H2 & H3 & H4). split; [exact H1|]. split; [exact H2|]. split; [|exact H4].
      intros j. rewrite H3. reflexivity.
Qed.
End Refine.

(** Proofs for the KKT layer, part 1: permuted storage. *)
From Coq Require Import Reals List Arith Bool Lia Lra.
From Verif Require Import Base BaseProofs ConeModel LdlModel LdlSpec LdlProofs LdlProofs2 LdlProofs3 LinModel LinSpec.
Import ListNotations.
Open Scope R_scope.

Definition lsum {A} (f : A -> R) (l : list A) : R := fold_right Rplus 0 (map f l).
Lemma lsum_app {A} (f : A -> R) a b : lsum f (a ++ b) = lsum f a + lsum f b.
Proof. unfold lsum. induction a; simpl; [lra|]. rewrite IHa. lra. Qed.
Lemma lsum_cons {A} (f : A -> R) a l : lsum f (a :: l) = f a + lsum f l.
Proof. reflexivity. Qed.
Lemma lsum_nil {A} (f : A -> R) : lsum f [] = 0.
Proof. reflexivity. Qed.
Lemma lsum_ext {A} (f g : A -> R) l : (forall a, In a l -> f a = g a) -> lsum f l = lsum g l.
Proof. unfold lsum. intros H. f_equal. now apply map_ext_in. Qed.
Lemma lsum_zero {A} (f : A -> R) l : (forall a, In a l -> f a = 0) -> lsum f l = 0.
Proof. induction l; intros H; [reflexivity|]. rewrite lsum_cons, H by now left. rewrite IHl; [lra|]. intros; apply H; now right. Qed.
Lemma lsum_plus {A} (f g : A -> R) l : lsum (fun a => f a + g a) l = lsum f l + lsum g l.
Proof. unfold lsum. induction l; simpl; [lra|]. rewrite IHl. lra. Qed.
Lemma lsum_map {A B} (h : A -> B) (f : B -> R) l : lsum f (map h l) = lsum (fun a => f (h a)) l.
Proof. unfold lsum. now rewrite map_map. Qed.
Lemma lsum_scal {A} c (f : A -> R) l : lsum (fun a => c * f a) l = c * lsum f l.
Proof. unfold lsum. induction l; simpl; [lra|]. rewrite IHl. lra. Qed.
Lemma lsum_flat_map {A B} (h : A -> list B) (f : B -> R) l : lsum f (flat_map h l) = lsum (fun a => lsum f (h a)) l.
Proof. induction l; [reflexivity|]. cbn [flat_map]. rewrite lsum_app, lsum_cons, IHl. reflexivity. Qed.
Lemma lsum_seq (f : nat -> R) a k : lsum f (seq a k) = rsum k (fun i => f (a + i)%nat).
Proof.
  induction k; [reflexivity|]. rewrite seq_S, lsum_app, IHk. cbn [rsum]. rewrite lsum_cons, lsum_nil. lra.
Qed.
Lemma lsum_rsum {A} k (f : A -> nat -> R) l : lsum (fun a => rsum k (f a)) l = rsum k (fun c => lsum (fun a => f a c) l).
Proof. induction l; [symmetry; now apply rsum_zero|]. rewrite lsum_cons, IHl, <- rsum_plus. apply rsum_ext. intros. now rewrite lsum_cons. Qed.

(** entry as a sum *)
Lemma entry_lsum l r : NoDup (map fst l) -> entry l r = lsum (fun e => if Nat.eqb (fst e) r then snd e else 0) l.
Proof.
  induction l as [|[a b] l IH]; intros H; [reflexivity|]. rewrite lsum_cons. cbn [fst snd]. cbn [map fst] in H. inversion H; subst.
  unfold entry. cbn [find fst]. destruct (Nat.eqb_spec a r) as [->|Ha].
  - cbn [snd]. rewrite lsum_zero; [lra|]. intros [u v] Hin. cbn [fst snd]. destruct (Nat.eqb_spec u r) as [->|]; [|reflexivity].
    exfalso. apply H2. apply in_map_iff. exists (r, v). auto.
  - fold (entry l r). rewrite IH by assumption. lra.
Qed.

(** Symmetric product of a list of upper entries. *)
Definition contrib (X : nat -> R) (i : nat) (t : triplet) : R :=
  (if Nat.eqb (t_row t) i then t_val t * X (t_col t) else 0) +
  (if (Nat.eqb (t_col t) i && negb (Nat.eqb (t_row t) (t_col t)))%bool then t_val t * X (t_row t) else 0).
Definition symv (T : list triplet) (X : nat -> R) (i : nat) : R := lsum (contrib X i) T.

Lemma mulv_symm_cols N M u a : upper N M -> (a < N)%nat ->
  mulv N (symm M) u a = rsum N (fun c => lsum (fun e => contrib u a (fst e, c, snd e)) (M c)).
Proof.
  intros HM Ha. unfold mulv, contrib, t_row, t_col, t_val. cbn [fst snd].
  set (F := fun c => lsum (fun e : nat * R => if Nat.eqb (fst e) a then snd e * u c else 0) (M c)).
  set (G := fun c => lsum (fun e : nat * R => if (Nat.eqb c a && negb (Nat.eqb (fst e) c))%bool then snd e * u (fst e) else 0) (M c)).
  rewrite (rsum_ext N (fun c => lsum _ (M c)) (fun c => F c + G c)).
  2:{ intros c Hc. unfold F, G. rewrite <- lsum_plus. reflexivity. }
  rewrite rsum_plus.
  assert (HG : rsum N G = rsum N (fun r => if Nat.ltb r a then entry (M a) r * u r else 0)).
  { rewrite (rsum_single N a G Ha).
    - unfold G. rewrite Nat.eqb_refl. cbn [andb].
      destruct (HM a Ha) as [Hnd Hle].
      rewrite (rsum_ext N _ (fun r => lsum (fun e : nat * R => if (Nat.eqb (fst e) r && Nat.ltb r a)%bool then snd e * u r else 0) (M a))).
      2:{ intros r Hr. destruct (Nat.ltb r a) eqn:L.
          - rewrite entry_lsum by assumption. rewrite (Rmult_comm _ (u r)), <- lsum_scal. apply lsum_ext. intros e _. destruct (Nat.eqb (fst e) r); cbn [andb]; lra.
          - symmetry. apply lsum_zero. intros. now rewrite andb_false_r. }
      rewrite <- lsum_rsum. apply lsum_ext. intros [r v] Hin. cbn [fst snd]. pose proof (Hle r v Hin) as Hr.
      rewrite (rsum_single N r).
      + rewrite Nat.eqb_refl. cbn [andb]. destruct (Nat.eqb_spec r a), (Nat.ltb_spec r a); try lia; reflexivity.
      + lia.
      + intros j Hj Hne. destruct (Nat.eqb_spec r j); [congruence|reflexivity].
    - intros c Hc Hne. unfold G. apply lsum_zero. intros. apply Nat.eqb_neq in Hne. now rewrite Hne. }
  rewrite HG, <- rsum_plus. apply rsum_ext. intros c Hc. unfold F, symm. destruct (HM c Hc) as [Hnd Hle].
  assert (HF : lsum (fun e : nat * R => if Nat.eqb (fst e) a then snd e * u c else 0) (M c) = entry (M c) a * u c).
  { rewrite entry_lsum by assumption. rewrite (Rmult_comm _ (u c)), <- lsum_scal. apply lsum_ext. intros e _. destruct (Nat.eqb (fst e) a); lra. }
  rewrite HF. destruct (Nat.leb_spec a c), (Nat.ltb_spec c a); try lia; try lra.
  assert (Z : entry (M c) a = 0). { apply entry_nIn. intros X. apply in_map_iff in X. destruct X as ([r v] & E & X). simpl in E; subst. apply Hle in X. lia. }
  rewrite Z. lra.
Qed.

(** ** Positions of the counting sort *)
Definition cnt (inv : nat -> nat) (T : list triplet) (c : nat) : nat := length (filter (fun t => Nat.eqb (pcol inv t) c) T).
Lemma positions_col inv : forall T index c,
  map snd (filter (fun tp => Nat.eqb (pcol inv (fst tp)) c) (combine T (positions inv index T))) = seq (index c) (cnt inv T c).
Proof.
  induction T as [|t T IH]; intros index c; [reflexivity|].
  cbn [positions combine filter fst]. unfold cnt. cbn [filter]. destruct (Nat.eqb_spec (pcol inv t) c) as [E|E].
  - cbn [map snd length seq]. rewrite E. f_equal. rewrite IH. rewrite upd_same. reflexivity.
  - rewrite IH. rewrite upd_other by congruence. reflexivity.
Qed.
Lemma positions_length inv : forall T index, length (positions inv index T) = length T.
Proof. induction T; intros; [reflexivity|]. cbn [positions length]. now rewrite IHT. Qed.
Lemma positions_range inv : forall T index x, In x (positions inv index T) -> exists t, In t T /\ (index (pcol inv t) <= x < index (pcol inv t) + cnt inv T (pcol inv t))%nat.
Proof.
  induction T as [|t T IH]; intros index x []; subst.
  - exists t. split; [now left|]. unfold cnt. cbn [filter]. rewrite Nat.eqb_refl. cbn [length]. lia.
  - destruct (IH _ _ H) as (t' & A1 & A2). exists t'. split; [now right|]. unfold upd in A2. unfold cnt in *. cbn [filter].
    rewrite (Nat.eqb_sym (pcol inv t)). destruct (Nat.eqb (pcol inv t') (pcol inv t)) eqn:E; cbn [length]; [apply Nat.eqb_eq in E; rewrite <- E in *|]; lia.
Qed.
Lemma positions_nd inv : forall T index, (forall c c', c <> c' -> (index c + cnt inv T c <= index c' \/ index c' + cnt inv T c' <= index c)%nat) -> NoDup (positions inv index T).
Proof.
  induction T as [|t T IH]; intros index H; [constructor|]. cbn [positions].
  assert (Hc : forall c, cnt inv (t :: T) c = if Nat.eqb (pcol inv t) c then S (cnt inv T c) else cnt inv T c).
  { intros c. unfold cnt. cbn [filter]. destruct (Nat.eqb _ c); reflexivity. }
  constructor.
  - intros Hin. apply positions_range in Hin. destruct Hin as (t' & A1 & A2). unfold upd in A2.
    destruct (Nat.eqb_spec (pcol inv t') (pcol inv t)) as [E|E]; [rewrite E in A2; lia|].
    specialize (H _ _ E). rewrite !Hc in H. rewrite Nat.eqb_refl in H. destruct (Nat.eqb (pcol inv t) (pcol inv t')) eqn:E2; [apply Nat.eqb_eq in E2; congruence|]. lia.
  - apply IH. intros c c' Hne. specialize (H c c' Hne). rewrite !Hc in H. unfold upd.
    rewrite (Nat.eqb_sym c), (Nat.eqb_sym c'). destruct (Nat.eqb_spec (pcol inv t) c), (Nat.eqb_spec (pcol inv t) c'); subst; try congruence; try lia.
Qed.
Lemma outer_S inv T c : outer inv T (S c) = (outer inv T c + cnt inv T c)%nat.
Proof.
  unfold outer, cnt. induction T as [|t T IH]; [reflexivity|]. cbn [filter].
  destruct (Nat.ltb_spec (pcol inv t) (S c)), (Nat.ltb_spec (pcol inv t) c), (Nat.eqb_spec (pcol inv t) c); cbn [length]; lia.
Qed.
Lemma outer_mono inv T c c' : (c <= c')%nat -> (outer inv T c <= outer inv T c')%nat.
Proof. induction 1; [lia|]. rewrite outer_S. lia. Qed.
Lemma permK_nd inv T : NoDup (permK inv T).
Proof.
  apply positions_nd. intros c c' Hne. destruct (Nat.lt_ge_cases c c').
  - left. rewrite <- outer_S. apply outer_mono. lia.
  - right. rewrite <- outer_S. apply outer_mono. lia.
Qed.
Lemma permK_length inv T : length (permK inv T) = length T.
Proof. apply positions_length. Qed.

Lemma scatter_spec {A} (d : A) : forall pos vals f, NoDup pos -> length pos = length vals -> forall k, (k < length pos)%nat -> scatter pos vals f (nth k pos 0%nat) = nth k vals d.
Proof.
  unfold scatter. induction pos as [|a pos IH]; intros [|v vals] f Hnd Hl k Hk; cbn [length] in *; try lia.
  inversion Hnd; subst. cbn [combine fold_left fst snd]. destruct k as [|k]; cbn [nth].
  - clear - H1. assert (G : forall (ws : list (nat * A)) (g : nat -> A), ~ In a (map fst ws) -> fold_left (fun f pv => upd f (fst pv) (snd pv)) ws g a = g a).
    { induction ws as [|w ws IH]; intros g Hn; [reflexivity|]. cbn [fold_left map] in *. rewrite IH; [|simpl in Hn; tauto]. apply upd_other. simpl in Hn. intros ->; tauto. }
    rewrite G. { apply upd_same. } intros Hin. apply in_map_iff in Hin. destruct Hin as ([x y] & E & Hin). simpl in E; subst. apply in_combine_l in Hin. tauto.
  - apply IH; auto; lia.
Qed.

Lemma nth_map_in {A B} (f : A -> B) l k d d' : (k < length l)%nat -> nth k (map f l) d = f (nth k l d').
Proof. intros H. rewrite (nth_indep _ d (f d')) by (rewrite map_length; assumption). apply map_nth. Qed.

(** A value array holds the values of T at the positions. *)
Definition holds (inv : nat -> nat) (T0 T : list triplet) (value : nat -> R) : Prop :=
  map fst T = map fst T0 /\ forall k, (k < length T)%nat -> value (nth k (permK inv T0) 0%nat) = t_val (nth k T (0%nat, 0%nat, 0)).

Lemma holds_init inv T : holds inv T T (perm_value inv T).
Proof.
  split; [reflexivity|]. intros k Hk. unfold perm_value.
  rewrite (scatter_spec 0); [|apply permK_nd|rewrite permK_length, map_length; reflexivity|rewrite permK_length; assumption].
  change 0 with (t_val (0%nat, 0%nat, 0)) at 1. apply map_nth.
Qed.

Lemma combine_filter_map {A B C} (g : A -> bool) (h : A -> C) (h' : B -> C) : forall (T : list A) (P : list B),
  length T = length P -> (forall a b, In (a, b) (combine T P) -> h' b = h a) ->
  map h' (map snd (filter (fun ab => g (fst ab)) (combine T P))) = map h (filter g T).
Proof.
  induction T as [|a T IH]; intros [|b P] Hl H; cbn [length] in *; try lia; [reflexivity|].
  cbn [combine filter fst]. destruct (g a); cbn [map snd].
  - f_equal; [apply H; now left|]. apply IH; [lia|]. intros; apply H; now right.
  - apply IH; [lia|]. intros; apply H; now right.
Qed.

Lemma perm_matrix_col inv T0 T value c : holds inv T0 T value ->
  perm_matrix inv T0 value c = map (fun t => (prow inv t, t_val t)) (filter (fun t => Nat.eqb (pcol inv t) c) T).
Proof.
  intros [HT HV]. unfold perm_matrix. rewrite outer_S. replace (outer inv T0 c + cnt inv T0 c - outer inv T0 c)%nat with (cnt inv T0 c) by lia.
  rewrite <- (positions_col inv T0 (outer inv T0) c). fold (permK inv T0).
  assert (Hl : length T = length T0). { transitivity (length (map fst T)); [symmetry; apply map_length|]. rewrite HT. apply map_length. }
  assert (Hfil : map snd (filter (fun tp : triplet * nat => Nat.eqb (pcol inv (fst tp)) c) (combine T0 (permK inv T0))) =
                 map snd (filter (fun tp : triplet * nat => Nat.eqb (pcol inv (fst tp)) c) (combine T (permK inv T0)))).
  { clear HV. generalize (permK inv T0) as P. clear Hl. revert T0 HT. induction T as [|t T IH]; intros [|t0 T0] HT P; cbn [map] in HT; try discriminate; [reflexivity|].
    injection HT as E HT. destruct P as [|x P]; [reflexivity|]. cbn [combine filter fst].
    replace (pcol inv t0) with (pcol inv t) by (unfold pcol, t_row, t_col; rewrite E; reflexivity).
    destruct (Nat.eqb (pcol inv t) c); cbn [map snd]; [f_equal|]; apply IH; assumption. }
  rewrite Hfil. apply (combine_filter_map (fun t => Nat.eqb (pcol inv t) c)); [rewrite permK_length; lia|].
  intros t x Hin. apply In_nth with (d := ((0%nat, 0%nat, 0), 0%nat)) in Hin. destruct Hin as (k & Hk & E).
  rewrite combine_length, permK_length in Hk. rewrite combine_nth in E by (rewrite permK_length; lia). injection E as Et Ex.
  f_equal.
  - unfold perm_inner. rewrite <- Ex. rewrite (scatter_spec 0%nat); [|apply permK_nd|rewrite permK_length, map_length; reflexivity|rewrite permK_length; lia].
    rewrite (nth_map_in (prow inv) T0 k 0%nat (0%nat, 0%nat, 0)) by lia. rewrite <- Et.
    assert (F : fst (nth k T0 (0%nat, 0%nat, 0)) = fst (nth k T (0%nat, 0%nat, 0))).
    { rewrite <- !(nth_map_in fst _ k (0%nat, 0%nat)) by lia. now rewrite HT. }
    unfold prow, t_row, t_col. rewrite F. reflexivity.
  - rewrite <- Ex, <- Et. apply HV. lia.
Qed.

(** Well-formed entry lists with columns in [lo, hi). *)
Record WFT (lo hi : nat) (T : list triplet) : Prop := {
  wf_col : forall t, In t T -> (lo <= t_col t < hi)%nat;
  wf_row : forall t, In t T -> (t_row t <= t_col t)%nat;
  wf_nd : NoDup (map fst T) }.
Lemma NoDup_map_inj_in {A B} (f : A -> B) l : NoDup (map f l) -> forall x y, In x l -> In y l -> f x = f y -> x = y.
Proof.
  induction l as [|a l IH]; intros H x y [] []; intros E; subst; auto; cbn [map] in H; inversion H; subst.
  - exfalso. apply H3. rewrite E. now apply in_map.
  - exfalso. apply H3. rewrite <- E. now apply in_map.
  - now apply IH.
Qed.

Lemma perm_matrix_upper N inv T0 T value : (forall i j, (i < N)%nat -> (j < N)%nat -> inv i = inv j -> i = j) -> WFT 0 N T -> holds inv T0 T value -> upper N (perm_matrix inv T0 value).
Proof.
  intros Hinj [w1 w2 w3] HH c Hc. rewrite (perm_matrix_col inv T0 T) by assumption. split.
  - rewrite map_map. cbn [fst]. assert (Hsub : forall t, In t (filter (fun t => Nat.eqb (pcol inv t) c) T) -> In t T /\ pcol inv t = c).
    { intros t Ht. apply filter_In in Ht. destruct Ht as [A B]. apply Nat.eqb_eq in B. auto. }
    assert (Hnd : NoDup (filter (fun t => Nat.eqb (pcol inv t) c) T)). { apply NoDup_filter. eapply NoDup_map_inv. eassumption. }
    revert Hsub Hnd. generalize (filter (fun t => Nat.eqb (pcol inv t) c) T). induction l as [|t l IH]; intros Hs Hnd; cbn [map]; [constructor|].
    inversion Hnd; subst. constructor; [|apply IH; auto; intros; apply Hs; now right].
    intros Hin. apply in_map_iff in Hin. destruct Hin as (t' & E & Hin). apply H1.
    destruct (Hs t (or_introl eq_refl)) as [A1 A2]. destruct (Hs t' (or_intror Hin)) as [B1 B2].
    assert (t' = t); [|subst; assumption].
    apply (NoDup_map_inj_in fst T); auto.
    pose proof (w1 _ A1). pose proof (w1 _ B1). pose proof (w2 _ A1). pose proof (w2 _ B1).
    unfold prow in E. unfold pcol in A2, B2.
    assert (EE : (inv (t_row t') = inv (t_row t) /\ inv (t_col t') = inv (t_col t)) \/ (inv (t_row t') = inv (t_col t) /\ inv (t_col t') = inv (t_row t))) by lia.
    destruct t as [[r c1] v], t' as [[r' c'] v']; unfold t_row, t_col in *; cbn [fst snd] in *.
    destruct EE as [[E1 E2]|[E1 E2]]; apply Hinj in E1; try lia; apply Hinj in E2; try lia; subst; auto. f_equal; lia.
  - intros r v Hin. apply in_map_iff in Hin. destruct Hin as (t & E & Hin). injection E as <- _. apply filter_In in Hin. destruct Hin as [_ Hin].
    apply Nat.eqb_eq in Hin. unfold prow, pcol in *. lia.
Qed.

(** The permuted symmetric matrix applied to u, read at inv i, is the entry list applied to u o inv. *)
Lemma perm_product N inv T0 T value u i : (forall i, (i < N)%nat -> (inv i < N)%nat) -> (forall i j, (i < N)%nat -> (j < N)%nat -> inv i = inv j -> i = j) ->
  WFT 0 N T -> holds inv T0 T value -> (i < N)%nat ->
  mulv N (symm (perm_matrix inv T0 value)) u (inv i) = symv T (fun k => u (inv k)) i.
Proof.
  intros Hr Hinj HW HH Hi. rewrite mulv_symm_cols by (auto; eapply perm_matrix_upper; eauto).
  rewrite (rsum_ext N _ (fun c => lsum (fun t => if Nat.eqb (pcol inv t) c then contrib u (inv i) (prow inv t, pcol inv t, t_val t) else 0) T)).
  2:{ intros c Hc. rewrite (perm_matrix_col inv T0 T) by assumption. rewrite lsum_map. cbn [fst snd].
      induction T as [|t T' IH] in |- *; [reflexivity|]. cbn [filter]. rewrite lsum_cons. destruct (Nat.eqb_spec (pcol inv t) c) as [E|E].
      - rewrite lsum_cons, IH, E. reflexivity.
      - rewrite IH. lra. }
  rewrite <- lsum_rsum. unfold symv. apply lsum_ext. intros t Ht. destruct HW as [w1 w2 w3]. pose proof (w1 t Ht). pose proof (w2 t Ht).
  assert (Hrow : (t_row t < N)%nat) by lia. assert (Hcol : (t_col t < N)%nat) by lia.
  rewrite (rsum_single N (pcol inv t)).
  - rewrite Nat.eqb_refl. unfold contrib, t_val. unfold t_row at 1 2 3 6. unfold t_col at 1 2 3 6. cbn [fst snd]. unfold prow, pcol.
    pose proof (Hr _ Hrow). pose proof (Hr _ Hcol).
    assert (Q : forall a b, (a < N)%nat -> (b < N)%nat -> Nat.eqb (inv a) (inv b) = Nat.eqb a b).
    { intros a b Ha Hb. destruct (Nat.eqb_spec (inv a) (inv b)) as [E|E], (Nat.eqb_spec a b) as [E'|E']; try reflexivity; [apply Hinj in E; auto; congruence|subst; congruence]. }
    fold (t_row t) in *. fold (t_col t) in *.
    destruct (Nat.le_ge_cases (inv (t_row t)) (inv (t_col t))) as [L|L].
    + rewrite (Nat.min_l _ _ L), (Nat.max_r _ _ L), !Q by assumption. reflexivity.
    + rewrite (Nat.min_r _ _ L), (Nat.max_l _ _ L), !Q by assumption. rewrite (Nat.eqb_sym (t_col t) (t_row t)).
      destruct (Nat.eqb_spec (t_row t) (t_col t)) as [E|E]; cbn [negb andb]; rewrite ?andb_false_r, ?andb_true_r; [rewrite E; lra|lra].
  - unfold pcol. pose proof (Hr _ Hrow). pose proof (Hr _ Hcol). lia.
  - intros c Hc Hne. destruct (Nat.eqb_spec (pcol inv t) c); [congruence|reflexivity].
Qed.

(** ** Writes *)
Definition set_val (T : list triplet) (k : nat) (v : R) : list triplet :=
  match nth_error T k with Some t => firstn k T ++ (fst t, v) :: skipn (S k) T | None => T end.
Lemma set_val_mid a t b v : set_val (a ++ t :: b) (length a) v = a ++ (fst t, v) :: b.
Proof.
  unfold set_val. rewrite nth_error_app2, Nat.sub_diag by lia. cbn [nth_error]. rewrite firstn_app, Nat.sub_diag, firstn_all, skipn_app.
  cbn [firstn]. rewrite app_nil_r. f_equal. f_equal. rewrite skipn_all2 by lia. replace (S (length a) - length a)%nat with 1%nat by lia. reflexivity.
Qed.
Definition set_vals (ws : list (nat * R)) (T : list triplet) : list triplet := fold_left (fun T w => set_val T (fst w) (snd w)) ws T.

Lemma holds_write inv T0 T value k v : holds inv T0 T value -> (k < length T)%nat -> holds inv T0 (set_val T k v) (upd value (nth k (permK inv T0) 0%nat) v).
Proof.
  intros [HT HV] Hk. assert (Hl : length T = length T0). { rewrite <- (map_length fst T), HT. apply map_length. }
  destruct (nth_error T k) as [t|] eqn:E; [|apply nth_error_None in E; lia].
  apply nth_error_split in E. destruct E as (a & b & -> & <-). rewrite set_val_mid. split.
  - rewrite <- HT, !map_app. reflexivity.
  - rewrite app_length in *. cbn [length] in *. intros j Hj. unfold upd.
    destruct (Nat.eqb_spec (nth j (permK inv T0) 0%nat) (nth (length a) (permK inv T0) 0%nat)) as [E|E].
    + apply NoDup_nth in E; [|apply permK_nd|rewrite permK_length; lia|rewrite permK_length; lia]. subst j.
      rewrite app_nth2, Nat.sub_diag by lia. reflexivity.
    + assert (j <> length a) by (intros ->; congruence). rewrite HV by lia.
      destruct (Nat.lt_ge_cases j (length a)); [rewrite !app_nth1 by lia; reflexivity|]. rewrite !app_nth2 by lia.
      destruct (j - length a)%nat as [|x] eqn:D; [lia|]. reflexivity.
Qed.
Lemma set_val_length T k v : length (set_val T k v) = length T.
Proof.
  unfold set_val. destruct (nth_error T k) as [t|] eqn:E; [|reflexivity]. apply nth_error_split in E. destruct E as (a & b & -> & <-).
  rewrite firstn_app, Nat.sub_diag, firstn_all, skipn_app, skipn_all2 by lia. cbn [firstn]. replace (S (length a) - length a)%nat with 1%nat by lia.
  rewrite !app_length. cbn [skipn length app]. lia.
Qed.
Lemma holds_writes inv T0 : forall ws T value, holds inv T0 T value -> (forall w, In w ws -> (fst w < length T)%nat) ->
  holds inv T0 (set_vals ws T) (apply_writes (map (fun w => (nth (fst w) (permK inv T0) 0%nat, snd w)) ws) value).
Proof.
  induction ws as [|w ws IH]; intros T value H Hw; [exact H|]. cbn [set_vals map fold_left apply_writes fst snd].
  apply IH. - apply holds_write; auto. apply Hw. now left. - intros w' Hw'. rewrite set_val_length. apply Hw. now right.
Qed.

(** Slots: fixed entries followed by one entry whose value is written. *)
Notation item := (list triplet * (nat * nat))%type.
Fixpoint render (its : list item) (vs : list R) : list triplet :=
  match its, vs with
  | (f, rc) :: its', v :: vs' => f ++ (rc, v) :: render its' vs'
  | _, _ => []
  end.
Fixpoint spos (off : nat) (its : list item) : list nat :=
  match its with [] => [] | (f, _) :: its' => (off + length f)%nat :: spos (off + length f + 1) its' end.
Lemma render_length its : forall vs vs', length vs = length its -> length vs' = length its -> length (render its vs) = length (render its vs').
Proof.
  induction its as [|[f rc] its IH]; intros [|v vs] [|v' vs'] H H'; cbn [length] in *; try lia.
  cbn [render]. rewrite !app_length. cbn [length]. rewrite (IH vs vs'); lia.
Qed.
Lemma set_vals_render : forall its vs vs0 pre post, length vs = length its -> length vs0 = length its ->
  set_vals (combine (spos (length pre) its) vs) (pre ++ render its vs0 ++ post) = pre ++ render its vs ++ post.
Proof.
  induction its as [|[f rc] its IH]; intros [|v vs] [|v0 vs0] pre post H H0; cbn [length] in *; try lia; [reflexivity|].
  cbn [spos combine render set_vals fold_left fst snd].
  replace (pre ++ (f ++ (rc, v0) :: render its vs0) ++ post) with ((pre ++ f) ++ (rc, v0) :: (render its vs0 ++ post)) by (rewrite <- !app_assoc; reflexivity).
  rewrite <- app_length, set_val_mid. cbn [fst].
  replace ((pre ++ f) ++ (rc, v) :: render its vs0 ++ post) with (((pre ++ f) ++ [(rc, v)]) ++ render its vs0 ++ post) by (rewrite <- app_assoc; reflexivity).
  replace (length (pre ++ f) + 1)%nat with (length ((pre ++ f) ++ [(rc, v)])) by (rewrite (app_length (pre ++ f)); reflexivity).
  fold (set_vals (combine (spos (length ((pre ++ f) ++ [(rc, v)])) its) vs) (((pre ++ f) ++ [(rc, v)]) ++ render its vs0 ++ post)).
  rewrite IH by lia. rewrite <- !app_assoc. reflexivity.
Qed.
Lemma render_app a b va vb : length va = length a -> render (a ++ b) (va ++ vb) = render a va ++ render b vb.
Proof.
  revert va. induction a as [|[f rc] a IH]; intros [|v va] H; cbn [length] in *; try lia; [reflexivity|].
  cbn [app render]. rewrite IH by lia. rewrite <- app_assoc. reflexivity.
Qed.
Lemma spos_app a b off : spos off (a ++ b) = spos off a ++ spos (off + nsum 0 (fun _ => 0%nat) + fold_right (fun it acc => (length (fst it) + 1 + acc)%nat) 0%nat a) b.
Proof.
  revert off. induction a as [|[f rc] a IH]; intros off; cbn [app spos fold_right fst nsum].
  - f_equal. lia.
  - rewrite IH. cbn [app nsum]. do 3 f_equal. lia.
Qed.

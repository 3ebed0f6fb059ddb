(** Lemmas about the real-time model class. *)
From Coq Require Import Reals List Arith ZArith Bool Lia Lra.
Import ListNotations.
From Verif Require Import Base BaseProofs ExprsModel ExprsProofs RtMatModel RtMatProofs HierModel HierSpec HierProofs HierProofs2 HierProofs3 RtmModel RtmSpec.
Local Open Scope R_scope.

(** ** Reduction of the columns *)
Lemma find_from_map : forall A B (g : A -> B) (p : B -> bool) fuel l i, find_from (fun x => p (g x)) fuel l i = find_from p fuel (map g l) i.
Proof.
  intros A B g p fuel. induction fuel as [|fuel IH]; intros l i; cbn; [reflexivity|]. rewrite nth_error_map. destruct (nth_error l i); cbn; [|reflexivity]. destruct (p (g a)); auto.
Qed.
Lemma map_blit : forall A B (g : A -> B) l d s len, map g (blit l d s len) = blit (map g l) d s len.
Proof. intros. unfold blit. rewrite !map_app, <- !skipn_map, <- !firstn_map. now rewrite <- skipn_map. Qed.
Lemma skipn_add : forall A (m : list A) a b, skipn (a + b) m = skipn a (skipn b m).
Proof. intros A m a b. revert m. induction b; intros m; cbn; [now rewrite Nat.add_0_r|]. rewrite Nat.add_succ_r. destruct m; cbn; [now rewrite skipn_nil|]. apply IHb. Qed.
Lemma blit_tail : forall A (l : list A) d s len f, (d + len <= f)%nat -> (s + len <= length l)%nat -> (d + len <= length l)%nat -> skipn f (blit l d s len) = skipn f l.
Proof.
  intros A l d s len f H1 H2 H3. unfold blit. assert (Lf : length (firstn d l) = d) by (rewrite firstn_length; lia).
  assert (Lm : length (firstn len (skipn s l)) = len) by (rewrite firstn_length, skipn_length; lia).
  rewrite app_assoc, skipn_app, skipn_all2 by (rewrite app_length; lia). rewrite app_length, Lf, Lm. cbn [app]. rewrite <- skipn_add. f_equal. lia.
Qed.
Lemma blit_length : forall A (l : list A) d s len, (s + len <= length l)%nat -> (d + len <= length l)%nat -> length (blit l d s len) = length l.
Proof. intros. unfold blit. rewrite !app_length, !firstn_length, !skipn_length. lia. Qed.
Lemma rc_loop_rel : forall A flags fuel (l : list (Z * A)) first start, length l = length flags -> (first < start)%nat -> (first < length flags)%nat -> skipn start (map fst l) = skipn start flags ->
  rc_loop fuel flags (map snd l) first start = let '(l', f') := compact_loop (fun x => inactive (fst x)) (fun x => active (fst x)) fuel l first start in (map snd l', f').
Proof.
  intros A flags fuel. induction fuel as [|fuel IH]; intros l first start Hl Hfs Hb Hs; [reflexivity|].
  cbn [rc_loop compact_loop]. rewrite Hl. rewrite (find_from_map _ _ fst active), (find_from_map _ _ fst inactive).
  rewrite (find_from_ext Z flags active _ (map fst l) start start Hs) by lia.
  pose proof (find_from_spec _ active (length flags) flags start ltac:(lia)) as (F1 & F2 & F3 & F4). set (s1 := find_from active (length flags) flags start) in *.
  destruct (Nat.leb_spec (length flags) s1) as [He|He]; [reflexivity|].
  rewrite (find_from_ext Z flags inactive _ (map fst l) start (s1 + 1)%nat Hs) by lia.
  pose proof (find_from_spec _ inactive (length flags) flags (s1 + 1)%nat ltac:(lia)) as (G1 & G2 & G3 & G4). set (f1 := find_from inactive (length flags) flags (s1 + 1)%nat) in *. specialize (G4 ltac:(lia)).
  rewrite <- map_blit. apply IH.
  - rewrite blit_length; lia.
  - lia.
  - lia.
  - rewrite map_blit, blit_tail by (rewrite ?map_length; lia). replace f1 with (f1 - start + start)%nat by lia. now rewrite !skipn_add, Hs.
Qed.
Lemma rc_loop_out : forall A flags fuel (cols : list A) first start, (length flags <= start)%nat -> rc_loop fuel flags cols first start = (cols, first).
Proof.
  intros A flags fuel cols first start H. destruct fuel; [reflexivity|]. cbn [rc_loop]. pose proof (find_from_spec _ active (length flags) flags start ltac:(lia)) as (F1 & _).
  destruct (Nat.leb_spec (length flags) (find_from active (length flags) flags start)); [reflexivity|lia].
Qed.
Lemma compact_loop_out : forall A e k fuel (l : list A) first start, (length l <= start)%nat -> compact_loop e k fuel l first start = (l, first).
Proof.
  intros A e k fuel l first start H. destruct fuel; [reflexivity|]. cbn [compact_loop]. pose proof (find_from_spec _ k (length l) l start ltac:(lia)) as (F1 & _).
  destruct (Nat.leb_spec (length l) (find_from k (length l) l start)); [reflexivity|lia].
Qed.
Lemma map_fst_combine : forall A B (a : list A) (b : list B), length a = length b -> map fst (combine a b) = a.
Proof. induction a; intros [|y b] H; cbn in *; try discriminate; auto. f_equal. apply IHa. lia. Qed.
Lemma map_snd_combine : forall A B (a : list A) (b : list B), length a = length b -> map snd (combine a b) = b.
Proof. induction a; intros [|y b] H; cbn in *; try discriminate; auto. f_equal. apply IHa. lia. Qed.
Lemma reduce_list_spec : forall A flags (cols : list A), length cols = length flags ->
  reduce_list flags cols = map snd (filter (fun x => active (fst x)) (combine flags cols)).
Proof.
  intros A flags cols Hl. rewrite <- (compact_spec (Z * A) (fun x => inactive (fst x)) (fun x => active (fst x))).
  2: { intros x _. unfold active, inactive. destruct (Z.leb_spec 0 (fst x)), (Z.ltb_spec (fst x) 0); try reflexivity; lia. }
  unfold reduce_list, compact. set (l := combine flags cols).
  assert (Ll : length l = length flags) by (unfold l; rewrite combine_length; lia).
  assert (Mf : map fst l = flags) by (apply map_fst_combine; auto). assert (Ms : map snd l = cols) by (apply map_snd_combine; auto).
  rewrite (find_from_map _ _ fst inactive), Mf, Ll. pose proof (find_from_spec _ inactive (length flags) flags 0 ltac:(lia)) as (F1 & F2 & F3 & F4). specialize (F4 ltac:(lia)).
  set (f := find_from inactive (length flags) flags 0) in *.
  destruct (Nat.eq_dec f (length flags)) as [E|E].
  - rewrite rc_loop_out by lia. rewrite compact_loop_out by lia. now rewrite <- firstn_map, Ms.
  - rewrite <- Ms at 1. rewrite rc_loop_rel by (try lia; now rewrite Mf).
    destruct (compact_loop _ _ _ l f (f + 1)) as [l' f']. now rewrite firstn_map.
Qed.
(** The k-th kept column. *)
Definition kept (flags : list Z) (n : nat) : list nat := filter (is_active flags) (seq 0 n).
Lemma kept_S : forall flags n, kept flags (S n) = kept flags n ++ (if is_active flags n then [n] else []).
Proof. intros. unfold kept. rewrite seq_S, filter_app. cbn. destruct (is_active flags n); reflexivity. Qed.
Lemma kept_length : forall flags n, length (kept flags n) = active_before flags n.
Proof. intros flags n. induction n; [reflexivity|]. rewrite kept_S, app_length, IHn. cbn. destruct (is_active flags n); reflexivity. Qed.
Lemma combine_seq_filter : forall A (flags : list Z) (g : nat -> A) a, map snd (filter (fun x => active (fst x)) (combine flags (map g (seq a (length flags))))) = map g (map (fun j => (a + j)%nat) (filter (is_active flags) (seq 0 (length flags)))).
Proof.
  intros A flags. induction flags as [|f flags IH]; intros g a; [reflexivity|]. cbn [length seq map combine filter fst].
  change (is_active (f :: flags) 0) with (active f).
  assert (T : filter (is_active (f :: flags)) (seq 1 (length flags)) = map Datatypes.S (filter (is_active flags) (seq 0 (length flags)))).
  { rewrite <- seq_shift. generalize (seq 0 (length flags)). intros l. induction l as [|x l IHl]; [reflexivity|]. cbn [map filter]. change (is_active (f :: flags) (Datatypes.S x)) with (is_active flags x). destruct (is_active flags x); cbn [map]; now rewrite IHl. }
  rewrite T. specialize (IH g (Datatypes.S a)). destruct (active f); cbn [map snd]; rewrite IH, ?map_map.
  - f_equal; [f_equal; lia|]. apply map_ext; intros; f_equal; lia.
  - apply map_ext; intros; f_equal; lia.
Qed.
Lemma reduce_columns_eq : forall flags rows, reduce_list flags (columns (length flags) rows) = map (fun j => map (fun r : row => fst r j) rows) (kept flags (length flags)).
Proof.
  intros. unfold columns. rewrite reduce_list_spec by (now rewrite map_length, seq_length). rewrite combine_seq_filter. unfold kept. f_equal.
  cbn. now rewrite map_id.
Qed.
Lemma expand_sum : forall flags n (r x : nat -> R), rsum n (fun j => r j * expand flags x j) = rsum (active_before flags n) (fun k => r (nth k (kept flags n) O) * x k).
Proof.
  intros flags n r x. induction n as [|n IH]; [reflexivity|]. rewrite rsum_S, IH. cbn [active_before]. unfold expand at 1.
  assert (P : rsum (active_before flags n) (fun k => r (nth k (kept flags (S n)) O) * x k) = rsum (active_before flags n) (fun k => r (nth k (kept flags n) O) * x k)).
  { apply rsum_ext; intros k Hk. rewrite kept_S, app_nth1 by (rewrite kept_length; lia). reflexivity. }
  destruct (is_active flags n) eqn:E.
  - rewrite Nat.add_1_r, rsum_S, P. f_equal. rewrite kept_S, E, app_nth2 by (rewrite kept_length; lia). rewrite kept_length, Nat.sub_diag. reflexivity.
  - rewrite Nat.add_0_r, P. ring.
Qed.
Lemma nth_combine_seq : forall (rows : list row) i a d, (i < length rows)%nat -> nth i (combine (seq a (length rows)) rows) d = ((a + i)%nat, nth i rows (snd d)).
Proof.
  induction rows as [|r rows IH]; intros i a d Hi; [cbn in Hi; lia|]. destruct i; cbn [length seq combine nth]; [f_equal; lia|]. rewrite IH by (cbn in Hi; lia). f_equal. lia.
Qed.
Definition zrow : row := ((fun _ => 0), 0).
Definition rrow (flags : list Z) (n : nat) (r : row) : row := ((fun k => if (k <? active_before flags n)%nat then fst r (nth k (kept flags n) O) else 0), snd r).
Lemma reduce_rows_spec : forall flags n rows m rows', reduce_rows flags n rows = Ok (m, rows') ->
  n = length flags /\ m = active_before flags n /\ length rows' = length rows /\
  forall i, (i < length rows)%nat -> (forall k, (k < m)%nat -> fst (nth i rows' zrow) k = fst (nth i rows zrow) (nth k (kept flags n) O)) /\ snd (nth i rows' zrow) = snd (nth i rows zrow).
Proof.
  intros flags n rows m rows' H. unfold reduce_rows in H. apply guard_ok in H. destruct H as [G H]. apply Nat.eqb_eq in G. subst n.
  rewrite reduce_columns_eq in H. injection H as Hm Hr. rewrite map_length, kept_length in Hm.
  split; [reflexivity|]. split; [auto|]. split; [rewrite <- Hr, map_length, combine_length, seq_length; lia|].
  intros i Hi. 
  assert (N : nth i rows' zrow = ((fun j => nth i (nth j (map (fun j => map (fun r : row => fst r j) rows) (kept flags (length flags))) []) 0), snd (nth i rows zrow))).
  { rewrite <- Hr. rewrite (nth_indep _ zrow ((fun ir : nat * row => ((fun j => nth (fst ir) (nth j (map (fun j => map (fun r : row => fst r j) rows) (kept flags (length flags))) []) 0), snd (snd ir))) (O, zrow))) by (rewrite map_length, combine_length, seq_length; lia).
    rewrite (map_nth (fun ir : nat * row => ((fun j => nth (fst ir) (nth j (map (fun j => map (fun r : row => fst r j) rows) (kept flags (length flags))) []) 0), snd (snd ir)))).
    rewrite nth_combine_seq by exact Hi. reflexivity. }
  rewrite N. split; [|reflexivity]. intros k Hk. cbn [fst].
  rewrite (nth_indep _ [] ((fun j => map (fun r : row => fst r j) rows) O)) by (rewrite map_length, kept_length; lia).
  rewrite (map_nth (fun j => map (fun r : row => fst r j) rows)).
  rewrite (nth_indep _ 0 ((fun r : row => fst r (nth k (kept flags (length flags)) O)) zrow)) by (rewrite map_length; lia).
  rewrite (map_nth (fun r : row => fst r (nth k (kept flags (length flags)) O))). reflexivity.
Qed.
Lemma reduced_residual : forall flags n rows m rows', reduce_rows flags n rows = Ok (m, rows') ->
  forall i x, (i < length rows)%nat -> row_at m (nth i rows' zrow) x = row_at n (nth i rows zrow) (expand flags x).
Proof.
  intros flags n rows m rows' H i x Hi. destruct (reduce_rows_spec _ _ _ _ _ H) as (E1 & E2 & E3 & E4). destruct (E4 i Hi) as [F1 F2].
  unfold row_at. rewrite F2. f_equal. rewrite expand_sum, <- E2. apply rsum_ext; intros k Hk. now rewrite F1.
Qed.
(** ** Rows of the constraints *)
Lemma foldM_row : forall n ts r r', foldM (fun r t => guard (fst t <? n)%nat (Ok (upd r (fst t) (snd t)))) ts r = Ok r' ->
  (forall t, In t ts -> (fst t < n)%nat) /\ r' = fold_left (fun (r : nat -> R) t => upd r (fst t) (snd t)) ts r.
Proof.
  intros n ts. induction ts as [|t ts IH]; intros r r' H; cbn in H; [injection H as <-; split; [intros ? []|reflexivity]|].
  apply bind_ok in H. destruct H as (r1 & H1 & H2). apply guard_ok in H1. destruct H1 as [G H1]. injection H1 as <-. apply Nat.ltb_lt in G.
  destruct (IH _ _ H2) as [I1 I2]. split; [intros u [<-|Hu]; auto|]. rewrite I2. reflexivity.
Qed.
Lemma foldM_row_ok : forall n ts r, (forall t, In t ts -> (fst t < n)%nat) -> foldM (fun (r : nat -> R) t => guard (fst t <? n)%nat (Ok (upd r (fst t) (snd t)))) ts r = Ok (fold_left (fun (r : nat -> R) t => upd r (fst t) (snd t)) ts r).
Proof.
  intros n ts. induction ts as [|t ts IH]; intros r H; [reflexivity|]. cbn [foldM fold_left]. pose proof (H t (or_introl eq_refl)) as Ht. apply Nat.ltb_lt in Ht. rewrite Ht. cbn.
  apply IH. intros; apply H; now right.
Qed.
Lemma fold_upd_value : forall n x ts r, NoDup (map fst ts) -> (forall t, In t ts -> (fst t < n)%nat) -> (forall t, In t ts -> r (fst t) = 0) ->
  rsum n (fun j => fold_left (fun (r : nat -> R) t => upd r (fst t) (snd t)) ts r j * x j) = rsum n (fun j => r j * x j) + tsum x ts.
Proof.
  intros n x ts. induction ts as [|[c a] ts IH]; intros r ND Hn Hz; [cbn; ring|].
  cbn [fold_left fst snd map] in *. inversion ND as [|? ? Nin ND2]; subst.
  rewrite IH; [|exact ND2|intros; apply Hn; now right|].
  - assert (U : rsum n (fun j => upd r c a j * x j) = rsum n (fun j => r j * x j) + a * x c).
    { assert (Hc : (c < n)%nat) by (apply (Hn (c, a)); now left). assert (Zc : r c = 0) by (apply (Hz (c, a)); now left).
      assert (E : rsum n (fun j => upd r c a j * x j - r j * x j) = a * x c).
      { rewrite (rsum_single n c); [rewrite upd_same, Zc; ring|exact Hc|]. intros j Hj N. rewrite upd_other by exact N. ring. }
      rewrite rsum_minus in E. lra. }
    rewrite U. change (tsum x ((c, a) :: ts)) with (a * x c + tsum x ts) || cbn. ring.
  - intros t Ht. rewrite upd_other; [apply Hz; now right|]. intros E. apply Nin. rewrite <- E. now apply in_map.
Qed.
Lemma build_row_value : forall n e r, NoDup (map fst (le_terms e)) -> build_row n e = Ok r -> vars_below n e /\ forall x, row_at n r x = le_value x e.
Proof.
  intros n e r ND H. unfold build_row in H. apply bind_ok in H. destruct H as (r1 & H1 & H2). injection H2 as <-. destruct (foldM_row _ _ _ _ H1) as [V ->].
  split; [exact V|]. intros x. unfold row_at. cbn [fst snd]. rewrite fold_upd_value by auto. rewrite rsum_zero by (intros; ring). rewrite le_value_tsum. ring.
Qed.
Lemma build_row_ok : forall n e, vars_below n e -> exists r, build_row n e = Ok r.
Proof. intros n e H. unfold build_row. rewrite foldM_row_ok by exact H. cbn. eauto. Qed.
Lemma mapM_spec : forall A B (f : A -> res B) l l', mapM f l = Ok l' -> Forall2 (fun a b => f a = Ok b) l l'.
Proof.
  intros A B f l. induction l as [|a l IH]; intros l' H; cbn in H; [injection H as <-; constructor|].
  apply bind_ok in H. destruct H as (b & H1 & H). apply bind_ok in H. destruct H as (bs & H2 & H). injection H as <-. constructor; auto.
Qed.
Lemma F2_length : forall A B (P : A -> B -> Prop) l l', Forall2 P l l' -> length l = length l'.
Proof. intros A B P l l' H. induction H; cbn; auto. Qed.
Lemma mapM_ok : forall A B (f : A -> res B) l, (forall a, In a l -> exists b, f a = Ok b) -> exists l', mapM f l = Ok l'.
Proof.
  intros A B f l. induction l as [|a l IH]; intros H; [eexists; reflexivity|]. destruct (H a (or_introl eq_refl)) as [b Eb]. destruct IH as [bs Ebs]; [intros; apply H; now right|].
  exists (b :: bs). cbn. rewrite Eb. cbn. rewrite Ebs. reflexivity.
Qed.
(** ** Tasks *)
Lemma coef_row : forall n e r j, NoDup (map fst (le_terms e)) -> build_row n e = Ok r -> (j < n)%nat -> fst r j = coef e j.
Proof.
  intros n e r j ND H Hj. destruct (build_row_value n e r ND H) as [_ V]. unfold coef. rewrite <- V. unfold row_at.
  rewrite (rsum_single n j); [|exact Hj|intros i Hi N; rewrite (proj2 (Nat.eqb_neq i j) N); ring]. rewrite Nat.eqb_refl.
  assert (S : snd r = le_const e). { unfold build_row in H. apply bind_ok in H. destruct H as (r1 & _ & H). injection H as <-. reflexivity. }
  rewrite S. ring.
Qed.
Lemma reduced_size : forall flags n rows m rows' i, reduce_rows flags n rows = Ok (m, rows') -> (i < length rows)%nat ->
  row_abs m (fst (nth i rows' zrow)) = rsum n (fun j => if is_active flags j then Rabs (fst (nth i rows zrow) j) else 0).
Proof.
  intros flags n rows m rows' i H Hi. destruct (reduce_rows_spec _ _ _ _ _ H) as (E1 & E2 & E3 & E4). destruct (E4 i Hi) as [F1 F2].
  unfold row_abs. pose proof (expand_sum flags n (fun j => Rabs (fst (nth i rows zrow) j)) (fun _ => 1)) as X.
  rewrite <- E2 in X. rewrite (rsum_ext m _ (fun k => Rabs (fst (nth i rows zrow) (nth k (kept flags n) 0%nat)) * 1)) by (intros k Hk; rewrite F1 by exact Hk; ring).
  rewrite <- X. apply rsum_ext; intros j Hj. unfold expand. destruct (is_active flags j); ring.
Qed.
Lemma to_mat_row : forall n rows i x, (i < length rows)%nat -> row_value (to_mat n rows) (to_vec rows) i x = row_at n (nth i rows zrow) (va x).
Proof. intros. reflexivity. Qed.
Lemma nnz_spec : forall m rows, (forall r, In r rows -> row_abs m (fst r) <> length_thresh) -> nnz m rows = filter (fun x => if Rlt_dec length_thresh (row_abs m (fst x)) then true else false) rows.
Proof.
  intros n l H. unfold nnz, removeZeroRows. apply compact_spec. intros x Hx. specialize (H x Hx).
  destruct (Rlt_dec length_thresh (row_abs n (fst x))), (Rlt_dec (row_abs n (fst x)) length_thresh); try reflexivity; lra.
Qed.
(** One half of a task: constraints [cs], the rows the composers gave, the rows in the task. *)
Definition half (cap n : nat) (flags : list Z) (cs : list (Z * linexpr)) (rank : Z) (before after : list row) (m : nat) (out : list row) : Prop :=
  exists rows0 rowsR, add_costs cap n cs rank before = Ok rows0 /\ reduce_rows flags n rows0 = Ok (m, rowsR) /\ out = nnz m rowsR ++ after.
Lemma nth_In_ex : forall A (l : list A) x d, In x l -> exists i, (i < length l)%nat /\ nth i l d = x.
Proof. intros. destruct (In_nth l x d H) as (i & Hi & E). eauto. Qed.
Lemma half_rows : forall cap n flags cs rank before after m out, half cap n flags cs rank before after m out ->
  (forall x, In x cs -> NoDup (map fst (le_terms (snd x)))) ->
  (forall x, In x cs -> fst x = rank -> active_size flags n (snd x) <> length_thresh) ->
  (forall r, In r before -> rsum n (fun j => if is_active flags j then Rabs (fst r j) else 0) <> length_thresh) ->
  forall x, In x cs -> fst x = rank -> active_size flags n (snd x) < length_thresh \/
    exists i, (i < length out)%nat /\ forall v, row_at m (nth i out zrow) v = le_value (expand flags v) (snd x).
Proof.
  intros cap n flags cs rank before after m out (rows0 & rowsR & H1 & H2 & ->) ND Hb Hbb x Hx Hr.
  unfold add_costs in H1. apply bind_ok in H1. destruct H1 as (new & M & H1). apply guard_ok in H1. destruct H1 as [_ H1]. injection H1 as <-.
  apply mapM_spec in M. destruct (reduce_rows_spec _ _ _ _ _ H2) as (E1 & E2 & E3 & E4).
  assert (Size : forall i e, nth_error (map snd (filter (fun x => fst x =? rank)%Z cs)) i = Some e -> exists r, nth_error new i = Some r /\ build_row n e = Ok r /\ In e (map snd (filter (fun x => fst x =? rank)%Z cs))).
  { clear - M. induction M as [|e r l l' He M IH]; intros i u Hu; [destruct i; discriminate|]. destruct i; cbn in *; [injection Hu as <-; eauto|]. destruct (IH _ _ Hu) as (r' & A & B & C). eauto. }
  assert (Hin : In (snd x) (map snd (filter (fun x => fst x =? rank)%Z cs))) by (apply in_map, filter_In; split; [exact Hx|now apply Z.eqb_eq]).
  destruct (In_nth_error _ _ Hin) as [i Hi]. destruct (Size i _ Hi) as (r & Hr1 & Hr2 & _).
  assert (Li : (i < length new)%nat) by (apply nth_error_Some; congruence).
  assert (Ni : nth (length before + i) (before ++ new) zrow = r) by (rewrite app_nth2 by lia; replace (length before + i - length before)%nat with i by lia; now apply nth_error_nth).
  assert (Lt : (length before + i < length (before ++ new))%nat) by (rewrite app_length; lia).
  assert (Sz : row_abs m (fst (nth (length before + i) rowsR zrow)) = active_size flags n (snd x)).
  { rewrite (reduced_size _ _ _ _ _ _ H2 Lt), Ni. unfold active_size. apply rsum_ext; intros j Hj. destruct (is_active flags j); [|reflexivity]. now rewrite (coef_row n (snd x) r j (ND x Hx) Hr2 Hj). }
  destruct (Rlt_dec (active_size flags n (snd x)) length_thresh) as [Lo|Hi2]; [left; exact Lo|right].
  assert (Big : length_thresh < active_size flags n (snd x)) by (specialize (Hb x Hx Hr); lra).
  assert (NB : forall r, In r rowsR -> row_abs m (fst r) <> length_thresh).
  { intros q Hq. destruct (nth_In_ex _ _ _ zrow Hq) as (k & Hk & <-). rewrite E3 in Hk. rewrite (reduced_size _ _ _ _ _ _ H2 Hk).
    rewrite app_length in Hk. destruct (Nat.lt_ge_cases k (length before)) as [L|L].
    - rewrite app_nth1 by exact L. apply Hbb. now apply nth_In.
    - rewrite app_nth2 by exact L. set (k' := (k - length before)%nat). assert (Hk' : (k' < length new)%nat) by (unfold k'; lia).
      assert (Ex : exists e, nth_error (map snd (filter (fun x => fst x =? rank)%Z cs)) k' = Some e).
      { destruct (nth_error (map snd (filter (fun x => fst x =? rank)%Z cs)) k') eqn:Ee; [eauto|]. apply nth_error_None in Ee. apply F2_length in M. lia. }
      destruct Ex as [e Ee]. destruct (Size k' e Ee) as (r' & A & B & C). rewrite (nth_error_nth _ _ zrow A).
      apply in_map_iff in C. destruct C as (y & <- & Cy). apply filter_In in Cy. destruct Cy as [Cy1 Cy2]. apply Z.eqb_eq in Cy2.
      intros Ez. apply (Hb y Cy1 Cy2). rewrite <- Ez. unfold active_size. apply rsum_ext; intros j Hj. destruct (is_active flags j); [|reflexivity].
      now rewrite (coef_row n (snd y) r' j (ND y Cy1) B Hj). }
  rewrite (nnz_spec m rowsR NB).
  assert (InF : In (nth (length before + i) rowsR zrow) (filter (fun x => if Rlt_dec length_thresh (row_abs m (fst x)) then true else false) rowsR)).
  { apply filter_In. split; [apply nth_In; rewrite E3; exact Lt|]. rewrite Sz. destruct (Rlt_dec length_thresh (active_size flags n (snd x))); [reflexivity|contradiction]. }
  destruct (nth_In_ex _ _ _ zrow InF) as (k & Hk & Ek). exists k. split; [rewrite app_length; lia|]. intros v. rewrite app_nth1 by exact Hk. rewrite Ek.
  rewrite (reduced_residual _ _ _ _ _ H2 _ v Lt), Ni. apply (build_row_value n (snd x) r (ND x Hx) Hr2).
Qed.
(** Every row comes from somewhere. *)
Lemma half_rows_back : forall cap n flags cs rank m out, half cap n flags cs rank [] [] m out ->
  (forall x, In x cs -> NoDup (map fst (le_terms (snd x)))) ->
  (forall x, In x cs -> fst x = rank -> active_size flags n (snd x) <> length_thresh) ->
  forall i, (i < length out)%nat -> exists x, In x cs /\ fst x = rank /\ forall v, row_at m (nth i out zrow) v = le_value (expand flags v) (snd x).
Proof.
  intros cap n flags cs rank m out (rows0 & rowsR & H1 & H2 & ->) ND Hb i Hi.
  unfold add_costs in H1. apply bind_ok in H1. destruct H1 as (new & M & H1). apply guard_ok in H1. destruct H1 as [_ H1]. injection H1 as <-. cbn [app] in *. rewrite app_nil_r in *.
  apply mapM_spec in M. destruct (reduce_rows_spec _ _ _ _ _ H2) as (E1 & E2 & E3 & E4).
  assert (Back : forall k, (k < length new)%nat -> exists x, In x cs /\ fst x = rank /\ build_row n (snd x) = Ok (nth k new zrow)).
  { intros k Hk. assert (Ex : exists e, nth_error (map snd (filter (fun x => fst x =? rank)%Z cs)) k = Some e).
    { destruct (nth_error (map snd (filter (fun x => fst x =? rank)%Z cs)) k) eqn:Ee; [eauto|]. apply nth_error_None in Ee. apply F2_length in M. lia. }
    destruct Ex as [e Ee]. assert (B : build_row n e = Ok (nth k new zrow)).
    { clear - M Ee. revert k Ee. induction M as [|e' r l l' He M IH]; intros k Ee; [destruct k; discriminate|]. destruct k; cbn in *; [congruence|]. auto. }
    apply nth_error_In in Ee. apply in_map_iff in Ee. destruct Ee as (y & <- & Cy). apply filter_In in Cy. destruct Cy as [Cy1 Cy2]. apply Z.eqb_eq in Cy2. eauto. }
  assert (NB : forall r, In r rowsR -> row_abs m (fst r) <> length_thresh).
  { intros q Hq. destruct (nth_In_ex _ _ _ zrow Hq) as (k & Hk & <-). rewrite E3 in Hk. rewrite (reduced_size _ _ _ _ _ _ H2 Hk). destruct (Back k Hk) as (y & Y1 & Y2 & Y3).
    intros Ez. apply (Hb y Y1 Y2). rewrite <- Ez. unfold active_size. apply rsum_ext; intros j Hj. destruct (is_active flags j); [|reflexivity]. now rewrite (coef_row n (snd y) _ j (ND y Y1) Y3 Hj). }
  rewrite (nnz_spec m rowsR NB) in *. match type of Hi with (i < length ?G)%nat => remember G as F eqn:EF end. assert (IF : In (nth i F zrow) F) by (now apply nth_In).
  rewrite EF in IF at 2. apply filter_In in IF. destruct IF as [IF _]. destruct (nth_In_ex _ _ _ zrow IF) as (k & Hk & Ek). rewrite E3 in Hk. destruct (Back k Hk) as (y & Y1 & Y2 & Y3).
  exists y. repeat split; auto. intros v. transitivity (row_at m (nth k rowsR zrow) v); [f_equal; symmetry; exact Ek|]. rewrite (reduced_residual _ _ _ _ _ H2 _ v Hk). apply (build_row_value n (snd y) _ (ND y Y1) Y3).
Qed.
Lemma build_task_halves : forall capIneq capEq n flags comps c rank slack t, build_task capIneq capEq n flags comps c rank slack = Ok t ->
  exists m mi outE outI, half capEq n flags (leq c) rank (flat_map (fun p => cp_eq p rank) comps) (flat_map (fun p => cp_eq_after p rank) comps) m outE /\
    half capIneq n flags (lineq c) rank (flat_map (fun p => cp_ineq p rank) comps) (flat_map (fun p => cp_ineq_after p rank) comps) mi outI /\
    t = mkT (to_mat m outE) (to_vec outE) (to_mat mi outI) (to_vec outI) slack.
Proof.
  intros capIneq capEq n flags comps c rank slack t H. unfold build_task in H.
  apply bind_ok in H. destruct H as (eq0 & H1 & H). apply bind_ok in H. destruct H as (in0 & H2 & H). apply bind_ok in H. destruct H as ([m me] & H3 & H). apply bind_ok in H. destruct H as ([mi ri] & H4 & H).
  apply guard_ok in H. destruct H as [_ H]. cbn [fst snd] in H. injection H as <-. do 4 eexists. split; [|split; [|reflexivity]].
  - exists eq0, me. auto.
  - exists in0, ri. auto.
Qed.
(** ** Calls *)
Lemma add_calls_leq : forall cs c c', add_calls cs c = Ok c' ->
  (forall k, In k cs -> c_sense k <> SOther) /\
  (forall x, In x (leq c') <-> In x (leq c) \/ exists k, In k cs /\ c_sense k = SEq /\ x = (c_rank k, difference k)) /\
  (forall x, In x (lineq c') <-> In x (lineq c) \/ exists k, In k cs /\ (c_sense k = SLt \/ c_sense k = SGt) /\ x = (c_rank k, difference k)).
Proof.
  induction cs as [|k cs IH]; intros c c' H; unfold add_calls in H; cbn in H.
  - injection H as <-. split; [intros ? []|]. split; intros x; split; try tauto; intros [?|(k & [] & _)]; auto.
  - apply bind_ok in H. destruct H as (c1 & H1 & H2). destruct (IH c1 c' H2) as (I1 & I2 & I3).
    unfold addLinConstr in H1. unfold difference in *. destruct (c_sense k) eqn:Ek; try discriminate; injection H1 as <-; cbn [leq lineq] in *.
    + split; [intros k' [<-|Hk']; [congruence|auto]|]. split; intros x; [rewrite I2, in_app_iff|rewrite I3]; cbn; split.
      * intros [[Hx|[<-|[]]]|(k' & A & B & C)]; auto; [right; exists k; rewrite Ek; auto|right; exists k'; auto].
      * intros [Hx|(k' & [<-|A] & B & C)]; auto; [left; right; left; rewrite Ek in C; auto|right; exists k'; auto].
      * intros [Hx|(k' & A & B & C)]; auto. right; exists k'; auto.
      * intros [Hx|(k' & [<-|A] & B & C)]; auto; [destruct B; congruence|right; exists k'; auto].
    + split; [intros k' [<-|Hk']; [congruence|auto]|]. split; intros x; [rewrite I2|rewrite I3, in_app_iff]; cbn; split.
      * intros [Hx|(k' & A & B & C)]; auto. right; exists k'; auto.
      * intros [Hx|(k' & [<-|A] & B & C)]; auto; [congruence|right; exists k'; auto].
      * intros [[Hx|[<-|[]]]|(k' & A & B & C)]; auto; [right; exists k; rewrite Ek; auto|right; exists k'; auto].
      * intros [Hx|(k' & [<-|A] & B & C)]; auto; [left; right; left; rewrite Ek in C; auto|right; exists k'; auto].
    + split; [intros k' [<-|Hk']; [congruence|auto]|]. split; intros x; [rewrite I2|rewrite I3, in_app_iff]; cbn; split.
      * intros [Hx|(k' & A & B & C)]; auto. right; exists k'; auto.
      * intros [Hx|(k' & [<-|A] & B & C)]; auto; [congruence|right; exists k'; auto].
      * intros [[Hx|[<-|[]]]|(k' & A & B & C)]; auto; [right; exists k; rewrite Ek; auto|right; exists k'; auto].
      * intros [Hx|(k' & [<-|A] & B & C)]; auto; [left; right; left; rewrite Ek in C; auto|right; exists k'; auto].
Qed.
Lemma difference_nodup : forall k, NoDup (map fst (le_terms (difference k))).
Proof. intros. unfold difference, le_sub. destruct (c_sense k); apply le_add_nodup. Qed.
(** ** The loop over the ranks *)
Section SL.
Variable nullmap : mat -> mat.
Variable qp : mat -> vec -> mat -> vec -> option vec.
Variable least_norm : mat -> vec -> vec.
Variable relax diag : R.
Variable capIneq capEq capA n : nat.
Variable flags : list Z.
Variable nopt : nat.
Variable comps : list composer.
Variable noslack : list Z.
Notation run := (h_run nullmap qp least_norm relax diag capA capEq).
Notation loop := (solve_loop nullmap qp least_norm relax diag capIneq capEq capA n flags nopt comps noslack).
Lemma run_snoc : forall ts t s s1 s2 b, run ts s = Ok s1 -> h_task nullmap qp least_norm relax diag capA capEq s1 t = Ok (s2, b) -> run (ts ++ [t]) s = Ok s2.
Proof.
  induction ts as [|u ts IH]; intros t s s1 s2 b H1 H2.
  - cbn in H1. injection H1 as <-. unfold h_run. cbn. rewrite H2. reflexivity.
  - destruct (h_run_cons _ _ _ _ _ _ _ _ _ _ _ H1) as (s' & b' & A & B). unfold h_run. cbn [app foldM]. rewrite A. cbn. apply (IH t s' s1 s2 b B H2).
Qed.
Definition flag_of (slack : bool) : bool := if (length noslack =? 0)%nat then slack else true.
Lemma flag_once : forall slack, flag_of (flag_of slack) = flag_of slack.
Proof. intros. unfold flag_of. destruct (length noslack =? 0)%nat; reflexivity. Qed.
Lemma loop_spec : forall c slack fuel rank s solved done r, loop fuel c (Z.of_nat rank) slack s solved done = Some (Ok r) ->
  length done = rank -> solved = rank -> ((rank > 0)%nat -> run done (h_reset nopt) = Ok s) ->
  exists k, (rank <= k)%nat /\ length (r_tasks r) = S k /\ (forall i, (i < rank)%nat -> nth_error (r_tasks r) i = nth_error done i) /\
    (forall i, (rank <= i <= k)%nat -> exists t, nth_error (r_tasks r) i = Some t /\ build_task capIneq capEq n flags comps c (Z.of_nat i) (flag_of slack) = Ok t) /\
    run (r_tasks r) (h_reset nopt) = Ok (r_state r) /\ r_solved r = (if r_valid r then S k else k) /\
    (r_valid r = true -> ranks_left comps c (Z.of_nat k) = false \/ nc (h_K (r_state r)) = 0%nat) /\
    (forall i, (rank <= i < k)%nat -> ranks_left comps c (Z.of_nat i) = true).
Proof.
  intros c slack0 fuel. revert slack0. induction fuel as [|fuel IH]; intros slack rank s solved done r H Ld Sd Rn; [discriminate|].
  cbn [solve_loop] in H.
  assert (Fl : (if (length noslack =? 0)%nat then slack else check_slackness noslack (Z.of_nat rank) slack) = flag_of slack) by reflexivity.
  rewrite Fl in H. clear Fl. destruct (build_task _ _ _ _ _ _ _ (flag_of slack)) as [t| |] eqn:Et; try discriminate.
  set (s0 := if (Z.of_nat rank =? 0)%Z then h_reset nopt else s) in *.
  assert (R0 : run done (h_reset nopt) = Ok s0).
  { unfold s0. destruct (Z.eqb_spec (Z.of_nat rank) 0) as [E|E]; [|apply Rn; lia]. assert (rank = 0)%nat by lia. subst rank. destruct done; [reflexivity|discriminate]. }
  destruct (h_task _ _ _ _ _ _ _ s0 t) as [[s' ok]| |] eqn:Eh; try discriminate.
  pose proof (run_snoc done t _ s0 s' ok R0 Eh) as R1.
  destruct (ranks_left comps c (Z.of_nat rank)) eqn:Er, (nc (h_K s') =? 0)%nat eqn:Ek, ok; cbn [andb negb] in H.
  3: { (* continue *)
    replace (Z.of_nat rank + 1)%Z with (Z.of_nat (S rank)) in H by lia.
    destruct (IH (flag_of slack) (S rank) s' (S solved) (done ++ [t]) r H) as (k & K1 & K2 & K3 & K4 & K5 & K6 & K7 & K8); [rewrite app_length; cbn; lia|lia|intros _; exact R1|].
    exists k. split; [lia|]. split; [exact K2|]. split; [intros i Hi; rewrite K3 by lia; apply nth_error_app1; lia|]. split; [|split; [exact K5|split; [exact K6|split; [exact K7|]]]].
    - intros i Hi. destruct (Nat.eq_dec i rank) as [->|N].
      + exists t. split; [|exact Et]. rewrite K3 by lia. rewrite nth_error_app2 by lia. rewrite Ld, Nat.sub_diag. reflexivity.
      + destruct (K4 i ltac:(lia)) as (u & A & B). exists u. split; [exact A|]. now rewrite flag_once in B.
    - intros i Hi. destruct (Nat.eq_dec i rank) as [->|N]; [exact Er|apply K8; lia]. }
  all: injection H as <-; exists rank; cbn [r_tasks r_state r_solved r_valid]; rewrite app_length, Ld; cbn [length];
    repeat split; try lia; try exact R1; try (intros; apply nth_error_app1; lia);
    try (intros i Hi; assert (i = rank) by lia; subst i; exists t; split; [|exact Et]; rewrite nth_error_app2 by lia; rewrite Ld, Nat.sub_diag; reflexivity); try discriminate;
    try (intros; lia); try (now left); try (intros _; right; now apply Nat.eqb_eq).
Qed.
Lemma max_ge : forall l x, In x l -> (x <= fold_right Z.max 0 l)%Z.
Proof. induction l; intros x []; cbn; [lia|]. specialize (IHl x H). lia. Qed.
Lemma max_in : forall l k, (0 <= k < fold_right Z.max 0 l)%Z -> exists x, In x l /\ (k < x)%Z.
Proof.
  induction l as [|a l IH]; cbn; intros k Hk; [lia|]. destruct (Z_lt_le_dec k a) as [L|L]; [exists a; auto|]. destruct (IH k) as (x & A & B); [lia|]. exists x; auto.
Qed.
Lemma ranks_left_spec : forall c k, (0 <= k)%Z -> ranks_left comps c k = true <-> (k < max_rank c comps)%Z.
Proof.
  intros c k Hk. unfold ranks_left, higher_left. rewrite !orb_true_iff, !existsb_exists. split.
  - intros [[(x & A & B)|(x & A & B)]|(p & A & B)]; apply Z.ltb_lt in B; eapply Z.lt_le_trans; try exact B; apply max_ge; rewrite !in_app_iff; [left|right; left|right; right]; now apply in_map.
  - intros H. destruct (max_in _ k (conj Hk H)) as (x & A & B). rewrite !in_app_iff, !in_map_iff in A.
    destruct A as [(y & <- & A)|[(y & <- & A)|(y & <- & A)]]; [left; left|left; right|right]; exists y; split; auto; now apply Z.ltb_lt.
Qed.
Lemma loop_ends : forall c fuel rank slack s solved done, (max_rank c comps < Z.of_nat (fuel + rank))%Z -> (0 < fuel)%nat -> loop fuel c (Z.of_nat rank) slack s solved done <> None.
Proof.
  intros c fuel. induction fuel as [|fuel IH]; intros rank slack s solved done Hm Hf; [lia|]. cbn [solve_loop].
  destruct (build_task _ _ _ _ _ _ _ _); try discriminate. destruct (h_task _ _ _ _ _ _ _ _ a) as [[s' ok]| |]; try discriminate.
  destruct (ranks_left comps c (Z.of_nat rank)) eqn:Er; [|discriminate]. destruct (negb (nc (h_K s') =? 0)%nat); [|discriminate]. destruct ok; [|discriminate]. cbn [andb].
  replace (Z.of_nat rank + 1)%Z with (Z.of_nat (S rank)) by lia. apply ranks_left_spec in Er; [|lia]. apply IH; lia.
Qed.
End SL.
(** ** No assertion fails *)
Lemma compact_loop_length : forall A e k fuel (l : list A) first start, (first < start)%nat -> length (fst (compact_loop e k fuel l first start)) = length l.
Proof.
  intros A e k fuel. induction fuel as [|fuel IH]; intros l first start H; [reflexivity|]. cbn [compact_loop].
  pose proof (find_from_spec _ k (length l) l start ltac:(lia)) as (F1 & _). set (s1 := find_from k (length l) l start) in *.
  destruct (Nat.leb_spec (length l) s1); [reflexivity|].
  pose proof (find_from_spec _ e (length l) l (s1 + 1)%nat ltac:(lia)) as (G1 & _ & _ & G4). specialize (G4 ltac:(lia)).
  rewrite IH by lia. apply blit_length; lia.
Qed.
Lemma nnz_length : forall m rows, (length (nnz m rows) <= length rows)%nat.
Proof.
  intros m rows. unfold nnz, removeZeroRows, compact.
  match goal with |- context [compact_loop ?e ?k ?fu ?l ?f ?st] => pose proof (compact_loop_length _ e k fu l f st ltac:(lia)) as L; destruct (compact_loop e k fu l f st) as [l' f'] end.
  cbn [fst] in L. pose proof (Nat.le_min_r f' (length l')) as M. rewrite <- (firstn_length f' l') in M. exact (Nat.le_trans _ _ _ M (Nat.eq_le_incl _ _ L)).
Qed.
Definition at_rank (rank : Z) (cs : list (Z * linexpr)) : nat := length (filter (fun x => fst x =? rank)%Z cs).
Definition from_rank (rank : Z) (cs : list (Z * linexpr)) : nat := length (filter (fun x => rank <=? fst x)%Z cs).
Lemma from_rank_S : forall rank cs, (at_rank rank cs + from_rank (rank + 1) cs = from_rank rank cs)%nat.
Proof.
  intros rank cs. unfold at_rank, from_rank. induction cs as [|x cs IH]; [reflexivity|]. cbn [filter].
  destruct (Z.eqb_spec (fst x) rank), (Z.leb_spec (rank + 1) (fst x)), (Z.leb_spec rank (fst x)); cbn [length]; lia.
Qed.
Lemma from_rank_le : forall rank cs, (from_rank rank cs <= length cs)%nat.
Proof. intros. unfold from_rank. induction cs; cbn; [lia|]. destruct (rank <=? fst a)%Z; cbn; lia. Qed.
Lemma half_ok : forall cap n flags cs rank, length flags = n -> (forall x, In x cs -> vars_below n (snd x)) -> (length cs <= cap)%nat ->
  exists rows0 rowsR, add_costs cap n cs rank [] = Ok rows0 /\ reduce_rows flags n rows0 = Ok (active_before flags n, rowsR) /\ (length (nnz (active_before flags n) rowsR) <= at_rank rank cs)%nat.
Proof.
  intros cap n flags cs rank Hl Hv Hc. 
  destruct (mapM_ok _ _ (build_row n) (map snd (filter (fun x => fst x =? rank)%Z cs))) as [new Hn].
  { intros e He. apply in_map_iff in He. destruct He as (x & <- & Hx). apply filter_In in Hx. apply build_row_ok, Hv, Hx. }
  assert (Ln : length new = at_rank rank cs). { apply mapM_spec, F2_length in Hn. unfold at_rank. rewrite map_length in Hn. auto. }
  assert (Lr : (at_rank rank cs <= length cs)%nat). { pose proof (from_rank_S rank cs). pose proof (from_rank_le rank cs). lia. }
  assert (R : exists m rowsR, reduce_rows flags n new = Ok (m, rowsR)). { unfold reduce_rows. rewrite Hl, Nat.eqb_refl. cbn [guard]. eauto. }
  destruct R as (m & rowsR & R). destruct (reduce_rows_spec _ _ _ _ _ R) as (_ & Em & E3 & _). subst m.
  exists new, rowsR. split; [|split; [exact R|]].
  - unfold add_costs. rewrite Hn. cbn [bind length plus app]. destruct (Nat.leb_spec (length new) cap); [reflexivity|lia].
  - pose proof (nnz_length (active_before flags n) rowsR). lia.
Qed.
Lemma build_task_ok : forall capIneq capEq n flags c rank slack, length flags = n ->
  (forall x, In x (leq c) \/ In x (lineq c) -> vars_below n (snd x)) -> (length (leq c) <= capEq)%nat -> (length (lineq c) <= capIneq)%nat ->
  exists t, build_task capIneq capEq n flags [] c rank slack = Ok t /\ well_formed (active_before flags n) capEq t /\ t_slack t = slack /\ (nr (t_C t) <= at_rank rank (lineq c))%nat.
Proof.
  intros capIneq capEq n flags c rank slack Hl Hv He Hi.
  destruct (half_ok capEq n flags (leq c) rank Hl ltac:(intros; apply Hv; auto) He) as (e0 & eR & E1 & E2 & E3).
  destruct (half_ok capIneq n flags (lineq c) rank Hl ltac:(intros; apply Hv; auto) Hi) as (i0 & iR & I1 & I2 & I3).
  assert (Le : (at_rank rank (leq c) <= length (leq c))%nat). { pose proof (from_rank_S rank (leq c)). pose proof (from_rank_le rank (leq c)). lia. }
  assert (Li : (at_rank rank (lineq c) <= length (lineq c))%nat). { pose proof (from_rank_S rank (lineq c)). pose proof (from_rank_le rank (lineq c)). lia. }
  unfold build_task. cbn [flat_map]. rewrite E1. cbn [bind]. rewrite I1. cbn [bind]. rewrite E2. cbn [bind]. rewrite I2. cbn [bind fst snd]. rewrite !app_nil_r.
  destruct (Nat.leb_spec (length (nnz (active_before flags n) eR)) capEq); [|lia]. destruct (Nat.leb_spec (length (nnz (active_before flags n) iR)) capIneq); [|lia]. cbn [andb guard].
  eexists. split; [reflexivity|]. unfold well_formed. cbn [t_E t_e t_C t_c t_slack to_mat to_vec nr nc vn]. repeat split; auto.
Qed.
Section OK.
Variable nullmap : mat -> mat.
Variable qp : mat -> vec -> mat -> vec -> option vec.
Variable least_norm : mat -> vec -> vec.
Variable relax diag : R.
Variable capIneq capEq capA n : nat.
Variable flags : list Z.
Variable noslack : list Z.
Hypothesis null_rows : forall B, nr (nullmap B) = nc B.
Notation nopt := (active_before flags n).
Lemma loop_ok : forall c, length flags = n -> (forall x, In x (leq c) \/ In x (lineq c) -> vars_below n (snd x)) -> (length (leq c) <= capEq)%nat -> (length (lineq c) <= capIneq)%nat ->
  forall fuel rank s solved done, (max_rank c [] < Z.of_nat (fuel + rank))%Z -> (0 < fuel)%nat ->
  ((rank > 0)%nat -> dims nullmap nopt s) -> ((if (rank =? 0)%nat then 0 else nr (h_A s)) + from_rank (Z.of_nat rank) (lineq c) <= capA)%nat ->
  exists r, solve_loop nullmap qp least_norm relax diag capIneq capEq capA n flags nopt [] noslack fuel c (Z.of_nat rank) true s solved done = Some (Ok r).
Proof.
  intros c Hl Hv He Hi fuel. induction fuel as [|fuel IH]; intros rank s solved done Hm Hf Hd Hc; [lia|]. cbn [solve_loop].
  assert (Fl : (if (length noslack =? 0)%nat then true else check_slackness noslack (Z.of_nat rank) true) = true) by (destruct (length noslack =? 0)%nat; reflexivity). rewrite Fl.
  destruct (build_task_ok capIneq capEq n flags c (Z.of_nat rank) true Hl Hv He Hi) as (t & Bt & W & St & Ct). rewrite Bt.
  set (s0 := if (Z.of_nat rank =? 0)%Z then h_reset nopt else s).
  assert (D0 : dims nullmap nopt s0 /\ (nr (h_A s0) + from_rank (Z.of_nat rank) (lineq c) <= capA)%nat).
  { unfold s0. destruct (Z.eqb_spec (Z.of_nat rank) 0) as [E|E]; [split; [apply dims_reset|]|split; [apply Hd; lia|]].
    - cbn. destruct (Nat.eqb_spec rank 0); [exact Hc|lia].
    - destruct (Nat.eqb_spec rank 0); [lia|exact Hc]. }
  destruct D0 as [D0 C0]. pose proof (from_rank_S (Z.of_nat rank) (lineq c)) as FS.
  assert (X : exists s1 b, h_task nullmap qp least_norm relax diag capA capEq s0 t = Ok (s1, b)).
  { rewrite (h_task_eq nullmap qp least_norm relax diag capA capEq nopt s0 t D0) by (apply HierProofs3.wf_ok; [exact W|lia]). destruct (early s0 t); [eauto|]. unfold newz. rewrite St.
    destruct (sol qp relax diag s0 t); cbn [vn v_zero]; rewrite Nat.eqb_refl; cbn; eauto. }
  destruct X as (s1 & b & X). rewrite X. pose proof (HierProofs3.task_rows nullmap qp least_norm relax diag capA capEq nopt s0 t s1 b D0 X) as TR.
  destruct (ranks_left [] c (Z.of_nat rank)) eqn:Er; [|eexists; reflexivity]. destruct (negb (nc (h_K s1) =? 0)%nat); [|eexists; reflexivity]. destruct b; [|eexists; reflexivity]. cbn [andb].
  replace (Z.of_nat rank + 1)%Z with (Z.of_nat (S rank)) in * by lia. apply ranks_left_spec in Er; [|lia].
  apply IH; [lia|lia|intros _; eapply dims_task; [exact null_rows|exact D0|exact X]|]. cbn [Nat.eqb]. lia.
Qed.
End OK.

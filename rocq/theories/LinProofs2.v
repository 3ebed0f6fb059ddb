(** Proofs for the KKT layer, part 2: the entry list after updateMatrix and its action. *)
From Coq Require Import Reals List Arith Bool Lia Lra.
From Verif Require Import Base BaseProofs ConeModel LdlModel LdlSpec LdlProofs LdlProofs2 LdlProofs3 LinModel LinSpec LinProofs.
Import ListNotations.
Open Scope R_scope.

(** Entry list with the scaling slots as parameters. *)
Fixpoint gen_socs (Gt : smatrix) (b st l : nat) (q : list nat) (fs : list (nat -> R)) : list triplet :=
  match q, fs with
  | m :: q', f :: fs' =>
    let e := (b + st + 2 * l)%nat in
    flat_map (fun id => push_col (e + id) (Gt (st + id)%nat) ++ [((e + id)%nat, (e + id)%nat, f id)]) (seq 0 m)
    ++ map (fun id => ((e + id)%nat, (e + m)%nat, f (m + id - 1)%nat)) (seq 1 (m - 1)) ++ [((e + m)%nat, (e + m)%nat, f (2 * m - 1)%nat)]
    ++ map (fun id => ((e + id)%nat, (e + m + 1)%nat, f (2 * m + id)%nat)) (seq 0 m) ++ [((e + m + 1)%nat, (e + m + 1)%nat, f (3 * m)%nat)]
    ++ gen_socs Gt b (st + m) (S l) q' fs'
  | _, _ => []
  end.
Definition gen_T (d : ldata) (reg : R) (lpv : nat -> R) (fs : list (nat -> R)) : list triplet :=
  let n := d_n d in let p := d_p d in
  (map (fun id => (id, id, reg)) (seq 0 n)
  ++ flat_map (fun id => push_col (n + id) (d_At d id) ++ [((n + id)%nat, (n + id)%nat, - reg)]) (seq 0 p))
  ++ flat_map (fun id => push_col (n + p + id) (d_Gt d id) ++ [((n + p + id)%nat, (n + p + id)%nat, lpv id)]) (seq 0 (d_nl d))
  ++ gen_socs (d_Gt d) (n + p) (d_nl d) 0 (d_q d) fs.

(** Items *)
Definition soc_items (Gt : smatrix) (e st m : nat) : list item :=
  map (fun id => (push_col (e + id) (Gt (st + id)%nat), ((e + id)%nat, (e + id)%nat))) (seq 0 m)
  ++ map (fun id => ([], ((e + id)%nat, (e + m)%nat))) (seq 1 (m - 1)) ++ [([], ((e + m)%nat, (e + m)%nat))]
  ++ map (fun id => ([], ((e + id)%nat, (e + m + 1)%nat))) (seq 0 m) ++ [([], ((e + m + 1)%nat, (e + m + 1)%nat))].
Fixpoint socs_items (Gt : smatrix) (b st l : nat) (q : list nat) : list item :=
  match q with [] => [] | m :: q' => soc_items Gt (b + st + 2 * l) st m ++ socs_items Gt b (st + m) (S l) q' end.
Fixpoint socs_vals (q : list nat) (fs : list (nat -> R)) : list R :=
  match q, fs with m :: q', f :: fs' => map f (seq 0 (3 * m + 1)) ++ socs_vals q' fs' | _, _ => [] end.

Lemma render_map {A} (F : A -> list triplet) (rc : A -> nat * nat) (v : A -> R) l :
  render (map (fun a => (F a, rc a)) l) (map v l) = flat_map (fun a => F a ++ [(rc a, v a)]) l.
Proof. induction l; [reflexivity|]. cbn [map render flat_map]. rewrite IHl, <- app_assoc. reflexivity. Qed.
Lemma render_map0 {A} (rc : A -> nat * nat) (v : A -> R) l :
  render (map (fun a => ([], rc a)) l) (map v l) = map (fun a => (rc a, v a)) l.
Proof. induction l; [reflexivity|]. cbn [map render app]. rewrite IHl. reflexivity. Qed.
Lemma map_shift (f : nat -> R) a k b : map f (seq (a + b) k) = map (fun i => f (a + i)%nat) (seq b k).
Proof. revert b. induction k; intros b; [reflexivity|]. cbn [seq map]. f_equal. replace (S (a + b)) with (a + S b)%nat by lia. apply IHk. Qed.

Lemma soc_items_length Gt e st m : (1 <= m)%nat -> length (soc_items Gt e st m) = (3 * m + 1)%nat.
Proof. intros. unfold soc_items. repeat (rewrite app_length || rewrite map_length || rewrite seq_length). cbn [length]. lia. Qed.
Lemma socs_items_length Gt b : forall q st l fs, Forall (fun m => (1 <= m)%nat) q -> length fs = length q -> length (socs_items Gt b st l q) = length (socs_vals q fs).
Proof.
  induction q as [|m q IH]; intros st l [|f fs] Hq Hl; cbn [length] in *; try lia; [reflexivity|]. inversion Hq; subst.
  cbn [socs_items socs_vals]. rewrite !app_length, soc_items_length, map_length, seq_length by assumption. rewrite (IH (st + m)%nat (S l) fs) by (auto; lia). reflexivity.
Qed.
Lemma render_soc Gt e st m f : (1 <= m)%nat ->
  render (soc_items Gt e st m) (map f (seq 0 (3 * m + 1))) =
    flat_map (fun id => push_col (e + id) (Gt (st + id)%nat) ++ [((e + id)%nat, (e + id)%nat, f id)]) (seq 0 m)
    ++ map (fun id => ((e + id)%nat, (e + m)%nat, f (m + id - 1)%nat)) (seq 1 (m - 1)) ++ [((e + m)%nat, (e + m)%nat, f (2 * m - 1)%nat)]
    ++ map (fun id => ((e + id)%nat, (e + m + 1)%nat, f (2 * m + id)%nat)) (seq 0 m) ++ [((e + m + 1)%nat, (e + m + 1)%nat, f (3 * m)%nat)].
Proof.
  intros Hm. unfold soc_items.
  assert (E : map f (seq 0 (3 * m + 1)) = map f (seq 0 m) ++ map (fun id => f (m + id - 1)%nat) (seq 1 (m - 1)) ++ [f (2 * m - 1)%nat] ++ map (fun id => f (2 * m + id)%nat) (seq 0 m) ++ [f (3 * m)%nat]).
  { replace (3 * m + 1)%nat with (m + ((m - 1) + (1 + (m + 1))))%nat by lia. rewrite !seq_app, !map_app. f_equal. f_equal.
    - rewrite <- (seq_shift (m - 1) 0), map_map. rewrite <- (Nat.add_0_r (0 + m)). change (0 + m)%nat with m. rewrite map_shift. apply map_ext. intros; f_equal; lia.
    - f_equal; [cbn [seq map]; do 2 f_equal; lia|]. f_equal.
      + replace (0 + m + (m - 1) + 1)%nat with (2 * m + 0)%nat by lia. rewrite map_shift. reflexivity.
      + cbn [seq map]. do 2 f_equal; lia. }
  rewrite E. rewrite render_app by now rewrite !map_length. rewrite render_app by now rewrite !map_length.
  rewrite render_app by reflexivity. rewrite render_app by now rewrite !map_length.
  rewrite render_map, !render_map0. reflexivity.
Qed.
Lemma render_socs Gt b : forall q st l fs, Forall (fun m => (1 <= m)%nat) q -> length fs = length q ->
  render (socs_items Gt b st l q) (socs_vals q fs) = gen_socs Gt b st l q fs.
Proof.
  induction q as [|m q IH]; intros st l [|f fs] Hq Hl; cbn [length] in *; try lia; [reflexivity|]. inversion Hq; subst.
  cbn [socs_items socs_vals gen_socs]. rewrite render_app by (rewrite soc_items_length, map_length, seq_length by assumption; reflexivity).
  rewrite render_soc, IH by (auto; lia). rewrite <- !app_assoc. reflexivity.
Qed.

(** Positions *)
Definition isize (its : list item) : nat := fold_right (fun it acc => (length (fst it) + 1 + acc)%nat) 0%nat its.
Lemma spos_app' a b off : spos off (a ++ b) = spos off a ++ spos (off + isize a) b.
Proof. rewrite spos_app. cbn [nsum]. rewrite Nat.add_0_r. reflexivity. Qed.
Lemma isize_app a b : isize (a ++ b) = (isize a + isize b)%nat.
Proof. unfold isize. induction a; [reflexivity|]. cbn [app fold_right]. rewrite IHa. lia. Qed.
Lemma spos_empty {A} (rc : A -> nat * nat) l off : spos off (map (fun a => ([], rc a)) l) = seq off (length l).
Proof. revert off. induction l; intros; [reflexivity|]. cbn [map spos length seq]. rewrite Nat.add_0_r, IHl. f_equal. f_equal. lia. Qed.
Lemma isize_empty {A} (rc : A -> nat * nat) l : isize (map (fun a => ([], rc a)) l) = length l.
Proof. unfold isize. induction l; [reflexivity|]. cbn [map fold_right length fst]. rewrite IHl. lia. Qed.
Lemma push_col_length c l : length (push_col c l) = length l.
Proof. apply map_length. Qed.
Lemma isize_cols (c : nat -> nat) (M : smatrix) (rc : nat -> nat * nat) k :
  isize (map (fun id => (push_col (c id) (M id), rc id)) (seq 0 k)) = nsum k (fun j => length (M j) + 1)%nat.
Proof.
  induction k; [reflexivity|]. rewrite seq_S, map_app, isize_app, IHk. cbn [map isize fold_right fst nsum]. rewrite push_col_length. cbn [Nat.add]. lia.
Qed.
Lemma spos_cols (c : nat -> nat) (M : smatrix) (rc : nat -> nat * nat) off k :
  spos off (map (fun id => (push_col (c id) (M id), rc id)) (seq 0 k)) = map (fun id => off + nsum id (fun j => length (M j) + 1) + length (M id))%nat (seq 0 k).
Proof.
  induction k; [reflexivity|]. rewrite !seq_S, !map_app, spos_app', IHk, isize_cols. cbn [map spos Nat.add]. rewrite push_col_length. reflexivity.
Qed.

Lemma soc_diag_length Gt k st m : length (soc_diag Gt k st m) = m.
Proof. unfold soc_diag. now rewrite map_length, seq_length. Qed.
Lemma at_map (f : nat -> nat) k i : (i < k)%nat -> at_ (map f (seq 0 k)) i = f i.
Proof. intros H. unfold at_. rewrite (nth_indep _ 0%nat (f 0%nat)) by (rewrite map_length, seq_length; assumption). rewrite map_nth, seq_nth by assumption. reflexivity. Qed.

Definition raw_index (ix : list nat) (m k : nat) : nat := if Nat.ltb k m then at_ ix k else (at_ ix (m - 1) + (k - m + 1))%nat.
Lemma spos_soc Gt e st m off : (1 <= m)%nat -> spos off (soc_items Gt e st m) = map (raw_index (soc_diag Gt off st m) m) (seq 0 (3 * m + 1)).
Proof.
  intros Hm. unfold soc_items. rewrite spos_app'. rewrite (spos_cols (fun id => e + id)%nat (fun id => Gt (st + id)%nat)), isize_cols.
  replace (3 * m + 1)%nat with (m + (2 * m + 1))%nat by lia. rewrite seq_app, map_app. f_equal.
  - apply map_ext_in. intros k Hk. apply in_seq in Hk. unfold raw_index. destruct (Nat.ltb_spec k m); [|lia]. unfold soc_diag. rewrite at_map by lia. reflexivity.
  - rewrite spos_app', spos_empty, isize_empty, spos_app'. cbn [spos isize fold_right fst length].
    rewrite spos_app', spos_empty, isize_empty, !seq_length. cbn [spos length].
    set (B := nsum m _). transitivity (seq (off + B) (2 * m + 1)).
    + replace (2 * m + 1)%nat with ((m - 1) + (1 + (m + 1)))%nat by lia. rewrite !seq_app. cbn [seq app]. repeat first [lia | reflexivity | f_equal].
    + cbn [Nat.add]. apply nth_ext with 0%nat 0%nat; [now rewrite map_length, !seq_length|]. intros k Hk. rewrite seq_length in Hk.
      rewrite (nth_map_in _ _ k 0%nat 0%nat) by now rewrite seq_length. rewrite !seq_nth by assumption. unfold raw_index.
      destruct (Nat.ltb_spec (m + k) m); [lia|]. unfold soc_diag. rewrite at_map by lia.
      unfold B. replace m with (S (m - 1)) at 1 by lia. cbn [nsum]. lia.
Qed.

(** Values written by a block in slot order. *)
Definition upd_slot (reg : R) (m : nat) (b : ntsoc) (k : nat) : R :=
  let e2 := nt_eta2 b in
  if Nat.eqb k 0 then - e2 * nt_d1 b - reg else if Nat.ltb k m then - e2 - reg
  else if Nat.ltb k (2 * m - 1) then - e2 * nt_v1 b * nt_wbar b (k - m + 1)%nat
  else if Nat.eqb k (2 * m - 1) then - e2 else if Nat.eqb k (2 * m) then - e2 * nt_u0 b
  else if Nat.ltb k (3 * m) then - e2 * nt_u1 b * nt_wbar b (k - 2 * m)%nat else e2 + reg.
Definition init_slot (m k : nat) : R :=
  if Nat.ltb k m then -1 else if Nat.ltb k (2 * m - 1) then 0 else if Nat.eqb k (2 * m - 1) then -1 else if Nat.ltb k (3 * m) then 0 else 1.

Lemma seq_split7 m : (1 <= m)%nat -> seq 0 (3 * m + 1) = [0%nat] ++ seq 1 (m - 1) ++ map (fun k => m + k)%nat (seq 0 (m - 1)) ++ [(2 * m - 1)%nat] ++ [(2 * m)%nat] ++ map (fun k => 2 * m + 1 + k)%nat (seq 0 (m - 1)) ++ [(3 * m)%nat].
Proof.
  intros H. assert (Q : forall a k, map (fun i => a + i)%nat (seq 0 k) = seq a k).
  { intros a k. transitivity (seq (a + 0) k); [|f_equal; lia]. generalize 0%nat as b. induction k; intros b; [reflexivity|]. cbn [seq map]. f_equal. replace (S (a + b)) with (a + S b)%nat by lia. apply IHk. }
  rewrite !Q. replace (3 * m + 1)%nat with (1 + ((m - 1) + ((m - 1) + (1 + (1 + ((m - 1) + 1))))))%nat by lia. rewrite !seq_app. cbn [seq app Nat.add].
  repeat first [lia | reflexivity | f_equal].
Qed.
Lemma soc_writes_eq reg pK ix m b : (1 <= m)%nat -> soc_writes reg pK ix m b = map (fun k => (nth (raw_index ix m k) pK 0%nat, upd_slot reg m b k)) (seq 0 (3 * m + 1)).
Proof.
  intros Hm. rewrite seq_split7, !map_app, !map_map by assumption. unfold soc_writes. cbn [map].
  assert (P : forall k, perm_indexSoc pK ix m k = nth (raw_index ix m k) pK 0%nat).
  { intros. unfold perm_indexSoc, raw_index, at_. destruct (Nat.ltb k m); reflexivity. }
  f_equal; [|f_equal; [|f_equal; [|f_equal; [|f_equal; [|f_equal]]]]]; try (apply map_ext_in; intros k Hk; apply in_seq in Hk); try (f_equal; [idtac]); rewrite ?P; try (apply f_equal2; [reflexivity|]); unfold upd_slot;
  repeat match goal with |- context [Nat.eqb ?a ?b] => destruct (Nat.eqb_spec a b); try lia | |- context [Nat.ltb ?a ?b] => destruct (Nat.ltb_spec a b); try lia end; try reflexivity.
  all: idtac.
  all: f_equal; f_equal; lia.
Qed.
Lemma soc_init_writes_eq pK ix m : (1 <= m)%nat -> soc_init_writes pK ix m = map (fun k => (nth (raw_index ix m k) pK 0%nat, init_slot m k)) (seq 0 (3 * m + 1)).
Proof.
  intros Hm. rewrite seq_split7, !map_app, !map_map by assumption. unfold soc_init_writes. cbn [map].
  assert (P : forall k, perm_indexSoc pK ix m k = nth (raw_index ix m k) pK 0%nat).
  { intros. unfold perm_indexSoc, raw_index, at_. destruct (Nat.ltb k m); reflexivity. }
  f_equal; [|f_equal; [|f_equal; [|f_equal; [|f_equal; [|f_equal]]]]]; try (apply map_ext_in; intros k Hk; apply in_seq in Hk); rewrite ?P; try (apply f_equal2; [reflexivity|]); unfold init_slot;
  repeat match goal with |- context [Nat.eqb ?a ?b] => destruct (Nat.eqb_spec a b); try lia | |- context [Nat.ltb ?a ?b] => destruct (Nat.ltb_spec a b); try lia end; try reflexivity.
Qed.

Definition sizes_ok (q : list nat) : Prop := Forall (fun m => (1 <= m)%nat) q.
Fixpoint upd_slots (reg : R) (q : list nat) (bs : list ntsoc) : list (nat -> R) :=
  match q, bs with m :: q', b :: bs' => upd_slot reg m b :: upd_slots reg q' bs' | _, _ => [] end.
Lemma upd_slots_length reg : forall q bs, length bs = length q -> length (upd_slots reg q bs) = length q.
Proof. induction q; intros [|b bs] H; cbn [length] in *; try lia; [reflexivity|]. cbn [upd_slots length]. rewrite IHq; lia. Qed.

Lemma flat_map_ext_in {A B} (f g : A -> list B) l : (forall a, In a l -> f a = g a) -> flat_map f l = flat_map g l.
Proof. intros H. rewrite !flat_map_concat_map. f_equal. now apply map_ext_in. Qed.
Lemma kkt_socs_gen Gt b : forall q st l, sizes_ok q -> kkt_socs Gt b st l q = gen_socs Gt b st l q (map init_slot q).
Proof.
  induction q as [|m q IH]; intros st l Hq; [reflexivity|]. inversion Hq; subst. cbn [kkt_socs map gen_socs].
  assert (I : forall k v, init_slot m k = v -> v = init_slot m k) by auto.
  f_equal; [|f_equal; [|f_equal; [|f_equal; [|f_equal; [|auto]]]]].
  - apply flat_map_ext_in. intros k Hk. apply in_seq in Hk. unfold init_slot. destruct (Nat.ltb_spec k m); [reflexivity|lia].
  - apply map_ext_in. intros k Hk. apply in_seq in Hk. unfold init_slot. destruct (Nat.ltb_spec (m + k - 1) m); [lia|]. destruct (Nat.ltb_spec (m + k - 1) (2 * m - 1)); [reflexivity|lia].
  - unfold init_slot. destruct (Nat.ltb_spec (2 * m - 1) m); [|destruct (Nat.ltb_spec (2 * m - 1) (2 * m - 1)); [lia|]; rewrite Nat.eqb_refl]; reflexivity.
  - apply map_ext_in. intros k Hk. apply in_seq in Hk. unfold init_slot. repeat match goal with |- context [Nat.eqb ?a ?b] => destruct (Nat.eqb_spec a b); try lia | |- context [Nat.ltb ?a ?b] => destruct (Nat.ltb_spec a b); try lia end; reflexivity.
  - unfold init_slot. repeat match goal with |- context [Nat.eqb ?a ?b] => destruct (Nat.eqb_spec a b); try lia | |- context [Nat.ltb ?a ?b] => destruct (Nat.ltb_spec a b); try lia end; reflexivity.
Qed.
Lemma kkt_triplets_gen d reg : sizes_ok (d_q d) -> kkt_triplets d reg = gen_T d reg (fun _ => -1) (map init_slot (d_q d)).
Proof. intros H. unfold kkt_triplets, gen_T. rewrite <- app_assoc, kkt_socs_gen by assumption. reflexivity. Qed.

(** The whole list as a rendered prefix. *)
Definition all_items (d : ldata) : list item :=
  map (fun id => (push_col (d_n d + d_p d + id) (d_Gt d id), ((d_n d + d_p d + id)%nat, (d_n d + d_p d + id)%nat))) (seq 0 (d_nl d))
  ++ socs_items (d_Gt d) (d_n d + d_p d) (d_nl d) 0 (d_q d).
Definition all_vals (d : ldata) (lpv : nat -> R) (fs : list (nat -> R)) : list R := map lpv (seq 0 (d_nl d)) ++ socs_vals (d_q d) fs.
Definition prefix (d : ldata) (reg : R) : list triplet :=
  map (fun id => (id, id, reg)) (seq 0 (d_n d))
  ++ flat_map (fun id => push_col (d_n d + id) (d_At d id) ++ [((d_n d + id)%nat, (d_n d + id)%nat, - reg)]) (seq 0 (d_p d)).
Lemma gen_T_render d reg lpv fs : sizes_ok (d_q d) -> length fs = length (d_q d) -> gen_T d reg lpv fs = prefix d reg ++ render (all_items d) (all_vals d lpv fs).
Proof.
  intros. unfold gen_T, all_items, all_vals. rewrite render_app by now rewrite !map_length. rewrite render_map, render_socs by assumption. reflexivity.
Qed.
Lemma all_vals_length d lpv fs : sizes_ok (d_q d) -> length fs = length (d_q d) -> length (all_vals d lpv fs) = length (all_items d).
Proof. intros. unfold all_items, all_vals. rewrite !app_length, !map_length. f_equal. symmetry. apply socs_items_length; assumption. Qed.
Lemma prefix_length d reg : length (prefix d reg) = (d_n d + d_p d + nnz_left (d_At d) (d_p d))%nat.
Proof.
  unfold prefix. rewrite app_length, map_length, seq_length. rewrite <- Nat.add_assoc. f_equal. generalize (d_p d) as k. induction k; [reflexivity|].
  rewrite seq_S, flat_map_app, app_length, IHk. cbn [flat_map]. rewrite app_nil_r, app_length, push_col_length. unfold nnz_left. cbn [nsum length Nat.add]. lia.
Qed.
Lemma nsum_plus1 (f : nat -> nat) k : nsum k (fun j => f j + 1)%nat = (nsum k f + k)%nat.
Proof. induction k; [reflexivity|]. cbn [nsum]. rewrite IHk. lia. Qed.

Lemma socs_spos Gt b : forall q k st l, sizes_ok q ->
  spos k (socs_items Gt b st l q) = flat_map (fun ixm => map (raw_index (fst ixm) (snd ixm)) (seq 0 (3 * snd ixm + 1))) (combine (indexSocs Gt k st q) q).
Proof.
  induction q as [|m q IH]; intros k st l Hq; [reflexivity|]. inversion Hq; subst. cbn [socs_items indexSocs combine flat_map fst snd].
  rewrite spos_app', spos_soc by assumption. f_equal. rewrite (IH _ _ _ H2). f_equal. f_equal. f_equal.
  unfold soc_items. rewrite isize_app. rewrite (isize_cols (fun id => b + st + 2 * l + id)%nat (fun id => Gt (st + id)%nat)). rewrite isize_app, isize_empty, isize_app.
  cbn [isize fold_right fst length]. fold (isize (map (fun id => (([] : list triplet), ((b + st + 2 * l + id)%nat, (b + st + 2 * l + m + 1)%nat))) (seq 0 m) ++ [([], ((b + st + 2 * l + m + 1)%nat, (b + st + 2 * l + m + 1)%nat))])).
  rewrite isize_app, isize_empty, !seq_length. cbn [isize fold_right fst length]. lia.
Qed.

Lemma combine_map_same {A B C} (f : A -> B) (g : A -> C) l : combine (map f l) (map g l) = map (fun a => (f a, g a)) l.
Proof. induction l; [reflexivity|]. cbn [map combine]. now rewrite IHl. Qed.
Lemma combine_app' {A B} (a a' : list A) (b b' : list B) : length a = length b -> combine (a ++ a') (b ++ b') = combine a b ++ combine a' b'.
Proof. revert b. induction a; intros [|x b] H; cbn [length] in *; try lia; [reflexivity|]. cbn [app combine]. rewrite IHa by lia. reflexivity. Qed.
Lemma indexSocs_length Gt : forall q k st, length (indexSocs Gt k st q) = length q.
Proof. induction q; intros; [reflexivity|]. cbn [indexSocs length]. now rewrite IHq. Qed.

Lemma socs_writes_eq reg pK : forall q ixs bs, sizes_ok q -> length ixs = length q -> length bs = length q ->
  socs_writes reg pK ixs q bs = map (fun w => (nth (fst w) pK 0%nat, snd w))
     (combine (flat_map (fun ixm => map (raw_index (fst ixm) (snd ixm)) (seq 0 (3 * snd ixm + 1))) (combine ixs q)) (socs_vals q (upd_slots reg q bs))).
Proof.
  induction q as [|m q IH]; intros [|ix ixs] [|b bs] Hq H1 H2; cbn [length] in *; try lia; [reflexivity|]. inversion Hq; subst.
  cbn [socs_writes combine flat_map fst snd upd_slots socs_vals]. rewrite combine_app' by now rewrite !map_length. rewrite map_app. f_equal; [|apply IH; auto; lia].
  rewrite soc_writes_eq by assumption. rewrite combine_map_same, map_map. reflexivity.
Qed.
Lemma socs_init_writes_eq pK : forall q ixs, sizes_ok q -> length ixs = length q ->
  socs_init_writes pK ixs q = map (fun w => (nth (fst w) pK 0%nat, snd w))
     (combine (flat_map (fun ixm => map (raw_index (fst ixm) (snd ixm)) (seq 0 (3 * snd ixm + 1))) (combine ixs q)) (socs_vals q (map init_slot q))).
Proof.
  induction q as [|m q IH]; intros [|ix ixs] Hq H1; cbn [length] in *; try lia; [reflexivity|]. inversion Hq; subst.
  cbn [socs_init_writes combine flat_map fst snd map socs_vals]. rewrite combine_app' by now rewrite !map_length. rewrite map_app. f_equal; [|apply IH; auto; lia].
  rewrite soc_init_writes_eq by assumption. rewrite combine_map_same, map_map. reflexivity.
Qed.

Lemma all_spos d reg : sizes_ok (d_q d) -> spos (length (prefix d reg)) (all_items d) = map (indexLpc d) (seq 0 (d_nl d)) ++
  flat_map (fun ixm => map (raw_index (fst ixm) (snd ixm)) (seq 0 (3 * snd ixm + 1))) (combine (indexSoc0 d) (d_q d)).
Proof.
  intros Hq. unfold all_items. rewrite spos_app', spos_cols, (isize_cols _ (d_Gt d)), prefix_length. f_equal.
  - apply map_ext. intros id. unfold indexLpc, nnz_left. rewrite nsum_plus1. cbn [nsum]. lia.
  - rewrite (socs_spos _ _ _ _ _ _ Hq). unfold indexSoc0. rewrite nsum_plus1. unfold nnz_left. rewrite Nat.add_assoc. reflexivity.
Qed.

Lemma spos_bound : forall its vs off x, length vs = length its -> In x (spos off its) -> (off <= x < off + length (render its vs))%nat.
Proof.
  induction its as [|[f rc] its IH]; intros [|v vs] off x Hl H; cbn [length] in *; try lia; [destruct H|].
  cbn [spos render] in *. rewrite app_length. cbn [length]. destruct H as [<-|H]; [lia|]. apply IH with (vs := vs) in H; [|lia]. lia.
Qed.
Lemma update_holds_gen d reg inv T0 lpv0 fs0 lpv fs value ws : sizes_ok (d_q d) -> length fs0 = length (d_q d) -> length fs = length (d_q d) ->
  ws = map (fun w => (nth (fst w) (permK inv T0) 0%nat, snd w)) (combine (spos (length (prefix d reg)) (all_items d)) (all_vals d lpv fs)) ->
  holds inv T0 (gen_T d reg lpv0 fs0) value -> holds inv T0 (gen_T d reg lpv fs) (apply_writes ws value).
Proof.
  intros Hq H0 H1 -> HH. rewrite gen_T_render in * by assumption.
  assert (E : prefix d reg ++ render (all_items d) (all_vals d lpv fs) = set_vals (combine (spos (length (prefix d reg)) (all_items d)) (all_vals d lpv fs)) (prefix d reg ++ render (all_items d) (all_vals d lpv0 fs0))).
  { pose proof (set_vals_render (all_items d) (all_vals d lpv fs) (all_vals d lpv0 fs0) (prefix d reg) [] (all_vals_length _ _ _ Hq H1) (all_vals_length _ _ _ Hq H0)) as E.
    rewrite !app_nil_r in E. symmetry. exact E. }
  rewrite E. apply holds_writes; [exact HH|]. intros [a b] Hw. apply in_combine_l in Hw. cbn [fst].
  apply (spos_bound _ (all_vals d lpv0 fs0)) in Hw; [|now apply all_vals_length]. rewrite app_length. lia.
Qed.

Theorem updateMatrix_holds d reg inv W lpv0 fs0 value T0 : sizes_ok (d_q d) -> length fs0 = length (d_q d) -> length (sc_soc W) = length (d_q d) ->
  holds inv T0 (gen_T d reg lpv0 fs0) value ->
  holds inv T0 (gen_T d reg (fun i => - sc_lp2 W i - reg) (upd_slots reg (d_q d) (sc_soc W))) (updateMatrix d reg (permK inv T0) W value).
Proof.
  intros Hq H0 H1 HH. unfold updateMatrix. eapply update_holds_gen; eauto using upd_slots_length.
  rewrite all_spos by assumption. unfold all_vals. rewrite combine_app' by now rewrite !map_length. rewrite map_app. f_equal.
  - rewrite combine_map_same, map_map. reflexivity.
  - apply socs_writes_eq; auto. apply indexSocs_length.
Qed.
Theorem initializeMatrix_holds d reg inv lpv0 fs0 value T0 : sizes_ok (d_q d) -> length fs0 = length (d_q d) ->
  holds inv T0 (gen_T d reg lpv0 fs0) value ->
  holds inv T0 (gen_T d reg (fun i => -1) (map init_slot (d_q d))) (initializeMatrix d (permK inv T0) value).
Proof.
  intros Hq H0 HH. unfold initializeMatrix. eapply update_holds_gen with (fs := map init_slot (d_q d)); eauto.
  - apply map_length.
  - rewrite all_spos by assumption. unfold all_vals. rewrite combine_app' by now rewrite !map_length. rewrite map_app. f_equal.
    + rewrite combine_map_same, map_map. reflexivity.
    + apply socs_init_writes_eq; auto. apply indexSocs_length.
Qed.

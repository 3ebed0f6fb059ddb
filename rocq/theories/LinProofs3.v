(** Proofs for the KKT layer, part 3: the action of the stored matrix. *)
From Coq Require Import Reals List Arith Bool Lia Lra.
From Verif Require Import Base BaseProofs ConeModel LdlModel LdlSpec LdlProofs LdlProofs2 LdlProofs3 LinModel LinSpec LinProofs LinProofs2.
Import ListNotations.
Open Scope R_scope.

Lemma col_dot_entry n l X : col_ok n l -> col_dot l X = rsum n (fun i => entry l i * X i).
Proof.
  intros [Hnd Hr]. unfold col_dot. change (fold_right Rplus 0 (map (fun e => snd e * X (fst e)) l)) with (lsum (fun e => snd e * X (fst e)) l).
  rewrite (rsum_ext n _ (fun i => lsum (fun e => if Nat.eqb (fst e) i then snd e * X i else 0) l)).
  2:{ intros i _. rewrite entry_lsum by assumption. rewrite Rmult_comm, <- lsum_scal. apply lsum_ext. intros e _. destruct (Nat.eqb (fst e) i); lra. }
  rewrite <- lsum_rsum. apply lsum_ext. intros e He. rewrite (rsum_single n (fst e)); [now rewrite Nat.eqb_refl|now apply Hr|].
  intros j _ Hj. destruct (Nat.eqb_spec (fst e) j); [congruence|reflexivity].
Qed.
Lemma entry_out n l i : col_ok n l -> (n <= i)%nat -> entry l i = 0.
Proof. intros [_ H] Hi. apply entry_nIn. intros Hin. apply in_map_iff in Hin. destruct Hin as (e & <- & He). apply H in He. lia. Qed.

Lemma symv_push X i n c l : col_ok n l -> (n <= c)%nat -> lsum (contrib X i) (push_col c l) = entry l i * X c + (if Nat.eqb c i then col_dot l X else 0).
Proof.
  intros [Hnd Hr] Hc. unfold push_col. rewrite lsum_map, entry_lsum by assumption. unfold contrib, t_row, t_col, t_val. cbn [fst snd].
  rewrite lsum_plus. f_equal.
  - rewrite (Rmult_comm _ (X c)), <- lsum_scal. apply lsum_ext. intros e _. destruct (Nat.eqb (fst e) i); lra.
  - destruct (Nat.eqb c i); cbn [andb]; [|now apply lsum_zero]. unfold col_dot. apply lsum_ext. intros e He. apply Hr in He. destruct (Nat.eqb_spec (fst e) c); [lia|reflexivity].
Qed.
Lemma symv_diag X i c v : lsum (contrib X i) [(c, c, v)] = if Nat.eqb c i then v * X i else 0.
Proof.
  rewrite lsum_cons, lsum_nil. unfold contrib, t_row, t_col, t_val. cbn [fst snd]. rewrite Nat.eqb_refl. cbn [negb]. rewrite andb_false_r.
  destruct (Nat.eqb_spec c i); [subst|]; lra.
Qed.
Lemma symv_cols X i n c0 (M : smatrix) (v : nat -> R) k : (forall id, (id < k)%nat -> col_ok n (M id)) -> (n <= c0)%nat ->
  lsum (contrib X i) (flat_map (fun id => push_col (c0 + id) (M id) ++ [((c0 + id)%nat, (c0 + id)%nat, v id)]) (seq 0 k)) =
  rsum k (fun id => entry (M id) i * X (c0 + id)%nat + (if Nat.eqb (c0 + id) i then col_dot (M id) X + v id * X i else 0)).
Proof.
  intros HM Hc. rewrite lsum_flat_map, lsum_seq. apply rsum_ext. intros id Hid. cbn [Nat.add].
  rewrite lsum_app, (symv_push X i n), symv_diag by (auto; lia). destruct (Nat.eqb (c0 + id) i); lra.
Qed.
Lemma symv_off X i e c s k (g : nat -> R) : (forall t, (t < k)%nat -> (e + (s + t))%nat <> c) ->
  lsum (contrib X i) (map (fun id => ((e + id)%nat, c, g id)) (seq s k)) =
  rsum k (fun t => (if Nat.eqb (e + (s + t)) i then g (s + t)%nat * X c else 0) + (if Nat.eqb c i then g (s + t)%nat * X (e + (s + t))%nat else 0)).
Proof.
  intros H. rewrite lsum_map, lsum_seq. apply rsum_ext. intros t Ht. unfold contrib, t_row, t_col, t_val. cbn [fst snd].
  destruct (Nat.eqb_spec (e + (s + t)) c); [now apply H in e0|]. cbn [negb]. rewrite andb_true_r. reflexivity.
Qed.

Lemma rsum_hit k j c0 (F : nat -> R) : (j < k)%nat -> rsum k (fun id => if Nat.eqb (c0 + id) (c0 + j) then F id else 0) = F j.
Proof. intros H. rewrite (rsum_single k j); [now rewrite Nat.eqb_refl|assumption|]. intros t _ Ht. destruct (Nat.eqb_spec (c0 + t) (c0 + j)); [lia|reflexivity]. Qed.
Lemma rsum_miss k c0 i (F : nat -> R) : (i < c0 \/ c0 + k <= i)%nat -> rsum k (fun id => if Nat.eqb (c0 + id) i then F id else 0) = 0.
Proof. intros H. apply rsum_zero. intros t Ht. destruct (Nat.eqb_spec (c0 + t) i); [lia|reflexivity]. Qed.

(** Columns with a diagonal: rows of variables, own rows, other rows. *)
Lemma cols_low X i n c0 M v k : (forall id, (id < k)%nat -> col_ok n (M id)) -> (n <= c0)%nat -> (i < n)%nat ->
  lsum (contrib X i) (flat_map (fun id => push_col (c0 + id) (M id) ++ [((c0 + id)%nat, (c0 + id)%nat, v id)]) (seq 0 k)) = rsum k (fun id => entry (M id) i * X (c0 + id)%nat).
Proof. intros. rewrite (symv_cols X i n) by assumption. rewrite rsum_plus, rsum_miss by lia. lra. Qed.
Lemma cols_own X n c0 M v k j : (forall id, (id < k)%nat -> col_ok n (M id)) -> (n <= c0)%nat -> (j < k)%nat ->
  lsum (contrib X (c0 + j)) (flat_map (fun id => push_col (c0 + id) (M id) ++ [((c0 + id)%nat, (c0 + id)%nat, v id)]) (seq 0 k)) = col_dot (M j) X + v j * X (c0 + j)%nat.
Proof.
  intros H Hn Hj. rewrite (symv_cols X _ n) by assumption. rewrite rsum_plus, rsum_hit by assumption. rewrite rsum_zero; [lra|].
  intros t Ht. rewrite (entry_out n) by (auto; lia). lra.
Qed.
Lemma cols_out X i n c0 M v k : (forall id, (id < k)%nat -> col_ok n (M id)) -> (n <= c0)%nat -> (n <= i)%nat -> (i < c0 \/ c0 + k <= i)%nat ->
  lsum (contrib X i) (flat_map (fun id => push_col (c0 + id) (M id) ++ [((c0 + id)%nat, (c0 + id)%nat, v id)]) (seq 0 k)) = 0.
Proof.
  intros H Hn Hi Ho. rewrite (symv_cols X _ n) by assumption. rewrite rsum_plus, rsum_miss by assumption. rewrite rsum_zero; [lra|].
  intros t Ht. rewrite (entry_out n) by (auto; lia). lra.
Qed.

(** One block. *)
Definition blk (Gt : smatrix) (e st m : nat) (f : nat -> R) : list triplet :=
  flat_map (fun id => push_col (e + id) (Gt (st + id)%nat) ++ [((e + id)%nat, (e + id)%nat, f id)]) (seq 0 m)
  ++ map (fun id => ((e + id)%nat, (e + m)%nat, f (m + id - 1)%nat)) (seq 1 (m - 1)) ++ [((e + m)%nat, (e + m)%nat, f (2 * m - 1)%nat)]
  ++ map (fun id => ((e + id)%nat, (e + m + 1)%nat, f (2 * m + id)%nat)) (seq 0 m) ++ [((e + m + 1)%nat, (e + m + 1)%nat, f (3 * m)%nat)].
Lemma gen_socs_cons Gt b st l m q f fs : gen_socs Gt b st l (m :: q) (f :: fs) = blk Gt (b + st + 2 * l) st m f ++ gen_socs Gt b (st + m) (S l) q fs.
Proof. cbn [gen_socs]. unfold blk. rewrite <- !app_assoc. reflexivity. Qed.

Section Block.
Context (X : nat -> R) (Gt : smatrix) (n e st m : nat) (f : nat -> R).
Hypothesis Hm : (1 <= m)%nat.
Hypothesis Hn : (n <= e)%nat.
Hypothesis Hc : forall id, (id < m)%nat -> col_ok n (Gt (st + id)%nat).

Lemma offA i : lsum (contrib X i) (map (fun id => ((e + id)%nat, (e + m)%nat, f (m + id - 1)%nat)) (seq 1 (m - 1))) =
  rsum m (fun t => if Nat.eqb t 0 then 0 else (if Nat.eqb (e + t) i then f (m + t - 1)%nat * X (e + m)%nat else 0) + (if Nat.eqb (e + m) i then f (m + t - 1)%nat * X (e + t)%nat else 0)).
Proof.
  rewrite symv_off by (intros; lia). destruct m as [|k]; [lia|]. rewrite rsum_S_first. cbn [Nat.eqb]. rewrite Rplus_0_l.
  replace (S k - 1)%nat with k by lia. apply rsum_ext. intros t _. reflexivity.
Qed.
Lemma offB i : lsum (contrib X i) (map (fun id => ((e + id)%nat, (e + m + 1)%nat, f (2 * m + id)%nat)) (seq 0 m)) =
  rsum m (fun t => (if Nat.eqb (e + t) i then f (2 * m + t)%nat * X (e + m + 1)%nat else 0) + (if Nat.eqb (e + m + 1) i then f (2 * m + t)%nat * X (e + t)%nat else 0)).
Proof. rewrite symv_off by (intros; lia). reflexivity. Qed.

Lemma blk_low i : (i < n)%nat -> symv (blk Gt e st m f) X i = rsum m (fun id => entry (Gt (st + id)%nat) i * X (e + id)%nat).
Proof.
  intros Hi. unfold symv, blk. rewrite !lsum_app, (cols_low X i n e (fun id => Gt (st + id)%nat)) by assumption.
  rewrite offA, offB, !symv_diag. rewrite !(proj2 (Nat.eqb_neq _ _)) by lia.
  rewrite (rsum_zero m (fun t => if Nat.eqb t 0 then _ else _)). 2:{ intros t Ht. destruct (Nat.eqb t 0); [reflexivity|]. rewrite (proj2 (Nat.eqb_neq (e + t) i)) by lia. lra. }
  rewrite (rsum_zero m (fun t => (if Nat.eqb _ _ then _ else _) + 0)). 2:{ intros t Ht. rewrite (proj2 (Nat.eqb_neq (e + t) i)) by lia. lra. }
  lra.
Qed.
Lemma blk_out i : (n <= i)%nat -> (i < e \/ e + m + 2 <= i)%nat -> symv (blk Gt e st m f) X i = 0.
Proof.
  intros Hi Ho. unfold symv, blk. rewrite !lsum_app, (cols_out X i n e (fun id => Gt (st + id)%nat)) by (try assumption; lia).
  rewrite offA, offB, !symv_diag. rewrite !(proj2 (Nat.eqb_neq _ _)) by lia.
  rewrite (rsum_zero m (fun t => if Nat.eqb t 0 then _ else _)). 2:{ intros t Ht. destruct (Nat.eqb t 0); [reflexivity|]. rewrite (proj2 (Nat.eqb_neq (e + t) i)) by lia. lra. }
  rewrite (rsum_zero m (fun t => (if Nat.eqb _ _ then _ else _) + 0)). 2:{ intros t Ht. rewrite (proj2 (Nat.eqb_neq (e + t) i)) by lia. lra. }
  lra.
Qed.
Lemma blk_row j : (j < m)%nat -> symv (blk Gt e st m f) X (e + j)%nat =
  col_dot (Gt (st + j)%nat) X + f j * X (e + j)%nat + (if Nat.eqb j 0 then 0 else f (m + j - 1)%nat * X (e + m)%nat) + f (2 * m + j)%nat * X (e + m + 1)%nat.
Proof.
  intros Hj. unfold symv, blk. rewrite !lsum_app, (cols_own X n e (fun id => Gt (st + id)%nat)) by assumption.
  rewrite offA, offB, !symv_diag. rewrite !(proj2 (Nat.eqb_neq (_ + m) _)) by lia. rewrite !(proj2 (Nat.eqb_neq (e + m + 1) _)) by lia.
  rewrite (rsum_single m j (fun t => if Nat.eqb t 0 then _ else _)); [|assumption|].
  2:{ intros t Ht Hne. destruct (Nat.eqb t 0); [reflexivity|]. rewrite (proj2 (Nat.eqb_neq (e + t) _)) by lia. lra. }
  rewrite (rsum_single m j (fun t => (if Nat.eqb _ _ then _ else _) + 0)); [|assumption|].
  2:{ intros t Ht Hne. rewrite (proj2 (Nat.eqb_neq (e + t) _)) by lia. lra. }
  rewrite Nat.eqb_refl. destruct (Nat.eqb j 0); lra.
Qed.
Lemma blk_v : symv (blk Gt e st m f) X (e + m)%nat = rsum m (fun t => if Nat.eqb t 0 then 0 else f (m + t - 1)%nat * X (e + t)%nat) + f (2 * m - 1)%nat * X (e + m)%nat.
Proof.
  unfold symv, blk. rewrite !lsum_app, (cols_out X _ n e (fun id => Gt (st + id)%nat)) by (try assumption; lia).
  rewrite offA, offB, !symv_diag. rewrite (Nat.eqb_refl (e + m)). rewrite !(proj2 (Nat.eqb_neq (e + m + 1) _)) by lia.
  rewrite (rsum_zero m (fun t => (if Nat.eqb _ _ then _ else _) + 0)). 2:{ intros t Ht. rewrite (proj2 (Nat.eqb_neq (e + t) _)) by lia. lra. }
  rewrite (rsum_ext m (fun t => if Nat.eqb t 0 then 0 else _ + _) (fun t => if Nat.eqb t 0 then 0 else f (m + t - 1)%nat * X (e + t)%nat)). { lra. }
  intros t Ht. destruct (Nat.eqb t 0); [reflexivity|]. rewrite (proj2 (Nat.eqb_neq (e + t) _)) by lia. lra.
Qed.
Lemma blk_u : symv (blk Gt e st m f) X (e + m + 1)%nat = rsum m (fun t => f (2 * m + t)%nat * X (e + t)%nat) + f (3 * m)%nat * X (e + m + 1)%nat.
Proof.
  unfold symv, blk. rewrite !lsum_app, (cols_out X _ n e (fun id => Gt (st + id)%nat)) by (try assumption; lia).
  rewrite offA, offB, !symv_diag. rewrite (Nat.eqb_refl (e + m + 1)). rewrite !(proj2 (Nat.eqb_neq (e + m) _)) by lia.
  rewrite (rsum_zero m (fun t => if Nat.eqb t 0 then _ else _)). 2:{ intros t Ht. destruct (Nat.eqb t 0); [reflexivity|]. rewrite (proj2 (Nat.eqb_neq (e + t) _)) by lia. lra. }
  rewrite (rsum_ext m (fun t => (if Nat.eqb (e + t) _ then _ else 0) + _) (fun t => f (2 * m + t)%nat * X (e + t)%nat)). { lra. }
  intros t Ht. rewrite (proj2 (Nat.eqb_neq (e + t) _)) by lia. lra.
Qed.
End Block.

(** Blocks with the written scalings are the arrow matrices. *)
Ltac slot := unfold upd_slot; repeat match goal with |- context [Nat.eqb ?a ?b] => destruct (Nat.eqb_spec a b); try lia | |- context [Nat.ltb ?a ?b] => destruct (Nat.ltb_spec a b); try lia end.
Section Arrow.
Context (X : nat -> R) (Gt : smatrix) (n e st m : nat) (reg : R) (b : ntsoc).
Hypothesis Hm : (1 <= m)%nat.
Hypothesis Hn : (n <= e)%nat.
Hypothesis Hc : forall id, (id < m)%nat -> col_ok n (Gt (st + id)%nat).
Let arr := arrow m (nt_eta2 b) (nt_d1 b) (nt_u0 b) (nt_u1 b) (nt_v1 b) (nt_wbar b) (fun k => X (e + k)%nat).
Let T := blk Gt e st m (upd_slot reg m b).
Lemma arrow_row j : (j < m)%nat -> symv T X (e + j)%nat = col_dot (Gt (st + j)%nat) X - reg * X (e + j)%nat - arr j.
Proof.
  intros Hj. unfold T, arr. rewrite (blk_row X Gt n) by assumption. unfold arrow.
  replace (e + m + 1)%nat with (e + S m)%nat by lia. destruct (Nat.eqb_spec j 0) as [->|Hj0].
  - rewrite Nat.add_0_r. slot. ring_simplify. lra.
  - destruct (Nat.ltb_spec j m); [|lia]. 
    assert (E1 : upd_slot reg m b j = - nt_eta2 b - reg) by (slot; reflexivity).
    assert (E2 : upd_slot reg m b (m + j - 1) = - nt_eta2 b * nt_v1 b * nt_wbar b j) by (slot; do 2 f_equal; lia).
    assert (E3 : upd_slot reg m b (2 * m + j) = - nt_eta2 b * nt_u1 b * nt_wbar b j) by (slot; do 2 f_equal; lia).
    rewrite E1, E2, E3. ring.
Qed.
Lemma arrow_v : symv T X (e + m)%nat = - arr m.
Proof.
  unfold T, arr. rewrite (blk_v X Gt n) by assumption. unfold arrow. rewrite (proj2 (Nat.eqb_neq m 0)), Nat.ltb_irrefl, Nat.eqb_refl by lia.
  assert (E : upd_slot reg m b (2 * m - 1) = - nt_eta2 b) by (slot; reflexivity).
  rewrite E. rewrite (rsum_ext m _ (fun t => (- nt_eta2 b * nt_v1 b) * (if Nat.eqb t 0 then 0 else nt_wbar b t * X (e + t)%nat))).
  { rewrite rsum_scal. ring. }
  intros t Ht. destruct (Nat.eqb_spec t 0) as [->|Ht0]; [ring|].
  assert (E2 : upd_slot reg m b (m + t - 1) = - nt_eta2 b * nt_v1 b * nt_wbar b t) by (slot; do 2 f_equal; lia). rewrite E2. ring.
Qed.
Lemma arrow_u : symv T X (e + m + 1)%nat = reg * X (e + m + 1)%nat - arr (S m).
Proof.
  unfold T, arr. rewrite (blk_u X Gt n) by assumption. unfold arrow. rewrite (proj2 (Nat.eqb_neq (S m) 0)), (proj2 (Nat.ltb_ge _ _)), (proj2 (Nat.eqb_neq (S m) m)) by lia.
  replace (e + m + 1)%nat with (e + S m)%nat by lia.
  assert (E : upd_slot reg m b (3 * m) = nt_eta2 b + reg) by (slot; reflexivity).
  rewrite E. rewrite (rsum_ext m _ (fun t => (if Nat.eqb t 0 then - nt_eta2 b * nt_u0 b * X (e + 0)%nat else 0) + (- nt_eta2 b * nt_u1 b) * (if Nat.eqb t 0 then 0 else nt_wbar b t * X (e + t)%nat))).
  { rewrite rsum_plus, rsum_scal, rsum_delta by lia. ring. }
  intros t Ht. destruct (Nat.eqb_spec t 0) as [->|Ht0].
  - assert (E2 : upd_slot reg m b (2 * m + 0) = - nt_eta2 b * nt_u0 b) by (slot; reflexivity). rewrite E2. ring.
  - assert (E2 : upd_slot reg m b (2 * m + t) = - nt_eta2 b * nt_u1 b * nt_wbar b t) by (slot; do 2 f_equal; lia). rewrite E2. ring.
Qed.
End Arrow.

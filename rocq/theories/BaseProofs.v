(** Lemmas on sums and arrays. *)
From Coq Require Import Reals List Arith ZArith Bool Lia Lra.
From Verif Require Import Base.
Import ListNotations.
Open Scope R_scope.

Lemma upd_same {A} (f : nat -> A) i v : upd f i v i = v.
Proof. unfold upd. now rewrite Nat.eqb_refl. Qed.
Lemma upd_other {A} (f : nat -> A) i v j : j <> i -> upd f i v j = f j.
Proof. intros. unfold upd. destruct (Nat.eqb_spec j i); congruence. Qed.

Lemma rsum_S n f : rsum (S n) f = rsum n f + f n.
Proof. reflexivity. Qed.
Lemma rsum_ext n f g : (forall i, (i < n)%nat -> f i = g i) -> rsum n f = rsum n g.
Proof. induction n; intros H; simpl; auto. rewrite IHn by (intros; apply H; lia). rewrite H by lia. reflexivity. Qed.
Lemma rsum_plus n f g : rsum n (fun i => f i + g i) = rsum n f + rsum n g.
Proof. induction n; simpl; [lra|]. rewrite IHn; lra. Qed.
Lemma rsum_minus n f g : rsum n (fun i => f i - g i) = rsum n f - rsum n g.
Proof. induction n; simpl; [lra|]. rewrite IHn; lra. Qed.
Lemma rsum_scal n c f : rsum n (fun i => c * f i) = c * rsum n f.
Proof. induction n; simpl; [lra|]. rewrite IHn; lra. Qed.
Lemma rsum_scal_r n c f : rsum n (fun i => f i * c) = rsum n f * c.
Proof. induction n; simpl; [lra|]. rewrite IHn; lra. Qed.
Lemma rsum_zero n f : (forall i, (i < n)%nat -> f i = 0) -> rsum n f = 0.
Proof. induction n; intros H; simpl; auto. rewrite IHn by (intros; apply H; lia). rewrite H by lia. lra. Qed.
Lemma rsum_swap n m f : rsum n (fun i => rsum m (fun j => f i j)) = rsum m (fun j => rsum n (fun i => f i j)).
Proof.
  induction n; simpl. { symmetry. now apply rsum_zero. }
  rewrite IHn, <- rsum_plus. reflexivity.
Qed.
Lemma rsum_single n k f : (k < n)%nat -> (forall i, (i < n)%nat -> i <> k -> f i = 0) -> rsum n f = f k.
Proof.
  induction n; intros Hk H; [lia|]. simpl. destruct (Nat.eq_dec k n) as [->|Hne].
  - rewrite rsum_zero by (intros; apply H; lia). lra.
  - rewrite IHn by (try lia; intros; apply H; lia). rewrite (H n) by lia. lra.
Qed.
Lemma rsum_delta n k c : (k < n)%nat -> rsum n (fun i => if Nat.eqb i k then c else 0) = c.
Proof.
  intros. rewrite (rsum_single n k); [now rewrite Nat.eqb_refl| assumption|].
  intros i _ Hi. apply Nat.eqb_neq in Hi. now rewrite Hi.
Qed.
Lemma rsum_split n m f : rsum (n + m) f = rsum n f + rsum m (fun i => f (n + i)%nat).
Proof. induction m; simpl. { rewrite Nat.add_0_r; lra. } rewrite Nat.add_succ_r, rsum_S, IHm. lra. Qed.
Lemma rsum_S_first n f : rsum (S n) f = f 0%nat + rsum n (fun i => f (S i)).
Proof. induction n as [|n IH]; [simpl; lra|]. rewrite (rsum_S (S n)), IH, (rsum_S n). lra. Qed.
(** Sum truncated to a prefix when the rest vanishes. *)
Lemma rsum_trunc n m f : (m <= n)%nat -> (forall i, (m <= i < n)%nat -> f i = 0) -> rsum n f = rsum m f.
Proof.
  intros Hm H. replace n with (m + (n - m))%nat by lia. rewrite rsum_split, (rsum_zero (n - m)); [lra|].
  intros; apply H; lia.
Qed.
Lemma rsum_le n f g : (forall i, (i < n)%nat -> f i <= g i) -> rsum n f <= rsum n g.
Proof. induction n; intros H; simpl; [lra|]. assert (f n <= g n) by (apply H; lia). assert (rsum n f <= rsum n g) by (apply IHn; intros; apply H; lia). lra. Qed.
Lemma rsum_nonneg n f : (forall i, (i < n)%nat -> 0 <= f i) -> 0 <= rsum n f.
Proof. intros H. rewrite <- (rsum_zero n (fun _ => 0)); auto. apply rsum_le; auto. Qed.
Lemma rsum_sq_zero n f : rsum n (fun i => f i * f i) = 0 -> forall i, (i < n)%nat -> f i = 0.
Proof.
  induction n; intros H i Hi; [lia|]. simpl in H.
  assert (0 <= rsum n (fun i => f i * f i)) by (apply rsum_nonneg; intros; nra).
  assert (f n * f n = 0) by nra. assert (rsum n (fun i => f i * f i) = 0) by nra.
  destruct (Nat.eq_dec i n) as [->|]; [nra|]. apply IHn; auto; lia.
Qed.
Lemma rsum_list n f : rsum n f = fold_right Rplus 0 (map f (seq 0 n)).
Proof.
  induction n; auto. rewrite seq_S, map_app, fold_right_app. simpl. rewrite IHn.
  assert (G : forall l a, fold_right Rplus a l = fold_right Rplus 0 l + a) by (induction l; intros; simpl; [lra| rewrite IHl; lra]).
  rewrite (G _ (f n + 0)). lra.
Qed.
Lemma nsum_ext n f g : (forall i, (i < n)%nat -> f i = g i) -> nsum n f = nsum n g.
Proof. induction n; intros H; simpl; auto. rewrite IHn by (intros; apply H; lia). rewrite H by lia. reflexivity. Qed.
Lemma nsum_mono n m f : (n <= m)%nat -> (nsum n f <= nsum m f)%nat.
Proof. induction 1; simpl; lia. Qed.

Lemma foldM_cons {A S} (f : S -> A -> res S) a l s : foldM f (a :: l) s = bind (f s a) (foldM f l).
Proof. reflexivity. Qed.
Lemma foldM_append {A S} (f : S -> A -> res S) a b s : foldM f (a ++ b) s = bind (foldM f a s) (foldM f b).
Proof. revert s; induction a as [|x a IH]; intros s; simpl; [reflexivity|]. destruct (f s x); simpl; auto. Qed.

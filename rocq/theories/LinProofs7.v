From Coq Require Import Reals List Arith Bool Lia Lra.
From Verif Require Import Base BaseProofs ConeModel LdlSpec LinModel LinSpec.
Import ListNotations.
Open Scope R_scope.

(** Unit vector. *)
Definition unit (i k : nat) : R := if Nat.eqb k i then 1 else 0.
Lemma unit_same i : unit i i = 1. Proof. unfold unit. now rewrite Nat.eqb_refl. Qed.
Lemma unit_other i k : k <> i -> unit i k = 0. Proof. intros H. unfold unit. apply Nat.eqb_neq in H. now rewrite H. Qed.

Lemma ext_index n p nl q i : (i < ext_size n p nl q)%nat ->
  (i < n)%nat \/ (exists r, (r < p)%nat /\ i = (n + r)%nat) \/ (exists r, (r < nl)%nat /\ i = (n + p + r)%nat) \/
  (exists k m j, nth_error q k = Some m /\ (j < m + 2)%nat /\ i = (n + p + ext_start nl q k + j)%nat).
Proof.
  intros H. destruct (Nat.lt_ge_cases i n); [auto|]. destruct (Nat.lt_ge_cases i (n + p)); [right; left; exists (i - n)%nat; lia|].
  destruct (Nat.lt_ge_cases i (n + p + nl)); [right; right; left; exists (i - n - p)%nat; lia|]. right; right; right.
  unfold ext_size, ext_start, blk_start in *. remember (i - (n + p + nl))%nat as t.
  assert (Ht : (t < fold_right Nat.add 0 q + 2 * length q)%nat) by lia.
  assert (K : exists k m j, nth_error q k = Some m /\ (j < m + 2)%nat /\ t = (fold_right Nat.add 0 (firstn k q) + 2 * k + j)%nat).
  { clear - Ht. revert t Ht. induction q as [|a q IH]; intros t Ht; cbn [fold_right length] in Ht; [lia|].
    destruct (Nat.lt_ge_cases t (a + 2)); [exists 0%nat, a, t; split; [reflexivity|split; [exact H|cbn; lia]]|].
    destruct (IH (t - a - 2)%nat ltac:(lia)) as (k & m & j & H1 & H2 & H3). exists (S k), m, j. cbn [nth_error firstn fold_right]. repeat split; [exact H1|exact H2|lia]. }
  destruct K as (k & m & j & K1 & K2 & K3). exists k, m, j. repeat split; [exact K1|exact K2|lia].
Qed.
Lemma sign_ext_lt q : forall e f i, (i < e)%nat -> sign_ext e q f i = f i.
Proof. induction q as [|a q IH]; intros e f i H; [reflexivity|]. cbn [sign_ext]. rewrite IH by lia. apply upd_other. lia. Qed.
Lemma sign_ext_blk q : forall k m j e f, nth_error q k = Some m -> (j < m + 2)%nat -> (forall i, (e <= i)%nat -> f i = -1) ->
  sign_ext e q f (e + fold_right Nat.add 0 (firstn k q) + 2 * k + j)%nat = if Nat.eqb j (m + 1) then 1 else -1.
Proof.
  induction q as [|a q IH]; intros k m j e f H Hj Hf; [destruct k; discriminate|]. destruct k.
  - cbn in H. injection H as ->. cbn [firstn fold_right]. cbn [sign_ext]. rewrite sign_ext_lt by lia. unfold upd.
    replace (e + 0 + 2 * 0 + j)%nat with (e + j)%nat by lia. destruct (Nat.eqb_spec j (m + 1)).
    + replace (Nat.eqb (e + j) (e + m + 1)) with true by (symmetry; apply Nat.eqb_eq; lia). reflexivity.
    + replace (Nat.eqb (e + j) (e + m + 1)) with false by (symmetry; apply Nat.eqb_neq; lia). apply Hf. lia.
  - cbn [nth_error] in H. cbn [firstn fold_right sign_ext].
    replace (e + (a + fold_right Nat.add 0 (firstn k q)) + 2 * S k + j)%nat with (e + a + 2 + fold_right Nat.add 0 (firstn k q) + 2 * k + j)%nat by lia.
    apply IH; [exact H|exact Hj|]. intros i Hi. rewrite upd_other by lia. apply Hf. lia.
Qed.

Lemma diag_signs d reg w2 bs K : is_kkt (d_n d) (d_p d) (d_nl d) (d_q d) (fun r i => entry (d_At d r) i) (fun r i => entry (d_Gt d r) i) reg w2 bs K ->
  0 < reg -> (forall r, (r < d_nl d)%nat -> 0 <= w2 r) -> length bs = length (d_q d) -> (forall m, In m (d_q d) -> (1 <= m)%nat) ->
  (forall b, In b bs -> 0 < nt_eta2 b /\ 0 <= nt_d1 b) ->
  forall i, (i < ext_size (d_n d) (d_p d) (d_nl d) (d_q d))%nat -> 0 < sign d i * K (unit i) i.
Proof.
  intros [K1 K2 K3 K4] Hr Hw Hl Hq Hb i Hi. set (n := d_n d) in *. set (p := d_p d) in *. set (nl := d_nl d) in *. set (q := d_q d) in *.
  assert (Z : forall N g (f : nat -> nat), (forall r, (r < N)%nat -> f r <> i) -> rsum N (fun r => g r * unit i (f r)) = 0).
  { intros N g f Hf. apply rsum_zero. intros r H. rewrite unit_other by (apply Hf, H). ring. }
  destruct (ext_index n p nl q i Hi) as [H|[(r & H & ->)|[(r & H & ->)|(k & m & j & H & Hj & E)]]].
  - rewrite K1 by exact H. rewrite unit_same, (Z p _ (fun r => (n + r)%nat)), (Z (nl + _)%nat _ (fun r => (n + p + ext_row nl q r)%nat)) by (intros; lia).
    unfold sign. fold n p nl q. rewrite sign_ext_lt by lia. apply Nat.ltb_lt in H. rewrite H. lra.
  - rewrite K2 by exact H. rewrite unit_same, (Z n _ (fun i => i)) by (intros; lia).
    unfold sign. fold n p nl q. rewrite sign_ext_lt by lia. replace (Nat.ltb (n + r) n) with false by (symmetry; apply Nat.ltb_ge; lia). lra.
  - rewrite K3 by exact H. rewrite unit_same, (Z n _ (fun i => i)) by (intros; lia). specialize (Hw r H).
    unfold sign. fold n p nl q. rewrite sign_ext_lt by lia. replace (Nat.ltb (n + p + r) n) with false by (symmetry; apply Nat.ltb_ge; lia). nra.
  - destruct (nth_error bs k) as [b|] eqn:Eb; [|apply nth_error_None in Eb; assert (k < length q)%nat by (apply nth_error_Some; congruence); lia].
    destruct (Hb b (nth_error_In _ _ Eb)) as [B1 B2]. pose proof (Hq m (nth_error_In _ _ H)) as Hm.
    destruct (K4 (unit i) k m b H Eb) as (A1 & A2 & A3).
    assert (SG : sign d i = if Nat.eqb j (m + 1) then 1 else -1).
    { rewrite E. unfold sign. fold n p nl q. unfold ext_start, blk_start. 
      replace (n + p + (nl + fold_right Nat.add 0 (firstn k q) + 2 * k) + j)%nat with (n + p + nl + fold_right Nat.add 0 (firstn k q) + 2 * k + j)%nat by lia.
      apply sign_ext_blk; [exact H|exact Hj|]. intros t Ht. replace (Nat.ltb t n) with false by (symmetry; apply Nat.ltb_ge; lia). reflexivity. }
    assert (U : forall t, unit i (n + p + ext_start nl q k + t)%nat = unit j t).
    { intros t. unfold unit. rewrite E. destruct (Nat.eqb_spec t j); [subst; now rewrite Nat.eqb_refl|]. replace (Nat.eqb _ _) with false by (symmetry; apply Nat.eqb_neq; lia). reflexivity. }
    rewrite SG. unfold block_arrow, arrow in A1, A2, A3.
    assert (WX : forall w : nat -> R, (m <= j)%nat -> rsum m (fun i0 => if Nat.eqb i0 0 then 0 else w i0 * unit i (n + p + ext_start nl q k + i0)%nat) = 0).
    { intros w Hmj. apply rsum_zero. intros t Ht. destruct (Nat.eqb t 0); [reflexivity|]. rewrite U, unit_other by lia. ring. }
    assert (KE : K (unit i) i = K (unit i) (n + p + ext_start nl q k + j)%nat) by (f_equal; exact E).
    rewrite KE. clear KE. clear K1 K2 K3 K4 SG.
    destruct (Nat.lt_ge_cases j m) as [Hjm|Hjm].
    + rewrite (A1 _ Hjm). clear A1 A2 A3. rewrite (Z n _ (fun i => i)) by (intros; lia).
      replace (Nat.eqb j (m + 1)) with false by (symmetry; apply Nat.eqb_neq; lia).
      destruct (Nat.eqb_spec j 0).
      * subst j. rewrite !U, unit_same, (unit_other 0 (S m)) by lia. nra.
      * replace (Nat.ltb j m) with true by (symmetry; apply Nat.ltb_lt; lia). rewrite !U, unit_same, (unit_other j m), (unit_other j (S m)) by lia. nra.
    + destruct (Nat.eq_dec j m) as [->|].
      * rewrite A2. clear A1 A2 A3. rewrite WX by lia. rewrite !U, unit_same. replace (Nat.eqb m (m + 1)) with false by (symmetry; apply Nat.eqb_neq; lia).
        replace (Nat.eqb m 0) with false by (symmetry; apply Nat.eqb_neq; lia). rewrite Nat.ltb_irrefl, Nat.eqb_refl. nra.
      * assert (j = m + 1)%nat by lia. subst j. replace (n + p + ext_start nl q k + (m + 1))%nat with (n + p + ext_start nl q k + m + 1)%nat by lia.
        rewrite A3. clear A1 A2 A3. rewrite WX by lia. rewrite !U, Nat.eqb_refl. rewrite ?(Nat.add_1_r m).
        replace (Nat.eqb (S m) 0) with false by reflexivity. replace (Nat.ltb (S m) m) with false by (symmetry; apply Nat.ltb_ge; lia).
        replace (Nat.eqb (S m) m) with false by (symmetry; apply Nat.eqb_neq; lia). rewrite unit_same, (unit_other (S m) 0) by lia. nra.
Qed.

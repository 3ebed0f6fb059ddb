(** * Pseudo-inverses and two-level least squares *)
From Coq Require Import Reals List Arith Bool Lia Lra.
Import ListNotations.
From Verif Require Import Base BaseProofs PyqpModel PyqpSpec SoModel SoSpec.
Local Open Scope R_scope.

Definition ap (n : nat) (A : nat -> nat -> R) (x : nat -> R) : nat -> R := fun i => rsum n (fun k => A i k * x k).
Lemma ap_ext : forall n A x y i, (forall k, (k < n)%nat -> x k = y k) -> ap n A x i = ap n A y i.
Proof. intros. unfold ap. apply rsum_ext. intros k Hk. now rewrite H. Qed.
Lemma ap_plus : forall n A x y i, ap n A (fun k => x k + y k) i = ap n A x i + ap n A y i.
Proof. intros. unfold ap. rewrite <- rsum_plus. apply rsum_ext. intros. ring. Qed.
Lemma ap_minus : forall n A x y i, ap n A (fun k => x k - y k) i = ap n A x i - ap n A y i.
Proof. intros. unfold ap. rewrite <- rsum_minus. apply rsum_ext. intros. ring. Qed.
Lemma ap_zero : forall n A x i, (forall k, (k < n)%nat -> x k = 0) -> ap n A x i = 0.
Proof. intros. unfold ap. apply rsum_zero. intros k Hk. rewrite H by exact Hk. ring. Qed.
Lemma ap_mul : forall n m A B x i, ap n (fun i j => rsum m (fun k => A i k * B k j)) x i = ap m A (ap n B x) i.
Proof.
  intros. unfold ap. transitivity (rsum n (fun k => rsum m (fun j => A i j * (B j k * x k)))).
  - apply rsum_ext. intros k _. rewrite <- rsum_scal_r. apply rsum_ext. intros. ring.
  - rewrite rsum_swap. apply rsum_ext. intros j _. now rewrite rsum_scal.
Qed.
Lemma ap_sym : forall n S x y, (forall i j, (i < n)%nat -> (j < n)%nat -> S i j = S j i) -> rsum n (fun i => ap n S x i * y i) = rsum n (fun i => x i * ap n S y i).
Proof.
  intros n S x y H. unfold ap. transitivity (rsum n (fun i => rsum n (fun j => S i j * x j * y i))).
  - apply rsum_ext. intros i _. now rewrite <- rsum_scal_r.
  - rewrite rsum_swap. apply rsum_ext. intros j Hj. rewrite <- rsum_scal. apply rsum_ext. intros i Hi. rewrite (H i j) by assumption. ring.
Qed.
Definition mm (k : nat) (A B : nat -> nat -> R) : nat -> nat -> R := fun i j => rsum k (fun l => A i l * B l j).

Section Pinv.
  Variables (m n : nat) (A P : nat -> nat -> R).
  Hypothesis APA : forall x i, (i < m)%nat -> ap n A (ap m P (ap n A x)) i = ap n A x i.
  Hypothesis PAP : forall x i, (i < n)%nat -> ap m P (ap n A (ap m P x)) i = ap m P x i.
  Hypothesis SAP : forall i j, (i < m)%nat -> (j < m)%nat -> mm n A P i j = mm n A P j i.
  Hypothesis SPA : forall i j, (i < n)%nat -> (j < n)%nat -> mm m P A i j = mm m P A j i.
  Definition sqerr (b x : nat -> R) : R := rsum m (fun i => (ap n A x i - b i) ^ 2).
  Lemma residual : forall b z, rsum m (fun i => (ap n A (ap m P b) i - b i) * ap n A z i) = 0.
  Proof.
    intros b z. transitivity (rsum m (fun i => ap m (mm n A P) b i * ap n A z i) - rsum m (fun i => b i * ap n A z i)).
    - rewrite <- rsum_minus. apply rsum_ext. intros i Hi. unfold mm. rewrite ap_mul. ring.
    - rewrite (ap_sym m (mm n A P)) by exact SAP. rewrite <- rsum_minus. apply rsum_zero. intros i Hi. unfold mm. rewrite ap_mul, APA by exact Hi. ring.
  Qed.
  Lemma sqerr_split : forall b y, sqerr b y = sqerr b (ap m P b) + rsum m (fun i => ap n A (fun k => y k - ap m P b k) i ^ 2).
  Proof.
    intros b y. unfold sqerr. assert (E : rsum m (fun i => (ap n A y i - b i) ^ 2) = rsum m (fun i => (ap n A (ap m P b) i - b i) ^ 2) + rsum m (fun i => ap n A (fun k => y k - ap m P b k) i ^ 2) + 2 * rsum m (fun i => (ap n A (ap m P b) i - b i) * ap n A (fun k => y k - ap m P b k) i)).
    { rewrite <- rsum_scal, <- !rsum_plus. apply rsum_ext. intros i _. rewrite ap_minus. ring. }
    rewrite E, residual. ring.
  Qed.
  Lemma pinv_best : forall b y, sqerr b (ap m P b) <= sqerr b y.
  Proof. intros b y. rewrite (sqerr_split b y). assert (0 <= rsum m (fun i => ap n A (fun k => y k - ap m P b k) i ^ 2)) by (apply rsum_nonneg; intros; apply pow2_ge_0). lra. Qed.
  Lemma pinv_only : forall b y, sqerr b y <= sqerr b (ap m P b) -> forall i, (i < m)%nat -> ap n A (fun k => y k - ap m P b k) i = 0.
  Proof.
    intros b y H i Hi. rewrite (sqerr_split b y) in H. assert (X : 0 <= rsum m (fun i => ap n A (fun k => y k - ap m P b k) i ^ 2)) by (apply rsum_nonneg; intros; apply pow2_ge_0).
    assert (Z : rsum m (fun i => ap n A (fun k => y k - ap m P b k) i * ap n A (fun k => y k - ap m P b k) i) = 0). { transitivity (rsum m (fun i => ap n A (fun k => y k - ap m P b k) i ^ 2)); [apply rsum_ext; intros; ring|lra]. }
    exact (rsum_sq_zero m _ Z i Hi).
  Qed.
  (** ** Null space *)
  Definition nul : nat -> nat -> R := fun i j => (if (i =? j)%nat then 1 else 0) - mm m P A i j.
  Lemma ap_nul : forall x i, (i < n)%nat -> ap n nul x i = x i - ap m P (ap n A x) i.
  Proof.
    intros x i Hi. unfold nul. transitivity (rsum n (fun k => (if (i =? k)%nat then 1 else 0) * x k) - ap n (mm m P A) x i).
    - unfold ap. rewrite <- rsum_minus. apply rsum_ext. intros. ring.
    - unfold mm. rewrite ap_mul. f_equal. rewrite (rsum_single n i) by (assumption || (intros k Hk Nk; rewrite (proj2 (Nat.eqb_neq i k)) by auto; ring)). rewrite Nat.eqb_refl. ring.
  Qed.
  Lemma nul_sym : forall i j, (i < n)%nat -> (j < n)%nat -> nul i j = nul j i.
  Proof. intros i j Hi Hj. unfold nul. rewrite (SPA i j), Nat.eqb_sym by assumption. reflexivity. Qed.
  Lemma A_nul : forall x i, (i < m)%nat -> ap n A (ap n nul x) i = 0.
  Proof. intros x i Hi. rewrite (ap_ext n A (ap n nul x) (fun k => x k - ap m P (ap n A x) k)) by (intros; now apply ap_nul). rewrite ap_minus, APA by exact Hi. ring. Qed.
  Lemma nul_fix : forall x, (forall i, (i < m)%nat -> ap n A x i = 0) -> forall i, (i < n)%nat -> ap n nul x i = x i.
  Proof. intros x H i Hi. rewrite ap_nul, (ap_zero m P) by assumption. ring. Qed.
End Pinv.

(** ** Two levels *)
Section Levels.
  Variables (m r n : nat) (A P Jr T : nat -> nat -> R).
  Notation B := (mm n Jr (nul m A P)).
  Hypothesis APA : forall x i, (i < m)%nat -> ap n A (ap m P (ap n A x)) i = ap n A x i.
  Hypothesis SAP : forall i j, (i < m)%nat -> (j < m)%nat -> mm n A P i j = mm n A P j i.
  Hypothesis SPA : forall i j, (i < n)%nat -> (j < n)%nat -> mm m P A i j = mm m P A j i.
  Hypothesis BRB : forall x i, (i < r)%nat -> ap n B (ap r T (ap n B x)) i = ap n B x i.
  Hypothesis RBR : forall x i, (i < n)%nat -> ap r T (ap n B (ap r T x)) i = ap r T x i.
  Hypothesis SBR : forall i j, (i < r)%nat -> (j < r)%nat -> mm n B T i j = mm n B T j i.
  Hypothesis SRB : forall i j, (i < n)%nat -> (j < n)%nat -> mm r T B i j = mm r T B j i.
  Lemma A_R : forall c i, (i < m)%nat -> ap n A (ap r T c) i = 0.
  Proof.
    intros c i Hi. set (u := ap r T c). set (w := fun l => rsum n (fun k => rsum r (fun q => T k q * Jr q l) * u k)).
    assert (E : forall j, (j < n)%nat -> u j = ap n (nul m A P) w j).
    { intros j Hj. transitivity (ap n (mm r T B) u j). { unfold mm at 1. rewrite ap_mul. symmetry. apply RBR. exact Hj. }
      unfold ap at 1. transitivity (rsum n (fun k => rsum r (fun q => T k q * rsum n (fun l => Jr q l * nul m A P l j)) * u k)). { apply rsum_ext. intros k Hk. rewrite SRB by assumption. reflexivity. }
      transitivity (rsum n (fun k => rsum n (fun l => rsum r (fun q => T k q * Jr q l) * nul m A P l j) * u k)).
      { apply rsum_ext. intros k _. f_equal. transitivity (rsum r (fun q => rsum n (fun l => T k q * Jr q l * nul m A P l j))). { apply rsum_ext. intros q _. rewrite <- rsum_scal. apply rsum_ext. intros. ring. } rewrite rsum_swap. apply rsum_ext. intros l _. now rewrite rsum_scal_r. }
      transitivity (rsum n (fun k => rsum n (fun l => nul m A P l j * (rsum r (fun q => T k q * Jr q l) * u k)))). { apply rsum_ext. intros k _. rewrite <- rsum_scal_r. apply rsum_ext. intros. ring. }
      rewrite rsum_swap. unfold ap. apply rsum_ext. intros l Hl. rewrite rsum_scal. rewrite (nul_sym m n A P SPA l j) by assumption. reflexivity. }
    rewrite (ap_ext n A u (ap n (nul m A P) w)) by exact E. now apply A_nul.
  Qed.
  Variables (b c0 : nat -> R).
  Notation d := (ap m P b).
  Definition sol : nat -> R := fun j => d j + ap r T (fun i => c0 i - ap n Jr d i) j.
  Lemma A_sol : forall i, (i < m)%nat -> ap n A sol i = ap n A d i.
  Proof. intros i Hi. unfold sol. rewrite (ap_plus n A d). rewrite A_R by exact Hi. ring. Qed.
  Lemma level1 : forall y, sqerr m n A b sol <= sqerr m n A b y.
  Proof. intros y. replace (sqerr m n A b sol) with (sqerr m n A b d) by (apply rsum_ext; intros i Hi; now rewrite A_sol). now apply pinv_best. Qed.
  Lemma level2 : forall y, (forall z, sqerr m n A b y <= sqerr m n A b z) -> sqerr r n Jr c0 sol <= sqerr r n Jr c0 y.
  Proof.
    intros y Hy. pose proof (pinv_only m n A P APA SAP b y (Hy _)) as Z. set (z := fun k => y k - d k) in Z. set (c := fun i => c0 i - ap n Jr d i).
    assert (NB : forall x, (forall i, (i < m)%nat -> ap n A x i = 0) -> forall i, ap n Jr x i = ap n B x i).
    { intros x Hx i. unfold mm. rewrite ap_mul. apply ap_ext. intros k Hk. symmetry. now apply nul_fix. }
    replace (sqerr r n Jr c0 y) with (sqerr r n B c z).
    2:{ apply rsum_ext. intros i Hi. rewrite <- NB by exact Z. unfold z, c. rewrite ap_minus. f_equal. ring. }
    replace (sqerr r n Jr c0 sol) with (sqerr r n B c (ap r T c)).
    2:{ apply rsum_ext. intros i Hi. rewrite <- NB by (intros; now apply A_R). unfold sol. rewrite (ap_plus n Jr d). fold c. unfold c at 2. f_equal. ring. }
    now apply pinv_best.
  Qed.
End Levels.

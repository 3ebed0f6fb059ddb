(** * Linear algebra and the Cholesky factorisation *)
From Coq Require Import Reals List Arith ZArith Bool Lia Lra FunctionalExtensionality.
From Verif Require Import Base BaseProofs IpModel BnbProofs LbfgsProofs LqrModel.
Import ListNotations.
Open Scope R_scope.

Lemma dot_ext n x x' y y' : (forall i, (i < n)%nat -> x i = x' i) -> (forall i, (i < n)%nat -> y i = y' i) -> vdot n x y = vdot n x' y'.
Proof. intros H1 H2. unfold vdot. apply rsum_ext. intros i Hi. now rewrite H1, H2. Qed.
Lemma dot_comm n x y : vdot n x y = vdot n y x.
Proof. apply rsum_ext. intros. ring. Qed.
Lemma dot_plus_l n x y z : vdot n (vplus x y) z = vdot n x z + vdot n y z.
Proof. unfold vdot, vplus. rewrite <- rsum_plus. apply rsum_ext. intros. ring. Qed.
Lemma dot_plus_r n x y z : vdot n x (vplus y z) = vdot n x y + vdot n x z.
Proof. rewrite dot_comm, dot_plus_l, (dot_comm n y), (dot_comm n z). reflexivity. Qed.
Lemma dot_minus_l n x y z : vdot n (vminus x y) z = vdot n x z - vdot n y z.
Proof. unfold vdot, vminus. rewrite <- rsum_minus. apply rsum_ext. intros. ring. Qed.
Lemma dot_minus_r n x y z : vdot n x (vminus y z) = vdot n x y - vdot n x z.
Proof. rewrite dot_comm, dot_minus_l, (dot_comm n y), (dot_comm n z). reflexivity. Qed.
Lemma dot_scal_l n c x y : vdot n (vscal c x) y = c * vdot n x y.
Proof. unfold vdot, vscal. rewrite <- rsum_scal. apply rsum_ext. intros. ring. Qed.
Lemma dot_scal_r n c x y : vdot n x (vscal c y) = c * vdot n x y.
Proof. rewrite dot_comm, dot_scal_l, dot_comm. reflexivity. Qed.
Lemma dot_tr n m x M y : vdot n x (mv m M y) = vdot m (mv n (tr M) x) y.
Proof.
  unfold vdot, mv, tr. rewrite (rsum_ext n _ (fun i => rsum m (fun j => x i * (M i j * y j)))) by (intros; now rewrite rsum_scal).
  rewrite rsum_swap. apply rsum_ext. intros j Hj. rewrite <- rsum_scal_r. apply rsum_ext. intros. ring.
Qed.
Lemma mv_plus n M x y i : mv n M (vplus x y) i = mv n M x i + mv n M y i.
Proof. unfold mv, vplus. rewrite <- rsum_plus. apply rsum_ext. intros. ring. Qed.
Lemma mv_minus n M x y i : mv n M (vminus x y) i = mv n M x i - mv n M y i.
Proof. unfold mv, vminus. rewrite <- rsum_minus. apply rsum_ext. intros. ring. Qed.
Lemma mv_scal n M c x i : mv n M (vscal c x) i = c * mv n M x i.
Proof. unfold mv, vscal. rewrite <- rsum_scal. apply rsum_ext. intros. ring. Qed.
Lemma mv_mplus n A B x i : mv n (mplus A B) x i = mv n A x i + mv n B x i.
Proof. unfold mv, mplus. rewrite <- rsum_plus. apply rsum_ext. intros. ring. Qed.
Lemma mv_mm n k A B x i : mv n (mm k A B) x i = mv k A (mv n B x) i.
Proof.
  unfold mv, mm. rewrite (rsum_ext n _ (fun j => rsum k (fun l => A i l * B l j * x j))) by (intros; now rewrite rsum_scal_r).
  rewrite rsum_swap. apply rsum_ext. intros l Hl. rewrite <- rsum_scal. apply rsum_ext. intros. ring.
Qed.
Lemma mv_ext n M x y i : (forall j, (j < n)%nat -> x j = y j) -> mv n M x i = mv n M y i.
Proof. intros H. apply rsum_ext. intros. now rewrite H. Qed.
Lemma mv_mext n M N x i : (forall j, (j < n)%nat -> M i j = N i j) -> mv n M x i = mv n N x i.
Proof. intros H. apply rsum_ext. intros. now rewrite H. Qed.
Lemma mv_ident n x i : (i < n)%nat -> mv n ident x i = x i.
Proof. intros Hi. unfold mv, ident. rewrite (rsum_ext n _ (fun j => if Nat.eqb j i then x i else 0)); [now apply rsum_delta|]. intros j Hj. rewrite Nat.eqb_sym. destruct (Nat.eqb_spec j i); [subst; ring|ring]. Qed.
Lemma mv_mscal n c M x i : mv n (mscal c M) x i = c * mv n M x i.
Proof. unfold mv, mscal. rewrite <- rsum_scal. apply rsum_ext. intros. ring. Qed.

Definition sym (n : nat) (A : mat) : Prop := forall i j, (i < n)%nat -> (j < n)%nat -> A i j = A j i.
Definition posdef (n : nat) (A : mat) : Prop := forall x, (exists i, (i < n)%nat /\ x i <> 0) -> 0 < vdot n x (mv n A x).
Lemma dot_sym n A x y : sym n A -> vdot n x (mv n A y) = vdot n y (mv n A x).
Proof. intros HA. rewrite dot_tr, dot_comm. apply dot_ext; auto. intros i Hi. apply mv_mext. intros j Hj. unfold tr. auto. Qed.

(** ** Cholesky *)
Definition shift (x : vec) : vec := fun i => x (S i).
Lemma schur_sym n A : sym (S n) A -> sym n (schur A).
Proof. intros HA i j Hi Hj. unfold schur. rewrite (HA (S i) (S j)) by lia. unfold Rdiv. ring. Qed.
(** x^T A x = a (x0 + A_{.0}.x'/a)^2 + x'^T schur x'. *)
Lemma quad_schur n A x : sym (S n) A -> A 0%nat 0%nat <> 0 ->
  vdot (S n) x (mv (S n) A x) = A 0%nat 0%nat * (x 0%nat + rsum n (fun j => A (S j) 0%nat * x (S j)) / A 0%nat 0%nat) * (x 0%nat + rsum n (fun j => A (S j) 0%nat * x (S j)) / A 0%nat 0%nat)
    + vdot n (shift x) (mv n (schur A) (shift x)).
Proof.
  intros HA Ha. set (a := A 0%nat 0%nat) in *. set (s := rsum n (fun j => A (S j) 0%nat * x (S j))).
  assert (E0 : mv (S n) A x 0%nat = a * x 0%nat + s).
  { unfold mv. rewrite rsum_S_first. f_equal. apply rsum_ext. intros j Hj. rewrite (HA 0%nat (S j)) by lia. reflexivity. }
  assert (Ei : forall i, (i < n)%nat -> mv (S n) A x (S i) = A (S i) 0%nat * x 0%nat + (mv n (schur A) (shift x) i + A (S i) 0%nat * (s / a))).
  { intros i Hi. unfold mv at 1. rewrite rsum_S_first. f_equal. unfold mv, schur.
    replace (A (S i) 0%nat * (s / a)) with (rsum n (fun j => A (S i) 0%nat / a * (A (S j) 0%nat * x (S j)))) by (rewrite rsum_scal; fold s; field; exact Ha).
    rewrite <- rsum_plus. apply rsum_ext. intros j Hj. unfold shift. fold a. field. exact Ha. }
  unfold vdot at 1. rewrite rsum_S_first, E0. rewrite (rsum_ext n _ (fun i => (x 0%nat + s / a) * (A (S i) 0%nat * x (S i)) + shift x i * mv n (schur A) (shift x) i)).
  - rewrite rsum_plus, rsum_scal. fold s. unfold vdot. field. exact Ha.
  - intros i Hi. rewrite Ei by exact Hi. change (shift x i) with (x (S i)). ring.
Qed.
Lemma llt_posdef : forall n A C, sym n A -> llt n A = Some C -> posdef n A.
Proof.
  induction n as [|n IH]; intros A C HA H x (i & Hi & Hx); [lia|]. cbn [llt] in H. destruct (leb (A 0%nat 0%nat) 0) eqn:E; [discriminate|]. apply leb_false in E.
  destruct (llt n (schur A)) as [L|] eqn:EL; [|discriminate]. rewrite quad_schur by (auto; lra).
  set (a := A 0%nat 0%nat) in *. set (t := x 0%nat + _ / a).
  assert (Ht : 0 <= a * t * t) by (rewrite Rmult_assoc; apply Rmult_le_pos; [lra|apply Rle_0_sqr]).
  assert (Dec : (exists j, (j < n)%nat /\ shift x j <> 0) \/ forall j, (j < n)%nat -> shift x j = 0).
  { clear - n. induction n as [|n IHn]; [right; intros; lia|]. destruct IHn as [(j & Hj & Hn)|Hn]; [left; exists j; split; [lia|auto]|].
    destruct (Req_dec (shift x n) 0) as [E|E]; [right|left; exists n; auto]. intros j Hj. destruct (Nat.eq_dec j n) as [->|]; auto. apply Hn. lia. }
  destruct Dec as [Hs|Hs].
  - assert (Hp := IH (schur A) L (schur_sym n A HA) EL (shift x) Hs). lra.
  - assert (Hi0 : i = 0%nat). { destruct i; auto. exfalso. apply Hx. apply (Hs i). lia. } subst i.
    assert (Et : t = x 0%nat). { unfold t. rewrite (rsum_zero n). unfold Rdiv. ring. intros j Hj. unfold shift in Hs. rewrite Hs by exact Hj. ring. }
    rewrite Et. assert (0 < a * x 0%nat * x 0%nat). { rewrite Rmult_assoc. apply Rmult_lt_0_compat; [lra|]. apply Rsqr_pos_lt in Hx. exact Hx. }
    assert (vdot n (shift x) (mv n (schur A) (shift x)) = 0); [|lra]. apply rsum_zero. intros j Hj. rewrite Hs by exact Hj. ring.
Qed.
Lemma posdef_llt : forall n A, sym n A -> posdef n A -> exists C, llt n A = Some C.
Proof.
  induction n as [|n IH]; intros A HA HP; [eexists; reflexivity|]. cbn [llt].
  assert (Ha : 0 < A 0%nat 0%nat).
  { assert (H := HP (fun i => if Nat.eqb i 0 then 1 else 0)). cbv beta in H. specialize (H ltac:(exists 0%nat; split; [lia|cbn; lra])).
    unfold vdot, mv in H. rewrite rsum_S_first in H. cbn [Nat.eqb] in H. rewrite (rsum_zero n) in H by (intros; ring). rewrite rsum_S_first in H. cbn [Nat.eqb] in H. rewrite (rsum_zero n) in H by (intros; ring). lra. }
  rewrite (proj2 (leb_false _ _) Ha). destruct (IH (schur A)) as (C & ->); [now apply schur_sym| |eauto].
  intros y (i & Hi & Hy). set (s := rsum n (fun j => A (S j) 0%nat * y j)).
  assert (H := HP (fun i => match i with O => - s / A 0%nat 0%nat | S j => y j end) ltac:(exists (S i); split; [lia|exact Hy])).
  rewrite quad_schur in H by (auto; lra). cbv beta in H. fold s in H. replace (- s / A 0%nat 0%nat + s / A 0%nat 0%nat) with 0 in H by (field; lra).
  rewrite !Rmult_0_r, Rplus_0_l in H. exact H.
Qed.

Definition lower (n : nat) (C : mat) : Prop := (forall i j, (i < j < n)%nat -> C i j = 0) /\ forall i, (i < n)%nat -> C i i <> 0.
Lemma llt_lower : forall n A C, llt n A = Some C -> lower n C.
Proof.
  induction n as [|n IH]; intros A C H; [split; intros; lia|]. cbn [llt] in H. destruct (leb (A 0%nat 0%nat) 0) eqn:E; [discriminate|]. apply leb_false in E.
  destruct (llt n (schur A)) as [L|] eqn:EL; [|discriminate]. injection H as <-. destruct (IH _ _ EL) as [H1 H2]. split.
  - intros [|i] [|j] Hij; try lia; auto. apply H1. lia.
  - intros [|i] Hi; [|apply H2; lia]. apply Rgt_not_eq, sqrt_lt_R0. exact E.
Qed.
Lemma llt_factor : forall n A C, sym n A -> llt n A = Some C -> forall i j, (i < n)%nat -> (j < n)%nat -> rsum n (fun k => C i k * C j k) = A i j.
Proof.
  induction n as [|n IH]; intros A C HA H i j Hi Hj; [lia|]. cbn [llt] in H. destruct (leb (A 0%nat 0%nat) 0) eqn:E; [discriminate|]. apply leb_false in E.
  destruct (llt n (schur A)) as [L|] eqn:EL; [|discriminate]. injection H as <-. set (a := A 0%nat 0%nat) in *. assert (Hq : sqrt a * sqrt a = a) by (apply sqrt_sqrt; lra). assert (Hs : sqrt a <> 0) by (apply Rgt_not_eq, sqrt_lt_R0; lra).
  rewrite rsum_S_first. destruct i as [|i], j as [|j].
  - rewrite rsum_zero by (intros; ring). rewrite Hq. unfold a. ring.
  - rewrite rsum_zero by (intros; ring). rewrite (HA 0%nat (S j)) by lia. field. exact Hs.
  - rewrite rsum_zero by (intros; ring). field. exact Hs.
  - rewrite (IH (schur A) L) by (auto using schur_sym; lia). unfold schur. fold a. replace (A (S i) 0%nat / sqrt a * (A (S j) 0%nat / sqrt a)) with (A (S i) 0%nat * A (S j) 0%nat / (sqrt a * sqrt a)) by (field; exact Hs).
    rewrite Hq. ring.
Qed.
Lemma lsolve_ok : forall n C b, lower n C -> forall i, (i < n)%nat -> rsum n (fun j => C i j * lsolve n C b j) = b i.
Proof.
  induction n as [|n IH]; intros C b [H1 H2] i Hi; [lia|]. cbn [lsolve]. rewrite rsum_S_first. assert (H0 := H2 0%nat ltac:(lia)). destruct i as [|i].
  - rewrite rsum_zero; [field; exact H0|]. intros j Hj. rewrite H1 by lia. ring.
  - rewrite (IH (fun i j => C (S i) (S j)) (fun i => b (S i) - C (S i) 0%nat * (b 0%nat / C 0%nat 0%nat))); [field; exact H0| |lia].
    split; intros; [apply H1; lia|apply H2; lia].
Qed.
Lemma ltsolve_ok : forall n C y, lower n C -> forall i, (i < n)%nat -> rsum n (fun j => C j i * ltsolve n C y j) = y i.
Proof.
  induction n as [|n IH]; intros C b [H1 H2] i Hi; [lia|]. cbn [ltsolve]. rewrite rsum_S_first. assert (H0 := H2 0%nat ltac:(lia)). destruct i as [|i].
  - set (s := rsum n _). field. exact H0.
  - rewrite (H1 0%nat (S i)) by lia. rewrite Rmult_0_l, Rplus_0_l. apply (IH (fun i j => C (S i) (S j)) (fun i => b (S i))); [|lia]. split; intros; [apply H1; lia|apply H2; lia].
Qed.
Lemma llt_solve_ok n A C b : sym n A -> llt n A = Some C -> forall i, (i < n)%nat -> mv n A (llt_solve n C b) i = b i.
Proof.
  intros HA H i Hi. pose proof (llt_lower _ _ _ H) as HL. unfold llt_solve. set (y := lsolve n C b). set (x := ltsolve n C y).
  unfold mv. rewrite (rsum_ext n _ (fun j => rsum n (fun k => C i k * (C j k * x j)))).
  - rewrite rsum_swap. rewrite (rsum_ext n _ (fun k => C i k * y k)); [apply lsolve_ok; auto|]. intros k Hk. rewrite rsum_scal. f_equal. apply ltsolve_ok; auto.
  - intros j Hj. rewrite <- (llt_factor n A C HA H i j Hi Hj), <- rsum_scal_r. apply rsum_ext. intros. ring.
Qed.
(** |C^T v|^2 = v^T A v. *)
Lemma llt_norm n A C v : sym n A -> llt n A = Some C ->
  rsum n (fun c => rsum n (fun r => C r c * v r) * rsum n (fun r => C r c * v r)) = vdot n v (mv n A v).
Proof.
  intros HA H. rewrite (rsum_ext n _ (fun c => rsum n (fun i => rsum n (fun j => C i c * v i * (C j c * v j))))).
  - rewrite rsum_swap. unfold vdot. apply rsum_ext. intros i Hi. rewrite rsum_swap. unfold mv. rewrite <- rsum_scal. apply rsum_ext. intros j Hj.
    rewrite <- (llt_factor n A C HA H i j Hi Hj). replace (v i * (rsum n (fun k => C i k * C j k) * v j)) with (rsum n (fun k => C i k * C j k) * (v i * v j)) by ring. rewrite <- rsum_scal_r. apply rsum_ext. intros. ring.
  - intros c Hc. rewrite <- rsum_scal_r. apply rsum_ext. intros i Hi. now rewrite rsum_scal.
Qed.

(** * Proofs about the Riccati recursion *)
From Coq Require Import Reals List Arith Bool Lia Lra.
Import ListNotations.
From Verif Require Import Base BaseProofs IpModel LqrModel LqrSpec LqrProofs LqrProofs2 MkoModel RicModel RicSpec.
Local Open Scope R_scope.

Lemma quad_plus n M x y : sym n M -> vdot n (vplus x y) (mv n M (vplus x y)) = vdot n x (mv n M x) + 2 * vdot n y (mv n M x) + vdot n y (mv n M y).
Proof.
  intros HM. rewrite dot_plus_l. assert (E : forall z, vdot n z (mv n M (vplus x y)) = vdot n z (mv n M x) + vdot n z (mv n M y)).
  { intros z. rewrite <- dot_plus_r. apply dot_ext; auto. intros. apply mv_plus. }
  rewrite !E. rewrite (dot_sym n M x y HM). ring.
Qed.
Lemma sym_mm n m B P : sym n P -> sym m (mm n (mm n (tr B) P) B).
Proof.
  intros HP i j Hi Hj. unfold mm, tr. transitivity (rsum n (fun k => rsum n (fun l => B l i * P l k * B k j))).
  { apply rsum_ext. intros k Hk. rewrite <- rsum_scal_r. reflexivity. }
  rewrite rsum_swap. apply rsum_ext. intros k Hk. rewrite <- rsum_scal_r. apply rsum_ext. intros l Hl. rewrite (HP l k) by assumption. ring.
Qed.
Lemma sym_plus n A B : sym n A -> sym n B -> sym n (mplus A B). Proof. intros HA HB i j Hi Hj. unfold mplus. now rewrite (HA i j), (HB i j). Qed.
Lemma quad_mm n m B P x : vdot m x (mv m (mm n (mm n (tr B) P) B) x) = vdot n (mv m B x) (mv n P (mv m B x)).
Proof.
  rewrite (dot_ext m x x _ (mv n (tr B) (mv n P (mv m B x)))); [|auto|].
  - rewrite dot_tr. reflexivity.
  - intros i Hi. rewrite mv_mm, mv_mm. reflexivity.
Qed.
Lemma dot_mplus n A B x y : vdot n y (mv n (mplus A B) x) = vdot n y (mv n A x) + vdot n y (mv n B x).
Proof. rewrite <- dot_plus_r. apply dot_ext; auto. intros. apply mv_mplus. Qed.
Definition llt_inv (n : nat) (C : mat) : mat := fun i j => llt_solve n C (fun k => if Nat.eqb k j then 1 else 0) i.
Lemma llt_inverse n M C : sym n M -> llt n M = Some C -> inverse n M (llt_inv n C).
Proof.
  intros HS HC. unfold llt_inv. set (N := fun i j => llt_solve n C (fun k => if Nat.eqb k j then 1 else 0) i).
  assert (R : forall i j, (i < n)%nat -> rsum n (fun k => M i k * N k j) = if Nat.eqb i j then 1 else 0).
  { intros i j Hi. exact (llt_solve_ok n M C (fun k => if Nat.eqb k j then 1 else 0) HS HC i Hi). }
  assert (SN : forall i j, (i < n)%nat -> (j < n)%nat -> N i j = N j i).
  { intros i j Hi Hj. transitivity (rsum n (fun k => (if Nat.eqb k i then 1 else 0) * N k j)).
    - rewrite (rsum_single n i) by (auto; intros k Hk Hne; rewrite (proj2 (Nat.eqb_neq k i) Hne); ring). rewrite Nat.eqb_refl. ring.
    - transitivity (rsum n (fun k => rsum n (fun l => M k l * N l i * N k j))).
      { apply rsum_ext. intros k Hk. rewrite <- (R k i Hk). now rewrite <- rsum_scal_r. }
      rewrite rsum_swap. transitivity (rsum n (fun l => N l i * (if Nat.eqb l j then 1 else 0))).
      { apply rsum_ext. intros l Hl. rewrite <- (R l j Hl), <- rsum_scal. apply rsum_ext. intros k Hk. rewrite (HS k l) by assumption. ring. }
      rewrite (rsum_single n j) by (auto; intros k Hk Hne; rewrite (proj2 (Nat.eqb_neq k j) Hne); ring). rewrite Nat.eqb_refl. ring. }
  intros i j Hi Hj. rewrite !sum_rsum. split; [now apply R|]. rewrite <- (R j i Hj) at 1 || idtac. transitivity (rsum n (fun k => M j k * N k i)).
  - apply rsum_ext. intros k Hk. rewrite (SN i k), (HS k j) by assumption. ring.
  - rewrite R by assumption. rewrite Nat.eqb_sym. reflexivity.
Qed.
Lemma posdef_inverse n M : sym n M -> posdef n M -> exists N, inverse n M N.
Proof. intros HS HP. destruct (posdef_llt n M HS HP) as [C HC]. eexists. exact (llt_inverse n M C HS HC). Qed.
Lemma inverse_mv n M N x i : inverse n M N -> (i < n)%nat -> mv n M (mv n N x) i = x i.
Proof.
  intros H Hi. rewrite <- mv_mm. rewrite (mv_mext n (mm n M N) ident x i); [now apply mv_ident|]. intros j Hj. unfold mm, ident. rewrite <- sum_rsum. apply (H i j Hi Hj).
Qed.

Lemma classic_some m (v : vec) : (exists i, (i < m)%nat /\ v i <> 0) \/ forall i, (i < m)%nat -> v i = 0.
Proof.
  induction m as [|m [(i & Hi & E)|IH]]; [right; lia|left; exists i; split; [lia|exact E]|]. destruct (Req_dec (v m) 0) as [E|E]; [right|left; exists m; split; [lia|exact E]].
  intros i Hi. destruct (Nat.eq_dec i m) as [->|]; [exact E|apply IH; lia].
Qed.

Section Step.
Variable inv : nat -> mat -> option mat.
Hypothesis Hinv : inv_correct inv.
Variables (n m : nat) (Q R_ A B P : mat).
Hypothesis HQ : sym n Q.
Hypothesis HR : sym m R_.
Hypothesis HP : sym n P.
Hypothesis QP : forall x, 0 <= vdot n x (mv n Q x).
Hypothesis RP : posdef m R_.
Hypothesis PP : forall x, 0 <= vdot n x (mv n P x).
Let H := mplus R_ (mm n (mm n (tr B) P) B).
Lemma H_sym : sym m H. Proof. apply sym_plus; [exact HR|now apply sym_mm]. Qed.
Lemma H_pd : posdef m H.
Proof. intros u Hu. unfold H. rewrite dot_mplus, quad_mm. pose proof (RP u Hu). pose proof (PP (mv m B u)). lra. Qed.
(** The gain exists and completes the square. *)
Lemma gains_ok : exists K P', compute_lqr_gains inv n m Q R_ A B P = Ok (K, P') /\ sym n P' /\ (forall x, 0 <= vdot n x (mv n P' x)) /\
  forall x u, vdot n x (mv n Q x) + vdot m u (mv m R_ u) + vdot n (vplus (mv n A x) (mv m B u)) (mv n P (vplus (mv n A x) (mv m B u)))
    = vdot n x (mv n P' x) + vdot m (vminus u (mv n K x)) (mv m H (vminus u (mv n K x))).
Proof.
  unfold compute_lqr_gains, need_inv. pose proof (Hinv m H) as HI. fold H. destruct (inv m H) as [Si|]; [|exfalso; apply HI; apply posdef_inverse; [apply H_sym|apply H_pd]].
  cbn [bind]. set (K := mscal (-1) (mm n (mm n (mm m Si (tr B)) P) A)). set (F := mplus A (mm m B K)). do 2 eexists. split; [reflexivity|].
  assert (S1 : sym n (mplus (mplus Q (mm m (mm m (tr K) R_) K)) (mm n (mm n (tr F) P) F))) by (apply sym_plus; [apply sym_plus; [exact HQ|now apply sym_mm]|now apply sym_mm]).
  assert (V : forall x, vdot n x (mv n (mplus (mplus Q (mm m (mm m (tr K) R_) K)) (mm n (mm n (tr F) P) F)) x)
    = vdot n x (mv n Q x) + vdot m (mv n K x) (mv m R_ (mv n K x)) + vdot n (mv n F x) (mv n P (mv n F x))).
  { intros x. now rewrite !dot_mplus, !quad_mm. }
  split; [exact S1|]. split.
  { intros x. rewrite V. pose proof (QP x). pose proof (PP (mv n F x)). assert (0 <= vdot m (mv n K x) (mv m R_ (mv n K x))).
    { destruct (Req_dec (rsum m (fun i => mv n K x i * mv n K x i)) 0) as [E|E].
      - rewrite (dot_ext m _ (fun _ => 0) _ (mv m R_ (mv n K x))); [|intros i Hi; now apply (rsum_sq_zero m (mv n K x) E)|auto]. rewrite dot_zero_l. lra.
      - apply Rlt_le, RP. destruct (classic_some m (mv n K x)) as [X|X]; [exact X|]. exfalso. apply E. apply rsum_zero. intros i Hi. rewrite X by exact Hi. ring. }
    lra. }
  intros x u. rewrite V. set (k := mv n K x). set (d := vminus u k).
  assert (Eu : forall i, u i = vplus k d i) by (intros i; unfold d, vplus, vminus; ring).
  assert (Ef : forall i, (i < n)%nat -> vplus (mv n A x) (mv m B u) i = vplus (mv n F x) (mv m B d) i).
  { intros i Hi. unfold vplus. unfold F. rewrite mv_mplus, mv_mm. fold k. rewrite (mv_ext m B u (vplus k d)) by (intros; apply Eu). rewrite mv_plus. ring. }
  rewrite (dot_ext n (vplus (mv n A x) (mv m B u)) (vplus (mv n F x) (mv m B d)) (mv n P (vplus (mv n A x) (mv m B u))) (mv n P (vplus (mv n F x) (mv m B d)))); [|exact Ef|intros i Hi; apply mv_ext; exact Ef].
  rewrite (dot_ext m u (vplus k d) (mv m R_ u) (mv m R_ (vplus k d))); [|intros; apply Eu|intros i Hi; apply mv_ext; intros; apply Eu].
  rewrite !quad_plus by assumption.
  assert (Cross : vdot m d (mv m R_ k) + vdot n (mv m B d) (mv n P (mv n F x)) = 0).
  { assert (E1 : vdot n (mv m B d) (mv n P (mv n F x)) = vdot m d (mv n (tr B) (mv n P (mv n F x)))) by (rewrite (dot_comm n (mv m B d)), (dot_tr n m _ B d), (dot_comm m); reflexivity).
    rewrite E1, <- dot_plus_r. rewrite (dot_ext m d d _ (fun _ => 0)); [rewrite dot_comm; apply dot_zero_l|auto|]. intros i Hi. unfold vplus.
    assert (E2 : mv n (tr B) (mv n P (mv n F x)) i = mv n (tr B) (mv n P (mv n A x)) i + mv m (mm n (mm n (tr B) P) B) k i).
    { rewrite mv_mm, mv_mm. rewrite <- mv_plus. apply mv_ext. intros j Hj. unfold vplus. rewrite <- mv_plus. apply mv_ext. intros l Hl. unfold F, vplus. rewrite mv_mplus, mv_mm. reflexivity. }
    rewrite E2. assert (E3 : mv m H k i = mv m R_ k i + mv m (mm n (mm n (tr B) P) B) k i) by apply mv_mplus.
    assert (E4 : mv m H k i = - mv n (tr B) (mv n P (mv n A x)) i).
    { rewrite (mv_ext m H k (vscal (-1) (mv m Si (mv n (tr B) (mv n P (mv n A x)))))).
      - rewrite mv_scal, (inverse_mv m H Si _ i HI Hi). ring.
      - intros j Hj. unfold k, K, vscal. rewrite mv_mscal, mv_mm, mv_mm, mv_mm. reflexivity. }
    lra. }
  assert (EH : vdot m d (mv m H d) = vdot m d (mv m R_ d) + vdot n (mv m B d) (mv n P (mv m B d))) by (unfold H; now rewrite dot_mplus, quad_mm).
  fold k. fold d. rewrite EH. lra.
Qed.
End Step.

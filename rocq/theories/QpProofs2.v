(** * The primal dual step of the QP solver *)
From Coq Require Import Reals List Arith ZArith Bool Lia Lra Psatz FunctionalExtensionality.
Import ListNotations.
From Verif Require Import Base BaseProofs QpModel QpSpec QpProofs.
Local Open Scope R_scope.

Lemma backsub_spec : forall cnt iq (M : qmat) d, (cnt <= iq)%nat -> (forall k l, (k < l)%nat -> (l < iq)%nat -> M l k = 0) -> (forall k, (k < iq)%nat -> M k k <> 0) ->
  (forall k, (k < iq - cnt)%nat -> backsub cnt iq M d k = 0) /\
  (forall i, (iq - cnt <= i < iq)%nat -> rsum iq (fun k => M i k * backsub cnt iq M d k) = d i).
Proof.
  induction cnt; intros iq M d Hc HT HD.
  - cbn [backsub]. split; [easy|]. intros; lia.
  - destruct (IHcnt iq M d ltac:(lia) HT HD) as [Z S]. cbn [backsub]. set (r := backsub cnt iq M d) in *. set (i0 := (iq - Datatypes.S cnt)%nat) in *.
    assert (Hi0 : (i0 < iq)%nat) by lia.
    set (v := (d i0 - rsum iq (fun k => if (i0 <? k)%nat then M i0 k * r k else 0)) / M i0 i0).
    split.
    + intros k Hk. rewrite upd_other by lia. apply Z. lia.
    + intros i Hi. destruct (Nat.eq_dec i i0) as [->|Ne].
      * assert (E : rsum iq (fun k => M i0 k * upd r i0 v k) = rsum iq (fun k => if (k =? i0)%nat then M i0 i0 * v else 0) + rsum iq (fun k => if (i0 <? k)%nat then M i0 k * r k else 0)).
        { rewrite <- rsum_plus. apply rsum_ext; intros k Hk. destruct (Nat.eqb_spec k i0).
          - subst k. rewrite upd_same, Nat.ltb_irrefl. ring.
          - rewrite upd_other by easy. destruct (Nat.ltb_spec i0 k). ring. rewrite (HT k i0) by lia. ring. }
        rewrite E, rsum_delta by easy. unfold v. field. now apply HD.
      * rewrite <- (S i) by lia. apply rsum_ext; intros k Hk. destruct (Nat.eq_dec k i0).
        subst k. rewrite (HT i0 i) by lia. ring. now rewrite upd_other.
Qed.

Section Step.
Variables (P : qp) (J0 : qmat).
Hypothesis HJ0 : inverse_factor P J0.
Let n := q_n P.
Let H := q_H P.
Definition Hmul (v : qvec) : qvec := fun i => rsum n (fun j => H i j * v j).

Lemma obj_alt : forall v, objective P v = / 2 * dotn n v (Hmul v) + dotn n (q_g P) v.
Proof.
  intros. unfold objective, dotn, Hmul. f_equal. f_equal. apply rsum_ext; intros i Hi. rewrite <- rsum_scal. apply rsum_ext; intros; unfold H; ring.
Qed.
Lemma dotn_sym : forall m a b, dotn m a b = dotn m b a.
Proof. intros. apply rsum_ext; intros; ring. Qed.
Lemma dotn_lin : forall m a t b c, dotn m a (fun i => b i + t * c i) = dotn m a b + t * dotn m a c.
Proof. intros. unfold dotn. rewrite <- rsum_scal, <- rsum_plus. apply rsum_ext; intros; ring. Qed.
Lemma dotn_ext : forall m a b c e, (forall i, (i < m)%nat -> a i = c i) -> (forall i, (i < m)%nat -> b i = e i) -> dotn m a b = dotn m c e.
Proof. intros. apply rsum_ext; intros. now rewrite H0, H1. Qed.
Lemma Hmul_lin : forall a t b i, Hmul (fun j => a j + t * b j) i = Hmul a i + t * Hmul b i.
Proof. intros. unfold Hmul. rewrite <- rsum_scal, <- rsum_plus. apply rsum_ext; intros; ring. Qed.
Lemma Hmul_sym : forall a b, dotn n a (Hmul b) = dotn n b (Hmul a).
Proof.
  intros. unfold dotn, Hmul. 
  transitivity (rsum n (fun i => rsum n (fun j => a i * H i j * b j))). { apply rsum_ext; intros. rewrite <- rsum_scal. apply rsum_ext; intros; ring. }
  rewrite rsum_swap. apply rsum_ext; intros i Hi. rewrite <- rsum_scal. apply rsum_ext; intros j Hj.
  unfold H. rewrite (proj1 HJ0 j i Hj Hi). ring.
Qed.
(** H (J J' w) = w *)
Lemma HG : forall w i, (i < n)%nat -> Hmul (fun k => rsum n (fun m => gram n J0 k m * w m)) i = w i.
Proof.
  intros w i Hi. unfold Hmul.
  transitivity (rsum n (fun m => (rsum n (fun k => gram n J0 m k * H k i)) * w m)).
  { transitivity (rsum n (fun k => rsum n (fun m => H i k * gram n J0 k m * w m))). { apply rsum_ext; intros. rewrite <- rsum_scal. apply rsum_ext; intros; ring. }
    rewrite rsum_swap. apply rsum_ext; intros m Hm. rewrite <- rsum_scal_r. apply rsum_ext; intros k Hk.
    unfold H. rewrite (proj1 HJ0 i k Hi Hk). unfold gram. rewrite (dotn_sym n (J0 k)). ring. }
  transitivity (rsum n (fun m => if (m =? i)%nat then w i else 0)).
  { apply rsum_ext; intros m Hm. unfold gram, dotn, H. fold n. unfold n. rewrite (proj2 HJ0 m i Hm Hi). destruct (Nat.eqb_spec m i); [subst; ring|ring]. }
  now apply rsum_delta.
Qed.
Lemma GH : forall v i, (i < n)%nat -> rsum n (fun m => gram n J0 i m * Hmul v m) = v i.
Proof.
  intros v i Hi. unfold Hmul.
  transitivity (rsum n (fun j => (rsum n (fun k => gram n J0 i k * H k j)) * v j)).
  { transitivity (rsum n (fun k => rsum n (fun m => gram n J0 i k * H k m * v m))). { apply rsum_ext; intros. rewrite <- rsum_scal. apply rsum_ext; intros; ring. }
    rewrite rsum_swap. apply rsum_ext; intros m Hm. rewrite <- rsum_scal_r. apply rsum_ext; intros; ring. }
  transitivity (rsum n (fun m => if (m =? i)%nat then v i else 0)).
  { apply rsum_ext; intros m Hm. unfold gram, dotn, H, n. rewrite (proj2 HJ0 i m Hi Hm). destruct (Nat.eqb_spec i m), (Nat.eqb_spec m i); subst; try lia; ring. }
  now apply rsum_delta.
Qed.
Lemma gram_form : forall (J : qmat) w, dotn n w (fun k => rsum n (fun m => gram n J k m * w m)) = rsum n (fun l => computeD n J w l * computeD n J w l).
Proof.
  intros. unfold dotn, gram, dotn, computeD.
  transitivity (rsum n (fun i => rsum n (fun m => rsum n (fun l => (J i l * w i) * (J m l * w m))))).
  { apply rsum_ext; intros i Hi. rewrite <- rsum_scal. apply rsum_ext; intros m Hm. rewrite <- rsum_scal_r, <- rsum_scal. apply rsum_ext; intros; ring. }
  transitivity (rsum n (fun i => rsum n (fun l => rsum n (fun m => (J i l * w i) * (J m l * w m))))).
  { apply rsum_ext; intros i Hi. apply rsum_swap. }
  rewrite rsum_swap. apply rsum_ext; intros l Hl. rewrite <- rsum_scal_r. apply rsum_ext; intros i Hi. now rewrite rsum_scal.
Qed.
Lemma H_psd : forall v, 0 <= dotn n v (Hmul v).
Proof.
  intros. assert (E : dotn n v (Hmul v) = dotn n (Hmul v) (fun k => rsum n (fun m => gram n J0 k m * Hmul v m))).
  { rewrite dotn_sym. apply dotn_ext; [easy|]. intros. now rewrite GH. }
  rewrite E, gram_form. apply rsum_nonneg; intros. nra.
Qed.
(** Second order expansion. *)
Lemma obj_expand : forall v t w, objective P (axpy t w v) = objective P v + t * dotn n w (fun i => Hmul v i + q_g P i) + / 2 * (t * t) * dotn n w (Hmul w).
Proof.
  intros. rewrite !obj_alt. unfold axpy.
  assert (E1 : dotn n (fun i => v i + t * w i) (Hmul (fun i => v i + t * w i)) = dotn n v (Hmul v) + 2 * t * dotn n w (Hmul v) + t * t * dotn n w (Hmul w)).
  { rewrite (dotn_ext n _ _ (fun i => v i + t * w i) (fun i => Hmul v i + t * Hmul w i)) by (intros; rewrite ?Hmul_lin; easy).
    rewrite dotn_lin, !(dotn_sym n (fun i => v i + t * w i)), !dotn_lin. rewrite (dotn_sym n (Hmul w) v), (Hmul_sym v w), (dotn_sym n (Hmul v) v), (dotn_sym n (Hmul v) w), (dotn_sym n (Hmul w) w). ring. }
  rewrite E1, dotn_lin.
  assert (E2 : dotn n w (fun i => Hmul v i + q_g P i) = dotn n w (Hmul v) + dotn n w (q_g P)) by (unfold dotn; rewrite <- rsum_plus; apply rsum_ext; intros; ring).
  rewrite E2, (dotn_sym n w (q_g P)). field.
Qed.

(** ** One primal dual step *)
Variables (iq : nat) (J M : qmat) (N : nat -> qvec) (npv : qvec).
Hypothesis Hiq : (iq <= n)%nat.
Hypothesis Hgram : forall a b, (a < n)%nat -> (b < n)%nat -> gram n J a b = gram n J0 a b.
Hypothesis Hfac : factor n iq J M N.
Hypothesis Hdiag : forall k, (k < iq)%nat -> M k k <> 0.
Let d := computeD n J npv.
Let z := updateZ n J d iq.
Let r := updateR M d iq.

Lemma r_spec : forall i, (i < iq)%nat -> rsum iq (fun k => M i k * r k) = d i.
Proof.
  intros i Hi. destruct (backsub_spec iq iq M d ltac:(lia)) as [_ S]; [|easy|].
  - intros k l Hk Hl. apply (proj1 (proj2 Hfac)); lia.
  - apply S. lia.
Qed.
Lemma z_full : forall k, z k = rsum n (fun l => J k l * (if (l <? iq)%nat then 0 else d l)).
Proof.
  intros. unfold z, updateZ. replace n with (iq + (n - iq))%nat at 2 by lia. rewrite rsum_split.
  rewrite (rsum_zero iq), Rplus_0_l. apply rsum_ext; intros i Hi. destruct (Nat.ltb_spec (iq + i) iq); [lia|easy].
  intros i Hi. destruct (Nat.ltb_spec i iq); [ring|lia].
Qed.
Lemma z_dot : forall v, dotn n z v = rsum n (fun l => computeD n J v l * (if (l <? iq)%nat then 0 else d l)).
Proof.
  intros. unfold dotn.
  transitivity (rsum n (fun k => rsum n (fun l => J k l * (if (l <? iq)%nat then 0 else d l) * v k))).
  { apply rsum_ext; intros k Hk. rewrite z_full, <- rsum_scal_r. reflexivity. }
  rewrite rsum_swap. apply rsum_ext; intros l Hl. unfold computeD. rewrite <- rsum_scal_r. apply rsum_ext; intros; ring.
Qed.
Lemma z_active : forall k, (k < iq)%nat -> dotn n z (N k) = 0.
Proof.
  intros k Hk. rewrite z_dot. apply rsum_zero; intros l Hl. destruct (Nat.ltb_spec l iq). ring.
  rewrite (proj1 Hfac k l Hk Hl), (proj1 (proj2 Hfac) k l) by lia. ring.
Qed.
Lemma z_np : dotn n z npv = rsum n (fun l => (if (l <? iq)%nat then 0 else d l) * (if (l <? iq)%nat then 0 else d l)).
Proof. rewrite z_dot. apply rsum_ext; intros l Hl. fold d. destruct (l <? iq)%nat; ring. Qed.
Lemma z_np_nonneg : 0 <= dotn n z npv.
Proof. rewrite z_np. apply rsum_nonneg; intros. nra. Qed.
Lemma z_np_zero : dotn n z npv = 0 -> forall k, z k = 0.
Proof.
  intros E k. rewrite z_np in E. rewrite z_full. apply rsum_zero; intros l Hl.
  rewrite (rsum_sq_zero _ (fun l => if (l <? iq)%nat then 0 else d l) E l Hl). ring.
Qed.
Definition wdir : qvec := fun i => npv i - rsum iq (fun k => r k * N k i).
Lemma wdir_D : forall l, (l < n)%nat -> computeD n J wdir l = if (l <? iq)%nat then 0 else d l.
Proof.
  intros l Hl. assert (E : computeD n J wdir l = d l - rsum iq (fun k => M l k * r k)).
  { unfold computeD, wdir, d, computeD. 
    transitivity (rsum n (fun k => J k l * npv k) - rsum n (fun k => rsum iq (fun m => J k l * (r m * N m k)))).
    { rewrite <- rsum_minus. apply rsum_ext; intros. rewrite rsum_scal. ring. }
    f_equal. rewrite rsum_swap. apply rsum_ext; intros m Hm. rewrite <- (proj1 Hfac m l Hm Hl). unfold computeD. rewrite <- rsum_scal_r. apply rsum_ext; intros; ring. }
  rewrite E. destruct (Nat.ltb_spec l iq).
  - rewrite r_spec by easy. ring.
  - rewrite rsum_zero. ring. intros k Hk. rewrite (proj1 (proj2 Hfac) k l) by lia. ring.
Qed.
Lemma z_is : forall k, (k < n)%nat -> z k = rsum n (fun m => gram n J0 k m * wdir m).
Proof.
  intros k Hk. rewrite z_full.
  transitivity (rsum n (fun l => J k l * computeD n J wdir l)). { apply rsum_ext; intros. now rewrite wdir_D. }
  unfold computeD. transitivity (rsum n (fun l => rsum n (fun m => J k l * (J m l * wdir m)))). { apply rsum_ext; intros. now rewrite rsum_scal. }
  rewrite rsum_swap. apply rsum_ext; intros m Hm. rewrite <- Hgram by easy. unfold gram, dotn. rewrite <- rsum_scal_r. apply rsum_ext; intros; ring.
Qed.
Lemma Hz : forall i, (i < n)%nat -> Hmul z i = wdir i.
Proof.
  intros i Hi. rewrite <- (HG wdir i Hi). unfold Hmul. apply rsum_ext; intros k Hk. now rewrite z_is.
Qed.
Lemma zHz : dotn n z (Hmul z) = dotn n z npv.
Proof.
  transitivity (dotn n z wdir). { apply dotn_ext; [easy|]. exact Hz. }
  unfold wdir. transitivity (dotn n z npv - rsum iq (fun k => r k * dotn n z (N k))).
  - unfold dotn. transitivity (rsum n (fun i => z i * npv i) - rsum n (fun i => rsum iq (fun k => r k * (z i * N k i)))).
    { rewrite <- rsum_minus. apply rsum_ext; intros. rewrite Rmult_minus_distr_l. f_equal. rewrite <- rsum_scal. apply rsum_ext; intros; ring. }
    f_equal. rewrite rsum_swap. apply rsum_ext; intros. now rewrite rsum_scal.
  - rewrite rsum_zero; [ring|]. intros. rewrite z_active by easy. ring.
Qed.

Variables (xv uv : qvec) (mu : R).
Hypothesis Hst : forall i, (i < n)%nat -> Hmul xv i + q_g P i = rsum iq (fun k => uv k * N k i) + mu * npv i.
Lemma step_stat : forall t i, (i < n)%nat ->
  Hmul (axpy t z xv) i + q_g P i = rsum iq (fun k => head_sub iq t r uv k * N k i) + (mu + t) * npv i.
Proof.
  intros t i Hi. unfold axpy. rewrite Hmul_lin, Hz by easy.
  assert (E : rsum iq (fun k => head_sub iq t r uv k * N k i) = rsum iq (fun k => uv k * N k i) - t * rsum iq (fun k => r k * N k i)).
  { rewrite <- rsum_scal, <- rsum_minus. apply rsum_ext; intros k Hk. unfold head_sub. destruct (Nat.ltb_spec k iq); [ring|lia]. }
  rewrite E. unfold wdir. pose proof (Hst i Hi). lra.
Qed.
Lemma step_obj : forall t, objective P (axpy t z xv) = objective P xv + t * dotn n z npv * (/ 2 * t + mu).
Proof.
  intros. rewrite obj_expand, zHz.
  assert (E : dotn n z (fun i => Hmul xv i + q_g P i) = mu * dotn n z npv).
  { transitivity (dotn n z (fun i => rsum iq (fun k => uv k * N k i) + mu * npv i)). { apply dotn_ext; [easy|]. exact Hst. }
    rewrite dotn_lin. assert (Z : dotn n z (fun i => rsum iq (fun k => uv k * N k i)) = 0).
    { unfold dotn. transitivity (rsum n (fun i => rsum iq (fun k => uv k * (z i * N k i)))). { apply rsum_ext; intros. rewrite <- rsum_scal. apply rsum_ext; intros; ring. }
      rewrite rsum_swap. apply rsum_zero; intros k Hk. rewrite rsum_scal. fold (dotn n z (N k)). rewrite z_active by easy. ring. }
    rewrite Z. ring. }
  rewrite E. field.
Qed.
Lemma step_active : forall t k, (k < iq)%nat -> dotn n (N k) (axpy t z xv) = dotn n (N k) xv.
Proof. intros. unfold axpy. rewrite dotn_lin, (dotn_sym n (N k) z), z_active by easy. ring. Qed.
Lemma step_np : forall t, dotn n npv (axpy t z xv) = dotn n npv xv + t * dotn n z npv.
Proof. intros. unfold axpy. rewrite dotn_lin, (dotn_sym n npv z). ring. Qed.
End Step.

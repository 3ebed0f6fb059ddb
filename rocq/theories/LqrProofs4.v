(** * Linear-quadratic problems *)
From Coq Require Import Reals List Arith ZArith Bool Lia Lra FunctionalExtensionality.
From Verif Require Import Base BaseProofs IpModel BnbProofs LbfgsProofs LqrModel LqrSpec LqrProofs LqrProofs2 LqrProofs3.
Import ListNotations.
Open Scope R_scope.

(** ** Affine maps are closed under the operations of the integration step *)
Section Aff.
Variables n m : nat.
Definition is_aff (f : vec -> vec -> vec) : Prop := exists A B c, affine n m f A B c.
Lemma aff_fst : is_aff (fun x _ => x).
Proof.
  exists ident, (fun _ _ => 0), (fun _ => 0). intros x u i Hi. rewrite !sum_rsum. rewrite (rsum_zero m) by (intros; ring).
  fold (mv n ident x i). rewrite mv_ident by exact Hi. ring.
Qed.
Lemma aff_plus f g : is_aff f -> is_aff g -> is_aff (fun x u => vplus (f x u) (g x u)).
Proof.
  intros (A & B & c & Hf) (A' & B' & c' & Hg). exists (mplus A A'), (mplus B B'), (vplus c c'). intros x u i Hi. unfold vplus at 1. rewrite (Hf _ _ i Hi), (Hg _ _ i Hi), !sum_rsum.
  change (mv n A x i + mv m B u i + c i + (mv n A' x i + mv m B' u i + c' i) = mv n (mplus A A') x i + mv m (mplus B B') u i + (c i + c' i)). rewrite !mv_mplus. ring.
Qed.
Lemma aff_scal k f : is_aff f -> is_aff (fun x u => vscal k (f x u)).
Proof.
  intros (A & B & c & Hf). exists (mscal k A), (mscal k B), (vscal k c). intros x u i Hi. unfold vscal at 1. rewrite (Hf _ _ i Hi), !sum_rsum.
  change (k * (mv n A x i + mv m B u i + c i) = mv n (mscal k A) x i + mv m (mscal k B) u i + k * c i). rewrite !mv_mscal. ring.
Qed.
Lemma aff_comp f g : is_aff f -> is_aff g -> is_aff (fun x u => f (g x u) u).
Proof.
  intros (A & B & c & Hf) (A' & B' & c' & Hg). exists (mm n A A'), (mplus (mm n A B') B), (fun i => mv n A c' i + c i). intros x u i Hi. rewrite (Hf _ _ i Hi), !sum_rsum.
  change (mv n A (g x u) i + mv m B u i + c i = mv n (mm n A A') x i + mv m (mplus (mm n A B') B) u i + (mv n A c' i + c i)).
  rewrite mv_mplus, !mv_mm. rewrite (mv_ext n A (g x u) (vplus (vplus (mv n A' x) (mv m B' u)) c')) by (intros j Hj; rewrite (Hg _ _ j Hj), !sum_rsum; reflexivity).
  rewrite !mv_plus. ring.
Qed.
Lemma aff_ext f g : (forall x u i, f x u i = g x u i) -> is_aff f -> is_aff g.
Proof. intros E (A & B & c & Hf). exists A, B, c. intros x u i Hi. rewrite <- E. now apply Hf. Qed.
End Aff.

(** ** The problem *)
Section LQ.
Variable S : stgs.
Variable f : vec -> vec -> nat -> vec.
Variable l : vec -> vec -> nat -> R.
Variable phi : vec -> R.
Definition pdyn : vec -> ctrl -> nat -> vec := fun x u t => f x (ff u) t.
Definition pobj : vec -> ctrl -> nat -> bool -> R := fun x u t fin => if fin then phi x else l x (ff u) t.
Definition pstep : vec -> vec -> nat -> vec := fun x u t => (if s_rk S then rk4_step else euler_step) (fun y => f y u t) x.
Lemma internal_step x u t : internal_dynamics S pdyn x u t = pstep x (ff u) t.
Proof.
  unfold internal_dynamics, pstep, pdyn. destruct (s_rk S); [|reflexivity].
  unfold rk4_step. apply functional_extensionality. intros i.
  assert (E : forall y k, vplus y (vscal (1 / 2) k) = fun i => y i + k i / 2) by (intros; apply functional_extensionality; intros; unfold vplus, vscal; field).
  rewrite !E. unfold vplus. change (fun i0 : nat => x i0 + ?k i0) with (vplus x k). field.
Qed.

Notation n := (s_xdim S).
Notation m := (s_udim S).
Notation T := (s_tdim S).
Variables (A B : nat -> mat) (c : nat -> vec) (l0 : nat -> R) (b d : nat -> vec) (Q R_ N : nat -> mat) (phi0 : R) (bf : vec) (Qf : mat).
Hypothesis LQ : linear_quadratic T n m f l phi A B c l0 b d Q R_ N phi0 bf Qf.

Lemma step_affine t : (t < T)%nat -> is_aff n m (fun x u => pstep x u t).
Proof.
  intros Ht. assert (Hf : is_aff n m (fun x u => f x u t)) by (exists (A t), (B t), (c t); now apply (lq_dyn _ _ _ _ _ _ _ _ _ _ _ _ _ _ _ _ _ _ LQ)).
  unfold pstep. destruct (s_rk S); [|apply (aff_plus n m (fun x _ => x)); auto using aff_fst].
  set (k1 := fun x u => f x u t) in *.
  set (k2 := fun x u => f (vplus x (vscal (1 / 2) (k1 x u))) u t). set (k3 := fun x u => f (vplus x (vscal (1 / 2) (k2 x u))) u t). set (k4 := fun x u => f (vplus x (k3 x u)) u t).
  assert (H2 : is_aff n m k2) by (apply (aff_comp n m k1 (fun x u => vplus x (vscal (1 / 2) (k1 x u)))); auto; apply aff_plus; auto using aff_fst, aff_scal).
  assert (H3 : is_aff n m k3) by (apply (aff_comp n m k1 (fun x u => vplus x (vscal (1 / 2) (k2 x u)))); auto; apply aff_plus; auto using aff_fst, aff_scal).
  assert (H4 : is_aff n m k4) by (apply (aff_comp n m k1 (fun x u => vplus x (k3 x u))); auto; apply aff_plus; auto using aff_fst).
  apply (aff_ext n m (fun x u => vplus x (vscal (1 / 6) (vplus (vplus (k1 x u) (vscal 2 (k2 x u))) (vplus (vscal 2 (k3 x u)) (k4 x u)))))).
  - intros x u i. unfold rk4_step. unfold k4, k3, k2, k1, vplus, vscal.
    assert (E : forall y k : nat -> R, (fun i => y i + 1 / 2 * k i) = fun i => y i + k i / 2) by (intros; apply functional_extensionality; intros; field).
    rewrite !E. field.
  - apply aff_plus; [apply aff_fst|]. apply aff_scal. apply aff_plus; apply aff_plus; auto using aff_scal.
Qed.

(** Derivatives at a point. *)
Notation der := (derivatives_at S pdyn pobj).
Lemma vplus_comm x y : vplus x y = vplus y x. Proof. apply functional_extensionality. intros. unfold vplus. ring. Qed.
Lemma aff_delta (g : vec -> vec -> vec) : is_aff n m g -> forall x u dx du i, (i < n)%nat ->
  g (vplus x dx) (vplus u du) i = g x u i + rsum n (fun j => (g (bump x j h_devs) u i - g (bump x j (- h_devs)) u i) / (2 * h_devs) * dx j)
    + rsum m (fun j => (g x (bump u j h_devs) i - g x (bump u j (- h_devs)) i) / (2 * h_devs) * du j).
Proof.
  intros (A' & B' & c' & Hg) x u dx du i Hi.
  assert (G : forall x u, g x u i = mv n A' x i + mv m B' u i + c' i) by (intros x' u'; rewrite (Hg _ _ i Hi), !sum_rsum; reflexivity).
  assert (hp := h_pos).
  rewrite (rsum_ext n _ (fun j => A' i j * dx j)).
  2:{ intros j Hj. rewrite !G, !bump_unit, !mv_plus, !mv_scal, !mv_unit by exact Hj. field. lra. }
  rewrite (rsum_ext m _ (fun j => B' i j * du j)).
  2:{ intros j Hj. rewrite !G, !bump_unit, !mv_plus, !mv_scal, !mv_unit by exact Hj. field. lra. }
  rewrite !G, !mv_plus. unfold mv. ring.
Qed.
Lemma der_step x u t dx du i : (t < T)%nat -> (i < n)%nat ->
  pstep (vplus x dx) (vplus (ff u) du) t i = pstep x (ff u) t i + mv n (d_fx (der x u t)) dx i + mv m (d_fu (der x u t)) du i.
Proof.
  intros Ht Hi. rewrite (aff_delta _ (step_affine t Ht)) by exact Hi. destruct (derivatives_closed S pdyn pobj x u t) as (Ex & Eu & _).
  unfold mv. f_equal; [f_equal|]; apply rsum_ext; intros j Hj; [rewrite Ex by exact Hj|rewrite Eu by exact Hj]; rewrite !internal_step; reflexivity.
Qed.
Lemma der_stage x u t dx du : (t < T)%nat ->
  l (vplus x dx) (vplus (ff u) du) t = stage_model n m (der x u t) (l x (ff u) t) dx du.
Proof.
  intros Ht. assert (HQ := lq_stage _ _ _ _ _ _ _ _ _ _ _ _ _ _ _ _ _ _ LQ t Ht). rewrite (quad_expand _ _ _ _ _ _ _ _ _ x (ff u) dx du HQ). unfold stage_model.
  destruct (derivatives_closed S pdyn pobj x u t) as (_ & _ & Ecx & Ecu & Exx & Exu & Euu).
  assert (Ef : Nat.eqb t T = false) by (apply Nat.eqb_neq; lia). unfold pobj in Ecx, Ecu, Exx, Exu, Euu. rewrite Ef in Ecx, Ecu, Exx, Exu, Euu. cbn [ff] in *.
  rewrite (dot_ext n (d_cx _) (vplus (vplus (b t) (mv n (Q t) x)) (mv m (tr (N t)) (ff u))) dx dx); [|intros i Hi; rewrite Ecx by exact Hi; exact (quad_cx _ _ _ _ _ _ _ _ _ HQ x (ff u) i Hi)|auto].
  rewrite (dot_ext m (d_cu _) (vplus (vplus (d t) (mv m (R_ t) (ff u))) (mv n (N t) x)) du du); [|intros i Hi; rewrite Ecu by exact Hi; exact (quad_cu _ _ _ _ _ _ _ _ _ HQ x (ff u) i Hi)|auto].
  rewrite (dot_ext n dx dx (mv n (d_cxx _) dx) (mv n (Q t) dx)); [|auto|intros i Hi; apply mv_mext; intros j Hj; rewrite Exx by assumption; apply (quad_cxx _ _ _ _ _ _ _ _ _ HQ x (ff u) i j Hi Hj)].
  rewrite (dot_ext m du du (mv m (d_cuu _) du) (mv m (R_ t) du)); [|auto|intros i Hi; apply mv_mext; intros j Hj; rewrite Euu by assumption; apply (quad_cuu _ _ _ _ _ _ _ _ _ HQ x (ff u) i j Hi Hj)].
  rewrite (dot_ext m du du (mv n (tr (d_cxu _)) dx) (mv n (N t) dx)); [|auto|intros i Hi; apply mv_mext; intros j Hj; unfold tr; rewrite Exu by assumption; apply (quad_cxu _ _ _ _ _ _ _ _ _ HQ x (ff u) j i Hj Hi)].
  rewrite !dot_plus_l. rewrite (dot_comm n (mv n (Q t) x) dx), (dot_comm n (mv m (tr (N t)) (ff u)) dx), (dot_comm m (mv m (R_ t) (ff u)) du), (dot_comm m (mv n (N t) x) du). ring.
Qed.
Lemma der_forms x u t : (t < T)%nat -> (forall i j, (i < n)%nat -> (j < n)%nat -> d_cxx (der x u t) i j = Q t i j) /\
  (forall i j, (i < m)%nat -> (j < m)%nat -> d_cuu (der x u t) i j = R_ t i j) /\ (forall i j, (i < n)%nat -> (j < m)%nat -> d_cxu (der x u t) i j = N t j i).
Proof.
  intros Ht. assert (HQ := lq_stage _ _ _ _ _ _ _ _ _ _ _ _ _ _ _ _ _ _ LQ t Ht).
  destruct (derivatives_closed S pdyn pobj x u t) as (_ & _ & _ & _ & Exx & Exu & Euu).
  assert (Ef : Nat.eqb t T = false) by (apply Nat.eqb_neq; lia). unfold pobj in Exx, Exu, Euu. rewrite Ef in Exx, Exu, Euu. cbn [ff] in *. repeat split; intros i j Hi Hj.
  - rewrite Exx by assumption. apply (quad_cxx _ _ _ _ _ _ _ _ _ HQ x (ff u) i j Hi Hj).
  - rewrite Euu by assumption. apply (quad_cuu _ _ _ _ _ _ _ _ _ HQ x (ff u) i j Hi Hj).
  - rewrite Exu by assumption. apply (quad_cxu _ _ _ _ _ _ _ _ _ HQ x (ff u) i j Hi Hj).
Qed.
Lemma der_final x u : let D := der x u T in (forall i j, (i < n)%nat -> (j < n)%nat -> d_cxx D i j = Qf i j) /\
  forall cost dx, phi (vplus x dx) - phi x + cost = val n (mkV cost (d_cx D) (d_cxx D)) dx.
Proof.
  cbv zeta. assert (HQ : quadratic n 0 (fun y _ => phi y) phi0 bf (fun _ => 0) Qf (fun _ _ => 0) (fun _ _ => 0)).
  { constructor; [apply (lq_final_sym _ _ _ _ _ _ _ _ _ _ _ _ _ _ _ _ _ _ LQ)|intros; lia|]. intros y v. rewrite (lq_final _ _ _ _ _ _ _ _ _ _ _ _ _ _ _ _ _ _ LQ). unfold bilin, inner, sum; cbn. ring. }
  destruct (derivatives_closed S pdyn pobj x u T) as (_ & _ & Ecx & _ & Exx & _). unfold pobj in Ecx, Exx. rewrite Nat.eqb_refl in Ecx, Exx.
  assert (X : forall i j, (i < n)%nat -> (j < n)%nat -> d_cxx (der x u T) i j = Qf i j) by (intros i j Hi Hj; rewrite Exx by assumption; apply (quad_cxx _ _ _ _ _ _ _ _ _ HQ x (ff u) i j Hi Hj)).
  split; [exact X|]. intros cost dx. assert (Y := quad_dx _ _ _ _ _ _ _ _ _ x (fun _ => 0) dx HQ). cbv beta in Y. rewrite Y.
  unfold val. cbn [v_c v_x v_xx]. rewrite (dot_ext n dx dx (mv n (d_cxx _) dx) (mv n Qf dx)) by (auto; intros i Hi; apply mv_mext; auto).
  rewrite (dot_ext n (d_cx _) (vplus bf (mv n Qf x)) dx dx); [|intros i Hi; rewrite Ecx by exact Hi; etransitivity; [exact (quad_cx _ _ _ _ _ _ _ _ _ HQ x (ff u) i Hi)|unfold vplus; unfold mv at 2; cbn; ring]|auto].
  rewrite dot_plus_l, (dot_comm n (mv n Qf x) dx). rewrite (dot_ext n dx dx (mv 0 (tr (fun _ _ => 0)) (fun _ => 0)) (fun _ => 0)) by (auto; intros; reflexivity). rewrite (dot_comm n dx (fun _ => 0)), dot_zero_l. ring.
Qed.
End LQ.

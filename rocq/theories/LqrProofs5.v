(** * The backward pass on linear-quadratic problems: Bellman's principle *)
From Coq Require Import Reals List Arith ZArith Bool Lia Lra FunctionalExtensionality.
From Verif Require Import Base BaseProofs IpModel BnbProofs LbfgsProofs LqrModel LqrSpec LqrProofs LqrProofs2 LqrProofs3 LqrProofs4.
Import ListNotations.
Open Scope R_scope.

Lemma cost_to_go_ext step stage final k : forall t x pi pi', (forall s y, (t <= s < t + k)%nat -> pi s y = pi' s y) -> cost_to_go step stage final k t x pi = cost_to_go step stage final k t x pi'.
Proof.
  induction k as [|k IH]; intros t x pi pi' E; [reflexivity|]. cbn [cost_to_go]. rewrite (E t x) by lia. f_equal. apply IH. intros s y Hs. apply E. lia.
Qed.
Lemma val_ext n V x y : (forall i, (i < n)%nat -> x i = y i) -> val n V x = val n V y.
Proof.
  intros E. unfold val. rewrite (dot_ext n (v_x V) (v_x V) x y) by auto. rewrite (dot_ext n x y (mv n (v_xx V) x) (mv n (v_xx V) y)) by (auto; intros; now apply mv_ext). reflexivity.
Qed.
Lemma nz_dec n (x : vec) : (forall i, (i < n)%nat -> x i = 0) \/ exists i, (i < n)%nat /\ x i <> 0.
Proof.
  induction n as [|n [IH|(i & Hi & Hx)]]; [left; intros; lia| |right; exists i; split; [lia|exact Hx]].
  destruct (Req_dec (x n) 0) as [E|E]; [left|right; exists n; auto]. intros i Hi. destruct (Nat.eq_dec i n) as [->|]; auto. apply IH. lia.
Qed.
Lemma posdef_nonneg n A x : posdef n A -> 0 <= vdot n x (mv n A x).
Proof.
  intros H. destruct (nz_dec n x) as [Z|Z]; [|left; now apply H].
  right. symmetry. apply rsum_zero. intros i Hi. rewrite (Z i Hi). ring.
Qed.

Section LQB.
Variable S : stgs.
Variable f : vec -> vec -> nat -> vec.
Variable l : vec -> vec -> nat -> R.
Variable phi : vec -> R.
Variable qp : (vec -> R) -> vec -> vec -> vec.
Notation n := (s_xdim S).
Notation m := (s_udim S).
Notation T := (s_tdim S).
Variables (A B : nat -> mat) (c : nat -> vec) (l0 : nat -> R) (b d : nat -> vec) (Q R_ N : nat -> mat) (phi0 : R) (bf : vec) (Qf : mat).
Hypothesis LQ : linear_quadratic T n m f l phi A B c l0 b d Q R_ N phi0 bf Qf.
Hypothesis Hlim : s_limits S = false.
Notation der := (computeDerivatives S (pdyn f) (pobj l phi)).
Notation stp := (pstep S f).
Notation ctg := (cost_to_go stp l phi).
(** The nominal trajectory and its costs. *)
Variables (xs : sseq) (us : cseq) (cost : nat -> R).
Hypothesis Hdyn : forall t, (t < T)%nat -> xs (t + 1)%nat = stp (xs t) (ff (us t)) t.
Hypothesis Hcost : forall t, (t < T)%nat -> cost t = l (xs t) (ff (us t)) t.
Hypothesis HcostT : cost T = phi (xs T).
Definition opt (bs : cseq) (t : nat) (x : vec) : vec := vplus (ff (us t)) (vplus (ff (bs t)) (mv n (fb (bs t)) (vminus x (xs t)))).
Record good (bs : cseq) (t : nat) (V : value) : Prop := {
  good_sym : sym n (v_xx V);
  good_low : forall pi x, val n V (vminus x (xs t)) <= ctg (T - t) t x pi;
  good_att : forall x, ctg (T - t) t x (opt bs) = val n V (vminus x (xs t)) }.
Lemma good_ext bs bs' t V : (forall s, (t <= s < T)%nat -> bs s = bs' s) -> good bs t V -> good bs' t V.
Proof.
  intros E [H1 H2 H3]. constructor; auto. intros x. rewrite <- H3. apply cost_to_go_ext. intros s y Hs. unfold opt. rewrite E by lia. reflexivity.
Qed.
Lemma minus_plus x y : vplus y (vminus x y) = x. Proof. apply functional_extensionality. intros. unfold vplus, vminus. ring. Qed.
Lemma der_t t : (t < T)%nat -> der xs us t = derivatives_at S (pdyn f) (pobj l phi) (xs t) (us t) t.
Proof. intros Ht. unfold computeDerivatives. destruct (Nat.ltb_spec t T); [reflexivity|lia]. Qed.
Lemma sym_forms t : (t < T)%nat -> sym n (d_cxx (der xs us t)) /\ sym m (d_cuu (der xs us t)).
Proof.
  intros Ht. rewrite der_t by exact Ht. destruct (der_forms S f l phi _ _ _ _ _ _ _ _ _ _ _ _ LQ (xs t) (us t) t Ht) as (E1 & E2 & _).
  assert (HQ := lq_stage _ _ _ _ _ _ _ _ _ _ _ _ _ _ _ _ _ _ LQ t Ht). split; intros i j Hi Hj.
  - rewrite !E1 by assumption. now apply (quad_Q _ _ _ _ _ _ _ _ _ HQ).
  - rewrite !E2 by assumption. now apply (quad_R _ _ _ _ _ _ _ _ _ HQ).
Qed.
(** One stage around the nominal trajectory. *)
Lemma stage_dev t x u : (t < T)%nat -> l x u t = stage_model n m (der xs us t) (cost t) (vminus x (xs t)) (vminus u (ff (us t))).
Proof. intros Ht. rewrite der_t, Hcost by exact Ht. rewrite <- (der_stage S f l phi _ _ _ _ _ _ _ _ _ _ _ _ LQ (xs t) (us t) t) by exact Ht. now rewrite !minus_plus. Qed.
Lemma step_dev t x u i : (t < T)%nat -> (i < n)%nat ->
  vminus (stp x u t) (xs (t + 1)%nat) i = vplus (mv n (d_fx (der xs us t)) (vminus x (xs t))) (mv m (d_fu (der xs us t)) (vminus u (ff (us t)))) i.
Proof.
  intros Ht Hi. rewrite Hdyn, der_t by exact Ht. unfold vminus at 1. rewrite <- (minus_plus x (xs t)) at 1. rewrite <- (minus_plus u (ff (us t))) at 1.
  rewrite (der_step S f l phi _ _ _ _ _ _ _ _ _ _ _ _ LQ) by assumption. unfold vplus. ring.
Qed.
Lemma step_some lambda t V u V' : bp_step S qp (der xs us t) (cost t) lambda (us t) V = Some (u, V') ->
  exists C, llt m (mplus (mplus (d_cuu (der xs us t)) (mm n (mm n (tr (d_fu (der xs us t))) (v_xx V)) (d_fu (der xs us t)))) (mscal lambda ident)) = Some C.
Proof. unfold bp_step. destruct (llt m _) as [C|]; [|discriminate]. intros _. now exists C. Qed.
Lemma good_step bs t V u V' : (t < T)%nat -> good bs (t + 1) V -> bp_step S qp (der xs us t) (cost t) 0 (us t) V = Some (u, V') -> good (upd bs t u) t V'.
Proof.
  intros Ht [G1 G2 G3] E. destruct (step_some _ _ _ _ _ E) as (C & HC). destruct (sym_forms t Ht) as (HQ & HR).
  assert (K : forall x w, l x w t + val n V (vminus (stp x w t) (xs (t + 1)%nat)) =
    val n V' (vminus x (xs t)) + 1 / 2 * vdot m (vminus (vminus w (ff (us t))) (dev_law S u (vminus x (xs t)))) (mv m (mplus (mplus (d_cuu (der xs us t)) (mm n (mm n (tr (d_fu (der xs us t))) (v_xx V)) (d_fu (der xs us t)))) (mscal 0 ident)) (vminus (vminus w (ff (us t))) (dev_law S u (vminus x (xs t)))))).
  { intros x w. rewrite (val_ext n V _ _ (fun i Hi => step_dev t x w i Ht Hi)). rewrite (stage_dev t x w Ht).
    apply (completed S qp (der xs us t) (cost t) 0 (us t) V HR G1 u V' C HC Hlim E). reflexivity. }
  assert (P := llt_posdef _ _ _ (H_sym S (der xs us t) 0 V HR G1) HC).
  replace (T - t)%nat with (Datatypes.S (T - (t + 1))) by lia. constructor.
  - apply (Vxx_sym S qp (der xs us t) (cost t) 0 (us t) V u V' C HC Hlim E).
  - intros pi x. replace (T - t)%nat with (Datatypes.S (T - (t + 1))) by lia. cbn [cost_to_go]. specialize (G2 pi (stp x (pi t x) t)). specialize (K x (pi t x)).
    assert (N0 := posdef_nonneg m _ (vminus (vminus (pi t x) (ff (us t))) (dev_law S u (vminus x (xs t)))) P). lra.
  - intros x. replace (T - t)%nat with (Datatypes.S (T - (t + 1))) by lia. cbn [cost_to_go].
    rewrite (cost_to_go_ext _ _ _ (T - (t + 1)) (t + 1) _ _ (opt bs)) by (intros s y Hs; unfold opt; rewrite upd_other by lia; reflexivity).
    rewrite G3, K.
    set (z := vminus (vminus (opt (upd bs t u) t x) (ff (us t))) (dev_law S u (vminus x (xs t)))).
    assert (Z : forall i, z i = 0) by (intros i; unfold z, opt, dev_law, vminus, vplus; rewrite upd_same; ring).
    set (y := mv m _ z). rewrite (dot_ext m z (fun _ => 0) y y) by auto. rewrite dot_zero_l. ring.
Qed.
Lemma good_T bs : good bs T (mkV (cost T) (d_cx (der xs us T)) (d_cxx (der xs us T))).
Proof.
  assert (E : der xs us T = derivatives_at S (pdyn f) (pobj l phi) (xs T) (mkCtrl (fun _ => 0) (fb (us (T - 1)%nat))) T) by (unfold computeDerivatives; rewrite Nat.ltb_irrefl; reflexivity).
  rewrite E. destruct (der_final S f l phi _ _ _ _ _ _ _ _ _ _ _ _ LQ (xs T) (mkCtrl (fun _ => 0) (fb (us (T - 1)%nat)))) as (E1 & E2).
  assert (X : forall x, phi x = val n (mkV (cost T) (d_cx (derivatives_at S (pdyn f) (pobj l phi) (xs T) (mkCtrl (fun _ => 0) (fb (us (T - 1)%nat))) T)) (d_cxx (derivatives_at S (pdyn f) (pobj l phi) (xs T) (mkCtrl (fun _ => 0) (fb (us (T - 1)%nat))) T))) (vminus x (xs T))).
  { intros x. rewrite <- E2, minus_plus, HcostT. ring. }
  constructor.
  - intros i j Hi Hj. cbn [v_xx]. rewrite !E1 by assumption. now apply (lq_final_sym _ _ _ _ _ _ _ _ _ _ _ _ _ _ _ _ _ _ LQ).
  - intros pi x. rewrite Nat.sub_diag. cbn [cost_to_go]. rewrite X. lra.
  - intros x. rewrite Nat.sub_diag. cbn [cost_to_go]. now rewrite X.
Qed.
Lemma good_loop : forall k bs V Vs bs' Vs', (k <= T)%nat -> good bs k V -> bp_loop S qp k (der xs us) cost 0 us bs V Vs = (bs', None, Vs') ->
  (forall t, (t < k)%nat -> good bs' t (Vs' t)) /\ (forall t, (k <= t)%nat -> bs' t = bs t /\ Vs' t = Vs t).
Proof.
  induction k as [|k IH]; intros bs V Vs bs' Vs' Hk G E; cbn [bp_loop] in E.
  - injection E as <- <-. split; [intros; lia|auto].
  - destruct (bp_step S qp (der xs us k) (cost k) 0 (us k) V) as [[u V1]|] eqn:E1; [|discriminate].
    assert (G1 := good_step bs k V u V1 ltac:(lia) ltac:(replace (k + 1)%nat with (Datatypes.S k) by lia; exact G) E1).
    destruct (IH _ _ _ _ _ ltac:(lia) G1 E) as (I1 & I2). split.
    + intros t Ht. destruct (Nat.eq_dec t k) as [->|Hn]; [|apply I1; lia]. destruct (I2 k (Nat.le_refl k)) as (_ & ->). rewrite upd_same.
      apply (good_ext (upd bs k u)); [|exact G1]. intros s Hs. symmetry. now apply I2.
    + intros t Ht. destruct (I2 t ltac:(lia)) as (-> & ->). rewrite !upd_other by lia. auto.
Qed.
Lemma backward_optimal bs bs' Vs : optimizeController S qp (der xs us) cost 0 us bs = (bs', None, Vs) -> forall t, (t <= T)%nat -> good bs' t (Vs t).
Proof.
  intros E t Ht. unfold optimizeController in E. destruct (good_loop _ _ _ _ _ _ (Nat.le_refl T) (good_T bs) E) as (I1 & I2).
  destruct (Nat.eq_dec t T) as [->|]; [|apply I1; lia]. destruct (I2 T (Nat.le_refl T)) as (_ & ->). apply good_T.
Qed.
(** ** Convex problems never break the backward pass *)
Hypothesis CVX : convex_costs T n m Q R_ N Qf.
Definition psd (k : nat) (M : mat) : Prop := forall x, 0 <= vdot k x (mv k M x).
Lemma R_pos t : (t < T)%nat -> posdef m (d_cuu (der xs us t)).
Proof.
  intros Ht x Hx. rewrite der_t by exact Ht. destruct (der_forms S f l phi _ _ _ _ _ _ _ _ _ _ _ _ LQ (xs t) (us t) t Ht) as (_ & E2 & _).
  rewrite (dot_ext m x x _ (mv m (R_ t) x)) by (auto; intros i Hi; apply mv_mext; auto). rewrite <- bilin_dot. now apply (cvx_control _ _ _ _ _ _ _ CVX).
Qed.
Lemma stage_pos t dx du : (t < T)%nat -> 0 <= vdot n dx (mv n (d_cxx (der xs us t)) dx) + vdot m du (mv m (d_cuu (der xs us t)) du) + 2 * vdot m du (mv n (tr (d_cxu (der xs us t))) dx).
Proof.
  intros Ht. rewrite der_t by exact Ht. destruct (der_forms S f l phi _ _ _ _ _ _ _ _ _ _ _ _ LQ (xs t) (us t) t Ht) as (E1 & E2 & E3).
  rewrite (dot_ext n dx dx _ (mv n (Q t) dx)) by (auto; intros i Hi; apply mv_mext; auto).
  rewrite (dot_ext m du du (mv m (d_cuu _) du) (mv m (R_ t) du)) by (auto; intros i Hi; apply mv_mext; auto).
  rewrite (dot_ext m du du (mv n (tr (d_cxu _)) dx) (mv n (N t) dx)) by (auto; intros i Hi; apply mv_mext; intros j Hj; unfold tr; auto).
  rewrite <- !bilin_dot. now apply (cvx_stage _ _ _ _ _ _ _ CVX).
Qed.
Lemma psd_step lambda t V : 0 <= lambda -> (t < T)%nat -> sym n (v_xx V) -> psd n (v_xx V) ->
  exists u V', bp_step S qp (der xs us t) (cost t) lambda (us t) V = Some (u, V') /\ sym n (v_xx V') /\ psd n (v_xx V').
Proof.
  intros Hl Ht HS HP. destruct (sym_forms t Ht) as (HQ & HR).
  destruct (posdef_llt m _ (H_sym S (der xs us t) lambda V HR HS)) as (C & HC).
  { intros x Hx. rewrite H_dot. assert (P1 := R_pos t Ht x Hx). assert (P2 := HP (mv m (d_fu (der xs us t)) x)).
    assert (P3 : 0 <= vdot m x x) by (apply rsum_nonneg; intros; nra). nra. }
  destruct (bp_step S qp (der xs us t) (cost t) lambda (us t) V) as [[u V']|] eqn:E.
  2:{ exfalso. unfold bp_step in E. rewrite HC in E. discriminate. }
  exists u, V'. split; [reflexivity|]. split; [apply (Vxx_sym S qp (der xs us t) (cost t) lambda (us t) V u V' C HC Hlim E)|].
  intros x. rewrite (form_next S qp (der xs us t) (cost t) lambda (us t) V HS u V' C HC Hlim E x).
  assert (P1 := stage_pos t x (mv n (fb u) x) Ht). assert (P2 := HP (vplus (mv n (d_fx (der xs us t)) x) (mv m (d_fu (der xs us t)) (mv n (fb u) x)))).
  assert (P3 : 0 <= vdot m (mv n (fb u) x) (mv n (fb u) x)) by (apply rsum_nonneg; intros; nra). nra.
Qed.
Lemma psd_loop lambda : 0 <= lambda -> forall k bs V Vs, (k <= T)%nat -> sym n (v_xx V) -> psd n (v_xx V) -> exists bs' Vs', bp_loop S qp k (der xs us) cost lambda us bs V Vs = (bs', None, Vs').
Proof.
  intros Hl. induction k as [|k IH]; intros bs V Vs Hk HS HP; cbn [bp_loop]; [eauto|].
  destruct (psd_step lambda k V Hl ltac:(lia) HS HP) as (u & V' & -> & HS' & HP'). apply IH; auto. lia.
Qed.
Lemma convex_backward lambda bs : 0 <= lambda -> exists bs' Vs', optimizeController S qp (der xs us) cost lambda us bs = (bs', None, Vs').
Proof.
  intros Hl. unfold optimizeController. apply psd_loop; auto.
  - apply (good_sym _ _ _ (good_T bs)).
  - intros x. assert (E : der xs us T = derivatives_at S (pdyn f) (pobj l phi) (xs T) (mkCtrl (fun _ => 0) (fb (us (T - 1)%nat))) T) by (unfold computeDerivatives; rewrite Nat.ltb_irrefl; reflexivity).
    cbn [v_xx]. rewrite E. destruct (der_final S f l phi _ _ _ _ _ _ _ _ _ _ _ _ LQ (xs T) (mkCtrl (fun _ => 0) (fb (us (T - 1)%nat)))) as (E1 & _).
    rewrite (dot_ext n x x _ (mv n Qf x)) by (auto; intros i Hi; apply mv_mext; auto). rewrite <- bilin_dot. now apply (cvx_final _ _ _ _ _ _ _ CVX).
Qed.
End LQB.

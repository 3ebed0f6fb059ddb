(** * Forward and backward passes *)
From Coq Require Import Reals List Arith ZArith Bool Lia Lra FunctionalExtensionality.
From Verif Require Import Base BaseProofs IpModel BnbProofs LbfgsProofs LqrModel LqrSpec LqrProofs LqrProofs2.
Import ListNotations.
Open Scope R_scope.

Section FP.
Variable S : stgs.
Variable dyn : vec -> ctrl -> nat -> vec.
Variable obj : vec -> ctrl -> nat -> bool -> R.
Notation step := (internal_dynamics S dyn).
Definition law (xn : sseq) (un : cseq) (t : nat) (x : vec) : vec :=
  let u0 := vplus (ff (un t)) (mv (s_xdim S) (fb (un t)) (vminus x (xn t))) in
  if s_limits S then fun i => clip (s_umin S i) (s_umax S i) (u0 i) else u0.
Definition exceeds (x : vec) : bool := existsb (fun i => ltb (s_divlimit S) (Rabs (x i))) (seq 0 (s_xdim S)).
Lemma fp_loop_ok xn un k : let F := fp_loop S dyn obj k xn un (mkF xn un (fun _ => 0) false) in
  f_x F 0%nat = xn 0%nat /\ (forall t, (k <= t)%nat -> f_u F t = un t) /\
  (forall t, (t < k)%nat -> f_u F t = mkCtrl (law xn un t (f_x F t)) (fb (un t)) /\ f_x F (t + 1)%nat = step (f_x F t) (f_u F t) t /\ f_cost F t = obj (f_x F t) (f_u F t) t false) /\
  (f_div F = true <-> exists t, (t < k)%nat /\ exceeds (f_x F (t + 1)%nat) = true).
Proof.
  induction k as [|k IH]; cbn [fp_loop].
  - cbn. split; [reflexivity|]. split; [reflexivity|]. split; [intros; lia|]. split; [discriminate|intros (t & Ht & _); lia].
  - set (F := fp_loop S dyn obj k xn un _) in *. destruct IH as (I1 & I2 & I3 & I4). unfold fp_step. cbn [f_x f_u f_cost f_div].
    fold (law xn un k (f_x F k)). rewrite (I2 k) by lia. set (u := mkCtrl (law xn un k (f_x F k)) (fb (un k))). set (x' := step (f_x F k) u k).
    assert (E : forall t, (t <= k)%nat -> upd (f_x F) (k + 1) x' t = f_x F t) by (intros; apply upd_other; lia).
    split; [rewrite E; [exact I1|lia]|]. split; [intros t Ht; rewrite upd_other by lia; apply I2; lia|]. split.
    + intros t Ht. destruct (Nat.eq_dec t k) as [->|Hn].
      * rewrite !upd_same. rewrite E by lia. auto.
      * rewrite !(upd_other _ k) by lia. rewrite !E by lia. apply I3. lia.
    + fold (exceeds x'). rewrite orb_true_iff, I4. split.
      * intros [H|(t & Ht & H)]; [exists k; rewrite upd_same; split; [lia|exact H]|exists t; split; [lia|rewrite E by lia; exact H]].
      * intros (t & Ht & H). destruct (Nat.eq_dec t k) as [->|Hn]; [left; rewrite upd_same in H; exact H|right; exists t; split; [lia|rewrite E in H by lia; exact H]].
Qed.
Lemma apply_ok xn un : let F := applyController S dyn obj xn un in
  f_x F 0%nat = xn 0%nat /\
  (forall t, (t < s_tdim S)%nat -> f_u F t = mkCtrl (law xn un t (f_x F t)) (fb (un t)) /\ f_x F (t + 1)%nat = step (f_x F t) (f_u F t) t /\ f_cost F t = obj (f_x F t) (f_u F t) t false) /\
  f_cost F (s_tdim S) = obj (f_x F (s_tdim S)) ctrl0 (s_tdim S) true /\
  (f_div F = true <-> exists t, (t < s_tdim S)%nat /\ exceeds (f_x F (t + 1)%nat) = true).
Proof.
  cbv zeta. unfold applyController. destruct (fp_loop_ok xn un (s_tdim S)) as (I1 & I2 & I3 & I4). set (F := fp_loop _ _ _ _ _ _ _) in *. cbn [f_x f_u f_cost f_div].
  repeat split; auto; try apply I3; auto; try apply I4.
  - rewrite upd_other by lia. apply I3. exact H.
  - now rewrite upd_same.
Qed.
Lemma clip_in lo hi v : lo <= hi -> lo <= clip lo hi v <= hi.
Proof.
  intros H. unfold clip. destruct (leb hi v) eqn:E; [apply leb_true in E|apply leb_false in E].
  - destruct (leb hi lo) eqn:E2; [apply leb_true in E2|apply leb_false in E2]; lra.
  - destruct (leb v lo) eqn:E2; [apply leb_true in E2|apply leb_false in E2]; lra.
Qed.
Lemma clip_id lo hi v : lo <= v <= hi -> clip lo hi v = v.
Proof.
  intros H. unfold clip. destruct (leb hi v) eqn:E; [apply leb_true in E|apply leb_false in E].
  - destruct (leb hi lo) eqn:E2; [apply leb_true in E2|apply leb_false in E2]; lra.
  - destruct (leb v lo) eqn:E2; [apply leb_true in E2|apply leb_false in E2]; lra.
Qed.
End FP.

(** ** One step of the backward pass *)
Definition val (n : nat) (V : value) (dx : vec) : R := v_c V + vdot n (v_x V) dx + 1 / 2 * vdot n dx (mv n (v_xx V) dx).
(** The quadratic model of a stage around the nominal point. *)
Definition stage_model (n m : nat) (d : devs) (cost : R) (dx du : vec) : R :=
  cost + vdot n (d_cx d) dx + vdot m (d_cu d) du + 1 / 2 * vdot n dx (mv n (d_cxx d) dx) + 1 / 2 * vdot m du (mv m (d_cuu d) du) + vdot m du (mv n (tr (d_cxu d)) dx).

Section BP.
Variable S : stgs.
Variable qp : (vec -> R) -> vec -> vec -> vec.
Notation nx := (s_xdim S).
Notation nu := (s_udim S).
Variables (d : devs) (cost lambda : R) (un : ctrl) (V : value).
Hypothesis HQ : sym nx (d_cxx d).
Hypothesis HR : sym nu (d_cuu d).
Hypothesis HS : sym nx (v_xx V).

Let A := d_fx d.
Let B := d_fu d.
Let g := vplus (d_cu d) (mv nx (tr B) (v_x V)).
Let G := mplus (tr (d_cxu d)) (mm nx (mm nx (tr B) (v_xx V)) A).
Let H := mplus (mplus (d_cuu d) (mm nx (mm nx (tr B) (v_xx V)) B)) (mscal lambda ident).

Lemma H_dot y z : vdot nu y (mv nu H z) = vdot nu y (mv nu (d_cuu d) z) + vdot nx (mv nu B y) (mv nx (v_xx V) (mv nu B z)) + lambda * vdot nu y z.
Proof.
  rewrite (dot_ext nu y y _ (vplus (vplus (mv nu (d_cuu d) z) (mv nx (tr B) (mv nx (v_xx V) (mv nu B z)))) (vscal lambda z))).
  - rewrite !dot_plus_r, dot_scal_r. rewrite (dot_tr nu nx y (tr B)). reflexivity.
  - auto.
  - intros i Hi. unfold H. rewrite !mv_mplus, mv_mscal, mv_ident by exact Hi. unfold vplus, vscal. f_equal. f_equal.
    rewrite mv_mm. rewrite mv_mm. reflexivity.
Qed.
Lemma H_sym : sym nu H.
Proof.
  intros i j Hi Hj. unfold H, mplus, mscal, ident. rewrite (HR i j Hi Hj). rewrite (Nat.eqb_sym j i). f_equal. f_equal.
  assert (E : forall a b, (a < nu)%nat -> (b < nu)%nat -> mm nx (mm nx (tr B) (v_xx V)) B a b = vdot nx (fun k => B k a) (mv nx (v_xx V) (fun k => B k b))).
  { intros a b Ha Hb. unfold mm, tr, vdot, mv. rewrite (rsum_ext nx _ (fun k => rsum nx (fun l => B l a * (v_xx V l k * B k b)))).
    - rewrite rsum_swap. apply rsum_ext. intros k Hk. rewrite <- rsum_scal. apply rsum_ext. intros; ring.
    - intros k Hk. rewrite <- rsum_scal_r. apply rsum_ext. intros; ring. }
  rewrite !E by assumption. apply dot_sym. exact HS.
Qed.
Lemma G_dot y z : vdot nu y (mv nx G z) = vdot nu y (mv nx (tr (d_cxu d)) z) + vdot nx (mv nu B y) (mv nx (v_xx V) (mv nx A z)).
Proof.
  rewrite (dot_ext nu y y _ (vplus (mv nx (tr (d_cxu d)) z) (mv nx (tr B) (mv nx (v_xx V) (mv nx A z))))).
  - rewrite dot_plus_r. rewrite (dot_tr nu nx y (tr B)). reflexivity.
  - auto.
  - intros i Hi. unfold G. rewrite mv_mplus. unfold vplus. f_equal. rewrite mv_mm. rewrite mv_mm. reflexivity.
Qed.
Lemma g_dot z : vdot nu g z = vdot nu (d_cu d) z + vdot nx (v_x V) (mv nu B z).
Proof. unfold g. rewrite dot_plus_l. f_equal. rewrite dot_tr. reflexivity. Qed.

(** The cost of a deviation (dx, du) followed by the optimal continuation. *)
Lemma lookahead dx du : lambda = 0 ->
  stage_model nx nu d cost dx du + val nx V (vplus (mv nx A dx) (mv nu B du)) =
  cost + v_c V + vdot nx (d_cx d) dx + vdot nx (v_x V) (mv nx A dx) + 1 / 2 * vdot nx dx (mv nx (d_cxx d) dx) + 1 / 2 * vdot nx (mv nx A dx) (mv nx (v_xx V) (mv nx A dx))
  + vdot nu g du + 1 / 2 * vdot nu du (mv nu H du) + vdot nu du (mv nx G dx).
Proof.
  intros Hl. unfold stage_model, val. rewrite g_dot, H_dot, G_dot, Hl. rewrite !dot_plus_r, !dot_plus_l, !mv_plus_dot.
  rewrite (dot_sym nx (v_xx V) (mv nx A dx) (mv nu B du)) by exact HS. field.
Qed.

Variables (u : ctrl) (V' : value) (C : mat).
Hypothesis HC : llt nu H = Some C.
Hypothesis Hlim : s_limits S = false.
Hypothesis Hstep : bp_step S qp d cost lambda un V = Some (u, V').

Lemma step_values : ff u = vscal (-1) (llt_solve nu C g) /\ (fb u = fun i j => - llt_solve nu C (fun k => G k j) i) /\
  v_c V' = cost + v_c V + 1 / 2 * vdot nu (ff u) (mv nu H (ff u)) + vdot nu (ff u) g /\
  (forall j, v_x V' j = d_cx d j + mv nx (tr A) (v_x V) j + mv nu (tr (fb u)) (mv nu (tr H) (ff u)) j + mv nu (tr G) (ff u) j + mv nu (tr (fb u)) g j) /\
  let Sxxn := mplus (mplus (mplus (mplus (d_cxx d) (mm nx (mm nx (tr A) (v_xx V)) A)) (mm nu (mm nu (tr (fb u)) H) (fb u))) (mm nu (tr (fb u)) G)) (mm nu (tr G) (fb u)) in
  forall i j, v_xx V' i j = 1 / 2 * (Sxxn i j + Sxxn j i).
Proof.
  assert (E := Hstep). unfold bp_step in E. fold B A in E. change (mplus (mplus (d_cuu d) (mm nx (mm nx (tr B) (v_xx V)) B)) (mscal lambda ident)) with H in E.
  fold g G in E. rewrite HC, Hlim in E. injection E as <- <-. cbn. repeat split.
Qed.
Lemma newton_l : forall i, (i < nu)%nat -> mv nu H (ff u) i = - g i.
Proof. intros i Hi. destruct step_values as (-> & _). rewrite mv_scal, (llt_solve_ok nu H C) by (auto using H_sym). ring. Qed.
Lemma newton_L z : forall i, (i < nu)%nat -> mv nu H (mv nx (fb u) z) i = - mv nx G z i.
Proof.
  intros i Hi. destruct step_values as (_ & -> & _).
  rewrite (mv_ext nu H _ (fun k => rsum nx (fun j => (- z j) * llt_solve nu C (fun k => G k j) k))) by (intros k Hk; apply rsum_ext; intros; ring).
  unfold mv at 1. rewrite (rsum_ext nu _ (fun k => rsum nx (fun j => - z j * (H i k * llt_solve nu C (fun k0 => G k0 j) k)))) by (intros k Hk; rewrite <- rsum_scal; apply rsum_ext; intros; ring).
  rewrite rsum_swap. rewrite (rsum_ext nx _ (fun j => -1 * (G i j * z j))).
  - rewrite rsum_scal. unfold mv. ring.
  - intros j Hj. rewrite rsum_scal. fold (mv nu H (llt_solve nu C (fun k0 => G k0 j)) i). rewrite (llt_solve_ok nu H C) by (auto using H_sym). ring.
Qed.
(** The policy of the step. *)
Definition dev_law (dx : vec) : vec := vplus (ff u) (mv nx (fb u) dx).
Lemma value_form dx : let w := mv nx (fb u) dx in
  vdot nx dx (mv nx (v_xx V') dx) = vdot nx dx (mv nx (d_cxx d) dx) + vdot nx (mv nx A dx) (mv nx (v_xx V) (mv nx A dx)) + vdot nu w (mv nu H w) + 2 * vdot nu w (mv nx G dx).
Proof.
  cbv zeta. destruct step_values as (_ & _ & _ & _ & E3). cbv zeta in E3. set (L := fb u) in *. set (w := mv nx L dx).
  set (Sn := mplus _ _) in E3.
    assert (T : vdot nx dx (mv nx Sn dx) = vdot nx dx (mv nx (d_cxx d) dx) + vdot nx (mv nx A dx) (mv nx (v_xx V) (mv nx A dx)) + vdot nu w (mv nu H w) + 2 * vdot nu w (mv nx G dx)).
    { rewrite (dot_ext nx dx dx _ (vplus (vplus (vplus (vplus (mv nx (d_cxx d) dx) (mv nx (tr A) (mv nx (v_xx V) (mv nx A dx)))) (mv nu (tr L) (mv nu H w))) (mv nu (tr L) (mv nx G dx))) (mv nu (tr G) w))).
      - rewrite !dot_plus_r. rewrite (dot_tr nx nx dx (tr A)), (dot_tr nx nu dx (tr L)), (dot_tr nx nu dx (tr L)), (dot_tr nx nu dx (tr G)).
        change (mv nx (tr (tr A)) dx) with (mv nx A dx). change (mv nx (tr (tr L)) dx) with w. change (mv nx (tr (tr G)) dx) with (mv nx G dx). rewrite (dot_comm nu (mv nx G dx) w). ring.
      - auto.
      - intros i Hi. unfold Sn. rewrite !mv_mplus. unfold vplus. rewrite !mv_mm. reflexivity. }
    rewrite (dot_ext nx dx dx _ (vscal (1 / 2) (vplus (mv nx Sn dx) (mv nx (tr Sn) dx)))).
    - rewrite dot_scal_r, dot_plus_r, (dot_tr nx nx dx (tr Sn)), (dot_comm nx _ dx). change (tr (tr Sn)) with Sn. rewrite T. field.
    - auto.
    - intros i Hi. unfold vscal, vplus. rewrite <- mv_mplus, <- mv_mscal. apply mv_mext. intros j Hj. rewrite E3. reflexivity. 
Qed.
Lemma value_at dx : let w := mv nx (fb u) dx in
  val nx V' dx = cost + v_c V + vdot nx (d_cx d) dx + vdot nx (v_x V) (mv nx A dx) + 1 / 2 * vdot nx dx (mv nx (d_cxx d) dx) + 1 / 2 * vdot nx (mv nx A dx) (mv nx (v_xx V) (mv nx A dx))
  + vdot nu g (vplus (ff u) w) + 1 / 2 * vdot nu (vplus (ff u) w) (mv nu H (vplus (ff u) w)) + vdot nu (vplus (ff u) w) (mv nx G dx).
Proof.
  cbv zeta. destruct step_values as (_ & _ & E1 & E2 & E3). cbv zeta in E3. set (l := ff u) in *. set (L := fb u) in *. set (w := mv nx L dx).
  unfold val. rewrite E1.
  assert (Ex : vdot nx (v_x V') dx = vdot nx (d_cx d) dx + vdot nx (v_x V) (mv nx A dx) + vdot nu l (mv nu H w) + vdot nu l (mv nx G dx) + vdot nu g w).
  { rewrite (dot_ext nx _ (vplus (vplus (vplus (vplus (d_cx d) (mv nx (tr A) (v_x V))) (mv nu (tr L) (mv nu (tr H) l))) (mv nu (tr G) l)) (mv nu (tr L) g)) dx dx) by (auto; intros i Hi; rewrite E2; reflexivity).
    rewrite !dot_plus_l. rewrite <- (dot_tr nx nx (v_x V) A dx), <- (dot_tr nu nx l G dx), <- (dot_tr nu nx g L dx), <- (dot_tr nu nx (mv nu (tr H) l) L dx). fold w. rewrite <- (dot_tr nu nu l H w). reflexivity. }
  assert (Exx := value_form dx). cbv zeta in Exx. fold L w in Exx.
  rewrite Ex, Exx, !dot_plus_l, !dot_plus_r, !mv_plus_dot. rewrite (dot_comm nu l g). rewrite (dot_sym nu H w l) by exact H_sym. field.
Qed.
Lemma completed dx du : lambda = 0 -> let z := vminus du (dev_law dx) in
  stage_model nx nu d cost dx du + val nx V (vplus (mv nx A dx) (mv nu B du)) = val nx V' dx + 1 / 2 * vdot nu z (mv nu H z).
Proof.
  intros Hl. cbv zeta. rewrite lookahead by exact Hl. rewrite value_at. unfold dev_law. set (p := vplus (ff u) (mv nx (fb u) dx)). set (z := vminus du p).
  assert (Hp : forall i, (i < nu)%nat -> mv nu H p i = - g i - mv nx G dx i).
  { intros i Hi. unfold p. rewrite mv_plus, newton_l, newton_L by exact Hi. ring. }
  assert (Ez : forall y, vdot nu y z = vdot nu y du - vdot nu y p) by (intros; apply dot_minus_r).
  assert (E1 : vdot nu z (mv nu H z) = vdot nu du (mv nu H du) - 2 * vdot nu du (mv nu H p) + vdot nu p (mv nu H p)).
  { rewrite (dot_ext nu z z (mv nu H z) (vminus (mv nu H du) (mv nu H p))) by (auto; intros; apply mv_minus). rewrite dot_minus_r, !(dot_minus_l nu du p).
    rewrite (dot_sym nu H p du) by exact H_sym. ring. }
  assert (E2 : forall y, vdot nu y (mv nu H p) = - vdot nu y g - vdot nu y (mv nx G dx)).
  { intros y. rewrite (dot_ext nu y y _ (vminus (vscal (-1) g) (mv nx G dx))); [rewrite dot_minus_r, dot_scal_r; ring|auto|]. intros i Hi. rewrite Hp by exact Hi. unfold vminus, vscal. ring. }
  rewrite E1, !E2, (dot_comm nu du g), (dot_comm nu p g). field.
Qed.
(** The quadratic part of the value. *)
Lemma form_next dx : let w := mv nx (fb u) dx in let y := vplus (mv nx A dx) (mv nu B w) in
  vdot nx dx (mv nx (v_xx V') dx) = vdot nx dx (mv nx (d_cxx d) dx) + vdot nu w (mv nu (d_cuu d) w) + 2 * vdot nu w (mv nx (tr (d_cxu d)) dx) + vdot nx y (mv nx (v_xx V) y) + lambda * vdot nu w w.
Proof.
  cbv zeta. set (w := mv nx (fb u) dx). rewrite value_form. fold w. rewrite H_dot, G_dot. rewrite !dot_plus_l, !mv_plus_dot. rewrite (dot_sym nx (v_xx V) (mv nx A dx) (mv nu B w)) by exact HS. ring.
Qed.
Lemma Vxx_sym : sym nx (v_xx V').
Proof. destruct step_values as (_ & _ & _ & _ & E). cbv zeta in E. intros i j Hi Hj. rewrite !E. ring. Qed.
End BP.

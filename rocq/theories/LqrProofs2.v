(** * Finite differences *)
From Coq Require Import Reals List Arith ZArith Bool Lia Lra FunctionalExtensionality.
From Verif Require Import Base BaseProofs IpModel BnbProofs LbfgsProofs LqrModel LqrSpec LqrProofs.
Import ListNotations.
Open Scope R_scope.

Lemma h_pos : 0 < h_devs. Proof. unfold h_devs. apply Rinv_0_lt_compat, pow_lt. lra. Qed.
Lemma bump_bump x i a b : bump (bump x i a) i b = bump x i (a + b).
Proof. apply functional_extensionality. intros j. unfold bump, upd. rewrite Nat.eqb_refl. destruct (Nat.eqb j i); ring. Qed.
Lemma bump_0 x i : bump x i 0 = x.
Proof. apply functional_extensionality. intros j. unfold bump, upd. destruct (Nat.eqb_spec j i); [subst; ring|reflexivity]. Qed.
Lemma bump_undo x i a : bump (bump x i a) i (- a) = x.
Proof. rewrite bump_bump, Rplus_opp_r. apply bump_0. Qed.
Lemma bump_undo' x i a : bump (bump x i (- a)) i a = x.
Proof. rewrite bump_bump, Rplus_opp_l. apply bump_0. Qed.
Definition unit_ (i : nat) : vec := fun j => if Nat.eqb j i then 1 else 0.
Lemma bump_unit x i a : bump x i a = vplus x (vscal a (unit_ i)).
Proof. apply functional_extensionality. intros j. unfold bump, upd, vplus, vscal, unit_. destruct (Nat.eqb_spec j i); [subst; ring|ring]. Qed.
Lemma dot_unit n x i : (i < n)%nat -> vdot n x (unit_ i) = x i.
Proof. intros Hi. unfold vdot, unit_. rewrite (rsum_single n i); [rewrite Nat.eqb_refl; ring|exact Hi|]. intros j Hj Hn. rewrite (proj2 (Nat.eqb_neq j i) Hn). ring. Qed.
Lemma mv_unit n M i k : (i < n)%nat -> mv n M (unit_ i) k = M k i.
Proof. intros Hi. unfold mv, unit_. rewrite (rsum_single n i); [rewrite Nat.eqb_refl; ring|exact Hi|]. intros j Hj Hn. rewrite (proj2 (Nat.eqb_neq j i) Hn). ring. Qed.
Lemma upd_same {A} (f : nat -> A) i v : upd f i v i = v. Proof. unfold upd. now rewrite Nat.eqb_refl. Qed.
Lemma upd_other {A} (f : nat -> A) i j v : j <> i -> upd f i v j = f j. Proof. intros H. unfold upd. now rewrite (proj2 (Nat.eqb_neq j i) H). Qed.

Lemma fd1_ok {A} (quot : A -> A -> A) f zero k x : fst (fd1 quot f zero k x) = x /\
  forall j, (j < k)%nat -> snd (fd1 quot f zero k x) j = quot (f (bump x j h_devs)) (f (bump x j (- h_devs))).
Proof.
  induction k as [|k [IH1 IH2]]; [split; [reflexivity|intros; lia]|]. cbn [fd1]. destruct (fd1 quot f zero k x) as [x0 D]. cbn [fst snd] in *. subst x0.
  rewrite !bump_undo, bump_undo'. split; [reflexivity|]. intros j Hj. destruct (Nat.eq_dec j k) as [->|Hn]; [now rewrite upd_same|]. rewrite upd_other by exact Hn. apply IH2. lia.
Qed.
Definition second (f : vec -> R) (x : vec) (r c : nat) : R :=
  (f (bump (bump x r h_devs) c h_devs) - f (bump (bump x r h_devs) c (- h_devs)) - f (bump (bump x r (- h_devs)) c h_devs) + f (bump (bump x r (- h_devs)) c (- h_devs))) / (4 * (h_devs * h_devs)).
Definition cross (f : vec -> vec -> R) (x y : vec) (r c : nat) : R :=
  (f (bump x r h_devs) (bump y c h_devs) - f (bump x r h_devs) (bump y c (- h_devs)) - f (bump x r (- h_devs)) (bump y c h_devs) + f (bump x r (- h_devs)) (bump y c (- h_devs))) / (4 * (h_devs * h_devs)).
Lemma fd2_row_ok f same k xi yi xj yj : exists D, fd2_row f same k xi yi xj yj = (xi, yi, xj, yj, D) /\ forall c, (c < k)%nat -> D c = mixed f same xi yi xj yj c.
Proof.
  induction k as [|k (D & E & H)]; [exists (fun _ => 0); split; [reflexivity|intros; lia]|]. cbn [fd2_row]. rewrite E.
  exists (upd D k (mixed f same xi yi xj yj k)). unfold restored. rewrite !bump_undo, !bump_undo'. split; [destruct same; reflexivity|].
  intros c Hc. destruct (Nat.eq_dec c k) as [->|Hn]; [now rewrite upd_same|]. rewrite upd_other by exact Hn. apply H. lia.
Qed.
Lemma fd2_ok f same cols rows x y : exists D, fd2 f same cols rows x y x y = (x, y, x, y, D) /\
  forall r c, (r < rows)%nat -> (c < cols)%nat -> D r c = if same then second (fun s => f s y) x r c else cross f x y r c.
Proof.
  induction rows as [|r (D & E & H)]; [exists (fun _ _ => 0); split; [reflexivity|intros; lia]|]. cbn [fd2]. rewrite E.
  destruct (fd2_row_ok f same cols (bump x r h_devs) y (bump x r (- h_devs)) y) as (row & E' & H'). rewrite E'. rewrite bump_undo, bump_undo'.
  exists (upd D r row). split; [reflexivity|]. intros r' c Hr Hc. destruct (Nat.eq_dec r' r) as [->|Hn]; [rewrite upd_same|rewrite upd_other by exact Hn; apply H; lia].
  rewrite H' by exact Hc. unfold mixed. rewrite !bump_undo. destruct same; reflexivity.
Qed.

Section Dev.
Variable S : stgs.
Variable dyn : vec -> ctrl -> nat -> vec.
Variable obj : vec -> ctrl -> nat -> bool -> R.
(** The derivatives in closed form. *)
Lemma derivatives_closed x u t : let d := derivatives_at S dyn obj x u t in let fin := Nat.eqb t (s_tdim S) in
  (forall i j, (j < s_xdim S)%nat -> d_fx d i j = (internal_dynamics S dyn (bump x j h_devs) u t i - internal_dynamics S dyn (bump x j (- h_devs)) u t i) / (2 * h_devs)) /\
  (forall i j, (j < s_udim S)%nat -> d_fu d i j = (internal_dynamics S dyn x (mkCtrl (bump (ff u) j h_devs) (fb u)) t i - internal_dynamics S dyn x (mkCtrl (bump (ff u) j (- h_devs)) (fb u)) t i) / (2 * h_devs)) /\
  (forall j, (j < s_xdim S)%nat -> d_cx d j = (obj (bump x j h_devs) u t fin - obj (bump x j (- h_devs)) u t fin) / (2 * h_devs)) /\
  (forall j, (j < s_udim S)%nat -> d_cu d j = (obj x (mkCtrl (bump (ff u) j h_devs) (fb u)) t fin - obj x (mkCtrl (bump (ff u) j (- h_devs)) (fb u)) t fin) / (2 * h_devs)) /\
  (forall i j, (i < s_xdim S)%nat -> (j < s_xdim S)%nat -> d_cxx d i j = second (fun s => obj s u t fin) x i j) /\
  (forall i j, (i < s_xdim S)%nat -> (j < s_udim S)%nat -> d_cxu d i j = cross (fun s a => obj s (mkCtrl a (fb u)) t fin) x (ff u) i j) /\
  (forall i j, (i < s_udim S)%nat -> (j < s_udim S)%nat -> d_cuu d i j = second (fun a => obj x (mkCtrl a (fb u)) t fin) (ff u) i j).
Proof.
  cbv zeta. unfold derivatives_at. cbv zeta.
  destruct (fd1 vquot (fun s => internal_dynamics S dyn s u t) (fun _ => 0) (s_xdim S) x) as [x1 fxc] eqn:E1. destruct (fd1_ok vquot (fun s => internal_dynamics S dyn s u t) (fun _ => 0) (s_xdim S) x) as [A1 B1]. rewrite E1 in A1, B1. cbn [fst snd] in A1, B1. subst x1.
  destruct (fd1 vquot (fun a => internal_dynamics S dyn x (mkCtrl a (fb u)) t) (fun _ => 0) (s_udim S) (ff u)) as [u1 fuc] eqn:E2. destruct (fd1_ok vquot (fun a => internal_dynamics S dyn x (mkCtrl a (fb u)) t) (fun _ => 0) (s_udim S) (ff u)) as [A2 B2]. rewrite E2 in A2, B2. cbn [fst snd] in A2, B2.
  destruct (fd1 rquot (fun s => obj s u t (Nat.eqb t (s_tdim S))) 0 (s_xdim S) x) as [x2 cx] eqn:E3. destruct (fd1_ok rquot (fun s => obj s u t (Nat.eqb t (s_tdim S))) 0 (s_xdim S) x) as [A3 B3]. rewrite E3 in A3, B3. cbn [fst snd] in A3, B3. subst x2.
  destruct (fd1 rquot (fun a => obj x (mkCtrl a (fb u)) t (Nat.eqb t (s_tdim S))) 0 (s_udim S) (ff u)) as [u2 cu] eqn:E4. destruct (fd1_ok rquot (fun a => obj x (mkCtrl a (fb u)) t (Nat.eqb t (s_tdim S))) 0 (s_udim S) (ff u)) as [A4 B4]. rewrite E4 in A4, B4. cbn [fst snd] in A4, B4.
  set (f := fun s a => obj s (mkCtrl a (fb u)) t (Nat.eqb t (s_tdim S))).
  destruct (fd2_ok f true (s_xdim S) (s_xdim S) x (ff u)) as (D5 & E5 & B5). rewrite E5.
  destruct (fd2_ok f false (s_udim S) (s_xdim S) x (ff u)) as (D6 & E6 & B6). rewrite E6.
  destruct (fd2_ok (fun a s => f s a) true (s_udim S) (s_udim S) (ff u) x) as (D7 & E7 & B7). unfold f in E7; cbv beta in E7; rewrite ?E7.
  cbn [d_fx d_fu d_cx d_cu d_cxx d_cxu d_cuu]. repeat split.
  - intros i j Hj. rewrite B1 by exact Hj. reflexivity.
  - intros i j Hj. rewrite B2 by exact Hj. reflexivity.
  - intros j Hj. rewrite B3 by exact Hj. reflexivity.
  - intros j Hj. rewrite B4 by exact Hj. reflexivity.
  - intros i j Hi Hj. rewrite B5 by assumption. unfold f. destruct u; reflexivity.
  - intros i j Hi Hj. rewrite B6 by assumption. reflexivity.
  - intros i j Hi Hj. rewrite B7 by assumption. reflexivity.
Qed.
Lemma bump_swap x i j a b : bump (bump x i a) j b = bump (bump x j b) i a.
Proof. rewrite !bump_unit. apply functional_extensionality. intros k. unfold vplus. ring. Qed.
Lemma second_sym f x i j : second f x i j = second f x j i.
Proof. unfold second. rewrite (bump_swap x j i h_devs h_devs), (bump_swap x j i h_devs (- h_devs)), (bump_swap x j i (- h_devs) h_devs), (bump_swap x j i (- h_devs) (- h_devs)). f_equal. ring. Qed.

Lemma sum_rsum n f : sum n f = rsum n f. Proof. symmetry. apply rsum_list. Qed.
Lemma inner_dot n x y : inner n x y = vdot n x y. Proof. apply sum_rsum. Qed.
Lemma bilin_dot n m x M y : bilin n m x M y = vdot n x (mv m M y).
Proof. unfold bilin, vdot, mv. rewrite sum_rsum. apply rsum_ext. intros i Hi. rewrite sum_rsum, <- rsum_scal. apply rsum_ext. intros. ring. Qed.

(** A quadratic function around a point. *)
Lemma quad_expand n m f c0 b d Q R_ N x u dx du : quadratic n m f c0 b d Q R_ N ->
  f (vplus x dx) (vplus u du) = f x u + (vdot n b dx + vdot n dx (mv n Q x) + vdot n dx (mv m (tr N) u)) + (vdot m d du + vdot m du (mv m R_ u) + vdot m du (mv n N x))
    + 1 / 2 * vdot n dx (mv n Q dx) + 1 / 2 * vdot m du (mv m R_ du) + vdot m du (mv n N dx).
Proof.
  intros [HQ HR HV]. rewrite !HV, !inner_dot, !bilin_dot.
  assert (E : forall k j M p q, vdot k p (mv j M (vplus q dx)) = vdot k p (mv j M q) + vdot k p (mv j M dx)).
  { intros. rewrite <- dot_plus_r. apply dot_ext; auto. intros i Hi. apply mv_plus. }
  assert (E' : forall k j M p q, vdot k p (mv j M (vplus q du)) = vdot k p (mv j M q) + vdot k p (mv j M du)).
  { intros. rewrite <- dot_plus_r. apply dot_ext; auto. intros i Hi. apply mv_plus. }
  rewrite !E, !E', !dot_plus_l, !dot_plus_r. rewrite (dot_sym n Q x dx) by (intros i j; apply HQ). rewrite (dot_sym m R_ u du) by (intros i j; apply HR).
  rewrite (dot_tr m n u N dx), (dot_comm n (mv m (tr N) u) dx). field.
Qed.
Lemma dot_zero_l n y : vdot n (fun _ => 0) y = 0. Proof. apply rsum_zero. intros. ring. Qed.
Lemma plus_zero x : vplus x (fun _ => 0) = x. Proof. apply functional_extensionality. intros. unfold vplus. ring. Qed.
Lemma mv_zero n M i : mv n M (fun _ => 0) i = 0. Proof. apply rsum_zero. intros. ring. Qed.
Lemma dot_unit_l n x i : (i < n)%nat -> vdot n (unit_ i) x = x i. Proof. intros. rewrite dot_comm. now apply dot_unit. Qed.
Lemma quad_dx n m f c0 b d Q R_ N x u dx : quadratic n m f c0 b d Q R_ N ->
  f (vplus x dx) u = f x u + (vdot n b dx + vdot n dx (mv n Q x) + vdot n dx (mv m (tr N) u)) + 1 / 2 * vdot n dx (mv n Q dx).
Proof. intros H. rewrite <- (plus_zero u) at 1. rewrite (quad_expand _ _ _ _ _ _ _ _ _ _ _ _ _ H). rewrite !dot_zero_l. rewrite (dot_comm m d), dot_zero_l. ring. Qed.
Lemma quad_du n m f c0 b d Q R_ N x u du : quadratic n m f c0 b d Q R_ N ->
  f x (vplus u du) = f x u + (vdot m d du + vdot m du (mv m R_ u) + vdot m du (mv n N x)) + 1 / 2 * vdot m du (mv m R_ du).
Proof.
  intros H. rewrite <- (plus_zero x) at 1. rewrite (quad_expand _ _ _ _ _ _ _ _ _ _ _ _ _ H). rewrite !dot_zero_l. rewrite (dot_comm n b), dot_zero_l.
  rewrite (dot_ext m du du (mv n N (fun _ => 0)) (fun _ => 0)); [|auto|intros; apply mv_zero]. rewrite (dot_comm m du (fun _ => 0)), dot_zero_l. ring.
Qed.

Section Quad.
Variables (n m : nat) (f : vec -> vec -> R) (c0 : R) (b d : vec) (Q R_ N : mat).
Hypothesis HF : quadratic n m f c0 b d Q R_ N.
Let hp := h_pos.
Lemma mv_scal_dot k j M y c z : vdot k y (mv j M (vscal c z)) = c * vdot k y (mv j M z).
Proof. rewrite <- dot_scal_r. apply dot_ext; auto. intros. apply mv_scal. Qed.
Lemma quad_cx x u i : (i < n)%nat -> (f (bump x i h_devs) u - f (bump x i (- h_devs)) u) / (2 * h_devs) = b i + mv n Q x i + mv m (tr N) u i.
Proof.
  intros Hi. rewrite !bump_unit, !(quad_dx _ _ _ _ _ _ _ _ _ _ _ _ HF). rewrite !dot_scal_r, !dot_scal_l, !mv_scal_dot, !dot_unit, !dot_unit_l by exact Hi. field. lra.
Qed.
Lemma quad_cu x u i : (i < m)%nat -> (f x (bump u i h_devs) - f x (bump u i (- h_devs))) / (2 * h_devs) = d i + mv m R_ u i + mv n N x i.
Proof.
  intros Hi. rewrite !bump_unit, !(quad_du _ _ _ _ _ _ _ _ _ _ _ _ HF). rewrite !dot_scal_r, !dot_scal_l, !mv_scal_dot, !dot_unit, !dot_unit_l by exact Hi. field. lra.
Qed.
Lemma plus_assoc x y z : vplus (vplus x y) z = vplus x (vplus y z).
Proof. apply functional_extensionality. intros. unfold vplus. ring. Qed.
Lemma mv_plus_dot k j M y p q : vdot k y (mv j M (vplus p q)) = vdot k y (mv j M p) + vdot k y (mv j M q).
Proof. rewrite <- dot_plus_r. apply dot_ext; auto. intros. apply mv_plus. Qed.
Lemma quad_cxx x u i j : (i < n)%nat -> (j < n)%nat -> second (fun s => f s u) x i j = Q i j.
Proof.
  intros Hi Hj. unfold second. rewrite !bump_unit, !plus_assoc, !(quad_dx _ _ _ _ _ _ _ _ _ _ _ _ HF).
  rewrite ?dot_plus_r, ?dot_plus_l, ?mv_plus_dot. rewrite ?dot_scal_r, ?dot_scal_l, ?mv_scal_dot, ?dot_scal_l, ?dot_unit, ?dot_unit_l, ?mv_unit by assumption.
  rewrite (quad_Q _ _ _ _ _ _ _ _ _ HF j i) by assumption. field. lra.
Qed.
Lemma quad_cuu x u i j : (i < m)%nat -> (j < m)%nat -> second (fun a => f x a) u i j = R_ i j.
Proof.
  intros Hi Hj. unfold second. rewrite !bump_unit, !plus_assoc, !(quad_du _ _ _ _ _ _ _ _ _ _ _ _ HF).
  rewrite ?dot_plus_r, ?dot_plus_l, ?mv_plus_dot. rewrite ?dot_scal_r, ?dot_scal_l, ?mv_scal_dot, ?dot_scal_l, ?dot_unit, ?dot_unit_l, ?mv_unit by assumption.
  rewrite (quad_R _ _ _ _ _ _ _ _ _ HF j i) by assumption. field. lra.
Qed.
Lemma quad_cxu x u i j : (i < n)%nat -> (j < m)%nat -> cross f x u i j = N j i.
Proof.
  intros Hi Hj. unfold cross. rewrite !bump_unit, !(quad_expand _ _ _ _ _ _ _ _ _ _ _ _ _ HF).
  rewrite ?dot_scal_r, ?dot_scal_l, ?mv_scal_dot, ?dot_scal_l, ?dot_unit, ?dot_unit_l, ?mv_unit by assumption. field. lra.
Qed.
End Quad.
End Dev.

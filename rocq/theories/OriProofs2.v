(** * Proofs: angular velocities *)
From Coq Require Import Reals Arith Lia Lra Psatz Bool.
From Verif Require Import Base BaseProofs Vec3 OriModel OriSpec OriProofs.
Local Open Scope R_scope.

(** ** Matrices a I + b r r' + g skew(r) *)
Definition abg (a b g : R) (r : vec3) : mat := fun i j => (if (i =? j)%nat then a else 0) + b * (vget3 r i * vget3 r j) + g * skewMatrix r i j.
Lemma mulv_ext : forall m m' v, (forall i j, (i < 3)%nat -> (j < 3)%nat -> m i j = m' i j) -> mulv m v = mulv m' v.
Proof. intros m m' v H. unfold mulv. rewrite !H by lia. reflexivity. Qed.
Lemma det3_ext : forall m m', (forall i j, (i < 3)%nat -> (j < 3)%nat -> m i j = m' i j) -> det3 m = det3 m'.
Proof. intros m m' H. unfold det3. rewrite !H by lia. reflexivity. Qed.
Lemma abg_mulv : forall a b g r y, mulv (abg a b g r) y = vadd (vadd (vscale a y) (vscale (b * vdot r y) r)) (vscale g (vcross r y)).
Proof. intros. unfold mulv, abg. cbn [skewMatrix Nat.eqb vget3]. vext; ring. Qed.
Lemma abg_tr_mulv : forall a b g r y, mulv (mtr (abg a b g r)) y = vadd (vadd (vscale a y) (vscale (b * vdot r y) r)) (vscale (- g) (vcross r y)).
Proof. intros. unfold mulv, mtr, abg. cbn [skewMatrix Nat.eqb vget3]. vext; ring. Qed.
Lemma abg_det : forall a b g r, det3 (abg a b g r) = (a + b * vdot r r) * (a * a + g * g * vdot r r).
Proof. intros. unfold det3, abg. cbn [skewMatrix Nat.eqb vget3]. vu. ring. Qed.
Lemma inv_mulv : forall m x n, inv3 m = Some n -> mulv n (mulv m x) = x /\ mulv (mtr n) (mulv (mtr m) x) = x.
Proof.
  intros m x n H. unfold inv3 in H. destruct (Req_EM_T (det3 m) 0) as [|D]; [discriminate|]. injection H as <-. unfold det3 in D.
  split; unfold mulv, mtr, cof, det3; cbn [cyc Nat.add Nat.modulo Nat.divmod fst snd Nat.sub]; unfold cyc; cbn [Nat.add Nat.modulo Nat.divmod fst snd Nat.sub]; vext; field; exact D.
Qed.

(** ** The Jacobian of the code *)
Definition ja (s c th : R) := s * c / th.
Definition jb (s c th : R) := s * s / (2 * th * th) + c * (c * th - 2 * s) / (2 * th * th * th).
Definition jg (s th : R) := s * s / (th * th).
Lemma jac_large : forall r, 1 / 100 <= vlen r -> vlen r <= PI -> forall i j, (i < 3)%nat -> (j < 3)%nat ->
  jacobianAngular r i j = abg (ja (sin (vlen r / 2)) (cos (vlen r / 2)) (vlen r)) (jb (sin (vlen r / 2)) (cos (vlen r / 2)) (vlen r)) (jg (sin (vlen r / 2)) (vlen r)) r i j.
Proof.
  intros r H1 H2 i j Hi Hj. unfold jacobianAngular. rewrite exp_short by assumption. unfold jacobianQuaternion. destruct (Rlt_dec (vlen r) (1 / 100)); [lra|].
  unfold raw. replace (/ 2 * vlen r) with (vlen r / 2) by lra. set (s := sin (vlen r / 2)). set (c := cos (vlen r / 2)). set (th := vlen r) in *.
  unfold abg, ja, jb, jg.
  destruct i as [|[|[|i]]]; [| | |lia]; (destruct j as [|[|[|j]]]; [| | |lia]); cbn [rsum toQuaternionMatrix skewMatrix qvec qmk vget3 Nat.eqb vscale vx vy vz qw qx qy qz]; field; lra.
Qed.
Lemma jac_small : forall r, vlen r < 1 / 100 -> exists n, 0 < n /\ forall i j, (i < 3)%nat -> (j < 3)%nat -> jacobianAngular r i j = abg (n / 2) (n / 8) (n / 4) r i j.
Proof.
  intros r H. assert (N : norm2 (small r) <> 0) by (rewrite small_norm; pose proof (vlen_nonneg r); nra). destruct (normalize_unit _ N) as (_ & k & Hk & E).
  exists k. split; [exact Hk|]. intros i j Hi Hj. unfold jacobianAngular. destruct (exp_cases r) as [(_ & ->)|(C & _)]; [|lra]. rewrite E. unfold jacobianQuaternion. destruct (Rlt_dec (vlen r) (1 / 100)); [|lra].
  unfold abg, small. destruct i as [|[|[|i]]]; [| | |lia]; (destruct j as [|[|[|j]]]; [| | |lia]); cbn [rsum toQuaternionMatrix skewMatrix qvec qscale vget3 Nat.eqb vx vy vz qw qx qy qz]; field.
Qed.
Lemma sc1 : forall x, cos x * cos x = 1 - sin x * sin x.
Proof. intros. pose proof (sin2_cos2 x) as X. unfold Rsqr in X. lra. Qed.
Lemma jac_regular : forall r, vlen r <= PI -> det3 (jacobianAngular r) <> 0.
Proof.
  intros r H. pose proof (vlen_nonneg r). destruct (Rle_dec (1 / 100) (vlen r)) as [L|L].
  - rewrite (det3_ext _ _ (jac_large r L H)). rewrite abg_det. rewrite <- vlen_sq. set (th := vlen r) in *. assert (S : 0 < sin (th / 2)) by (apply sin_gt_0; pose proof PI_RGT_0; lra). pose proof (sc1 (th / 2)) as C.
    set (s := sin (th / 2)) in *. set (c := cos (th / 2)) in *.
    assert (E1 : ja s c th + jb s c th * (th * th) = / 2). { unfold ja, jb. transitivity ((s * s + c * c) / 2); [field; lra|]. rewrite C. field. }
    assert (E2 : ja s c th * ja s c th + jg s th * jg s th * (th * th) = s * s / (th * th)). { unfold ja, jg. transitivity (s * s * (c * c + s * s) / (th * th)); [field; lra|]. rewrite C. field. lra. }
    rewrite E1, E2. assert (0 < s * s / (th * th)) by (apply Rdiv_lt_0_compat; apply Rmult_lt_0_compat; lra). lra.
  - assert (L' : vlen r < 1 / 100) by lra. destruct (jac_small r L') as (n & Hn & E). rewrite (det3_ext _ _ E), abg_det, <- vlen_sq.
    assert (0 < n / 2 + n / 8 * (vlen r * vlen r)) by nra. assert (0 < n / 2 * (n / 2) + n / 4 * (n / 4) * (vlen r * vlen r)) by nra.
    apply Rgt_not_eq. now apply Rmult_lt_0_compat.
Qed.
Lemma from_to : forall r x body, vlen r <= PI -> fromAngularVelocity r (toAngularVelocity r x body) body = Some x.
Proof.
  intros r x body H. unfold fromAngularVelocity, toAngularVelocity. pose proof (jac_regular r H) as D.
  destruct (inv3 (jacobianAngular r)) as [n|] eqn:E; [|unfold inv3 in E; destruct (Req_EM_T (det3 (jacobianAngular r)) 0); [contradiction|discriminate]].
  destruct (inv_mulv _ x n E) as (A & B). f_equal.
  assert (LIN : forall m v, mulv m (vscale 2 v) = vscale 2 (mulv m v)). { intros. unfold mulv. vext; ring. }
  destruct body; rewrite LIN, ?A, ?B; vext; field.
Qed.

(** ** The velocity of the rotation *)
Lemma deriv_ext : forall f g x l m, (forall t, f t = g t) -> l = m -> derivable_pt_lim f x l -> derivable_pt_lim g x m.
Proof. intros f g x l m E -> H eps He. destruct (H eps He) as (d & Hd). exists d. intros h H1 H2. rewrite <- !E. now apply Hd. Qed.
Lemma lin_deriv : forall a b, derivable_pt_lim (fun t => a + t * b) 0 b.
Proof.
  intros a b. eapply deriv_ext; [| |exact (derivable_pt_lim_plus _ _ 0 _ _ (derivable_pt_lim_const a 0) (derivable_pt_lim_mult _ _ 0 _ _ (derivable_pt_lim_id 0) (derivable_pt_lim_const b 0)))].
  - intros t. reflexivity.
  - unfold fct_cte, id. ring.
Qed.
Definition move (r y : vec3) (t : R) : vec3 := vadd r (vscale t y).
Lemma len_deriv : forall r y, 0 < vlen r -> derivable_pt_lim (fun t => vlen (move r y t)) 0 (vdot r y / vlen r).
Proof.
  intros r y H.
  assert (Q : derivable_pt_lim (fun t => (vdot r r + t * (2 * vdot r y)) + vdot y y * (t * t)) 0 (2 * vdot r y + vdot y y * (1 * 0 + 0 * 1))).
  { apply derivable_pt_lim_plus; [apply lin_deriv|]. apply derivable_pt_lim_scal. apply (derivable_pt_lim_mult (fun t => t) (fun t => t)); apply derivable_pt_lim_id. }
  assert (E0 : vdot r r + 0 * (2 * vdot r y) + vdot y y * (0 * 0) = vdot r r) by ring.
  assert (P : 0 < vdot r r). { rewrite <- vlen_sq. now apply Rmult_lt_0_compat. }
  pose proof (derivable_pt_lim_comp (fun t => (vdot r r + t * (2 * vdot r y)) + vdot y y * (t * t)) sqrt 0 _ (/ (2 * sqrt (vdot r r))) Q) as C.
  assert (S : derivable_pt_lim sqrt (vdot r r + 0 * (2 * vdot r y) + vdot y y * (0 * 0)) (/ (2 * sqrt (vdot r r)))). { rewrite E0. now apply derivable_pt_lim_sqrt. }
  specialize (C S). replace (vdot r y / vlen r) with (/ (2 * sqrt (vdot r r)) * (2 * vdot r y + vdot y y * (1 * 0 + 0 * 1))).
  - eapply deriv_ext; [|reflexivity|exact C]. intros t. unfold Ranalysis1.comp, vlen, move. f_equal. vu. ring.
  - unfold vlen in *. field. lra.
Qed.
Section Velocity.
  Context (r y : vec3) (H : 0 < vlen r).
  Let th := vlen r.
  Let s := sin (th / 2).
  Let c := cos (th / 2).
  Let B := vdot r y.
  Let f1 := s / (2 * th).
  Let f2 := (c * th - 2 * s) / (2 * th * th * th).
  Lemma move0 : vlen (move r y 0) = th.
  Proof. unfold th. f_equal. unfold move. vext; ring. Qed.
  Lemma half_deriv : derivable_pt_lim (fun t => vlen (move r y t) / 2) 0 (B / th / 2).
  Proof. eapply deriv_ext; [| |apply (derivable_pt_lim_scal _ (/ 2) _ _ (len_deriv r y H))]. intros t. unfold mult_real_fct. field. unfold B, th. field. lra. Qed.
  Lemma cos_deriv : derivable_pt_lim (fun t => cos (vlen (move r y t) / 2)) 0 (- f1 * B).
  Proof.
    pose proof (derivable_pt_lim_comp _ cos 0 _ (- sin (vlen (move r y 0) / 2)) half_deriv (derivable_pt_lim_cos _)) as D. rewrite move0 in D. fold s in D.
    replace (- f1 * B) with (- s * (B / th / 2)) by (unfold f1; field; unfold th; lra). exact D.
  Qed.
  Lemma sinc_deriv : derivable_pt_lim (fun t => sin (vlen (move r y t) / 2) / vlen (move r y t)) 0 (f2 * B).
  Proof.
    pose proof (derivable_pt_lim_comp _ sin 0 _ (cos (vlen (move r y 0) / 2)) half_deriv (derivable_pt_lim_sin _)) as D. rewrite move0 in D. fold c in D.
    pose proof (derivable_pt_lim_div (fun t => sin (vlen (move r y t) / 2)) (fun t => vlen (move r y t)) 0 _ _ D (len_deriv r y H)) as Q. cbv beta in Q. rewrite move0 in Q. specialize (Q ltac:(unfold th; lra)). fold s in Q.
    replace (f2 * B) with ((c * (B / th / 2) * th - B / th * s) / Rsqr th); [exact Q|]. unfold f2, Rsqr. field. unfold th. lra.
  Qed.
  Lemma comp_deriv : forall a b, derivable_pt_lim (fun t => sin (vlen (move r y t) / 2) / vlen (move r y t) * (a + t * b)) 0 (f2 * B * a + s / th * b).
  Proof.
    intros a b. pose proof (derivable_pt_lim_mult _ (fun t => a + t * b) 0 _ _ sinc_deriv (lin_deriv a b)) as D. cbv beta in D. rewrite move0 in D. fold s in D.
    replace (f2 * B * a + s / th * b) with (f2 * B * (a + 0 * b) + s / th * b) by ring. exact D.
  Qed.
  Lemma coeffs : c * ja s c th + s / th * (jg s th * (th * th)) = s / th /\ c * jg s th - s / th * ja s c th = 0 /\ c * jb s c th - s / th * jg s th = f2 /\ (ja s c th + jb s c th * (th * th)) = / 2.
  Proof.
    assert (T : th <> 0) by (unfold th; lra). pose proof (sc1 (th / 2)) as C. fold s c in C. unfold ja, jb, jg, f2. split; [|split; [|split]].
    - transitivity (s * (c * c + s * s) / th); [field; exact T|]. rewrite C. field. exact T.
    - field. exact T.
    - transitivity ((c * th * (s * s + c * c) - 2 * s * (c * c + s * s)) / (2 * th * th * th)); [field; exact T|]. rewrite C. field. exact T.
    - transitivity ((s * s + c * c) / 2); [field; exact T|]. rewrite C. field.
  Qed.
  Definition wdot (sgn : R) : vec3 := vadd (vadd (vscale (ja s c th) y) (vscale (jb s c th * B) r)) (vscale (sgn * jg s th) (vcross r y)).
  Lemma dq_world : hamilton (Q4 0 (vx (wdot 1)) (vy (wdot 1)) (vz (wdot 1))) (rotation_of (move r y 0)) =
    Q4 (- f1 * B) (f2 * B * vx r + s / th * vx y) (f2 * B * vy r + s / th * vy y) (f2 * B * vz r + s / th * vz y).
  Proof.
    destruct coeffs as (e1 & e2 & e3 & e4). unfold rotation_of. change (length3 (move r y 0)) with (vlen (move r y 0)). rewrite move0. fold s c.
    replace (move r y 0) with r by (unfold move; vext; ring). unfold wdot.
    assert (RR : vx r * vx r + vy r * vy r + vz r * vz r = th * th) by (unfold th; rewrite vlen_sq; vu; ring).
    assert (T : th <> 0) by (unfold th; lra).
    set (a := ja s c th) in *. set (b := jb s c th) in *. set (g := jg s th) in *.
    apply quat_ext; unfold hamilton, vdot, vcross, vadd, vscale; cbn [vx vy vz qw qx qy qz].
    - transitivity (- (s / th) * (B * (a + b * (vx r * vx r + vy r * vy r + vz r * vz r)))); [unfold B, vdot; ring|]. rewrite RR, e4. unfold f1. field. exact T.
    - transitivity ((c * a + s / th * (g * (vx r * vx r + vy r * vy r + vz r * vz r))) * vx y + (c * g - s / th * a) * (vy r * vz y - vz r * vy y) + (c * b - s / th * g) * B * vx r); [unfold B, vdot; ring|]. rewrite RR, e1, e2, e3. ring.
    - transitivity ((c * a + s / th * (g * (vx r * vx r + vy r * vy r + vz r * vz r))) * vy y + (c * g - s / th * a) * (vz r * vx y - vx r * vz y) + (c * b - s / th * g) * B * vy r); [unfold B, vdot; ring|]. rewrite RR, e1, e2, e3. ring.
    - transitivity ((c * a + s / th * (g * (vx r * vx r + vy r * vy r + vz r * vz r))) * vz y + (c * g - s / th * a) * (vx r * vy y - vy r * vx y) + (c * b - s / th * g) * B * vz r); [unfold B, vdot; ring|]. rewrite RR, e1, e2, e3. ring.
  Qed.
  Lemma dq_body : hamilton (rotation_of (move r y 0)) (Q4 0 (vx (wdot (-1))) (vy (wdot (-1))) (vz (wdot (-1)))) =
    Q4 (- f1 * B) (f2 * B * vx r + s / th * vx y) (f2 * B * vy r + s / th * vy y) (f2 * B * vz r + s / th * vz y).
  Proof.
    destruct coeffs as (e1 & e2 & e3 & e4). unfold rotation_of. change (length3 (move r y 0)) with (vlen (move r y 0)). rewrite move0. fold s c.
    replace (move r y 0) with r by (unfold move; vext; ring). unfold wdot.
    assert (RR : vx r * vx r + vy r * vy r + vz r * vz r = th * th) by (unfold th; rewrite vlen_sq; vu; ring).
    assert (T : th <> 0) by (unfold th; lra).
    set (a := ja s c th) in *. set (b := jb s c th) in *. set (g := jg s th) in *.
    apply quat_ext; unfold hamilton, vdot, vcross, vadd, vscale; cbn [vx vy vz qw qx qy qz].
    - transitivity (- (s / th) * (B * (a + b * (vx r * vx r + vy r * vy r + vz r * vz r)))); [unfold B, vdot; ring|]. rewrite RR, e4. unfold f1. field. exact T.
    - transitivity ((c * a + s / th * (g * (vx r * vx r + vy r * vy r + vz r * vz r))) * vx y - (c * g - s / th * a) * (vy r * vz y - vz r * vy y) + (c * b - s / th * g) * B * vx r); [unfold B, vdot; ring|]. rewrite RR, e1, e2, e3. ring.
    - transitivity ((c * a + s / th * (g * (vx r * vx r + vy r * vy r + vz r * vz r))) * vy y - (c * g - s / th * a) * (vz r * vx y - vx r * vz y) + (c * b - s / th * g) * B * vy r); [unfold B, vdot; ring|]. rewrite RR, e1, e2, e3. ring.
    - transitivity ((c * a + s / th * (g * (vx r * vx r + vy r * vy r + vz r * vz r))) * vz y - (c * g - s / th * a) * (vx r * vy y - vy r * vx y) + (c * b - s / th * g) * B * vz r); [unfold B, vdot; ring|]. rewrite RR, e1, e2, e3. ring.
  Qed.
  Lemma components : let dq := Q4 (- f1 * B) (f2 * B * vx r + s / th * vx y) (f2 * B * vy r + s / th * vy y) (f2 * B * vz r + s / th * vz y) in let q := fun t => rotation_of (move r y t) in
    derivable_pt_lim (fun t => qw (q t)) 0 (qw dq) /\ derivable_pt_lim (fun t => qx (q t)) 0 (qx dq) /\ derivable_pt_lim (fun t => qy (q t)) 0 (qy dq) /\ derivable_pt_lim (fun t => qz (q t)) 0 (qz dq).
  Proof.
    cbv zeta. cbn [qw qx qy qz rotation_of]. split; [apply cos_deriv|]. split; [|split].
    - eapply deriv_ext; [|reflexivity|apply (comp_deriv (vx r) (vx y))]. intros t. reflexivity.
    - eapply deriv_ext; [|reflexivity|apply (comp_deriv (vy r) (vy y))]. intros t. reflexivity.
    - eapply deriv_ext; [|reflexivity|apply (comp_deriv (vz r) (vz y))]. intros t. reflexivity.
  Qed.
End Velocity.

Lemma to_world : forall r y, 1 / 100 <= vlen r -> vlen r <= PI -> velocity_at (fun t => rotation_of (move r y t)) (toAngularVelocity r y false).
Proof.
  intros r y H1 H2. assert (P : 0 < vlen r) by lra. unfold velocity_at. cbv zeta.
  replace (Q4 0 (vx (toAngularVelocity r y false) / 2) (vy (toAngularVelocity r y false) / 2) (vz (toAngularVelocity r y false) / 2)) with (Q4 0 (vx (wdot r y 1)) (vy (wdot r y 1)) (vz (wdot r y 1))).
  - rewrite (dq_world r y P). apply (components r y P).
  - unfold toAngularVelocity. rewrite (mulv_ext _ _ y (jac_large r H1 H2)), abg_mulv. unfold wdot. apply quat_ext; vu; field; lra.
Qed.
Lemma to_body : forall r y, 1 / 100 <= vlen r -> vlen r <= PI -> body_velocity_at (fun t => rotation_of (move r y t)) (toAngularVelocity r y true).
Proof.
  intros r y H1 H2. assert (P : 0 < vlen r) by lra. unfold body_velocity_at. cbv zeta.
  replace (Q4 0 (vx (toAngularVelocity r y true) / 2) (vy (toAngularVelocity r y true) / 2) (vz (toAngularVelocity r y true) / 2)) with (Q4 0 (vx (wdot r y (-1))) (vy (wdot r y (-1))) (vz (wdot r y (-1)))).
  - rewrite (dq_body r y P). apply (components r y P).
  - unfold toAngularVelocity. rewrite (mulv_ext _ (mtr (abg (ja (sin (vlen r / 2)) (cos (vlen r / 2)) (vlen r)) (jb (sin (vlen r / 2)) (cos (vlen r / 2)) (vlen r)) (jg (sin (vlen r / 2)) (vlen r)) r))).
    + rewrite abg_tr_mulv. unfold wdot. apply quat_ext; vu; field; lra.
    + intros i j Hi Hj. unfold mtr. now apply jac_large.
Qed.

(** ** Differences of orientations *)
Lemma inverse_unit : forall c, unitq c -> qinverse c = Q4 (qw c) (- qx c) (- qy c) (- qz c).
Proof. intros c U. unfold qinverse. change (qdot c c) with (norm2 c). rewrite U. destruct (Rlt_dec 0 1); [|lra]. rewrite Rinv_1. qext; ring. Qed.
Definition delta (d c : quat) : quat := qmul d (Q4 (qw c) (- qx c) (- qy c) (- qz c)).
Lemma delta_unit : forall d c, unitq d -> unitq c -> unitq (delta d c).
Proof. intros d c Ud Uc. unfold unitq, delta. rewrite norm2_mul, Ud. replace (norm2 _) with (norm2 c) by (vu; ring). rewrite Uc. ring. Qed.
Lemma delta_mul : forall d c, unitq c -> qmul (delta d c) c = d.
Proof.
  intros d c U. unfold delta. unfold unitq, norm2 in U.
  assert (E : forall a, a = a * (qw c * qw c + qx c * qx c + qy c * qy c + qz c * qz c)) by (intros; rewrite U; ring).
  apply quat_ext; [rewrite (E (qw d))|rewrite (E (qx d))|rewrite (E (qy d))|rewrite (E (qz d))]; unfold qmul; cbn [qw qx qy qz]; ring.
Qed.
Lemma delta_w : forall d c, qw (delta d c) = qdot c d.
Proof. intros. unfold delta. vu. ring. Qed.
Lemma delta_neg : forall d c, delta d (qneg c) = qneg (delta d c).
Proof. intros. unfold delta. qext; ring. Qed.
Lemma neg_unit : forall q, unitq q -> unitq (qneg q).
Proof. intros q U. unfold unitq. rewrite <- U. vu. ring. Qed.
Lemma aligned_unit : forall d c, unitq d -> unitq c -> aligned d c = (d, if Rlt_dec (qdot c d) 0 then qneg c else c).
Proof. intros d c Ud Uc. unfold aligned. rewrite !normalize_id by assumption. destruct (Rlt_dec (qdot c d) 0); [|reflexivity]. f_equal. qext; ring. Qed.
Lemma error_is : forall d c, unitq d -> unitq c -> orientationError d c = logarithmicMap (if Rlt_dec (qdot c d) 0 then qneg (delta d c) else delta d c).
Proof.
  intros d c Ud Uc. unfold orientationError. rewrite aligned_unit by assumption. destruct (Rlt_dec (qdot c d) 0).
  - rewrite inverse_unit by now apply neg_unit. f_equal. rewrite <- delta_neg. reflexivity.
  - rewrite inverse_unit by assumption. reflexivity.
Qed.
Lemma qmul_neg : forall a b, qmul (qneg a) b = qneg (qmul a b).
Proof. intros. qext; ring. Qed.
Lemma error_rotates : forall d c, unitq d -> unitq c -> Rabs (qdot c d) <= 99 / 100 -> same_rotation (qmul (exponentialMap (orientationError d c)) c) d.
Proof.
  intros d c Ud Uc H. rewrite error_is by assumption. pose proof (delta_unit d c Ud Uc) as U. pose proof (delta_w d c) as W. destruct (Rlt_dec (qdot c d) 0) as [L|L].
  - rewrite exp_log; [|now apply neg_unit|vu; rewrite Rabs_Ropp; rewrite W; exact H]. rewrite qpositive_id by (vu; lra). rewrite qmul_neg, delta_mul by assumption. now right.
  - rewrite exp_log; [|assumption|rewrite W; exact H]. rewrite qpositive_id by lra. rewrite delta_mul by assumption. now left.
Qed.
Lemma log_zero : forall q, unitq q -> 0 <= qw q -> logarithmicMap q = v0 -> q = Q4 1 0 0 0.
Proof.
  intros q U W E. assert (V : qvec q = v0).
  { rewrite log_unit in E by assumption. pose proof (unit_w q U) as B. destruct (Rlt_dec _ _) as [C|C].
    - apply vec_ext; [apply (f_equal vx) in E|apply (f_equal vy) in E|apply (f_equal vz) in E]; vu; lra.
    - set (a := acos (qw q)) in *. assert (Ca : cos a = qw q) by (apply cos_acos; lra). assert (Ba : 0 <= a <= PI) by apply acos_bound.
      assert (W1 : qw q <= 99 / 100). { destruct (Rle_dec (qw q) (99 / 100)); [assumption|]. exfalso. apply C. rewrite Rabs_pos_eq; lra. }
      assert (La : 0 < a). { destruct Ba as ([|E0] & _); [assumption|]. rewrite <- E0, cos_0 in Ca. lra. }
      assert (Ha : a <= PI / 2). { destruct (Rle_dec a (PI / 2)); [assumption|]. exfalso. pose proof (cos_lt_0 a ltac:(lra) ltac:(pose proof PI_RGT_0; lra)). lra. }
      assert (Sa : 0 < sin a) by (apply sin_gt_0; pose proof PI_RGT_0; lra). assert (K : 0 < 2 * a / sin a) by (apply Rdiv_lt_0_compat; lra).
      apply vec_ext; [apply (f_equal vx) in E|apply (f_equal vy) in E|apply (f_equal vz) in E]; cbn [vscale vx vy vz v0] in E; apply Rmult_integral in E; destruct E as [E|E]; try lra; exact E. }
  pose proof (f_equal vx V) as Vx. pose proof (f_equal vy V) as Vy. pose proof (f_equal vz V) as Vz. unfold unitq, norm2 in U. cbn [qvec v0 vx vy vz] in Vx, Vy, Vz. rewrite Vx, Vy, Vz in U. apply quat_ext; cbn [qw qx qy qz]; auto. nra.
Qed.
Lemma log_one : logarithmicMap (Q4 1 0 0 0) = v0.
Proof. rewrite log_unit; [|vu; ring|cbn; lra]. cbn [qw]. replace (1 - 1) with 0 by ring. rewrite Rabs_R0. destruct (Rlt_dec 0 (1 / 100)); [|lra]. vext; ring. Qed.
Lemma error_zero : forall d c, unitq d -> unitq c -> (orientationError d c = v0 <-> same_rotation d c).
Proof.
  intros d c Ud Uc. rewrite error_is by assumption. pose proof (delta_unit d c Ud Uc) as U. pose proof (delta_w d c) as W. pose proof (delta_mul d c Uc) as M. split.
  - intros E. destruct (Rlt_dec (qdot c d) 0) as [L|L].
    + apply log_zero in E; [|now apply neg_unit|vu; lra]. assert (delta d c = Q4 (-1) 0 0 0). { apply quat_ext; [apply (f_equal qw) in E|apply (f_equal qx) in E|apply (f_equal qy) in E|apply (f_equal qz) in E]; vu; lra. }
      rewrite H in M. right. rewrite <- M. qext; ring.
    + apply log_zero in E; [|assumption|lra]. rewrite E in M. left. rewrite <- M. qext; ring.
  - assert (DC : delta c c = Q4 1 0 0 0). { unfold delta. unfold unitq, norm2 in Uc. apply quat_ext; unfold qmul; cbn [qw qx qy qz]; lra. }
    intros [->| ->].
    + replace (qdot c c) with 1 by (unfold unitq, norm2 in Uc; unfold qdot; lra). destruct (Rlt_dec 1 0); [lra|]. rewrite DC. apply log_one.
    + replace (qdot c (qneg c)) with (-1) by (unfold unitq, norm2 in Uc; vu; lra). destruct (Rlt_dec (-1) 0); [|lra].
      replace (qneg (delta (qneg c) c)) with (delta c c) by (unfold delta; qext; ring). rewrite DC. apply log_one.
Qed.
Lemma log_neg : forall q, unitq q -> qw q <> 0 -> logarithmicMap (qneg q) = logarithmicMap q.
Proof. intros q U H. unfold logarithmicMap. rewrite (normalize_id q U), (normalize_id _ (neg_unit q U)). now rewrite qpositive_neg. Qed.
Lemma log_positive : forall q, unitq q -> logarithmicMap (qpositive q) = logarithmicMap q.
Proof.
  intros q U. assert (U' : unitq (qpositive q)) by (unfold unitq; rewrite norm2_qpositive; exact U). unfold logarithmicMap. rewrite (normalize_id q U), (normalize_id _ U'). now rewrite (qpositive_id (qpositive q)) by apply qpositive_w.
Qed.
Lemma round_trip : forall d c dt body, unitq d -> unitq c -> dt <> 0 -> Rabs (qdot c d) <= 99 / 100 -> qw c <> 0 \/ 0 <= qdot c d ->
  exists q, integrateAngularVelocity c (requiredAngularVelocity d c dt body) dt body = Some q /\ same_rotation q d.
Proof.
  intros d c dt body Ud Uc Hdt Hw Hs. exists (qmul (exponentialMap (orientationError d c)) c). split; [|now apply error_rotates].
  unfold integrateAngularVelocity. rewrite (normalize_id c Uc), (log_positive c Uc).
  assert (LC : logarithmicMap (if Rlt_dec (qdot c d) 0 then qneg c else c) = logarithmicMap c). { destruct (Rlt_dec (qdot c d) 0); [|reflexivity]. apply log_neg; [exact Uc|]. destruct Hs; [assumption|lra]. }
  assert (R : requiredAngularVelocity d c dt body = toAngularVelocity (logarithmicMap c) (vscale (/ dt) (orientationError d c)) body).
  { unfold requiredAngularVelocity, orientationError. rewrite aligned_unit by assumption. rewrite LC. reflexivity. }
  rewrite R, from_to by now apply log_short. do 3 f_equal. vext; field; exact Hdt.
Qed.

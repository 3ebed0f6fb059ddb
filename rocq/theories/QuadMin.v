(** * A strictly convex quadratic function has a minimum on every closed convex set; a solver as quadprog is documented exists *)
From Coq Require Import Reals List Arith Bool Lia Lra Classical Description ClassicalDescription FunctionalExtensionality.
Import ListNotations.
From Verif Require Import Base BaseProofs PyqpModel PyqpSpec.
Local Open Scope R_scope.

Definition bil (n : nat) (P : nat -> nat -> R) (u v : nat -> R) : R := rsum n (fun i => rsum n (fun j => u i * P i j * v j)).
Definition sq2 (n : nat) (x : nat -> R) : R := rsum n (fun i => x i * x i).
Lemma sq2_nonneg : forall n x, 0 <= sq2 n x.
Proof. intros. apply rsum_nonneg. intros. nra. Qed.
Lemma sq2_ge : forall n x i, (i < n)%nat -> x i * x i <= sq2 n x.
Proof.
  unfold sq2. induction n; intros x i Hi; [lia|]. rewrite rsum_S. pose proof (sq2_nonneg n x) as S. unfold sq2 in S. destruct (Nat.eq_dec i n) as [->|]; [nra|]. pose proof (IHn x i ltac:(lia)). nra.
Qed.
Lemma cauchy : forall n a x, dotv n a x * dotv n a x <= sq2 n a * sq2 n x.
Proof.
  intros n a x. unfold dotv, sq2. induction n; [cbn; lra|]. rewrite !rsum_S. set (A := rsum n (fun i => a i * a i)) in *. set (X := rsum n (fun i => x i * x i)) in *. set (D := rsum n (fun i => a i * x i)) in *.
  assert (0 <= A) by (apply rsum_nonneg; intros; nra). assert (0 <= X) by (apply rsum_nonneg; intros; nra).
  (* 2 D a x <= A x^2 + X a^2 *)
  assert (Z : 2 * (D * (a n * x n)) <= A * (x n * x n) + X * (a n * a n)).
  { destruct (Req_dec A 0) as [E|E].
    - rewrite E in IHn. assert (D0 : D = 0) by nra. rewrite D0, E. nra.
    - assert (0 < A) by lra. pose proof (Rle_0_sqr (A * x n - D * a n)) as S1. unfold Rsqr in S1. pose proof (Rle_0_sqr (a n)) as S2. unfold Rsqr in S2.
      assert (S3 : 0 <= (A * X - D * D) * (a n * a n)) by (apply Rmult_le_pos; lra). apply Rmult_le_reg_l with A; [lra|]. lra. }
  nra.
Qed.
(** Positive definite: bounded below by a multiple of the norm. *)
Lemma pd_coercive : forall n P, symmetric n P -> positive_definite n P -> exists c, 0 < c /\ forall x, c * sq2 n x <= bil n P x x.
Proof.
  induction n; intros P Sy Pd; [exists 1; split; [lra|]; intros; unfold sq2, bil; cbn; lra|].
  set (d := P n n). set (b := fun i => P i n).
  assert (F : forall x, bil (S n) P x x = bil n P x x + 2 * x n * dotv n b x + d * (x n * x n)).
  { intros x. unfold bil. rewrite rsum_S. replace (rsum n (fun i => rsum (S n) (fun j => x i * P i j * x j))) with (rsum n (fun i => rsum n (fun j => x i * P i j * x j)) + rsum n (fun i => x i * P i n * x n)) by (rewrite <- rsum_plus; apply rsum_ext; intros; now rewrite rsum_S).
    rewrite rsum_S. replace (rsum n (fun j => x n * P n j * x j)) with (rsum n (fun i => x i * P i n * x n)) by (apply rsum_ext; intros i Hi; rewrite (Sy n i) by lia; ring).
    replace (rsum n (fun i => x i * P i n * x n)) with (x n * dotv n b x) by (unfold dotv; rewrite <- rsum_scal; apply rsum_ext; intros; unfold b; ring). unfold d. ring. }
  assert (Hd : 0 < d).
  { set (e := fun i => if (i =? n)%nat then 1 else 0). assert (En : e n = 1) by (unfold e; now rewrite Nat.eqb_refl). assert (H : 0 < bil (S n) P e e) by (apply (Pd e); exists n; split; [lia|rewrite En; lra]). rewrite F, En in H.
    assert (Z : forall i, (i < n)%nat -> e i = 0) by (intros i Hi; unfold e; now rewrite (proj2 (Nat.eqb_neq i n)) by lia).
    replace (bil n P e e) with 0 in H by (symmetry; unfold bil; apply rsum_zero; intros i Hi; apply rsum_zero; intros j Hj; rewrite (Z i Hi); ring). replace (dotv n b e) with 0 in H by (symmetry; unfold dotv; apply rsum_zero; intros i Hi; rewrite (Z i Hi); ring). lra. }
  set (P' := fun i j => P i j - b i * b j / d).
  assert (F' : forall y, bil n P' y y = bil n P y y - dotv n b y * dotv n b y / d).
  { intros y. unfold bil, P'. transitivity (rsum n (fun i => rsum n (fun j => y i * P i j * y j) - y i * b i * (dotv n b y / d))).
    - apply rsum_ext. intros i Hi. unfold dotv. rewrite <- (Rmult_1_r (rsum n (fun i0 => b i0 * y i0) / d)). unfold Rdiv. replace (rsum n (fun i0 => b i0 * y i0) * / d * 1) with (rsum n (fun i0 => b i0 * y i0 * / d)) by (rewrite rsum_scal_r; ring). rewrite <- rsum_scal, <- rsum_minus. apply rsum_ext. intros. ring.
    - rewrite rsum_minus, rsum_scal_r. replace (rsum n (fun i => y i * b i)) with (dotv n b y) by (apply rsum_ext; intros; ring). unfold Rdiv. ring. }
  assert (Sq : forall x, bil (S n) P x x = d * ((x n + dotv n b x / d) * (x n + dotv n b x / d)) + bil n P' x x) by (intros x; rewrite F, F'; field; lra).
  destruct (IHn P') as (c & Hc & C).
  - intros i j Hi Hj. unfold P'. rewrite (Sy i j) by lia. unfold Rdiv. ring.
  - intros y (i & Hi & Ny). fold (bil n P' y y). set (x := fun k => if (k =? n)%nat then - (dotv n b y / d) else y k).
    assert (E : forall k, (k < n)%nat -> x k = y k) by (intros k Hk; unfold x; now rewrite (proj2 (Nat.eqb_neq k n)) by lia).
    assert (Ex : dotv n b x = dotv n b y) by (apply rsum_ext; intros k Hk; now rewrite E). assert (Bx : bil n P' x x = bil n P' y y) by (apply rsum_ext; intros k Hk; apply rsum_ext; intros l Hl; now rewrite !E).
    assert (H : 0 < bil (S n) P x x) by (apply (Pd x); exists i; split; [lia|rewrite E by exact Hi; exact Ny]). rewrite Sq, Bx, Ex in H. replace (x n) with (- (dotv n b y / d)) in H by (unfold x; now rewrite Nat.eqb_refl). nra.
  - set (K := sq2 n b / (d * d)). assert (HK : 0 <= K) by (unfold K; apply Rmult_le_pos; [apply sq2_nonneg|left; apply Rinv_0_lt_compat; nra]).
    assert (H1 : 0 < 2 * K + 1) by lra. set (c1 := Rmin (d / 2) (c / (2 * K + 1))). assert (P1 : 0 < c1). { unfold c1. apply Rmin_glb_lt; [lra|]. apply Rmult_lt_0_compat; [exact Hc|now apply Rinv_0_lt_compat]. }
    exists c1. split; [exact P1|]. intros x. rewrite Sq. unfold sq2. rewrite rsum_S. fold (sq2 n x). set (be := dotv n b x / d). set (u := x n + be). specialize (C x). pose proof (sq2_nonneg n x) as N.
    assert (B2 : be * be <= K * sq2 n x). { pose proof (cauchy n b x) as Z. unfold be, K, Rdiv. assert (I0 : 0 < / d) by now apply Rinv_0_lt_compat. rewrite Rinv_mult. assert (I2 : 0 <= / d * / d) by nra. apply (Rmult_le_compat_r _ _ _ I2) in Z. lra. }
    assert (T : x n * x n <= 2 * (u * u) + 2 * (be * be)) by (unfold u; pose proof (Rle_0_sqr (x n + 2 * be)) as Z; unfold Rsqr in Z; lra).
    assert (C1 : 2 * c1 <= d) by (unfold c1; pose proof (Rmin_l (d / 2) (c / (2 * K + 1))); lra).
    assert (C2 : c1 * (2 * K + 1) <= c). { unfold c1. pose proof (Rmin_r (d / 2) (c / (2 * K + 1))) as Z. apply (Rmult_le_compat_r (2 * K + 1)) in Z; [|lra]. replace (c / (2 * K + 1) * (2 * K + 1)) with c in Z by (field; lra). exact Z. }
    assert (c1 * (sq2 n x + x n * x n) <= c1 * (2 * (u * u)) + c1 * (2 * K + 1) * sq2 n x) by nra. assert (c1 * (2 * (u * u)) <= d * (u * u)) by nra. assert (c1 * (2 * K + 1) * sq2 n x <= c * sq2 n x) by nra. lra.
Qed.

(** Closed under midpoints, and containing every point it has members arbitrarily near to. *)
Definition mid_closed (D : (nat -> R) -> Prop) : Prop := forall x y, D x -> D y -> D (fun i => / 2 * (x i + y i)).
Definition limit_closed (n : nat) (D : (nat -> R) -> Prop) : Prop := forall a, (forall e, 0 < e -> exists x, D x /\ forall i, (i < n)%nat -> Rabs (x i - a i) <= e) -> D a.

Section Min.
  Variables (n : nat) (P : nat -> nat -> R) (q : nat -> R) (D : (nat -> R) -> Prop).
  Hypothesis (Sy : symmetric n P) (Pd : positive_definite n P) (Md : mid_closed D) (Lc : limit_closed n D) (Ne : exists x, D x).
  Notation f := (qobj n P q).
  Lemma qobj_mid : forall x y, f (fun i => / 2 * (x i + y i)) = / 2 * f x + / 2 * f y - / 8 * bil n P (fun i => x i - y i) (fun i => x i - y i).
  Proof.
    intros x y. set (z := fun i => / 2 * (x i + y i)). set (d := fun i => x i - y i). assert (Lz : dotv n q z = / 2 * (dotv n q x + dotv n q y)). { unfold dotv, z. rewrite <- rsum_plus, <- rsum_scal. apply rsum_ext. intros. ring. }
    unfold qobj. rewrite Lz. fold (bil n P z z) (bil n P x x) (bil n P y y).
    assert (Bz : bil n P z z = / 2 * bil n P x x + / 2 * bil n P y y - / 4 * bil n P d d).
    { unfold bil. rewrite <- !rsum_scal. rewrite <- rsum_plus, <- rsum_minus. apply rsum_ext. intros k Hk. rewrite <- !rsum_scal. rewrite <- rsum_plus, <- rsum_minus. apply rsum_ext. intros j Hj. unfold z, d. field. }
    rewrite Bz. field.
  Qed.
  (** Tangent: f x >= f a + g . (x - a). *)
  Lemma qobj_tangent : exists g : (nat -> R) -> nat -> R, forall a x, f a + dotv n (g a) (fun i => x i - a i) <= f x.
  Proof.
    exists (fun a i => rsum n (fun j => P i j * a j) + q i). intros a x. destruct (pd_coercive n P Sy Pd) as (c & Hc & C). specialize (C (fun i => x i - a i)). pose proof (sq2_nonneg n (fun i => x i - a i)) as S.
    assert (B0 : 0 <= bil n P (fun i => x i - a i) (fun i => x i - a i)) by nra. unfold qobj. fold (bil n P a a) (bil n P x x).
    assert (E : bil n P (fun i => x i - a i) (fun i => x i - a i) = bil n P x x - bil n P a a - 2 * rsum n (fun i => rsum n (fun j => P i j * a j) * (x i - a i))).
    { assert (X : rsum n (fun i => rsum n (fun j => P i j * a j) * (x i - a i)) = bil n P x a - bil n P a a). { unfold bil. rewrite <- rsum_minus. apply rsum_ext. intros i Hi. rewrite <- rsum_scal_r, <- rsum_minus. apply rsum_ext. intros. ring. }
      assert (Y : bil n P a x = bil n P x a). { unfold bil. rewrite rsum_swap. apply rsum_ext. intros i Hi. apply rsum_ext. intros j Hj. rewrite (Sy j i) by assumption. ring. }
      assert (Z : bil n P (fun i => x i - a i) (fun i => x i - a i) = bil n P x x - bil n P x a - bil n P a x + bil n P a a). { unfold bil. rewrite <- !rsum_minus, <- rsum_plus. apply rsum_ext. intros i Hi. rewrite <- !rsum_minus, <- rsum_plus. apply rsum_ext. intros. ring. }
      rewrite X, Z, Y. ring. }
    replace (dotv n (fun i => rsum n (fun j => P i j * a j) + q i) (fun i => x i - a i)) with (rsum n (fun i => rsum n (fun j => P i j * a j) * (x i - a i)) + (dotv n q x - dotv n q a)); [lra|].
    unfold dotv. rewrite <- rsum_minus, <- rsum_plus. apply rsum_ext. intros. ring.
  Qed.
  Lemma dot_bound : forall g y e, 0 <= e -> (forall i, (i < n)%nat -> Rabs (y i) <= e) -> Rabs (dotv n g y) <= e * rsum n (fun i => Rabs (g i)).
  Proof.
    intros g y e He H. unfold dotv. assert (X : forall m, (m <= n)%nat -> Rabs (rsum m (fun i => g i * y i)) <= e * rsum m (fun i => Rabs (g i))); [|apply X; lia].
    induction m; intros Hm; [cbn; rewrite Rabs_R0; lra|]. rewrite !rsum_S. eapply Rle_trans; [apply Rabs_triang|]. specialize (IHm ltac:(lia)). rewrite Rabs_mult. specialize (H m ltac:(lia)). pose proof (Rabs_pos (g m)). nra.
  Qed.
  Theorem minimum_exists : exists x, minimises D f x.
  Proof.
    destruct (pd_coercive n P Sy Pd) as (c & Hc & C). destruct qobj_tangent as (g & Tg).
    (* bounded below *)
    assert (LB : exists l, forall x, l <= f x).
    { exists (- (sq2 n q / (2 * c))). intros x. unfold qobj. fold (bil n P x x). specialize (C x). pose proof (cauchy n q x) as CS. pose proof (sq2_nonneg n x) as N. pose proof (sq2_nonneg n q) as N'.
      set (X := sq2 n x) in *. set (G := sq2 n q) in *. set (d := dotv n q x) in *. assert (2 * c * (/ 2 * (c * X) + d) >= - G).
      { assert (d * d <= G * X) by exact CS. (* c^2 X + 2 c d + G >= 0 *) assert (Q : 0 <= c * c * X + 2 * c * d + G).
        { destruct (Rle_dec 0 d) as [d0|]; [assert (0 <= c * d) by (apply Rmult_le_pos; lra); assert (0 <= c * c * X) by (apply Rmult_le_pos; [apply Rmult_le_pos|]; lra); lra|]. assert (- d <= sqrt (G * X)) by (rewrite <- (sqrt_Rsqr (- d)) by lra; apply sqrt_le_1_alt; unfold Rsqr; lra). assert (S1 : sqrt (G * X) = sqrt G * sqrt X) by (apply sqrt_mult; assumption).
          pose proof (sqrt_sqrt G N'). pose proof (sqrt_sqrt X N). pose proof (sqrt_pos G). pose proof (sqrt_pos X). pose proof (Rle_0_sqr (c * sqrt X - sqrt G)) as S2. unfold Rsqr in S2. rewrite <- H2, <- H1.
          assert (c * - d <= c * (sqrt G * sqrt X)) by (apply Rmult_le_compat_l; lra). lra. }
        lra. }
      assert (- (G / (2 * c)) <= / 2 * (c * X) + d). { apply Rmult_le_reg_l with (2 * c); [lra|]. replace (2 * c * - (G / (2 * c))) with (- G) by (field; lra). lra. } lra. }
    destruct LB as (l & LB).
    (* infimum *)
    destruct (completeness (fun v => exists x, D x /\ v = - f x)) as (M & [UB LUB]).
    { exists (- l). intros v (x & _ & ->). pose proof (LB x). lra. }
    { destruct Ne as (x & Hx). exists (- f x), x. auto. }
    set (m := - M). assert (INF : forall x, D x -> m <= f x) by (intros x Hx; pose proof (UB (- f x) (ex_intro _ x (conj Hx eq_refl))); unfold m; lra).
    assert (APP : forall e, 0 < e -> exists x, D x /\ f x <= m + e).
    { intros e He. apply NNPP. intros N. assert (M <= M - e); [|lra]. apply LUB. intros v (x & Hx & ->). assert (~ f x <= m + e) by (intros Z; apply N; now exists x). unfold m in *. lra. }
    (* two nearly optimal points are close *)
    assert (CL : forall e x y, 0 <= e -> D x -> D y -> f x <= m + c * (e * e) / 8 -> f y <= m + c * (e * e) / 8 -> forall i, (i < n)%nat -> Rabs (x i - y i) <= e).
    { intros e x y He Hx Hy Fx Fy i Hi. pose proof (INF _ (Md x y Hx Hy)) as Z. rewrite qobj_mid in Z. specialize (C (fun k => x k - y k)). pose proof (sq2_ge n (fun k => x k - y k) i Hi) as G. cbn beta in G.
      assert (c * sq2 n (fun k => x k - y k) <= c * (e * e)) by lra. assert ((x i - y i) * (x i - y i) <= e * e) by nra. apply Rsqr_le_abs_0 in H0. rewrite (Rabs_right e) in H0 by lra. exact H0. }
    assert (CP : forall e, 0 < e -> 0 < c * (e * e) / 8) by (intros e He; assert (0 < e * e) by (apply Rmult_lt_0_compat; lra); assert (0 < c * (e * e)) by (apply Rmult_lt_0_compat; lra); lra).
    (* the limit, coordinate by coordinate *)
    set (E := fun i r => forall e, 0 < e -> exists x, D x /\ f x <= m + e /\ r <= x i).
    assert (LIM : forall i, (i < n)%nat -> exists a, forall e x, 0 < e -> D x -> f x <= m + c * (e * e) / 8 -> Rabs (x i - a) <= e).
    { intros i Hi. assert (INE : forall e x, 0 < e -> D x -> f x <= m + c * (e * e) / 8 -> E i (x i - e)).
      { intros e x He Hx Fx e' He'. destruct (APP (Rmin e' (c * (e * e) / 8))) as (y & Hy & Fy). { apply Rmin_glb_lt; [exact He'|now apply CP]. }
        exists y. split; [exact Hy|]. pose proof (Rmin_l e' (c * (e * e) / 8)). pose proof (Rmin_r e' (c * (e * e) / 8)). split; [lra|]. pose proof (CL e x y ltac:(lra) Hx Hy Fx ltac:(lra) i Hi) as Z. pose proof (Rle_abs (x i - y i)). lra. }
      assert (UPE : forall e x r, 0 < e -> D x -> f x <= m + c * (e * e) / 8 -> E i r -> r <= x i + e).
      { intros e x r He Hx Fx Er. destruct (Er _ (CP e He)) as (y & Hy & Fy & Ry). pose proof (CL e x y ltac:(lra) Hx Hy Fx Fy i Hi) as Z. rewrite Rabs_minus_sym in Z. pose proof (Rle_abs (y i - x i)). lra. }
      destruct (APP (c * (1 * 1) / 8) (CP 1 Rlt_0_1)) as (x1 & D1 & F1).
      destruct (completeness (E i)) as (a & [Ua La]). { exists (x1 i + 1). intros r Er. apply (UPE 1 x1 r); auto; lra. } { exists (x1 i - 1). apply INE; auto; lra. }
      exists a. intros e x He Hx Fx. apply Rabs_le. pose proof (Ua _ (INE e x He Hx Fx)). assert (a <= x i + e) by (apply La; intros r Er; now apply (UPE e x r)). lra. }
    assert (exists a : nat -> R, forall i, (i < n)%nat -> forall e x, 0 < e -> D x -> f x <= m + c * (e * e) / 8 -> Rabs (x i - a i) <= e) as (a & Ha).
    { clear - LIM. assert (X : forall k, (k <= n)%nat -> exists a : nat -> R, forall i, (i < k)%nat -> forall e x, 0 < e -> D x -> f x <= m + c * (e * e) / 8 -> Rabs (x i - a i) <= e); [|apply X; lia].
      induction k; intros Hk; [exists (fun _ => 0); intros; lia|]. destruct (IHk ltac:(lia)) as (a & Ha). destruct (LIM k ltac:(lia)) as (b & Hb). exists (fun i => if (i =? k)%nat then b else a i). intros i Hi. destruct (Nat.eqb_spec i k) as [->|]; [exact Hb|]. apply Ha. lia. }
    assert (NEAR : forall e, 0 < e -> exists x, D x /\ f x <= m + e /\ forall i, (i < n)%nat -> Rabs (x i - a i) <= e).
    { intros e He. destruct (APP (Rmin e (c * (e * e) / 8))) as (x & Hx & Fx). { apply Rmin_glb_lt; [exact He|now apply CP]. } pose proof (Rmin_l e (c * (e * e) / 8)). pose proof (Rmin_r e (c * (e * e) / 8)).
      exists x. split; [exact Hx|]. split; [lra|]. intros i Hi. apply (Ha i Hi e x He Hx). lra. }
    assert (Da : D a). { apply Lc. intros e He. destruct (NEAR e He) as (x & Hx & _ & Bx). now exists x. }
    exists a. split; [exact Da|]. assert (Fa : f a <= m).
    { apply Rnot_lt_le. intros Lt. set (K := rsum n (fun i => Rabs (g a i))). assert (HK : 0 <= K) by (apply rsum_nonneg; intros; apply Rabs_pos). set (e := (f a - m) / (2 * (K + 1))).
      assert (He : 0 < e) by (apply Rmult_lt_0_compat; [lra|apply Rinv_0_lt_compat; lra]). destruct (NEAR e He) as (x & Hx & Fx & Bx). pose proof (Tg a x) as T. pose proof (dot_bound (g a) (fun i => x i - a i) e ltac:(lra) Bx) as B. fold K in B.
      pose proof (Rle_abs (- dotv n (g a) (fun i => x i - a i))) as A. rewrite Rabs_Ropp in A. assert (e * (2 * (K + 1)) = f a - m) by (unfold e; field; lra). nra. }
    intros y Hy. pose proof (INF y Hy). lra.
  Qed.
  (** Two minimisers agree. *)
  Theorem minimum_unique : forall x y, minimises D f x -> minimises D f y -> forall i, (i < n)%nat -> x i = y i.
  Proof.
    intros x y [Dx Mx] [Dy My] i Hi. pose proof (Mx _ (Md x y Dx Dy)) as Z. rewrite qobj_mid in Z. pose proof (Mx y Dy). pose proof (My x Dx). destruct (Req_dec (x i) (y i)) as [|N]; [assumption|exfalso].
    assert (B : 0 < bil n P (fun k => x k - y k) (fun k => x k - y k)) by (apply (Pd (fun k => x k - y k)); exists i; split; [exact Hi|lra]). lra.
  Qed.
End Min.

Lemma dual_mid : forall n Cb meq, mid_closed (dual_feasible n Cb meq).
Proof.
  intros n [[C b]|] meq x y Hx Hy; [|exact I]. intros k Hk. specialize (Hx k Hk). specialize (Hy k Hk). cbv zeta in *.
  assert (E : dotv n (fun i => pa C i k) (fun i => / 2 * (x i + y i)) = / 2 * (dotv n (fun i => pa C i k) x + dotv n (fun i => pa C i k) y)) by (unfold dotv; rewrite <- rsum_plus, <- rsum_scal; apply rsum_ext; intros; ring).
  rewrite E. destruct (k <? meq)%nat; lra.
Qed.
Lemma dual_limit : forall n Cb meq, limit_closed n (dual_feasible n Cb meq).
Proof.
  intros n [[C b]|] meq a H; [|exact I]. intros k Hk. cbv zeta. set (g := fun i => pa C i k). set (K := rsum n (fun i => Rabs (g i))). assert (HK : 0 <= K) by (apply rsum_nonneg; intros; apply Rabs_pos).
  assert (NEAR : forall e, 0 < e -> exists v, (if (k <? meq)%nat then v = pe b k else v >= pe b k) /\ Rabs (v - dotv n g a) <= e).
  { intros e He. destruct (H (e / (K + 1))) as (x & Hx & Bx). { apply Rmult_lt_0_compat; [exact He|apply Rinv_0_lt_compat; lra]. } exists (dotv n g x). split; [exact (Hx k Hk)|].
    replace (dotv n g x - dotv n g a) with (dotv n g (fun i => x i - a i)) by (unfold dotv; rewrite <- rsum_minus; apply rsum_ext; intros; ring).
    assert (P0 : 0 <= e / (K + 1)) by (apply Rmult_le_pos; [lra|left; apply Rinv_0_lt_compat; lra]). eapply Rle_trans; [exact (dot_bound n g (fun i => x i - a i) (e / (K + 1)) P0 Bx)|]. fold K.
    assert (e / (K + 1) * (K + 1) = e) by (field; lra). nra. }
  destruct (k <? meq)%nat.
  - apply NNPP. intros N. assert (P0 : 0 < Rabs (pe b k - dotv n g a)) by (apply Rabs_pos_lt; lra). destruct (NEAR (Rabs (pe b k - dotv n g a) / 2) ltac:(lra)) as (v & -> & B). lra.
  - apply Rle_ge. apply Rnot_lt_le. intros N. destruct (NEAR ((pe b k - dotv n g a) / 2) ltac:(lra)) as (v & Hv & B). pose proof (Rle_abs (v - dotv n g a)). lra.
Qed.
Lemma lower_symmetric : forall n P, symmetric n (lower P).
Proof. intros n P i j _ _. unfold lower. destruct (Nat.leb_spec j i), (Nat.leb_spec i j); try reflexivity; [now replace i with j by lia|lia]. Qed.
(** A solver as documented exists. *)
Theorem quadprog_exists : exists sq, quadprog_sound sq /\ quadprog_complete sq.
Proof.
  set (sol := fun (G : pm) (a : pv) Cb meq x => (pl x = pr G /\ forall i, (pr G <= i)%nat -> pe x i = 0) /\ minimises (dual_feasible (pr G) Cb meq) (qobj (pr G) (lower (pa G)) (fun i => - pe a i)) (pe x)).
  set (good := fun (G : pm) (a : pv) Cb meq => dual_shapes G a Cb meq /\ positive_definite (pr G) (lower (pa G)) /\ exists x, dual_feasible (pr G) Cb meq x).
  assert (S : forall G a Cb meq, good G a Cb meq -> {x | sol G a Cb meq x}).
  { intros G a Cb meq (_ & Pd & Ne). apply constructive_definite_description. set (n := pr G) in *.
    destruct (minimum_exists n (lower (pa G)) (fun i => - pe a i) (dual_feasible n Cb meq) (lower_symmetric n _) Pd (dual_mid n Cb meq) (dual_limit n Cb meq) Ne) as (x & Dx & Mx).
    set (x' := fun i => if (i <? n)%nat then x i else 0). assert (EX : forall i, (i < n)%nat -> x' i = x i) by (intros i Hi; unfold x'; now rewrite (proj2 (Nat.ltb_lt i n) Hi)).
    assert (OB : qobj n (lower (pa G)) (fun i => - pe a i) x' = qobj n (lower (pa G)) (fun i => - pe a i) x).
    { unfold qobj, dotv. f_equal; [f_equal; apply rsum_ext; intros i Hi; apply rsum_ext; intros j Hj; now rewrite !EX|]. apply rsum_ext. intros i Hi. now rewrite EX. }
    assert (FE : dual_feasible n Cb meq x'). { destruct Cb as [[C b]|]; [|exact I]. intros k Hk. specialize (Dx k Hk). cbv zeta in *. replace (dotv n (fun i => pa C i k) x') with (dotv n (fun i => pa C i k) x) by (apply rsum_ext; intros i Hi; now rewrite EX). exact Dx. }
    exists (PV n x'). split.
    - split; [split; [reflexivity|]; intros i Hi; cbn [pe]; unfold x'; now rewrite (proj2 (Nat.ltb_ge i n) Hi)|]. cbn [pe]. split; [exact FE|]. intros y Hy. fold n. rewrite OB. now apply Mx.
    - intros [k y] ((Lk & Zy) & My). cbn [pl pe] in *. fold n in Lk, Zy, My. rewrite Lk. f_equal. apply functional_extensionality. intros i. destruct (lt_dec i n) as [Hi|Hi]; [|rewrite Zy by lia; unfold x'; now rewrite (proj2 (Nat.ltb_ge i n)) by lia].
      apply (minimum_unique n (lower (pa G)) (fun i => - pe a i) (dual_feasible n Cb meq) Pd (dual_mid n Cb meq) x' y); [|exact My|exact Hi]. split; [exact FE|]. intros z Hz. rewrite OB. now apply Mx. }
  exists (fun G a Cb meq => match excluded_middle_informative (good G a Cb meq) with left h => Ok (proj1_sig (S G a Cb meq h)) | right _ => Throw end). split.
  - intros G a Cb meq x H. destruct (excluded_middle_informative (good G a Cb meq)) as [h|]; [|discriminate]. injection H as <-. destruct (proj2_sig (S G a Cb meq h)) as ((Lx & _) & Mx). split; [apply h|]. split; assumption.
  - intros G a Cb meq H1 H2 H3. destruct (excluded_middle_informative (good G a Cb meq)) as [h|h]; [now eexists|]. exfalso. apply h. split; [exact H1|]. split; assumption.
Qed.
Print Assumptions quadprog_exists.

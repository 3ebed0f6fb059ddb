(** * C81: the derivatives of the cost in the LQR on the manifold *)
From Coq Require Import Reals List Arith Bool Lia Lra Psatz.
Import ListNotations.
From Verif Require Import Base BaseProofs IpModel LqrModel LqrSpec LqrProofs LqrProofs2 MkoModel RicModel RicSpec RicProofs RicProps RicLinProps RicLinProps2 ManModel Vec3 OriSpec ManSpec ManOriProps ManDynProps.
Local Open Scope R_scope.
Notation vdot := IpModel.vdot.

Section Costs.
Variables (N : nat) (x0 : nat -> mstate) (Rw : nat -> mat).
(** The weights of the script: the identity. *)
Notation Qw := (fun _ : nat => ident).
Notation cost := (cost N x0 Qw Rw).
Definition wt (t : nat) : R := if (t =? N)%nat then 1 else / 2.
Definition uc (t : nat) (u : vec) : R := if (t =? N)%nat then 0 else / 2 * vdot 6 (mv 6 (tr (Rw t)) u) u.
Lemma cost_is t y u d : diff_x (x0 t) y = Ok d -> cost t y u = Ok (wt t * rsum 12 (fun i => d i * d i) + uc t u).
Proof.
  intros H. unfold ManModel.cost. rewrite H. cbn [bind]. assert (E : vdot 12 (mv 12 (tr ident) d) d = rsum 12 (fun i => d i * d i)).
  { unfold IpModel.vdot. apply rsum_ext. intros i Hi. f_equal. rewrite (mv_mext 12 (tr ident) ident) by (intros j Hj; unfold tr, ident; now rewrite Nat.eqb_sym). now apply mv_ident. }
  rewrite E. unfold wt, uc. destruct (t =? N)%nat; f_equal; ring.
Qed.
Lemma increment_coordinate x a i : vector_coordinate i -> coordinate (m_c (increment_x x a)) (m_v (increment_x x a)) (m_w (increment_x x a)) i = coordinate (m_c x) (m_v x) (m_w x) i + a i.
Proof.
  intros H. unfold increment_x, coordinate, t3. cbn [m_c m_v m_w].
  assert (V : forall p q k, vget3 (vadd p q) k = vget3 p k + vget3 q k) by (intros p q [|[|k]]; reflexivity).
  do 12 (destruct i as [|i]; [cbn [Nat.ltb Nat.leb Nat.sub Nat.add]; rewrite ?V; first [reflexivity|destruct H; lia]|]). destruct H; lia.
Qed.
(** Two perturbations that differ in one vector coordinate only. *)
Lemma cost_difference t x u a b c ca cb : vector_coordinate c -> (forall i, i <> c -> a i = b i) -> cost t (increment_x x a) u = Ok ca -> cost t (increment_x x b) u = Ok cb ->
  let y := coordinate (m_c x) (m_v x) (m_w x) c - coordinate (m_c (x0 t)) (m_v (x0 t)) (m_w (x0 t)) c in ca - cb = wt t * ((y + a c) * (y + a c) - (y + b c) * (y + b c)).
Proof.
  intros Hc Hab Ha Hb y. assert (D : forall z cz, cost t z u = Ok cz -> exists d, diff_x (x0 t) z = Ok d /\ cz = wt t * rsum 12 (fun i => d i * d i) + uc t u).
  { intros z cz Hz. destruct (diff_x (x0 t) z) as [d| |] eqn:E; [|unfold ManModel.cost in Hz; rewrite E in Hz; discriminate|unfold ManModel.cost in Hz; rewrite E in Hz; discriminate]. exists d. split; [reflexivity|]. rewrite (cost_is t z u d E) in Hz. congruence. }
  destruct (D _ _ Ha) as (da & Ea & ->). destruct (D _ _ Hb) as (db & Eb & ->). clear D Ha Hb.
  assert (Ec : da c = y + a c /\ db c = y + b c) by (split; [rewrite (diff_vector _ _ _ c Ea Hc), (increment_coordinate x a c Hc)|rewrite (diff_vector _ _ _ c Eb Hc), (increment_coordinate x b c Hc)]; unfold y; ring).
  assert (Eo : forall i, (i < 12)%nat -> i <> c -> da i = db i).
  { intros i Hi Hne. destruct (le_lt_dec 6 i) as [H6|H6]; [destruct (le_lt_dec 9 i) as [H9|H9]|].
    - rewrite (diff_vector _ _ _ i Ea), (diff_vector _ _ _ i Eb), !increment_coordinate, (Hab i Hne) by (right; lia). reflexivity.
    - assert (T : t3 a 6 = t3 b 6) by (unfold t3; cbn [Nat.add]; destruct Hc; rewrite !Hab by lia; reflexivity).
      unfold diff_x in Ea, Eb. cbn [increment_x m_q] in Ea, Eb. rewrite T in Ea. destruct (quaternion_difference _ _) as [dq| |]; cbn [bind] in Ea, Eb; try discriminate. injection Ea as <-. injection Eb as <-. cbv beta.
      rewrite (proj2 (Nat.ltb_ge i 3)), (proj2 (Nat.ltb_ge i 6)), (proj2 (Nat.ltb_lt i 9)) by lia. reflexivity.
    - rewrite (diff_vector _ _ _ i Ea), (diff_vector _ _ _ i Eb), !increment_coordinate, (Hab i Hne) by (left; lia). reflexivity. }
  assert (S : rsum 12 (fun i => da i * da i) - rsum 12 (fun i => db i * db i) = da c * da c - db c * db c).
  { rewrite <- rsum_minus. apply (rsum_single 12 c (fun i => da i * da i - db i * db i)); [destruct Hc; lia|]. intros i Hi Hne. rewrite (Eo i Hi Hne). ring. }
  destruct Ec as [E1 E2]. rewrite <- E1, <- E2. replace (wt t * rsum 12 (fun i => da i * da i) + uc t u - (wt t * rsum 12 (fun i => db i * db i) + uc t u)) with (wt t * (rsum 12 (fun i => da i * da i) - rsum 12 (fun i => db i * db i))) by ring. now rewrite S.
Qed.
Lemma increment_zero x : increment_x x (fun _ => 0) = x.
Proof.
  destruct x as [c v q w]. unfold increment_x, t3. cbn [m_c m_v m_q m_w]. assert (V0 : forall p, vadd p (V3 0 0 0) = p) by (intros [p1 p2 p3]; unfold vadd; cbn [vx vy vz]; f_equal; ring). rewrite !V0. f_equal.
  unfold integrate_quaternion. replace (vscale (/ 2) (V3 0 0 0)) with (V3 0 0 0) by (unfold vscale; cbn [vx vy vz]; f_equal; ring).
  assert (En : norm (V3 0 0 0) = 0) by (unfold norm, Vec3.vdot; cbn [vx vy vz]; replace (0 * 0 + 0 * 0 + 0 * 0) with 0 by ring; apply sqrt_0).
  unfold exp_quaternion. rewrite En. destruct (Rle_dec (0 ^ 2) meps) as [_|B]; [|exfalso; apply B; unfold meps; lra]. rewrite product_hamilton. destruct q as [qw0 qx0 qy0 qz0]. unfold hamilton, qof, vscale, vadd, vcross, Vec3.vdot. cbn [vx vy vz qw qx qy qz]. f_equal; field.
Qed.
(** The costs exist for orientations that are not degenerate. *)
Definition regular (q : quat) : Prop := 1 / 2 <= norm2 q.
Lemma cost_exists t x u a : regular (m_q x) -> regular (m_q (x0 t)) -> exists c, cost t (increment_x x a) u = Ok c.
Proof.
  intros Hx H0. unfold regular in *. destruct (diff_exists (x0 t) (increment_x x a)) as [d Ed]; [|rewrite (cost_is t _ u d Ed); eauto].
  assert (NI : (1 - meps ^ 2 / 12) * norm2 (m_q x) <= norm2 (m_q (increment_x x a))) by apply C79_integration. assert (0 < meps < 1 / 100) by (unfold meps; lra). assert (0 < meps ^ 2 < 1 / 100) by nra. assert (1 / 4 <= norm2 (m_q (increment_x x a))) by nra. nra.
Qed.

Section Hess.
Variables (t : nat) (x : mstate) (u : vec).
Hypothesis Hx : regular (m_q x).
Hypothesis H0 : regular (m_q (x0 t)).
Notation cell := (hess_cell N x0 Qw Rw t x u).
Lemma cell_ok row dx1 dx2 c col : exists d1 d2 c', cell row (dx1, dx2, c) col = Ok (d1, d2, c') /\ (forall i, d1 i = dx1 i - if (i =? col)%nat then 2 * meps else 0) /\ (forall i, d2 i = dx2 i) /\
  (forall i j, ~ (i = row /\ j = col) -> c' i j = c i j) /\ (vector_coordinate col -> c' row col = wt t * (4 * meps * (dx1 col - dx2 col))).
Proof.
  unfold hess_cell. set (a1 := add_at dx1 col meps). destruct (cost_exists t x u a1 Hx H0) as [spp E1]. rewrite E1. cbn [bind]. set (a2 := add_at a1 col (- (2 * meps))). destruct (cost_exists t x u a2 Hx H0) as [spm E2]. rewrite E2. cbn [bind].
  set (b1 := add_at dx2 col meps). destruct (cost_exists t x u b1 Hx H0) as [smp E3]. rewrite E3. cbn [bind]. set (b2 := add_at b1 col (- (2 * meps))). destruct (cost_exists t x u b2 Hx H0) as [smm E4]. rewrite E4. cbn [bind].
  do 3 eexists. split; [reflexivity|]. split; [|split; [|split]].
  - intros i. unfold a2, a1, add_at. destruct (i =? col)%nat; ring.
  - intros i. unfold b2, b1, add_at. destruct (i =? col)%nat; ring.
  - intros i j Hn. destruct (Nat.eqb_spec i row), (Nat.eqb_spec j col); cbn [andb]; try reflexivity. exfalso. now apply Hn.
  - intros Hc. rewrite !Nat.eqb_refl. cbn [andb].
    assert (O : forall (d : vec) h i, i <> col -> add_at d col h i = d i) by (intros d h i Hi; unfold add_at; now rewrite (proj2 (Nat.eqb_neq i col) Hi)).
    assert (S : forall (d : vec) h, add_at d col h col = d col + h) by (intros d h; unfold add_at; now rewrite Nat.eqb_refl).
    pose proof (cost_difference t x u a1 a2 col spp spm Hc ltac:(intros i Hi; unfold a2; now rewrite O) E1 E2) as D1. pose proof (cost_difference t x u b1 b2 col smp smm Hc ltac:(intros i Hi; unfold b2; now rewrite O) E3 E4) as D2. cbv zeta in D1, D2.
    unfold a2 in D1. unfold b2 in D2. rewrite !S in D1, D2. unfold a1 in D1. unfold b1 in D2. rewrite !S in D1, D2.
    replace (spp - spm - smp + smm) with ((spp - spm) - (smp - smm)) by ring. rewrite D1, D2. ring.
Qed.
Lemma cells_ok row len : forall k (dx1 dx2 : vec) (c : mat), exists d1 d2 c', foldM (cell row) (seq k len) (dx1, dx2, c) = Ok (d1, d2, c') /\ (forall i, d1 i = dx1 i - if ((k <=? i) && (i <? k + len))%nat%bool then 2 * meps else 0) /\ (forall i, d2 i = dx2 i) /\
  (forall i j, ~ (i = row /\ (k <= j < k + len)%nat) -> c' i j = c i j) /\ (forall j, (k <= j < k + len)%nat -> vector_coordinate j -> c' row j = wt t * (4 * meps * (dx1 j - dx2 j))).
Proof.
  induction len as [|len IH]; intros k dx1 dx2 c.
  - exists dx1, dx2, c. split; [reflexivity|]. split; [|split; [reflexivity|split; [reflexivity|lia]]]. intros i. destruct (Nat.leb_spec k i), (Nat.ltb_spec i (k + 0)); cbn [andb]; try ring; lia.
  - cbn [seq]. rewrite foldM_cons. destruct (cell_ok row dx1 dx2 c k) as (e1 & e2 & e & -> & I1 & I2 & I3 & I4). cbn [bind]. destruct (IH (S k) e1 e2 e) as (d1 & d2 & c' & E & J1 & J2 & J3 & J4). exists d1, d2, c'. split; [exact E|]. split; [|split; [|split]].
    + intros i. rewrite J1, I1. destruct (Nat.leb_spec k i), (Nat.ltb_spec i (k + S len)), (Nat.leb_spec (S k) i), (Nat.ltb_spec i (S k + len)), (Nat.eqb_spec i k); cbn [andb]; try ring; lia.
    + intros i. now rewrite J2, I2.
    + intros i j Hn. rewrite J3 by lia. apply I3. lia.
    + intros j Hj Hv. destruct (Nat.eq_dec j k) as [->|Hne]; [rewrite J3 by lia; now apply I4|]. rewrite J4 by (auto; lia). rewrite I1, I2, (proj2 (Nat.eqb_neq j k) Hne). ring.
Qed.
Lemma row_ok row dx1 dx2 c : (row < 12)%nat -> exists d1 d2 c', hess_row N x0 Qw Rw t x u (dx1, dx2, c) row = Ok (d1, d2, c') /\ (forall i, (i < 12)%nat -> d1 i = dx1 i - 2 * meps) /\ (forall i, d2 i = dx2 i) /\
  (forall i j, (j < 12)%nat -> i <> row -> c' i j = c i j) /\ (forall j, vector_coordinate j -> c' row j = wt t * (4 * meps * (dx1 j - dx2 j + if (j =? row)%nat then 2 * meps else 0))).
Proof.
  intros Hr. unfold hess_row. destruct (cells_ok row 12 0 (add_at dx1 row meps) (add_at dx2 row (- meps)) c) as (e1 & e2 & e & -> & J1 & J2 & J3 & J4). cbn [bind]. do 3 eexists. split; [reflexivity|]. split; [|split; [|split]].
  - intros i Hi. unfold add_at at 1. rewrite J1. rewrite (proj2 (Nat.leb_le 0 i)), (proj2 (Nat.ltb_lt i (0 + 12))) by lia. cbn [andb]. unfold add_at. destruct (i =? row)%nat; ring.
  - intros i. unfold add_at at 1. rewrite J2. unfold add_at. destruct (i =? row)%nat; ring.
  - intros i j Hj Hi. apply J3. lia.
  - intros j Hv. rewrite J4 by (auto; destruct Hv; lia). unfold add_at. destruct (j =? row)%nat; ring.
Qed.
Lemma rows_ok len : forall k (dx1 dx2 : vec) (c : mat), (k + len <= 12)%nat -> (forall i, (i < 12)%nat -> dx1 i = - (2 * meps * INR k)) -> (forall i, dx2 i = 0) -> exists s c', foldM (hess_row N x0 Qw Rw t x u) (seq k len) (dx1, dx2, c) = Ok (s, c') /\
  (forall i j, (i < k)%nat -> (j < 12)%nat -> c' i j = c i j) /\
  (forall i j, (k <= i < k + len)%nat -> vector_coordinate j -> c' i j = wt t * (8 * meps ^ 2 * ((if (j =? i)%nat then 1 else 0) - INR i))).
Proof.
  induction len as [|len IH]; intros k dx1 dx2 c Hk H1 H2.
  - exists (dx1, dx2), c. split; [reflexivity|]. split; [reflexivity|lia].
  - cbn [seq]. rewrite foldM_cons. destruct (row_ok k dx1 dx2 c ltac:(lia)) as (e1 & e2 & e & -> & I1 & I2 & I3 & I4). cbn [bind]. destruct (IH (S k) e1 e2 e ltac:(lia)) as (s & c' & E & J1 & J2).
    { intros i Hi. rewrite I1, H1, S_INR by exact Hi. ring. } { intros i. now rewrite I2. }
    exists s, c'. split; [exact E|]. split.
    + intros i j Hi Hj. rewrite J1 by lia. apply I3; lia.
    + intros i j Hi Hv. destruct (Nat.eq_dec i k) as [->|Hne]; [|apply J2; auto; lia]. rewrite J1 by (destruct Hv; lia). rewrite I4, H1, H2 by (auto; destruct Hv; lia). destruct (j =? k)%nat; ring.
Qed.
(** ** The second derivative is not that of the cost: the entries of the vector coordinates are 1 on the diagonal minus the mean of the two indices (twice that at the final time). *)
Theorem C81_hessian_refuted : exists H, cost_dxdx N x0 Qw Rw t x u = Ok H /\ (forall i j, vector_coordinate i -> vector_coordinate j ->
    H i j = (if (t =? N)%nat then 2 else 1) * ((if (i =? j)%nat then 1 else 0) - (INR i + INR j) / 2)) /\
  exists z, bilin 12 12 z H z < 0.
Proof.
  unfold cost_dxdx. destruct (rows_ok 12 0 ((fun _ => 0) : vec) ((fun _ => 0) : vec) ((fun _ _ => 0) : mat) ltac:(lia)) as ([s1 s2] & c' & E & _ & J); [intros; cbn [INR]; ring|reflexivity|]. match goal with |- context [foldM ?f ?l ?s] => replace (foldM f l s) with (Ok (s1, s2, c')) by (symmetry; exact E) end. cbn [bind]. eexists. split; [reflexivity|].
  assert (HH : forall i j, vector_coordinate i -> vector_coordinate j -> / 2 * (c' i j / (4 * meps ^ 2) + c' j i / (4 * meps ^ 2)) = (if (t =? N)%nat then 2 else 1) * ((if (i =? j)%nat then 1 else 0) - (INR i + INR j) / 2)).
  { intros i j Hi Hj. rewrite !J by (auto; destruct Hi, Hj; lia). rewrite (Nat.eqb_sym j i). unfold wt, meps. destruct (t =? N)%nat, (i =? j)%nat; field. }
  split; [exact HH|]. exists (fun i => if (i =? 2)%nat then 1 else 0). rewrite bilin_dot.
  assert (X : vdot 12 (fun i => if (i =? 2)%nat then 1 else 0) (mv 12 (fun i j => / 2 * (c' i j / (4 * meps ^ 2) + c' j i / (4 * meps ^ 2))) (fun i => if (i =? 2)%nat then 1 else 0)) = / 2 * (c' 2%nat 2%nat / (4 * meps ^ 2) + c' 2%nat 2%nat / (4 * meps ^ 2))).
  { unfold IpModel.vdot. rewrite (rsum_single 12 2) by (try lia; intros i Hi Hne; rewrite (proj2 (Nat.eqb_neq i 2) Hne); ring). unfold mv. rewrite (rsum_single 12 2) by (try lia; intros i Hi Hne; rewrite (proj2 (Nat.eqb_neq i 2) Hne); ring). cbn [Nat.eqb]. ring. }
  rewrite X, HH by (left; lia). cbn [Nat.eqb INR]. destruct (t =? N)%nat; lra.
Qed.
(** ** The first derivative is right up to the step of the difference (5e-7), except that the final cost has no factor 1/2. *)
Theorem C81_gradient : (forall y c d, cost t y u = Ok c -> diff_x (x0 t) y = Ok d -> c = (if (t =? N)%nat then 1 else 1 / 2) * sum 12 (fun i => d i * d i) + (if (t =? N)%nat then 0 else 1 / 2 * bilin 6 6 u (Rw t) u)) /\
  exists g, cost_dx N x0 Qw Rw t x u = Ok g /\ forall i, vector_coordinate i -> g i = (if (t =? N)%nat then 2 else 1) * (coordinate (m_c x) (m_v x) (m_w x) i - coordinate (m_c (x0 t)) (m_v (x0 t)) (m_w (x0 t)) i + 1 / 2000000).
Proof.
  split.
  - intros y c d Hc Hd. rewrite (cost_is t y u d Hd) in Hc. assert (Hc2 : c = wt t * rsum 12 (fun i => d i * d i) + uc t u) by congruence. rewrite Hc2, sum_rsum, bilin_dot. unfold wt, uc. destruct (t =? N)%nat; [ring|]. rewrite (dot_tr 6 6 u (Rw t) u). field.
  - assert (I0 : exists c0, cost t x u = Ok c0 /\ forall a i c, vector_coordinate i -> (forall j, j <> i -> a j = 0) -> cost t (increment_x x a) u = Ok c -> let y := coordinate (m_c x) (m_v x) (m_w x) i - coordinate (m_c (x0 t)) (m_v (x0 t)) (m_w (x0 t)) i in c - c0 = wt t * ((y + a i) * (y + a i) - y * y)).
    { pose proof (increment_zero x) as Z.
      destruct (cost_exists t x u (fun _ => 0) Hx H0) as [c0 E0]. exists c0. rewrite Z in E0. split; [exact E0|]. intros a i c Hi Ha Hc y. rewrite <- Z in E0. rewrite (cost_difference t x u a (fun _ => 0) i c c0 Hi Ha Hc E0). fold y. ring. }
    destruct I0 as (c0 & E0 & ID). unfold cost_dx. rewrite E0. cbn [bind].
    assert (C : exists M, columns_of 12 (fun i => bind (cost t (increment_x x (unit_step i meps)) u) (fun cp => Ok (fun _ => (cp - c0) / meps))) = Ok M) by (apply columns_exist; intros i Hi; destruct (cost_exists t x u (unit_step i meps) Hx H0) as [c ->]; cbn [bind]; eauto).
    destruct C as [M EM]. rewrite EM. cbn [bind]. eexists. split; [reflexivity|]. intros i Hi. destruct (columns_ok 12 _ M EM i) as (v & Ev & Hv); [destruct Hi; lia|]. cbv beta in Ev. destruct (cost t (increment_x x (unit_step i meps)) u) as [c| |] eqn:Ec; cbn [bind] in Ev; try discriminate. injection Ev as <-. rewrite Hv.
    pose proof (ID (unit_step i meps) i c Hi ltac:(intros j Hj; unfold unit_step; now rewrite (proj2 (Nat.eqb_neq j i) Hj)) Ec) as D. cbv zeta in D. rewrite D. unfold unit_step. rewrite Nat.eqb_refl. unfold wt, meps. destruct (t =? N)%nat; field.
Qed.
(** ** The derivatives by the control before the final time: gradient up to the step, second derivative exact. *)
Theorem C81_control_derivatives : t <> N -> symmetric 6 (Rw t) -> exists g, cost_du N x0 Qw Rw t x u = Ok g /\ (forall i, (i < 6)%nat -> g i = sum 6 (fun j => Rw t i j * u j) + Rw t i i / 2000000) /\
  forall i j, (i < 6)%nat -> (j < 6)%nat -> cost_dudu N Rw t i j = Rw t i j.
Proof.
  intros Ht HS. destruct (cost_exists t x u (fun _ => 0) Hx H0) as [cz Ez]. rewrite increment_zero in Ez. unfold ManModel.cost in Ez. destruct (diff_x (x0 t) x) as [d| |] eqn:Ed; try discriminate. clear cz Ez.
  unfold cost_du. rewrite (cost_is t x u d Ed). cbn [bind].
  assert (C : exists M, columns_of 6 (fun i => bind (cost t x (vplus u (unit_step i meps))) (fun cp => Ok (fun _ => (cp - (wt t * rsum 12 (fun i => d i * d i) + uc t u)) / meps))) = Ok M).
  { apply columns_exist. intros i Hi. rewrite (cost_is t x _ d Ed). cbn [bind]. eauto. }
  destruct C as [M EM]. rewrite EM. cbn [bind]. eexists. split; [reflexivity|]. split.
  - intros i Hi. destruct (columns_ok 6 _ M EM i Hi) as (v & Ev & Hv). cbv beta in Ev. rewrite (cost_is t x _ d Ed) in Ev. cbn [bind] in Ev.
    assert (Ev' : v = fun _ : nat => (wt t * rsum 12 (fun i => d i * d i) + uc t (vplus u (unit_step i meps)) - (wt t * rsum 12 (fun i => d i * d i) + uc t u)) / meps) by congruence. rewrite Hv, Ev'. clear Ev Ev' Hv.
    assert (U : forall w, uc t w = / 2 * vdot 6 w (mv 6 (Rw t) w)) by (intros w; unfold uc; rewrite (proj2 (Nat.eqb_neq t N) Ht), <- dot_tr; reflexivity). rewrite !U, quad_plus by exact HS.
    assert (S1 : forall w, vdot 6 (unit_step i meps) w = meps * w i) by (intros w; unfold IpModel.vdot; rewrite (rsum_single 6 i) by (auto; intros j Hj Hne; unfold unit_step; rewrite (proj2 (Nat.eqb_neq j i) Hne); ring); unfold unit_step; now rewrite Nat.eqb_refl).
    rewrite !S1. assert (S2 : mv 6 (Rw t) (unit_step i meps) i = Rw t i i * meps) by (unfold mv; rewrite (rsum_single 6 i) by (auto; intros j Hj Hne; unfold unit_step; rewrite (proj2 (Nat.eqb_neq j i) Hne); ring); unfold unit_step; now rewrite Nat.eqb_refl).
    rewrite S2, sum_rsum. fold (mv 6 (Rw t) u i). unfold meps. field.
  - intros i j Hi Hj. unfold cost_dudu. rewrite (proj2 (Nat.eqb_neq t N) Ht), (HS j i Hj Hi). field.
Qed.
Print Assumptions C81_control_derivatives.
Print Assumptions C81_hessian_refuted.
Print Assumptions C81_gradient.
End Hess.
End Costs.

(** Instance: a standing robot, at the final time. *)
Example C81_ex : exists H, cost_dxdx 3 (fun _ => standing_state) (fun _ => ident) (fun _ => ident) 3 standing_state (fun _ => 0) = Ok H /\ H 0%nat 0%nat = 2 /\ H 2%nat 2%nat = -2.
Proof.
  assert (Rg : regular (m_q standing_state)) by (unfold regular, standing_state, norm2; cbn; lra).
  destruct (C81_hessian_refuted 3 (fun _ => standing_state) (fun _ => ident) 3 standing_state (fun _ => 0) Rg Rg) as (H & E & HH & _). exists H. split; [exact E|]. rewrite !HH by (left; lia). cbn. lra.
Qed.

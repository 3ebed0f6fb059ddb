(** * C36: terrain regions *)
From Coq Require Import Reals List Arith ZArith Lia Lra Psatz Bool.
Import ListNotations.
From Verif Require Import Base BaseProofs Vec3 TerrModel TerrSpec TerrProofs.
Local Open Scope R_scope.

(** Every strictly convex polygon with any number of corners, in any plane: the half-spaces cut exactly the convex hull of the corners out of the plane. *)
Theorem C36_region_is_hull : forall up vs id, ccw_polygon up vs -> exists r, init_region vs id = Ok r /\
  (forall x, in_hull vs x -> in_plane up vs x) /\ (forall x, in_plane up vs x -> (in_region r x <-> in_hull vs x)).
Proof.
  intros up vs id H. destruct (region_is up vs H id) as (r & E & _ & _ & LA & LB & R). exists r. split; [exact E|].
  assert (W : forall x, in_hull vs x -> forall i, (i < length vs)%nat -> 0 <= turn up (vertex vs i) (vertex vs (next vs i)) x).
  { intros x (w & Lw & Pw & Sw & ->) i Hi.
    set (f := fun y => - vdot (vcross (vsub (vertex vs (next vs i)) (vertex vs i)) y) up).
    assert (F : f (combination w vs) <= fold_right Rplus 0 w * f (vertex vs i)).
    { apply combination_le; auto.
      - intros. unfold f. vunfold. ring.
      - intros. unfold f. vunfold. ring.
      - intros v Hv. apply In_nth with (d := v0) in Hv. destruct Hv as (j & Hj & <-). pose proof (turn_nonneg up vs H i j Hi Hj) as T. unfold f, vertex in *. vunfold. lra.
      - unfold f. vunfold. ring. }
    rewrite Sw in F. unfold f in F. vunfold. lra. }
  split.
  - intros x (w & Lw & Pw & Sw & ->). unfold in_plane.
    assert (F : vdot (combination w vs) up = fold_right Rplus 0 w * vdot (vertex vs 0) up).
    { apply (combination_eq (fun y => vdot y up)); auto.
      - intros. vunfold. ring.
      - intros. vunfold. ring.
      - intros v Hv. apply In_nth with (d := v0) in Hv. destruct Hv as (j & Hj & <-). pose proof (proj1 (proj2 H) j 0%nat Hj ltac:(lia)) as T. unfold vertex in *. vunfold. lra.
      - vunfold. ring. }
    rewrite Sw in F. vunfold. lra.
  - intros x Px. split.
    + intros (_ & HR). apply (region_hull up vs x H Px). intros i Hi. destruct (R i Hi) as (a & b & k & Ea & Eb & _ & Hk & D).
      destruct (HR i _ _ Ea Eb) as (a' & b' & Ea' & Eb' & LE). injection Ea' as <-. injection Eb' as <-. specialize (D x). apply Rmult_le_reg_l with k; [exact Hk|]. lra.
    + intros Hx. split; [lia|]. intros i oa ob Ha Hb. assert (Hi : (i < length vs)%nat). { rewrite <- LA. apply nth_error_Some. congruence. }
      destruct (R i Hi) as (a & b & k & Ea & Eb & _ & Hk & D). rewrite Ea in Ha. rewrite Eb in Hb. injection Ha as <-. injection Hb as <-. exists a, b. split; [reflexivity|]. split; [reflexivity|].
      specialize (D x). specialize (W x Hx i Hi). nra.
Qed.
(** The normal is a unit vector orthogonal to the plane, pointing to the side from which the corners are clockwise (opposite to up); row i of the
    description is a unit vector and its half-space has the two corners of edge i on its boundary. *)
Theorem C36_normal : forall up vs id, ccw_polygon up vs -> exists r nrm, init_region vs id = Ok r /\ r_normal r = Some nrm /\ vdot nrm nrm = 1 /\
  (forall x, in_plane up vs x -> vdot nrm (vsub x (vertex vs 0)) = 0) /\ vdot nrm up < 0 /\ vcross nrm up = v0 /\ r_id r = id.
Proof.
  intros up vs id H. destruct (region_is up vs H id) as (r & E & I & N & _). destruct (vunit_some up (up_nonzero up vs H)) as (Pu & EU). destruct (vunit_unit _ _ EU) as (U1 & _).
  exists r, (vscale (-1) (vscale (/ vnorm up) up)). split; [exact E|]. split; [exact N|]. split; [|split; [|split; [|split]]].
  - rewrite <- U1. vunfold. ring.
  - intros x Px. unfold in_plane in Px. transitivity (- / vnorm up * vdot (vsub x (vertex vs 0)) up); [vunfold; ring|]. rewrite Px. ring.
  - replace (vdot (vscale (-1) (vscale (/ vnorm up) up)) up) with (- / vnorm up * vdot up up) by (vunfold; ring). rewrite <- vnorm_sq. field_simplify; lra.
  - apply vec_eq; vunfold; ring.
  - exact I.
Qed.
Theorem C36_halfspaces : forall up vs id, ccw_polygon up vs -> exists r, init_region vs id = Ok r /\ length (r_A r) = length vs /\ length (r_b r) = length vs /\
  forall i, (i < length vs)%nat -> exists a b, nth_error (r_A r) i = Some (Some a) /\ nth_error (r_b r) i = Some (Some b) /\ vdot a a = 1 /\
    vdot a (vertex vs i) = b /\ vdot a (vertex vs (next vs i)) = b /\ (forall j, (j < length vs)%nat -> j <> i -> j <> next vs i -> vdot a (vertex vs j) < b).
Proof.
  intros up vs id H. destruct (region_is up vs H id) as (r & E & _ & _ & LA & LB & R). exists r. split; [exact E|]. split; [exact LA|]. split; [exact LB|].
  intros i Hi. destruct (R i Hi) as (a & b & k & Ea & Eb & Ua & Hk & D). exists a, b. split; [exact Ea|]. split; [exact Eb|]. split; [exact Ua|]. split; [|split].
  - pose proof (D (vertex vs i)) as X. unfold turn in X. vunfold. lra.
  - pose proof (D (vertex vs (next vs i))) as X. unfold turn in X. vunfold. lra.
  - intros j Hj N1 N2. pose proof (D (vertex vs j)) as X. pose proof (proj2 (proj2 H) i j Hi Hj N1 N2) as T.
    assert (0 < k * turn up (vertex vs i) (vertex vs (next vs i)) (vertex vs j)) by now apply Rmult_lt_0_compat. lra.
Qed.
(** The rotation: rows are unit vectors, the last is opposite to the normal and orthogonal to the others; it is a rotation matrix if the first two
    edges are perpendicular, and only then. *)
Theorem C36_rotation : forall up vs id, ccw_polygon up vs -> exists r u v w nrm, init_region vs id = Ok r /\
  r_rot0 r = Some u /\ r_rot1 r = Some v /\ r_rot2 r = Some w /\ r_normal r = Some nrm /\
  vdot u u = 1 /\ vdot v v = 1 /\ vdot w w = 1 /\ vdot u w = 0 /\ vdot v w = 0 /\ w = vscale (-1) nrm /\
  (vdot u v = 0 <-> vdot (vsub (vertex vs 1) (vertex vs 0)) (vsub (vertex vs 2) (vertex vs 1)) = 0) /\
  (vdot u v = 0 -> w = vcross u v).
Proof.
  intros up vs id H. destruct (region_is up vs H id) as (r & E & _ & N & _). destruct (poly_three up vs H) as (p0 & p1 & p2 & rr & Evs).
  destruct (normal_dir up vs H) as (k & Hk & Ek). pose proof (up_nonzero up vs H) as U.
  unfold vertex in *. rewrite Evs in *. cbn [nth] in *. pose proof E as E0. cbn [init_region] in E0. injection E0 as <-. cbn [r_rot0 r_rot1 r_rot2 r_normal] in *.
  set (a1 := vsub p0 p1). set (a2 := vsub p1 p2).
  assert (C : vcross a1 a2 = vscale k up). { apply vec_eq; [apply (f_equal vx) in Ek|apply (f_equal vy) in Ek|apply (f_equal vz) in Ek]; unfold a1, a2; vunfold; lra. }
  assert (Cn : vcross a1 a2 <> v0). { rewrite C. intros X. apply U. apply vec_eq; [apply (f_equal vx) in X|apply (f_equal vy) in X|apply (f_equal vz) in X]; vunfold; (apply Rmult_integral in X; lra). }
  assert (An : a1 <> v0) by (intros X; apply Cn; rewrite X; apply vec_eq; vunfold; ring).
  assert (Bn : a2 <> v0) by (intros X; apply Cn; rewrite X; apply vec_eq; vunfold; ring).
  destruct (vunit_some _ An) as (Pa & Ea). destruct (vunit_some _ Bn) as (Pb & Eb). destruct (vunit_some _ Cn) as (Pc & Ec).
  destruct (vunit_unit _ _ Ea) as (Ua & _). destruct (vunit_unit _ _ Eb) as (Ub & _). destruct (vunit_unit _ _ Ec) as (Uc & _).
  do 5 eexists. split; [exact E|]. split; [exact Ea|]. split; [exact Eb|]. split; [exact Ec|]. split; [exact N|].
  split; [exact Ua|]. split; [exact Ub|]. split; [exact Uc|].
  assert (Nk : vnorm (vcross a1 a2) = k * vnorm up). { rewrite C. unfold vnorm. replace (vdot (vscale k up) (vscale k up)) with (Rsqr k * vdot up up) by (unfold Rsqr; vunfold; ring). rewrite sqrt_mult_alt by apply Rle_0_sqr. now rewrite sqrt_Rsqr by lra. }
  destruct (vunit_some up U) as (Pu & _).
  split; [|split; [|split; [|split]]].
  - transitivity (/ vnorm a1 * / vnorm (vcross a1 a2) * vdot a1 (vcross a1 a2)); [vunfold; ring|]. replace (vdot a1 (vcross a1 a2)) with 0 by (vunfold; ring). ring.
  - transitivity (/ vnorm a2 * / vnorm (vcross a1 a2) * vdot a2 (vcross a1 a2)); [vunfold; ring|]. replace (vdot a2 (vcross a1 a2)) with 0 by (vunfold; ring). ring.
  - rewrite Nk, C. apply vec_eq; cbn [vscale vx vy vz]; field; lra.
  - assert (X : vdot (vscale (/ vnorm a1) a1) (vscale (/ vnorm a2) a2) = / vnorm a1 * / vnorm a2 * vdot (vsub p1 p0) (vsub p2 p1)) by (unfold a1, a2; vunfold; ring).
    rewrite X. split; intros Z; [|rewrite Z; ring]. apply Rmult_integral in Z. destruct Z as [Z|Z]; [|exact Z]. apply Rmult_integral in Z. pose proof (Rinv_0_lt_compat _ Pa). pose proof (Rinv_0_lt_compat _ Pb). lra.
  - intros Z. assert (D : vdot a1 a2 = 0). { assert (X : vdot a1 a2 = vnorm a1 * vnorm a2 * vdot (vscale (/ vnorm a1) a1) (vscale (/ vnorm a2) a2)). { transitivity (vnorm a1 * vnorm a2 * (/ vnorm a1 * / vnorm a2 * vdot a1 a2)); [field; lra|vunfold; ring]. } rewrite X, Z. ring. }
    assert (Nc : vnorm (vcross a1 a2) = vnorm a1 * vnorm a2).
    { unfold vnorm. rewrite <- sqrt_mult by apply vdot_pos. f_equal. transitivity (vdot a1 a1 * vdot a2 a2 - vdot a1 a2 * vdot a1 a2); [vunfold; ring|]. rewrite D. ring. }
    rewrite Nc. apply vec_eq; vunfold; field; lra.
Qed.
(** The reference point is the mean of the corners, a point of the region. *)
Theorem C36_point : forall vs id r, init_region vs id = Ok r -> in_hull vs (r_point r).
Proof.
  intros vs id r E. assert (L : (0 < length vs)%nat) by (destruct vs; [discriminate|cbn; lia]).
  assert (P : r_point r = vscale (/ INR (length vs)) (vsum vs)). { destruct vs as [|p0 [|p1 [|p2 rr]]]; try discriminate. injection E as <-. reflexivity. }
  assert (Hn : 0 < INR (length vs)) by now apply lt_0_INR.
  exists (repeat (/ INR (length vs)) (length vs)). split; [apply repeat_length|]. split; [|split].
  - apply Forall_forall. intros x Hx. apply repeat_spec in Hx. subst. left. now apply Rinv_0_lt_compat.
  - set (c := / INR (length vs)). assert (G : forall n, fold_right Rplus 0 (repeat c n) = INR n * c). { induction n; [cbn; ring|]. cbn [repeat fold_right]. rewrite IHn, S_INR. ring. } rewrite G. unfold c. field. lra.
  - rewrite P. set (c := / INR (length vs)). clearbody c. clear. assert (G : forall l a, vscale c (fold_left vadd l a) = vadd (vscale c a) (combination (repeat c (length l)) l)).
    { induction l as [|v l IH]; intros a; cbn [fold_left length repeat combination]; [apply vec_eq; vunfold; ring|]. rewrite IH. apply vec_eq; cbn [vadd vscale vx vy vz]; ring. }
    unfold vsum. rewrite G. apply vec_eq; vunfold; ring.
Qed.
(** Regions are numbered by their position, over all histories of additions and loads. *)
Theorem C36_ids : forall rs t t', (forall k r, nth_error t k = Some r -> r_id r = Z.of_nat k) -> load_regions t rs = Ok t' ->
  length t' = (length t + length rs)%nat /\ (forall k r, nth_error t' k = Some r -> r_id r = Z.of_nat k) /\ (forall k, (k < length t)%nat -> nth_error t' k = nth_error t k).
Proof.
  induction rs as [|vs rs IH]; intros t t' Ht E.
  - injection E as <-. split; [cbn; lia|]. auto.
  - unfold load_regions in E. cbn [foldM] in E. unfold add_region at 1 in E. destruct (init_region vs (Z.of_nat (length t + 1) - 1)) as [r| |] eqn:Er; try discriminate. cbn [bind] in E.
    assert (Ir : r_id r = Z.of_nat (length t)). { destruct vs as [|p0 [|p1 [|p2 rr]]]; try discriminate. injection Er as <-. cbn [r_id]. lia. }
    destruct (IH (t ++ [r]) t') as (a & b & c).
    + intros k x Hx. destruct (lt_dec k (length t)) as [L|L]; [rewrite nth_error_app1 in Hx by exact L; auto|]. rewrite nth_error_app2 in Hx by lia.
      destruct (k - length t)%nat as [|m] eqn:Em; [|destruct m; discriminate]. injection Hx as <-. rewrite Ir. f_equal. lia.
    + exact E.
    + rewrite app_length in a, c. cbn [length] in *. split; [lia|]. split; [exact b|]. intros k Hk. rewrite c by lia. now apply nth_error_app1.
Qed.
Print Assumptions C36_region_is_hull.
Print Assumptions C36_normal.
Print Assumptions C36_halfspaces.
Print Assumptions C36_rotation.
Print Assumptions C36_point.
Print Assumptions C36_ids.

(** ** Non-vacuity: a tilted square. *)
Definition square : list vec3 := [V3 0 0 0; V3 1 0 0; V3 1 1 1; V3 0 1 1].
Example square_polygon : ccw_polygon (V3 0 (-1) 1) square.
Proof.
  split; [cbn; lia|]. split.
  - intros i j Hi Hj. cbn in Hi, Hj. destruct i as [|[|[|[|i]]]], j as [|[|[|[|j]]]]; try lia; unfold vertex, square; cbn [nth]; vunfold; lra.
  - intros i j Hi Hj N1 N2. cbn in Hi, Hj. destruct i as [|[|[|[|i]]]], j as [|[|[|[|j]]]]; try lia; unfold next in *; cbn [length square Nat.eqb] in *; try lia; unfold vertex, square; cbn [nth]; vunfold; lra.
Qed.
(** Seen from the other side the same corners are the polygon of the opposite direction: the theorems hold for both orders, the normal changes side. *)
Example reversed_polygon : ccw_polygon (V3 0 1 (-1)) (rev square).
Proof.
  split; [cbn; lia|]. split.
  - intros i j Hi Hj. cbn in Hi, Hj. destruct i as [|[|[|[|i]]]], j as [|[|[|[|j]]]]; try lia; unfold vertex, square; cbn [rev app nth]; vunfold; lra.
  - intros i j Hi Hj N1 N2. cbn in Hi, Hj. destruct i as [|[|[|[|i]]]], j as [|[|[|[|j]]]]; try lia; unfold next in *; cbn [length square rev app Nat.eqb] in *; try lia; unfold vertex, square; cbn [rev app nth]; vunfold; lra.
Qed.

(** ** What goes wrong *)
(** A region of fewer than three vertices reads outside the matrix. *)
Theorem C36_few_vertices_refuted : forall vs id, (length vs < 3)%nat -> init_region vs id = UB.
Proof. intros [|a [|b [|c vs]]] id H; cbn in H; try lia; reflexivity. Qed.
(** A triangle (not with a right angle at its second corner): the rotation is not orthonormal. *)
Theorem C36_rotation_refuted : exists up vs r u v, ccw_polygon up vs /\ init_region vs 0 = Ok r /\ r_rot0 r = Some u /\ r_rot1 r = Some v /\ vdot u v <> 0.
Proof.
  assert (T : ccw_polygon (V3 0 0 1) [V3 0 0 0; V3 1 0 0; V3 0 1 0]).
  { split; [cbn; lia|]. split.
    - intros i j Hi Hj. cbn in Hi, Hj. destruct i as [|[|[|i]]], j as [|[|[|j]]]; try lia; unfold vertex; cbn [nth]; vunfold; lra.
    - intros i j Hi Hj N1 N2. cbn in Hi, Hj. destruct i as [|[|[|i]]], j as [|[|[|j]]]; try lia; unfold next in *; cbn [length Nat.eqb] in *; try lia; unfold vertex; cbn [nth]; vunfold; lra. }
  destruct (C36_rotation _ _ 0%Z T) as (r & u & v & w & nrm & E & Eu & Ev & _ & _ & _ & _ & _ & _ & _ & _ & D & _).
  exists (V3 0 0 1), [V3 0 0 0; V3 1 0 0; V3 0 1 0], r, u, v. repeat (split; [assumption|]). intros X. apply D in X. unfold vertex in X. cbn [nth] in X. vunfold. lra.
Qed.
(** Collinear first corners: the region has no finite description although the corners span an area. *)
Theorem C36_collinear_refuted : exists vs r, init_region vs 0 = Ok r /\ r_normal r = None /\ Forall (fun a => a = None) (r_A r) /\
  0 < turn (V3 0 0 1) (vertex vs 0) (vertex vs 1) (vertex vs 3).
Proof.
  exists [V3 0 0 0; V3 1 0 0; V3 2 0 0; V3 0 1 0].
  assert (Z : vunit (vcross (vsub (V3 2 0 0) (V3 1 0 0)) (vsub (V3 1 0 0) (V3 0 0 0))) = None).
  { unfold vunit, vnorm. replace (vdot _ _) with 0 by (vunfold; ring). rewrite sqrt_0. destruct (Req_EM_T 0 0); [reflexivity|lra]. }
  eexists. split; [reflexivity|]. cbn [r_normal r_A]. rewrite Z. split; [reflexivity|]. split; [repeat constructor|]. unfold vertex. cbn [nth]. vunfold. lra.
Qed.
Print Assumptions C36_few_vertices_refuted.
Print Assumptions C36_rotation_refuted.
Print Assumptions C36_collinear_refuted.

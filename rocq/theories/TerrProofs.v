(** * Proofs: terrain regions *)
From Coq Require Import Reals List Arith ZArith Lia Lra Psatz Bool.
Import ListNotations.
From Verif Require Import Base BaseProofs Vec3 TerrModel TerrSpec.
Local Open Scope R_scope.

Ltac vunfold := unfold turn, vdot, vcross, vsub, vadd, vscale, v0 in *; cbn [vx vy vz] in *.
Lemma vec_eq : forall a b, vx a = vx b -> vy a = vy b -> vz a = vz b -> a = b.
Proof. intros [] []; cbn; intros; subst; reflexivity. Qed.
Lemma vdot_pos : forall v, 0 <= vdot v v.
Proof. intros v. unfold vdot. nra. Qed.
Lemma vdot_zero : forall v, vdot v v = 0 -> v = v0.
Proof. intros [x y z] H. vunfold. apply vec_eq; cbn; nra. Qed.
Lemma vnorm_sq : forall v, vnorm v * vnorm v = vdot v v.
Proof. intros. apply sqrt_sqrt, vdot_pos. Qed.
Lemma vnorm_nonneg : forall v, 0 <= vnorm v.
Proof. intros. apply sqrt_pos. Qed.
Lemma vnorm_pos : forall v, 0 < vdot v v -> 0 < vnorm v.
Proof. intros. now apply sqrt_lt_R0. Qed.
Lemma vunit_some : forall v, v <> v0 -> 0 < vnorm v /\ vunit v = Some (vscale (/ vnorm v) v).
Proof.
  intros v H. assert (P : 0 < vdot v v). { destruct (Rle_lt_or_eq_dec 0 (vdot v v) (vdot_pos v)) as [L|L]; [exact L|]. exfalso. apply H, vdot_zero. now symmetry. }
  pose proof (vnorm_pos v P). split; [exact H0|]. unfold vunit. destruct (Req_EM_T (vnorm v) 0); [lra|reflexivity].
Qed.
Lemma vunit_unit : forall v u, vunit v = Some u -> vdot u u = 1 /\ 0 < vnorm v /\ u = vscale (/ vnorm v) v.
Proof.
  intros v u H. unfold vunit in H. destruct (Req_EM_T (vnorm v) 0) as [|N]; [discriminate|]. injection H as <-.
  assert (0 < vnorm v). { destruct (vnorm_nonneg v); [assumption|congruence]. }
  split; [|split; [assumption|reflexivity]]. pose proof (vnorm_sq v).
  transitivity (/ vnorm v * / vnorm v * vdot v v); [vunfold; ring|]. rewrite <- H0. field. lra.
Qed.

(** ** Lists *)
Lemma shifted_length : forall vs, length (shifted vs) = length vs.
Proof. intros [|v r]; [reflexivity|]. cbn. rewrite app_length. cbn. lia. Qed.
Lemma shifted_nth : forall vs i, (i < length vs)%nat -> nth i (shifted vs) v0 = vertex vs (next vs i).
Proof.
  intros [|v r] i H; [cbn in H; lia|]. unfold vertex, next. cbn [shifted length] in *. destruct (S i =? S (length r))%nat eqn:E.
  - apply Nat.eqb_eq in E. injection E as ->. rewrite app_nth2 by lia. now rewrite Nat.sub_diag.
  - apply Nat.eqb_neq in E. rewrite app_nth1 by lia. reflexivity.
Qed.
Lemma nth_error_combine : forall A B (l : list A) (m : list B) i a b, nth_error l i = Some a -> nth_error m i = Some b -> nth_error (combine l m) i = Some (a, b).
Proof. induction l as [|x l IH]; intros [|y m] [|i] a b H1 H2; cbn in *; try discriminate. injection H1 as ->. injection H2 as ->. reflexivity. now apply IH. Qed.
Lemma vertex_error : forall vs i, (i < length vs)%nat -> nth_error vs i = Some (vertex vs i).
Proof. intros. now apply nth_error_nth'. Qed.
Lemma shifted_error : forall vs i, (i < length vs)%nat -> nth_error (shifted vs) i = Some (vertex vs (next vs i)).
Proof. intros. rewrite <- shifted_nth by assumption. apply nth_error_nth'. now rewrite shifted_length. Qed.
Lemma edges_nth : forall vs i, (i < length vs)%nat -> nth_error (edges vs) i = Some (vadd (vscale (-1) (vertex vs i)) (vertex vs (next vs i))).
Proof. intros. unfold edges. rewrite nth_error_map, (nth_error_combine _ _ _ _ _ _ _ (vertex_error _ _ H) (shifted_error _ _ H)). reflexivity. Qed.
Lemma middles_nth : forall vs i, (i < length vs)%nat -> nth_error (middles vs) i = Some (vadd (vscale (/ 2) (vertex vs i)) (vscale (/ 2) (vertex vs (next vs i)))).
Proof. intros. unfold middles. rewrite nth_error_map, (nth_error_combine _ _ _ _ _ _ _ (vertex_error _ _ H) (shifted_error _ _ H)). reflexivity. Qed.
Lemma edges_length : forall vs, length (edges vs) = length vs.
Proof. intros. unfold edges. rewrite map_length, combine_length, shifted_length. lia. Qed.
Lemma middles_length : forall vs, length (middles vs) = length vs.
Proof. intros. unfold middles. rewrite map_length, combine_length, shifted_length. lia. Qed.
Lemma next_lt : forall vs i, (i < length vs)%nat -> (next vs i < length vs)%nat.
Proof. intros. unfold next. destruct (S i =? length vs)%nat eqn:E; [lia|]. apply Nat.eqb_neq in E. lia. Qed.
Lemma next_ne : forall vs i, (2 <= length vs)%nat -> (i < length vs)%nat -> next vs i <> i.
Proof. intros. unfold next. destruct (S i =? length vs)%nat eqn:E; [apply Nat.eqb_eq in E; lia|lia]. Qed.

(** ** Vector identities *)
Lemma four : forall a b c n, vdot a n = 0 -> vdot b n = 0 -> vdot c n = 0 -> n <> v0 ->
  vscale (vdot (vcross a b) n) c = vadd (vscale (vdot (vcross c b) n) a) (vscale (vdot (vcross a c) n) b).
Proof.
  intros a b c n Ha Hb Hc Hn.
  assert (T : vdot (vcross a b) c = 0).
  { assert (X : vdot (vcross a b) c * vdot n n = 0).
    { transitivity (vdot a n * vdot (vcross b c) n + vdot b n * vdot (vcross c a) n + vdot c n * vdot (vcross a b) n); [vunfold; ring|]. rewrite Ha, Hb, Hc. ring. }
    apply Rmult_integral in X. destruct X as [X|X]; [exact X|]. now apply vdot_zero in X. }
  assert (ID : forall f, (f = vx \/ f = vy \/ f = vz) ->
     f (vscale (vdot (vcross a b) n) c) = f (vadd (vscale (vdot (vcross c b) n) a) (vscale (vdot (vcross a c) n) b)) + vdot (vcross a b) c * f n).
  { intros f [->|[->| ->]]; vunfold; ring. }
  apply vec_eq; rewrite ID by auto; rewrite T; ring.
Qed.
Lemma cross_plane : forall a b n, vdot a n = 0 -> vdot b n = 0 -> n <> v0 -> vscale (vdot n n) (vcross a b) = vscale (vdot (vcross a b) n) n.
Proof.
  intros a b n Ha Hb Hn. (* n x (a x b) = a (n.b) - b (n.a) = 0 *)
  assert (P : forall f, (f = vx \/ f = vy \/ f = vz) -> exists p q r, f (vscale (vdot n n) (vcross a b)) - f (vscale (vdot (vcross a b) n) n) = p * vdot a n + q * vdot b n + r * 0).
  { intros f [->|[->| ->]].
    - exists (vy n * vz b - vz n * vy b), (vz n * vy a - vy n * vz a), 0. vunfold. ring.
    - exists (vz n * vx b - vx n * vz b), (vx n * vz a - vz n * vx a), 0. vunfold. ring.
    - exists (vx n * vy b - vy n * vx b), (vy n * vx a - vx n * vy a), 0. vunfold. ring. }
  apply vec_eq; match goal with |- ?f _ = _ => destruct (P f) as (p & q & r & E); [auto|]; rewrite Ha, Hb in E; lra end.
Qed.

(** ** The normal and the half-spaces of a polygon *)
Section Polygon.
  Context (up : vec3) (vs : list vec3) (H : ccw_polygon up vs).
  Let n := length vs.
  Let V := vertex vs.
  Let E i := vsub (V (next vs i)) (V i).
  Lemma poly_three : exists p0 p1 p2 r, vs = p0 :: p1 :: p2 :: r.
  Proof. destruct H as (L & _). destruct vs as [|p0 [|p1 [|p2 r]]]; cbn in L; try lia. eauto. Qed.
  Lemma edge_plane : forall i, (i < n)%nat -> vdot (E i) up = 0.
  Proof. intros i Hi. destruct H as (_ & P & _). apply P; [now apply next_lt|exact Hi]. Qed.
  Lemma third : forall i, (i < n)%nat -> exists j, (j < n)%nat /\ j <> i /\ j <> next vs i.
  Proof.
    intros i Hi. destruct H as (L & _). fold n in L. pose proof (next_lt vs i Hi) as Hn. fold n in Hn.
    destruct (Nat.eq_dec i 0) as [->|]; [|destruct (Nat.eq_dec (next vs i) 0) as [E0|]].
    - destruct (Nat.eq_dec (next vs 0) 1) as [E1|]; [exists 2%nat|exists 1%nat]; repeat split; lia.
    - destruct (Nat.eq_dec i 1); [exists 2%nat|exists 1%nat]; repeat split; lia.
    - exists 0%nat. repeat split; lia.
  Qed.
  Lemma up_nonzero : up <> v0.
  Proof.
    intros X. destruct H as (L & _ & T). destruct (third 0) as (j & a & b & c); [unfold n; lia|]. specialize (T 0%nat j ltac:(lia) a b c). rewrite X in T. vunfold. lra.
  Qed.
  Lemma turn_nonneg : forall i j, (i < n)%nat -> (j < n)%nat -> 0 <= turn up (V i) (V (next vs i)) (V j).
  Proof.
    intros i j Hi Hj. destruct (Nat.eq_dec j i) as [->|N1]; [unfold turn; vunfold; lra|]. destruct (Nat.eq_dec j (next vs i)) as [->|N2]; [unfold turn; vunfold; lra|].
    left. apply H; assumption.
  Qed.
  (** (v2 - v1) x (v1 - v0) is a negative multiple of up. *)
  Lemma normal_dir : exists k, 0 < k /\ vcross (vsub (V 2) (V 1)) (vsub (V 1) (V 0)) = vscale (- k) up.
  Proof.
    destruct H as (L & P & T). pose proof up_nonzero as U.
    assert (N1 : next vs 0 = 1%nat). { unfold next. destruct (1 =? length vs)%nat eqn:B; [apply Nat.eqb_eq in B; lia|reflexivity]. }
    pose proof (T 0%nat 2%nat ltac:(lia) ltac:(lia) ltac:(lia) ltac:(rewrite N1; lia)) as T02. rewrite N1 in T02.
    assert (UU : 0 < vdot up up). { destruct (vdot_pos up) as [|X]; [assumption|]. symmetry in X. now apply vdot_zero in X. }
    set (a := vsub (V 2) (V 1)). set (b := vsub (V 1) (V 0)).
    assert (C : vscale (vdot up up) (vcross a b) = vscale (vdot (vcross a b) up) up). { apply cross_plane; [apply P; lia|apply P; lia|exact U]. }
    assert (S : vdot (vcross a b) up = - turn up (V 0) (V 1) (V 2)). { unfold a, b. vunfold. ring. }
    rewrite S in C. exists (turn up (V 0) (V 1) (V 2) / vdot up up). split; [apply Rdiv_lt_0_compat; assumption|].
    set (t := turn up (V 0) (V 1) (V 2)) in *. set (q := vdot up up) in *. set (c := vcross a b) in *.
    assert (G : forall f, (f = vx \/ f = vy \/ f = vz) -> f c = f (vscale (- (t / q)) up)).
    { intros f Hf. assert (X : f (vscale q c) = f (vscale (- t) up)) by now rewrite C. apply Rmult_eq_reg_l with q; [|lra].
      destruct Hf as [->|[->| ->]]; cbn [vscale vx vy vz] in *; rewrite X; field; lra. }
    apply vec_eq; apply G; auto.
  Qed.
  Let unit_up := vscale (/ vnorm up) up.
  Lemma normal_is : vunit (vcross (vsub (V 2) (V 1)) (vsub (V 1) (V 0))) = Some (vscale (-1) unit_up).
  Proof.
    destruct normal_dir as (k & Hk & Ek). destruct (vunit_some up up_nonzero) as (Pu & _).
    assert (N : vnorm (vscale (- k) up) = k * vnorm up).
    { unfold vnorm. replace (vdot (vscale (- k) up) (vscale (- k) up)) with (Rsqr k * vdot up up) by (unfold Rsqr; vunfold; ring). rewrite sqrt_mult_alt by apply Rle_0_sqr. now rewrite sqrt_Rsqr by lra. }
    rewrite Ek. unfold vunit. rewrite N. destruct (Req_EM_T (k * vnorm up) 0) as [X|_]; [apply Rmult_integral in X; lra|].
    f_equal. unfold unit_up. apply vec_eq; cbn [vscale vx vy vz]; field; lra.
  Qed.
  (** Row i of the half-spaces: finite, a unit vector, orthogonal to edge i and to up, pointing away from the other vertices. *)
  Lemma half_is : forall i, (i < n)%nat -> exists a k, half_row (Some (vscale (-1) unit_up)) (vadd (vscale (-1) (V i)) (V (next vs i))) = Some a /\
     vdot a a = 1 /\ 0 < k /\ forall y, vdot a y = - (k * vdot (vcross (E i) y) up).
  Proof.
    intros i Hi. destruct (vunit_some up up_nonzero) as (Pu & _). destruct (third i Hi) as (j & Hj & N1 & N2).
    pose proof (proj2 (proj2 H) i j Hi Hj N1 N2) as T. fold V in T.
    set (w := vcross (vscale (-1) unit_up) (vadd (vscale (-1) (V i)) (V (next vs i)))).
    assert (W : forall y, vdot w y = - (/ vnorm up * vdot (vcross (E i) y) up)). { intros y. unfold w, unit_up, E. vunfold. ring. }
    assert (Wn : w <> v0). { intros X. specialize (W (vsub (V j) (V i))). rewrite X in W. unfold turn in T. fold (E i) in T.
      assert (0 < / vnorm up * vdot (vcross (E i) (vsub (V j) (V i))) up) by (apply Rmult_lt_0_compat; [now apply Rinv_0_lt_compat|exact T]). vunfold. lra. }
    destruct (vunit_some w Wn) as (Pw & Ew). exists (vscale (/ vnorm w) w), (/ vnorm w * / vnorm up). split; [exact Ew|].
    destruct (vunit_unit _ _ Ew) as (U1 & _). split; [exact U1|]. split; [apply Rmult_lt_0_compat; now apply Rinv_0_lt_compat|].
    intros y. transitivity (/ vnorm w * vdot w y); [vunfold; ring|]. rewrite W. ring.
  Qed.
  (** The region built by the code. *)
  Lemma region_is : forall id, exists r, init_region vs id = Ok r /\ r_id r = id /\ r_normal r = Some (vscale (-1) unit_up) /\
    length (r_A r) = n /\ length (r_b r) = n /\
    forall i, (i < n)%nat -> exists a b k, nth_error (r_A r) i = Some (Some a) /\ nth_error (r_b r) i = Some (Some b) /\ vdot a a = 1 /\ 0 < k /\
      forall x, vdot a x - b = - (k * turn up (V i) (V (next vs i)) x).
  Proof.
    intros id. destruct poly_three as (p0 & p1 & p2 & rr & Evs).
    assert (NI : vunit (vcross (vsub p2 p1) (vsub p1 p0)) = Some (vscale (-1) unit_up)). { rewrite <- normal_is. unfold V, vertex. rewrite Evs. reflexivity. }
    eexists. split; [unfold init_region; rewrite Evs; reflexivity|]. cbn [r_id r_normal r_A r_b]. rewrite NI. split; [reflexivity|]. split; [reflexivity|].
    split; [now rewrite map_length, edges_length|]. split; [now rewrite map_length, combine_length, map_length, edges_length, middles_length, Nat.min_id|].
    intros i Hi. destruct (half_is i Hi) as (a & k & Ea & Ua & Hk & Da). exists a, (vdot (vadd (vscale (/ 2) (V i)) (vscale (/ 2) (V (next vs i)))) a), k.
    assert (XA : nth_error (map (half_row (Some (vscale (-1) unit_up))) (edges vs)) i = Some (Some a)). { rewrite nth_error_map, edges_nth by exact Hi. cbn [option_map]. fold V. now rewrite Ea. }
    split; [exact XA|]. split; [|split; [exact Ua|split; [exact Hk|]]].
    - rewrite nth_error_map. erewrite nth_error_combine by (try apply middles_nth; eauto). reflexivity.
    - intros x. set (m := vadd (vscale (/ 2) (V i)) (vscale (/ 2) (V (next vs i)))).
      transitivity (vdot a (vsub x m)); [vunfold; ring|]. rewrite Da. f_equal. f_equal. unfold m, E. vunfold. field.
  Qed.
End Polygon.

(** ** Convex combinations *)
Lemma combination_le : forall f vs w c, (forall a b, f (vadd a b) = f a + f b) -> (forall k a, f (vscale k a) = k * f a) ->
  length w = length vs -> Forall (fun a => 0 <= a) w -> (forall v, In v vs -> f v <= c) -> f v0 = 0 -> f (combination w vs) <= fold_right Rplus 0 w * c.
Proof.
  intros f vs w c Fa Fs. revert vs. induction w as [|a w IH]; intros [|v vs] L P B Z; cbn in L; try lia; cbn [combination fold_right].
  - rewrite Z. lra.
  - inversion P; subst. rewrite Fa, Fs. pose proof (IH vs ltac:(lia) H2 (fun v Hv => B v (or_intror Hv)) Z). pose proof (B v (or_introl eq_refl)). nra.
Qed.
Lemma combination_eq : forall f vs w c, (forall a b, f (vadd a b) = f a + f b) -> (forall k a, f (vscale k a) = k * f a) ->
  length w = length vs -> (forall v, In v vs -> f v = c) -> f v0 = 0 -> f (combination w vs) = fold_right Rplus 0 w * c.
Proof.
  intros f vs w c Fa Fs. revert vs. induction w as [|a w IH]; intros [|v vs] L B Z; cbn in L; try lia; cbn [combination fold_right].
  - rewrite Z. lra.
  - rewrite Fa, Fs, (IH vs ltac:(lia) (fun v Hv => B v (or_intror Hv)) Z), (B v (or_introl eq_refl)). ring.
Qed.
(** Weights on three positions. *)
Lemma combination_add : forall vs w u, length w = length vs -> length u = length vs ->
  combination (map (fun p => fst p + snd p) (combine w u)) vs = vadd (combination w vs) (combination u vs).
Proof.
  induction vs as [|v vs IH]; intros [|a w] [|b u] L1 L2; cbn in L1, L2; try lia; cbn [combine map combination fst snd]; [apply vec_eq; cbn; ring|].
  rewrite IH by lia. apply vec_eq; cbn [vadd vscale vx vy vz]; ring.
Qed.
Definition single (n i : nat) (a : R) : list R := map (fun j => if (j =? i)%nat then a else 0) (seq 0 n).
Lemma single_cons : forall n i a, single (S n) (S i) a = 0 :: single n i a.
Proof. intros. unfold single. cbn [seq map Nat.eqb]. f_equal. rewrite <- seq_shift, map_map. reflexivity. Qed.
Lemma single_zero : forall n a, single (S n) 0 a = a :: map (fun _ => 0) (seq 0 n).
Proof. intros. unfold single. cbn [seq map Nat.eqb]. f_equal. rewrite <- seq_shift, map_map. reflexivity. Qed.
Lemma combination_zero : forall vs n, combination (map (fun _ : nat => 0) (seq 0 n)) vs = v0.
Proof. intros vs n. generalize 0%nat. revert vs. induction n as [|n IH]; intros [|v vs] s; try reflexivity. cbn [seq map combination]. rewrite IH. apply vec_eq; cbn; ring. Qed.
Lemma combination_single : forall vs i a, (i < length vs)%nat -> combination (single (length vs) i a) vs = vscale a (vertex vs i).
Proof.
  induction vs as [|v vs IH]; intros i a H; [cbn in H; lia|]. destruct i as [|i].
  - cbn [length]. rewrite single_zero. cbn [combination]. rewrite combination_zero. unfold vertex. apply vec_eq; cbn; ring.
  - cbn [length]. rewrite single_cons. cbn [combination]. rewrite IH by (cbn in H; lia). unfold vertex. apply vec_eq; cbn; ring.
Qed.
Lemma sum_zero : forall n s, fold_right Rplus 0 (map (fun _ : nat => 0) (seq s n)) = 0.
Proof. induction n; intros; cbn; [reflexivity|]. rewrite IHn. ring. Qed.
Lemma sum_single : forall n i a, (i < n)%nat -> fold_right Rplus 0 (single n i a) = a.
Proof.
  induction n as [|n IH]; intros i a H; [lia|]. destruct i as [|i].
  - rewrite single_zero. cbn [fold_right]. rewrite sum_zero. ring.
  - rewrite single_cons. cbn [fold_right]. rewrite IH by lia. ring.
Qed.
Lemma sum_add : forall w u, length w = length u -> fold_right Rplus 0 (map (fun p => fst p + snd p) (combine w u)) = fold_right Rplus 0 w + fold_right Rplus 0 u.
Proof. induction w as [|a w IH]; intros [|b u] L; cbn in L; try lia; cbn; [ring|]. rewrite IH by lia. ring. Qed.
Lemma nonneg_add : forall w u, Forall (fun a => 0 <= a) w -> Forall (fun a => 0 <= a) u -> Forall (fun a => 0 <= a) (map (fun p => fst p + snd p) (combine w u)).
Proof. induction w as [|a w IH]; intros [|b u] H1 H2; cbn; constructor; inversion H1; inversion H2; subst; [cbn; lra|now apply IH]. Qed.
Lemma nonneg_single : forall n i a, 0 <= a -> Forall (fun a => 0 <= a) (single n i a).
Proof. intros. apply Forall_forall. intros x Hx. apply in_map_iff in Hx. destruct Hx as (j & <- & _). destruct (j =? i)%nat; lra. Qed.
Lemma single_length : forall n i a, length (single n i a) = n.
Proof. intros. unfold single. now rewrite map_length, seq_length. Qed.
Lemma hull_three : forall vs i j k a b c x, (i < length vs)%nat -> (j < length vs)%nat -> (k < length vs)%nat -> 0 <= a -> 0 <= b -> 0 <= c -> a + b + c = 1 ->
  x = vadd (vscale a (vertex vs i)) (vadd (vscale b (vertex vs j)) (vscale c (vertex vs k))) -> in_hull vs x.
Proof.
  intros vs i j k a b c x Hi Hj Hk Ha Hb Hc S ->. set (n := length vs).
  exists (map (fun p => fst p + snd p) (combine (single n i a) (map (fun p => fst p + snd p) (combine (single n j b) (single n k c))))).
  assert (L2 : length (map (fun p : R * R => fst p + snd p) (combine (single n j b) (single n k c))) = n) by (rewrite map_length, combine_length, !single_length; lia).
  split; [rewrite map_length, combine_length, L2, single_length; lia|]. split; [|split].
  - apply nonneg_add; [now apply nonneg_single|]. apply nonneg_add; now apply nonneg_single.
  - rewrite sum_add by (now rewrite L2, single_length). rewrite sum_add by (now rewrite !single_length). rewrite !sum_single by assumption. lra.
  - rewrite combination_add by (rewrite ?single_length; auto). rewrite combination_add by (now rewrite single_length). unfold n. rewrite !combination_single by assumption. reflexivity.
Qed.

(** ** Region and plane give the hull: fan triangulation from vertex 0 *)
Lemma sign_change : forall (d : nat -> R) m, (1 <= m)%nat -> 0 <= d 1%nat -> d m <= 0 -> (m = 1%nat /\ d 1%nat = 0) \/ exists i, (1 <= i)%nat /\ (S i <= m)%nat /\ 0 <= d i /\ d (S i) <= 0.
Proof.
  intros d m. induction m as [|m IH]; intros L H1 Hm; [lia|]. destruct (Nat.eq_dec m 0) as [->|N]; [left; split; [reflexivity|lra]|].
  destruct (Rle_dec (d m) 0) as [D|D].
  - destruct (IH ltac:(lia) H1 D) as [(-> & E)|(i & a & b & c & e)]; [right; exists 1%nat; repeat split; try lia; lra|right; exists i; repeat split; try lia; assumption].
  - right. exists m. repeat split; try lia; lra.
Qed.
Lemma region_hull : forall up vs x, ccw_polygon up vs -> in_plane up vs x ->
  (forall i, (i < length vs)%nat -> 0 <= turn up (vertex vs i) (vertex vs (next vs i)) x) -> in_hull vs x.
Proof.
  intros up vs x H Px Tx. pose proof (up_nonzero up vs H) as U. pose proof H as (L & P & T). set (n := length vs) in *. set (V := vertex vs) in *.
  set (d := fun i => turn up (V 0%nat) (V i) x).
  assert (D1 : 0 <= d 1%nat). { unfold d. replace 1%nat with (next vs 0). apply Tx; lia. unfold next. fold n. destruct (1 =? n)%nat eqn:B; [apply Nat.eqb_eq in B; lia|reflexivity]. }
  assert (Dn : d (n - 1)%nat <= 0).
  { pose proof (Tx (n - 1)%nat ltac:(lia)) as X. replace (next vs (n - 1)) with 0%nat in X by (unfold next; fold n; replace (S (n - 1) =? n)%nat with true; [reflexivity|symmetry; apply Nat.eqb_eq; lia]).
    unfold d. replace (turn up (V 0%nat) (V (n - 1)%nat) x) with (- turn up (V (n - 1)%nat) (V 0%nat) x) by (vunfold; ring). lra. }
  destruct (sign_change d (n - 1)%nat ltac:(lia) D1 Dn) as [(A & _)|(i & a & b & c & e)]; [lia|].
  assert (Ni : next vs i = S i). { unfold next. fold n. destruct (S i =? n)%nat eqn:B; [apply Nat.eqb_eq in B; lia|reflexivity]. }
  pose proof (T i 0%nat ltac:(lia) ltac:(lia) ltac:(lia) ltac:(rewrite Ni; lia)) as T0. rewrite Ni in T0. fold V in T0.
  pose proof (Tx i ltac:(lia)) as Ti. rewrite Ni in Ti.
  set (A := vsub (V i) (V 0%nat)). set (B := vsub (V (S i)) (V 0%nat)). set (C := vsub x (V 0%nat)).
  pose proof (four A B C up (P i 0%nat ltac:(lia) ltac:(lia)) (P (S i) 0%nat ltac:(lia) ltac:(lia)) Px U) as F.
  set (t := turn up (V i) (V (S i)) (V 0%nat)) in *.
  assert (E1 : vdot (vcross A B) up = t) by (unfold t, A, B; vunfold; ring).
  assert (E2 : vdot (vcross C B) up = - d (S i)) by (unfold d, B, C; vunfold; ring).
  assert (E3 : vdot (vcross A C) up = d i) by (unfold d, A, C; vunfold; ring).
  assert (E4 : turn up (V i) (V (S i)) x = t + d (S i) - d i) by (unfold t, d; vunfold; ring).
  rewrite E1, E2, E3 in F.
  apply (hull_three vs 0%nat i (S i) ((t + d (S i) - d i) / t) (- d (S i) / t) (d i / t)); try lia.
  - apply Rmult_le_pos; [rewrite <- E4; exact Ti|left; now apply Rinv_0_lt_compat].
  - apply Rmult_le_pos; [lra|left; now apply Rinv_0_lt_compat].
  - apply Rmult_le_pos; [lra|left; now apply Rinv_0_lt_compat].
  - field. lra.
  - fold V. assert (G : forall f, (f = vx \/ f = vy \/ f = vz) -> f x = f (vadd (vscale ((t + d (S i) - d i) / t) (V 0%nat)) (vadd (vscale (- d (S i) / t) (V i)) (vscale (d i / t) (V (S i)))))).
    { intros f Hf. assert (X : f (vscale t C) = f (vadd (vscale (- d (S i)) A) (vscale (d i) B))) by now rewrite F.
      apply Rmult_eq_reg_l with t; [|lra]. unfold A, B, C in X. destruct Hf as [->|[->| ->]]; cbn [vscale vadd vsub vx vy vz] in *; (field_simplify; [|lra]); field_simplify in X; lra. }
    apply vec_eq; apply G; auto.
Qed.

From Coq Require Import Reals List Arith Bool Lia Lra Psatz.
From Verif Require Import ConicSpec ConeModel ConeSpec.
Import ListNotations.
Open Scope R_scope.

Lemma guard_pos : 0 < guard. Proof. unfold guard. lra. Qed.
Lemma guard_small : guard < 1/1000. Proof. unfold guard. lra. Qed.
Lemma safe_ok x y : guard <= y -> safeDivision x y = x / y.
Proof. intros H. unfold safeDivision. destruct (Rlt_dec y guard); [lra|reflexivity]. Qed.

(** ** Sums *)
Lemma sum_ext {A} (f g : A -> R) l : (forall a, In a l -> f a = g a) -> fold_right Rplus 0 (map f l) = fold_right Rplus 0 (map g l).
Proof. intros H. induction l as [|a l IH]; simpl; [reflexivity|]. rewrite H, IH; simpl; auto. intros; apply H; simpl; auto. Qed.
Lemma sum_lin {A} (f g : A -> R) a b l :
  fold_right Rplus 0 (map (fun i => a * f i + b * g i) l) = a * fold_right Rplus 0 (map f l) + b * fold_right Rplus 0 (map g l).
Proof. induction l; simpl; [ring|]. rewrite IHl. ring. Qed.

Lemma tdot_ext n u v u' v' : (forall j, (1 <= j < n)%nat -> u j = u' j) -> (forall j, (1 <= j < n)%nat -> v j = v' j) -> tdot n u v = tdot n u' v'.
Proof. intros H1 H2. unfold tdot. apply sum_ext. intros j Hj. apply in_seq in Hj. rewrite H1, H2 by lia. reflexivity. Qed.
Lemma tdot_sym n u v : tdot n u v = tdot n v u.
Proof. unfold tdot. apply sum_ext. intros; ring. Qed.
Lemma tdot_lin n u v w a b : tdot n u (fun j => a * v j + b * w j) = a * tdot n u v + b * tdot n u w.
Proof. unfold tdot. rewrite <- sum_lin. apply sum_ext. intros; ring. Qed.
Lemma tdot_lin' n u v w f a b : (forall j, (1 <= j < n)%nat -> f j = a * v j + b * w j) -> tdot n u f = a * tdot n u v + b * tdot n u w.
Proof. intros H. rewrite <- tdot_lin. apply tdot_ext; auto. Qed.
Lemma tdot_pos n u : 0 <= tdot n u u.
Proof. unfold tdot. induction (seq 1 (n-1)); simpl; [lra|]. nra. Qed.
Lemma tdot_tail n u v : tdot n u v = tail_prod n u v.
Proof. reflexivity. Qed.
Lemma full_dot n u v : (1 <= n)%nat -> fold_right Rplus 0 (map (fun j => u j * v j) (seq 0 n)) = u 0%nat * v 0%nat + tdot n u v.
Proof. intros H. destruct n; [lia|]. unfold tdot. simpl. rewrite Nat.sub_0_r. reflexivity. Qed.

(** Cauchy-Schwarz *)
Lemma cs n u v : tdot n u v * tdot n u v <= tdot n u u * tdot n v v.
Proof.
  unfold tdot. induction (seq 1 (n-1)) as [|j l IH]; simpl; [lra|].
  set (a := fold_right Rplus 0 (map (fun j => u j * v j) l)) in *.
  set (b := fold_right Rplus 0 (map (fun j => u j * u j) l)) in *.
  set (c := fold_right Rplus 0 (map (fun j => v j * v j) l)) in *.
  assert (B : 0 <= b) by (unfold b; clear; induction l; simpl; [lra|nra]).
  assert (C : 0 <= c) by (unfold c; clear; induction l; simpl; [lra|nra]).
  assert (K : 2 * a * (u j * v j) <= b * (v j * v j) + c * (u j * u j)).
  { assert (Ha : Rabs a <= sqrt b * sqrt c).
    { rewrite <- sqrt_mult by lra. rewrite <- sqrt_Rsqr_abs. apply sqrt_le_1_alt. unfold Rsqr. lra. }
    assert (Hb : sqrt b * sqrt b = b) by (apply sqrt_sqrt; lra). assert (Hc : sqrt c * sqrt c = c) by (apply sqrt_sqrt; lra).
    assert (Hp : 0 <= sqrt b) by apply sqrt_pos. assert (Hq : 0 <= sqrt c) by apply sqrt_pos.
    set (p := sqrt b) in *. set (r := sqrt c) in *. rewrite <- Hb, <- Hc.
    assert (L : a * (u j * v j) <= p * r * Rabs (u j * v j)).
    { apply Rle_trans with (Rabs (a * (u j * v j))); [apply Rle_abs|]. rewrite Rabs_mult. apply Rmult_le_compat_r; [apply Rabs_pos|exact Ha]. }
    rewrite Rabs_mult in L.
    assert (M : (u j) * (u j) = Rabs (u j) * Rabs (u j)) by (rewrite <- Rabs_mult, Rabs_right; [reflexivity|nra]).
    assert (M' : (v j) * (v j) = Rabs (v j) * Rabs (v j)) by (rewrite <- Rabs_mult, Rabs_right; [reflexivity|nra]).
    rewrite M, M'. pose proof (Rle_0_sqr (p * Rabs (v j) - r * Rabs (u j))) as Q. unfold Rsqr in Q. nra. }
  nra.
Qed.

(** Interior of a block, without square root. *)
Lemma interior_sq n v : soc_interior n v <-> 0 < v 0%nat /\ 0 < conicResidual n v.
Proof.
  unfold soc_interior, conicResidual. rewrite <- tdot_tail. pose proof (tdot_pos n v) as P.
  pose proof (sqrt_pos (tdot n v v)) as Q. pose proof (sqrt_sqrt _ P) as S1. split.
  - intros H. split; [lra|]. rewrite <- S1. nra.
  - intros [H1 H2]. rewrite <- S1 in H2. nra.
Qed.

(** Reverse Cauchy-Schwarz: two interior vectors have a positive product. *)
Lemma int_dot n u v : 0 < u 0%nat -> 0 <= conicResidual n u -> 0 < v 0%nat -> 0 < conicResidual n v -> 0 < u 0%nat * v 0%nat + tdot n u v.
Proof.
  unfold conicResidual. intros U0 UR V0 VR. pose proof (cs n u v) as C. pose proof (tdot_pos n u) as PU. pose proof (tdot_pos n v) as PV.
  destruct (Rle_dec 0 (tdot n u v)) as [H|H]; [nra|].
  assert (K : tdot n u v * tdot n u v < (u 0%nat * v 0%nat) * (u 0%nat * v 0%nat)).
  { apply Rle_lt_trans with (1 := C). 
    apply Rle_lt_trans with (u 0%nat * u 0%nat * tdot n v v); [nra|].
    replace (u 0%nat * v 0%nat * (u 0%nat * v 0%nat)) with (u 0%nat * u 0%nat * (v 0%nat * v 0%nat)) by ring.
    apply Rmult_lt_compat_l; nra. }
  assert (0 < u 0%nat * v 0%nat) by nra. nra.
Qed.
Lemma int_dot_unit n u v : 0 < u 0%nat -> conicResidual n u = 1 -> 0 < v 0%nat -> conicResidual n v = 1 -> 1 <= u 0%nat * v 0%nat + tdot n u v.
Proof.
  unfold conicResidual. intros U0 UR V0 VR. pose proof (cs n u v) as C. pose proof (tdot_pos n u) as PU. pose proof (tdot_pos n v) as PV.
  set (a := u 0%nat) in *. set (b := v 0%nat) in *. set (t := tdot n u v) in *.
  assert (1 <= a) by nra. assert (1 <= b) by nra. assert (A1 : 1 <= a * b) by nra.
  destruct (Rle_dec (1 - a * b) t) as [H1|H1]; [lra|]. exfalso.
  assert (T : t * t <= (a*a - 1) * (b*b - 1)). { replace (a*a-1) with (tdot n u u) by lra. replace (b*b-1) with (tdot n v v) by lra. exact C. }
  assert ((a*b - 1) * (a*b - 1) < t * t) by nra.
  assert ((a - b) * (a - b) >= 0) by (apply Rle_ge, Rle_0_sqr). nra.
Qed.

(** ** The Lorentz boost *)
Definition boost (n : nat) (w z : nat -> R) (j : nat) : R :=
  match j with
  | O => w 0%nat * z 0%nat + tdot n w z
  | _ => z j + (z 0%nat + tdot n w z / (1 + w 0%nat)) * w j
  end.
Definition conj (w : nat -> R) (j : nat) : R := match j with O => w 0%nat | _ => - w j end.

Lemma boost_tdot n w z v : tdot n v (boost n w z) = tdot n v z + (z 0%nat + tdot n w z / (1 + w 0%nat)) * tdot n v w.
Proof.
  rewrite (tdot_lin' n v z w (boost n w z) 1 (z 0%nat + tdot n w z / (1 + w 0%nat))); [ring|].
  intros j Hj. destruct j; [lia|]. simpl. ring.
Qed.
Lemma boost_tdot2 n w z : 
  let f := z 0%nat + tdot n w z / (1 + w 0%nat) in
  tdot n (boost n w z) (boost n w z) = tdot n z z + 2 * f * tdot n w z + f * f * tdot n w w.
Proof.
  intros f. rewrite boost_tdot. fold f. rewrite tdot_sym, boost_tdot. fold f. rewrite (tdot_sym n (boost n w z) w), boost_tdot. fold f.
  rewrite (tdot_sym n z w). ring.
Qed.

Section unit.
  Variables (n : nat) (w : nat -> R).
  Hypothesis W0 : 0 < w 0%nat.
  Hypothesis W1 : conicResidual n w = 1.

  Lemma w_ge1 : 1 <= w 0%nat.
  Proof. unfold conicResidual in W1. pose proof (tdot_pos n w). nra. Qed.

  Lemma boost_residual z : conicResidual n (boost n w z) = conicResidual n z.
  Proof.
    unfold conicResidual. rewrite boost_tdot2. simpl (boost n w z 0%nat). pose proof w_ge1.
    assert (E : tdot n w w = w 0%nat * w 0%nat - 1) by (unfold conicResidual in W1; lra). rewrite E.
    set (a := w 0%nat) in *. set (t := tdot n w z). field. lra.
  Qed.
  Lemma boost_head z : 0 < z 0%nat -> 0 < conicResidual n z -> 0 < boost n w z 0%nat.
  Proof. intros Z0 ZR. simpl. apply int_dot; auto; lra. Qed.
  Lemma boost_interior z : soc_interior n z -> soc_interior n (boost n w z).
  Proof. rewrite !interior_sq. intros [H1 H2]. split; [apply boost_head; auto|]. rewrite boost_residual. exact H2. Qed.

  Lemma conj_residual : conicResidual n (conj w) = 1.
  Proof.
    assert (E : tdot n (conj w) (conj w) = tdot n w w).
    { unfold tdot. apply sum_ext. intros j Hj. apply in_seq in Hj. destruct j; [lia|]. simpl. ring. }
    unfold conicResidual in *. rewrite E. exact W1.
  Qed.
  Lemma conj_tdot z : tdot n (conj w) z = - tdot n w z.
  Proof.
    rewrite (tdot_sym n (conj w)), (tdot_sym n w). rewrite (tdot_lin' n z w w (conj w) (-1) 0); [ring|].
    intros j Hj. destruct j; [lia|]. simpl. ring.
  Qed.
  Lemma boost_conj z j : (j < n)%nat -> boost n (conj w) (boost n w z) j = z j.
  Proof.
    intros Hj. pose proof w_ge1. assert (E : tdot n w w = w 0%nat * w 0%nat - 1) by (unfold conicResidual in W1; lra).
    destruct j.
    - cbn [boost conj]. rewrite conj_tdot, boost_tdot, E. cbn [boost]. field. lra.
    - cbn [boost conj]. rewrite conj_tdot, boost_tdot, E. cbn [boost]. field. lra.
  Qed.
  Lemma conj_boost z j : (j < n)%nat -> boost n w (boost n (conj w) z) j = z j.
  Proof.
    intros Hj. pose proof w_ge1. assert (E : tdot n w w = w 0%nat * w 0%nat - 1) by (unfold conicResidual in W1; lra).
    assert (T : tdot n w (boost n (conj w) z) = tdot n w z + (z 0%nat + - tdot n w z / (1 + w 0%nat)) * (- (w 0%nat * w 0%nat - 1))).
    { rewrite boost_tdot, conj_tdot. rewrite (tdot_sym n w (conj w)), conj_tdot, E. reflexivity. }
    destruct j; cbn [boost conj]; rewrite T, ?conj_tdot; cbn [boost conj]; rewrite ?conj_tdot; field; lra.
  Qed.
  (** Squared boost: 2 w w' - J. *)
  Lemma boost_sq z j : (j < n)%nat -> boost n w (boost n w z) j = 2 * w j * (w 0%nat * z 0%nat + tdot n w z) - match j with O => z 0%nat | _ => - z j end.
  Proof.
    intros Hj. pose proof w_ge1. assert (E : tdot n w w = w 0%nat * w 0%nat - 1) by (unfold conicResidual in W1; lra).
    destruct j.
    - cbn [boost]. rewrite boost_tdot, E. field. lra.
    - cbn [boost]. rewrite boost_tdot, E. cbn [boost]. field. lra.
  Qed.
  (** Self-adjoint. *)
  Lemma boost_adj x y : boost n w x 0%nat * y 0%nat + tdot n (boost n w x) y = x 0%nat * boost n w y 0%nat + tdot n x (boost n w y).
  Proof.
    pose proof w_ge1. rewrite boost_tdot, (tdot_sym n (boost n w x)), boost_tdot, (tdot_sym n y x), (tdot_sym n y w), (tdot_sym n x w).
    cbn [boost]. field. lra.
  Qed.
End unit.

(** ** The loop over blocks *)
Lemma soc_loop_lt g q : forall l st w i, (i < st)%nat -> soc_loop g l st q w i = w i.
Proof.
  induction q as [|n q IH]; intros l st w i H; cbn [soc_loop]; [reflexivity|].
  rewrite IH by lia. destruct (Nat.leb_spec st i); [lia|]. reflexivity.
Qed.
Lemma soc_loop_in g pre : forall l st n post w j, (j < n)%nat ->
  soc_loop g l st (pre ++ n :: post) w (st + total pre + j)%nat = g (l + length pre)%nat (st + total pre)%nat n j.
Proof.
  induction pre as [|p pre IH]; intros l st n post w j Hj; cbn [app soc_loop total length].
  - rewrite soc_loop_lt by lia. rewrite !Nat.add_0_r.
    destruct (Nat.leb_spec st (st + j)); [|lia]. destruct (Nat.ltb_spec (st + j) (st + n)); [|lia]. cbn [andb].
    f_equal. lia.
  - replace (st + (p + total pre) + j)%nat with (st + p + total pre + j)%nat by lia. rewrite IH by exact Hj. f_equal; lia.
Qed.
Lemma index_split q : forall st i, (st <= i < st + total q)%nat -> exists pre n post j, q = pre ++ n :: post /\ i = (st + total pre + j)%nat /\ (j < n)%nat.
Proof.
  induction q as [|n q IH]; intros st i H; cbn [total] in H; [lia|].
  destruct (Nat.lt_ge_cases i (st + n)) as [H1|H1].
  - exists [], n, q, (i - st)%nat. cbn [app total]. split; [reflexivity|]. lia.
  - destruct (IH (st + n)%nat i ltac:(lia)) as (pre & m & post & j & E & Ei & Hj). exists (n :: pre), m, post, j.
    subst q. cbn [app total]. split; [reflexivity|]. lia.
Qed.
Lemma each_block_all P q : forall st v, each_block P st q v <-> (forall pre n post, q = pre ++ n :: post -> P n (shift v (st + total pre))).
Proof.
  induction q as [|m q IH]; intros st v; cbn [each_block].
  - split; [|auto]. intros _ pre n post E. destruct pre; discriminate.
  - rewrite IH. split.
    + intros [H1 H2] pre n post E. destruct pre as [|p pre]; cbn [app] in E; injection E as -> ->.
      * cbn [total]. rewrite Nat.add_0_r. exact H1.
      * cbn [total]. rewrite Nat.add_assoc. apply H2 with (post := post). reflexivity.
    + intros H. split.
      * specialize (H [] m q eq_refl). cbn [total] in H. rewrite Nat.add_0_r in H. exact H.
      * intros pre n post E. subst q. specialize (H (m :: pre) n post eq_refl). cbn [total] in H. rewrite Nat.add_assoc in H. exact H.
Qed.
Lemma products_all u v w q : forall st, is_product_blocks st q u v w <->
  (forall pre n post, q = pre ++ n :: post -> is_product_block n (shift u (st + total pre)) (shift v (st + total pre)) (shift w (st + total pre))).
Proof.
  induction q as [|m q IH]; intros st; cbn [is_product_blocks].
  - split; [|auto]. intros _ pre n post E. destruct pre; discriminate.
  - rewrite IH. split.
    + intros [H1 H2] pre n post E. destruct pre as [|p pre]; cbn [app] in E; injection E as -> ->.
      * cbn [total]. rewrite Nat.add_0_r. exact H1.
      * cbn [total]. rewrite Nat.add_assoc. apply H2 with (post := post). reflexivity.
    + intros H. split.
      * specialize (H [] m q eq_refl). cbn [total] in H. rewrite Nat.add_0_r in H. exact H.
      * intros pre n post E. subst q. specialize (H (m :: pre) n post eq_refl). cbn [total] in H. rewrite Nat.add_assoc in H. exact H.
Qed.
Lemma size_in pre n post (q : list nat) : q = pre ++ n :: post -> Forall (fun n => (1 <= n)%nat) q -> (1 <= n)%nat.
Proof. intros -> H. apply Forall_app in H. destruct H as [_ H]. inversion H; auto. Qed.
Lemma total_split pre n post : total (pre ++ n :: post) = (total pre + n + total post)%nat.
Proof. induction pre; cbn [app total]; [reflexivity|]. rewrite IHpre. lia. Qed.

(** ** C10: product and division *)
Lemma div_prod_blk n u v j : (1 <= n)%nat -> (j < n)%nat -> soc_margin guard n u -> div_blk n u (prod_blk n u v) j = v j.
Proof.
  intros Hn Hj [M1 M2]. fold (conicResidual n u) in M2. pose proof guard_pos. unfold div_blk.
  assert (T : tdot n u (prod_blk n u v) = u 0%nat * tdot n u v + v 0%nat * tdot n u u).
  { apply tdot_lin'. intros i Hi. destruct i; [lia|]. simpl. ring. }
  change (v 0%nat * v 0%nat - tail_prod n v v) with (conicResidual n v) in *.
  assert (MR : guard <= conicResidual n u) by (unfold conicResidual; rewrite tdot_tail; exact M2).
  rewrite !safe_ok by auto. rewrite T. cbn [prod_blk]. rewrite full_dot by auto.
  destruct j; cbn [prod_blk]; rewrite ?safe_ok by auto; unfold conicResidual in *; set (t := tdot n u v) in *; set (r := tdot n u u) in *; field; lra.
Qed.
Lemma prod_div_blk n u w : (1 <= n)%nat -> soc_margin guard n u -> is_product_block n u (div_blk n u w) w.
Proof.
  intros Hn [M1 M2]. pose proof guard_pos.
  assert (MR : guard <= conicResidual n u) by (unfold conicResidual; rewrite tdot_tail; exact M2).
  split.
  - unfold sumR. rewrite full_dot by auto.
    rewrite (tdot_lin' n u u w (div_blk n u w) ((tdot n u w / u 0%nat - w 0%nat) / conicResidual n u) (/ u 0%nat)).
    + unfold div_blk. rewrite !safe_ok by auto. unfold conicResidual in *. field. lra.
    + intros j Hj. destruct j; [lia|]. unfold div_blk. rewrite !safe_ok by auto. field. lra.
  - intros j Hj. destruct j; [lia|]. unfold div_blk. rewrite !safe_ok by auto. unfold conicResidual in *. field. lra.
Qed.

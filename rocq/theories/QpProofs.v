(** * Rotations, addConstraint and deleteConstraint *)
From Coq Require Import Reals List Arith ZArith Bool Lia Lra Psatz FunctionalExtensionality.
Import ListNotations.
From Verif Require Import Base BaseProofs QpModel.
Local Open Scope R_scope.

Lemma rltb_t : forall a b, rltb a b = true <-> a < b.
Proof. intros. unfold rltb. destruct (Rlt_dec a b); split; intros; try easy. Qed.
Lemma rltb_f : forall a b, rltb a b = false <-> b <= a.
Proof. intros. unfold rltb. destruct (Rlt_dec a b); split; intros; try easy; lra. Qed.
Lemma rleb_t : forall a b, rleb a b = true <-> a <= b.
Proof. intros. unfold rleb. destruct (Rle_dec a b); split; intros; try easy. Qed.
Lemma rleb_f : forall a b, rleb a b = false <-> b < a.
Proof. intros. unfold rleb. destruct (Rle_dec a b); split; intros; try easy; lra. Qed.
Lemma reqb_t : forall a b, reqb a b = true <-> a = b.
Proof. intros. unfold reqb. destruct (Req_EM_T a b); split; intros; try easy. Qed.
Lemma reqb_f : forall a b, reqb a b = false <-> a <> b.
Proof. intros. unfold reqb. destruct (Req_EM_T a b); split; intros; try easy. Qed.

Lemma sqrt_scale : forall a b, 0 < a -> a * sqrt (1 + b / a * (b / a)) = sqrt (a * a + b * b).
Proof.
  intros. rewrite <- (sqrt_square a) at 1 by lra. assert (0 <= b / a * (b / a)) by nra.
  rewrite <- sqrt_mult by nra. f_equal. field. lra.
Qed.
Lemma distance_eq : forall a b, distance a b = sqrt (a * a + b * b).
Proof.
  intros. unfold distance. assert (Ha : Rabs a * Rabs a = a * a) by (rewrite <- Rabs_mult; apply Rabs_right; nra).
  assert (Hb : Rabs b * Rabs b = b * b) by (rewrite <- Rabs_mult; apply Rabs_right; nra).
  pose proof (Rabs_pos a). pose proof (Rabs_pos b).
  destruct (rltb (Rabs b) (Rabs a)) eqn:E1; [apply rltb_t in E1 | apply rltb_f in E1].
  - rewrite sqrt_scale by lra. f_equal. lra.
  - destruct (rltb (Rabs a) (Rabs b)) eqn:E2; [apply rltb_t in E2 | apply rltb_f in E2].
    + rewrite sqrt_scale by lra. f_equal. lra.
    + assert (E : Rabs a = Rabs b) by lra. rewrite <- (sqrt_square (Rabs a)) at 1 by lra.
      rewrite <- sqrt_mult by nra. f_equal. rewrite Ha. rewrite <- Hb, <- E, Ha. ring.
Qed.
Lemma distance_sq : forall a b, distance a b * distance a b = a * a + b * b.
Proof. intros. rewrite distance_eq. apply sqrt_sqrt. nra. Qed.
Lemma distance_0 : forall a b, distance a b = 0 -> a = 0 /\ b = 0.
Proof. intros a b H. pose proof (distance_sq a b). rewrite H in H0. split; nra. Qed.
Lemma distance_pos : forall a b, 0 <= distance a b.
Proof. intros. rewrite distance_eq. apply sqrt_pos. Qed.

Lemma givens_spec : forall a b c s e, distance a b <> 0 -> givens a b (distance a b) = (c, s, e) ->
  c * c + s * s = 1 /\ 0 <= c /\ c * a + s * b = e /\ s * a - c * b = 0 /\ e * e = a * a + b * b /\ e <> 0.
Proof.
  intros a b c s e Hh G. pose proof (distance_sq a b) as Q. pose proof (distance_pos a b).
  set (h := distance a b) in *. assert (0 < h) by lra.
  assert (E : a / h * (a / h) + b / h * (b / h) = 1).
  { transitivity ((a * a + b * b) / (h * h)). field; lra. rewrite <- Q. field. lra. }
  assert (Eh : a / h * a + b / h * b = h).
  { transitivity ((a * a + b * b) / h). field; lra. rewrite <- Q. field. lra. }
  unfold givens in G. destruct (rltb (a / h) 0) eqn:E1; [apply rltb_t in E1 | apply rltb_f in E1]; injection G as <- <- <-.
  - repeat split; try nra.
  - repeat split; try nra.
Qed.
Lemma rot2_eq : forall c s t1 t2, c * c + s * s = 1 -> 0 <= c -> rot2 c s t1 t2 = s * t1 - c * t2.
Proof.
  intros. unfold rot2, rot1. assert (Es : s * s = 1 - c * c) by lra.
  transitivity ((s * (1 + c) * t1 + (s * s) * t2 - (1 + c) * t2) / (1 + c)). field; lra.
  rewrite Es. field. lra.
Qed.

(** ** Rotation of the entries a and b of a vector *)
Definition vrot (a b : nat) (c s : R) (w : qvec) : qvec :=
  fun l => if (l =? a)%nat then c * w a + s * w b else if (l =? b)%nat then s * w a - c * w b else w l.
Lemma vrot_lin : forall a b c s p q w v l, vrot a b c s (fun i => p * w i + q * v i) l = p * vrot a b c s w l + q * vrot a b c s v l.
Proof. intros. unfold vrot. destruct (l =? a)%nat; [ring|]. destruct (l =? b)%nat; ring. Qed.
Lemma vrot_ext : forall n a b c s w v, (a < n)%nat -> (b < n)%nat -> (forall l, (l < n)%nat -> w l = v l) ->
  forall l, (l < n)%nat -> vrot a b c s w l = vrot a b c s v l.
Proof. intros. unfold vrot. rewrite (H1 a), (H1 b), (H1 l) by easy. reflexivity. Qed.
Lemma rsum_pair : forall n a b f, (a < n)%nat -> (b < n)%nat -> a <> b ->
  rsum n f = f a + f b + rsum n (fun i => if (i =? a)%nat then 0 else if (i =? b)%nat then 0 else f i).
Proof.
  intros n a b f Ha Hb N.
  assert (E : rsum n f = rsum n (fun i => if (i =? a)%nat then f a else 0) + rsum n (fun i => if (i =? b)%nat then f b else 0)
     + rsum n (fun i => if (i =? a)%nat then 0 else if (i =? b)%nat then 0 else f i)).
  { rewrite <- !rsum_plus. apply rsum_ext; intros i Hi. destruct (Nat.eqb_spec i a), (Nat.eqb_spec i b); subst; try lra; try lia. }
  rewrite E, !rsum_delta by easy. reflexivity.
Qed.
Lemma vrot_dot : forall n a b c s w v, (a < n)%nat -> (b < n)%nat -> a <> b -> c * c + s * s = 1 ->
  dotn n (vrot a b c s w) (vrot a b c s v) = dotn n w v.
Proof.
  intros n a b c s w v Ha Hb N E. unfold dotn. rewrite (rsum_pair n a b) by easy. rewrite (rsum_pair n a b (fun i => w i * v i)) by easy.
  f_equal.
  - unfold vrot. rewrite !Nat.eqb_refl. destruct (Nat.eqb_spec b a); [lia|].
    transitivity ((c * c + s * s) * (w a * v a) + (c * c + s * s) * (w b * v b)). ring. rewrite E. ring.
  - apply rsum_ext; intros i Hi. destruct (Nat.eqb_spec i a); [easy|]. destruct (Nat.eqb_spec i b); [easy|].
    unfold vrot. destruct (Nat.eqb_spec i a); [easy|]. destruct (Nat.eqb_spec i b); easy.
Qed.

(** A linear isometry of the first n entries that leaves the entries below lo alone. *)
Record isom (n lo : nat) (F : qvec -> qvec) : Prop := Isom {
  i_lin : forall p q w v l, F (fun i => p * w i + q * v i) l = p * F w l + q * F v l;
  i_ext : forall w v, (forall l, (l < n)%nat -> w l = v l) -> forall l, (l < n)%nat -> F w l = F v l;
  i_dot : forall w v, dotn n (F w) (F v) = dotn n w v;
  i_low : forall w l, (l < lo)%nat -> F w l = w l }.
Lemma isom_id : forall n lo, isom n lo (fun w => w).
Proof. intros. split; intros; auto. Qed.
Lemma isom_comp : forall n lo F G, isom n lo F -> isom n lo G -> isom n lo (fun w => G (F w)).
Proof.
  intros n lo F G [L1 E1 D1 W1] [L2 E2 D2 W2]. split; intros.
  - assert (X : F (fun i => p * w i + q * v i) = (fun i => p * F w i + q * F v i)) by (apply functional_extensionality; intros; apply L1).
    rewrite X. apply L2.
  - apply E2; [|easy]. intros. apply E1; easy.
  - now rewrite D2, D1.
  - rewrite W2, W1; easy.
Qed.
Lemma isom_vrot : forall n lo a b c s, (a < n)%nat -> (b < n)%nat -> (lo <= a)%nat -> (lo <= b)%nat -> a <> b -> c * c + s * s = 1 -> isom n lo (vrot a b c s).
Proof.
  intros. split; intros.
  - apply vrot_lin.
  - eapply vrot_ext; [exact H | exact H0 | exact H5 | exact H6].
  - now apply vrot_dot.
  - unfold vrot. destruct (Nat.eqb_spec l a); [lia|]. destruct (Nat.eqb_spec l b); [lia|]. reflexivity.
Qed.
Lemma dotn_split : forall n lo w v, (lo <= n)%nat -> dotn n w v = dotn lo w v + rsum (n - lo) (fun i => w (lo + i)%nat * v (lo + i)%nat).
Proof. intros. unfold dotn. replace n with (lo + (n - lo))%nat at 1 by lia. apply rsum_split. Qed.
(** Vectors supported below lo are fixed. *)
Lemma isom_fix : forall n lo F w, isom n lo F -> (lo <= n)%nat -> (forall l, (lo <= l < n)%nat -> w l = 0) -> forall l, (l < n)%nat -> F w l = w l.
Proof.
  intros n lo F w I Hl Hz l Hn. destruct (lt_dec l lo). now apply (i_low _ _ _ I).
  assert (D := i_dot _ _ _ I w w). rewrite !(dotn_split n lo) in D by easy.
  assert (E : dotn lo (F w) (F w) = dotn lo w w) by (apply rsum_ext; intros i Hi; rewrite !(i_low _ _ _ I) by easy; reflexivity).
  assert (Z : rsum (n - lo) (fun i => w (lo + i)%nat * w (lo + i)%nat) = 0) by (apply rsum_zero; intros i Hi; rewrite Hz by lia; ring).
  assert (Z2 : rsum (n - lo) (fun i => F w (lo + i)%nat * F w (lo + i)%nat) = 0) by lra.
  pose proof (rsum_sq_zero _ (fun i => F w (lo + i)%nat) Z2 (l - lo)%nat ltac:(lia)) as Q. cbn beta in Q.
  replace (lo + (l - lo))%nat with l in Q by lia. rewrite Q, Hz by lia. reflexivity.
Qed.
(** The transposed product commutes with a linear map of the rows. *)
Lemma isom_zero : forall n lo F l, isom n lo F -> F (fun _ => 0) l = 0.
Proof.
  intros. pose proof (i_lin _ _ _ H 0 0 (fun _ => 0) (fun _ => 0) l) as E. cbn beta in E.
  assert (X : (fun _ : nat => 0 * 0 + 0 * 0) = (fun _ => 0)) by (apply functional_extensionality; intros; ring). rewrite X in E. lra.
Qed.
Lemma isom_sum : forall n lo F m (M : qmat) (v : qvec) l, isom n lo F ->
  F (fun j => rsum m (fun k => M k j * v k)) l = rsum m (fun k => F (M k) l * v k).
Proof.
  intros n lo F m M v l I. revert l. induction m; intros; cbn [rsum].
  - apply (isom_zero _ _ _ _ I).
  - assert (X : (fun j => rsum m (fun k => M k j * v k) + M m j * v m) = (fun j => 1 * (fun j => rsum m (fun k => M k j * v k)) j + v m * M m j))
      by (apply functional_extensionality; intros; ring).
    rewrite X, (i_lin _ _ _ I), IHm. ring.
Qed.
Lemma computeD_isom : forall n lo F J J' np, isom n lo F -> (forall k l, (l < n)%nat -> J' k l = F (J k) l) ->
  forall l, (l < n)%nat -> computeD n J' np l = F (computeD n J np) l.
Proof.
  intros. unfold computeD. rewrite (isom_sum n lo F n J np l H). apply rsum_ext; intros k Hk. rewrite H0 by easy. ring.
Qed.

(** ** addConstraint *)
Lemma add_step_spec : forall n lo j J d J' d', (1 <= j)%nat -> (j < n)%nat -> (lo <= j - 1)%nat -> add_step j J d = (J', d') ->
  exists F, isom n lo F /\ (forall k l, J' k l = F (J k) l) /\ (forall l, d' l = F d l) /\ d' j = 0 /\ (forall l, (j < l)%nat -> d' l = d l).
Proof.
  intros n lo j J d J' d' H1 Hj Hlo E. unfold add_step in E.
  destruct (reqb (distance (d (j - 1)%nat) (d j)) 0) eqn:Eh; [apply reqb_t in Eh | apply reqb_f in Eh].
  - injection E as <- <-. apply distance_0 in Eh. exists (fun w => w). split; [apply isom_id|]. repeat split; auto. apply Eh.
  - destruct (givens (d (j - 1)%nat) (d j) (distance (d (j - 1)%nat) (d j))) as [[c s] e] eqn:G.
    injection E as <- <-. destruct (givens_spec _ _ _ _ _ Eh G) as (U & C & T & Z & _).
    exists (vrot (j - 1) j c s). split; [apply isom_vrot; lia || easy|]. split; [|split; [|split]].
    + intros k l. unfold vrot. destruct (l =? j - 1)%nat. unfold rot1; ring. destruct (l =? j)%nat; [|easy]. now rewrite rot2_eq.
    + intros l. unfold vrot, upd. destruct (Nat.eqb_spec l (j - 1)); [now rewrite <- T|]. destruct (Nat.eqb_spec l j); [now rewrite Z|easy].
    + unfold upd. destruct (Nat.eqb_spec j (j - 1)); [lia|]. now rewrite Nat.eqb_refl.
    + intros l Hl. unfold upd. destruct (Nat.eqb_spec l (j - 1)); [lia|]. destruct (Nat.eqb_spec l j); [lia|easy].
Qed.
Lemma add_loop_spec : forall cnt n iq J d J' d', (iq + cnt < n)%nat -> add_loop cnt iq J d = (J', d') ->
  exists F, isom n iq F /\ (forall k l, J' k l = F (J k) l) /\ (forall l, d' l = F d l) /\ (forall l, (iq < l <= iq + cnt)%nat -> d' l = 0)
    /\ (forall l, (iq + cnt < l)%nat -> d' l = d l).
Proof.
  induction cnt; intros n iq J d J' d' H E; cbn [add_loop] in E.
  - injection E as <- <-. exists (fun w => w). split; [apply isom_id|]. repeat split; auto. intros; lia.
  - destruct (add_step (iq + S cnt) J d) as [J1 d1] eqn:E1.
    destruct (add_step_spec n iq (iq + S cnt)%nat J d J1 d1 ltac:(lia) H ltac:(lia) E1) as (F & I1 & HJ1 & Hd1 & Z1 & S1).
    destruct (IHcnt n iq J1 d1 J' d' ltac:(lia) E) as (G & I2 & HJ2 & Hd2 & Z2 & S2).
    exists (fun w => G (F w)). split; [now apply isom_comp|]. split; [|split; [|split]].
    + intros k l. rewrite HJ2. f_equal. apply functional_extensionality; intros; apply HJ1.
    + intros l. rewrite Hd2. f_equal. apply functional_extensionality; intros; apply Hd1.
    + intros l Hl. destruct (Nat.eq_dec l (iq + S cnt)). subst. rewrite S2 by lia. easy. apply Z2. lia.
    + intros l Hl. rewrite S2 by lia. apply S1. lia.
Qed.

Lemma addConstraint_spec : forall n M J d iq Rn a, addConstraint n M J d iq Rn = Some a ->
  (iq < n)%nat /\ exists F, isom n iq F /\ (forall k l, a_J a k l = F (J k) l) /\ (forall l, a_d a l = F d l)
   /\ (forall l, (iq < l < n)%nat -> a_d a l = 0)
   /\ (forall i k, a_R a i k = if ((k =? iq) && (i <=? iq))%nat then a_d a i else M i k)
   /\ (if a_ok a then eps * Rn < Rabs (a_d a iq) /\ a_Rn a = Rmax Rn (Rabs (a_d a iq)) else Rabs (a_d a iq) <= eps * Rn /\ a_Rn a = Rn).
Proof.
  intros n M J d iq Rn a E. unfold addConstraint in E. destruct (iq <? n)%nat eqn:Hn; [|discriminate]. apply Nat.ltb_lt in Hn. split; [easy|].
  destruct (add_loop (n - 1 - iq) iq J d) as [J' d'] eqn:EL.
  destruct (add_loop_spec (n - 1 - iq) n iq J d J' d' ltac:(lia) EL) as (F & I & HJ & Hd & Z & _).
  exists F. destruct (rleb (Rabs (d' iq)) (eps * Rn)) eqn:El; injection E as <-; cbn [a_J a_d a_R a_ok a_Rn];
   [apply rleb_t in El | apply rleb_f in El]; (split; [exact I|]); repeat split; auto; intros; apply Z; lia.
Qed.

(** The factorisation kept by the solver: J^T N = R for the normals N of the active constraints, R upper triangular. *)
Definition factor (n iq : nat) (J M : qmat) (N : nat -> qvec) : Prop :=
  (forall k l, (k < iq)%nat -> (l < n)%nat -> computeD n J (N k) l = M l k) /\
  (forall k l, (k < l)%nat -> (l < n)%nat -> M l k = 0) /\
  (forall k l, (iq <= k)%nat -> (l < n)%nat -> M l k = 0).
Definition gram (n : nat) (J : qmat) (a b : nat) : R := dotn n (J a) (J b).

Lemma add_factor : forall n iq M J N np Rn a, factor n iq J M N -> addConstraint n M J (computeD n J np) iq Rn = Some a ->
  factor n (S iq) (a_J a) (a_R a) (fun k => if (k =? iq)%nat then np else N k) /\
  (forall i j, gram n (a_J a) i j = gram n J i j) /\ (iq < n)%nat /\
  (forall l, (l < n)%nat -> computeD n (a_J a) np l = a_d a l) /\
  (forall k l, (k < iq)%nat -> (l < n)%nat -> a_R a l k = M l k).
Proof.
  intros n iq M J N np Rn a (F1 & F2 & F3) E.
  destruct (addConstraint_spec _ _ _ _ _ _ _ E) as (Hn & F & I & HJ & Hd & Z & HR & _).
  assert (D : forall l, (l < n)%nat -> computeD n (a_J a) np l = a_d a l).
  { intros l Hl. rewrite (computeD_isom n iq F J (a_J a) np I) by (intros; auto). now rewrite Hd. }
  split; [|split; [|split; [easy|split; [easy|]]]].
  - split; [|split].
    + intros k l Hk Hl. rewrite HR. destruct (Nat.eqb_spec k iq).
      * subst. cbn [andb]. rewrite D by easy. destruct (Nat.leb_spec l iq); [easy|]. rewrite Z by lia. symmetry. apply F3; lia.
      * cbn [andb]. assert (k < iq)%nat by lia.
        rewrite (computeD_isom n iq F J (a_J a) (N k) I) by (intros; auto).
        rewrite (isom_fix n iq F _ I ltac:(lia)); [now apply F1| |easy].
        intros l' Hl'. rewrite F1 by lia. apply F2; lia.
    + intros k l Hk Hl. rewrite HR. destruct (Nat.eqb_spec k iq); cbn [andb]; [|now apply F2].
      destruct (Nat.leb_spec l iq); [lia|]. now apply F2.
    + intros k l Hk Hl. rewrite HR. destruct (Nat.eqb_spec k iq); [lia|]. cbn [andb]. apply F3; lia.
  - intros i j. unfold gram.
    assert (X : forall k, a_J a k = F (J k)) by (intros; apply functional_extensionality; intros; apply HJ).
    rewrite !X. apply (i_dot _ _ _ I).
  - intros k l Hk Hl. rewrite HR. destruct (Nat.eqb_spec k iq); [lia|]. reflexivity.
Qed.

(** ** deleteConstraint *)
(** R during the loop: columns below j triangular, column k >= j with one entry more. *)
Definition hess (n iq j : nat) (M : qmat) : Prop := forall k l, (l < n)%nat -> (if (k <? j)%nat then k < l else if (k <? iq)%nat then S k < l else True)%nat -> M l k = 0.
Lemma del_step_spec : forall n iq j M J M' J', (S j < n)%nat -> (j < iq)%nat -> hess n iq j M -> M (S j) j <> 0 -> del_step iq j M J = (M', J') ->
  exists F, isom n j F /\ (forall k l, J' k l = F (J k) l) /\ (forall k l, (k < iq)%nat -> (l < n)%nat -> M' l k = F (fun i => M i k) l) /\ hess n iq (S j) M' /\ M' j j <> 0
   /\ (forall k l, (iq <= k)%nat -> M' l k = M l k) /\ (forall l k, (S j < l)%nat -> (l < n)%nat -> M' l k = M l k) /\ (forall k, (k < j)%nat -> forall l, M' l k = M l k).
Proof.
  intros n iq j M J M' J' Hj Hq HH Hnz E. unfold del_step in E.
  destruct (reqb (distance (M j j) (M (S j) j)) 0) eqn:Eh; [apply reqb_t in Eh; apply distance_0 in Eh; tauto|apply reqb_f in Eh].
  destruct (givens (M j j) (M (S j) j) (distance (M j j) (M (S j) j))) as [[c s] e] eqn:G.
  destruct (givens_spec _ _ _ _ _ Eh G) as (U & C & T & Z & Q & Ne).
  injection E as <- <-. exists (vrot j (S j) c s). split; [apply isom_vrot; lia || easy|]. split; [|split; [|split; [|split; [|split; [|split]]]]].
  - intros k l. unfold vrot. destruct (l =? j)%nat. unfold rot1; ring. destruct (l =? S j)%nat; [|easy]. now rewrite rot2_eq.
  - intros k l Hk Hl. unfold vrot. destruct (Nat.eqb_spec k j).
    + subst k. destruct (Nat.eqb_spec l (S j)). subst l. destruct (Nat.eqb_spec (S j) j); [lia|]. now rewrite Z.
      destruct (Nat.eqb_spec l j); [now rewrite T|easy].
    + destruct (Nat.leb_spec (j + 1) k).
      * destruct (Nat.ltb_spec k iq); [|lia]. cbn [andb]. destruct (Nat.eqb_spec l j). unfold rot1; ring.
        destruct (Nat.eqb_spec l (S j)); [|easy]. now rewrite rot2_eq.
      * cbn [andb]. assert (k < j)%nat by lia. 
        assert (M j k = 0) by (apply HH; [lia|]; destruct (Nat.ltb_spec k j); lia).
        assert (M (S j) k = 0) by (apply HH; [lia|]; destruct (Nat.ltb_spec k j); lia).
        destruct (Nat.eqb_spec l j). subst l. rewrite H1, H2. ring.
        destruct (Nat.eqb_spec l (S j)). subst l. rewrite H1, H2. ring. easy.
  - intros k l Hl Hk. destruct (Nat.eqb_spec k j).
    + subst k. destruct (Nat.eqb_spec l (S j)); [easy|]. destruct (Nat.ltb_spec j (S j)); [|lia].
      destruct (Nat.eqb_spec l j); [lia|]. apply HH; [easy|]. rewrite Nat.ltb_irrefl. destruct (Nat.ltb_spec j iq); lia.
    + destruct (Nat.ltb_spec k (S j)).
      * destruct (Nat.leb_spec (j + 1) k); [lia|]. cbn [andb]. apply HH; [easy|]. destruct (Nat.ltb_spec k j); lia.
      * destruct (Nat.ltb_spec k iq).
        -- destruct (Nat.leb_spec (j + 1) k); [|lia]. cbn [andb]. destruct (Nat.eqb_spec l j); [lia|]. destruct (Nat.eqb_spec l (S j)); [lia|].
           apply HH; [easy|]. destruct (Nat.ltb_spec k j); [lia|]. destruct (Nat.ltb_spec k iq); lia.
        -- rewrite andb_false_r. apply HH; [easy|]. destruct (Nat.ltb_spec k j); [lia|]. destruct (Nat.ltb_spec k iq); lia.
  - cbn beta. rewrite !Nat.eqb_refl. destruct (Nat.eqb_spec j (S j)); [lia|]. easy.
  - intros k l Hk. destruct (Nat.eqb_spec k j); [lia|]. destruct (Nat.ltb_spec k iq); [lia|]. now rewrite andb_false_r.
  - intros l k Hl Hn. destruct (Nat.eqb_spec l (S j)); [lia|]. destruct (Nat.eqb_spec l j); [lia|]. destruct (k =? j)%nat; [easy|]. destruct ((j + 1 <=? k)%nat && (k <? iq)%nat); easy.
  - intros k Hk l. destruct (Nat.eqb_spec k j); [lia|]. destruct (Nat.leb_spec (j + 1) k); [lia|]. reflexivity.
Qed.
Lemma del_loop_spec : forall cnt n iq j M J M' J', (j + cnt = iq)%nat -> (iq < n)%nat -> hess n iq j M -> (forall i, (j <= i < iq)%nat -> M (S i) i <> 0) ->
  del_loop cnt iq j M J = (M', J') ->
  exists F, isom n j F /\ (forall k l, J' k l = F (J k) l) /\ (forall k l, (k < iq)%nat -> (l < n)%nat -> M' l k = F (fun i => M i k) l) /\ hess n iq iq M'
   /\ (forall i, (j <= i < iq)%nat -> M' i i <> 0) /\ (forall k l, (iq <= k)%nat -> M' l k = M l k) /\ (forall k, (k < j)%nat -> forall l, M' l k = M l k).
Proof.
  induction cnt; intros n iq j M J M' J' Hc Hn HH Hz E; cbn [del_loop] in E.
  - injection E as <- <-. assert (j = iq) by lia. subst j. exists (fun w => w). split; [apply isom_id|]. repeat split; auto. intros; lia.
  - destruct (del_step iq j M J) as [M1 J1] eqn:E1.
    destruct (del_step_spec n iq j M J M1 J1 ltac:(lia) ltac:(lia) HH (Hz j ltac:(lia)) E1) as (F & I1 & HJ1 & HM1 & HH1 & D1 & K1 & L1 & W1).
    destruct (IHcnt n iq (S j) M1 J1 M' J' ltac:(lia) Hn HH1) as (G & I2 & HJ2 & HM2 & HH2 & D2 & K2 & W2); [|exact E|].
    { intros i Hi. rewrite L1 by lia. apply Hz. lia. }
    assert (I2' : isom n j G) by (destruct I2; split; auto; intros; apply i_low0; lia).
    exists (fun w => G (F w)). split; [now apply isom_comp|]. split; [|split; [|split; [|split; [|split]]]]; auto.
    + intros k l. rewrite HJ2. f_equal. apply functional_extensionality; intros; apply HJ1.
    + intros k l Hk Hl. rewrite HM2 by easy. apply (i_ext _ _ _ I2); [|easy]. intros. now apply HM1.
    + intros i Hi. destruct (Nat.eq_dec i j). subst. rewrite W2 by lia. easy. apply D2. lia.
    + intros k l Hk. rewrite K2 by easy. now apply K1.
    + intros k Hk l. rewrite W2 by lia. now apply W1.
Qed.

Lemma find_active_spec : forall cnt A l i qq, find_active A l i cnt = Some qq -> (i <= qq < i + cnt)%nat /\ A qq = l.
Proof.
  induction cnt; intros A l i qq E; cbn [find_active] in E; [discriminate|].
  destruct (Z.eqb_spec (A i) l). injection E as <-. split; [lia|easy].
  apply IHcnt in E. split; [lia|easy].
Qed.
Lemma find_active_some : forall cnt A l i k, (i <= k < i + cnt)%nat -> A k = l -> exists qq, find_active A l i cnt = Some qq.
Proof.
  induction cnt; intros A l i k Hk E; [lia|]. cbn [find_active]. destruct (Z.eqb_spec (A i) l). eauto.
  apply IHcnt with k; [|easy]. destruct (Nat.eq_dec i k); [subst; easy|lia].
Qed.

Definition skip (qq : nat) (k : nat) : nat := if (k <? qq)%nat then k else S k.
Lemma delete_factor : forall n len M J A u p iq l e N qq, factor n iq J M N -> (forall k, (k < iq)%nat -> M k k <> 0) -> (iq <= n)%nat ->
  deleteConstraint len M J A u p iq l = Some e -> find_active A l p (iq - p) = Some qq ->
  (qq < iq)%nat /\ e_iq e = (iq - 1)%nat /\
  factor n (iq - 1) (e_J e) (e_R e) (fun k => N (skip qq k)) /\ (forall k, (k < iq - 1)%nat -> e_R e k k <> 0) /\
  (forall i j, gram n (e_J e) i j = gram n J i j) /\
  (forall k, (k < iq)%nat -> e_A e k = A (skip qq k)) /\ (forall k, (k < iq)%nat -> e_u e k = u (skip qq k)) /\ e_A e iq = 0%Z /\ e_u e iq = 0.
Proof.
  intros n len M J A u p iq l e N qq (F1 & F2 & F3) HD Hn E Hf. unfold deleteConstraint in E. rewrite Hf in E.
  destruct (find_active_spec _ _ _ _ _ Hf) as [Hq HA].
  destruct ((1 <=? iq) && (iq <? len))%nat eqn:Hg; [|discriminate]. apply andb_prop in Hg. destruct Hg as [Hg1 Hg2]. apply Nat.leb_le in Hg1. apply Nat.ltb_lt in Hg2.
  assert (Hqq : (qq < iq)%nat) by lia.
  set (M1 := fun i k => if ((qq <=? k) && (k <? iq - 1))%nat then M i (S k) else if ((k =? iq - 1) && (i <? iq))%nat then 0 else M i k) in E.
  destruct (del_loop (iq - 1 - qq) (iq - 1) qq M1 J) as [M2 J2] eqn:EL. injection E as <-. cbn [e_iq e_J e_R e_A e_u].
  assert (HM1 : forall i k, (k < iq - 1)%nat -> M1 i k = M i (skip qq k)).
  { intros i k Hk. unfold M1, skip. destruct (Nat.leb_spec qq k), (Nat.ltb_spec k (iq - 1)), (Nat.ltb_spec k qq); try lia; cbn [andb]; try easy.
    destruct (Nat.eqb_spec k (iq - 1)); [lia|]. easy. }
  assert (HM1z : forall i k, (iq - 1 <= k)%nat -> (i < n)%nat -> M1 i k = 0).
  { intros i k Hk Hi. unfold M1. destruct (Nat.ltb_spec k (iq - 1)); [lia|]. rewrite andb_false_r.
    destruct (Nat.eqb_spec k (iq - 1)); cbn [andb]. destruct (Nat.ltb_spec i iq); [easy|]. apply F2; lia. apply F3; lia. }
  assert (HH : hess n (iq - 1) qq M1).
  { intros k i Hi Hk. destruct (Nat.ltb_spec k (iq - 1)); [|apply HM1z; easy]. rewrite HM1 by easy. unfold skip.
    destruct (Nat.ltb_spec k qq). apply F2; lia. destruct (Nat.ltb_spec k (iq - 1)); [|lia]. apply F2; lia. }
  assert (Hzz : forall i, (qq <= i < iq - 1)%nat -> M1 (S i) i <> 0).
  { intros i Hi. rewrite HM1 by lia. unfold skip. destruct (Nat.ltb_spec i qq); [lia|]. apply HD. lia. }
  destruct (del_loop_spec (iq - 1 - qq) n (iq - 1) qq M1 J M2 J2 ltac:(lia) ltac:(lia) HH Hzz EL) as (F & I & HJ & HM & HH2 & D & K & W).
  split; [easy|]. split; [easy|]. split; [|split; [|split; [|split; [|split; [|split]]]]].
  - split; [|split].
    + intros k i Hk Hi. rewrite (computeD_isom n qq F J J2 _ I) by (intros; auto). rewrite HM by easy.
      apply (i_ext _ _ _ I); [|easy]. intros j Hj. rewrite HM1 by easy. apply F1; [|easy]. unfold skip. destruct (Nat.ltb_spec k qq); lia.
    + intros k i Hk Hi. apply HH2; [easy|]. destruct (Nat.ltb_spec k (iq - 1)); lia.
    + intros k i Hk Hi. rewrite K by easy. now apply HM1z.
  - intros k Hk. destruct (lt_dec k qq).
    + rewrite W by easy. rewrite HM1 by easy. unfold skip. destruct (Nat.ltb_spec k qq); [|lia]. apply HD. lia.
    + apply D. lia.
  - intros i j. unfold gram. assert (X : forall k, J2 k = F (J k)) by (intros; apply functional_extensionality; intros; apply HJ).
    rewrite !X. apply (i_dot _ _ _ I).
  - intros k Hk. unfold shift_down, skip. destruct (Nat.leb_spec qq k), (Nat.ltb_spec k (iq - 1)), (Nat.ltb_spec k qq); try lia; cbn [andb]; try easy;
    destruct (Nat.eqb_spec k (iq - 1)); try lia; try (f_equal; lia). destruct (Nat.eqb_spec k iq); [lia|easy].
  - intros k Hk. unfold shift_down, skip. destruct (Nat.leb_spec qq k), (Nat.ltb_spec k (iq - 1)), (Nat.ltb_spec k qq); try lia; cbn [andb]; try easy;
    destruct (Nat.eqb_spec k (iq - 1)); try lia; try (f_equal; lia). destruct (Nat.eqb_spec k iq); [lia|easy].
  - unfold shift_down. destruct (Nat.ltb_spec iq (iq - 1)); [lia|]. rewrite andb_false_r. destruct (Nat.eqb_spec iq (iq - 1)); [lia|]. now rewrite Nat.eqb_refl.
  - unfold shift_down. destruct (Nat.ltb_spec iq (iq - 1)); [lia|]. rewrite andb_false_r. destruct (Nat.eqb_spec iq (iq - 1)); [lia|]. now rewrite Nat.eqb_refl.
Qed.

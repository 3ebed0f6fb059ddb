(** * C48: real-time affine and quadratic builders *)
From Coq Require Import Reals List Arith Bool Lia Lra.
Import ListNotations.
From Verif Require Import Base BaseProofs RtMatModel RtMatProofs.
Local Open Scope R_scope.

(** ** Specification: values of affine and quadratic functions, written out as sums. *)
Definition aff (A : mat) (a : vec) (x : nat -> R) (i : nat) : R := rsum (nc A) (fun j => ma A i j * x j) + va a i.
Definition sqnorm (n : nat) (r : nat -> R) : R := rsum n (fun i => r i * r i).
Definition form (n : nat) (W : nat -> nat -> R) (r : nat -> R) : R := rsum n (fun i => rsum n (fun j => r i * W i j * r j)).
(** The value x' Q x + 2 g' x minimised by the solver (RtQPSolver.hpp l.228). *)
Definition quad (Q : mat) (g : vec) (x : nat -> R) : R := form (nr Q) (ma Q) x + 2 * rsum (nr Q) (fun i => va g i * x i).
Definition symmetric (n : nat) (W : nat -> nat -> R) : Prop := forall i j, (i < n)%nat -> (j < n)%nat -> W i j = W j i.

Ltac un H := repeat match type of H with
  | guard _ _ = Ok _ => apply guard_ok in H; let E := fresh "G" in destruct H as [E H]
  | bind _ _ = Ok _ => apply bind_ok in H; let a := fresh "t" in let E := fresh "E" in destruct H as (a & E & H); un E
  | Ok _ = Ok _ => injection H as H
  end.
Ltac bools := repeat match goal with
  | H : (_ && _)%bool = true |- _ => apply andb_prop in H; destruct H
  | H : (_ =? _)%nat = true |- _ => apply Nat.eqb_eq in H
  | H : (_ <=? _)%nat = true |- _ => apply Nat.leb_le in H
  end.

Lemma prod_sum : forall n m (f : nat -> R) (g : nat -> R), rsum n f * rsum m g = rsum n (fun i => rsum m (fun j => f i * g j)).
Proof. intros. rewrite <- rsum_scal_r. apply rsum_ext; intros. now rewrite rsum_scal. Qed.

(** |A x|_W^2 as a quadratic form in x *)
Lemma form_push : forall r n (A : nat -> nat -> R) (W : nat -> nat -> R) (x : nat -> R),
  form r W (fun i => rsum n (fun j => A i j * x j)) = form n (fun i j => rsum r (fun l => rsum r (fun k => A k i * W k l) * A l j)) x.
Proof.
  intros. unfold form.
  transitivity (rsum r (fun k => rsum r (fun l => rsum n (fun i => rsum n (fun j => x i * (A k i * W k l * A l j) * x j))))).
  { apply rsum_ext; intros k Hk. apply rsum_ext; intros l Hl.
    replace (rsum n (fun j => A k j * x j) * W k l * rsum n (fun j => A l j * x j)) with (W k l * (rsum n (fun i => A k i * x i) * rsum n (fun j => A l j * x j))) by ring.
    rewrite prod_sum, <- rsum_scal. apply rsum_ext; intros i Hi. rewrite <- rsum_scal. apply rsum_ext; intros j Hj. ring. }
  transitivity (rsum n (fun i => rsum n (fun j => rsum r (fun k => rsum r (fun l => x i * (A k i * W k l * A l j) * x j))))).
  { transitivity (rsum r (fun k => rsum n (fun i => rsum n (fun j => rsum r (fun l => x i * (A k i * W k l * A l j) * x j))))).
    - apply rsum_ext; intros k Hk. rewrite rsum_swap. apply rsum_ext; intros i Hi. now rewrite rsum_swap.
    - rewrite rsum_swap. apply rsum_ext; intros i Hi. now rewrite rsum_swap. }
  apply rsum_ext; intros i Hi. apply rsum_ext; intros j Hj.
  rewrite rsum_swap. rewrite <- rsum_scal, <- rsum_scal_r. apply rsum_ext; intros l Hl.
  rewrite <- rsum_scal_r, <- rsum_scal, <- rsum_scal_r. apply rsum_ext; intros k Hk. ring.
Qed.
Lemma form_affine : forall n W (u a : nat -> R), symmetric n W ->
  form n W (fun i => u i + a i) = form n W u + 2 * rsum n (fun i => rsum n (fun j => W i j * a j) * u i) + form n W a.
Proof.
  intros n W u a HW. unfold form.
  assert (E1 : forall i, (i < n)%nat -> rsum n (fun j => (u i + a i) * W i j * (u j + a j)) =
    rsum n (fun j => u i * W i j * u j) + rsum n (fun j => W i j * a j) * u i + rsum n (fun j => a i * W i j * u j) + rsum n (fun j => a i * W i j * a j)).
  { intros i Hi. rewrite <- rsum_scal_r, <- !rsum_plus. apply rsum_ext; intros; ring. }
  rewrite (rsum_ext n _ _ E1), !rsum_plus. 
  assert (E2 : rsum n (fun i => rsum n (fun j => a i * W i j * u j)) = rsum n (fun i => rsum n (fun j => W i j * a j) * u i)).
  { rewrite rsum_swap. apply rsum_ext; intros i Hi. rewrite <- rsum_scal_r. apply rsum_ext; intros j Hj. rewrite (HW i j Hi Hj). ring. }
  rewrite E2. ring.
Qed.
Lemma cross_push : forall r n (A : nat -> nat -> R) (b x : nat -> R),
  rsum n (fun i => rsum r (fun k => A k i * b k) * x i) = rsum r (fun k => b k * rsum n (fun i => A k i * x i)).
Proof.
  intros. transitivity (rsum n (fun i => rsum r (fun k => A k i * b k * x i))).
  - apply rsum_ext; intros. now rewrite <- rsum_scal_r.
  - rewrite rsum_swap. apply rsum_ext; intros k Hk. rewrite <- rsum_scal. apply rsum_ext; intros; ring.
Qed.
Lemma form_ext : forall n W W' r r', (forall i j, (i < n)%nat -> (j < n)%nat -> W i j = W' i j) -> (forall i, (i < n)%nat -> r i = r' i) -> form n W r = form n W' r'.
Proof. intros. unfold form. apply rsum_ext; intros. apply rsum_ext; intros. rewrite H, !H0 by auto. reflexivity. Qed.
Lemma form_plus : forall n W W' r, form n (fun i j => W i j + W' i j) r = form n W r + form n W' r.
Proof. intros. unfold form. rewrite <- rsum_plus. apply rsum_ext; intros. rewrite <- rsum_plus. apply rsum_ext; intros. ring. Qed.

(** Weighted norms with a symmetric weight: the function added is (A x + a)' W (A x + a), up to its constant a' W a. *)
Theorem C48_weighted_norm : forall Q g A a W Q' g', q_addWeighted Q g A a W = Ok (Q', g') -> symmetric (nr A) (ma W) ->
  forall x, quad Q' g' x = quad Q g x + form (nr A) (ma W) (aff A a x) - form (nr A) (ma W) (va a).
Proof.
  intros [n n1 Q] [n2 g] [r n3 A] [r1 a] [r2 r3 W] Q' g' H HW x. unfold q_addWeighted in H. un H. unfold m_mul, m_vec, v_add, m_add in *.
  un E; un E0; un E1; un E2; un E3. subst. cbn [nr nc ma vn va m_tr] in *. bools. subst. unfold quad, aff. cbn [nr nc ma va vn].
  rewrite form_plus, form_affine by exact HW. rewrite form_push.
  rewrite (rsum_ext n3 (fun i => (g i + _) * x i) (fun i => g i * x i + rsum r2 (fun k => A k i * rsum r2 (fun l => W k l * a l)) * x i)).
  2:{ intros i Hi. rewrite Rmult_plus_distr_r. f_equal. f_equal.
      transitivity (rsum r2 (fun l => rsum r2 (fun k => A k i * W k l * a l))); [apply rsum_ext; intros; now rewrite <- rsum_scal_r|].
      rewrite rsum_swap. apply rsum_ext; intros k Hk. rewrite <- rsum_scal. apply rsum_ext; intros; ring. }
  rewrite rsum_plus. rewrite (cross_push r2 n3 A (fun k => rsum r2 (fun l => W k l * a l)) x). ring.
Qed.
(** Plain norms: |A x + a|^2 - |a|^2 is added. *)
Theorem C48_norm : forall Q g A a Q' g', q_addNorm Q g A a = Ok (Q', g') ->
  forall x, quad Q' g' x = quad Q g x + sqnorm (nr A) (aff A a x) - sqnorm (nr A) (va a).
Proof.
  intros [n n1 Q] [n2 g] [r n3 A] [r1 a] Q' g' H x. unfold q_addNorm in H. un H. unfold m_mul, m_vec, v_add, m_add in *.
  un E; un E0; un E1; un E2. subst. cbn [nr nc ma vn va m_tr] in *. bools. subst. unfold quad, aff. cbn [nr nc ma va vn].
  assert (Id : symmetric r1 (fun i j => if (i =? j)%nat then 1 else 0)).
  { intros i j _ _. rewrite (Nat.eqb_sym i j). reflexivity. }
  assert (N : forall u, sqnorm r1 u = form r1 (fun i j => if (i =? j)%nat then 1 else 0) u).
  { intros u. unfold sqnorm, form. apply rsum_ext; intros i Hi. symmetry. rewrite (rsum_single r1 i); auto; [rewrite Nat.eqb_refl; ring|].
    intros j Hj Ne. destruct (Nat.eqb_spec i j); [congruence|ring]. }
  rewrite !N, form_plus, form_affine by exact Id. rewrite form_push, <- !N.
  rewrite (form_ext n3 (fun i j => rsum r1 (fun l => rsum r1 (fun k => A k i * (if (k =? l)%nat then 1 else 0)) * A l j)) (fun i j => rsum r1 (fun k => A k i * A k j)) x x); auto.
  2:{ intros i j Hi Hj. apply rsum_ext; intros l Hl. f_equal. rewrite (rsum_single r1 l); auto; [rewrite Nat.eqb_refl; ring|].
      intros k Hk Ne. destruct (Nat.eqb_spec k l); [congruence|ring]. }
  rewrite (rsum_ext n3 (fun i => (g i + _) * x i) (fun i => g i * x i + rsum r1 (fun k => A k i * a k) * x i)) by (intros; ring).
  rewrite rsum_plus, cross_push.
  rewrite (rsum_ext r1 (fun i => rsum r1 (fun j => (if (i =? j)%nat then 1 else 0) * a j) * rsum n3 (fun j => A i j * x j)) (fun i => a i * rsum n3 (fun j => A i j * x j))); [ring|].
  intros i Hi. f_equal. rewrite (rsum_single r1 i); auto; [rewrite Nat.eqb_refl; ring|]. intros j Hj Ne. destruct (Nat.eqb_spec i j); [congruence|ring].
Qed.
(** With an asymmetric weight the linear part is wrong. *)
Theorem C48_asymmetric_weight_refuted : exists Q g A a W Q' g' x, q_addWeighted Q g A a W = Ok (Q', g') /\
  quad Q' g' x <> quad Q g x + form (nr A) (ma W) (aff A a x) - form (nr A) (ma W) (va a).
Proof.
  exists (Mat 1 1 (fun _ _ => 0)), (Vec 1 (fun _ => 0)), (Mat 2 1 (fun i _ => if (i =? 0)%nat then 1 else 0)), (Vec 2 (fun i => if (i =? 0)%nat then 0 else 1)),
    (Mat 2 2 (fun i j => if (i =? 0)%nat then (if (j =? 0)%nat then 0 else 1) else 0)).
  do 2 eexists. exists (fun _ => 1). split; [reflexivity|]. unfold quad, form, aff. cbn. lra.
Qed.
(** Substituting x = S y + s into an affine map gives the composed map. *)
Theorem C48_affine_substitution : forall A a S s A' a', a_substitute A a S s = Ok (A', a') ->
  nr A' = nr A /\ nc A' = nc S /\ forall y i, aff A' a' y i = aff A a (aff S s y) i.
Proof.
  intros [r n A] [r1 a] [n1 m S] [n2 s] A' a' H. unfold a_substitute in H. un H. unfold m_mul, m_vec, v_add in *. un E; un E0; un E1. subst.
  cbn [nr nc ma vn va] in *. bools. subst. split; [reflexivity|]. split; [reflexivity|]. intros y i. unfold aff. cbn [nr nc ma vn va].
  transitivity (rsum n2 (fun j => A i j * rsum m (fun k => S j k * y k)) + (a i + rsum n2 (fun k => A i k * s k))).
  - f_equal. transitivity (rsum m (fun j => rsum n2 (fun k => A i k * S k j * y j))); [apply rsum_ext; intros; now rewrite <- rsum_scal_r|].
    rewrite rsum_swap. apply rsum_ext; intros k Hk. rewrite <- rsum_scal. apply rsum_ext; intros; ring.
  - rewrite (rsum_ext n2 (fun j => A i j * (rsum m (fun k => S j k * y k) + s j)) (fun j => A i j * rsum m (fun k => S j k * y k) + A i j * s j)) by (intros; ring).
    rewrite rsum_plus. ring.
Qed.
(** Substituting into a symmetric quadratic function gives the composed function, up to its value at y = 0. *)
Theorem C48_quadratic_substitution : forall Q g S s Q' g', q_substitute Q g S s = Ok (Q', g') -> symmetric (nr Q) (ma Q) ->
  nr Q' = nc S /\ nc Q' = nc S /\ forall y, quad Q' g' y = quad Q g (aff S s y) - quad Q g (va s).
Proof.
  intros [n n1 Q] [n2 g] [n3 m S] [n4 s] Q' g' H HQ. unfold q_substitute in H. un H. unfold m_mul, m_vec, v_add in *. un E; un E0; un E1; un E2; un E3. subst.
  cbn [nr nc ma vn va m_tr] in *. bools. subst. split; [reflexivity|]. split; [reflexivity|]. intros y. unfold quad, aff. cbn [nr nc ma vn va].
  rewrite form_affine by exact HQ. rewrite form_push.
  rewrite (cross_push n4 m S (fun k => g k + rsum n4 (fun k0 => Q k k0 * s k0)) y).
  rewrite (rsum_ext n4 (fun i => g i * (rsum m (fun j => S i j * y j) + s i)) (fun i => g i * rsum m (fun j => S i j * y j) + g i * s i)) by (intros; ring).
  rewrite (rsum_ext n4 (fun k => (g k + rsum n4 (fun k0 => Q k k0 * s k0)) * rsum m (fun i => S k i * y i))
    (fun k => g k * rsum m (fun i => S k i * y i) + rsum n4 (fun k0 => Q k k0 * s k0) * rsum m (fun i => S k i * y i))) by (intros; ring).
  rewrite !rsum_plus. ring.
Qed.
(** Appending affine rows, possibly starting at a column: the old rows keep their value, the new rows have the value of the appended map on the
    segment of the variables starting there. *)
Theorem C48_append : forall cap A a S s A' a', a_append cap A a S s = Ok (A', a') ->
  nr A' = (nr A + nr S)%nat /\ vn a' = nr A' /\ (nr A' <= cap)%nat /\
  forall x, (forall i, (i < nr A)%nat -> aff A' a' x i = aff A a x i) /\ (forall i, (i < nr S)%nat -> aff A' a' x (nr A + i) = aff S s x i).
Proof.
  intros cap [r n A] [r1 a] [q n1 S] [q1 s] A' a' H. unfold a_append in H. un H. unfold v_append, m_append in *. un E; un E0. subst.
  cbn [nr nc ma vn va] in *. bools. subst. repeat split; auto; intros; unfold aff; cbn [nr nc ma vn va].
  - destruct (Nat.ltb_spec i r1); [reflexivity|lia].
  - destruct (Nat.ltb_spec (r1 + i) r1); [lia|]. replace (r1 + i - r1)%nat with i by lia. reflexivity.
Qed.
Theorem C48_append_at_column : forall cap A a S s c A' a', a_appendAt cap A a S s c = Ok (A', a') ->
  nr A' = (nr A + nr S)%nat /\ vn a' = nr A' /\ nc A' = nc A /\ (nr A' <= cap)%nat /\
  forall x, (forall i, (i < nr A)%nat -> aff A' a' x i = aff A a x i) /\ (forall i, (i < nr S)%nat -> aff A' a' x (nr A + i) = aff S s (fun j => x (c + j)%nat) i).
Proof.
  intros cap [r n A] [r1 a] [q n1 S] [q1 s] c A' a' H. unfold a_appendAt in H. un H. unfold v_append, m_appendAt in *. un E; un E0. subst.
  cbn [nr nc ma vn va] in *. bools. subst. repeat split; auto; intros; unfold aff; cbn [nr nc ma vn va].
  - destruct (Nat.ltb_spec i r1); [reflexivity|lia].
  - destruct (Nat.ltb_spec (r1 + i) r1); [lia|]. replace (r1 + i - r1)%nat with i by lia. f_equal.
    replace n with (c + (n1 + (n - c - n1)))%nat by lia. rewrite !rsum_split. rewrite (rsum_zero c), (rsum_zero (n - c - n1)).
    + rewrite Rplus_0_l, Rplus_0_r. apply rsum_ext; intros j Hj. destruct (Nat.leb_spec c (c + j)); [|lia]. destruct (Nat.ltb_spec (c + j) (c + n1)); [|lia].
      cbn. now replace (c + j - c)%nat with j by lia.
    + intros j Hj. destruct (Nat.ltb_spec (c + (n1 + j)) (c + n1)); [lia|]. rewrite andb_false_r. ring.
    + intros j Hj. destruct (Nat.leb_spec c j); [lia|]. cbn. ring.
Qed.
(** Removing zero rows keeps exactly the other rows, in order, with their entry of the vector (if no row has exactly the threshold as its size). *)
Theorem C48_remove_zero_rows : forall nc l, (forall x, In x l -> row_abs nc (fst x) <> length_thresh) ->
  removeZeroRows nc l = filter (fun x => if Rlt_dec length_thresh (row_abs nc (fst x)) then true else false) l.
Proof.
  intros n l H. unfold removeZeroRows. apply compact_spec. intros x Hx. specialize (H x Hx).
  destruct (Rlt_dec length_thresh (row_abs n (fst x))), (Rlt_dec (row_abs n (fst x)) length_thresh); try reflexivity; lra.
Qed.
(** The other removal routine does not count the first row: with all rows non-zero it writes outside its selector matrix (finding F22). *)
Theorem C48_prune_refuted : prune 0 [1; 1; 1] = UB.
Proof.
  unfold prune. cbn [count_above selector length]. repeat (destruct (Rlt_dec 0 1) as [_|N]; [|exfalso; apply N; lra]). reflexivity.
Qed.
Theorem C48_prune_drops_first_refuted : prune 0 [1; 0; 0] = Ok O.
Proof.
  unfold prune. cbn [count_above selector length]. destruct (Rlt_dec 0 0) as [N|_]; [lra|]. reflexivity.
Qed.

(** Non-vacuity. *)
Example C48_demo : exists Q' g', q_addNorm (Mat 2 2 (fun i j => INR (i + j))) (Vec 2 INR) (Mat 1 2 (fun _ j => INR j)) (Vec 1 (fun _ => 3)) = Ok (Q', g') /\
  q_substitute Q' g' (m_id 2) (v_zero 2) <> UB.
Proof. do 2 eexists. split; [reflexivity|]. cbn. discriminate. Qed.
Example C48_demo_rows : removeZeroRows 1 [((fun _ => 2), 5); ((fun _ => 0), 6); ((fun _ => -1), 7)] = [((fun _ => 2), 5); ((fun _ => -1), 7)].
Proof.
  assert (T : length_thresh = / 1000000000000) by reflexivity. assert (0 < length_thresh < 1) by (rewrite T; lra).
  assert (A2 : row_abs 1 (fun _ => 2) = 2) by (unfold row_abs; cbn; rewrite Rabs_right; lra).
  assert (A0 : row_abs 1 (fun _ => 0) = 0) by (unfold row_abs; cbn; rewrite Rabs_R0; lra).
  assert (A1 : row_abs 1 (fun _ => -1) = 1) by (unfold row_abs; cbn; rewrite Rabs_left; lra).
  rewrite C48_remove_zero_rows.
  - cbn [filter fst]. rewrite A2, A0, A1. repeat (destruct (Rlt_dec _ _); try lra). reflexivity.
  - intros x [<-|[<-|[<-|[]]]]; cbn [fst]; rewrite ?A2, ?A0, ?A1; intros E; rewrite <- E in *; lra.
Qed.
Print Assumptions C48_weighted_norm.
Print Assumptions C48_quadratic_substitution.
Print Assumptions C48_remove_zero_rows.

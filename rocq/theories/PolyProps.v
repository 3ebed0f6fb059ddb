(** * C39: minimum jerk polynomials of the Python layer *)
From Coq Require Import Reals List Arith Lia Lra Psatz Bool.
From Coq Require Import ClassicalDescription.
Import ListNotations.
From Verif Require Import Base BaseProofs PolyModel PolySpec Hermite TrajSpec PolyProofs.
Local Open Scope R_scope.

(** deval is the derivative of eval, for every coefficient array with at least two rows (any exponents, repeated or unordered), and for a constant. *)
Theorem C39_derivative : forall p c, p_fitted p = true -> p_coeffs p = Some c -> (length c <> 1%nat \/ exists y, c = [(y, 0%nat)]) ->
  exists f f', (forall t, peval p t = Ok (f t) /\ pdeval p t = Ok (f' t)) /\ (forall t, derivable_pt_lim f t (f' t)).
Proof.
  intros p c Hf Hc H. exists (csum c), (csum (differentiate c)). split; [|intros; apply csum_deriv].
  intros t. unfold peval, pdeval. rewrite Hf, Hc. split; [reflexivity|]. destruct H as [H|(y & ->)].
  - apply Nat.eqb_neq in H. rewrite H. reflexivity.
  - cbn. f_equal. lra.
Qed.
(** Whatever is fitted meets every constraint: value, velocity or acceleration at the given time; all constraint lists, solver returning solutions. *)
Theorem C39_fit : forall solve ks p, sound solve -> fit solve (set_constraints poly_new ks) = Ok p ->
  exists f, is_function p f /\ (forall k, In k ks -> meets f k) /\ ks <> [].
Proof.
  intros solve ks p Hs H. destruct (fit_meets solve ks p Hs H) as (f & Hf & F & L). exists f. split; [exact Hf|]. split; [now apply Forall_forall|]. intros ->. now apply L.
Qed.
(** No constraint, a constraint of order three or more, or constraints added after the order was fixed: an exception and no polynomial. *)
Theorem C39_fit_rejects : forall solve ks, ks = [] \/ (exists k, In k ks /\ (3 <= snd k)%nat) -> fit solve (set_constraints poly_new ks) = Throw.
Proof.
  intros solve ks [->|H]; [reflexivity|]. destruct ks as [|k ks]; [reflexivity|]. unfold fit, set_constraints, poly_new. cbn [p_cons p_order p_coeffs app].
  destruct (length (k :: ks) <=? length (k :: ks) - 1 + 1)%nat; [|reflexivity]. rewrite arows_throws by exact H. reflexivity.
Qed.
Theorem C39_fit_late_constraint : forall solve ks k, fit solve (set_constraint (set_constraints poly_new ks) k) = Throw \/ ks = [].
Proof.
  intros solve [|k0 ks] k; [now right|left]. unfold fit, set_constraint, set_constraints, poly_new. cbn [p_cons p_order p_coeffs app].
  replace (length (k0 :: ks ++ [k]) <=? length (k0 :: ks) - 1 + 1)%nat with false; [reflexivity|]. symmetry. apply Nat.leb_gt. cbn [length]. rewrite app_length. cbn. lia.
Qed.
(** A swing between two distinct times exists and is the rest-to-rest profile through the via point (or the middle); it does not depend on the
    solver and, without a via point, stays between its end points and moves in one direction. *)
Theorem C39_swing : forall solve t0 t1 x0 x1 via, sound solve -> complete solve -> t0 <> t1 ->
  exists p, poly_points solve t0 t1 x0 x1 via = Ok p /\
   is_function p (fun t => swing x0 (match via with Some v => v | None => (x0 + x1) / 2 end) x1 ((t - t0) / (t1 - t0))).
Proof. intros. now apply points_ok. Qed.
Theorem C39_swing_between : forall solve t0 t1 x0 x1, sound solve -> complete solve -> t0 < t1 ->
  exists p f, poly_points solve t0 t1 x0 x1 None = Ok p /\ is_function p f /\ f t0 = x0 /\ f t1 = x1 /\
   (forall t, t0 <= t <= t1 -> Rmin x0 x1 <= f t <= Rmax x0 x1) /\
   (forall s t, t0 <= s -> s <= t -> t <= t1 -> (x0 <= x1 -> f s <= f t) /\ (x1 <= x0 -> f t <= f s)).
Proof.
  intros solve t0 t1 x0 x1 Hs Hc L. destruct (points_ok solve t0 t1 x0 x1 None Hs Hc) as (p & E & F); [lra|].
  exists p, (fun t => swing x0 (via_of x0 x1 None) x1 ((t - t0) / (t1 - t0))). split; [exact E|]. split; [exact F|].
  assert (Q : forall s, swing x0 (via_of x0 x1 None) x1 s = x0 + (x1 - x0) * quintic s) by (intros; unfold swing, via_of, quintic; lra).
  assert (B : forall t, t0 <= t <= t1 -> 0 <= (t - t0) / (t1 - t0) <= 1).
  { intros t H. split; [apply Rmult_le_pos; [lra|left; apply Rinv_0_lt_compat; lra]|]. apply Rmult_le_reg_r with (t1 - t0); [lra|]. field_simplify; lra. }
  split; [|split; [|split]].
  - rewrite Q. replace ((t0 - t0) / (t1 - t0)) with 0 by (field; lra). unfold quintic. ring.
  - rewrite Q. replace ((t1 - t0) / (t1 - t0)) with 1 by (field; lra). unfold quintic. ring.
  - intros t H. rewrite Q. pose proof (quintic_bounds _ (B t H)) as X. unfold Rmin, Rmax. destruct (Rle_dec x0 x1); nra.
  - intros s t H1 H2 H3. rewrite !Q.
    assert (M : quintic ((s - t0) / (t1 - t0)) <= quintic ((t - t0) / (t1 - t0))).
    { apply quintic_mono; [apply B; lra | | apply B; lra]. apply Rmult_le_compat_r; [left; apply Rinv_0_lt_compat|]; lra. }
    split; intros; nra.
Qed.
(** The list: a time in the window (start, end] gets the polynomial of that window; up to the end of the first window the first; after the last window
    the last; an empty list has no polynomial. *)
Theorem C39_windows : forall (l : plist) w p r, contiguous (map fst (l ++ (w, p) :: r)) ->
  (forall t, fst w < t <= snd w -> get_poly (l ++ (w, p) :: r) t = Ok p) /\
  (l = [] -> forall t, t <= snd w -> get_poly (l ++ (w, p) :: r) t = Ok p) /\
  (r = [] -> forall t, fst w < t -> get_poly (l ++ (w, p) :: r) t = Ok p).
Proof.
  intros l w p r H. split; [|split].
  - intros t Ht. apply get_poly_at; [eapply contiguous_before; [exact H|]|]; lra.
  - intros -> t Ht. apply (get_poly_at []); [constructor|exact Ht].
  - intros -> t Ht. apply get_poly_last. eapply contiguous_before; [exact H|exact Ht].
Qed.
Theorem C39_empty_list : forall t, list_eval [] t = Throw /\ list_deval [] t = Throw.
Proof. intros. split; reflexivity. Qed.
(** Before it is fitted a polynomial cannot be evaluated. *)
Theorem C39_unfitted : forall ks t, peval (set_constraints poly_new ks) t = Throw /\ pdeval (set_constraints poly_new ks) t = Throw.
Proof. intros. split; reflexivity. Qed.
Print Assumptions C39_derivative.
Print Assumptions C39_fit.
Print Assumptions C39_fit_rejects.
Print Assumptions C39_fit_late_constraint.
Print Assumptions C39_swing.
Print Assumptions C39_swing_between.
Print Assumptions C39_windows.
Print Assumptions C39_unfitted.

(** ** Non-vacuity: a solver as assumed exists (this example alone uses definite description). *)
Example C39_solver_exists : exists solve, sound solve /\ complete solve.
Proof.
  set (uniq := fun (A : list (list R)) (b x : list R) => solves A b x /\ forall y, solves A b y -> y = x).
  set (good := fun (A : list (list R)) (b : list R) => exists x, uniq A b x).
  assert (D : forall A b, good A b -> {x | uniq A b x}).
  { intros A b H. apply constructive_definite_description. destruct H as (x & Hx). exists x. split; [exact Hx|]. intros y (Hy & _). symmetry. now apply Hx. }
  exists (fun A b => match excluded_middle_informative (good A b) with left h => Some (proj1_sig (D A b h)) | right _ => None end). split.
  - intros A b x H. destruct (excluded_middle_informative (good A b)) as [h|]; [|discriminate]. injection H as <-. destruct (D A b h) as (x & Hx). apply Hx.
  - intros A b x Hx U. destruct (excluded_middle_informative (good A b)) as [h|h]; [discriminate|]. exfalso. apply h. exists x. now split.
Qed.
Example C39_windows_example : contiguous (map fst [((0, 1), constant_poly 3); ((1, 2), constant_poly 4)]) /\
  list_eval [((0, 1), constant_poly 3); ((1, 2), constant_poly 4)] (3 / 2) = Ok 4.
Proof. split; [cbn; lra|]. unfold list_eval. rewrite (proj1 (C39_windows [((0, 1), constant_poly 3)] (1, 2) (constant_poly 4) [] ltac:(cbn; lra))) by (cbn; lra). cbn. f_equal. lra. Qed.

(** ** What goes wrong *)
(** A single row c t^e with e > 0: deval answers 0. *)
Theorem C39_single_row_refuted : exists p f, is_function p f /\ pdeval p 0 = Ok 0 /\ derivable_pt_lim f 0 1.
Proof. exists (poly_of [(1, 1%nat)]), (csum [(1, 1%nat)]). split; [intros t; reflexivity|]. split; [reflexivity|]. replace 1 with (csum (differentiate [(1, 1%nat)]) 0) at 2 by (cbn; ring). apply csum_deriv. Qed.
(** Fitting a second time destroys the polynomial: the scale of the columns is already that of the first solution. *)
Theorem C39_second_fit_refuted : forall solve, sound solve -> (forall a b, a <> 0 -> solve [[a]] [b] <> None) ->
  exists ks p1 p2, fit solve (set_constraints poly_new ks) = Ok p1 /\ fit solve p1 = Ok p2 /\ peval p1 0 = Ok 2 /\ peval p2 0 = Ok 1.
Proof.
  intros solve Hs Hc. exists [((0, 2), 0%nat)].
  assert (A : forall a b, a <> 0 -> solve [[a]] [b] = Some [b / a]).
  { intros a b H. destruct (solve [[a]] [b]) as [x|] eqn:E; [|now apply Hc in E]. apply Hs in E. destruct E as (L & E). cbn in L. destruct x as [|x [|]]; try discriminate.
    cbn in E. injection E as E. f_equal. f_equal. field_simplify_eq; [lra|exact H]. }
  exists (Poly (Some [(2, 0%nat)]) true (Some 0%nat) [((0, 2), 0%nat)]), (Poly (Some [(1, 0%nat)]) true (Some 0%nat) [((0, 2), 0%nat)]).
  assert (N1 : 1 * 1 <> 0) by lra. assert (N2 : 1 * 2 <> 0) by lra.
  split; [|split; [|split]].
  - cbn. rewrite A by exact N1. cbn. do 4 f_equal. f_equal. lra.
  - cbn. rewrite A by exact N2. cbn. do 4 f_equal. f_equal. lra.
  - cbn. f_equal. lra.
  - cbn. f_equal. lra.
Qed.
(** Equal times and different values: no polynomial. *)
Theorem C39_equal_times_refuted : forall solve t x0 x1 via, sound solve -> x0 <> x1 -> poly_points solve t t x0 x1 via = Throw.
Proof.
  intros solve t x0 x1 via Hs N. destruct (poly_points solve t t x0 x1 via) as [p| |] eqn:E; [|reflexivity|].
  - exfalso. destruct (C39_fit solve _ p Hs E) as (f & _ & M & _).
    destruct (M ((t, x0), 0%nat)) as (g & G & Gv); [cbn; auto|]. destruct (M ((t, x1), 0%nat)) as (g' & G' & Gv'); [cbn; tauto|].
    cbn [nth_derivative fst snd] in *. rewrite <- G in Gv. rewrite <- G' in Gv'. lra.
  - exfalso. unfold poly_points in E. pose proof (cc_orders t t x0 x1 via) as O. unfold create_constraints in E, O. rewrite fit_fresh in E by exact O. destruct (solve _ _); discriminate.
Qed.
Print Assumptions C39_single_row_refuted.
Print Assumptions C39_second_fit_refuted.
Print Assumptions C39_equal_times_refuted.

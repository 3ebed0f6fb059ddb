(** * C20, C21, C22, C52: L-BFGS *)
From Coq Require Import Reals List Arith ZArith Bool Lia Lra FunctionalExtensionality.
From Verif Require Import Base BaseProofs IpModel BnbProofs LbfgsModel LbfgsSpec LbfgsProofs LbfgsProofs2 LbfgsProofs3 LbfgsProofs4 LbfgsProofs5.
Import ListNotations.
Open Scope R_scope.

(** ** C20 *)
(** The backtracking search: success means that the returned step is the first accepted one of the documented halving / enlarging sequence,
    found within max_linesearch evaluations; the returned point, value and gradient belong to that step, and the value did not increase. *)
Theorem C20_backtracking_success : forall n F G P x d step r count,
  check_params n P = None -> p_ls P <> MoreThuente ->
  linesearch n F G P x (F x) (G x) d step = Ok r -> ls_out r = inr count ->
  search n F G (cond_of (p_ls P)) (p_ftol P) (p_wolfe P) x d step count (ls_stp r) /\ (1 <= count <= p_maxls P)%Z /\ 0 < ls_stp r /\
  is_point n (ls_x r) x d (ls_stp r) /\ ls_f r = F (ls_x r) /\ ls_g r = G (ls_x r) /\ F (ls_x r) <= F x.
Proof.
  intros n F G P x d step r count Hc Hm H Ho. apply check_ok in Hc as (C & _). pose proof (linesearch_decrease n F G P _ _ _ _ _ C H Ho) as Ld.
  destruct (linesearch_ok n F G P _ _ _ _ _ C H Ho) as (L1 & L2 & L3 & L4 & L5 & L6 & L7 & L8).
  assert (Hb : backtracking n F G P x (F x) (G x) d step = r) by (unfold linesearch in H; destruct (p_ls P); [congruence|congruence..]).
  assert (Hp : 0 < ls_stp r) by (destruct (p_ls P); try tauto; congruence). repeat split; auto; try lia.
  - unfold backtracking in Hb. destruct (leb step 0); [subst r; discriminate|]. cbv zeta in Hb. destruct (ltb 0 (vdot n (G x) d)) eqn:E; [subst r; discriminate|]. apply ltb_false in E.
    pose proof (c_maxls n P C). apply (bt_trace n F G P _ x d step 0 r count) in Hb; auto; try lia. now rewrite Z.sub_0_r in Hb.
  - intros i Hi. rewrite L1. reflexivity.
Qed.
Print Assumptions C20_backtracking_success.

(** What the conditions accepted by the search mean, spelled out. *)
Theorem C20_accepted_conditions : forall n F G cond ftol wolfe x d step count a,
  search n F G cond ftol wolfe x d step count a ->
  let z := fun i => x i + a * d i in
  F z <= F x + ftol * a * dot n (G x) d /\
  (cond = CWolfe -> wolfe * dot n (G x) d <= dot n (G z) d) /\ (cond = CStrongWolfe -> Rabs (dot n (G z) d) <= wolfe * Rabs (dot n (G x) d)).
Proof.
  intros n F G cond ftol wolfe x d step count a H. induction H as [a [H1 H2]| |]; auto. cbv zeta. split; [exact H1|]. split; intros ->; exact H2.
Qed.
Print Assumptions C20_accepted_conditions.

(** The More-Thuente search: success means sufficient decrease and the strong curvature condition with gtol, with a step inside the
    configured range and fewer than max_linesearch evaluations. *)
Theorem C20_morethuente_success : forall n F G P x d step r count,
  check_params n P = None -> p_ls P = MoreThuente ->
  linesearch n F G P x (F x) (G x) d step = Ok r -> ls_out r = inr count ->
  sufficient_decrease n F G (p_ftol P) x d (ls_x r) (ls_stp r) /\ strong_curvature n G (p_gtol P) x d (ls_x r) /\
  p_minstep P <= ls_stp r <= p_maxstep P /\ (1 <= count <= p_maxls P)%Z /\
  is_point n (ls_x r) x d (ls_stp r) /\ ls_f r = F (ls_x r) /\ ls_g r = G (ls_x r) /\ F (ls_x r) <= F x.
Proof.
  intros n F G P x d step r count Hc Hm H Ho. apply check_ok in Hc as (C & _). pose proof (linesearch_decrease n F G P _ _ _ _ _ C H Ho) as Ld.
  destruct (linesearch_ok n F G P _ _ _ _ _ C H Ho) as (L1 & L2 & L3 & L4 & L5 & L6 & L7 & L8). rewrite Hm in L8. destruct L8 as [L8 L9].
  split; [unfold sufficient_decrease; rewrite dot_vdot, <- L2; exact L6|]. split; [unfold strong_curvature; rewrite !dot_vdot, (Rabs_left1 (vdot n (G x) d)) by exact L7; rewrite <- L3; exact L9|].
  repeat split; auto; try lia; try lra. intros i Hi. rewrite L1. reflexivity.
Qed.
Print Assumptions C20_morethuente_success.

(** What the failure codes of both searches mean. *)
Theorem C20_failure_codes : forall n F G P x d step r c,
  check_params n P = None -> linesearch n F G P x (F x) (G x) d step = Ok r -> ls_out r = inl c ->
  (c = IncreaseGradient <-> 0 < step /\ 0 < dot n (G x) d) /\ (c = InvalidParameters <-> step <= 0) /\
  In c [IncreaseGradient; InvalidParameters; RoundingError; MinimumStep; MaximumStep; MaximumLinesearch; WidthTooSmall].
Proof.
  intros n F G P x d step r c Hc H Ho. apply check_ok in Hc as (C & _). rewrite dot_vdot. pose proof (c_maxls n P C) as Hm. pose proof (c_max n P C) as Hx.
  assert (K : forall (mt : bool), (if mt then morethuente n F G P x (F x) (G x) d step else Ok (backtracking n F G P x (F x) (G x) d step)) = Ok r ->
    (c = InvalidParameters /\ step <= 0) \/ (c = IncreaseGradient /\ 0 < step /\ 0 < vdot n (G x) d) \/ (0 < step /\ vdot n (G x) d <= 0 /\ In c [RoundingError; MinimumStep; MaximumStep; MaximumLinesearch; WidthTooSmall])).
  { intros [|] K.
    - pose proof K as K'. apply morethuente_spec in K; [|exact Hx|exact Hm]. rewrite Ho in K. unfold morethuente in K'. destruct (leb step 0) eqn:E; [apply leb_true in E|apply leb_false in E].
      { injection K' as <-. injection Ho as <-. auto. } cbv zeta in K'. destruct (ltb 0 (vdot n (G x) d)) eqn:E1; [apply ltb_true in E1|apply ltb_false in E1].
      { injection K' as <-. injection Ho as <-. auto. } right; right. split; [exact E|]. split; [exact E1|]. cbn. destruct K as [[K Q]|[[K Q]|[K|[K|[K|[K|K]]]]]]; subst; auto 10; lra.
    - injection K as K. pose proof K as K'. apply backtracking_spec in K; [|exact Hm]. rewrite Ho in K. unfold backtracking in K'. destruct (leb step 0) eqn:E; [apply leb_true in E|apply leb_false in E].
      { subst r. injection Ho as <-. auto. } cbv zeta in K'. destruct (ltb 0 (vdot n (G x) d)) eqn:E1; [apply ltb_true in E1|apply ltb_false in E1].
      { subst r. injection Ho as <-. auto. } right; right. split; [exact E|]. split; [exact E1|]. cbn. destruct K as [[K Q]|[[K Q]|[[K Q]|[[K Q]|K]]]]; subst; auto 10; lra. }
  unfold linesearch in H. specialize (K match p_ls P with MoreThuente => true | _ => false end).
  assert (H' := K ltac:(destruct (p_ls P); exact H)). destruct H' as [[-> Q]|[[-> Q]|(Q1 & Q2 & Q3)]]; cbn.
  - split; [split; [discriminate|lra]|]. split; [tauto|auto].
  - split; [tauto|]. split; [split; [discriminate|lra]|auto].
  - cbn in Q3. split; [split; [intros ->; intuition discriminate|lra]|]. split; [split; [intros ->; intuition discriminate|lra]|tauto].
Qed.
Print Assumptions C20_failure_codes.

(** The interpolation formulas of the More-Thuente search: the cubic and quadratic minimisers are minimisers (stationary points of
    non-negative curvature for the cubic) of the polynomials that interpolate the given values and slopes. *)
Theorem C20_interpolation_minimisers : forall a b c e u v m,
  (cubic_min u (cubic a b c e u) (cubic' a b c u) v (cubic a b c e v) (cubic' a b c v) = Ok m -> cubic' a b c m = 0 /\ 0 <= cubic'' a b m) /\
  (u <> v -> quard_min u (cubic 0 b c e u) (cubic' 0 b c u) v (cubic 0 b c e v) = Ok m -> cubic' 0 b c m = 0) /\
  (u <> v -> quard_min2 u (cubic' 0 b c u) v (cubic' 0 b c v) = Ok m -> cubic' 0 b c m = 0).
Proof. intros a b c e u v m. split; [apply cubic_min_ok|]. split; intros Huv H; [eapply quard_min_ok; eauto|eapply quard_min2_ok; eauto]. Qed.
Print Assumptions C20_interpolation_minimisers.

(** The interval update: the new trial step stays in [tmin, tmax], the kept end point is the one with the lower value, and a bracket is never lost. *)
Theorem C20_interval_update : forall I ft dt tmin tmax J,
  tmin <= tmax -> tmin <= t_x I <= tmax -> tmin <= t_t I <= tmax -> (t_br I = true -> tmin <= t_y I <= tmax) ->
  update_trial_interval I ft dt tmin tmax = Ok (J, UOk) ->
  tmin <= t_t J <= tmax /\ t_fx J = Rmin (t_fx I) ft /\
  ((t_x J, t_fx J, t_dx J) = (t_x I, t_fx I, t_dx I) \/ (t_x J, t_fx J, t_dx J) = (t_t I, ft, dt)) /\
  (t_br J = true -> tmin <= t_x J <= tmax /\ tmin <= t_y J <= tmax) /\ (t_br I = true -> t_br J = true).
Proof. exact trial_interval_ok. Qed.
Print Assumptions C20_interval_update.

(** ** C21 *)
Definition line_search_failure (c : rcode) : Prop :=
  In c [IncreaseGradient; InvalidParameters; RoundingError; MinimumStep; MaximumStep; MaximumLinesearch; WidthTooSmall].

Lemma small_of_converged n G P x : converged n P x (G x) = true <-> small_gradient n G (p_eps P) x.
Proof.
  unfold converged, small_gradient. rewrite leb_true, !norm2_vnorm. assert (E : (if ltb (vnorm n x) 1 then 1 else vnorm n x) = Rmax 1 (vnorm n x)); [|rewrite E; tauto].
  destruct (ltb (vnorm n x) 1) eqn:E; [apply ltb_true in E; rewrite Rmax_left; lra|apply ltb_false in E; rewrite Rmax_right; lra].
Qed.

Lemma check_codes n P c : check_params n P = Some c -> In c [InvalidN; InvalidEpsilon; InvalidTestperiod; InvalidDelta; InvalidMinstep; InvalidMaxstep; InvalidFtol; InvalidWolfe; InvalidGtol; InvalidXtol; InvalidMaxlinesearch; InvalidLinesearch].
Proof.
  unfold check_params. intros Hc. cbn [In]. repeat (match type of Hc with (if ?b then _ else _) = _ => destruct b; [injection Hc as <-; auto 15|] end).
  destruct (p_ls P); try discriminate. injection Hc as <-. auto 15.
Qed.
(** Whatever the functions, parameters and line search outcomes: the returned point is never worse than the starting point; the reported
    value belongs to the returned point unless the line search failed (or a parameter was rejected); each code means what it says. *)
Theorem C21_outcome_partial : forall n F G P progress x0 fx0 o,
  (0 < p_m P)%Z -> lbfgs n F G P progress x0 fx0 (Ok o) ->
  F (o_x o) <= F x0 /\
  (~ line_search_failure (o_code o) -> check_params n P = None -> o_fx o = F (o_x o)) /\
  match o_code o with
  | Success | AlreadyMinimized => small_gradient n G (p_eps P) (o_x o)
  | MaximumIteration => (p_maxit P <> 0)%Z
  | Stop => (0 < p_past P)%Z
  | Callback z => z <> 0%Z
  | c => line_search_failure c \/ (check_params n P = Some c /\ o_x o = x0 /\ o_fx o = fx0)
  end.
Proof.
  intros n F G P progress x0 fx0 o Hm H. inversion H as [c Hc E|Hc Hm' E|Hc Hm' Hcv E|ro Hc Hm' Hcv R E]; subst; cbn [o_x o_fx o_code].
  - split; [lra|]. split; [congruence|]. apply check_codes in Hc as Hin. cbn in Hin. repeat (destruct Hin as [<-|Hin]; [right; auto|]). destruct Hin.
  - lia.
  - split; [lra|]. split; [auto|]. now apply small_of_converged.
  - assert (C := proj1 (proj1 (check_ok n P) Hc)). destruct (runs_visited n F G P progress x0 _ _ _ (vis_start n F G P progress x0) R) as (h & S & V & Hi).
    pose proof (inv_visited n F G P progress x0 h S C Hm Hcv V) as I. pose proof (v_le _ _ _ _ _ _ _ I) as Hle.
    destruct (iter_out n F G P progress x0 h S o C I Hi) as [(r & H1 & Ho & Ex & Ef)|(H1 & H2 & H3)].
    + destruct (C20_failure_codes n F G P _ _ _ _ _ Hc H1 Ho) as (_ & _ & Hin). rewrite Ex. split; [exact Hle|]. split; [intros Hn; contradiction|].
      assert (Hf : line_search_failure (o_code o)) by exact Hin. cbn in Hin. destruct Hin as [Q|[Q|[Q|[Q|[Q|[Q|[Q|[]]]]]]]]; rewrite <- Q in *; left; exact Hf.
    + split; [lra|]. split; [auto|]. destruct (o_code o); try contradiction; try tauto. now apply small_of_converged.
Qed.
Print Assumptions C21_outcome_partial.

(** A failed line search returns the last accepted iterate (a point the loop started an iteration from). *)
Theorem C21_failure_returns_accepted_iterate : forall n F G P progress x0 fx0 o,
  (0 < p_m P)%Z -> check_params n P = None -> lbfgs n F G P progress x0 fx0 (Ok o) -> line_search_failure (o_code o) ->
  exists h S, visited n F G P progress x0 h S /\ o_x o = l_x S.
Proof.
  intros n F G P progress x0 fx0 o Hm Hck H Hf. inversion H as [c Hc E|Hc Hm' E|Hc Hm' Hcv E|ro Hc Hm' Hcv R E]; subst; try congruence; try lia.
  - cbn in Hf. exfalso. unfold line_search_failure in Hf. cbn in Hf. intuition discriminate.
  - assert (C := proj1 (proj1 (check_ok n P) Hc)). destruct (runs_visited n F G P progress x0 _ _ _ (vis_start n F G P progress x0) R) as (h & S & V & Hi).
    pose proof (inv_visited n F G P progress x0 h S C Hm Hcv V) as I. exists h, S. split; [exact V|].
    destruct (iter_out n F G P progress x0 h S o C I Hi) as [(r & H1 & Ho & Ex & Ef)|(H1 & H2 & H3)]; [exact Ex|]. exfalso. unfold line_search_failure in Hf. cbn in Hf. destruct (o_code o); intuition discriminate.
Qed.
Print Assumptions C21_failure_returns_accepted_iterate.

(** Accepted iterates are monotone: each satisfies the sufficient decrease condition with respect to its predecessor along the direction used;
    value and gradient carried are those of the point; with a positive iteration limit the number of iterations started never exceeds it. *)
Theorem C21_monotone_iterates : forall n F G P progress x0 h S S',
  (0 < p_m P)%Z -> check_params n P = None -> converged n P x0 (G x0) = false ->
  visited n F G P progress x0 h S -> iteration n F G P progress S = Ok (inr S') ->
  l_fx S = F (l_x S) /\ l_g S = G (l_x S) /\ l_fx S' = F (l_x S') /\ F (l_x S') <= F (l_x S) /\
  (exists a, 0 <= a /\ is_point n (l_x S') (l_x S) (l_d S) a /\ sufficient_decrease n F G (p_ftol P) (l_x S) (l_d S) (l_x S') a) /\
  l_k S' = (Z.of_nat (length h) + 1)%Z /\ ((p_maxit P > 0)%Z -> (l_k S' <= p_maxit P)%Z).
Proof.
  intros n F G P progress x0 h S S' Hm Hck Hcv V H. apply check_ok in Hck as (C & _). pose proof (inv_visited n F G P progress x0 h S C Hm Hcv V) as I.
  destruct (inv_step n F G P progress x0 h S S' C Hm I H) as (I' & _).
  apply iter_next in H as (r & c & it & j & lm & H1 & Ho & X1 & X2 & X3 & X4 & X5 & Hc & Hp & Hst & _). rewrite (v_fx _ _ _ _ _ _ _ I), (v_g _ _ _ _ _ _ _ I) in H1.
  pose proof (linesearch_decrease n F G P _ _ _ _ _ C H1 Ho) as Ld. destruct (linesearch_ok n F G P _ _ _ _ _ C H1 Ho) as (L1 & L2 & L3 & L4 & L5 & L6 & L7 & L8).
  split; [apply I|]. split; [apply I|]. split; [apply I'|]. split; [now rewrite X1|]. split.
  - exists (ls_stp r). split; [exact L5|]. split; [intros i Hi; rewrite X1, L1; reflexivity|]. unfold sufficient_decrease. rewrite dot_vdot, X1, <- L2. exact L6.
  - split; [rewrite X5, (v_k _ _ _ _ _ _ _ I); reflexivity|]. intros Hmx. apply stop_tests_pf in Hst as [_ [?|?]]; [lia| lia|apply C].
Qed.
Print Assumptions C21_monotone_iterates.

(** With an iteration limit lbfgs always returns; the outcome is unique; with at least one stored pair there is no memory error. *)
Theorem C21_terminates_and_memory : forall n F G P progress x0 fx0,
  ((p_maxit P <> 0)%Z -> exists o, lbfgs n F G P progress x0 fx0 o) /\
  (forall o1 o2, lbfgs n F G P progress x0 fx0 o1 -> lbfgs n F G P progress x0 fx0 o2 -> o1 = o2) /\
  ((0 < p_m P)%Z -> ~ lbfgs n F G P progress x0 fx0 UB).
Proof.
  intros n F G P progress x0 fx0. split; [|split].
  - intros Hm. destruct (check_params n P) as [c|] eqn:Hc; [eexists; apply lb_invalid; exact Hc|]. destruct (Z_lt_dec (p_m P) 0); [eexists; apply lb_memory; assumption|].
    destruct (converged n P x0 (G x0)) eqn:E; [eexists; apply lb_minimized; auto; lia|]. assert (C := proj1 (proj1 (check_ok n P) Hc)).
    destruct (runs_total n F G P progress Hm (Z.to_nat (p_maxit P + 1)) (start n F G P x0)) as (o & Ho); [cbn; lia|apply C|]. exists o. apply lb_loop; auto. lia.
  - intros o1 o2 H1 H2. inversion H1; inversion H2; subst; try congruence; try lia. eapply runs_det; eauto.
  - intros Hm H. inversion H as [| | |ro Hc Hm' Hcv R E]; subst. assert (C := proj1 (proj1 (check_ok n P) Hc)).
    destruct (runs_bad n F G P progress x0 _ _ _ (vis_start n F G P progress x0) R ltac:(discriminate)) as (h & S & V & [[K _]|[_ K]]); [|discriminate].
    exact (iteration_noub n F G P progress x0 h S C Hm (inv_visited n F G P progress x0 h S C Hm Hcv V) K).
Qed.
Print Assumptions C21_terminates_and_memory.

(** ** C22 *)
(** In every run, the direction used after k accepted steps is minus the inverse BFGS matrix of the last min(m, k) correction pairs of the
    run, scaled by y's / y'y of the newest pair, applied to the current gradient; the first direction is minus the gradient. *)
Theorem C22_direction_is_bfgs : forall n F G P progress x0 h S,
  (0 < p_m P)%Z -> check_params n P = None -> converged n P x0 (G x0) = false -> visited n F G P progress x0 h S ->
  match corrections h with
  | [] => forall i, (i < n)%nat -> l_d S i = - G (l_x S) i
  | (s, y) :: _ => dot n y s <> 0 /\ dot n y y <> 0 /\
      forall i, (i < n)%nat -> l_d S i = - mvec n (bfgs n (dot n y s / dot n y y) (firstn (Z.to_nat (p_m P)) (corrections h))) (G (l_x S)) i
  end.
Proof.
  intros n F G P progress x0 h S Hm Hck Hcv V. apply check_ok in Hck as (C & _). inversion V as [|h' S1 S2 V' Hi]; subst.
  - cbn. reflexivity.
  - pose proof (inv_visited n F G P progress x0 h' S1 C Hm Hcv V') as I. destruct (inv_step n F G P progress x0 h' S1 S C Hm I Hi) as (I' & s & y & t & Ec & Hyy & Hne & Ed).
    rewrite Ec. rewrite !dot_vdot. split; [|split; [exact Hyy|]].
    + apply (Hne (s, y)). destruct (Z.to_nat (p_m P)) eqn:E; [lia|]. left. reflexivity.
    + intros i Hi'. rewrite Ed, bfgs_comb by exact Hi'. rewrite <- (v_g _ _ _ _ _ _ _ I'). unfold mvec. rewrite !msum_rsum. unfold vneg.
      match goal with |- _ = - ?r => replace (- r) with ((-1) * r) by ring end. rewrite <- rsum_scal. apply rsum_ext. intros j Hj. ring.
Qed.
Print Assumptions C22_direction_is_bfgs.

(** The inverse BFGS matrix of pairs with positive curvature is positive definite, for every memory. *)
Theorem C22_positive_definite : forall n c ps v,
  0 < c -> (forall s y, In (s, y) ps -> 0 < dot n y s) -> (exists i, (i < n)%nat /\ v i <> 0) -> 0 < dot n v (mvec n (bfgs n c ps) v).
Proof.
  intros n c ps v Hc Hps (i & Hi & Hv). rewrite dot_vdot. assert (Hps' : forall p, In p ps -> 0 < vdot n (snd p) (fst p)) by (intros [s y] Hp; cbn; rewrite <- dot_vdot; now apply Hps).
  destruct (comb_pos n ps c v Hc Hps') as [H1 H2]. assert (E : vdot n v (mvec n (bfgs n c ps) v) = vdot n v (comb n ps c v)) by (apply vdot_ext; auto; intros k Hk; now rewrite bfgs_comb).
  rewrite E. destruct (Req_dec (vdot n v (comb n ps c v)) 0) as [E0|E0]; [|lra]. exfalso. apply Hv. now apply H2.
Qed.
Print Assumptions C22_positive_definite.

(** With a line search that enforces a curvature condition (More-Thuente with gtol < 1, Wolfe, strong Wolfe) every stored pair of every run
    has positive curvature and every direction is a strict descent direction with a positive initial step: the line search is never
    refused, so IncreaseGradient and InvalidParameters are never returned. *)
Theorem C22_descent_along_run : forall n F G P progress x0 h S,
  (0 < p_m P)%Z -> check_params n P = None -> converged n P x0 (G x0) = false ->
  p_ls P = Wolfe \/ p_ls P = StrongWolfe \/ (p_ls P = MoreThuente /\ p_gtol P < 1) ->
  visited n F G P progress x0 h S ->
  dot n (G (l_x S)) (l_d S) < 0 /\ 0 < l_step S /\
  forall s y, In (s, y) (firstn (Z.to_nat (p_m P)) (corrections h)) -> 0 < dot n y s.
Proof.
  intros n F G P progress x0 h S Hm Hck Hcv W V. apply check_ok in Hck as (C & _). pose proof (inv_visited n F G P progress x0 h S C Hm Hcv V) as I.
  pose proof (inv2_visited n F G P progress x0 h S C Hm W Hcv V) as J. rewrite dot_vdot, <- (v_g _ _ _ _ _ _ _ I). split; [apply J|]. split; [apply J|].
  intros s y Hin. rewrite dot_vdot. exact (w_pairs _ _ _ _ J (s, y) Hin).
Qed.
Print Assumptions C22_descent_along_run.
Theorem C22_never_refused : forall n F G P progress x0 fx0 o,
  (0 < p_m P)%Z -> check_params n P = None -> p_ls P = Wolfe \/ p_ls P = StrongWolfe \/ (p_ls P = MoreThuente /\ p_gtol P < 1) ->
  lbfgs n F G P progress x0 fx0 (Ok o) -> o_code o <> IncreaseGradient /\ o_code o <> InvalidParameters.
Proof.
  intros n F G P progress x0 fx0 o Hm Hck W H. inversion H as [c Hc E|Hc Hm' E|Hc Hm' Hcv E|ro Hc Hm' Hcv R E]; subst; try congruence; try lia; [split; discriminate|].
  assert (C := proj1 (proj1 (check_ok n P) Hc)). destruct (runs_visited n F G P progress x0 _ _ _ (vis_start n F G P progress x0) R) as (h & S & V & Hi).
  pose proof (inv_visited n F G P progress x0 h S C Hm Hcv V) as I. destruct (C22_descent_along_run n F G P progress x0 h S Hm Hc Hcv W V) as (D1 & D2 & _).
  destruct (iter_out n F G P progress x0 h S o C I Hi) as [(r & H1 & Ho & Ex & Ef)|(H1 & H2 & H3)].
  - destruct (C20_failure_codes n F G P _ _ _ _ _ Hc H1 Ho) as (Q1 & Q2 & _). split; [intros E; apply Q1 in E; lra|intros E; apply Q2 in E; lra].
  - destruct (o_code o); try contradiction; split; discriminate.
Qed.
Print Assumptions C22_never_refused.

(** With the backtracking Wolfe searches and no past test, no run produces a NaN (no division by zero) and no memory error. *)
Theorem C22_no_nan : forall n F G P progress x0 fx0 o,
  (0 < p_m P)%Z -> check_params n P = None -> p_ls P = Wolfe \/ p_ls P = StrongWolfe -> p_past P = 0%Z ->
  lbfgs n F G P progress x0 fx0 o -> exists r, o = Ok r.
Proof.
  intros n F G P progress x0 fx0 o Hm Hck W Hp H. inversion H as [c Hc E|Hc Hm' E|Hc Hm' Hcv E|ro Hc Hm' Hcv R E]; subst; eauto.
  assert (C := proj1 (proj1 (check_ok n P) Hc)). destruct o as [r| |]; eauto; exfalso;
    destruct (runs_bad n F G P progress x0 _ _ _ (vis_start n F G P progress x0) R ltac:(discriminate)) as (h & S & V & [[K K']|[K K']]); try discriminate;
    pose proof (inv_visited n F G P progress x0 h S C Hm Hcv V) as I.
  - apply (iteration_nothrow n F G P progress x0 h S C Hm W Hp I); [|exact K]. apply (inv2_visited n F G P progress x0 h S C Hm); auto. unfold wolfe_type. tauto.
  - exact (iteration_noub n F G P progress x0 h S C Hm I K).
Qed.
Print Assumptions C22_no_nan.

(** ** C52 *)
(** The function minimised is the objective plus weight times the sum of squared bound and constraint violations: equal to the objective
    exactly at the feasible points (for a positive weight), never smaller; the evaluation leaves the scratch point as it was and the
    gradient entries are the central differences with half-width 2^-17, exact wherever the penalised function is quadratic along the axis. *)
Definition penalised (nvars ncons : nat) (obj : vec -> R) (cons : vec -> vec) (xl xu gl gu : vec) (w : R) (x : vec) : R :=
  obj x + w * (msum nvars (fun i => violation2 (x i) (xl i) (xu i)) + msum ncons (fun i => violation2 (cons x i) (gl i) (gu i))).
Definition nlp_feasible (nvars ncons : nat) (cons : vec -> vec) (xl xu gl gu : vec) (x : vec) : Prop :=
  (forall i, (i < nvars)%nat -> xl i <= x i <= xu i) /\ (forall i, (i < ncons)%nat -> gl i <= cons x i <= gu i).
Theorem C52_penalty_objective : forall nvars ncons obj cons xl xu gl gu w x f g x',
  evaluate nvars ncons obj cons xl xu gl gu w x = (f, g, x') ->
  f = penalised nvars ncons obj cons xl xu gl gu w x /\ (forall i, x' i = x i) /\
  (0 <= w -> obj x <= f) /\ (0 < w -> (f = obj x <-> nlp_feasible nvars ncons cons xl xu gl gu x)) /\
  forall i, (i < nvars)%nat ->
    let h := / 2 ^ 17 in let p := penalised nvars ncons obj cons xl xu gl gu w in
    g i = (p (fun j => if Nat.eqb j i then x j + h else x j) - p (fun j => if Nat.eqb j i then x j - h else x j)) / (2 * h) /\
    forall a b c, (forall t, - h <= t <= h -> p (fun j => if Nat.eqb j i then x j + t else x j) = a * t ^ 2 + b * t + c) -> g i = b.
Proof.
  intros nvars ncons obj cons xl xu gl gu w x f g x' H. unfold evaluate in H.
  pose proof (jac_loop_x nvars ncons obj cons xl xu gl gu w x nvars) as Hx. pose proof (jac_loop_j nvars ncons obj cons xl xu gl gu w x nvars) as Hj.
  destruct (jac_loop _ _ _ _ _ _ _ _ _ _ _) as [x1 jac]. cbn [fst snd] in *. subst x1. injection H as <- <- <-.
  assert (Ep : forall z, evaluate_objective_function nvars ncons obj cons xl xu gl gu w z = penalised nvars ncons obj cons xl xu gl gu w z) by (intros z; rewrite ev_ok; unfold penalised; now rewrite !msum_rsum).
  rewrite Ep. split; [reflexivity|]. split; [reflexivity|].
  set (A := rsum nvars (fun i => violation2 (x i) (xl i) (xu i))). set (B := rsum ncons (fun i => violation2 (cons x i) (gl i) (gu i))).
  assert (HA : 0 <= A) by (apply rsum_nonneg; intros; apply violation2_nonneg). assert (HB : 0 <= B) by (apply rsum_nonneg; intros; apply violation2_nonneg).
  assert (Epx : penalised nvars ncons obj cons xl xu gl gu w x = obj x + w * (A + B)) by (unfold penalised; now rewrite !msum_rsum).
  split; [intros Hw; rewrite Epx; assert (0 <= w * (A + B)) by (apply Rmult_le_pos; lra); lra|]. split.
  - intros Hw. rewrite Epx. split.
    + intros E. assert (E1 : w * (A + B) = 0) by lra. apply Rmult_integral in E1 as [E1|E1]; [lra|]. assert (A = 0) by lra. assert (B = 0) by lra. split; intros i Hi; apply violation2_zero.
      * apply (rsum_nonneg_zero nvars (fun i => violation2 (x i) (xl i) (xu i))); auto. intros; apply violation2_nonneg.
      * apply (rsum_nonneg_zero ncons (fun i => violation2 (cons x i) (gl i) (gu i))); auto. intros; apply violation2_nonneg.
    + intros [E1 E2]. assert (A = 0) by (apply rsum_zero; intros i Hi; now apply violation2_zero, E1). assert (B = 0) by (apply rsum_zero; intros i Hi; now apply violation2_zero, E2). rewrite H, H0. ring.
  - intros i Hi. cbv zeta. set (h := / 2 ^ 17). set (p := penalised nvars ncons obj cons xl xu gl gu w). assert (Eg : jac i = (p (fun j => if Nat.eqb j i then x j + h else x j) - p (fun j => if Nat.eqb j i then x j - h else x j)) / (2 * h)).
    { rewrite Hj, (proj2 (Nat.ltb_lt i nvars) Hi), !Ep. unfold p, h. unfold Rdiv. f_equal. f_equal; f_equal; apply functional_extensionality; intros j; unfold upd, prt; destruct (Nat.eqb_spec j i) as [-> |]; reflexivity. }
    split; [exact Eg|]. intros a b c Hq. rewrite Eg. assert (Hh : 0 < h) by (apply Rinv_0_lt_compat, pow_lt; lra).
    assert (Em : (fun j => if Nat.eqb j i then x j - h else x j) = (fun j => if Nat.eqb j i then x j + - h else x j)) by (apply functional_extensionality; intros j; destruct (Nat.eqb j i); ring).
    rewrite Em, (Hq h), (Hq (- h)) by lra. field. lra.
Qed.
Print Assumptions C52_penalty_objective.

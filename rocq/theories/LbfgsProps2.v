(** * C20-C22: refutations and concrete runs *)
From Coq Require Import Reals List Arith ZArith Bool Lia Lra FunctionalExtensionality.
From Verif Require Import Base BaseProofs IpModel BnbProofs LbfgsModel LbfgsSpec LbfgsProofs LbfgsProofs2 LbfgsProofs3 LbfgsProofs4 LbfgsProofs5 LbfgsProofs6 LbfgsProps.
Import ListNotations.
Open Scope R_scope.

Ltac neq := let H := fresh in intros H; lra.
Ltac dec1 := match goal with
  | |- context [ltb ?a ?b] => first [rewrite (proj2 (ltb_true a b)) by lra | rewrite (proj2 (ltb_false a b)) by lra]
  | |- context [leb ?a ?b] => first [rewrite (proj2 (leb_true a b)) by lra | rewrite (proj2 (leb_false a b)) by lra]
  | |- context [eqb ?a ?b] => first [rewrite (proj2 (eqb_true a b)) by lra | rewrite (proj2 (eqb_false a b)) by neq]
  end.
Ltac dec := repeat (dec1; cbn [andb orb negb]).

Lemma vnorm1 (x : vec) : vnorm 1 x = Rabs (x 0%nat).
Proof. unfold vnorm, vdot. cbn [rsum]. rewrite Rplus_0_l. apply sqrt_Rsqr_abs. Qed.
Lemma vdot1 (x y : vec) : vdot 1 x y = x 0%nat * y 0%nat.
Proof. unfold vdot. cbn [rsum]. ring. Qed.
Definition noprogress : Z -> vec -> vec -> R -> Z := fun _ _ _ _ => 0%Z.

(** One successful step of the one-dimensional loop with an empty or singleton memory, in closed form. *)
Lemma conv1_false P (x g : vec) : 1 <= Rabs (x 0%nat) -> p_eps P * Rabs (x 0%nat) < Rabs (g 0%nat) -> converged 1 P x g = false.
Proof.
  intros H1 H2. unfold converged. rewrite !vnorm1. rewrite (proj2 (ltb_false _ _)) by exact H1. apply leb_false.
  apply (Rmult_lt_reg_r (Rabs (x 0%nat))); [lra|]. unfold Rdiv. rewrite Rmult_assoc, Rinv_l by lra. lra.
Qed.


Lemma iteration_fail n F G P pr S r c : linesearch n F G P (l_x S) (l_fx S) (l_g S) (l_d S) (l_step S) = Ok r -> ls_out r = inl c ->
  iteration n F G P pr S = Ok (inl (mkO c (l_x S) (ls_f r))).
Proof. intros H E. unfold iteration. rewrite H. cbn [bind]. rewrite E. reflexivity. Qed.

(** The first turn of the More-Thuente loop is returned unchanged when the minimum step is tried and is too long. *)
Lemma mt_first_min n F G P xp f gp s stp : 0 < stp -> vdot n gp s <= 0 -> stp = p_minstep P -> stp < p_maxstep P -> (0 < p_maxls P)%Z ->
  f + stp * (p_ftol P * vdot n gp s) < F (vaxpy xp s stp) ->
  morethuente n F G P xp f gp s stp = Ok (mkLS (inl MinimumStep) (vaxpy xp s stp) (F (vaxpy xp s stp)) (G (vaxpy xp s stp)) stp).
Proof.
  intros H1 H2 H3 H4 H5 H6. unfold morethuente. rewrite (proj2 (leb_false stp 0)) by lra. rewrite (proj2 (ltb_false 0 _)) by lra.
  destruct (Z.to_nat (p_maxls P)) eqn:E; [lia|]. cbn [mt_loop]. unfold mt_turn. cbn [m_I t_br t_t t_x m_uinfo m_count andb orb u_bad].
  cbv zeta. rewrite (proj2 (ltb_false stp (p_minstep P))) by lra. rewrite (proj2 (ltb_false (p_maxstep P) stp)) by lra.
  rewrite (proj2 (eqb_false stp (p_maxstep P))) by neq. cbn [andb]. rewrite (proj2 (eqb_true stp (p_minstep P))) by lra.
  rewrite (proj2 (ltb_true _ _) H6). reflexivity.
Qed.
(** The first turn is accepted at once. *)
Lemma mt_first_ok n F G P xp f gp s stp : 0 < stp -> vdot n gp s <= 0 -> p_minstep P < stp < p_maxstep P -> (1 < p_maxls P)%Z ->
  F (vaxpy xp s stp) <= f + stp * (p_ftol P * vdot n gp s) -> Rabs (vdot n (G (vaxpy xp s stp)) s) <= p_gtol P * - vdot n gp s ->
  morethuente n F G P xp f gp s stp = Ok (mkLS (inr 1%Z) (vaxpy xp s stp) (F (vaxpy xp s stp)) (G (vaxpy xp s stp)) stp).
Proof.
  intros H1 H2 H4 H5 H6 H7. unfold morethuente. rewrite (proj2 (leb_false stp 0)) by lra. rewrite (proj2 (ltb_false 0 _)) by lra.
  destruct (Z.to_nat (p_maxls P)) eqn:E; [lia|]. cbn [mt_loop]. unfold mt_turn. cbn [m_I t_br t_t t_x m_uinfo m_count andb orb u_bad].
  cbv zeta. rewrite (proj2 (ltb_false stp (p_minstep P))) by lra. rewrite (proj2 (ltb_false (p_maxstep P) stp)) by lra.
  rewrite (proj2 (eqb_false stp (p_maxstep P))) by neq. cbn [andb]. rewrite (proj2 (eqb_false stp (p_minstep P))) by neq. cbn [andb].
  rewrite (proj2 (Z.leb_gt (p_maxls P) (0 + 1))) by lia. rewrite (proj2 (leb_true _ _) H6), (proj2 (leb_true _ _) H7). reflexivity.
Qed.

Definition K : R := 10 ^ 20.
Lemma EK : K = 100000000000000000000. Proof. unfold K. ring. Qed.
Definition Fq (x : vec) : R := 2 * K * (x 0%nat * x 0%nat).
Definition Gq (x : vec) (i : nat) : R := 4 * K * x i.
Definition xq : vec := fun _ => / 4.

(** *** C21: the reported value is not the value of the returned point when the line search fails.  With the default parameters and
    f(x) = 2e20 x^2 from x = 1/4 the first trial (the only one) is worse; x is restored but the reported value is the trial's. *)
Theorem C21_value_of_returned_point_refuted : exists F G x0 o,
  (forall x, F x = 2 * 10 ^ 20 * (x 0%nat * x 0%nat)) /\ (forall x, G x 0%nat = 4 * 10 ^ 20 * x 0%nat) /\
  lbfgs 1 F G defparam noprogress x0 0 (Ok o) /\ o_code o = MinimumStep /\ o_x o = x0 /\ F (o_x o) = 125 * 10 ^ 17 /\ o_fx o = 1125 * 10 ^ 17.
Proof.
  assert (EK := EK).
  assert (Hn : vnorm 1 (vneg (Gq xq)) = K). { rewrite vnorm1. unfold vneg, Gq, xq. rewrite Rabs_left; lra. }
  assert (Hk : 0 < 1 / K) by (apply Rdiv_lt_0_compat; lra). assert (HKK : 1 / K * K = 1) by (field; lra).
  assert (Ex : vaxpy xq (vneg (Gq xq)) (1 / K) 0%nat = - (3 / 4)). { unfold vaxpy, vneg, Gq, xq. field. lra. }
  assert (Eg : vdot 1 (Gq xq) (vneg (Gq xq)) = - (K * K)). { rewrite vdot1. unfold vneg, Gq, xq. field. }
  exists Fq, Gq, xq, (mkO MinimumStep xq (Fq (vaxpy xq (vneg (Gq xq)) (1 / K)))).
  assert (HP : checked 1 defparam). { constructor; cbn; try lia; try lra; try discriminate; try (intros [|]; discriminate). }
  split; [reflexivity|]. split; [reflexivity|]. split; [|cbn [o_code o_x o_fx]; repeat split; unfold Fq; rewrite ?Ex; unfold xq; rewrite ?EK; lra].
  apply lb_loop.
  - apply check_ok. split; [exact HP|]. cbn. split; lra.
  - cbn. lia.
  - unfold converged. rewrite !vnorm1. unfold xq, Gq. rewrite !Rabs_right by lra. cbn [p_eps defparam]. dec. reflexivity.
  - apply run_out. rewrite (iteration_fail _ _ _ _ _ _ (mkLS (inl MinimumStep) (vaxpy xq (vneg (Gq xq)) (1 / K)) (Fq (vaxpy xq (vneg (Gq xq)) (1 / K))) (Gq (vaxpy xq (vneg (Gq xq)) (1 / K))) (1 / K)) MinimumStep); [reflexivity| |reflexivity].
    unfold linesearch. cbn [p_ls defparam]. unfold start. cbn [l_x l_fx l_g l_d l_step]. rewrite Hn. apply mt_first_min; cbn [p_minstep p_maxstep p_maxls p_ftol defparam]; try lia; try reflexivity; try lra.
    + rewrite Eg. nra.
    + fold K. apply (Rmult_lt_reg_r K); [lra|]. rewrite HKK, EK. lra.
    + rewrite Eg. unfold Fq. rewrite Ex. unfold xq. replace (1 / K * (1 / 10 ^ 4 * - (K * K))) with (- (1 / 10 ^ 4 * K)) by (field; lra). lra.
Qed.
Print Assumptions C21_value_of_returned_point_refuted.

(** The first iteration in one dimension, with the default past and iteration limits: the new direction is minus the secant Newton step. *)
Lemma vget0 {A} (a : A) l : vget (a :: l) 0 = Ok a. Proof. reflexivity. Qed.
Lemma vset0 {A} (a b : A) l : vset (a :: l) 0 b = Ok (b :: l).
Proof. unfold vset. cbn [length]. destruct (Z.ltb_spec 0 (Z.of_nat (Datatypes.S (length l)))); [reflexivity|lia]. Qed.
Lemma first_iteration1 F G P x0 r c : (1 <= p_m P)%Z -> p_past P = 0%Z -> p_maxit P = 0%Z ->
  linesearch 1 F G P x0 (F x0) (G x0) (vneg (G x0)) (1 / vnorm 1 (vneg (G x0))) = Ok r -> ls_out r = inr c -> converged 1 P (ls_x r) (ls_g r) = false ->
  ls_x r 0%nat <> x0 0%nat -> ls_g r 0%nat <> G x0 0%nat ->
  exists S, iteration 1 F G P noprogress (start 1 F G P x0) = Ok (inr S) /\ l_x S = ls_x r /\ l_fx S = ls_f r /\ l_g S = ls_g r /\ l_step S = 1 /\
    l_d S 0%nat = - ((ls_x r 0%nat - x0 0%nat) / (ls_g r 0%nat - G x0 0%nat) * ls_g r 0%nat).
Proof.
  intros Hm Hp Hi Hl Ho Hc Hx Hg.
  assert (Hz := Z2Nat.id (p_m P) ltac:(lia)). destruct (Z.to_nat (p_m P)) as [|m] eqn:Em; [lia|].
  assert (Hys : vdot 1 (vdiff (ls_g r) (G x0)) (vdiff (ls_x r) x0) <> 0). { rewrite vdot1. unfold vdiff. apply Rmult_integral_contrapositive_currified; lra. }
  assert (Hyy : vdot 1 (vdiff (ls_g r) (G x0)) (vdiff (ls_g r) (G x0)) <> 0). { rewrite vdot1. unfold vdiff. apply Rmult_integral_contrapositive_currified; lra. }
  assert (E1 : exists S, iteration 1 F G P noprogress (start 1 F G P x0) = Ok (inr S) /\ l_x S = ls_x r /\ l_fx S = ls_f r /\ l_g S = ls_g r /\ l_step S = 1 /\
    l_d S = vaxpy (vscale (vaxpy (vneg (ls_g r)) (vdiff (ls_g r) (G x0)) (- (vdot 1 (vdiff (ls_x r) x0) (vneg (ls_g r)) / vdot 1 (vdiff (ls_g r) (G x0)) (vdiff (ls_x r) x0))))
               (vdot 1 (vdiff (ls_g r) (G x0)) (vdiff (ls_x r) x0) / vdot 1 (vdiff (ls_g r) (G x0)) (vdiff (ls_g r) (G x0)))) (vdiff (ls_x r) x0)
             (vdot 1 (vdiff (ls_x r) x0) (vneg (ls_g r)) / vdot 1 (vdiff (ls_g r) (G x0)) (vdiff (ls_x r) x0) - 
              vdot 1 (vdiff (ls_g r) (G x0)) (vscale (vaxpy (vneg (ls_g r)) (vdiff (ls_g r) (G x0)) (- (vdot 1 (vdiff (ls_x r) x0) (vneg (ls_g r)) / vdot 1 (vdiff (ls_g r) (G x0)) (vdiff (ls_x r) x0))))
               (vdot 1 (vdiff (ls_g r) (G x0)) (vdiff (ls_x r) x0) / vdot 1 (vdiff (ls_g r) (G x0)) (vdiff (ls_g r) (G x0)))) / vdot 1 (vdiff (ls_g r) (G x0)) (vdiff (ls_x r) x0))).
  { unfold iteration, start. cbn [l_x l_fx l_g l_d l_step l_k l_end l_lm l_pf]. rewrite Hl. cbn [bind]. rewrite Ho. cbv zeta. unfold noprogress at 1. cbn [negb Z.eqb].
    rewrite Hc. unfold stop_tests. rewrite Hp, Hi. cbn [Z.ltb Z.compare bind Z.eqb negb andb]. rewrite Em. cbn [repeat]. rewrite vget0. cbn [bind]. rewrite vset0. cbn [bind l_k]. 
    assert (Eb : (if (p_m P <=? 1)%Z then p_m P else 1%Z) = 1%Z). { destruct (Z.leb_spec (p_m P) 1); lia. }
    rewrite Eb. change (Z.to_nat 1) with 1%nat. unfold imod at 1. destruct (Z.eqb_spec (p_m P) 0); [lia|]. cbn [bind].
    set (e := Z.rem (0 + 1) (p_m P)). unfold direction. cbn [twoloop1]. unfold imod at 1. destruct (Z.eqb_spec (p_m P) 0); [lia|]. cbn [bind].
    assert (Ee : Z.rem (e + p_m P - 1) (p_m P) = 0%Z).
    { unfold e. destruct (Z.eq_dec (p_m P) 1) as [E|E]; [rewrite E; reflexivity|]. rewrite (Z.rem_small (0 + 1)) by lia. replace (0 + 1 + p_m P - 1)%Z with (p_m P) by ring. apply Z.rem_same. lia. }
    rewrite Ee. rewrite vget0. cbn [bind i_s i_y i_ys i_alpha]. unfold rdiv at 1. rewrite (proj2 (eqb_false _ _) Hys). cbn [bind].
    rewrite vset0. cbn [bind]. unfold rdiv at 1. rewrite (proj2 (eqb_false _ _) Hyy). cbn [bind twoloop2].
    rewrite vget0. cbn [bind i_s i_y i_ys i_alpha]. unfold rdiv at 1. rewrite (proj2 (eqb_false _ _) Hys). cbn [bind].
    unfold imod at 1. destruct (Z.eqb_spec (p_m P) 0); [lia|]. cbn [bind]. eexists. split; [reflexivity|]. repeat split. }
  destruct E1 as (S & E & E2 & E3 & E4 & E5 & E6). exists S. repeat split; try assumption. rewrite E6. unfold vaxpy, vscale. rewrite !vdot1. unfold vdiff, vneg.
  field. split; lra.
Qed.

Definition Fs (x : vec) : R := x 0%nat * x 0%nat / 2.
Definition Gs (x : vec) (i : nat) : R := x i.
Definition Fn (x : vec) : R := - (x 0%nat * x 0%nat).
Definition Gn (x : vec) (i : nat) : R := - (2 * x i).
Definition const (v : R) : vec := fun _ => v.
Lemma Gs0 x : Gs x 0%nat = x 0%nat. Proof. reflexivity. Qed.
Lemma Gn0 x : Gn x 0%nat = - (2 * x 0%nat). Proof. reflexivity. Qed.
Lemma Fs0 x : Fs x = x 0%nat * x 0%nat / 2. Proof. reflexivity. Qed.
(** The default parameters with the Armijo search and memory [m]. *)
Definition armijo (m : Z) : params := mkP m (1 / 10 ^ 5) 0 (1 / 10 ^ 5) 0 Armijo 40 (1 / 10 ^ 20) (10 ^ 20) (1 / 10 ^ 4) (9 / 10) (9 / 10) (1 / 10 ^ 16).

Lemma armijo_first F G m xp f gp s stp : 0 < stp -> vdot 1 gp s <= 0 -> F (vaxpy xp s stp) <= f + stp * (1 / 10 ^ 4 * vdot 1 gp s) ->
  linesearch 1 F G (armijo m) xp f gp s stp = Ok (mkLS (inr 1%Z) (vaxpy xp s stp) (F (vaxpy xp s stp)) (G (vaxpy xp s stp)) stp).
Proof.
  intros H1 H2 H3. unfold linesearch. cbn [p_ls armijo]. unfold backtracking. rewrite (proj2 (leb_false stp 0)) by lra. rewrite (proj2 (ltb_false 0 _)) by lra.
  cbn [p_maxls p_ftol armijo]. change (Z.to_nat 40) with (Datatypes.S 39). cbn [bt_loop]. unfold bt_test. rewrite (proj2 (ltb_false _ _)) by exact H3. reflexivity.
Qed.

(** *** C21: a memory of zero corrections passes every parameter check and then indexes an empty array at the first accepted step. *)
Theorem C21_zero_memory_refuted : check_params 1 (armijo 0) = None /\ lbfgs 1 Fs Gs (armijo 0) noprogress (const 4) 0 UB.
Proof.
  assert (HP : check_params 1 (armijo 0) = None). { apply check_ok. split; [|cbn; split; lra]. constructor; cbn; try lia; try lra; try discriminate; try (intros [|]; discriminate). }
  split; [exact HP|]. apply lb_loop; [exact HP|cbn; lia| |].
  - apply conv1_false; unfold const, Gs; rewrite !Rabs_right by lra; cbn; lra.
  - apply run_ub. unfold iteration. unfold start. cbn [l_x l_fx l_g l_d l_step l_lm].
    assert (Hn : vnorm 1 (vneg (Gs (const 4))) = 4). { rewrite vnorm1. unfold vneg, Gs, const. rewrite Rabs_left; lra. }
    rewrite Hn. rewrite armijo_first.
    + cbn [bind ls_out ls_x ls_f ls_g]. cbv zeta. unfold noprogress at 1. cbn [negb Z.eqb]. rewrite conv1_false; [reflexivity| |];
        unfold vaxpy, Gs, vneg, const; replace (4 + 1 / 4 * - (4)) with 3 by field; rewrite Rabs_right by lra; cbn; lra.
    + lra.
    + rewrite vdot1. unfold Gs, vneg, const. lra.
    + rewrite vdot1. unfold Fs, vaxpy, Gs, vneg, const. lra.
Qed.
Print Assumptions C21_zero_memory_refuted.

(** *** C22: with the Armijo search the stored curvature may be negative and the next direction points uphill: a run on -x^2 that is
    still decreasing without bound stops with IncreaseGradient. *)
Theorem C22_armijo_ascent_refuted : exists S o,
  iteration 1 Fn Gn (armijo 6) noprogress (start 1 Fn Gn (armijo 6) (const 1)) = Ok (inr S) /\ 0 < dot 1 (Gn (l_x S)) (l_d S) /\
  lbfgs 1 Fn Gn (armijo 6) noprogress (const 1) 0 (Ok o) /\ o_code o = IncreaseGradient.
Proof.
  assert (HP : check_params 1 (armijo 6) = None). { apply check_ok. split; [|cbn; split; lra]. constructor; cbn; try lia; try lra; try discriminate; try (intros [|]; discriminate). }
  assert (Hn : vnorm 1 (vneg (Gn (const 1))) = 2). { rewrite vnorm1. unfold vneg, Gn, const. rewrite Rabs_right; lra. }
  assert (Ex : vaxpy (const 1) (vneg (Gn (const 1))) (1 / 2) 0%nat = 2). { unfold vaxpy, vneg, Gn, const. field. }
  destruct (first_iteration1 Fn Gn (armijo 6) (const 1) (mkLS (inr 1%Z) (vaxpy (const 1) (vneg (Gn (const 1))) (1 / 2)) (Fn (vaxpy (const 1) (vneg (Gn (const 1))) (1 / 2))) (Gn (vaxpy (const 1) (vneg (Gn (const 1))) (1 / 2))) (1 / 2)) 1%Z)
    as (S & E & E1 & E2 & E3 & E4 & E5); try reflexivity; cbn [ls_x ls_g ls_f ls_out].
  - cbn. lia.
  - rewrite Hn. apply armijo_first; [lra| |]; rewrite ?vdot1; unfold Fn, Gn, vneg, vaxpy, const; lra.
  - apply conv1_false; rewrite ?Gn0; rewrite ?Ex; cbn [p_eps armijo].
    + rewrite Rabs_right; lra.
    + rewrite (Rabs_right 2) by lra. rewrite Rabs_left; lra.
  - rewrite Ex. unfold const. lra.
  - rewrite ?Gn0. rewrite ?Ex. unfold const. lra.
  - cbn [ls_x ls_g ls_f] in *.
    assert (Ed : l_d S 0%nat = -2). { rewrite E5. rewrite ?Gn0. rewrite ?Ex. unfold const. field. }
    exists S, (mkO IncreaseGradient (l_x S) (l_fx S)). split; [exact E|]. split.
    { unfold dot. cbn. rewrite Ed, E1. rewrite ?Gn0. rewrite ?Ex. lra. }
    split; [|reflexivity]. apply lb_loop; [exact HP|cbn; lia| |].
    + apply conv1_false; unfold const, Gn; cbn [p_eps armijo]; [rewrite Rabs_right; lra|]. rewrite (Rabs_right 1) by lra. rewrite Rabs_left; lra.
    + eapply run_next; [exact E|]. apply run_out.
      apply (iteration_fail _ _ _ _ _ _ (mkLS (inl IncreaseGradient) (l_x S) (l_fx S) (l_g S) (l_step S)) IncreaseGradient); [|reflexivity].
      unfold linesearch. cbn [p_ls armijo]. unfold backtracking. rewrite E4. rewrite (proj2 (leb_false 1 0)) by lra.
      rewrite (proj2 (ltb_true 0 _)); [reflexivity|]. rewrite vdot1, Ed, E3. rewrite ?Gn0. rewrite ?Ex. lra.
Qed.
Print Assumptions C22_armijo_ascent_refuted.

(** A complete run with the default parameters: x^2/2 from 4; the first step goes to 3, the second one to the minimiser. *)
Example lbfgs_default_run : exists o, lbfgs 1 Fs Gs defparam noprogress (const 4) 0 (Ok o) /\ o_code o = Success /\ o_x o 0%nat = 0 /\ o_fx o = 0.
Proof.
  assert (HP : check_params 1 defparam = None). { apply check_ok. split; [|cbn; split; lra]. constructor; cbn; try lia; try lra; try discriminate; try (intros [|]; discriminate). }
  assert (Hn : vnorm 1 (vneg (Gs (const 4))) = 4). { rewrite vnorm1. unfold vneg, Gs, const. rewrite Rabs_left; lra. }
  assert (Ex : vaxpy (const 4) (vneg (Gs (const 4))) (1 / 4) 0%nat = 3). { unfold vaxpy, vneg, Gs, const. field. }
  assert (EK := EK). unfold K in EK.
  destruct (first_iteration1 Fs Gs defparam (const 4) (mkLS (inr 1%Z) (vaxpy (const 4) (vneg (Gs (const 4))) (1 / 4)) (Fs (vaxpy (const 4) (vneg (Gs (const 4))) (1 / 4))) (Gs (vaxpy (const 4) (vneg (Gs (const 4))) (1 / 4))) (1 / 4)) 1%Z)
    as (S & E & E1 & E2 & E3 & E4 & E5); try reflexivity; cbn [ls_x ls_g ls_f ls_out].
  - cbn. lia.
  - rewrite Hn. unfold linesearch. cbn [p_ls defparam]. apply mt_first_ok; cbn [p_maxls p_minstep p_maxstep p_ftol p_gtol defparam]; try lia; try lra; rewrite ?vdot1.
    + unfold Gs, vneg, const. lra.
    + rewrite ?Fs0. rewrite ?Ex. unfold Gs, vneg, const. lra.
    + rewrite ?Gs0. rewrite ?Ex. unfold Gs, vneg, const. rewrite Rabs_left; lra.
  - apply conv1_false; rewrite ?Gs0; rewrite ?Ex; cbn [p_eps defparam]; rewrite !(Rabs_right 3) by lra; lra.
  - rewrite Ex. unfold const. lra.
  - rewrite ?Gs0. rewrite ?Ex. unfold const. lra.
  - cbn [ls_x ls_g ls_f] in *.
    assert (Ed : l_d S 0%nat = -3). { rewrite E5. rewrite ?Gs0. rewrite ?Ex. unfold const. field. }
    assert (Ey : vaxpy (l_x S) (l_d S) 1 0%nat = 0). { unfold vaxpy. rewrite Ed, E1, Ex. ring. }
    exists (mkO Success (vaxpy (l_x S) (l_d S) 1) (Fs (vaxpy (l_x S) (l_d S) 1))). split; [|cbn [o_code o_x o_fx]; repeat split; [exact Ey|rewrite ?Fs0; rewrite ?Ey; field]].
    apply lb_loop; [exact HP|cbn; lia| |].
    + apply conv1_false; unfold const, Gs; cbn [p_eps defparam]; rewrite !(Rabs_right 4) by lra; lra.
    + eapply run_next; [exact E|]. apply run_out. unfold iteration. unfold linesearch. cbn [p_ls defparam]. rewrite E4.
      rewrite mt_first_ok; cbn [p_maxls p_minstep p_maxstep p_ftol p_gtol defparam]; try lia; try lra; rewrite ?vdot1.
      * cbn [bind ls_out ls_x ls_f ls_g]. cbv zeta. unfold noprogress at 1. cbn [negb Z.eqb].
        assert (Hc : converged 1 defparam (vaxpy (l_x S) (l_d S) 1) (Gs (vaxpy (l_x S) (l_d S) 1)) = true).
        { unfold converged. rewrite !vnorm1. rewrite ?Gs0. rewrite ?Ey, Rabs_R0. rewrite (proj2 (ltb_true 0 1)) by lra. apply leb_true. cbn. lra. }
        rewrite Hc. reflexivity.
      * rewrite Ed, E3. rewrite ?Gs0. rewrite ?Ex. lra.
      * rewrite ?Fs0. rewrite ?Ey, Ed, E3, E2. rewrite ?Fs0, ?Gs0. rewrite ?Ex. lra.
      * rewrite ?Gs0. rewrite ?Ey, Ed, E3. rewrite ?Gs0. rewrite ?Ex. rewrite Rmult_0_l, Rabs_R0. lra.
Qed.

(** Backtracking on x^2 from 1 along -2 with step 1: the first trial is at -1 (no decrease), the second, half the step, is accepted. *)
Example backtracking_halves : 
  ls_out (backtracking 1 (fun x => x 0%nat * x 0%nat) (fun x i => 2 * x i) (armijo 6) (const 1) 1 (const 2) (const (-2)) 1) = inr 2%Z /\
  ls_stp (backtracking 1 (fun x => x 0%nat * x 0%nat) (fun x i => 2 * x i) (armijo 6) (const 1) 1 (const 2) (const (-2)) 1) = 1 * (1 / 2).
Proof.
  assert (E : backtracking 1 (fun x => x 0%nat * x 0%nat) (fun x i => 2 * x i) (armijo 6) (const 1) 1 (const 2) (const (-2)) 1 =
    mkLS (inr 2%Z) (vaxpy (const 1) (const (-2)) (1 * (1 / 2))) ((1 + 1 * (1 / 2) * -2) * (1 + 1 * (1 / 2) * -2)) (fun i => 2 * (1 + 1 * (1 / 2) * -2)) (1 * (1 / 2))).
  { unfold backtracking. rewrite (proj2 (leb_false 1 0)) by lra. rewrite vdot1. unfold const at 1 2. rewrite (proj2 (ltb_false 0 _)) by lra.
    cbn [p_maxls p_ftol armijo]. change (Z.to_nat 40) with (Datatypes.S (Datatypes.S 38)). set (fuel := 38%nat). clearbody fuel. cbn [bt_loop]. unfold bt_test. cbn [p_minstep p_maxstep p_maxls p_ls armijo]. cbv zeta. unfold vaxpy, const.
    rewrite (proj2 (ltb_true (1 + 1 * (1 / 10 ^ 4 * (2 * -2))) _)) by lra. rewrite (proj2 (ltb_false 1 (1 / 10 ^ 20))) by lra. rewrite (proj2 (ltb_false (10 ^ 20) 1)) by lra. cbn [Z.leb Z.compare Z.add Pos.compare Pos.compare_cont].
    rewrite (proj2 (ltb_false _ _)) by lra. reflexivity. }
  rewrite E. split; reflexivity.
Qed.

(** *** C21: the delta-based test.  [Stop] is returned only if the relative decrease over the last [past] iterations is below delta, and
    whenever the loop goes on after at least [past] iterations that decrease was at least delta (h: points visited, newest first). *)
Theorem C21_delta_test : forall n F G P progress x0 fx0,
  (0 < p_m P)%Z -> check_params n P = None -> converged n P x0 (G x0) = false ->
  (forall o, lbfgs n F G P progress x0 fx0 (Ok o) -> o_code o = Stop ->
    exists h S x g, visited n F G P progress x0 h S /\ iteration n F G P progress S = Ok (inl o) /\ (0 < p_past P)%Z /\
      nth_error h (Z.to_nat (p_past P) - 1) = Some (x, g) /\ (F x - F (o_x o)) / F (o_x o) < p_delta P) /\
  (forall h S S' x g, (0 < p_past P)%Z -> visited n F G P progress x0 h S -> iteration n F G P progress S = Ok (inr S') ->
    nth_error h (Z.to_nat (p_past P) - 1) = Some (x, g) -> p_delta P <= (F x - F (l_x S')) / F (l_x S')).
Proof.
  intros n F G P progress x0 fx0 Hm Hck Hc. assert (C := proj1 (proj1 (check_ok n P) Hck)). split.
  - intros o H Ho. inversion H as [c Hc' E|Hc' Hm' E|Hc' Hm' Hcv E|ro Hc' Hm' Hcv R E]; subst; try congruence; try lia.
    destruct (runs_visited n F G P progress x0 _ _ _ (vis_start n F G P progress x0) R) as (h & S & V & Hi).
    destruct (stop_out n F G P progress x0 h S o C Hm Hc V Hi Ho) as (x & g & A1 & A2 & _ & A3).
    + intros r H1 H2. destruct (C20_failure_codes n F G P _ _ _ _ _ Hck H1 H2) as (_ & _ & Hin). cbn in Hin. intuition discriminate.
    + exists h, S, x, g. auto.
  - intros h S S' x g Hp V Hs Hn. exact (proj2 (nostop_next n F G P progress x0 h S S' x g C Hm Hp Hc V Hs Hn)).
Qed.
Print Assumptions C21_delta_test.

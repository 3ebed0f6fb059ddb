(** * Backtracking trace, interpolation, penalty objective *)
From Coq Require Import Reals List Arith ZArith Bool Lia Lra FunctionalExtensionality.
From Verif Require Import Base BaseProofs IpModel BnbProofs LbfgsModel LbfgsSpec LbfgsProofs.
Import ListNotations.
Open Scope R_scope.

Definition cond_of (l : lsalg) : condition := match l with Armijo => CArmijo | Wolfe => CWolfe | _ => CStrongWolfe end.

Section Trace.
Variable n : nat.
Variable F : vec -> R.
Variable G : vec -> vec.
Variable P : params.

Lemma bt_test_trace xp s stp count : vdot n (G xp) s <= 0 ->
  match bt_test n P (F xp) (vdot n (G xp) s) (p_ftol P * vdot n (G xp) s) stp (F (vaxpy xp s stp)) (G (vaxpy xp s stp)) s count with
  | inl (inr c) => c = count /\ accepted_step n F G (cond_of (p_ls P)) (p_ftol P) (p_wolfe P) xp s stp
  | inl (inl _) => ~ accepted_step n F G (cond_of (p_ls P)) (p_ftol P) (p_wolfe P) xp s stp
  | inr w => (w = 1 / 2 /\ too_long n F G (cond_of (p_ls P)) (p_ftol P) (p_wolfe P) xp s stp) \/ (w = 21 / 10 /\ too_short n F G (cond_of (p_ls P)) (p_ftol P) (p_wolfe P) xp s stp)
  end.
Proof.
  intros Hd0. unfold bt_test. cbv zeta. set (dg0 := vdot n (G xp) s) in *.
  set (dg := vdot n (G (vaxpy xp s stp)) s).
  set (acc := accepted_step n F G (cond_of (p_ls P)) (p_ftol P) (p_wolfe P) xp s stp). set (sho := too_short n F G (cond_of (p_ls P)) (p_ftol P) (p_wolfe P) xp s stp). set (lng := too_long n F G (cond_of (p_ls P)) (p_ftol P) (p_wolfe P) xp s stp).
  assert (Hfin : forall w, ~ acc -> (w = 1 / 2 /\ lng) \/ (w = 21 / 10 /\ sho) ->
    match (if ltb stp (p_minstep P) then inl (inl MinimumStep) else if ltb (p_maxstep P) stp then inl (inl MaximumStep) else if (p_maxls P <=? count)%Z then inl (inl MaximumLinesearch) else inr w : (rcode + Z) + R) with
    | inl (inr c) => c = count /\ acc | inl (inl _) => ~ acc | inr w => (w = 1 / 2 /\ lng) \/ (w = 21 / 10 /\ sho) end).
  { intros w H1 H2. destruct (ltb stp (p_minstep P)); [exact H1|]. destruct (ltb (p_maxstep P) stp); [exact H1|]. destruct (p_maxls P <=? count)%Z; [exact H1|exact H2]. }
  assert (Hsd : sufficient_decrease n F G (p_ftol P) xp s (along xp s stp) stp <-> F (vaxpy xp s stp) <= F xp + stp * (p_ftol P * dg0)).
  { unfold sufficient_decrease. rewrite dot_vdot. fold dg0. change (along xp s stp) with (vaxpy xp s stp). split; lra. }
  assert (Hcv : curvature n G (p_wolfe P) xp s (along xp s stp) <-> p_wolfe P * dg0 <= dg).
  { unfold curvature. rewrite !dot_vdot. fold dg0. change (along xp s stp) with (vaxpy xp s stp). fold dg. tauto. }
  assert (Hst : strong_curvature n G (p_wolfe P) xp s (along xp s stp) <-> p_wolfe P * dg0 <= dg <= - p_wolfe P * dg0).
  { unfold strong_curvature. rewrite !dot_vdot. fold dg0. change (along xp s stp) with (vaxpy xp s stp). fold dg. rewrite (Rabs_left1 dg0) by exact Hd0. split.
    - intros H. pose proof (Rle_abs dg). pose proof (Rle_abs (- dg)) as A. rewrite Rabs_Ropp in A. lra.
    - intros H. apply Rabs_le. lra. }
  destruct (ltb (F xp + stp * (p_ftol P * dg0)) (F (vaxpy xp s stp))) eqn:E.
  { apply ltb_true in E. assert (Hna : ~ acc) by (intros [A _]; apply Hsd in A; lra). apply Hfin; [exact Hna|]. left. split; [reflexivity|]. split; [exact Hna|]. intros (_ & A & _). apply Hsd in A. lra. }
  apply ltb_false in E. destruct (p_ls P) eqn:L; cbn [cond_of] in *.
  2: { split; [reflexivity|]. split; [now apply Hsd|exact I]. }
  all: destruct (ltb dg (p_wolfe P * dg0)) eqn:E1;
    [apply ltb_true in E1; assert (Hsh : sho) by (split; [discriminate|split; [now apply Hsd|intros A; apply Hcv in A; lra]]); apply Hfin; [|right; auto];
     intros [_ A]; cbn in A; first [apply Hcv in A; lra|apply Hst in A; lra]|apply ltb_false in E1].
  2: { split; [reflexivity|]. split; [now apply Hsd|now apply Hcv]. }
  all: destruct (ltb (- p_wolfe P * dg0) dg) eqn:E2;
    [apply ltb_true in E2; assert (Hna : ~ acc) by (intros [_ A]; cbn in A; apply Hst in A; lra); apply Hfin; [exact Hna|]; left; split; [reflexivity|]; split; [exact Hna|]; intros (_ & _ & A); apply A; now apply Hcv|apply ltb_false in E2].
  all: split; [reflexivity|]; split; [now apply Hsd|cbn; apply Hst; lra].
Qed.
Lemma bt_trace fuel : forall xp s stp count r c, vdot n (G xp) s <= 0 -> (0 <= count < p_maxls P)%Z -> (p_maxls P - count <= Z.of_nat fuel)%Z ->
  bt_loop n F G P fuel xp s (F xp) (vdot n (G xp) s) (p_ftol P * vdot n (G xp) s) stp count = r -> ls_out r = inr c ->
  search n F G (cond_of (p_ls P)) (p_ftol P) (p_wolfe P) xp s stp (c - count) (ls_stp r).
Proof.
  induction fuel as [|fuel IH]; intros xp s stp count r c Hd Hc Hf Hr Ho; [lia|]. cbn [bt_loop] in Hr. cbv zeta in Hr.
  pose proof (bt_test_trace xp s stp (count + 1) Hd) as T. pose proof (bt_test_inv n P (F xp) (vdot n (G xp) s) (p_ftol P * vdot n (G xp) s) stp (F (vaxpy xp s stp)) (G (vaxpy xp s stp)) s (count + 1)) as T'.
  destruct (bt_test n P _ _ _ _ _ _ _ _) as [[e|c']|w].
  - subst r. discriminate.
  - subst r. injection Ho as ->. destruct T as [-> T]. replace (count + 1 - count)%Z with 1%Z by lia. now constructor.
  - destruct T' as (_ & Hcc & _). assert (IH' := IH xp s (stp * w) (count + 1)%Z r c Hd ltac:(lia) ltac:(lia) Hr Ho). replace (c - count)%Z with (c - (count + 1) + 1)%Z by lia.
    destruct T as [[-> T]|[-> T]]; [now apply search_shrink|now apply search_grow].
Qed.
End Trace.

(** ** Interpolation *)
Lemma max2_Rmax a b : max2 a b = Rmax a b.
Proof. unfold max2, Rmax. destruct (leb b a) eqn:E; [apply leb_true in E|apply leb_false in E]; destruct (Rle_dec a b); lra. Qed.
Lemma cubic_min_ok a b c e u v cm : cubic_min u (cubic a b c e u) (cubic' a b c u) v (cubic a b c e v) (cubic' a b c v) = Ok cm ->
  cubic' a b c cm = 0 /\ 0 <= cubic'' a b cm.
Proof.
  unfold cubic_min. cbv zeta. set (d := v - u). unfold rdiv at 1. destruct (eqb d 0) eqn:Ed; [discriminate|]. apply eqb_false in Ed. cbn [bind].
  set (du := cubic' a b c u). set (dv := cubic' a b c v). set (b2 := 3 * a * u + b).
  set (theta := (cubic a b c e u - cubic a b c e v) * 3 / d + du + dv).
  assert (Et : theta = - (du + b2 * d)). { unfold theta, cubic, du, dv, cubic', b2, d in *. field. exact Ed. }
  assert (Ev : dv = du + 2 * b2 * d + 3 * a * d * d). { unfold dv, du, cubic', b2, d. ring. }
  set (s := max2 (max2 (Rabs theta) (Rabs du)) (Rabs dv)). assert (Hs0 : 0 <= s). { unfold s. rewrite !max2_Rmax. pose proof (Rabs_pos dv). pose proof (Rmax_r (Rmax (Rabs theta) (Rabs du)) (Rabs dv)). lra. }
  clearbody theta s. unfold rdiv at 1. destruct (eqb s 0) eqn:Es; [discriminate|]. apply eqb_false in Es. cbn [bind]. unfold rdiv at 1. rewrite (proj2 (eqb_false s 0) Es). cbn [bind].
  unfold rdiv at 1. rewrite (proj2 (eqb_false s 0) Es). cbn [bind]. unfold rsqrt. destruct (ltb _ 0) eqn:Er; [discriminate|]. apply ltb_false in Er. cbn [bind].
  set (root := sqrt _). assert (Eroot : root * root = theta / s * (theta / s) - du / s * (dv / s)) by (unfold root; now apply sqrt_sqrt). assert (Hr0 : 0 <= root) by apply sqrt_pos. clearbody root.
  set (gamma := if ltb v u then - (s * root) else s * root).
  assert (Eg : gamma * gamma = d * d * (b2 * b2 - 3 * a * du)).
  { transitivity (theta * theta - du * dv); [|rewrite Et, Ev; ring]. transitivity (s * s * (root * root)); [unfold gamma; destruct (ltb v u); ring|]. rewrite Eroot. field. exact Es. }
  assert (Hgd : 0 <= gamma / d).
  { assert (0 <= s * root) by now apply Rmult_le_pos. unfold gamma. destruct (ltb v u) eqn:E; [apply ltb_true in E|apply ltb_false in E].
    - replace (- (s * root) / d) with (s * root * / - d) by (field; exact Ed). apply Rmult_le_pos; [lra|]. apply Rlt_le, Rinv_0_lt_compat. unfold d. lra.
    - apply Rmult_le_pos; [lra|]. apply Rlt_le, Rinv_0_lt_compat. unfold d in *. lra. }
  clearbody gamma. unfold rdiv. destruct (eqb (gamma - du + gamma + dv) 0) eqn:Eq; [discriminate|]. apply eqb_false in Eq. cbn [bind]. intros [= <-].
  set (q := gamma - du + gamma + dv) in *. assert (Hq : q = 2 * gamma + 2 * b2 * d + 3 * a * d * d) by (unfold q; rewrite Ev; ring).
  set (tau := (gamma - du + theta) / q * d). assert (Htau : tau * q = d * (gamma - 2 * du - b2 * d)) by (unfold tau; rewrite Et; field; exact Eq).
  assert (E1 : cubic' a b c (u + tau) = du + 2 * b2 * tau + 3 * a * tau * tau) by (unfold du, b2, cubic'; ring).
  assert (E2 : cubic'' a b (u + tau) = 2 * (b2 + 3 * a * tau)) by (unfold b2, cubic''; ring).
  rewrite E1, E2. clear E1 E2. split.
  - assert (Hz : (du + 2 * b2 * tau + 3 * a * tau * tau) * (q * q) = 0).
    { replace ((du + 2 * b2 * tau + 3 * a * tau * tau) * (q * q)) with (du * q * q + 2 * b2 * q * (tau * q) + 3 * a * (tau * q) * (tau * q)) by ring. rewrite Htau, Hq.
      replace (du * (2 * gamma + 2 * b2 * d + 3 * a * d * d) * (2 * gamma + 2 * b2 * d + 3 * a * d * d) + 2 * b2 * (2 * gamma + 2 * b2 * d + 3 * a * d * d) * (d * (gamma - 2 * du - b2 * d)) + 3 * a * (d * (gamma - 2 * du - b2 * d)) * (d * (gamma - 2 * du - b2 * d)))
        with ((4 * du + 4 * b2 * d + 3 * a * d * d) * (gamma * gamma) + (du * (2 * b2 * d + 3 * a * d * d) * (2 * b2 * d + 3 * a * d * d) - 2 * b2 * d * (2 * b2 * d + 3 * a * d * d) * (2 * du + b2 * d) + 3 * a * d * d * (2 * du + b2 * d) * (2 * du + b2 * d))) by ring.
      rewrite Eg. ring. }
    apply Rmult_integral in Hz as [Hz|Hz]; [exact Hz|]. apply Rmult_integral in Hz. tauto.
  - assert (Hz : (b2 + 3 * a * tau - gamma / d) * q = 0).
    { replace ((b2 + 3 * a * tau - gamma / d) * q) with (b2 * q + 3 * a * (tau * q) - gamma / d * q) by ring. rewrite Htau, Hq.
      replace (b2 * (2 * gamma + 2 * b2 * d + 3 * a * d * d) + 3 * a * (d * (gamma - 2 * du - b2 * d)) - gamma / d * (2 * gamma + 2 * b2 * d + 3 * a * d * d)) with (2 * d * (b2 * b2 - 3 * a * du) - 2 / d * (gamma * gamma)) by (field; exact Ed).
      rewrite Eg. field. exact Ed. }
    apply Rmult_integral in Hz as [Hz|Hz]; [|tauto]. lra.
Qed.
Lemma quard_min_ok a b c u v qm : u <> v -> quard_min u (cubic 0 a b c u) (cubic' 0 a b u) v (cubic 0 a b c v) = Ok qm -> cubic' 0 a b qm = 0.
Proof.
  intros Huv. unfold quard_min, rdiv. cbv zeta. assert (Hd : v - u <> 0) by lra. rewrite (proj2 (eqb_false _ _) Hd). cbn [bind]. destruct (eqb _ 0) eqn:E; [discriminate|]. apply eqb_false in E. cbn [bind]. intros [= <-].
  assert (E' : (cubic 0 a b c u - cubic 0 a b c v) / (v - u) + cubic' 0 a b u = - a * (v - u)) by (unfold cubic, cubic'; field; exact Hd). rewrite E' in *.
  unfold cubic'. field. split; [lra|]. intros A. apply E. rewrite A. ring.
Qed.
Lemma quard_min2_ok a b u v qm : u <> v -> quard_min2 u (cubic' 0 a b u) v (cubic' 0 a b v) = Ok qm -> cubic' 0 a b qm = 0.
Proof.
  intros Huv. unfold quard_min2, rdiv. cbv zeta. destruct (eqb _ 0) eqn:E; [discriminate|]. apply eqb_false in E. cbn [bind]. intros [= <-].
  unfold cubic' in *. field. intros A. apply E. lra.
Qed.

(** ** update_trial_interval *)
Lemma trial_interval_ok I ft dt tmin tmax J : tmin <= tmax -> tmin <= t_x I <= tmax -> tmin <= t_t I <= tmax -> (t_br I = true -> tmin <= t_y I <= tmax) ->
  update_trial_interval I ft dt tmin tmax = Ok (J, UOk) ->
  tmin <= t_t J <= tmax /\ t_fx J = Rmin (t_fx I) ft /\
  ((t_x J, t_fx J, t_dx J) = (t_x I, t_fx I, t_dx I) \/ (t_x J, t_fx J, t_dx J) = (t_t I, ft, dt)) /\
  (t_br J = true -> tmin <= t_x J <= tmax /\ tmin <= t_y J <= tmax) /\ (t_br I = true -> t_br J = true).
Proof.
  intros Ht Hx Htt Hy H. unfold update_trial_interval in H. cbv zeta in H. destruct (t_br I && _)%bool; [discriminate|].
  apply bind_ok in H as ([[newt0 br] bound] & Htv & H). injection H as <-. cbn [t_t t_fx t_x t_dx t_br t_y].
  set (I1 := if ltb (t_fx I) ft then _ else _).
  assert (A1 : t_fx I1 = Rmin (t_fx I) ft /\ ((t_x I1, t_fx I1, t_dx I1) = (t_x I, t_fx I, t_dx I) \/ (t_x I1, t_fx I1, t_dx I1) = (t_t I, ft, dt)) /\ tmin <= t_x I1 <= tmax).
  { unfold I1. destruct (ltb (t_fx I) ft) eqn:E; [apply ltb_true in E; cbn; rewrite Rmin_left by lra; auto|apply ltb_false in E]. destruct (dsign dt (t_dx I)); cbn; rewrite Rmin_right by lra; auto. }
  assert (A2 : br = true -> tmin <= t_y I1 <= tmax).
  { intros Hbr. subst br. unfold I1. destruct (ltb (t_fx I) ft) eqn:E; [cbn; lra|]. destruct (dsign dt (t_dx I)) eqn:E2; [cbn; lra|]. cbn. apply Hy. unfold trial_value in Htv. cbv zeta in Htv. rewrite E, E2 in Htv.
    destruct (ltb (Rabs dt) (Rabs (t_dx I))); repeat (apply bind_ok in Htv as (? & _ & Htv)); injection Htv as _ -> _; reflexivity. }
  assert (A3 : t_br I = true -> br = true).
  { intros Hb. unfold trial_value in Htv. cbv zeta in Htv. repeat match type of Htv with (if ?b then _ else _) = _ => destruct b end; repeat (apply bind_ok in Htv as (? & _ & Htv)); injection Htv as _ <- _; auto. }
  destruct A1 as (B1 & B2 & B3). split; [|auto 10]. clearbody I1. clear Htv.
  set (newt1 := if ltb tmax newt0 then tmax else newt0). set (newt2 := if ltb newt1 tmin then tmin else newt1).
  assert (Hn : tmin <= newt2 <= tmax). { unfold newt2, newt1. destruct (ltb tmax newt0) eqn:E; [apply ltb_true in E|apply ltb_false in E]; (match goal with |- context [ltb ?a ?b] => destruct (ltb a b) eqn:E2; [apply ltb_true in E2|apply ltb_false in E2] end); lra. }
  destruct (br && bound)%bool eqn:E; [|exact Hn]. apply andb_prop in E as [-> _]. specialize (A2 eq_refl). clearbody newt2.
  destruct (ltb (t_x I1) (t_y I1)) eqn:E1; [apply ltb_true in E1|apply ltb_false in E1]; (match goal with |- context [if ltb ?a ?b then _ else _] => destruct (ltb a b) eqn:E2; [apply ltb_true in E2|apply ltb_false in E2] end); lra.
Qed.

(** ** The penalty objective *)
Section Nlp.
Variables nvars ncons : nat.
Variable obj : vec -> R.
Variable cons : vec -> vec.
Variables xl xu gl gu : vec.
Variable w : R.
Notation ev := (evaluate_objective_function nvars ncons obj cons xl xu gl gu w).
Lemma viol_term_ok v l u acc : viol_term v l u acc = acc + violation2 v l u.
Proof.
  unfold viol_term, violation2, sq, Rsqr, Rmax. destruct (leb v l) eqn:E1; [apply leb_true in E1|apply leb_false in E1]; destruct (leb u v) eqn:E2; [apply leb_true in E2|apply leb_false in E2|apply leb_true in E2|apply leb_false in E2];
    destruct (Rle_dec 0 (l - v)); destruct (Rle_dec 0 (v - u)); try lra; try (replace v with l by lra; ring); try (replace u with v by lra; ring); try ring; nra.
Qed.
Lemma viol_loop_ok v l u acc : forall k, viol_loop k v l u acc = acc + rsum k (fun i => violation2 (v i) (l i) (u i)).
Proof. induction k as [|k IH]; cbn [viol_loop rsum]; [ring|]. rewrite viol_term_ok, IH. ring. Qed.
Lemma violation2_nonneg v l u : 0 <= violation2 v l u.
Proof. unfold violation2. pose proof (Rle_0_sqr (Rmax 0 (l - v))). pose proof (Rle_0_sqr (Rmax 0 (v - u))). lra. Qed.
Lemma violation2_zero v l u : violation2 v l u = 0 <-> l <= v <= u.
Proof.
  unfold violation2. pose proof (Rle_0_sqr (Rmax 0 (l - v))). pose proof (Rle_0_sqr (Rmax 0 (v - u))). split.
  - intros E. assert (E1 : Rsqr (Rmax 0 (l - v)) = 0) by lra. assert (E2 : Rsqr (Rmax 0 (v - u)) = 0) by lra. apply Rsqr_0_uniq in E1, E2. pose proof (Rmax_r 0 (l - v)). pose proof (Rmax_r 0 (v - u)). lra.
  - intros [H1 H2]. rewrite !Rmax_left by lra. unfold Rsqr. ring.
Qed.
Lemma rsum_nonneg_zero k f : (forall i, (i < k)%nat -> 0 <= f i) -> rsum k f = 0 -> forall i, (i < k)%nat -> f i = 0.
Proof.
  induction k as [|k IH]; cbn [rsum]; intros H E i Hi; [lia|]. pose proof (rsum_nonneg k f ltac:(intros; apply H; lia)). pose proof (H k ltac:(lia)).
  destruct (Nat.eq_dec i k) as [-> |]; [lra|]. apply IH; [intros; apply H; lia|lra|lia].
Qed.
Lemma ev_ok x : ev x = obj x + w * (rsum nvars (fun i => violation2 (x i) (xl i) (xu i)) + rsum ncons (fun i => violation2 (cons x i) (gl i) (gu i))).
Proof. unfold evaluate_objective_function. rewrite !viol_loop_ok. ring. Qed.
Lemma jac_loop_x x : forall k, fst (jac_loop nvars ncons obj cons xl xu gl gu w k x) = x.
Proof.
  induction k as [|k IH]; [reflexivity|]. cbn [jac_loop]. destruct (jac_loop nvars ncons obj cons xl xu gl gu w k x) as [x0 jac]. cbn in IH |- *. subst x0.
  apply functional_extensionality. intros i. unfold upd. destruct (Nat.eqb_spec i k) as [-> |]; [rewrite !Nat.eqb_refl; ring|reflexivity].
Qed.
Lemma jac_loop_j x : forall k i, snd (jac_loop nvars ncons obj cons xl xu gl gu w k x) i =
  if (i <? k)%nat then (ev (upd x i (x i + prt)) - ev (upd x i (x i - prt))) / (2 * prt) else 0.
Proof.
  induction k as [|k IH]; intros i; [cbn; destruct (i <? 0)%nat; reflexivity|]. cbn [jac_loop]. pose proof (jac_loop_x x k) as Hx. specialize (IH i).
  destruct (jac_loop nvars ncons obj cons xl xu gl gu w k x) as [x0 jac]. cbn [fst] in Hx. cbn [snd] in IH |- *. subst x0. unfold upd at 1.
  destruct (Nat.eqb_spec i k) as [-> |Hne].
  - rewrite (proj2 (Nat.ltb_lt k (S k))) by lia. unfold Rdiv. f_equal. f_equal. f_equal. apply functional_extensionality. intros j. unfold upd. rewrite !Nat.eqb_refl. destruct (Nat.eqb j k); ring.
  - rewrite IH. destruct (Nat.ltb_spec i k); destruct (Nat.ltb_spec i (S k)); try lia; reflexivity.
Qed.
End Nlp.

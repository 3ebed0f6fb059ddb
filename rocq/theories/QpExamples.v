(** * Concrete runs of the QP solver *)
From Coq Require Import Reals List Arith ZArith Bool Lia Lra Psatz FunctionalExtensionality.
Import ListNotations.
From Verif Require Import Base BaseProofs QpModel QpSpec QpProofs.
Local Open Scope R_scope.

Lemma eps_val : eps = / 4503599627370496.
Proof. unfold eps. f_equal. ring. Qed.
Ltac rb := repeat match goal with
  | |- context [rltb ?a ?b] => first [ replace (rltb a b) with true by (symmetry; apply rltb_t; rewrite ?eps_val; lra) | replace (rltb a b) with false by (symmetry; apply rltb_f; rewrite ?eps_val; lra) ]
  | |- context [rleb ?a ?b] => first [ replace (rleb a b) with true by (symmetry; apply rleb_t; rewrite ?eps_val; lra) | replace (rleb a b) with false by (symmetry; apply rleb_f; rewrite ?eps_val; lra) ]
  | |- context [reqb ?a ?b] => first [ replace (reqb a b) with true by (symmetry; apply reqb_t; rewrite ?eps_val; lra) | replace (reqb a b) with false by (symmetry; apply reqb_f; rewrite ?eps_val; lra) ]
  end.
Lemma distance_l : forall a, distance a 0 = Rabs a.
Proof. intros. rewrite distance_eq. replace (a * a + 0 * 0) with (Rsqr a) by (unfold Rsqr; ring). apply sqrt_Rsqr_abs. Qed.

(** ** One variable: min 1/2 x^2 subject to  c x + e <= 0, started with the factor 1 *)
Definition one (c e : R) : qp := QP 1 0 1 (fun _ _ => 1) (fun _ => 0) (fun _ _ => 0) (fun _ => 0) (fun _ _ => c) (fun _ => e).
Definition J1 : qmat := fun _ _ => 1.
Lemma one_factor : forall c e, inverse_factor (one c e) J1.
Proof.
  intros. split; intros; cbn [one q_n q_H] in *; [easy|]. replace i with 0%nat by lia. replace j with 0%nat by lia. unfold J1. cbn [rsum Nat.eqb]. lra.
Qed.
Lemma Rabs_neg : forall a, a <= 0 -> Rabs a = - a.
Proof. intros. apply Rabs_left1. easy. Qed.
Ltac fields := cbn [x u A iai iaexcl s ss ip np mR mJ Rn fv iq u_old A_old x_old a_R a_J a_d a_Rn a_ok e_R e_J e_A e_u e_iq] in *.

(** At l1 with nothing active and x = 0: the row is violated by e. *)
Lemma one_l1 : forall c e q, iq q = 0%nat -> x q 0%nat = 0 -> iai q 0%nat = 0%Z -> 100 * eps < e ->
  exists q', step_l1 (one c e) J1 q = Next false L2 q' /\ iq q' = 0%nat /\ x q' 0%nat = 0 /\ iai q' 0%nat = 0%Z /\ s q' 0%nat = - e /\ ss q' = 0 /\ iaexcl q' 0%nat = true /\ mJ q' = mJ q /\ Rn q' = Rn q.
Proof.
  intros c e q Hi Hx Ha He. unfold step_l1. rewrite Hi. cbn [one q_me q_mi Nat.sub mark_active Nat.add].
  assert (P : rsum 1 (fun i => Rmin 0 ((fun i => if (i <? 1)%nat then slack (one c e) (x q) i else s q i) i)) = - e).
  { cbn [rsum]. change (0 <? 1)%nat with true. cbv iota. unfold slack, dotn. cbn [one q_n rsum row q_CI q_ci0]. unfold row. rewrite Hx. rewrite Rmin_right. lra. pose proof QpExamples.eps_val. lra. }
  cbv zeta. match goal with |- context [rleb (Rabs ?p) _] => replace p with (- e) by (symmetry; exact P) end.
  assert (T : rleb (Rabs (- e)) (INR 1 * eps * trace (q_n (one c e)) (q_H (one c e)) * trace (q_n (one c e)) J1 * 100) = false).
  { apply rleb_f. rewrite Rabs_neg by (pose proof eps_val; lra). unfold trace, J1. cbn [one q_n q_H rsum INR]. lra. }
  rewrite T. eexists. split; [reflexivity|]. fields. repeat split; auto.
  change (0 <? 1)%nat with true. cbv iota. unfold slack, dotn. cbn [one q_n rsum row q_CI q_ci0]. unfold row. rewrite Hx. lra.
Qed.
Lemma one_l2 : forall c e q, iq q = 0%nat -> x q 0%nat = 0 -> iai q 0%nat = 0%Z -> 0 < e -> s q 0%nat = - e -> ss q = 0 -> iaexcl q 0%nat = true ->
  exists q', step_l2 (one c e) q = Next false L2a q' /\ iq q' = 0%nat /\ x q' 0%nat = 0 /\ s q' 0%nat = - e /\ ip q' = 0%nat /\ np q' 0%nat = - c /\ mJ q' = mJ q /\ A q' 0%nat = 0%Z /\ u q' 0%nat = 0 /\ Rn q' = Rn q.
Proof.
  intros c e q Hi Hx Ha He Hs Hss Hex. unfold step_l2. cbn [one q_mi pick q_me Nat.add]. rewrite Hs, Hss, Ha, Hex. cbn [Z.eqb negb].
  replace (rltb (- e) 0) with true by (symmetry; apply rltb_t; lra). cbn [andb].
  replace (rleb 0 (- e)) with false by (symmetry; apply rleb_f; lra). rewrite Hi. cbn [Nat.ltb Nat.leb].
  eexists. split; [reflexivity|]. fields. repeat split; auto.
Qed.
(** A row with small coefficients is taken for a zero row: "infeasible". *)
Lemma one_l2a_tiny : forall c e q, iq q = 0%nat -> mJ q 0%nat 0%nat = 1 -> np q 0%nat = - c -> c <> 0 -> c * c <= eps -> step_l2a (one c e) q = Return true ExitInfeasible q.
Proof.
  intros c e q Hi HJ Hn Hc Hs. unfold step_l2a. rewrite Hi. cbn [one q_n q_me q_mi Nat.sub Nat.leb ratio]. cbv zeta.
  unfold updateZ, computeD, dotn. cbn [Nat.sub rsum Nat.add]. rewrite HJ, Hn.
  match goal with |- context [rltb eps ?p] => replace (rltb eps p) with false by (symmetry; apply rltb_f; rewrite Rabs_right; nra) end.
  match goal with |- context [reqb ?p 0] => replace (reqb p 0) with false by (symmetry; apply reqb_f; nra) end.
  reflexivity.
Qed.
Lemma one_l2a_full : forall c e q, iq q = 0%nat -> mJ q 0%nat 0%nat = 1 -> np q 0%nat = - c -> x q 0%nat = 0 -> s q 0%nat = - e -> ip q = 0%nat -> Rn q = 1 -> A q 0%nat = 0%Z -> 0 < e -> 1 <= c ->
  exists q', step_l2a (one c e) q = Next false L1 q' /\ iq q' = 1%nat /\ x q' 0%nat = - e / c /\ A q' 0%nat = 0%Z /\ iai q' 0%nat = (-1)%Z.
Proof.
  intros c e q Hi HJ Hn Hx Hs Hip HR HA He Hc. unfold step_l2a. rewrite Hi. cbn [one q_n q_me q_mi Nat.sub Nat.leb ratio]. cbv zeta.
  set (d := computeD 1 (mJ q) (np q)). set (z := updateZ 1 (mJ q) d 0).
  assert (Ed : d 0%nat = - c) by (unfold d, computeD; cbn [rsum]; rewrite HJ, Hn; lra).
  assert (Ez : z 0%nat = - c) by (unfold z, updateZ; cbn [Nat.sub rsum Nat.add]; rewrite HJ, Ed; lra).
  assert (Zn : dotn 1 z (np q) = c * c) by (unfold dotn; cbn [rsum]; rewrite Ez, Hn; lra).
  assert (Zz : dotn 1 z z = c * c) by (unfold dotn; cbn [rsum]; rewrite Ez; lra).
  rewrite Zz, Zn, Hip, Hs.
  replace (rltb eps (Rabs (c * c))) with true by (symmetry; apply rltb_t; rewrite Rabs_right by nra; rewrite eps_val; nra).
  replace (reqb (- - e / (c * c)) (- - e / (c * c))) with true by (symmetry; apply reqb_t; easy).
  unfold addConstraint. cbn [Nat.ltb Nat.leb Nat.sub add_loop]. rewrite HR.
  replace (rleb (Rabs (d 0%nat)) (eps * 1)) with false by (symmetry; apply rleb_f; rewrite Ed, Rabs_neg by lra; rewrite eps_val; lra). fields.
  eexists. split; [reflexivity|]. fields. repeat split; auto. unfold axpy. rewrite Hx, Ez. field. lra.
Qed.
Lemma one_l1_done : forall c e q, iq q = 1%nat -> x q 0%nat = - e / c -> A q 0%nat = 0%Z -> c <> 0 -> exists q', step_l1 (one c e) J1 q = Return false ExitTolerance q' /\ x q' = x q.
Proof.
  intros c e q Hi Hx HA Hc. unfold step_l1. rewrite Hi. cbn [one q_me q_mi Nat.sub mark_active Nat.add]. rewrite HA. cbn [Z.leb Z.ltb Z.compare Z.of_nat Pos.of_succ_nat andb].
  assert (P : rsum 1 (fun i => Rmin 0 ((fun i => if (i <? 1)%nat then slack (one c e) (x q) i else s q i) i)) = 0).
  { cbn [rsum]. change (0 <? 1)%nat with true. cbv iota. unfold slack, dotn. cbn [one q_n rsum row q_CI q_ci0]. unfold row. rewrite Hx.
    replace (- (0 + c * (- e / c) + e)) with 0 by (field; easy). rewrite Rmin_right; lra. }
  cbv zeta. match goal with |- context [rleb (Rabs ?p) _] => replace p with 0 by (symmetry; exact P) end.
  match goal with |- context [rleb (Rabs 0) ?t] => replace (rleb (Rabs 0) t) with true end.
  2:{ symmetry. apply rleb_t. rewrite Rabs_R0. unfold trace, J1. cbn [one q_n q_H rsum INR]. rewrite eps_val. lra. }
  eexists. split; reflexivity.
Qed.
Lemma one_start : forall c e q0, exists q, eq_phase (one c e) (q_me (one c e)) 0 false (start (one c e) J1 q0) = Next false L1 q /\ iq q = 0%nat /\ x q 0%nat = 0 /\ iai q 0%nat = 0%Z /\ mJ q = J1 /\ Rn q = 1.
Proof.
  intros. cbn [one q_me eq_phase]. eexists. split; [reflexivity|]. unfold start. fields. repeat split; auto. cbn [one q_n rsum q_g]. unfold computeD. cbn [rsum]. lra.
Qed.
(** Row c x + e <= 0 with c >= 1: solved, x = - e / c. *)
Lemma one_run_full : forall c e q0 fuel, 1 <= c -> 100 * eps < e -> exists q, solveQP (one c e) J1 q0 (4 + fuel) = Done ExitTolerance q false /\ x q 0%nat = - e / c.
Proof.
  intros c e q0 fuel Hc He. assert (0 < e) by (pose proof eps_val; lra). unfold solveQP.
  destruct (one_start c e q0) as (q & -> & a1 & a2 & a3 & a4 & a5). cbn [Nat.add qrun qstep].
  destruct (one_l1 c e q a1 a2 a3 He) as (q1 & -> & b1 & b2 & b3 & b4 & b5 & b6 & b7 & b8). cbn [qstep orb].
  destruct (one_l2 c e q1 b1 b2 b3 H b4 b5 b6) as (q2 & -> & c1 & c2 & c3 & c4 & c5 & c6 & c7 & c8 & c9). cbn [qstep orb].
  destruct (one_l2a_full c e q2) as (q3 & -> & d1 & d2 & d3 & d4); auto; try congruence.
  { rewrite c6, b7, a4. reflexivity. } cbn [qstep orb].
  destruct (one_l1_done c e q3 d1 d2 d3 ltac:(lra)) as (q4 & -> & e1). cbn [orb]. exists q4. split; [reflexivity|]. now rewrite e1.
Qed.
(** The same problem with small coefficients: declared infeasible. *)
Lemma one_run_tiny : forall c e q0 fuel, c <> 0 -> c * c <= eps -> 100 * eps < e -> exists q, solveQP (one c e) J1 q0 (3 + fuel) = Done ExitInfeasible q true.
Proof.
  intros c e q0 fuel Hc Hcc He. assert (0 < e) by (pose proof eps_val; lra). unfold solveQP.
  destruct (one_start c e q0) as (q & -> & a1 & a2 & a3 & a4 & a5). cbn [Nat.add qrun qstep].
  destruct (one_l1 c e q a1 a2 a3 He) as (q1 & -> & b1 & b2 & b3 & b4 & b5 & b6 & b7 & b8). cbn [qstep orb].
  destruct (one_l2 c e q1 b1 b2 b3 H b4 b5 b6) as (q2 & -> & c1 & c2 & c3 & c4 & c5 & c6 & c7 & c8 & c9). cbn [qstep orb].
  rewrite (one_l2a_tiny c e q2); auto. exists q2. reflexivity. rewrite c6, b7, a4. reflexivity.
Qed.

(** ** One variable, one equality c x + 1 = 0 with a small coefficient *)
Definition oneq (c : R) : qp := QP 1 1 0 (fun _ _ => 1) (fun _ => 0) (fun _ _ => c) (fun _ => 1) (fun _ _ => 0) (fun _ => 0).
Lemma oneq_factor : forall c, inverse_factor (oneq c) J1.
Proof.
  intros. split; intros; cbn [oneq q_n q_H] in *; [easy|]. replace i with 0%nat by lia. replace j with 0%nat by lia. unfold J1. cbn [rsum Nat.eqb]. lra.
Qed.
Lemma oneq_step : forall c q, iq q = 0%nat -> mJ q 0%nat 0%nat = 1 -> Rn q = 1 -> x q 0%nat = 0 -> eps < Rabs c -> c * c <= eps ->
  exists q', eq_step (oneq c) 0 q = Next true L1 q' /\ iq q' = 1%nat /\ x q' 0%nat = 0.
Proof.
  intros c q Hi HJ HR Hx Hc Hcc. unfold eq_step. rewrite Hi, HR. change (q_n (oneq c)) with 1%nat. cbv zeta.
  set (d := computeD 1 (mJ q) (row (q_CE (oneq c)) 0)). set (z := updateZ 1 (mJ q) d 0).
  assert (Ed : d 0%nat = c) by (unfold d, computeD, row; cbn [rsum oneq q_CE]; rewrite HJ; lra).
  assert (Ez : z 0%nat = c) by (unfold z, updateZ; cbn [Nat.sub rsum Nat.add]; rewrite HJ, Ed; lra).
  assert (Zz : dotn 1 z z = c * c) by (unfold dotn; cbn [rsum]; rewrite Ez; lra).
  rewrite Zz. replace (rltb eps (Rabs (c * c))) with false by (symmetry; apply rltb_f; rewrite Rabs_right by nra; lra).
  unfold addConstraint. cbn [Nat.ltb Nat.leb Nat.sub add_loop].
  replace (rleb (Rabs (d 0%nat)) (eps * 1)) with false by (symmetry; apply rleb_f; rewrite Ed; lra). fields.
  match goal with |- context [negb (reqb ?p 0)] => replace (reqb p 0) with false by (symmetry; apply reqb_f; unfold dotn; cbn [rsum]; rewrite Hx; cbn [oneq q_ce0]; lra) end.
  cbn [negb andb]. eexists. split; [reflexivity|]. fields. split; [easy|]. unfold axpy. rewrite Hx. lra.
Qed.
Lemma oneq_run : forall c q0 fuel, eps < Rabs c -> c * c <= eps -> exists q, solveQP (oneq c) J1 q0 (1 + fuel) = Done ExitTolerance q true /\ x q 0%nat = 0.
Proof.
  intros c q0 fuel Hc Hcc. unfold solveQP. change (q_me (oneq c)) with 1%nat. cbn [eq_phase].
  destruct (oneq_step c (start (oneq c) J1 q0)) as (q1 & -> & a1 & a2); auto.
  { unfold start, computeD, J1. fields. cbn [oneq q_n q_g rsum]. lra. }
  cbn [orb Nat.add qrun qstep]. unfold step_l1. fields. rewrite a1. change (q_me (oneq c)) with 1%nat. change (q_mi (oneq c)) with 0%nat. cbn [Nat.sub mark_active rsum]. cbv zeta.
  match goal with |- context [rleb (Rabs 0) ?t] => replace (rleb (Rabs 0) t) with true by (symmetry; apply rleb_t; rewrite Rabs_R0; cbn [INR]; lra) end.
  eexists. split; [reflexivity|]. exact a2.
Qed.

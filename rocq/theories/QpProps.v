(** * C49, C55, C56: the dual active set QP solver *)
From Coq Require Import Reals List Arith ZArith Bool Lia Lra Psatz.
Import ListNotations.
From Verif Require Import Base BaseProofs QpModel QpSpec QpProofs QpProofs2 QpProofs3 QpProofs4 QpProofs5 QpExamples QpExamples2.
Local Open Scope R_scope.

(** ** C49: rotations *)
(** The pair transformation used by addConstraint and deleteConstraint preserves scalar products, annihilates the second entry of the pair it was
    computed from, and the scaled hypotenuse is exact. *)
Theorem C49_rotation : forall a b, (a <> 0 \/ b <> 0) ->
  let '(c, s, e) := givens a b (distance a b) in
  rot1 c s a b = e /\ rot2 c s a b = 0 /\ e * e = a * a + b * b /\
  (forall t1 t2 v1 v2, rot1 c s t1 t2 * rot1 c s v1 v2 + rot2 c s t1 t2 * rot2 c s v1 v2 = t1 * v1 + t2 * v2).
Proof.
  intros a b H. destruct (givens a b (distance a b)) as [[c s] e] eqn:G.
  assert (Hd : distance a b <> 0) by (intros E; apply distance_0 in E; lra).
  destruct (givens_spec _ _ _ _ _ Hd G) as (U & C & T & Z & Q & _).
  split; [unfold rot1; lra|]. split; [rewrite rot2_eq by easy; lra|]. split; [easy|].
  intros. rewrite !rot2_eq by easy. unfold rot1. transitivity ((c * c + s * s) * (t1 * v1 + t2 * v2)). ring. rewrite U. ring.
Qed.
Theorem C49_distance : forall a b, distance a b = sqrt (a * a + b * b).
Proof. exact distance_eq. Qed.

(** Adding a constraint normal to a factorisation of the active ones. *)
Theorem C49_add_constraint : forall n m J M N np Rn a,
  triangular_factor n m J M N -> addConstraint n M J (transposed_times n J np) m Rn = Some a ->
  triangular_factor n (m + 1) (a_J a) (a_R a) (fun k => if (k =? m)%nat then np else N k) /\ same_product n J (a_J a) /\
  (forall l, (m < l < n)%nat -> transposed_times n (a_J a) np l = 0).
Proof.
  intros n m J M N np Rn a F E. destruct (add_factor n m M J N np Rn a F E) as (F' & G & Hm & D & _).
  destruct (addConstraint_spec _ _ _ _ _ _ _ E) as (_ & Fi & _ & _ & _ & Z & _).
  split; [now rewrite Nat.add_1_r|]. split; [exact G|]. intros l Hl. change (computeD n (a_J a) np l = 0). rewrite D by lia. now apply Z.
Qed.
(** Removing the active constraint number q. *)
Theorem C49_delete_constraint : forall n len m J M N A u p l e q,
  triangular_factor n m J M N -> (forall k, (k < m)%nat -> M k k <> 0) -> (m <= n)%nat ->
  deleteConstraint len M J A u p m l = Some e ->
  (p <= q < m)%nat -> A q = l -> (forall k, (p <= k < q)%nat -> A k <> l) ->
  e_iq e = (m - 1)%nat /\ triangular_factor n (m - 1) (e_J e) (e_R e) (without q N) /\ (forall k, (k < m - 1)%nat -> e_R e k k <> 0) /\
  same_product n J (e_J e) /\ (forall k, (k < m - 1)%nat -> e_A e k = if (k <? q)%nat then A k else A (S k)) /\
  (forall k, (k < m - 1)%nat -> e_u e k = if (k <? q)%nat then u k else u (S k)).
Proof.
  intros n len m J M N A u p l e q F HD Hm E Hq HA Hbefore.
  assert (FA : find_active A l p (m - p) = Some q).
  { assert (G : forall c i, (i <= q < i + c)%nat -> (forall k, (i <= k < q)%nat -> A k <> l) -> find_active A l i c = Some q).
    { induction c; intros i Hi Hb; [lia|]. cbn [find_active]. destruct (Z.eqb_spec (A i) l) as [e1|e1].
      - destruct (Nat.eq_dec i q); [now subst|]. exfalso. apply (Hb i); [lia|easy].
      - apply IHc. destruct (Nat.eq_dec i q); [subst; congruence|lia]. intros. apply Hb. lia. }
    apply G; [lia|easy]. }
  destruct (delete_factor _ _ _ _ _ _ _ _ _ _ N q F HD Hm E FA) as (_ & I & F' & D' & G & HA' & Hu' & _).
  split; [exact I|]. split.
  { replace (without q N) with (fun k => N (skip q k)); [exact F'|]. unfold without, skip. apply FunctionalExtensionality.functional_extensionality; intros k. now destruct (k <? q)%nat. }
  split; [exact D'|]. split; [exact G|]. split.
  - intros k Hk. rewrite HA' by lia. unfold skip. now destruct (k <? q)%nat.
  - intros k Hk. rewrite Hu' by lia. unfold skip. now destruct (k <? q)%nat.
Qed.
Print Assumptions C49_rotation.
Print Assumptions C49_distance.
Print Assumptions C49_add_constraint.
Print Assumptions C49_delete_constraint.
(** A factorisation to which a constraint is added, then removed: n = 2, J = identity, normal (3, 4). *)
Example C49_add_example : triangular_factor 2 0 id2 (fun _ _ => 0) (fun _ _ => 0) /\
  exists a, addConstraint 2 (fun _ _ => 0) id2 (transposed_times 2 id2 (fun k => if (k =? 0)%nat then 3 else 4)) 0 1 = Some a /\ a_ok a = true /\
    exists e, deleteConstraint 2 (a_R a) (a_J a) (fun _ => 7%Z) (fun _ => 1) 0 1 7 = Some e.
Proof.
  split. { repeat split; intros; try lia; easy. }
  set (np := fun k => if (k =? 0)%nat then 3 else 4).
  assert (D0 : transposed_times 2 id2 np 0 = 3) by (unfold transposed_times, np, id2; cbn [rsum Nat.eqb]; lra).
  assert (D1 : transposed_times 2 id2 np 1 = 4) by (unfold transposed_times, np, id2; cbn [rsum Nat.eqb]; lra).
  unfold addConstraint. change (0 <? 2)%nat with true. change (2 - 1 - 0)%nat with 1%nat. cbn [add_loop]. change (0 + 1)%nat with 1%nat.
  unfold add_step. change (1 - 1)%nat with 0%nat. rewrite D0, D1.
  assert (Ed : distance 3 4 = 5) by (rewrite distance_eq; replace (3 * 3 + 4 * 4) with (5 * 5) by lra; apply sqrt_square; lra).
  rewrite Ed. replace (reqb 5 0) with false by (symmetry; apply reqb_f; lra). unfold givens. replace (rltb (3 / 5) 0) with false by (symmetry; apply rltb_f; lra).
  rewrite upd_same. replace (rleb (Rabs 5) (eps * 1)) with false by (symmetry; apply rleb_f; rewrite Rabs_right by lra; rewrite eps_val; lra).
  eexists. split; [reflexivity|]. fields. split; [reflexivity|]. eexists. reflexivity.
Qed.

(** ** C55: what the answer means *)
Lemma run_facts : forall P J0 q0 fuel, inverse_factor P J0 -> (q_me P <= q_n P)%nat ->
  match solveQP P J0 q0 fuel with
  | Crash o => o = true
  | Done ExitDependent _ _ => True
  | Done ExitTolerance q false => qinv P J0 (fun _ => 0) q 0 (fun _ => 0) /\ violation P (x q) <= tolerance P J0
  | Done ExitFeasible q false => qinv P J0 (fun _ => 0) q 0 (fun _ => 0) /\ forall i, (i < q_mi P)%nat -> ineq_value P (x q) i <= 0
  | Done ExitInfeasible q false => forall y, ~ feasible P y
  | _ => True
  end.
Proof.
  intros P J0 q0 fuel HJ Hme. unfold solveQP.
  pose proof (eq_phase_spec P J0 HJ Hme (q_me P) 0 false (start P J0 q0) (core_start P J0 q0 _ HJ) eq_refl (Nat.add_0_l _)
     (fun k Hk => False_ind _ (Nat.nlt_0_r _ Hk)) (fun _ k Hk => False_ind _ (Nat.nlt_0_r _ Hk))) as H.
  destruct (eq_phase P (q_me P) 0 false (start P J0 q0)) as [o|o e q|o pc q]; [easy| subst e; easy |].
  destruct H as (-> & Hres & HC & Hi & HA & HIA). destruct o.
  { pose proof (qrun_obs P J0 fuel L1 q) as Q. destruct (qrun P J0 fuel true L1 q) as [o|e q'' o|o pc q'']; [easy| |easy]. subst o. now destruct e. }
  assert (HI : qinv P J0 (fun _ => 0) q 0 (fun _ => 0)).
  { destruct (qinv_of_core P J0 q HC Hi HA HIA) as [a1 a2 a3 a4 a5 a6 a7 a8 a9]. split; auto. }
  pose proof (qrun_post P J0 (fun _ => 0) HJ fuel L1 q HI) as Q. destruct (qrun P J0 fuel false L1 q) as [o|e q'' o|o pc q'']; [exact Q| |easy].
  cbn [post] in Q. destruct e, o; try easy. now apply Q. now apply Q.
  destruct (Q eq_refl) as (I & Z & HR). intros y. eapply infeasible_of_inv; eauto.
Qed.
(** A run that ends with an answer and in which none of the observed events happened: the point satisfies the equalities, violates the inequalities
    by at most the tolerance in total (return at l.375) or not at all (return at l.395), the returned number is its objective value and no feasible
    point has a smaller one.  _partial: runs with an observed event (see QpModel) are excluded, and so is the return for dependent equalities. *)
Theorem C55_answer_partial : forall P J0 q0 fuel e q, inverse_factor P J0 -> (q_me P <= q_n P)%nat ->
  solveQP P J0 q0 fuel = Done e q false -> e = ExitTolerance \/ e = ExitFeasible ->
  meets_equalities P (x q) /\ (e = ExitTolerance -> violation P (x q) <= tolerance P J0) /\ (e = ExitFeasible -> feasible P (x q)) /\
  ret_value e q = Some (objective P (x q)) /\ (forall y, feasible P y -> objective P (x q) <= objective P y).
Proof.
  intros P J0 q0 fuel e q HJ Hme E He. pose proof (run_facts P J0 q0 fuel HJ Hme) as H. rewrite E in H.
  assert (HI : qinv P J0 (fun _ => 0) q 0 (fun _ => 0)) by (destruct He; subst e; apply H).
  assert (HE : meets_equalities P (x q)) by (intros i Hi; apply (w_res _ _ _ _ _ _ HI i Hi)).
  split; [easy|]. split; [|split; [|split]].
  - intros ->. apply H.
  - intros ->. split; [easy|apply H].
  - rewrite <- (v_fv _ _ _ _ _ (w_core _ _ _ _ _ _ HI)). destruct He; subst e; reflexivity.
  - intros y Hy. eapply optimal_of_inv; eauto.
Qed.
(** Infinity is returned only for problems without a feasible point, again if nothing was observed. *)
Theorem C55_infeasible_partial : forall P J0 q0 fuel q, inverse_factor P J0 -> (q_me P <= q_n P)%nat ->
  solveQP P J0 q0 fuel = Done ExitInfeasible q false -> forall y, ~ feasible P y.
Proof. intros P J0 q0 fuel q HJ Hme E. pose proof (run_facts P J0 q0 fuel HJ Hme) as H. now rewrite E in H. Qed.
Print Assumptions C55_answer_partial.
Print Assumptions C55_infeasible_partial.
(** min 1/2 x^2 subject to 2x + 6 <= 0: the run ends without an observed event at x = -3. *)
Example C55_answer_example : forall q0, inverse_factor (one 2 6) J1 /\ (q_me (one 2 6) <= q_n (one 2 6))%nat /\
  exists q, solveQP (one 2 6) J1 q0 4 = Done ExitTolerance q false /\ x q 0%nat = -3 /\ feasible (one 2 6) (fun _ => -3).
Proof.
  intros. split; [apply one_factor|]. split; [cbn; lia|].
  destruct (one_run_full 2 6 q0 0 ltac:(lra)) as (q & E & X). rewrite eps_val; lra.
  exists q. split; [exact E|]. split; [rewrite X; lra|]. split; intros i Hi; cbn in Hi; [lia|]. unfold ineq_value. cbn [one q_n q_CI q_ci0 rsum]. lra.
Qed.
(** 0 x + 1 <= 0 is declared infeasible without an observed event. *)
Example C55_infeasible_example : forall q0, exists q, solveQP (one 0 1) J1 q0 3 = Done ExitInfeasible q false.
Proof.
  intros. unfold solveQP. destruct (one_start 0 1 q0) as (q & -> & a1 & a2 & a3 & a4 & a5). cbn [Nat.add qrun qstep].
  destruct (one_l1 0 1 q a1 a2 a3) as (q1 & -> & b1 & b2 & b3 & b4 & b5 & b6 & b7 & b8). rewrite eps_val; lra. cbn [qstep orb].
  destruct (one_l2 0 1 q1 b1 b2 b3 ltac:(lra) b4 b5 b6) as (q2 & -> & c1 & c2 & c3 & c4 & c5 & c6 & c7 & c8 & c9). cbn [qstep orb].
  unfold step_l2a. rewrite c1. change (q_n (one 0 1)) with 1%nat. change (q_me (one 0 1)) with 0%nat. cbn [Nat.sub Nat.leb ratio]. cbv zeta.
  set (z := updateZ _ _ _ _).
  assert (Zz : dotn 1 z z = 0).
  { assert (D : z 0%nat = 0). { unfold z, updateZ, computeD. cbn [Nat.sub rsum Nat.add]. match goal with H : np q2 0%nat = _ |- _ => rewrite H end. lra. }
    unfold dotn. cbn [rsum]. rewrite D. lra. }
  rewrite Zz, Rabs_R0. replace (rltb eps 0) with false by (symmetry; apply rltb_f; rewrite eps_val; lra).
  replace (reqb 0 0) with true by (symmetry; now apply reqb_t). cbn [negb orb]. eexists. reflexivity.
Qed.

(** Without the restriction the claims fail.  min 1/2 x^2 subject to 2^-30 x + 2^-30 <= 0 (x = -1 is feasible) is declared infeasible: |z|^2 is
    compared with the machine epsilon. *)
Theorem C55_infeasible_refuted : exists P J0 y, inverse_factor P J0 /\ feasible P y /\
  forall q0, exists q o, solveQP P J0 q0 3 = Done ExitInfeasible q o /\ ret_value ExitInfeasible q = None.
Proof.
  exists (one (/ 2 ^ 30) (/ 2 ^ 30)), J1, (fun _ => -1). split; [apply one_factor|]. split.
  - split; intros i Hi; cbn in Hi; [lia|]. unfold ineq_value. cbn [one q_n q_CI q_ci0 rsum]. lra.
  - intros q0. destruct (one_run_tiny (/ 2 ^ 30) (/ 2 ^ 30) q0 0) as (q & E); [| | |exists q, true; easy].
    + apply Rinv_neq_0_compat. lra.
    + rewrite eps_val. replace (/ 2 ^ 30 * / 2 ^ 30) with (/ 1152921504606846976) by (field_simplify; lra). lra.
    + rewrite eps_val. lra.
Qed.
(** min 1/2 x^2 subject to 2^-27 x + 1 = 0: the answer is x = 0 and it is reported as solved. *)
Theorem C55_equalities_refuted : exists P J0 y, inverse_factor P J0 /\ feasible P y /\
  forall q0, exists q o, solveQP P J0 q0 1 = Done ExitTolerance q o /\ ~ meets_equalities P (x q).
Proof.
  exists (oneq (/ 2 ^ 27)), J1, (fun _ => - 2 ^ 27). split; [apply oneq_factor|]. split.
  - split; intros i Hi; cbn in Hi; [|lia]. unfold eq_residual. cbn [oneq q_n q_CE q_ce0 rsum]. lra.
  - intros q0. destruct (oneq_run (/ 2 ^ 27) q0 0) as (q & E & X).
    + rewrite eps_val. rewrite Rabs_right; lra.
    + rewrite eps_val. lra.
    + exists q, true. split; [exact E|]. intros M. specialize (M 0%nat ltac:(cbn; lia)). unfold eq_residual in M. cbn [oneq q_n q_CE q_ce0 rsum] in M. rewrite X in M. lra.
Qed.
(** Contradictory equalities x0 = 0, x0 + 1 = 0: in a build without assertions optimize() reports success. *)
Definition clash : qp := QP 2 2 0 id2 (fun _ => 0) (fun _ j => if (j =? 0)%nat then 1 else 0) (fun i => if (i =? 0)%nat then 0 else 1) (fun _ _ => 0) (fun _ => 0).
Theorem C55_contradictory_equalities_refuted : inverse_factor clash id2 /\ (forall y, ~ feasible clash y) /\
  forall q0 fuel sr, exists v, optimize clash id2 q0 fuel sr = Some (true, Some v).
Proof.
  split; [|split].
  - destruct (two_factor 0) as [a b]. split; [exact a|exact b].
  - intros y [E _]. pose proof (E 0%nat ltac:(cbn; lia)) as E0. pose proof (E 1%nat ltac:(cbn; lia)) as E1.
    unfold eq_residual in E0, E1. cbn [clash q_n q_CE q_ce0 rsum Nat.eqb] in E0, E1. lra.
  - intros q0 fuel sr. unfold optimize. change (q_n clash =? 0)%nat with false. cbv iota. unfold solveQP. change (q_me clash) with 2%nat. cbn [eq_phase].
    (* first equality *)
    assert (S0 : exists q', eq_step clash 0 (start clash id2 q0) = Next false L1 q' /\ iq q' = 1%nat /\ mJ q' 0%nat 1%nat = 0 /\ mJ q' 1%nat 1%nat = -1 /\ Rn q' = 1).
    { unfold eq_step. change (q_n clash) with 2%nat. change (iq (start clash id2 q0)) with 0%nat. change (mJ (start clash id2 q0)) with id2. change (Rn (start clash id2 q0)) with 1. cbv zeta.
      set (np := row (q_CE clash) 0). set (d := computeD 2 id2 np). set (z := updateZ 2 id2 d 0).
      assert (N0 : np 0%nat = 1) by reflexivity. assert (N1 : np 1%nat = 0) by reflexivity.
      assert (D0 : d 0%nat = 1) by (unfold d, computeD, id2; cbn [rsum Nat.eqb]; rewrite N0, N1; lra).
      assert (D1 : d 1%nat = 0) by (unfold d, computeD, id2; cbn [rsum Nat.eqb]; rewrite N0, N1; lra).
      assert (Z0 : z 0%nat = 1) by (unfold z, updateZ, id2; cbn [Nat.sub rsum Nat.add Nat.eqb]; rewrite D0, D1; lra).
      assert (Z1 : z 1%nat = 0) by (unfold z, updateZ, id2; cbn [Nat.sub rsum Nat.add Nat.eqb]; rewrite D0, D1; lra).
      assert (Zz : dotn 2 z z = 1) by (unfold dotn; cbn [rsum]; rewrite Z0, Z1; lra).
      rewrite Zz. replace (rltb eps (Rabs 1)) with true by (symmetry; apply rltb_t; rewrite Rabs_R1, eps_val; lra). cbn [negb andb].
      unfold addConstraint. change (0 <? 2)%nat with true. change (2 - 1 - 0)%nat with 1%nat. cbn [add_loop]. change (0 + 1)%nat with 1%nat.
      assert (ES : add_step 1 id2 d = (fun k l => if (l =? 0)%nat then rot1 1 0 (id2 k 0%nat) (id2 k 1%nat) else if (l =? 1)%nat then rot2 1 0 (id2 k 0%nat) (id2 k 1%nat) else id2 k l, upd (upd d 1 0) 0 1)).
      { unfold add_step. change (1 - 1)%nat with 0%nat. rewrite D0, D1, distance_l, Rabs_R1. replace (reqb 1 0) with false by (symmetry; apply reqb_f; lra).
        unfold givens. replace (rltb (1 / 1) 0) with false by (symmetry; apply rltb_f; lra). replace (1 / 1) with 1 by lra. replace (0 / 1) with 0 by lra. reflexivity. }
      rewrite ES, upd_same. replace (rleb (Rabs 1) (eps * 1)) with false by (symmetry; apply rleb_f; rewrite Rabs_R1, eps_val; lra).
      fields. eexists. split; [reflexivity|]. fields. cbn [Nat.eqb]. rewrite !rot2_eq by lra. unfold id2. cbn [Nat.eqb].
      repeat split; try lra. rewrite Rabs_R1. apply Rmax_left. lra. }
    destruct S0 as (q1 & -> & I1 & J01 & J11 & R1). cbn [orb].
    assert (S1 : exists o q', eq_step clash 1 q1 = Return o ExitDependent q').
    { unfold eq_step. change (q_n clash) with 2%nat. rewrite I1. cbv zeta. set (z := updateZ _ _ _ 1).
      unfold addConstraint. change (1 <? 2)%nat with true. change (2 - 1 - 1)%nat with 0%nat. cbn [add_loop].
      assert (D1 : computeD 2 (mJ q1) (row (q_CE clash) 1) 1%nat = 0) by (unfold computeD, row; cbn [clash q_CE rsum Nat.eqb]; rewrite J01, J11; lra).
      rewrite D1, Rabs_R0, R1. replace (rleb 0 (eps * 1)) with true by (symmetry; apply rleb_t; rewrite eps_val; lra).
      fields. eexists. eexists. reflexivity. }
    destruct S1 as (o & q2 & ->). cbn [ret_value]. eexists. reflexivity.
Qed.
(** With no variables optimize() answers true and leaves isOptimized() as it was, false at first. *)
Theorem C55_no_variables_refuted : forall P J0 q0 fuel sr, q_n P = 0%nat ->
  optimize P J0 q0 fuel sr = Some (true, sr) /\ (sr = None -> isOptimized sr = false).
Proof. intros. unfold optimize. rewrite H. split; [reflexivity|]. now intros ->. Qed.
(** Otherwise optimize() and isOptimized() agree. *)
Theorem C55_optimize_reports : forall P J0 q0 fuel sr b sr', q_n P <> 0%nat -> optimize P J0 q0 fuel sr = Some (b, sr') -> isOptimized sr' = b.
Proof.
  intros P J0 q0 fuel sr b sr' Hn. unfold optimize. destruct (Nat.eqb_spec (q_n P) 0); [easy|]. destruct (solveQP P J0 q0 fuel); try discriminate.
  intros [= <- <-]. reflexivity.
Qed.
Print Assumptions C55_infeasible_refuted.
Print Assumptions C55_equalities_refuted.
Print Assumptions C55_contradictory_equalities_refuted.
Print Assumptions C55_no_variables_refuted.
Print Assumptions C55_optimize_reports.

(** ** C56: termination and memory safety *)
(** No access outside the storage, if there are at most as many equalities as variables and the run enters no observed branch. *)
Theorem C56_memory_safe_partial : forall P J0 q0 fuel o, inverse_factor P J0 -> (q_me P <= q_n P)%nat ->
  solveQP P J0 q0 fuel = Crash o -> o = true.
Proof. intros P J0 q0 fuel o HJ Hme E. pose proof (run_facts P J0 q0 fuel HJ Hme) as H. now rewrite E in H. Qed.
(** Every run ends, or enters an observed branch. *)
Theorem C56_terminates_partial : forall P J0 q0, inverse_factor P J0 -> (q_me P <= q_n P)%nat ->
  exists fuel, match solveQP P J0 q0 fuel with Running false _ _ => False | _ => True end.
Proof.
  intros P J0 q0 HJ Hme. unfold solveQP.
  pose proof (eq_phase_spec P J0 HJ Hme (q_me P) 0 false (start P J0 q0) (core_start P J0 q0 _ HJ) eq_refl (Nat.add_0_l _)
     (fun k Hk => False_ind _ (Nat.nlt_0_r _ Hk)) (fun _ k Hk => False_ind _ (Nat.nlt_0_r _ Hk))) as H.
  destruct (eq_phase P (q_me P) 0 false (start P J0 q0)) as [o|o e q|o pc q]; [now exists 0%nat|now exists 0%nat|].
  destruct H as (-> & _ & HC & Hi & HA & HIA). destruct o; [now exists 0%nat|].
  apply (stops_l1 P J0 (eq_residual P (x q)) HJ (2 ^ q_mi P) [] q).
  - reflexivity.
  - constructor.
  - easy.
  - exact (qinv_of_core P J0 q HC Hi HA HIA).
  - easy.
Qed.
Print Assumptions C56_memory_safe_partial.
Print Assumptions C56_terminates_partial.
Example C56_example : inverse_factor (two 2) id2 /\ (q_me (two 2) <= q_n (two 2))%nat.
Proof. split; [apply two_factor|cbn; lia]. Qed.
(** min 1/2 |x|^2 subject to 2^60 x0 + 2^60 <= 0, x1 + 1 <= 0, x0 <= 0, solved by (-1,-1): the solver runs for ever. *)
Theorem C56_terminates_refuted : inverse_factor (two 3) id2 /\ feasible (two 3) (fun _ => -1) /\
  forall q0 fuel, exists o pc q, solveQP (two 3) id2 q0 fuel = Running o pc q.
Proof.
  split; [apply two_factor|]. split.
  - split; intros i Hi; cbn [two q_me q_mi] in Hi; [lia|]. unfold ineq_value. cbn [two q_n q_CI q_ci0 rsum]. destruct i as [|[|[|i]]]; try lia; lra.
  - assert (G : forall q0 fuel, exists o pc q, solveQP (two 3) id2 q0 (4 + fuel) = Running o pc q).
    { intros q0 fuel. destruct (two_reach 3 q0 fuel ltac:(lia)) as (q & W & ->). now apply two_loops. }
    intros q0 fuel. destruct (G q0 fuel) as (o & pc & q & E).
    (* a longer run still running means the shorter one is *)
    assert (M : forall f k b pc q, match qrun (two 3) id2 (k + f) b pc q with Running _ _ _ => exists o' pc' q', qrun (two 3) id2 f b pc q = Running o' pc' q' | _ => True end).
    { clear. induction f; intros k b pc q. destruct (qrun (two 3) id2 (k + 0) b pc q); auto. cbn [qrun]. eauto.
      rewrite Nat.add_succ_r. cbn [qrun]. destruct (qstep (two 3) id2 pc q); auto. apply IHf. }
    unfold solveQP in *. destruct (eq_phase (two 3) (q_me (two 3)) 0 false (start (two 3) id2 q0)) as [|?|o1 pc1 q1]; try discriminate.
    specialize (M fuel 4%nat o1 pc1 q1). rewrite E in M. destruct M as (o' & pc' & q' & M). eauto.
Qed.
(** The same problem without the third row: an element outside the active set vector is accessed. *)
Theorem C56_memory_safe_refuted : inverse_factor (two 2) id2 /\ feasible (two 2) (fun _ => -1) /\
  forall q0, exists o, solveQP (two 2) id2 q0 6 = Crash o.
Proof.
  split; [apply two_factor|]. split.
  - split; intros i Hi; cbn [two q_me q_mi] in Hi; [lia|]. unfold ineq_value. cbn [two q_n q_CI q_ci0 rsum]. destruct i as [|[|i]]; try lia; lra.
  - intros q0. destruct (two_reach 2 q0 2 ltac:(lia)) as (q & W & E). exists true. transitivity (qrun (two 2) id2 2 false L2 q); [exact E|]. exact (two_crash 0 false q W).
Qed.
(** More equalities than variables, all of them consistent: column n of R is accessed. *)
Definition many : qp := QP 1 2 0 (fun _ _ => 1) (fun _ => 0) (fun i _ => 1) (fun _ => 0) (fun _ _ => 0) (fun _ => 0).
Theorem C56_too_many_equalities_refuted : feasible many (fun _ => 0) /\ forall q0 fuel, exists o, solveQP many J1 q0 fuel = Crash o.
Proof.
  split.
  - split; intros i Hi; cbn [many q_me q_mi] in Hi; [|lia]. unfold eq_residual. cbn [many q_n q_CE q_ce0 rsum]. lra.
  - intros q0 fuel. unfold solveQP. change (q_me many) with 2%nat. cbn [eq_phase].
    assert (S0 : exists o q', eq_step many 0 (start many J1 q0) = Next o L1 q' /\ iq q' = 1%nat).
    { unfold eq_step. change (q_n many) with 1%nat. change (iq (start many J1 q0)) with 0%nat. change (mJ (start many J1 q0)) with J1. change (Rn (start many J1 q0)) with 1. cbv zeta.
      unfold addConstraint. change (0 <? 1)%nat with true. change (1 - 1 - 0)%nat with 0%nat. cbn [add_loop].
      assert (D : computeD 1 J1 (row (q_CE many) 0) 0%nat = 1) by (unfold computeD, row, J1; cbn [many q_CE rsum]; lra).
      rewrite D. replace (rleb (Rabs 1) (eps * 1)) with false by (symmetry; apply rleb_f; rewrite Rabs_R1, eps_val; lra).
      fields. eexists. eexists. split; reflexivity. }
    destruct S0 as (o & q1 & -> & I1). unfold eq_step at 1. rewrite I1. change (q_n many) with 1%nat. cbv zeta. unfold addConstraint. change (1 <? 1)%nat with false. cbv iota.
    eexists. reflexivity.
Qed.
Print Assumptions C56_terminates_refuted.
Print Assumptions C56_memory_safe_refuted.
Print Assumptions C56_too_many_equalities_refuted.

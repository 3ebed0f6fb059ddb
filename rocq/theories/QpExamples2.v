(** * A well posed problem on which the solver does not terminate *)
From Coq Require Import Reals List Arith ZArith Bool Lia Lra Psatz FunctionalExtensionality.
Import ListNotations.
From Verif Require Import Base BaseProofs QpModel QpSpec QpProofs QpExamples.
Local Open Scope R_scope.

(** min 1/2 (x0^2 + x1^2) subject to  K x0 + K <= 0,  x1 + 1 <= 0  and (m = 3)  x0 <= 0, with K = 2^60. *)
Definition K : R := 1152921504606846976.
Definition id2 : qmat := fun i j => if (i =? j)%nat then 1 else 0.
Definition two (m : nat) : qp :=
  QP 2 0 m id2 (fun _ => 0) (fun _ _ => 0) (fun _ => 0)
     (fun i j => match i, j with O, O => K | 1%nat, 1%nat => 1 | 2%nat, O => 1 | _, _ => 0 end) (fun i => match i with O => K | 1%nat => 1 | _ => 0 end).
Lemma two_factor : forall m, inverse_factor (two m) id2.
Proof.
  intros. split; intros; cbn [two q_n q_H] in *.
  - unfold id2. now rewrite Nat.eqb_sym.
  - destruct i as [|[|i]]; [| |lia]; destruct j as [|[|j]]; try lia; unfold id2; cbn [rsum Nat.eqb]; lra.
Qed.
Ltac num := unfold K in *; rewrite ?eps_val; lra.
Definition diag (J : qmat) (a b : R) : Prop := J 0%nat 0%nat = a /\ J 0%nat 1%nat = 0 /\ J 1%nat 0%nat = 0 /\ J 1%nat 1%nat = b.

(** Slacks *)
Lemma two_s0 : forall m v, slack (two m) v 0 = - (K * v 0%nat + K).
Proof. intros. unfold slack, dotn, row. cbn [two q_n q_CI q_ci0 rsum]. lra. Qed.
Lemma two_s1 : forall m v, slack (two m) v 1 = - (v 1%nat + 1).
Proof. intros. unfold slack, dotn, row. cbn [two q_n q_CI q_ci0 rsum]. lra. Qed.
Lemma two_s2 : forall m v, slack (two m) v 2 = - v 0%nat.
Proof. intros. unfold slack, dotn, row. cbn [two q_n q_CI q_ci0 rsum]. lra. Qed.
Lemma two_tol : forall m, (m <= 3)%nat -> INR m * eps * trace 2 id2 * trace 2 id2 * 100 < 1.
Proof. intros. unfold trace, id2. cbn [rsum Nat.eqb]. assert (INR m <= 3) by (replace 3 with (INR 3) by (cbn; lra); now apply le_INR). rewrite eps_val. lra. Qed.


(** l2 picks row 0 first. *)
Lemma two_l2_first : forall m q, (m = 2 \/ m = 3)%nat -> iq q = 0%nat -> ss q = 0 -> s q 0%nat = - K -> s q 1%nat = -1 -> (m = 3%nat -> s q 2%nat = 0) ->
  (forall i, (i < m)%nat -> iaexcl q i = true) -> (forall i, (i < m)%nat -> iai q i = Z.of_nat i) ->
  exists q', step_l2 (two m) q = Next false L2a q' /\ iq q' = 0%nat /\ x q' = x q /\ mJ q' = mJ q /\ mR q' = mR q /\ Rn q' = Rn q /\ ip q' = 0%nat /\ s q' 0%nat = - K
   /\ np q' 0%nat = - K /\ np q' 1%nat = 0 /\ A q' 0%nat = 0%Z /\ u q' 0%nat = 0 /\ iai q' = iai q.
Proof.
  intros m q Hm Hi Hss S0 S1 S2 HE HI. unfold step_l2. change (q_me (two m)) with 0%nat. change (q_mi (two m)) with m.
  assert (EP : pick m 0 (s q) (iai q) (iaexcl q) (ss q) (ip q) = (- K, 0%nat)).
  { assert (G : forall c i, (0 < i)%nat -> (i + c = m)%nat -> pick c i (s q) (iai q) (iaexcl q) (- K) 0 = (- K, 0%nat)).
    { induction c; intros i H0 H1; cbn [pick]; [easy|]. replace (rltb (s q i) (- K)) with false; [cbn [andb]; apply IHc; lia|].
      symmetry. apply rltb_f. destruct i as [|[|[|i]]]; [lia| | |lia]. rewrite S1. num. rewrite S2 by lia. num. }
    destruct m as [|m]; [lia|]. cbn [pick]. rewrite S0, Hss, HE, HI by lia. replace (rltb (- K) 0) with true by (symmetry; apply rltb_t; num).
    cbn [Z.of_nat Z.eqb negb andb]. apply G; lia. }
  rewrite EP. replace (rleb 0 (- K)) with false by (symmetry; apply rleb_f; num). rewrite Hi. replace (0 <? 0 + m)%nat with true by (destruct Hm; subst m; reflexivity).
  eexists. split; [reflexivity|]. fields. repeat split; auto.
  cbn [vopp row two q_CI]. unfold vopp. lra.
Qed.
(** The full step for row 0. *)
Lemma two_l2a_first : forall m q, (m = 2 \/ m = 3)%nat -> iq q = 0%nat -> x q 0%nat = 0 -> x q 1%nat = 0 -> diag (mJ q) 1 1 -> Rn q = 1 -> ip q = 0%nat -> s q 0%nat = - K ->
  np q 0%nat = - K -> np q 1%nat = 0 -> A q 0%nat = 0%Z -> (forall i, (i < m)%nat -> iai q i = Z.of_nat i) ->
  exists q', step_l2a (two m) q = Next false L1 q' /\ iq q' = 1%nat /\ x q' 0%nat = -1 /\ x q' 1%nat = 0 /\ diag (mJ q') 1 (-1) /\ mR q' 0%nat 0%nat = - K /\ Rn q' = K /\ A q' 0%nat = 0%Z
   /\ (forall i, (0 < i < m)%nat -> iai q' i = Z.of_nat i).
Proof.
  intros m q Hm Hi X0 X1 (J00 & J01 & J10 & J11) HR Hip S0 N0 N1 HA HI. unfold step_l2a. rewrite Hi. change (q_n (two m)) with 2%nat. change (q_me (two m)) with 0%nat. change (q_mi (two m)) with m.
  cbn [Nat.sub Nat.leb ratio]. cbv zeta.
  set (d := computeD 2 (mJ q) (np q)). set (z := updateZ 2 (mJ q) d 0).
  assert (D0 : d 0%nat = - K) by (unfold d, computeD; cbn [rsum]; rewrite J00, J10, N0, N1; lra).
  assert (D1 : d 1%nat = 0) by (unfold d, computeD; cbn [rsum]; rewrite J01, J11, N0, N1; lra).
  assert (Z0 : z 0%nat = - K) by (unfold z, updateZ; cbn [Nat.sub rsum Nat.add]; rewrite J00, J01, D0, D1; lra).
  assert (Z1 : z 1%nat = 0) by (unfold z, updateZ; cbn [Nat.sub rsum Nat.add]; rewrite J10, J11, D0, D1; lra).
  assert (Zz : dotn 2 z z = K * K) by (unfold dotn; cbn [rsum]; rewrite Z0, Z1; lra).
  assert (Zn : dotn 2 z (np q) = K * K) by (unfold dotn; cbn [rsum]; rewrite Z0, Z1, N0, N1; lra).
  rewrite Zz, Zn, Hip, S0.
  replace (rltb eps (Rabs (K * K))) with true by (symmetry; apply rltb_t; rewrite Rabs_right by num; num).
  replace (reqb (- - K / (K * K)) (- - K / (K * K))) with true by (symmetry; apply reqb_t; easy).
  assert (ES : add_step 1 (mJ q) d = (fun k l => if (l =? 0)%nat then rot1 1 0 (mJ q k 0%nat) (mJ q k 1%nat) else if (l =? 1)%nat then rot2 1 0 (mJ q k 0%nat) (mJ q k 1%nat) else mJ q k l, upd (upd d 1 0) 0 (- K))).
  { unfold add_step. cbn [Nat.sub]. rewrite D0, D1, distance_l, Rabs_neg by num. rewrite Ropp_involutive.
    replace (reqb K 0) with false by (symmetry; apply reqb_f; unfold K; lra). unfold givens.
    replace (rltb (- K / K) 0) with true. 2:{ symmetry. apply rltb_t. replace (- K / K) with (-1) by (field; unfold K; lra). lra. }
    replace (- (- K / K)) with 1 by (field; unfold K; lra). replace (- (0 / K)) with 0 by (field; unfold K; lra). reflexivity. }
  unfold addConstraint. cbn [Nat.ltb Nat.leb Nat.sub add_loop]. change (0 + 1)%nat with 1%nat. rewrite ES.
  set (J' := fun k l => if (l =? 0)%nat then _ else _).
  replace (rleb (Rabs (upd (upd d 1 0) 0 (- K) 0%nat)) (eps * Rn q)) with false. 2:{ symmetry. apply rleb_f. rewrite upd_same, HR, Rabs_neg by num. num. }
  fields. eexists. split; [reflexivity|]. fields.
  assert (DJ : diag J' 1 (-1)).
  { unfold diag, J'. cbn [Nat.eqb]. rewrite !rot2_eq by lra. unfold rot1. rewrite J00, J01, J10, J11. repeat split; lra. }
  repeat split; auto; try apply DJ.
  - unfold axpy. rewrite X0, Z0. field. unfold K; lra.
  - unfold axpy. rewrite X1, Z1. lra.
  - rewrite HR. rewrite upd_same, Rabs_neg by num. rewrite Rmax_right; num.
  - intros i Hi3. rewrite upd_other by lia. apply HI. lia.
Qed.
(** l2 picks row 1, both the first time (ss = 0, after l1) and after a rollback (ss = -1, ip = 1). *)
Definition waiting (m : nat) (q : qst) : Prop :=
  iq q = 1%nat /\ s q 0%nat = 0 /\ s q 1%nat = -1 /\ (m = 3%nat -> s q 2%nat = 1) /\ diag (mJ q) 1 (-1) /\ mR q 0%nat 0%nat = - K /\ Rn q = K /\ A q 0%nat = 0%Z /\ A_old q 0%nat = 0%Z /\
  (forall i, (i < m)%nat -> iai q i = if (i =? 0)%nat then (-1)%Z else Z.of_nat i) /\
  ((ss q = 0 /\ iaexcl q 1%nat = true) \/ (ss q = -1 /\ ip q = 1%nat)).
Definition trying (m : nat) (q : qst) : Prop :=
  iq q = 1%nat /\ s q 0%nat = 0 /\ s q 1%nat = -1 /\ (m = 3%nat -> s q 2%nat = 1) /\ diag (mJ q) 1 (-1) /\ mR q 0%nat 0%nat = - K /\ Rn q = K /\ A q 0%nat = 0%Z /\ A q 1%nat = 1%Z /\ A_old q 0%nat = 0%Z /\
  (forall i, (i < m)%nat -> iai q i = if (i =? 0)%nat then (-1)%Z else Z.of_nat i) /\ ss q = -1 /\ ip q = 1%nat /\ np q 0%nat = 0 /\ np q 1%nat = -1.
Lemma two_l2_wait : forall m q, (m = 2 \/ m = 3)%nat -> waiting m q -> exists q', step_l2 (two m) q = Next false L2a q' /\ trying m q'.
Proof.
  intros m q Hm (Hi & S0 & S1 & S2 & HJ & HR & HRn & HA & HAo & HI & HD). unfold step_l2. change (q_me (two m)) with 0%nat. change (q_mi (two m)) with m.
  assert (EP : pick m 0 (s q) (iai q) (iaexcl q) (ss q) (ip q) = (-1, 1%nat)).
  { assert (T : pick (m - 2) 2 (s q) (iai q) (iaexcl q) (-1) 1 = (-1, 1%nat)).
    { destruct Hm; subst m; cbn [Nat.sub pick]; [easy|]. rewrite S2 by easy. replace (rltb 1 (-1)) with false by (symmetry; apply rltb_f; lra). reflexivity. }
    destruct m as [|[|m]]; try lia. cbn [pick]. rewrite S0, S1, !HI by lia. cbn [Nat.eqb Z.eqb negb]. rewrite !andb_false_r. cbn [andb].
    change (Datatypes.S (Datatypes.S m) - 2)%nat with (m - 0)%nat in T. rewrite Nat.sub_0_r in T.
    destruct HD as [[E1 E2]|[E1 E2]].
    - rewrite E1, E2. replace (rltb (-1) 0) with true by (symmetry; apply rltb_t; lra). cbn [Z.of_nat Pos.of_succ_nat Z.eqb negb andb]. exact T.
    - rewrite E1, E2. replace (rltb (-1) (-1)) with false by (symmetry; apply rltb_f; lra). cbn [andb]. exact T. }
  rewrite EP. replace (rleb 0 (-1)) with false by (symmetry; apply rleb_f; lra). rewrite Hi. replace (1 <? 0 + m)%nat with true by (destruct Hm; subst m; reflexivity).
  eexists. split; [reflexivity|]. unfold trying. fields. repeat split; auto; try apply HJ.
  unfold vopp, row. cbn [two q_CI]. lra.
Qed.
(** The attempt fails: 1 <= eps * K.  With two rows A(2) is read outside A, with three everything is put back. *)
Lemma two_attempt : forall m q, (m = 2 \/ m = 3)%nat -> trying m q ->
  if (m =? 2)%nat then step_l2a (two m) q = Bad true else exists q', step_l2a (two m) q = Next true L2 q' /\ waiting m q'.
Proof.
  intros m q Hm (Hi & S0 & S1 & S2 & (J00 & J01 & J10 & J11) & HR & HRn & HA & HA1 & HAo & HI & Hss & Hip & N0 & N1).
  unfold step_l2a. rewrite Hi. change (q_n (two m)) with 2%nat. change (q_me (two m)) with 0%nat. change (q_mi (two m)) with m.
  cbn [Nat.sub Nat.leb]. cbv zeta.
  set (d := computeD 2 (mJ q) (np q)). set (z := updateZ 2 (mJ q) d 1). set (r := updateR (mR q) d 1).
  assert (D0 : d 0%nat = 0) by (unfold d, computeD; cbn [rsum]; rewrite J00, J10, N0, N1; lra).
  assert (D1 : d 1%nat = 1) by (unfold d, computeD; cbn [rsum]; rewrite J01, J11, N0, N1; lra).
  assert (Z0 : z 0%nat = 0) by (unfold z, updateZ; cbn [Nat.sub rsum Nat.add]; rewrite J01, D1; lra).
  assert (Z1 : z 1%nat = -1) by (unfold z, updateZ; cbn [Nat.sub rsum Nat.add]; rewrite J11, D1; lra).
  assert (Zz : dotn 2 z z = 1) by (unfold dotn; cbn [rsum]; rewrite Z0, Z1; lra).
  assert (Zn : dotn 2 z (np q) = 1) by (unfold dotn; cbn [rsum]; rewrite Z0, Z1, N0, N1; lra).
  assert (R0 : r 0%nat = 0).
  { unfold r, updateR, backsub. cbn [Nat.sub]. rewrite upd_same. cbn [rsum Nat.ltb Nat.leb]. rewrite D0, HR. field. unfold K; lra. }
  cbn [ratio]. rewrite R0. replace (rltb 0 0) with false by (symmetry; apply rltb_f; lra). cbn [andb].
  rewrite Zz, Zn, Hip, S1.
  replace (rltb eps (Rabs 1)) with true by (symmetry; apply rltb_t; rewrite Rabs_R1; num).
  replace (reqb (- -1 / 1) (- -1 / 1)) with true by (symmetry; apply reqb_t; easy).
  unfold addConstraint. cbn [Nat.ltb Nat.leb Nat.sub add_loop]. rewrite HRn.
  replace (rleb (Rabs (d 1%nat)) (eps * K)) with true by (symmetry; apply rleb_t; rewrite D1, Rabs_R1; num). fields.
  unfold deleteConstraint. destruct Hm; subst m; cbn [Nat.eqb]; [reflexivity|].
  cbn [Nat.add Nat.leb Nat.ltb andb Nat.sub find_active]. change (1 + 1)%nat with 2%nat. cbn [Nat.sub find_active]. rewrite HA, HA1. cbn [Z.of_nat Z.eqb Pos.of_succ_nat Pos.eqb]. cbn [Nat.sub del_loop]. fields.
  unfold rollback_iai. cbn [mark_active]. rewrite HAo. cbn [Nat.add Z.leb Z.ltb Z.of_nat Pos.of_succ_nat Pos.succ Z.compare andb Z.to_nat].
  eexists. split; [reflexivity|]. unfold waiting. fields. repeat split; auto.
  intros i Hi3. destruct i as [|i]; [now rewrite upd_same|]. rewrite upd_other by lia. cbn [Nat.eqb]. destruct (Nat.ltb_spec (Datatypes.S i) 3); [easy|lia].
Qed.

Lemma two_reach : forall m q0 fuel, (m = 2 \/ m = 3)%nat -> exists q, waiting m q /\ solveQP (two m) id2 q0 (4 + fuel) = qrun (two m) id2 fuel false L2 q.
Proof.
  intros m q0 fuel Hm. unfold solveQP. change (q_me (two m)) with 0%nat. cbn [eq_phase].
  set (q := QS _ _ _ _ _ _ _ _ _ _ _ _ _ _ _ _ _).
  assert (X0 : x q 0%nat = 0 /\ x q 1%nat = 0).
  { unfold q, start, computeD, id2. fields. cbn [two q_n q_g rsum Nat.eqb]. lra. }
  assert (HJ : mJ q = id2) by reflexivity. assert (HR : Rn q = 1) by reflexivity. assert (Hi : iq q = 0%nat) by reflexivity.
  assert (HI : forall i, (i < m)%nat -> iai q i = Z.of_nat i).
  { intros i Hi'. unfold q. fields. change (q_mi (two m)) with m. destruct (Nat.ltb_spec i m); [easy|lia]. }
  clearbody q. destruct X0 as [X0 X1]. cbn [Nat.add qrun qstep].
  assert (HI3 : m = 3%nat \/ m = 2%nat) by lia.
  assert (L : exists q', step_l1 (two m) id2 q = Next false L2 q' /\ iq q' = 0%nat /\ x q' = x q /\ mJ q' = id2 /\ Rn q' = 1 /\ ss q' = 0 /\ s q' 0%nat = - K /\ s q' 1%nat = -1 /\ (m = 3%nat -> s q' 2%nat = 0) /\
     (forall i, (i < m)%nat -> iaexcl q' i = true) /\ (forall i, (i < m)%nat -> iai q' i = Z.of_nat i)).
  { unfold step_l1. rewrite Hi. change (q_me (two m)) with 0%nat. change (q_mi (two m)) with m. change (q_n (two m)) with 2%nat. change (q_H (two m)) with id2. cbn [Nat.sub mark_active]. cbv zeta.
    set (sv := fun i => if (i <? m)%nat then slack (two m) (x q) i else s q i).
    assert (S0 : sv 0%nat = - K) by (unfold sv; destruct (Nat.ltb_spec 0 m); [|lia]; rewrite two_s0, X0; lra).
    assert (S1 : sv 1%nat = -1) by (unfold sv; destruct (Nat.ltb_spec 1 m); [|lia]; rewrite two_s1, X1; lra).
    assert (S2 : m = 3%nat -> sv 2%nat = 0) by (intros ->; unfold sv; cbn [Nat.ltb Nat.leb]; rewrite two_s2, X0; lra).
    assert (P : rsum m (fun i => Rmin 0 (sv i)) <= -1).
    { assert (Rmin 0 (sv 0%nat) <= 0) by apply Rmin_l. assert (Rmin 0 (sv 1%nat) = -1) by (rewrite S1; rewrite Rmin_right; lra).
      assert (Rmin 0 (sv 2%nat) <= 0) by apply Rmin_l. destruct Hm; subst m; cbn [rsum]; lra. }
    match goal with |- context [rleb (Rabs ?p) ?t] => replace (rleb (Rabs p) t) with false end.
    2:{ symmetry. apply rleb_f. pose proof (two_tol m ltac:(lia)). unfold sv in P. rewrite Rabs_neg by lra. lra. }
    eexists. split; [reflexivity|]. fields. repeat split; auto. intros i Hi3. destruct (Nat.ltb_spec i m); [easy|lia]. }
  destruct L as (q1 & -> & a1 & a2 & a3 & a4 & a5 & a6 & a7 & a8 & a9 & a10). cbn [qstep orb].
  destruct (two_l2_first m q1 Hm a1 a5 a6 a7 a8 a9 a10) as (q2 & -> & b1 & b2 & b3 & b4 & b5 & b6 & b7 & b8 & b9 & b10 & b11 & b12). cbn [qstep orb].
  destruct (two_l2a_first m q2 Hm) as (q3 & -> & c1 & c2 & c3 & c4 & c5 & c6 & c7 & c8); auto; try congruence.
  { rewrite b3, a3. unfold diag, id2. cbn [Nat.eqb]. repeat split; lra. }
  { intros i Hi'. rewrite b12. now apply a10. } cbn [qstep orb].
  assert (L : exists q', step_l1 (two m) id2 q3 = Next false L2 q' /\ waiting m q').
  { unfold step_l1. rewrite c1. change (q_me (two m)) with 0%nat. change (q_mi (two m)) with m. change (q_n (two m)) with 2%nat. change (q_H (two m)) with id2. cbn [Nat.sub mark_active]. rewrite c7.
    replace ((0 <=? 0)%Z && (0 <? Z.of_nat (0 + m))%Z) with true by (destruct Hm; subst m; reflexivity). cbv zeta.
    set (sv := fun i => if (i <? m)%nat then slack (two m) (x q3) i else s q3 i).
    assert (S0 : sv 0%nat = 0) by (unfold sv; destruct (Nat.ltb_spec 0 m); [|lia]; rewrite two_s0, c2; lra).
    assert (S1 : sv 1%nat = -1) by (unfold sv; destruct (Nat.ltb_spec 1 m); [|lia]; rewrite two_s1, c3; lra).
    assert (S2 : m = 3%nat -> sv 2%nat = 1) by (intros ->; unfold sv; cbn [Nat.ltb Nat.leb]; rewrite two_s2, c2; lra).
    assert (P : rsum m (fun i => Rmin 0 (sv i)) <= -1).
    { assert (Rmin 0 (sv 0%nat) <= 0) by apply Rmin_l. assert (Rmin 0 (sv 1%nat) = -1) by (rewrite S1; rewrite Rmin_right; lra).
      assert (Rmin 0 (sv 2%nat) <= 0) by apply Rmin_l. destruct Hm; subst m; cbn [rsum]; lra. }
    match goal with |- context [rleb (Rabs ?p) ?t] => replace (rleb (Rabs p) t) with false end.
    2:{ symmetry. apply rleb_f. pose proof (two_tol m ltac:(lia)). unfold sv in P. rewrite Rabs_neg by lra. lra. }
    eexists. split; [reflexivity|]. unfold waiting. fields. repeat split; auto; try apply c4.
    - intros i Hi3. cbn [Z.to_nat]. destruct i as [|i]; [now rewrite upd_same|]. rewrite upd_other by lia. cbn [Nat.eqb]. apply c8. lia.
    - left. split; [easy|]. destruct (Nat.ltb_spec 1 m); [easy|lia]. }
  destruct L as (q4 & -> & W). exists q4. split; [exact W|]. reflexivity.
Qed.
(** Three rows: never ends. *)
Lemma two_loops : forall fuel b q, waiting 3 q -> exists b' pc q', qrun (two 3) id2 fuel b L2 q = Running b' pc q'.
Proof.
  assert (G : forall fuel b q, (waiting 3 q -> exists b' pc q', qrun (two 3) id2 fuel b L2 q = Running b' pc q') /\ (trying 3 q -> exists b' pc q', qrun (two 3) id2 fuel b L2a q = Running b' pc q')).
  { induction fuel; intros b q; split; intros W; cbn [qrun qstep]; eauto.
    - destruct (two_l2_wait 3 q ltac:(lia) W) as (q1 & -> & T). now apply IHfuel.
    - destruct (two_attempt 3 q ltac:(lia) W) as (q1 & -> & T). now apply IHfuel. }
  intros. now apply G.
Qed.
Lemma two_crash : forall fuel b q, waiting 2 q -> qrun (two 2) id2 (2 + fuel) b L2 q = Crash true.
Proof.
  intros fuel b q W. cbn [Nat.add qrun qstep]. destruct (two_l2_wait 2 q ltac:(lia) W) as (q1 & -> & T). cbn [qstep].
  rewrite (two_attempt 2 q1 ltac:(lia) T). f_equal. apply orb_true_r.
Qed.

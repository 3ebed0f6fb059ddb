(** * Checks of a solution of the real-time QP interface (C97) *)
From Coq Require Import Reals List Arith Bool Lia Lra.
Import ListNotations.
From Verif Require Import Base BaseProofs RtqModel RtqSpec.
Local Open Scope R_scope.

Lemma sqsum_nonneg l : 0 <= sqsum l.
Proof. induction l as [|a l IH]; [cbn; lra|]. change (sqsum (a :: l)) with (a * a + sqsum l). nra. Qed.
Lemma sqsum_entry l a : In a l -> a * a <= sqsum l.
Proof. induction l as [|b l IH]; intros I; [contradiction|]. change (sqsum (b :: l)) with (b * b + sqsum l). pose proof (sqsum_nonneg l). destruct I as [->|I]; [lra|]. specialize (IH I). nra. Qed.
Lemma sqsum_zero l : (forall a, In a l -> a = 0) -> sqsum l = 0.
Proof. induction l as [|b l IH]; intros H; [reflexivity|]. cbn. fold (sqsum l). rewrite IH by (intros; apply H; now right). rewrite (H b) by now left. ring. Qed.
Lemma norm_entry l a t : In a l -> sqrt (sqsum l) <= t -> Rabs a <= t.
Proof.
  intros I L. apply Rle_trans with (sqrt (sqsum l)); [|exact L]. rewrite <- sqrt_Rsqr_abs. apply sqrt_le_1_alt. unfold Rsqr. now apply sqsum_entry.
Qed.
Lemma positive_part_spec d : positive_part d = Rmax 0 d.
Proof. unfold positive_part. destruct (Rle_dec d 0); [rewrite Rmax_left by lra; ring|rewrite Rmax_right by lra; ring]. Qed.

(** ** checkSolution *)
(** What is accepted violates no equality by more than the first threshold and no inequality by more than the second; feasible points are accepted. *)
Theorem C97_check : forall n eqs ineqs x te ti, 0 <= te -> 0 <= ti ->
  (checkSolution n eqs ineqs x te ti = true -> (forall r, In r eqs -> Rabs (lin n r x) <= te) /\ (forall r, In r ineqs -> lin n r x <= ti)) /\
  (feasible n eqs ineqs x -> checkSolution n eqs ineqs x te ti = true).
Proof.
  intros n eqs ineqs x te ti He Hi. unfold checkSolution. split.
  - destruct (Rle_dec _ te) as [A|]; [|discriminate]. destruct (Rle_dec _ ti) as [B|]; [|discriminate]. intros _. split.
    + intros r I. apply (norm_entry (map (row_value n x) eqs)); [|exact A]. apply (in_map (row_value n x)), I.
    + intros r I. set (f := fun r => positive_part (row_value n x r)) in B. assert (E : Rabs (f r) <= ti) by (apply (norm_entry (map f ineqs)); [apply in_map, I|exact B]). unfold f in E. rewrite positive_part_spec in E.
      change (lin n r x) with (row_value n x r). pose proof (Rle_abs (Rmax 0 (row_value n x r))). pose proof (Rmax_r 0 (row_value n x r)). lra.
  - intros [F1 F2]. rewrite !sqsum_zero; [rewrite sqrt_0; destruct (Rle_dec 0 te); [|lra]; destruct (Rle_dec 0 ti); [reflexivity|lra]| |].
    + intros a I. apply in_map_iff in I as (r & <- & I). rewrite positive_part_spec. apply Rmax_left, F2, I.
    + intros a I. apply in_map_iff in I as (r & <- & I). apply F1, I.
Qed.
(** With thresholds zero exactly the feasible points are accepted; with a negative threshold none. *)
Theorem C97_check_exact : forall n eqs ineqs x, checkSolution n eqs ineqs x 0 0 = true <-> feasible n eqs ineqs x.
Proof.
  intros n eqs ineqs x. destruct (C97_check n eqs ineqs x 0 0 (Rle_refl 0) (Rle_refl 0)) as [A B]. split; [|exact B]. intros E. destruct (A E) as [A1 A2]. split; [|exact A2].
  intros r I. specialize (A1 r I). pose proof (Rabs_pos (lin n r x)). destruct (Req_dec (lin n r x) 0) as [|N]; [assumption|]. apply Rabs_pos_lt in N. lra.
Qed.
Theorem C97_check_negative : forall n eqs ineqs x te ti, te < 0 \/ ti < 0 -> checkSolution n eqs ineqs x te ti = false.
Proof.
  intros n eqs ineqs x te ti N. unfold checkSolution. apply andb_false_iff.
  destruct N as [N|N]; [left|right]; match goal with |- (if Rle_dec (sqrt ?a) _ then _ else _) = _ => pose proof (sqrt_pos a) end; destruct (Rle_dec _ _); [lra|reflexivity|lra|reflexivity].
Qed.

(** ** computeOptimalityCondition *)
Lemma combination_spec : forall rows c i, combination rows c i = fold_right Rplus 0 (map (fun p => snd p * fst p i) (combine rows c)).
Proof. induction rows as [|r rows IH]; intros [|k c] i; try reflexivity. cbn [combination combine map fold_right fst snd]. now rewrite IH. Qed.
Lemma combine_map_fst (rows : list ((nat -> R) * R)) : forall (c : list R) i, map (fun p => snd p * fst p i) (combine (map fst rows) c) = map (fun p => snd p * fst (fst p) i) (combine rows c).
Proof. induction rows as [|r rows IH]; intros [|k c] i; try reflexivity. cbn [map combine fst snd]. now rewrite IH. Qed.
Section Opt.
  Variables (n : nat) (H : nat -> nat -> R) (g : nat -> R) (eqs ineqs : list ((nat -> R) * R)) (lsq : list (nat -> R) -> (nat -> R) -> list R).
  Let opt := computeOptimalityCondition n H g eqs ineqs lsq.
  (** The inequalities that count as active: within 1e-8 of their bound or violated. *)
  Definition near (x : nat -> R) (r : (nat -> R) * R) : bool := if Rlt_dec (- / 100000000) (lin n r x) then true else false.
  Let active (x : nat -> R) := eqs ++ filter (near x) ineqs.
  Lemma jacobian_rows x : jacobian n eqs ineqs x = map fst (active x).
  Proof. unfold jacobian, active. rewrite map_app. reflexivity. Qed.
  Lemma rest_nonneg x : 0 <= gradient_rest n H g eqs ineqs lsq x.
  Proof. unfold gradient_rest. destruct (jacobian n eqs ineqs x); apply rsum_nonneg; intros i Hi; apply Rle_0_sqr. Qed.
  Lemma opt_zero x : opt x = 0 <-> gradient_rest n H g eqs ineqs lsq x = 0 /\ feasible n eqs ineqs x.
  Proof.
    unfold opt, computeOptimalityCondition. pose proof (rest_nonneg x) as G. set (A := sqsum _). set (B := sqsum _). assert (0 <= A) by apply sqsum_nonneg. assert (0 <= B) by apply sqsum_nonneg. split.
    - intros E. apply sqrt_eq_0 in E; [|lra]. assert (A = 0) by lra. assert (B = 0) by lra. split; [lra|]. split.
      + intros r I. pose proof (sqsum_entry (map (row_value n x) eqs) _ (in_map (row_value n x) _ _ I)) as Q. fold B in Q. change (lin n r x) with (row_value n x r). apply Rsqr_0_uniq. unfold Rsqr. pose proof (Rle_0_sqr (row_value n x r)) as W. unfold Rsqr in W. lra.
      + intros r I. pose proof (sqsum_entry _ _ (in_map (fun r => Rmax 0 (row_value n x r)) _ _ I)) as Q. fold A in Q. change (lin n r x) with (row_value n x r). pose proof (Rmax_l 0 (row_value n x r)). pose proof (Rmax_r 0 (row_value n x r)). cbv beta in Q. assert (Rmax 0 (row_value n x r) = 0) by (apply Rsqr_0_uniq; unfold Rsqr; pose proof (Rle_0_sqr (Rmax 0 (row_value n x r))) as W; unfold Rsqr in W; lra). lra.
    - intros [E [F1 F2]]. rewrite E. assert (A = 0) as ->. { apply sqsum_zero. intros a I. apply in_map_iff in I as (r & <- & I). apply Rmax_left, F2, I. }
      assert (B = 0) as ->. { apply sqsum_zero. intros a I. apply in_map_iff in I as (r & <- & I). apply F1, I. } rewrite !Rplus_0_r. apply sqrt_0.
  Qed.
  (** It is zero exactly at the feasible points where the gradient is a combination of the rows of the equalities and of the nearly active inequalities, if the linear solver is a least squares solver. *)
  Theorem C97_zero : forall x, least_squares n (map fst (active x)) (fun i => rsum n (fun j => H i j * x j) + g i) (lsq (map fst (active x)) (fun i => rsum n (fun j => H i j * x j) + g i)) ->
    (opt x = 0 <-> feasible n eqs ineqs x /\ exists c, spanned n H g x (active x) c).
  Proof.
    intros x [LL LS]. rewrite opt_zero. unfold gradient_rest. rewrite jacobian_rows. change (gradient n H g x) with (fun i => rsum n (fun j => H i j * x j) + g i). set (b := fun i => rsum n (fun j => H i j * x j) + g i) in *.
    set (J := map fst (active x)) in *. assert (LJ : length J = length (active x)) by (unfold J; apply map_length).
    assert (SP : forall c, length c = length J -> ((forall i, (i < n)%nat -> b i = fold_right Rplus 0 (map (fun p => snd p * fst p i) (combine J c))) <-> spanned n H g x (active x) c)).
    { intros c Lc. unfold spanned. split.
      - intros E. split; [congruence|]. intros i Hi. change (rsum n (fun j => H i j * x j) + g i) with (b i). rewrite (E i Hi). unfold J. now rewrite combine_map_fst.
      - intros [_ E] i Hi. unfold J. rewrite combine_map_fst. exact (E i Hi). }
    assert (Z : (match J with [] => rsum n (fun i => b i * b i) | _ => rsum n (fun i => (combination J (lsq J b) i - b i) * (combination J (lsq J b) i - b i)) end) = rsum n (fun i => (combination J (lsq J b) i - b i) * (combination J (lsq J b) i - b i))).
    { destruct J as [|r J']; [|reflexivity]. apply rsum_ext. intros i _. cbn [combination]. ring. }
    assert (Z' : (match J with [] => rsum n (fun i => b i * b i) | _ :: _ => rsum n (fun i => (combination J (lsq J b) i - b i) * (combination J (lsq J b) i - b i)) end) = 0 <-> exists c, spanned n H g x (active x) c).
    { rewrite Z. split.
      - intros E. exists (lsq J b). apply SP; [exact LL|]. intros i Hi. pose proof (rsum_sq_zero n (fun i => combination J (lsq J b) i - b i) E i Hi) as Q. cbv beta in Q. rewrite combination_spec in Q. lra.
      - intros (c & Hc). assert (Lc : length c = length J) by (destruct Hc; congruence). assert (LS' : rsum n (fun i => (fold_right Rplus 0 (map (fun p => snd p * fst p i) (combine J (lsq J b))) - b i) ^ 2) <= rsum n (fun i => (fold_right Rplus 0 (map (fun p => snd p * fst p i) (combine J c)) - b i) ^ 2)) by exact (LS c Lc). clear LS. rename LS' into LS. pose proof (proj2 (SP c Lc) Hc) as Hb.
        rewrite (rsum_zero n (fun i => (fold_right Rplus 0 (map (fun p => snd p * fst p i) (combine J c)) - b i) ^ 2)) in LS by (intros i Hi; rewrite <- (Hb i Hi); ring).
        assert (P : 0 <= rsum n (fun i => (combination J (lsq J b) i - b i) * (combination J (lsq J b) i - b i))) by (apply rsum_nonneg; intros; apply Rle_0_sqr).
        rewrite (rsum_ext n _ (fun i => (fold_right Rplus 0 (map (fun p => snd p * fst p i) (combine J (lsq J b))) - b i) ^ 2)) in P |- * by (intros i Hi; rewrite combination_spec; ring). lra. }
    destruct J eqn:EJ; rewrite Z'; tauto.
  Qed.
  (** Such a point is a minimum, for a convex objective, when no inequality is nearly active. *)
  Lemma quad_expand x z : (forall i j, (i < n)%nat -> (j < n)%nat -> H i j = H j i) -> let d := fun i => z i - x i in
    objective n H g z = objective n H g x + rsum n (fun i => (rsum n (fun j => H i j * x j) + g i) * d i) + / 2 * rsum n (fun i => rsum n (fun j => d i * H i j * d j)).
  Proof.
    intros S d. unfold objective.
    assert (E : rsum n (fun i => rsum n (fun j => z i * H i j * z j)) = rsum n (fun i => rsum n (fun j => x i * H i j * x j)) + 2 * rsum n (fun i => rsum n (fun j => H i j * x j) * d i) + rsum n (fun i => rsum n (fun j => d i * H i j * d j))).
    { assert (C : rsum n (fun i => rsum n (fun j => x i * H i j * d j)) = rsum n (fun i => rsum n (fun j => H i j * x j) * d i)).
      { rewrite rsum_swap. apply rsum_ext. intros j Hj. rewrite <- rsum_scal_r. apply rsum_ext. intros i Hi. rewrite (S i j Hi Hj). ring. }
      replace (2 * rsum n (fun i => rsum n (fun j => H i j * x j) * d i)) with (rsum n (fun i => rsum n (fun j => x i * H i j * d j)) + rsum n (fun i => rsum n (fun j => H i j * x j) * d i)) by (rewrite C; ring).
      rewrite <- !rsum_plus. apply rsum_ext. intros i Hi. rewrite <- rsum_scal_r, <- !rsum_plus. apply rsum_ext. intros j Hj. unfold d. ring. }
    rewrite E. rewrite (rsum_ext n (fun i => (rsum n (fun j => H i j * x j) + g i) * d i) (fun i => rsum n (fun j => H i j * x j) * d i + (g i * z i - g i * x i))) by (intros; unfold d; ring). rewrite rsum_plus, rsum_minus. lra.
  Qed.
  Lemma spanned_dot x rows c (d : nat -> R) : spanned n H g x rows c -> rsum n (fun i => (rsum n (fun j => H i j * x j) + g i) * d i) = fold_right Rplus 0 (map (fun p => snd p * rsum n (fun i => fst (fst p) i * d i)) (combine rows c)).
  Proof.
    intros [_ E]. rewrite (rsum_ext n _ (fun i => fold_right Rplus 0 (map (fun p => snd p * fst (fst p) i) (combine rows c)) * d i)) by (intros i Hi; now rewrite (E i Hi)). clear E.
    induction (combine rows c) as [|p l IH]; cbn [map fold_right]; [apply rsum_zero; intros; ring|]. rewrite <- IH, <- rsum_scal, <- rsum_plus. apply rsum_ext. intros; ring.
  Qed.
  Theorem C97_zero_is_optimal : forall x, least_squares n (map fst (active x)) (fun i => rsum n (fun j => H i j * x j) + g i) (lsq (map fst (active x)) (fun i => rsum n (fun j => H i j * x j) + g i)) ->
    psd n H -> (forall r, In r ineqs -> lin n r x <= - / 100000000) -> opt x = 0 -> feasible n eqs ineqs x /\ forall z, feasible n eqs ineqs z -> objective n H g x <= objective n H g z.
  Proof.
    intros x LS [S P] NA E. apply (C97_zero x LS) in E as [F (c & Hc)]. split; [exact F|]. intros z [Z1 _]. rewrite (quad_expand x z S). cbv zeta.
    assert (A : active x = eqs). { unfold active. replace (filter (near x) ineqs) with (@nil ((nat -> R) * R)); [apply app_nil_r|]. symmetry. clear -NA. induction ineqs as [|r l IH]; [reflexivity|]. cbn [filter]. unfold near at 1. destruct (Rlt_dec _ _) as [L|_]; [pose proof (NA r (or_introl eq_refl)); lra|]. apply IH. intros; apply NA; now right. }
    rewrite A in Hc. rewrite (spanned_dot x eqs c (fun i => z i - x i) Hc). replace (fold_right Rplus 0 _) with 0; [pose proof (P (fun i => z i - x i)); lra|].
    symmetry. destruct F as [F _]. clear -F Z1. revert c. induction eqs as [|r l IH]; intros [|k c]; try reflexivity. cbn [combine map fold_right fst snd]. rewrite IH by (intros; (apply F || apply Z1); now right).
    pose proof (F r (or_introl eq_refl)) as A. pose proof (Z1 r (or_introl eq_refl)) as B. unfold lin in A, B. rewrite (rsum_ext n _ (fun i => fst r i * z i - fst r i * x i)) by (intros; ring). rewrite rsum_minus. replace (rsum n (fun i => fst r i * z i) - rsum n (fun i => fst r i * x i)) with 0 by lra. ring.
  Qed.
End Opt.
(** Refuted: it is zero only at optimal points: the signs of the multipliers are not looked at. Minimise x^2/2 - x with -x <= 0: at 0 the condition is zero, the minimum is at 1. *)
Theorem C97_sign_refuted : exists (H : nat -> nat -> R) g eqs ineqs lsq x z, let act := eqs ++ filter (near 1 x) ineqs in
  least_squares 1 (map fst act) (fun i => rsum 1 (fun j => H i j * x j) + g i) (lsq (map fst act) (fun i => rsum 1 (fun j => H i j * x j) + g i)) /\
  psd 1 H /\ computeOptimalityCondition 1 H g eqs ineqs lsq x = 0 /\ feasible 1 eqs ineqs z /\ objective 1 H g z < objective 1 H g x.
Proof.
  set (r := ((fun _ : nat => -1), 0)). set (x := fun _ : nat => 0). set (lsq := fun (_ : list (nat -> R)) (_ : nat -> R) => [1]).
  exists (fun _ _ => 1), (fun _ => -1), [], [r], lsq, x, (fun _ => 1). cbv zeta.
  assert (N : filter (near 1 x) [r] = [r]). { cbn [filter]. unfold near. destruct (Rlt_dec _ _) as [|B]; [reflexivity|]. elim B. unfold lin, r, x. cbn. lra. }
  assert (LS : least_squares 1 (map fst ([] ++ filter (near 1 x) [r])) (fun i => rsum 1 (fun j => 1 * x j) + -1) (lsq (map fst ([] ++ filter (near 1 x) [r])) (fun i => rsum 1 (fun j => 1 * x j) + -1))).
  { rewrite N. split; [reflexivity|]. intros d _. apply Rle_trans with 0; [right; unfold lsq, x; cbn; ring|apply rsum_nonneg; intros; apply pow2_ge_0]. }
  split; [exact LS|]. split; [split; [reflexivity|intros v; cbn; nra]|]. split; [|split; [split; [intros ? []|intros s [<-|[]]; unfold lin, r; cbn; lra]|unfold objective, x; cbn; lra]].
  apply (C97_zero 1 _ _ [] [r] lsq x LS). split; [split; [intros ? []|intros s [<-|[]]; unfold lin, r, x; cbn; lra]|]. exists [1]. rewrite N. split; [reflexivity|]. intros i Hi. unfold r, x. cbn. lra.
Qed.
(** The hypotheses are met: minimise x^2/2 with x - 1 = 0 and x - 3 <= 0 at x = 1. *)
Example C97_demo : exists lsq, computeOptimalityCondition 1 (fun _ _ => 1) (fun _ => 0) [((fun _ => 1), -1)] [((fun _ => 1), -3)] lsq (fun _ => 1) = 0 /\ forall z, feasible 1 [((fun _ => 1), -1)] [((fun _ => 1), -3)] z -> objective 1 (fun _ _ => 1) (fun _ => 0) (fun _ => 1) <= objective 1 (fun _ _ => 1) (fun _ => 0) z.
Proof.
  set (e := ((fun _ : nat => 1), -1)). set (r := ((fun _ : nat => 1), -3)). set (x := fun _ : nat => 1). set (lsq := fun (_ : list (nat -> R)) (_ : nat -> R) => [1]). exists lsq.
  assert (N : filter (near 1 x) [r] = []). { cbn [filter]. unfold near. destruct (Rlt_dec _ _) as [B|]; [|reflexivity]. unfold lin, r, x in B. cbn in B. lra. }
  assert (LS : least_squares 1 (map fst ([e] ++ filter (near 1 x) [r])) (fun i => rsum 1 (fun j => 1 * x j) + 0) (lsq (map fst ([e] ++ filter (near 1 x) [r])) (fun i => rsum 1 (fun j => 1 * x j) + 0))).
  { rewrite N. split; [reflexivity|]. intros d _. apply Rle_trans with 0; [right; unfold lsq, x; cbn; ring|apply rsum_nonneg; intros; apply pow2_ge_0]. }
  assert (Z : computeOptimalityCondition 1 (fun _ _ => 1) (fun _ => 0) [e] [r] lsq x = 0).
  { apply (C97_zero 1 _ _ [e] [r] lsq x LS). split; [split; intros s [<-|[]]; unfold lin, e, r, x; cbn; lra|]. exists [1]. rewrite N. split; [reflexivity|]. intros i Hi. unfold e, x. cbn. lra. }
  split; [exact Z|]. apply (C97_zero_is_optimal 1 _ _ [e] [r] lsq x LS); [split; [reflexivity|intros v; cbn; nra]|intros s [<-|[]]; unfold lin, r, x; cbn; lra|exact Z].
Qed.
Print Assumptions C97_check. Print Assumptions C97_check_exact. Print Assumptions C97_check_negative. Print Assumptions C97_zero. Print Assumptions C97_zero_is_optimal. Print Assumptions C97_sign_refuted.

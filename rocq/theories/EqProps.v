(** * Property C09: equilibration is an equivalence and is undone exactly.
    [nl], [q]: linear rows and second-order cone sizes (each at least 1); [s]: compiled problem; [iters]: EquilibrationIters. *)
From Coq Require Import Reals List Arith Bool Lia Lra.
From Verif Require Import ExprsModel ConicModel ConicSpec EqModel EqSpec EqProofs.
Import ListNotations.
Open Scope R_scope.

(** Factors are positive and equal on all rows of one second-order cone. *)
Theorem C09_factors :
  forall iters nl q s, Forall (fun n => (1 <= n)%nat) q ->
    let E := snd (set_equilibration iters nl q s) in
    (forall i, 0 < e_x E i) /\ (forall i, 0 < e_y E i) /\ (forall i, 0 < e_z E i) /\
    forall pre n post, q = pre ++ n :: post -> forall j, (j < n)%nat -> e_z E (nl + sumn pre + j)%nat = e_z E (nl + sumn pre)%nat.
Proof.
  intros iters nl q s HQ E. destruct (E_spec iters nl q s HQ) as ((P1 & P2 & P3) & B). repeat split; auto.
  intros pre n post EQ. fold E in B. subst q. apply blockconst_nth with (post := post), B.
Qed.

(** Undoing restores the data exactly. *)
Theorem C09_undone_exactly :
  forall iters nl q s, Forall (fun n => (1 <= n)%nat) q ->
    let '(s', E) := set_equilibration iters nl q s in same_data (unset_equilibration E s') s.
Proof.
  intros iters nl q s HQ. pose proof (unset_set iters nl q s HQ) as H.
  destruct (set_equilibration iters nl q s) as [s' E]. exact H.
Qed.

(** Feasibility, objective value and optimality correspond under x = x'/E, both ways. *)
Theorem C09_equivalent_problem :
  forall iters nl q s, Forall (fun n => (1 <= n)%nat) q -> s_m s = (nl + sumn q)%nat ->
    let '(s', E) := set_equilibration iters nl q s in
    forall x', let x := fun i => x' i / e_x E i in
      (std_feasible nl q s' x' <-> std_feasible nl q s x) /\
      std_objective s' x' = std_objective s x /\
      (optimal nl q s' x' <-> optimal nl q s x).
Proof.
  intros iters nl q s HQ HM. pose proof (fun x => equil_feasible iters nl q s HQ x HM) as HF. pose proof (equil_objective iters nl q s HQ) as HO.
  destruct (E_spec iters nl q s HQ) as ((P1 & _) & _).
  destruct (set_equilibration iters nl q s) as [s' E]. cbn [fst snd] in HF, HO, P1. intros x' x.
  split; [apply HF|]. split; [apply HO|]. unfold optimal. rewrite HF. split; intros [F O]; (split; [exact F|]).
  - intros y Hy. specialize (O (fun i => y i * e_x E i)).
    assert (EX : forall i, y i * e_x E i / e_x E i = y i) by (intros i; field; specialize (P1 i); lra).
    rewrite !HO in O. assert (EO : std_objective s (fun i => y i * e_x E i / e_x E i) = std_objective s y).
    { unfold std_objective. apply sumR_ext. intros i _. rewrite EX. reflexivity. }
    rewrite EO in O. apply O. apply HF.
    destruct Hy as (Y1 & Y2 & Y3). unfold std_feasible.
    assert (SX : forall r, slack s (fun i => y i * e_x E i / e_x E i) r = slack s y r) by (intros r; unfold slack; f_equal; apply matvec_ext, EX).
    split; [|split].
    + intros r Hr. rewrite (matvec_ext _ _ y) by exact EX. auto.
    + intros r Hr. rewrite SX. auto.
    + apply (in_socs_ext q nl _ (slack s y) HQ); auto.
  - intros y Hy. rewrite !HO. apply O, HF, Hy.
Qed.

(** scaleVariables: an iterate (x,y,z,s,tau) of the scaled homogeneous problem is primal/dual feasible, with the same cost,
    dual cost and gap, exactly when the returned vector is primal/dual feasible for the original problem. *)
Theorem C09_scaled_variables :
  forall iters nl q s, Forall (fun n => (1 <= n)%nat) q -> s_m s = (nl + sumn q)%nat ->
    let '(s', E) := set_equilibration iters nl q s in
    forall o, 0 < o_tau o -> let o' := scale_variables E o in
      (primal_ok nl q s' (o_tau o) (o_x o) (o_s o) <-> primal_ok nl q s 1 (o_x o') (o_s o')) /\
      (dual_ok nl q s' (o_tau o) (o_y o) (o_z o) <-> dual_ok nl q s 1 (o_y o') (o_z o')) /\
      dot (s_n s) (s_c s') (o_x o) / o_tau o = dot (s_n s) (s_c s) (o_x o') /\
      dot (s_me s) (s_b s') (o_y o) / o_tau o = dot (s_me s) (s_b s) (o_y o') /\
      dot (s_m s) (s_h s') (o_z o) / o_tau o = dot (s_m s) (s_h s) (o_z o') /\
      dot (s_m s) (o_s o) (o_z o) / (o_tau o * o_tau o) = dot (s_m s) (o_s o') (o_z o').
Proof.
  intros iters nl q s HQ HM. pose proof (fun o => scale_primal iters nl q s HQ o HM) as H1. pose proof (scale_dual iters nl q s HQ) as H2.
  pose proof (scale_gap iters nl q s HQ) as H3. destruct (set_equilibration iters nl q s) as [s' E]. cbn [fst snd] in H1, H2, H3. intros o HT o'.
  split; [apply H1, HT|]. split; [apply H2, HT|]. apply H3, HT.
Qed.

(** ** Non-vacuity: the hypotheses hold for every problem the modelling layer compiles, and one Ruiz step really scales. *)
Example C09_compiled_problems warm p :
  Forall (fun n => (1 <= n)%nat) (b_q p warm) /\ s_m (b_empty p warm) = (b_nlineq p warm + sumn (b_q p warm))%nat.
Proof.
  split; [|reflexivity]. unfold b_q. apply Forall_app. split.
  - apply Forall_forall. intros n Hn. apply repeat_spec in Hn. lia.
  - apply Forall_map, Forall_forall. intros; lia.
Qed.
Definition ex_eq : storage := mkS 1 0 3 [] (fun _ => 0) [(0%nat, 0%nat, 16)] (fun _ => 16) (fun _ => 4) true.
Example C09_ex : e_x (snd (set_equilibration 1 0 [3%nat] ex_eq)) 0 = 4 /\ e_z (snd (set_equilibration 1 0 [3%nat] ex_eq)) 2 = 4 /\
  s_h (fst (set_equilibration 1 0 [3%nat] ex_eq)) 0 = 4.
Proof.
  assert (F : eq_factor (Rmax (Rabs 16) 0) = 4).
  { rewrite Rabs_right, Rmax_left by lra. unfold eq_factor. rewrite Rabs_right by lra. destruct (Rlt_dec 16 (1/1000000)); [lra|].
    replace 16 with (4 * 4) by lra. apply sqrt_square. lra. }
  unfold set_equilibration, ex_eq. cbn [ruiz_loop ruiz_step s_A s_G maxRowsCols fst snd s_h e_x e_y e_z].
  unfold max_col, max_row. cbn [existsb fold_right Nat.eqb orb soc_sum sum_block map seq Nat.leb Nat.ltb Nat.add andb]. 
  rewrite !F. unfold sum_block. simpl. replace (Rmax (Rabs 16) 0 + (0 + (0 + 0))) with (Rmax (Rabs 16) 0) by ring. rewrite F. repeat split; lra.
Qed.

Print Assumptions C09_factors.
Print Assumptions C09_undone_exactly.
Print Assumptions C09_equivalent_problem.
Print Assumptions C09_scaled_variables.

(** * Properties C07, C08: blocks of optimisation variables *)
From Coq Require Import Reals List Arith ZArith Bool Ascii Lia Lra Permutation.
From Verif Require Import ExprsModel ConicModel OptVarModel OptVarSpec OptVarProofs OptVarProofs2.
Import ListNotations.
Open Scope R_scope.

(** C07: blocks initialised with one shared counter occupy consecutive ranges [block_start k, block_start k + size k) that are
    disjoint and end where the counter ends; id is a bijection between the entries of block k and its range. *)
Theorem C07_index_map_bijection :
  forall bs, exists ovs nv, init_blocks bs 0 = (ovs, nv) /\
    nv = Z.of_nat (sumn (map bsize bs)) /\
    (forall k b, nth_error bs k = Some b -> exists ov, nth_error ovs k = Some ov /\
       (forall r c, (r < b_rows b)%nat -> (c < b_cols b)%nat ->
          (Z.of_nat (block_start bs k) <= ov_id ov (Z.of_nat r) (Z.of_nat c) < Z.of_nat (block_start bs k + bsize b))%Z) /\
       (forall r c r' c', (r < b_rows b)%nat -> (c < b_cols b)%nat -> (r' < b_rows b)%nat -> (c' < b_cols b)%nat ->
          ov_id ov (Z.of_nat r) (Z.of_nat c) = ov_id ov (Z.of_nat r') (Z.of_nat c') -> r = r' /\ c = c') /\
       (forall i, (Z.of_nat (block_start bs k) <= i < Z.of_nat (block_start bs k + bsize b))%Z ->
          exists r c, (r < b_rows b)%nat /\ (c < b_cols b)%nat /\ ov_id ov (Z.of_nat r) (Z.of_nat c) = i)) /\
    (forall j k b b', (j < k)%nat -> nth_error bs j = Some b -> nth_error bs k = Some b' ->
       (block_start bs j + bsize b <= block_start bs k)%nat).
Proof.
  intros bs. destruct (init_blocks_spec bs 0%nat) as (ovs & E & L & H). exists ovs, (Z.of_nat (sumn (map bsize bs))).
  split; [exact E|]. split; [reflexivity|]. split; [|intros; eapply block_start_disjoint; eauto].
  intros k b Ek. destruct (H k b Ek) as (ov & Eo & S). simpl in S. exists ov. split; [exact Eo|]. split; [|split].
  - intros r c Hr Hc. rewrite (id_in_range b _ ov r c S Hr Hc). unfold bsize. nia.
  - intros r c r' c' Hr Hc Hr' Hc' EQ. rewrite !(id_in_range b _ ov _ _ S) in EQ by auto. apply Nat2Z.inj in EQ.
    assert (c = c') by nia. split; [nia|assumption].
  - intros i Hi. set (j := (Z.to_nat i - block_start bs k)%nat).
    assert (Hj : (j < bsize b)%nat) by (unfold j; lia). destruct (cell_range b j Hj) as (A & B & C).
    exists (j mod b_rows b)%nat, (j / b_rows b)%nat. repeat split; auto. rewrite (id_in_range b _ ov _ _ S A B), C. unfold j. lia.
Qed.

(** C07, out-of-range requests: clamped to an entry of the same block, provided the block is not empty. *)
Theorem C07_out_of_range_clamped :
  forall bs k b, nth_error bs k = Some b -> (0 < b_rows b)%nat -> (0 < b_cols b)%nat ->
  exists ov, nth_error (fst (init_blocks bs 0)) k = Some ov /\
  forall r c, exists r' c', (r' < b_rows b)%nat /\ (c' < b_cols b)%nat /\ ov_id ov r c = ov_id ov (Z.of_nat r') (Z.of_nat c').
Proof.
  intros bs k b Ek Hr Hc. destruct (init_blocks_spec bs 0%nat) as (ovs & E & L & H). change (Z.of_nat 0) with 0%Z in E. rewrite E.
  destruct (H k b Ek) as (ov & Eo & S). exists ov. split; [exact Eo|]. intros r c.
  destruct (id_clamped b _ ov r c S Hr Hc) as (r' & c' & A & B & C & _). eauto.
Qed.

(** C07 for empty blocks (an end-effector that is never in contact has no force variables): the clamped index lies in the
    block before it; if there is none it is negative. *)
Theorem C07_empty_block_refuted :
  exists bs k b ov, nth_error bs k = Some b /\ nth_error (fst (init_blocks bs 0)) k = Some ov /\
    b_cols b = 0%nat /\ (ov_id ov 0 0 < Z.of_nat (block_start bs k))%Z /\
    exists ov' r c, nth_error (fst (init_blocks bs 0)) (k - 1) = Some ov' /\ (0 < k)%nat /\
      (r < 3)%nat /\ (c < 5)%nat /\ ov_id ov' (Z.of_nat r) (Z.of_nat c) = ov_id ov 0 0.
Proof.
  exists [free_block 3 5 1; free_block 3 0 1], 1%nat, (free_block 3 0 1).
  eexists. split; [reflexivity|]. split; [reflexivity|]. split; [reflexivity|]. split; [reflexivity|].
  eexists. exists 0%nat, 4%nat. split; [reflexivity|]. repeat split; lia.
Qed.

(** C08: reading back. For all block lists, any order of adding them, any constraints/objective added afterwards,
    any solver output [x]: the saved block k holds at (r,c) the solver's value of the model column created for (r,c) of block k. *)
Theorem C08_solution_read_back :
  forall binary_ok bs ord cs x p0 k b,
    Permutation ord (seq 0 (List.length bs)) -> (forall b', In b' bs -> block_ok binary_ok b') ->
    nth_error bs k = Some b ->
    exists ov, planner_pass binary_ok bs ord (run_calls cs) x p0 k = Ok ov /\
      forall r c, (r < b_rows b)%nat -> (c < b_cols b)%nat ->
        ov_guess ov (Z.of_nat r) (Z.of_nat c) = x (column_of bs ord k r c).
Proof. intros. apply planner_pass_spec; auto. apply run_calls_appends. Qed.

(** C08: the model column created for (r,c) of block k carries the declared bounds, type and guess, and is the one the
    planner's constraints refer to through id(r,c). *)
Theorem C08_columns_carry_the_declaration :
  forall bo bs ord p0,
  Permutation ord (seq 0 (List.length bs)) -> (forall b', In b' bs -> block_ok bo b') ->
  exists p vars, (let '(ovs, nv) := init_blocks bs 0 in add_all bo ovs nv ord p0) = Ok (p, vars) /\
   forall k b r c, nth_error bs k = Some b -> (r < b_rows b)%nat -> (c < b_cols b)%nat ->
     exists v, nth_error (p_vars p) (column_of bs ord k r c) = Some v /\
       v_lb v = b_lb b (Z.of_nat r) (Z.of_nat c) /\ v_ub v = b_ub b (Z.of_nat r) (Z.of_nat c) /\
       v_val v = b_guess b (Z.of_nat r) (Z.of_nat c) /\ (v_type v = Binary <-> b_type b = "B"%char) /\
       nth_error vars (block_start bs k + (c * b_rows b + r)) = Some (Some (column_of bs ord k r c)).
Proof. exact added_variables. Qed.

(** ** Non-vacuity: the planners' own block lists and orders meet the hypotheses, for every horizon and contact schedule. *)
Lemma free_block_ok bo r c inf : 0 <= inf -> block_ok bo (free_block r c inf).
Proof. intros H. split; [left; reflexivity|]. intros; simpl; lra. Qed.
Example C08_dynamics_planner bo inf N t steps : 0 <= inf ->
  (forall b, In b (dyn_blocks inf N t steps) -> block_ok bo b) /\
  Permutation (seq 0 (List.length (dyn_blocks inf N t steps))) (seq 0 (List.length (dyn_blocks inf N t steps))).
Proof.
  intros H. split; [|reflexivity]. intros b Hb. unfold dyn_blocks in Hb.
  apply in_app_or in Hb as [Hb|Hb]; [|apply in_app_or in Hb as [Hb|Hb]].
  - simpl in Hb. repeat (destruct Hb as [<-|Hb]; [apply free_block_ok; auto|]). destruct Hb.
  - destruct t; [|destruct Hb]. simpl in Hb. repeat (destruct Hb as [<-|Hb]; [apply free_block_ok; auto|]). destruct Hb.
  - apply in_flat_map in Hb as (n & _ & Hb). simpl in Hb. repeat (destruct Hb as [<-|Hb]; [apply free_block_ok; auto|]). destruct Hb.
Qed.
Example C08_kinematics_planner bo inf N neff ndof : 0 <= inf ->
  (forall b, In b (kin_blocks inf N neff ndof) -> block_ok bo b) /\
  Permutation (kin_order neff) (seq 0 (List.length (kin_blocks inf N neff ndof))).
Proof.
  intros H. split.
  - intros b Hb. unfold kin_blocks in Hb. apply in_app_or in Hb as [Hb|Hb]; [|apply in_app_or in Hb as [Hb|Hb]].
    + simpl in Hb. repeat (destruct Hb as [<-|Hb]; [apply free_block_ok; auto|]). destruct Hb.
    + apply repeat_spec in Hb as ->. apply free_block_ok; auto.
    + apply repeat_spec in Hb as ->. apply free_block_ok; auto.
  - unfold kin_blocks, kin_order. rewrite !app_length, !repeat_length. change (List.length [free_block 3 N inf; free_block 3 N inf; free_block 3 N inf]) with 3%nat.
    rewrite !seq_app. change [0; 1; 2]%nat with (seq 0 3). apply Permutation_app_head.
    assert (M : forall a n, map (fun i => a + i)%nat (seq 0 n) = seq a n).
    { intros a n. revert a. induction n as [|n IH]; intros a; [reflexivity|]. rewrite seq_S, map_app, IH. cbn [map]. now rewrite (seq_S n a). }
    rewrite (M 3%nat).
    replace (map (fun i => (3 + 2 * neff + i)%nat) (seq 0 4)) with (seq (3 + 2 * neff) 4) by (rewrite <- M; reflexivity).
    apply Permutation_app_comm.
Qed.
(** A concrete pass: block 0 is 2x1, block 1 is 1x2, added in reverse order; the solver returns x_i = i. *)
Example C08_concrete : exists ov,
  planner_pass false [free_block 2 1 1; free_block 1 2 1] [1; 0]%nat (fun p => p) INR cp_init 0 = Ok ov /\ ov_guess ov 0%Z 0%Z = INR 2 /\ ov_guess ov 1%Z 0%Z = INR 3.
Proof.
  destruct (planner_pass_spec false [free_block 2 1 1; free_block 1 2 1] [1; 0]%nat (fun p => p) INR cp_init 0 (free_block 2 1 1)) as (ov & E & G).
  - simpl. apply perm_swap.
  - intros b [<-|[<-|[]]]; apply free_block_ok; lra.
  - intros p; exists []; now rewrite app_nil_r.
  - reflexivity.
  - exists ov. split; [exact E|]. split; [apply (G 0%nat 0%nat)|apply (G 1%nat 0%nat)]; simpl; lia.
Qed.

Print Assumptions C07_index_map_bijection.
Print Assumptions C07_out_of_range_clamped.
Print Assumptions C07_empty_block_refuted.
Print Assumptions C08_solution_read_back.
Print Assumptions C08_columns_carry_the_declaration.

(** * C18, C19: branch and bound *)
From Coq Require Import Reals List Arith ZArith Bool Lia Lra.
From Verif Require Import Base BaseProofs IpModel BnbModel BnbSpec BnbProofs BnbProofs2 BnbProofs3 BnbProofs4 BnbProofs5.
Import ListNotations.
Open Scope R_scope.

(** C19, every oracle.  For every relaxation solver (also one that answers differently at each call), every setting and every state reached at
    the head of the search loop: the number of loop passes stays below the limit and within the allocated nodes, at most 2 + 4 * passes
    relaxations have been solved, every explored node carries one decision per binary, and every 0/1 assignment agrees with some node. *)
Theorem C19_nodes_cover_all_assignments : forall S relax ids cost nodes0 opt0 calls0 s,
  reached S relax ids cost nodes0 opt0 calls0 s ->
  (s_iter s < b_max S)%nat /\ (s_iter s < length (s_nodes s))%nat /\ (s_calls s <= calls0 + 2 + 4 * s_iter s)%nat /\
  (forall k col, (k <= s_iter s)%nat -> nth_error (s_mat s) k = Some col -> length col = length ids /\ forall d, In d col -> d = 1%Z \/ d = 0%Z \/ d = (-1)%Z) /\
  (forall a, assignment (length ids) a -> exists k col, (k <= s_iter s)%nat /\ nth_error (s_mat s) k = Some col /\ agrees a col).
Proof.
  intros S relax ids cost nodes0 opt0 calls0 s H. destruct (reach_shape _ _ _ _ _ _ _ s H) as [(I1 & I2 & I3 & I4 & I5 & I6 & I7) _].
  split; [exact I3|]. split; [lia|]. split; [lia|]. split; [exact I5|exact I7].
Qed.
Print Assumptions C19_nodes_cover_all_assignments.

(** C19, partition.  If the relaxation solver returns vectors that respect the fixed binaries and the [0,1] bounds of the others, the explored
    nodes split the 0/1 assignments without overlap: every assignment agrees with exactly one node. *)
Theorem C19_nodes_partition_assignments : forall S relax ids cost nodes0 opt0 calls0 s,
  0 < b_tol S -> (forall k dec, length dec = length ids -> accepted (fst (relax k dec)) = true -> in_box ids dec (snd (relax k dec))) ->
  reached S relax ids cost nodes0 opt0 calls0 s ->
  forall a, assignment (length ids) a -> exists! k, (k <= s_iter s)%nat /\ exists col, nth_error (s_mat s) k = Some col /\ agrees a col.
Proof.
  intros S relax ids cost nodes0 opt0 calls0 s Ht Hb H a Ha. destruct (reach_shape _ _ _ _ _ _ _ s H) as [(_ & _ & _ & _ & _ & _ & I7) _].
  destruct (I7 a Ha) as (k & col & Hk & Hc & Hag). exists k. split; [eauto|]. intros k' (Hk' & col' & Hc' & Hag').
  exact (pt_disj _ (part_reach S relax ids cost nodes0 opt0 calls0 Ht Hb s H) a k k' col col' Hk Hk' Hc Hc' Hag Hag').
Qed.
Print Assumptions C19_nodes_partition_assignments.

(** The search stops after at most [b_max] - 1 passes, whatever the relaxation solver answers (the fuel of the model's loop never runs out). *)
Lemma loop_total S relax ids cost : forall fuel s, (b_max S <= s_iter s + fuel)%nat -> forall s', bnb_loop S relax ids cost fuel s = Ok s' ->
  (s_iter s' <= Nat.max (s_iter s) (b_max S - 1))%nat /\ continue S s' = false /\ (forall fuel', (fuel <= fuel')%nat -> bnb_loop S relax ids cost fuel' s = Ok s').
Proof.
  induction fuel as [|f IH]; intros s Hf s' H; cbn [bnb_loop] in H.
  - destruct (continue S s) eqn:E; [discriminate|]. injection H as <-. split; [lia|]. split; [exact E|]. intros fuel' _. destruct fuel'; cbn; rewrite E; reflexivity.
  - destruct (continue S s) eqn:E.
    + apply bind_ok in H as (s1 & H1 & H). pose proof H1 as H1'. apply body_inv in H1' as (i & nd & col & p & _ & _ & _ & _ & _ & Eit & _). apply continue_iter in E as E'.
      destruct (IH s1 ltac:(lia) s' H) as (G1 & G2 & G3). split; [lia|]. split; [exact G2|]. intros [|f'] Hf'; [lia|]. cbn [bnb_loop]. rewrite E, H1. cbn [bind]. apply G3. lia.
    + injection H as <-. split; [lia|]. split; [exact E|]. intros [|f'] _; cbn; rewrite E; reflexivity.
Qed.
Theorem C19_iteration_limit : forall S relax ids cost nodes0 opt0 calls0 s0 s,
  bnb_root S relax ids cost nodes0 opt0 calls0 = Ok s0 -> bnb_loop S relax ids cost (b_max S) s0 = Ok s ->
  (s_iter s <= b_max S - 1)%nat /\ continue S s = false /\ forall fuel, (b_max S <= fuel)%nat -> bnb_loop S relax ids cost fuel s0 = Ok s.
Proof.
  intros S relax ids cost nodes0 opt0 calls0 s0 s H0 H. pose proof (root_inv _ _ _ _ _ _ _ _ H0) as (E1 & _). destruct (loop_total S relax ids cost (b_max S) s0 ltac:(lia) s H) as (A & B & C).
  rewrite E1 in A. split; [lia|]. split; [exact B|exact C].
Qed.
Print Assumptions C19_iteration_limit.

(** C18.  With an exact relaxation solver (see exact_relaxation: a minimiser for the optimal codes, infeasibility for the others, and no
    integral-looking vector from an infeasible relaxation) whose cost is the one the search compares, branch and bound always returns, and
    Optimal means: feasible, binaries within the tolerance, and within the absolute or relative gap of a valid lower bound for all binary points;
    OptimalInacc (iteration limit) means feasible with near-binary binaries; PrimalInf means there is no binary point. *)
Theorem C18_branch_and_bound_partial : forall S relax ids cost F nodes0 opt0 calls0,
  0 < b_tol S -> 0 <= b_abs S -> exact_relaxation F ids cost (b_tol S) relax -> length nodes0 = b_max S -> (1 <= b_max S)%nat ->
  exists c x n, bnb_optimize S relax ids cost nodes0 opt0 calls0 = Ok (c, x, n) /\
    match c with
    | Optimal => near_binary F ids (b_tol S) x /\
        exists lb, (forall y, binary_point F ids y -> lb <= cost y) /\ (cost x - lb <= b_abs S \/ Rabs (cost x - lb) <= b_rel S * Rabs lb)
    | OptimalInacc => near_binary F ids (b_tol S) x
    | PrimalInf => forall y, ~ binary_point F ids y
    | PrimalInfInacc => True
    | _ => False
    end.
Proof.
  intros S relax ids cost F nodes0 opt0 calls0 Ht Ha HO Hl Hm. destruct (root_ok S relax ids cost F Ht Ha HO nodes0 opt0 calls0 Hl Hm) as (s0 & E0 & I0).
  destruct (loop_ok S relax ids cost F Ht HO nodes0 opt0 calls0 Hl Hm (b_max S) s0 I0 ltac:(lia)) as (s & E & I & HC).
  exists (bnb_exitcode S s), (s_opt s), (s_calls s). split; [unfold bnb_optimize; rewrite E0; cbn [bind]; rewrite E; reflexivity|].
  apply (final_verdict S relax ids cost F) with (nodes0 := nodes0) (opt0 := opt0) (calls0 := calls0); assumption.
Qed.
Print Assumptions C18_branch_and_bound_partial.

(** With zero gaps Optimal is a true optimum over all binary points. *)
Theorem C18_zero_gap_partial : forall S relax ids cost F nodes0 opt0 calls0 x n,
  0 < b_tol S -> b_abs S = 0 -> b_rel S = 0 -> exact_relaxation F ids cost (b_tol S) relax -> length nodes0 = b_max S -> (1 <= b_max S)%nat ->
  bnb_optimize S relax ids cost nodes0 opt0 calls0 = Ok (Optimal, x, n) ->
  near_binary F ids (b_tol S) x /\ forall y, binary_point F ids y -> cost x <= cost y.
Proof.
  intros S relax ids cost F nodes0 opt0 calls0 x n Ht Ha Hr HO Hl Hm H. destruct (C18_branch_and_bound_partial S relax ids cost F nodes0 opt0 calls0 Ht ltac:(lra) HO Hl Hm) as (c & x' & n' & E & V).
  rewrite H in E. injection E as <- <- <-. destruct V as (V1 & lb & V2 & V3). split; [exact V1|]. intros y Hy. specialize (V2 y Hy). rewrite Ha, Hr in V3. destruct V3 as [V3|V3]; [lra|].
  rewrite Rmult_0_l in V3. pose proof (Rle_abs (cost x - lb)). lra.
Qed.
Print Assumptions C18_zero_gap_partial.

(** ** A concrete run: one binary b (column 0), one continuous t (column 1), t >= 2 - 4 b, t >= 4 b - 3. *)
Definition exF (x : nat -> R) : Prop := 2 - 4 * x 0%nat <= x 1%nat /\ 4 * x 0%nat - 3 <= x 1%nat.
Definition pt (b t : R) : nat -> R := fun i => match i with O => b | _ => t end.
Definition ex_relax (k : nat) (dec : list Z) : exitcode * (nat -> R) :=
  match dec with
  | [1%Z] => (Optimal, pt 1 1)
  | [0%Z] => (Optimal, pt 0 2)
  | [(-1)%Z] => (Optimal, pt (5/8) (-1/2))
  | _ => (PrSearchDirection, pt 0 0)
  end.
Definition exS (n : nat) : bset := mkBS n (/ 10) 0 0.
Definition ex_node : node := mkNode NotSolved 0 NInf PInf.

Lemma ex_int_r n : is_integer (exS n) [0%nat] (pt (5/8) (-1/2)) = false.
Proof. cbn. rewrite round_one by lra. replace (5 / 8 - 1) with (- (3 / 8)) by lra. rewrite Rabs_Ropp, Rabs_pos_eq by lra. replace (ltb (3 / 8) (/ 10)) with false; [reflexivity|]. symmetry. apply ltb_false. lra. Qed.
Lemma ex_int_01 n b t : b = 0 \/ b = 1 -> is_integer (exS n) [0%nat] (pt b t) = true.
Proof.
  intros [-> | ->]; cbn; [rewrite round_zero by lra; replace (0 - 0) with 0 by lra|rewrite round_one by lra; replace (1 - 1) with 0 by lra]; rewrite Rabs_R0;
  replace (ltb 0 (/ 10)) with true; try reflexivity; symmetry; apply ltb_true; lra.
Qed.
Lemma ex_round : rounded [0%nat] (pt (5/8) (-1/2)) = [1%Z].
Proof. cbn. now rewrite round_one by lra. Qed.
Lemma ex_part p : select_part [0%nat] 0 (pt (5/8) (-1/2)) 1 p = 0%Z.
Proof. cbn. replace (5 / 8 - / 2) with (/ 8) by lra. rewrite Rabs_pos_eq by lra. replace (ltb (/ 8) 1) with true; [reflexivity|]. symmetry. apply ltb_true. lra. Qed.

Arguments is_integer : simpl never.
Arguments rounded : simpl never.
Arguments select_part : simpl never.
Arguments ltb : simpl never.
(** The whole run for any cost: the root is fractional, both children are integral. *)
Lemma ex_root cost opt0 : bnb_root (exS 3) ex_relax [0%nat] cost (repeat ex_node 3) opt0 0 =
  Ok (mkB 0 0 [mkNode SolvedBranchable 0 (Fin (cost (pt (5/8) (-1/2)))) PInf; ex_node; ex_node] [[-1]; [-1]; [-1]]%Z (pt 1 1) (Fin (cost (pt (5/8) (-1/2)))) PInf 2).
Proof. cbn. rewrite ex_int_r, ex_round. cbn. rewrite ex_part. reflexivity. Qed.
Definition ex_head cost : bstate := mkB 0 0 [mkNode SolvedBranchable 0 (Fin (cost (pt (5/8) (-1/2)))) PInf; ex_node; ex_node] [[-1]; [-1]; [-1]]%Z (pt 1 1) (Fin (cost (pt (5/8) (-1/2)))) PInf 2.
Definition ex_last cost : bstate :=
  let b := ltb (cost (pt 1 1)) (cost (pt 0 2)) in
  mkB 1 (-1) [mkNode SolvedNonBranchable 0 (Fin (cost (pt 0 2))) (Fin (cost (pt 0 2))); mkNode SolvedNonBranchable 0 (Fin (cost (pt 1 1))) (Fin (cost (pt 1 1))); ex_node] [[0]; [1]; [-1]]%Z
    (if b then pt 1 1 else pt 0 2) (if b then Fin (cost (pt 1 1)) else Fin (cost (pt 0 2))) (if b then Fin (cost (pt 1 1)) else Fin (cost (pt 0 2))) 4.
Lemma upd_int S relax ids cost s id dec nd c x nodes : vget (s_mat s) id = Ok dec -> updateProblemData dec = Ok tt -> vget (s_nodes s) id = Ok nd -> relax (s_calls s) dec = (c, x) ->
  accepted c = true -> is_integer S ids x = true -> vset (s_nodes s) id (mkNode SolvedNonBranchable (n_part nd) (Fin (cost x)) (Fin (cost x))) = Ok nodes ->
  updateNodeBounds S relax ids cost s id = Ok (mkB (s_iter s) (s_node s) nodes (s_mat s) (if e_ltb (Fin (cost x)) (s_ub s) then x else s_opt s) (s_lb s) (if e_ltb (Fin (cost x)) (s_ub s) then Fin (cost x) else s_ub s) (s_calls s + 1)).
Proof. intros H1 H2 H3 H4 H5 H6 H7. unfold updateNodeBounds. rewrite H1. cbn [bind]. rewrite H2. cbn [bind]. rewrite H3. cbn [bind]. rewrite H4, H5, H6. cbn [bind]. rewrite H7. reflexivity. Qed.
Lemma ex_body cost : bnb_body (exS 3) ex_relax [0%nat] cost (ex_head cost) = Ok (ex_last cost).
Proof.
  unfold bnb_body. match goal with |- bind ?a _ = _ => assert (E : exists s, a = Ok s /\ s_mat s = [[0]; [1]; [-1]]%Z /\ s_nodes s = [mkNode NotSolved 0 (Fin (cost (pt (5/8) (-1/2)))) PInf; mkNode NotSolved 0 (Fin (cost (pt (5/8) (-1/2)))) PInf; ex_node] /\ s_iter s = 1%nat /\ s_ub s = PInf /\ s_calls s = 2%nat) by (eexists; split; [reflexivity|]; repeat split) end.
  destruct E as (s2 & -> & M & N & I & U & C). cbn [bind]. change (s_node (ex_head cost)) with 0%Z.
  erewrite (upd_int _ _ _ _ s2 0 [0%Z]); [|rewrite M; reflexivity|reflexivity|rewrite N; reflexivity|reflexivity|reflexivity|apply (ex_int_01 3 0 2); auto|rewrite N; reflexivity].
  cbn [bind s_iter]. rewrite I. cbn [Z.of_nat Pos.of_succ_nat].
  erewrite (upd_int _ _ _ _ _ 1 [1%Z]); [|cbn [s_mat]; rewrite M; reflexivity|reflexivity|cbn [s_nodes]; reflexivity|reflexivity|reflexivity|apply (ex_int_01 3 1 1); auto|reflexivity].
  cbn [bind s_iter s_node s_nodes s_mat s_opt s_lb s_ub s_calls]. rewrite U, C, M. reflexivity.
Qed.
Lemma ex_run cost opt0 :
  bnb_optimize (exS 3) ex_relax [0%nat] cost (repeat ex_node 3) opt0 0 =
  Ok (Optimal, (if ltb (cost (pt 1 1)) (cost (pt 0 2)) then pt 1 1 else pt 0 2), 4%nat).
Proof.
  unfold bnb_optimize. rewrite ex_root. fold (ex_head cost). change (b_max (exS 3)) with 3%nat. cbn [bind].
  assert (E1 : continue (exS 3) (ex_head cost) = true) by reflexivity.
  assert (E2 : continue (exS 3) (ex_last cost) = false).
  { unfold continue. cbn. destruct (ltb (cost (pt 1 1)) (cost (pt 0 2))); cbn; match goal with |- context[ltb 0 (?a - ?a)] => replace (ltb 0 (a - a)) with false; [reflexivity|] end; symmetry; apply ltb_false; lra. }
  assert (E3 : bnb_loop (exS 3) ex_relax [0%nat] cost 3 (ex_head cost) = Ok (ex_last cost)).
  { unfold bnb_loop at 1. rewrite E1, ex_body. cbn [bind]. rewrite E2. reflexivity. }
  rewrite E3. cbn. destruct (ltb (cost (pt 1 1)) (cost (pt 0 2))); reflexivity.
Qed.
Lemma ex_restrict d x : restrict exF [0%nat] [d] x <-> exF x /\ (d = 1%Z -> x 0%nat = 1) /\ (d = 0%Z -> x 0%nat = 0) /\ (d = (-1)%Z -> 0 <= x 0%nat <= 1).
Proof.
  split.
  - intros [HF HB]. split; [exact HF|]. exact (HB 0%nat 0%nat d eq_refl eq_refl).
  - intros [HF HB]. split; [exact HF|]. intros v i d' Hi Hd. destruct v as [|v]; [|destruct v; discriminate]. injection Hi as <-. injection Hd as <-. exact HB.
Qed.
Definition cost2 (x : nat -> R) : R := 2 * x 0%nat + x 1%nat.
Lemma ex_exact : exact_relaxation exF [0%nat] cost2 (/ 10) ex_relax.
Proof.
  intros k dec Hl Hd. destruct dec as [|d [|]]; try discriminate. unfold cost2. destruct (Hd d (or_introl eq_refl)) as [-> |[-> | ->]]; cbn [ex_relax fst snd]; (split; [apply ex_restrict; unfold exF; cbn [pt]; repeat split; try discriminate; lra|]);
  intros y Hy; apply ex_restrict in Hy as ([H1 H2] & A & B & C); cbn [pt].
  - rewrite A in * by reflexivity. lra.
  - rewrite B in * by reflexivity. lra.
  - specialize (C eq_refl). lra.
Qed.
(** The hypotheses of C18 are met by this problem and solver, and its conclusion is the true optimum b = 0, t = 2. *)
Example ex_C18 : exact_relaxation exF [0%nat] cost2 (b_tol (exS 3)) ex_relax /\
  bnb_optimize (exS 3) ex_relax [0%nat] cost2 (repeat ex_node 3) (pt 0 0) 0 = Ok (Optimal, pt 0 2, 4%nat).
Proof.
  split; [exact ex_exact|]. rewrite ex_run. replace (ltb (cost2 (pt 1 1)) (cost2 (pt 0 2))) with false; [reflexivity|]. symmetry. apply ltb_false. unfold cost2, pt. lra.
Qed.
(** A reached state with two nodes: the hypotheses of the C19 theorems are met. *)
Example ex_C19 : exists s, reached (exS 3) ex_relax [0%nat] cost2 (repeat ex_node 3) (pt 0 0) 0 s /\ s_iter s = 1%nat /\
  (forall k dec, length dec = length [0%nat] -> accepted (fst (ex_relax k dec)) = true -> in_box [0%nat] dec (snd (ex_relax k dec))).
Proof.
  exists (ex_last cost2). split; [eapply reached_body; [apply reached_root, ex_root|reflexivity|apply ex_body]|].
  split; [reflexivity|]. intros k dec Hl Ha. destruct dec as [|d [|]]; try discriminate. intros v i e Hi He. destruct v as [|v]; [|destruct v; discriminate]. injection Hi as <-. injection He as <-.
    destruct d as [|[p|p|]|[p|p|]]; cbn in *; try discriminate; repeat split; try discriminate; lra.
Qed.

(** C18, failure 1 (F10): the search compares costs with the equilibrated cost vector but unscaled solutions.  With exact relaxations of the
    true cost 2 b + t and the cost vector stored as c / e for the column factors e = (4, 1), it reports Optimal for b = 1 (cost 3) although
    b = 0 is feasible with cost 2. *)
Theorem C18_equilibrated_cost_refuted :
  exists S relax ids F c e nodes0 opt0,
    (forall i, 0 < e i) /\ exact_relaxation F ids (fun x => rsum 2 (fun i => c i * x i)) (b_tol S) relax /\
    exists x y n, bnb_optimize S relax ids (fun x => rsum 2 (fun i => c i / e i * x i)) nodes0 opt0 0 = Ok (Optimal, x, n) /\
      b_abs S = 0 /\ b_rel S = 0 /\ length nodes0 = b_max S /\ binary_point F ids y /\ rsum 2 (fun i => c i * y i) < rsum 2 (fun i => c i * x i).
Proof.
  exists (exS 3), ex_relax, [0%nat], exF, (pt 2 1), (pt 4 1), (repeat ex_node 3), (pt 0 0). split; [intros [|i]; cbn; lra|]. split.
  - intros k dec Hl Hd. pose proof (ex_exact k dec Hl Hd) as H. unfold cost2 in H. destruct (fst (ex_relax k dec)); cbn [rsum pt]; try exact H; (destruct H as [H1 H2]; split; [exact H1|]; intros y Hy; specialize (H2 y Hy); lra).
  - exists (pt 1 1), (pt 0 2), 4%nat. rewrite ex_run. split.
    { match goal with |- context[ltb ?a ?b] => replace (ltb a b) with true; [reflexivity|] end. symmetry. apply ltb_true. cbn. lra. }
    do 3 (split; [reflexivity|]). split; [split; [unfold exF; cbn; lra|intros i [<-|[]]; left; reflexivity]|cbn; lra].
Qed.
Print Assumptions C18_equilibrated_cost_refuted.

(** C18, failure 2 (F9): an infeasible relaxation whose last iterate looks integral is taken for a solution: Optimal is reported although
    nothing is feasible. *)
Theorem C18_infeasible_reported_optimal_refuted :
  exists S relax ids cost nodes0 opt0 x n, let F := fun _ : nat -> R => False in
    (forall k dec, fst (relax k dec) = PrimalInf) /\ length nodes0 = b_max S /\
    bnb_optimize S relax ids cost nodes0 opt0 0 = Ok (Optimal, x, n) /\ forall y, ~ binary_point F ids y.
Proof.
  exists (exS 3), (fun _ _ => (PrimalInf, pt 0 0)), [0%nat], cost2, (repeat ex_node 3), (pt 1 1), (pt 0 0), 1%nat. cbv zeta. split; [reflexivity|]. split; [reflexivity|]. split; [|intros y [[] _]].
  unfold bnb_optimize, bnb_root. cbn. rewrite (ex_int_01 3 0 0) by auto. cbn. unfold continue. cbn. replace (ltb 0 (cost2 (pt 0 0) - cost2 (pt 0 0))) with false; [reflexivity|]. symmetry. apply ltb_false. lra.
Qed.
Print Assumptions C18_infeasible_reported_optimal_refuted.

(** C18, failure 3 (F8): the incumbent found by rounding at the root is forgotten.  With a limit of one iteration the search has solved the
    rounded problem to optimality (it even returns that point), yet it reports the problem infeasible. *)
Theorem C18_root_incumbent_forgotten_refuted :
  exists S relax ids cost F nodes0 opt0 x n, exact_relaxation F ids cost (b_tol S) relax /\ length nodes0 = b_max S /\
    bnb_optimize S relax ids cost nodes0 opt0 0 = Ok (PrimalInfInacc, x, n) /\ binary_point F ids x.
Proof.
  exists (exS 1), ex_relax, [0%nat], cost2, exF, [ex_node], (pt 0 0), (pt 1 1), 2%nat. split; [exact ex_exact|]. split; [reflexivity|]. split.
  - unfold bnb_optimize, bnb_root. cbn. change (exS 1) with (exS 1). rewrite ex_int_r, ex_round. cbn. reflexivity.
  - split; [unfold exF; cbn; lra|]. intros i [<-|[]]. right. reflexivity.
Qed.
Print Assumptions C18_root_incumbent_forgotten_refuted.

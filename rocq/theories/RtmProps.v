(** * C29: the real-time model reduces, builds and solves its hierarchy faithfully *)
From Coq Require Import Reals List Arith ZArith Bool Lia Lra.
Import ListNotations.
From Verif Require Import Base BaseProofs ExprsModel ExprsProofs RtMatModel RtMatProofs HierModel HierSpec HierProofs HierProps RtmModel RtmSpec RtmProofs.
Local Open Scope R_scope.

(** reduceColumns keeps exactly the columns of the active variables, in order. *)
Theorem C29_reduce_columns : forall A (flags : list Z) (columns : list A), length columns = length flags ->
  reduce_list flags columns = map snd (filter (fun x => (0 <=? fst x)%Z) (combine flags columns)).
Proof. intros. now apply reduce_list_spec. Qed.
(** The reduced rows at a reduced vector have the value of the full rows at the expanded vector, with inactive variables at zero. *)
Theorem C29_reduced_residual : forall flags n rows m rows', reduce_rows flags n rows = Ok (m, rows') ->
  m = active_before flags n /\ length rows' = length rows /\
  forall i x, (i < length rows)%nat -> row_at m (nth i rows' ((fun _ => 0), 0)) x = row_at n (nth i rows ((fun _ => 0), 0)) (expand flags x).
Proof.
  intros flags n rows m rows' H. destruct (reduce_rows_spec _ _ _ _ _ H) as (_ & E2 & E3 & _). split; [exact E2|]. split; [exact E3|].
  intros. exact (reduced_residual _ _ _ _ _ H _ _ H0).
Qed.
(** The inequality slack is the norm of the positive part, and zero exactly when no inequality is violated. *)
Theorem C29_inequality_slack : forall d, let '(d', s) := inequalitySlack d in
  vn d' = vn d /\ (forall i, va d' i = Rmax 0 (va d i)) /\ s = sqrt (rsum (vn d) (fun i => Rmax 0 (va d i) * Rmax 0 (va d i))) /\
  (s = 0 <-> forall i, (i < vn d)%nat -> va d i <= 0).
Proof.
  intros d. unfold inequalitySlack. cbn [vn va].
  assert (P : forall i, (if Rle_dec (va d i) 0 then va d i * 0 else va d i * 1) = Rmax 0 (va d i)).
  { intros i. destruct (Rle_dec (va d i) 0); [rewrite Rmax_left by lra|rewrite Rmax_right by lra]; ring. }
  assert (E : rsum (vn d) (fun i => (if Rle_dec (va d i) 0 then va d i * 0 else va d i * 1) * (if Rle_dec (va d i) 0 then va d i * 0 else va d i * 1)) = rsum (vn d) (fun i => Rmax 0 (va d i) * Rmax 0 (va d i))).
  { apply rsum_ext; intros. now rewrite P. }
  split; [reflexivity|]. split; [exact P|]. rewrite E. split; [reflexivity|]. split.
  - intros H i Hi. apply sqrt_eq_0 in H; [|apply rsum_nonneg; intros; apply Rle_0_sqr]. pose proof (rsum_sq_zero _ _ H i Hi). rewrite <- H0. apply Rmax_r.
  - intros H. rewrite rsum_zero; [apply sqrt_0|]. intros i Hi. rewrite Rmax_left by auto. ring.
Qed.
(** Appending the rows of one rank: exactly those rows, in order, shifted to the starting column. *)
Theorem C29_append_rows_of_rank : forall cap n rank ranks mcols mrows col rows rows', append_rows_of_rank cap n rank ranks mcols mrows col rows = Ok rows' ->
  (length rows <= cap)%nat ->
  exists new, rows' = rows ++ new /\ length new = length (filter (fun x => fst x =? rank)%Z (combine ranks mrows)) /\ (length rows' <= cap)%nat /\
  forall i r, nth_error (map snd (filter (fun x => fst x =? rank)%Z (combine ranks mrows))) i = Some r ->
    exists r', nth_error new i = Some r' /\ forall x, row_at n r' x = row_at mcols r (fun j => x (col + j)%nat).
Proof.
  intros cap n rank ranks mcols mrows col rows rows' H Hc. unfold append_rows_of_rank in H. set (sel := filter (fun x => fst x =? rank)%Z (combine ranks mrows)) in *.
  destruct (Nat.eqb_spec (length sel) 0) as [E|E].
  - injection H as <-. exists []. rewrite app_nil_r. repeat split; auto. intros i r Hi. destruct sel; [destruct i; discriminate|discriminate].
  - apply guard_ok in H. destruct H as [G H]. injection H as <-. rewrite !andb_true_iff, !Nat.leb_le in G. destruct G as [[G1 G2] G3].
    eexists. split; [reflexivity|]. rewrite app_length, map_length. repeat split; auto.
    intros i r Hi. rewrite nth_error_map in Hi. destruct (nth_error sel i) as [x|] eqn:Es; [|discriminate]. cbn in Hi. injection Hi as <-. eexists. split; [apply (map_nth_error _ i sel Es)|].
    intros y. unfold row_at. cbn [fst snd]. f_equal. replace n with (col + (mcols + (n - col - mcols)))%nat by lia. rewrite !rsum_split, (rsum_zero col), (rsum_zero (n - col - mcols)).
    + rewrite Rplus_0_l, Rplus_0_r. apply rsum_ext; intros j Hj. destruct (Nat.leb_spec col (col + j)); [|lia]. destruct (Nat.ltb_spec (col + j) (col + mcols)); [|lia]. cbn [andb]. f_equal. f_equal. lia.
    + intros j Hj. destruct (Nat.ltb_spec (col + (mcols + j)) (col + mcols)); [lia|]. rewrite andb_false_r. ring.
    + intros j Hj. destruct (Nat.leb_spec col j); [lia|]. cbn [andb]. ring.
Qed.

(** Every constraint added through addLinConstr is expressed by a row of the task of its rank, unless all its active coefficients are negligible. *)
Theorem C29_constraints_reach_their_task : forall capIneq capEq n flags comps calls c rank slack t,
  add_calls calls clean_cons = Ok c -> build_task capIneq capEq n flags comps c rank slack = Ok t ->
  (forall k, In k calls -> active_size flags n (difference k) <> length_thresh) ->
  (forall p r, In p comps -> In r (cp_eq p rank) \/ In r (cp_ineq p rank) -> rsum n (fun j => if is_active flags j then Rabs (fst r j) else 0) <> length_thresh) ->
  forall k, In k calls -> c_rank k = rank -> active_size flags n (difference k) < length_thresh \/ expresses flags t k.
Proof.
  intros capIneq capEq n flags comps calls c rank slack t Hc Ht Hb Hp k Hk Hr.
  destruct (add_calls_leq calls clean_cons c Hc) as (So & Le & Li). destruct (build_task_halves _ _ _ _ _ _ _ _ _ Ht) as (m & mi & oE & oI & HE & HI & ->).
  assert (NE : forall x, In x (leq c) -> NoDup (map fst (le_terms (snd x)))).
  { intros x Hx. apply Le in Hx. destruct Hx as [[]|(k' & _ & _ & ->)]. apply difference_nodup. }
  assert (NI : forall x, In x (lineq c) -> NoDup (map fst (le_terms (snd x)))).
  { intros x Hx. apply Li in Hx. destruct Hx as [[]|(k' & _ & _ & ->)]. apply difference_nodup. }
  assert (BE : forall x, In x (leq c) -> fst x = rank -> active_size flags n (snd x) <> length_thresh).
  { intros x Hx _. apply Le in Hx. destruct Hx as [[]|(k' & A & _ & ->)]. apply Hb. exact A. }
  assert (BI : forall x, In x (lineq c) -> fst x = rank -> active_size flags n (snd x) <> length_thresh).
  { intros x Hx _. apply Li in Hx. destruct Hx as [[]|(k' & A & _ & ->)]. apply Hb. exact A. }
  assert (PE : forall r, In r (flat_map (fun p => cp_eq p rank) comps) -> rsum n (fun j => if is_active flags j then Rabs (fst r j) else 0) <> length_thresh).
  { intros r Hr'. apply in_flat_map in Hr'. destruct Hr' as (p & A & B). eapply Hp; eauto. }
  assert (PI : forall r, In r (flat_map (fun p => cp_ineq p rank) comps) -> rsum n (fun j => if is_active flags j then Rabs (fst r j) else 0) <> length_thresh).
  { intros r Hr'. apply in_flat_map in Hr'. destruct Hr' as (p & A & B). eapply Hp; eauto. }
  unfold expresses. cbn [t_E t_e t_C t_c]. destruct (c_sense k) eqn:Es.
  - assert (X : In (c_rank k, difference k) (leq c)) by (apply Le; right; exists k; auto).
    destruct (half_rows _ _ _ _ _ _ _ _ _ HE NE BE PE _ X Hr) as [?|(i & Hi & V)]; [left; assumption|right]. exists i. split; [exact Hi|].
    intros x. rewrite to_mat_row by exact Hi. rewrite V. cbn [snd]. unfold difference. rewrite Es. apply le_sub_value.
  - assert (X : In (c_rank k, difference k) (lineq c)) by (apply Li; right; exists k; auto).
    destruct (half_rows _ _ _ _ _ _ _ _ _ HI NI BI PI _ X Hr) as [?|(i & Hi & V)]; [left; assumption|right]. exists i. split; [exact Hi|].
    intros x. rewrite to_mat_row by exact Hi. rewrite V. cbn [snd]. unfold difference. rewrite Es. apply le_sub_value.
  - assert (X : In (c_rank k, difference k) (lineq c)) by (apply Li; right; exists k; auto).
    destruct (half_rows _ _ _ _ _ _ _ _ _ HI NI BI PI _ X Hr) as [?|(i & Hi & V)]; [left; assumption|right]. exists i. split; [exact Hi|].
    intros x. rewrite to_mat_row by exact Hi. rewrite V. cbn [snd]. unfold difference. rewrite Es. apply le_sub_value.
  - exfalso. exact (So k Hk Es).
Qed.
(** Without composers every row of a task expresses one of the calls of its rank. *)
Theorem C29_no_other_rows : forall capIneq capEq n flags calls c rank slack t,
  add_calls calls clean_cons = Ok c -> build_task capIneq capEq n flags [] c rank slack = Ok t ->
  (forall k, In k calls -> active_size flags n (difference k) <> length_thresh) ->
  (forall i, (i < nr (t_E t))%nat -> exists k, In k calls /\ c_rank k = rank /\ c_sense k = SEq /\
     forall x, row_value (t_E t) (t_e t) i x = 0 <-> satisfied SEq (le_value (expand flags (va x)) (c_lhs k)) (le_value (expand flags (va x)) (c_rhs k))) /\
  (forall i, (i < nr (t_C t))%nat -> exists k, In k calls /\ c_rank k = rank /\ (c_sense k = SLt \/ c_sense k = SGt) /\
     forall x, row_value (t_C t) (t_c t) i x <= 0 <-> satisfied (c_sense k) (le_value (expand flags (va x)) (c_lhs k)) (le_value (expand flags (va x)) (c_rhs k))).
Proof.
  intros capIneq capEq n flags calls c rank slack t Hc Ht Hb.
  destruct (add_calls_leq calls clean_cons c Hc) as (So & Le & Li). destruct (build_task_halves _ _ _ _ _ _ _ _ _ Ht) as (m & mi & oE & oI & HE & HI & ->). cbn [flat_map] in *.
  split; intros i Hi; cbn [t_E t_C to_mat nr] in Hi.
  - destruct (half_rows_back _ _ _ _ _ _ _ HE) with (i := i) as (x & X1 & X2 & X3); auto.
    + intros y Hy. apply Le in Hy. destruct Hy as [[]|(k' & _ & _ & ->)]. apply difference_nodup.
    + intros y Hy _. apply Le in Hy. destruct Hy as [[]|(k' & A & _ & ->)]. now apply Hb.
    + apply Le in X1. destruct X1 as [[]|(k & K1 & K2 & ->)]. exists k. cbn [fst snd] in *. repeat split; auto; cbn [t_E t_e]; rewrite (to_mat_row _ _ _ _ Hi), X3; unfold difference; rewrite K2, le_sub_value; cbn; lra.
  - destruct (half_rows_back _ _ _ _ _ _ _ HI) with (i := i) as (x & X1 & X2 & X3); auto.
    + intros y Hy. apply Li in Hy. destruct Hy as [[]|(k' & _ & _ & ->)]. apply difference_nodup.
    + intros y Hy _. apply Li in Hy. destruct Hy as [[]|(k' & A & _ & ->)]. now apply Hb.
    + apply Li in X1. destruct X1 as [[]|(k & K1 & K2 & ->)]. exists k. cbn [fst snd] in *. split; [exact K1|]. split; [exact X2|]. split; [exact K2|].
      intros y. cbn [t_C t_c]. rewrite (to_mat_row _ _ _ _ Hi), X3. unfold difference. destruct K2 as [K2|K2]; rewrite K2, le_sub_value; cbn; lra.
Qed.

(** solve() hands over the tasks of the ranks 0, 1, 2, ... in order, each once, starting from a reset solver, until the last rank, an unsolved task or an
    empty null space; it counts the solved ones and ends. *)
Theorem C29_solve : forall nullmap qp least_norm relax diag capIneq capEq capA n flags nopt comps noslack fuel c slack s r,
  solve nullmap qp least_norm relax diag capIneq capEq capA n flags nopt comps noslack fuel c slack s = Some (Ok r) ->
  exists k, length (r_tasks r) = S k /\
    (forall i, (i <= k)%nat -> exists t, nth_error (r_tasks r) i = Some t /\ build_task capIneq capEq n flags comps c (Z.of_nat i) (if (length noslack =? 0)%nat then slack else true) = Ok t) /\
    h_run nullmap qp least_norm relax diag capA capEq (r_tasks r) (h_reset nopt) = Ok (r_state r) /\
    r_solved r = (if r_valid r then S k else k) /\ (Z.of_nat k <= max_rank c comps)%Z /\
    (r_valid r = true -> Z.of_nat k = max_rank c comps \/ nc (h_K (r_state r)) = 0%nat).
Proof.
  intros nullmap qp ln relax diag capIneq capEq capA n flags nopt comps noslack fuel c slack s r H.
  destruct (loop_spec nullmap qp ln relax diag capIneq capEq capA n flags nopt comps noslack c slack fuel 0 s 0 [] r H eq_refl eq_refl ltac:(lia)) as (k & K1 & K2 & K3 & K4 & K5 & K6 & K7 & K8).
  assert (Kb : (Z.of_nat k <= max_rank c comps)%Z).
  { destruct k; [|specialize (K8 k ltac:(lia)); apply ranks_left_spec in K8; lia]. unfold max_rank. clear. generalize (map fst (leq c) ++ map fst (lineq c) ++ map cp_max comps). induction l; cbn; lia. }
  exists k. split; [exact K2|]. split; [intros i Hi; apply (K4 i); lia|]. repeat split; auto.
  intros Hv. destruct (K7 Hv) as [E|E]; [left|right; exact E].
  destruct (Z_lt_le_dec (Z.of_nat k) (max_rank c comps)) as [L|L]; [|lia]. apply (ranks_left_spec comps c (Z.of_nat k) ltac:(lia)) in L. congruence.
Qed.
Theorem C29_solve_terminates : forall nullmap qp least_norm relax diag capIneq capEq capA n flags nopt comps noslack fuel c slack s,
  (max_rank c comps < Z.of_nat fuel)%Z ->
  solve nullmap qp least_norm relax diag capIneq capEq capA n flags nopt comps noslack fuel c slack s <> None.
Proof.
  intros. assert (0 <= max_rank c comps)%Z by (unfold max_rank; generalize (map fst (leq c) ++ map fst (lineq c) ++ map cp_max comps); induction l; cbn; lia).
  unfold solve. apply (loop_ends nullmap qp least_norm relax diag capIneq capEq capA n flags nopt comps noslack c fuel 0); lia.
Qed.
(** With C28: the final solution gives an equality constraint the value it had right after its own rank. *)
Theorem C29_equalities_survive : forall nullmap qp least_norm relax diag capIneq capEq capA n flags nopt comps noslack fuel calls c slack s r,
  null_space nullmap -> add_calls calls clean_cons = Ok c ->
  solve nullmap qp least_norm relax diag capIneq capEq capA n flags nopt comps noslack fuel c slack s = Some (Ok r) ->
  (forall k, In k calls -> active_size flags n (difference k) <> length_thresh) -> comps = [] ->
  forall k i, In k calls -> c_sense k = SEq -> c_rank k = Z.of_nat i -> (i < length (r_tasks r))%nat -> length_thresh < active_size flags n (difference k) ->
  exists si, h_run nullmap qp least_norm relax diag capA capEq (firstn (S i) (r_tasks r)) (h_reset nopt) = Ok si /\
    le_value (expand flags (va (h_x (r_state r)))) (c_lhs k) - le_value (expand flags (va (h_x (r_state r)))) (c_rhs k)
    = le_value (expand flags (va (h_x si))) (c_lhs k) - le_value (expand flags (va (h_x si))) (c_rhs k).
Proof.
  intros nullmap qp ln relax diag capIneq capEq capA n flags nopt comps noslack fuel calls c slack s r NS Hc H Hb Ecomps k i Hk Hs Hr Hi Hbig.
  destruct (C29_solve _ _ _ _ _ _ _ _ _ _ _ _ _ _ _ _ _ _ H) as (kk & L & T & Run & _). subst comps.
  destruct (T i ltac:(lia)) as (t & Ht & Bt).
  destruct (C29_constraints_reach_their_task _ _ _ _ _ _ _ _ _ _ Hc Bt Hb ltac:(intros ? ? []) k Hk Hr) as [Lo|Ex]; [lra|].
  unfold expresses in Ex. rewrite Hs in Ex. destruct Ex as (j & Hj & V).
  assert (Sp : r_tasks r = firstn i (r_tasks r) ++ t :: skipn (S i) (r_tasks r)) by (rewrite <- (firstn_skipn i (r_tasks r)) at 1; f_equal; now apply skipn_nth).
  rewrite Sp in Run. destruct (h_run_app _ _ _ _ _ _ _ _ _ _ _ Run) as (s0 & R0 & R1). destruct (h_run_cons _ _ _ _ _ _ _ _ _ _ _ R1) as (s1 & b & H1 & R2).
  exists s1. split.
  - rewrite (firstn_snoc _ _ _ _ Ht). eapply run_snoc; eassumption.
  - rewrite <- !V. exact (C28_equalities_preserved _ _ _ _ _ _ _ _ _ _ _ _ _ _ _ NS R0 H1 R2 j Hj).
Qed.

(** Problems that fit the capacities fail no assertion and solve() returns. *)
Theorem C29_no_assertion : forall nullmap qp least_norm relax diag capIneq capEq capA n flags noslack fuel calls c s,
  (forall B, nr (nullmap B) = nc B) -> length flags = n -> add_calls calls clean_cons = Ok c ->
  (forall k, In k calls -> vars_below n (c_lhs k) /\ vars_below n (c_rhs k)) ->
  (length (leq c) <= capEq)%nat -> (length (lineq c) <= capIneq)%nat -> (length (lineq c) <= capA)%nat -> (max_rank c [] < Z.of_nat fuel)%Z ->
  exists r, solve nullmap qp least_norm relax diag capIneq capEq capA n flags (active_before flags n) [] noslack fuel c true s = Some (Ok r).
Proof.
  intros nullmap qp ln relax diag capIneq capEq capA n flags noslack fuel calls c s NR Hl Hc Hv He Hi Ha Hm.
  assert (0 <= max_rank c [])%Z by (unfold max_rank; generalize (map fst (leq c) ++ map fst (lineq c) ++ map cp_max []); induction l; cbn; lia).
  unfold solve. change 0%Z with (Z.of_nat 0). apply loop_ok; auto; try lia.
  - assert (Db : forall k, In k calls -> vars_below n (difference k)).
    { intros k Hk. destruct (Hv k Hk) as [V1 V2]. assert (G : forall a b, vars_below n a -> vars_below n b -> vars_below n (le_sub a b)).
      { intros a b Va Vb t Ht. assert (In (fst t) (map fst (le_terms a)) \/ In (fst t) (map fst (le_terms b))) as [Hin|Hin].
        { unfold le_sub in Ht. apply (in_map fst) in Ht. apply le_add_incl in Ht. destruct Ht as [Ht|Ht]; [left; exact Ht|right]. now apply le_scale_incl in Ht. }
        - apply in_map_iff in Hin. destruct Hin as (u & <- & Hu). now apply Va.
        - apply in_map_iff in Hin. destruct Hin as (u & <- & Hu). now apply Vb. }
      unfold difference. destruct (c_sense k); now apply G. }
    destruct (add_calls_leq _ _ _ Hc) as (_ & Le & Li). intros x [Hx|Hx]; [apply Le in Hx; destruct Hx as [[]|(k & A & _ & ->)]|apply Li in Hx; destruct Hx as [[]|(k & A & _ & ->)]]; now apply Db.
  - cbn [Nat.eqb]. pose proof (from_rank_le (Z.of_nat 0) (lineq c)). lia.
Qed.

(** The request to solve some ranks without slacks is ignored: the flag is set back after the search (finding F19). *)
Theorem C29_ranks_without_slacks_refuted : forall noslack rank flag, In rank noslack -> check_slackness noslack rank flag = true.
Proof. reflexivity. Qed.
(** A constraint with a negative rank is accepted and never used. *)
Theorem C29_negative_rank_refuted : exists k c, (c_rank k < 0)%Z /\ add_calls [k] clean_cons = Ok c /\ (exists x, ~ satisfied (c_sense k) (le_value x (c_lhs k)) (le_value x (c_rhs k))) /\
  forall capIneq capEq n flags rank slack, (0 <= rank)%Z -> build_task capIneq capEq n flags [] c rank slack = build_task capIneq capEq n flags [] clean_cons rank slack.
Proof.
  exists (mkCall (le_of_var 0 1) SEq (le_of_const 1) (-1)). eexists. split; [reflexivity|]. split; [reflexivity|]. split.
  - exists (fun _ => 0). cbn. lra.
  - intros. unfold build_task, add_costs. cbn [leq lineq clean_cons filter fst app map c_rank c_lhs c_rhs c_sense]. destruct (Z.eqb_spec (-1) rank); [lia|]. reflexivity.
Qed.

(** Non-vacuity: variables 0 and 2 active, 1 not; x0 + x1 - x2 = 3 at rank 0 and x0 < 5 at rank 1. *)
Definition demo_calls : list call :=
  [mkCall (mkLE 0 [(0%nat, 1); (1%nat, 1); (2%nat, -1)]) SEq (le_of_const 3) 0; mkCall (le_of_var 0 1) SLt (le_of_const 5) 1].
Example C29_demo_reduce : reduce_rows [0; -1; 1]%Z 3 [((fun j => INR j), 7)] = Ok (2%nat, snd (2%nat, [((fun j => nth 0 (nth j [[INR 0]; [INR 2]] []) 0), 7)])).
Proof. reflexivity. Qed.
Lemma demo_cons : exists c, add_calls demo_calls clean_cons = Ok c.
Proof. eexists. reflexivity. Qed.
Example C29_demo_solve : forall qp, exists c r, add_calls demo_calls clean_cons = Ok c /\
  solve (fun B => Mat (nc B) 1 (fun _ _ => 0)) qp (fun _ _ => v_zero 0) (/ 1000000) (/ 100000000) 4 4 8 3 [0; -1; 1]%Z 2 [] [] 2 c true (h_reset 2) = Some (Ok r).
Proof.
  intros qp. destruct demo_cons as [c Hc]. destruct (add_calls_leq _ _ _ Hc) as (_ & Le & Li).
  assert (L1 : length (leq c) = 1%nat /\ length (lineq c) = 1%nat /\ max_rank c [] = 1%Z) by (injection Hc as <-; repeat split).
  destruct L1 as (L1 & L2 & L3).
  destruct (C29_no_assertion (fun B => Mat (nc B) 1 (fun _ _ => 0)) qp (fun _ _ => v_zero 0) (/ 1000000) (/ 100000000) 4 4 8 3 [0; -1; 1]%Z [] 2 demo_calls c (h_reset 2)) as [r Hr]; auto; try lia.
  - intros k [<-|[<-|[]]]; split; intros t; cbn; intros Ht; repeat (destruct Ht as [<-|Ht]; [cbn; lia|]); destruct Ht.
  - exists c, r. split; [exact Hc|exact Hr].
Qed.
Print Assumptions C29_reduced_residual.
Print Assumptions C29_constraints_reach_their_task.
Print Assumptions C29_solve.
Print Assumptions C29_equalities_survive.
Print Assumptions C29_no_assertion.

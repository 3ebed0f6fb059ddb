(** * Properties C02-C06, C50, C51: the compiled conic program
    Vocabulary ([call_holds], [binaries_ok], [user_obj], [std_feasible], ...) is in ConicSpec.v. *)
From Coq Require Import String Reals List Arith Bool Lra Lia.
From Verif Require Import ExprsModel ExprsProofs ConicModel ConicSpec ConicProofs ConicProofs2 ConicProofs3 ConicProofs4
  ConicProofs5 ConicProofs6.
Import ListNotations.
Open Scope R_scope.

(** C02: a linear model compiles to exactly the user's feasible set. *)
Theorem C02_linear_feasible_set_exact :
  forall thr w iter warm cs x,
    scoped cs -> (forall c, In c cs -> linear_call c) -> (forall c, In c cs -> call_not_absurd c) ->
    compiled_feasible thr w iter warm cs x <-> (forall c, In c cs -> call_holds x c) /\ binaries_ok cs x.
Proof. exact linear_iff. Qed.

(** C02 (any model): every feasible point of the compiled problem satisfies every constraint, and every point satisfying
    the constraints extends, on the auxiliary columns only, to a feasible point of the compiled problem. *)
Theorem C02_feasible_set_projection :
  forall thr w iter warm cs x,
    scoped cs -> (forall c, In c cs -> call_convex c) -> (forall c, In c cs -> call_not_absurd c) -> 0 <= w ->
    (compiled_feasible thr w iter warm cs x ->
       (forall c, In c cs -> call_holds x c) /\ binaries_ok cs x /\
       (warm = false -> forall c, In c cs -> trust_holds (p_env (run_calls cs cp_init)) thr iter x c)) /\
    ((forall c, In c cs -> call_holds x c) -> binaries_ok cs x ->
     (warm = false -> forall c, In c cs -> trust_holds (p_env (run_calls cs cp_init)) thr iter x c) ->
     exists x', (forall c, In c (user_cols cs) -> x' c = x c) /\ compiled_feasible thr w iter warm cs x').
Proof.
  intros thr w iter warm cs x HS HC HA Hw. split.
  - intros HF. destruct (compiled_sound thr w iter warm cs x HS HC HA Hw HF) as (S1 & S2 & S3 & _). auto.
  - intros H1 H2 H3. destruct (compiled_complete thr w iter warm cs x HS H1 H2 H3) as (x' & A & F & _). eauto.
Qed.

(** C02 without the restriction on constant constraints is false: "1 <= 0" is accepted and ignored. *)
Theorem C02_constant_constraint_refuted :
  exists cs x, scoped cs /\ (forall c, In c cs -> linear_call c) /\
    (forall thr w iter warm, compiled_feasible thr w iter warm cs x) /\
    exists c, In c cs /\ ~ call_holds x c.
Proof.
  set (cs := [CAddVar Continuous 0 10 0; CAddLin (le_of_const 1) "<" (le_of_const 0)]).
  assert (S : scoped cs).
  { apply scoped_check. simpl. repeat split; intros ? []. }
  exists cs, (fun _ => 0). split; [exact S|]. split; [|split].
  - intros c [<-|[<-|[]]]; exact I.
  - intros thr w iter warm. unfold compiled_feasible. cbv zeta.
    rewrite feasible_iff by (apply (i_wf _ _ (history_inv cs S))).
    assert (E : run_calls cs cp_init = mkP [mkVar Continuous 0 10 0 0] [] [] [le_sub (le_of_const 1) (le_of_const 0)] [] [] q_empty 0 0 [] []).
    { unfold cs, run_calls. cbn [fold_left do_call]. unfold cp_addVar. destruct (Rlt_dec 10 0); [lra|].
      unfold clamp_guess. destruct (Rlt_dec 0 0); [lra|]. destruct (Rlt_dec 10 0); [lra|]. reflexivity. }
    rewrite E. unfold lin_ok, bin_ok, objq_ok, approx_ok. cbn [p_leq p_lineq p_bin p_qineq p_soc p_obj q_empty q_terms].
    split; [split; [intros ? []|]|].
    + intros e [<-|[]]. unfold row_lin. unfold le_sub, le_scale. destruct (is_zero (-1)); simpl; lra.
    + split; [intros [|i] c Hc; discriminate|]. split; [intros ? []|]. split; [intros ? []|].
      split; [intros [|k] t Hk; discriminate|]. intros _; split; intros ? [].
  - exists (CAddLin (le_of_const 1) "<" (le_of_const 0)). split; [simpl; auto|].
    intros (_ & H & _). specialize (H eq_refl). unfold aval in H. simpl in H. lra.
Qed.

(** C03: a second-order cone constraint sqrt(sum L_i^2) + lexpr <= R holds at every compiled-feasible point, in the
    squared form sum L_i^2 <= (R - lexpr)^2, R - lexpr >= 0; completeness is the second half of C02_feasible_set_projection. *)
Theorem C03_soc_constraint_exact :
  forall thr w iter warm cs q l,
    scoped cs -> (forall c, In c cs -> call_convex c) -> (forall c, In c cs -> call_not_absurd c) -> 0 <= w ->
    In (CAddSoc q "<" l) cs ->
    forall x, compiled_feasible thr w iter warm cs x ->
      0 <= aval x l - aval x (q_lexpr q) /\
      sq x (q_terms q) <= (aval x l - aval x (q_lexpr q)) * (aval x l - aval x (q_lexpr q)).
Proof.
  intros thr w iter warm cs q l HS HC HA Hw Hin x HF.
  destruct (compiled_sound thr w iter warm cs x HS HC HA Hw HF) as (S1 & _).
  specialize (S1 _ Hin eq_refl).
  assert (P : 0 <= sq x (q_terms q)).
  { unfold sq. clear. induction (q_terms q) as [|t ts IH]; cbn [map]; [simpl; lra|]. rewrite sumR_cons.
    assert (Z := Rle_0_sqr (aval x (snd t))). unfold Rsqr in Z. lra. }
  assert (Q := sqrt_pos (sq x (q_terms q))). split; [lra|].
  rewrite <- (sqrt_sqrt _ P) at 1. apply Rmult_le_compat; lra.
Qed.

(** C03, cone block level: for any values v0..vn of a block, membership used by the solver is exactly the
    second-order cone  v1^2+...+vn^2 <= v0^2, v0 >= 0. *)
Theorem C03_block_is_second_order_cone :
  forall v n, in_soc v n <->
    0 <= v 0%nat /\ sumR (map (fun j => v j * v j) (seq 1 (n - 1))) <= v 0%nat * v 0%nat.
Proof.
  intros v n. unfold in_soc. set (S := sumR _).
  assert (P : 0 <= S).
  { unfold S. induction (seq 1 (n - 1)) as [|j js IH]; cbn [map]; [simpl; lra|]. rewrite sumR_cons.
    assert (Z := Rle_0_sqr (v j)). unfold Rsqr in Z. lra. }
  split.
  - intros H. assert (Q := sqrt_pos S). split; [lra|]. rewrite <- (sqrt_sqrt _ P) at 1. apply Rmult_le_compat; lra.
  - intros [H1 H2]. rewrite <- (sqrt_Rsqr (v 0%nat)) by assumption. apply sqrt_le_1_alt. exact H2.
Qed.

(** C04: the rotated block (1+t, t-1, 2L) is the epigraph of L^2. *)
Theorem C04_epigraph_block :
  forall t L : R, in_soc (fun j => match j with 0 => 1 + t | 1 => -1 + t | _ => 2 * L end) 3 <-> L * L <= t.
Proof.
  intros t L. rewrite (in_soc_ext _ (rowat [ (fun x : nat -> R => 1 + x 0%nat); (fun x => -1 + x 0%nat); (fun _ => 2 * L) ] (fun _ => t))).
  - rewrite rot_iff. replace (2 * L / 2) with L by field. reflexivity.
  - lia.
  - intros [|[|[|j]]] Hj; try reflexivity. lia.
Qed.

(** C04: an optimal point of the compiled problem is feasible and optimal for the user's problem, with the same optimal
    value; and every user optimum extends to a compiled optimum.  With [warm = true] the cost is the user's objective; with
    [warm = false] the documented soft-constraint penalties (squares of the linear models) are added. *)
Theorem C04_optimum_equivalence :
  forall thr w iter warm cs x,
    scoped cs -> (forall c, In c cs -> call_convex c) -> (forall c, In c cs -> call_not_absurd c) -> 0 <= w ->
    let env := p_env (run_calls cs cp_init) in
    let feas y := (forall c, In c cs -> call_holds y c) /\ binaries_ok cs y /\
                  (warm = false -> forall c, In c cs -> trust_holds env thr iter y c) in
    let cost y := user_obj cs y + (if warm then 0 else sumR (map (soft_penalty env w y) cs)) in
    (compiled_feasible thr w iter warm cs x ->
     (forall y, compiled_feasible thr w iter warm cs y ->
        compiled_objective thr w iter warm cs x <= compiled_objective thr w iter warm cs y) ->
     feas x /\ (forall y, feas y -> cost x <= cost y) /\
     compiled_objective thr w iter warm cs x + obj_const cs = cost x) /\
    (feas x -> (forall y, feas y -> cost x <= cost y) ->
     exists x', (forall c, In c (user_cols cs) -> x' c = x c) /\ compiled_feasible thr w iter warm cs x' /\
       (forall y, compiled_feasible thr w iter warm cs y ->
          compiled_objective thr w iter warm cs x' <= compiled_objective thr w iter warm cs y)).
Proof.
  intros thr w iter warm cs x HS HC HA Hw env feas cost.
  split; [exact (optimum thr w iter warm cs x HS HC HA Hw)|exact (optimum_back thr w iter warm cs x HS HC HA Hw)].
Qed.

(** C05 is false: a continuous variable declared in [0,1] may take the value 5 in the compiled problem. *)
Theorem C05_declared_bounds_refuted :
  exists cs x, scoped cs /\ In (0%nat, Continuous) (issued cs cp_init) /\ cs = [CAddVar Continuous 0 1 0] /\
    x 0%nat = 5 /\ forall thr w iter warm, compiled_feasible thr w iter warm cs x.
Proof.
  set (cs := [CAddVar Continuous 0 1 0]).
  assert (S : scoped cs) by (apply scoped_check; simpl; auto).
  assert (IS : issued cs cp_init = [(0%nat, Continuous)]).
  { simpl. destruct (Rlt_dec 1 0); [lra|reflexivity]. }
  exists cs, (fun _ => 5). split; [exact S|]. split; [rewrite IS; simpl; auto|]. split; [reflexivity|]. split; [reflexivity|].
  intros thr w iter warm. apply linear_iff; [exact S|intros c [<-|[]]; exact I|intros c [<-|[]]; exact I|].
  split; [intros c [<-|[]]; exact I|]. intros c. rewrite IS. intros [E|[]]. discriminate.
Qed.

(** C05 is false for binary variables too: their declared bounds are replaced by [0,1]. *)
Theorem C05_declared_binary_bounds_refuted :
  exists cs x, scoped cs /\ cs = [CAddVar Binary 0 0 0] /\ x 0%nat = 1 /\ forall thr w iter warm, compiled_feasible thr w iter warm cs x.
Proof.
  set (cs := [CAddVar Binary 0 0 0]).
  assert (S : scoped cs) by (apply scoped_check; simpl; auto).
  assert (IS : issued cs cp_init = [(0%nat, Binary)]).
  { simpl. destruct (Rlt_dec 0 0); [lra|reflexivity]. }
  exists cs, (fun _ => 1). split; [exact S|]. split; [reflexivity|]. split; [reflexivity|].
  intros thr w iter warm. apply linear_iff; [exact S|intros c [<-|[]]; exact I|intros c [<-|[]]; exact I|].
  split; [intros c [<-|[]]; exact I|]. intros c _. lra.
Qed.

(** C05, what does hold: in every compiled-feasible point of every model each binary variable is in [0,1], hence within its
    declared bounds when these are [0,1] or wider.  Missing: continuous variables. *)
Theorem C05_binary_bounds_partial :
  forall thr w iter warm cs x, scoped cs -> compiled_feasible thr w iter warm cs x -> binaries_ok cs x.
Proof.
  intros thr w iter warm cs x HS HF. unfold compiled_feasible in HF. cbv zeta in HF.
  apply feasible_iff in HF; [|apply (i_wf _ _ (history_inv cs HS))]. destruct HF as (_ & F2 & _). apply bin_iff; assumption.
Qed.

(** C06: sizes, and every write is in range, for every history (rejected calls included). *)
Theorem C06_dimensions_and_memory :
  forall thr w iter warm cs, scoped cs ->
    let p := run_calls cs cp_init in
    let s := cp_build thr w iter warm p in
    s_ok s = true /\
    s_n s = sumn (map cols_of_call cs) /\
    s_me s = List.length (p_leq p) /\
    s_m s = (b_nlineq p warm + sumn (b_q p warm))%nat /\
    (forall r c v, In (r, c, v) (s_A s) -> (r < s_me s)%nat /\ (c < s_n s)%nat) /\
    (forall r c v, In (r, c, v) (s_G s) -> (r < s_m s)%nat /\ (c < s_n s)%nat).
Proof.
  intros thr w iter warm cs HS p s. assert (I := history_inv cs HS). fold p in I.
  destruct (build_spec thr w iter warm p (i_wf _ _ I)) as (B1 & B2 & B3 & B4 & _ & _).
  cbv zeta in *. fold s in B1, B2, B3, B4.
  destruct (build_in_range thr w iter warm p B1) as [R1 R2].
  split; [exact B1|]. split; [rewrite B2; apply cols_total|]. split; [exact B3|]. split; [exact B4|]. split; [exact R1|exact R2].
Qed.

(** C50 is false: a rejected quadratic or cone constraint leaves its auxiliary variables behind. *)
Theorem C50_rejected_call_unchanged_refuted :
  ~ (forall c cs p', scoped (cs ++ [c]) -> do_call c (run_calls cs cp_init) = Threw p' -> p' = run_calls cs cp_init).
Proof.
  intros H. set (q := mkQ (le_of_const 0) [(1, le_of_const 1)] [] false false).
  assert (S : scoped ([] ++ [CAddQua q ">" (le_of_const 0) ApproxNone])).
  { apply scoped_check. unfold fresh_q, uses_q, uses. simpl. unfold uses_q, fresh_q, uses, no_quad_obj. simpl.
    intuition (try contradiction; try (subst; simpl in *; contradiction); try discriminate). }
  specialize (H (CAddQua q ">" (le_of_const 0) ApproxNone) [] _ S eq_refl).
  apply (f_equal (fun p => List.length (p_vars p))) in H.
  cbn [do_call] in H. unfold run_calls in H. simpl fold_left in H.
  change (List.length (p_vars cp_init)) with 0%nat in H. rewrite addAux_eq in H. simpl in H. discriminate.
Qed.

(** C50, what does hold: rejected addVar / addLinConstr change nothing at all, and after any rejected call the points
    the user can reach (projection of the feasible set on the user's variables) are the same as before.
    Missing: the column count and the values of the counters differ after a rejected quadratic or cone constraint. *)
Theorem C50_rejected_call_partial :
  (forall c p p', match c with CAddVar _ _ _ _ | CAddLin _ _ _ => True | _ => False end ->
     do_call c p = Threw p' -> p' = p) /\
  (forall thr w iter warm cs c x,
     scoped (cs ++ [c]) -> (forall c', In c' (cs ++ [c]) -> call_convex c' /\ call_not_absurd c' /\ no_trust c') -> 0 <= w ->
     rejected c (run_calls cs cp_init) ->
     (exists x', (forall v, In v (user_cols cs) -> x' v = x v) /\ compiled_feasible thr w iter warm (cs ++ [c]) x') <->
     (exists x', (forall v, In v (user_cols cs) -> x' v = x v) /\ compiled_feasible thr w iter warm cs x')).
Proof.
  split; [|exact rejected_same_projection].
  intros c p p' Hc H. destruct c; try contradiction; cbn [do_call] in H.
  - unfold cp_addVar in H. destruct (Rlt_dec ub lb); [congruence|discriminate].
  - unfold cp_addLin in H. destruct (String.eqb sense "="); [discriminate|]. destruct (String.eqb sense "<"); [discriminate|].
    destruct (String.eqb sense ">"); [discriminate|congruence].
Qed.

(** C51 is false: once an objective with a quadratic term has been set, setting any objective again makes the next
    build read past the end of the new quadratic expression (for every history). *)
Theorem C51_reset_objective_refuted :
  forall thr w iter warm cs q l q2 l2, In (CSetObj q l) cs -> q_terms q <> [] ->
    s_ok (cp_build thr w iter warm (run_calls (cs ++ [CSetObj q2 l2]) cp_init)) = false.
Proof. exact reset_oob. Qed.

(** C51, what does hold: if the objectives set before have no quadratic term, the compiled problem minimises the new
    objective only. *)
Theorem C51_reset_linear_objective_partial :
  forall thr w iter cs q l x,
    let cs' := cs ++ [CSetObj q l] in
    scoped cs' -> (forall c, In c cs' -> call_convex c) -> (forall c, In c cs' -> call_not_absurd c) -> 0 <= w ->
    compiled_feasible thr w iter true cs' x ->
    (forall y, compiled_feasible thr w iter true cs' y -> compiled_objective thr w iter true cs' x <= compiled_objective thr w iter true cs' y) ->
    forall y, (forall c, In c cs -> call_holds y c) -> binaries_ok cs' y -> obj_value x q l <= obj_value y q l.
Proof.
  intros thr w iter cs q l x cs' HS HC HA Hw HF HO y Hy Hb.
  destruct (optimum thr w iter true cs' x HS HC HA Hw HF HO) as (_ & O & _).
  specialize (O y). cbv beta in O. unfold cs' in O. rewrite !user_obj_snoc in O.
  assert (obj_value x q l + 0 <= obj_value y q l + 0); [|lra]. apply O.
  split; [|split; [exact Hb|discriminate]].
  intros c Hc. apply in_app_or in Hc as [Hc|[<-|[]]]; [auto|exact I].
Qed.

(** ** Non-vacuity: a model with every kind of call meets the hypotheses and has feasible points. *)
Definition vx := le_of_var 0 1.
Definition vb := le_of_var 1 1.
Definition ex_model : list call :=
  [ CAddVar Continuous 0 10 0; CAddVar Binary 0 1 0;
    CAddLin vx "<" (le_of_const 3); CAddLin vx "oops" vb;
    CSetObj (mkQ (le_of_const 0) [] [] false false) vb;
    CAddQua (mkQ vb [(2, vx)] [] false false) "<" (le_of_const 40) ApproxSoftConstraint;
    CAddSoc (mkQ (le_of_const 1) [(1, vx); (1, vb)] [] false false) "<" (le_of_const 9);
    CSetObj (mkQ vx [(1, vx)] [] false false) vb ].

Lemma ex_scoped : scoped ex_model.
Proof.
  assert (U : forall r, user_cols (CAddVar Continuous 0 10 0 :: CAddVar Binary 0 1 0 :: r) = [0; 1]%nat ++ user_cols (CAddVar Continuous 0 10 0 :: CAddVar Binary 0 1 0 :: r)
     \/ incl [0; 1]%nat (user_cols (CAddVar Continuous 0 10 0 :: CAddVar Binary 0 1 0 :: r))).
  { intros r. right. unfold user_cols. cbn [issued]. destruct (Rlt_dec 10 0); [lra|]. destruct (Rlt_dec 1 0); [lra|].
    cbn [app map fst p_vars cp_init List.length do_call]. unfold cp_addVar. destruct (Rlt_dec 10 0); [lra|].
    cbn [out_state set_vars p_vars app cp_init List.length]. intros c [<-|[<-|[]]]; simpl; auto. }
  assert (V : forall r, uses (user_cols (CAddVar Continuous 0 10 0 :: CAddVar Binary 0 1 0 :: r)) vx
     /\ uses (user_cols (CAddVar Continuous 0 10 0 :: CAddVar Binary 0 1 0 :: r)) vb).
  { intros r. destruct (U r) as [E|E].
    - split; intros c [<-|[]]; rewrite E; simpl; auto.
    - split; intros c [<-|[]]; apply E; simpl; auto. }
  assert (K : forall U a, uses U (le_of_const a)) by (intros U0 a c []).
  apply scoped_check. unfold ex_model. cbn [scoped_from call_scoped app uses_q fresh_q q_lexpr q_terms q_extra q_trust q_soft].
  assert (NQ : forall cs0, (forall q l, In (CSetObj q l) cs0 -> q_terms q = []) -> no_quad_obj cs0) by (intros cs0 H; exact H).
  repeat split; auto; try apply V;
    try (apply NQ; intros q l H; simpl in H; intuition (try discriminate); match goal with E : _ = CSetObj _ _ |- _ => injection E as <- <-; reflexivity end);
    try (intros t [<-|[<-|[]]]; apply V); try (intros t [<-|[]]; apply V); try (intros t []).
Qed.

Lemma ex_issued : issued ex_model cp_init = [(0%nat, Continuous); (1%nat, Binary)].
Proof.
  unfold ex_model. cbn [issued]. destruct (Rlt_dec 10 0); [lra|]. destruct (Rlt_dec 1 0); [lra|].
  cbn [do_call]. unfold cp_addVar at 1. destruct (Rlt_dec 10 0); [lra|]. reflexivity.
Qed.

(** Every hypothesis of the theorems above holds of this history, and there is a point that meets the user's constraints,
    hence (by C02_feasible_set_projection / C04) the compiled problem is feasible: nothing above is vacuous. *)
Example ex_hypotheses :
  scoped ex_model /\ (forall c, In c ex_model -> call_convex c) /\ (forall c, In c ex_model -> call_not_absurd c) /\
  (forall c, In c ex_model -> call_holds (fun _ => 1) c) /\ binaries_ok ex_model (fun _ => 1).
Proof.
  split; [exact ex_scoped|]. split; [|split; [|split]].
  - intros c Hc. simpl in Hc. repeat (destruct Hc as [<-|Hc]; [simpl; try exact I; intros t; simpl; intros Ht; repeat (destruct Ht as [<-|Ht]; [simpl; lra|]); destruct Ht|]). destruct Hc.
  - intros c Hc. simpl in Hc. repeat (destruct Hc as [<-|Hc]; [try exact I|]); [| |destruct Hc].
    + cbn [call_not_absurd]. intros H. specialize (H (fun _ => 0) (fun _ => 1)). unfold aval in H. simpl in H. lra.
    + cbn [call_not_absurd]. intros _. repeat split; intros H; discriminate.
  - intros c Hc. simpl in Hc. repeat (destruct Hc as [<-|Hc]; [cbn [call_holds]; try exact I; unfold aval, wsq, sq, sumR; simpl; repeat split; try (intros; discriminate); intros _; try lra|]).
    + unfold aval. simpl. lra.
    + unfold aval. simpl. replace ((0 + (1 * 1 + 0)) * (0 + (1 * 1 + 0)) + ((0 + (1 * 1 + 0)) * (0 + (1 * 1 + 0)) + 0)) with 2 by ring.
      assert (H2 : sqrt 2 <= sqrt (2*2)) by (apply sqrt_le_1; lra). rewrite sqrt_square in H2 by lra. lra.
    + destruct Hc.
  - intros c Hc. lra.
Qed.

Print Assumptions C02_linear_feasible_set_exact.
Print Assumptions C02_feasible_set_projection.
Print Assumptions C02_constant_constraint_refuted.
Print Assumptions C03_soc_constraint_exact.
Print Assumptions C03_block_is_second_order_cone.
Print Assumptions C04_epigraph_block.
Print Assumptions C04_optimum_equivalence.
Print Assumptions C05_declared_bounds_refuted.
Print Assumptions C05_declared_binary_bounds_refuted.
Print Assumptions C05_binary_bounds_partial.
Print Assumptions C06_dimensions_and_memory.
Print Assumptions C50_rejected_call_unchanged_refuted.
Print Assumptions C50_rejected_call_partial.
Print Assumptions C51_reset_objective_refuted.
Print Assumptions C51_reset_linear_objective_partial.

(** ** Adding a variable
    It is refused exactly if the bounds are inverted, and then nothing changes; otherwise it becomes the last column, with the declared bounds and the guess
    moved to the nearest point within them; the variables declared before, the constraints and the objective stay. *)
Theorem C50_add_variable : forall ty lb ub guess p,
  (ub < lb -> cp_addVar ty lb ub guess p = Threw p) /\
  (lb <= ub -> exists p' g, cp_addVar ty lb ub guess p = Returned p' /\ p_vars p' = p_vars p ++ [mkVar ty lb ub g g] /\
     lb <= g <= ub /\ (forall y, lb <= y <= ub -> Rabs (g - guess) <= Rabs (y - guess)) /\
     p_leq p' = p_leq p /\ p_lineq p' = p_lineq p /\ p_qineq p' = p_qineq p /\ p_soc p' = p_soc p /\ p_obj p' = p_obj p /\
     p_bin p' = p_bin p ++ match ty with Binary => [List.length (p_vars p)] | Continuous => [] end).
Proof.
  intros ty lb ub guess p. unfold cp_addVar. split; intros H; destruct (Rlt_dec ub lb); try lra; [reflexivity|].
  assert (G : lb <= clamp_guess lb ub guess <= ub /\ forall y, lb <= y <= ub -> Rabs (clamp_guess lb ub guess - guess) <= Rabs (y - guess)).
  { unfold clamp_guess. destruct (Rlt_dec guess lb); [|destruct (Rlt_dec ub guess)]; (split; [lra|]); intros y Hy; unfold Rabs; repeat destruct Rcase_abs; lra. }
  destruct ty; eexists; exists (clamp_guess lb ub guess); (split; [reflexivity|]); cbn; rewrite ?app_nil_r; repeat split; try reflexivity; apply G.
Qed.
Example C50_add_variable_example : exists p', cp_addVar Continuous (-1) 1 7 cp_init = Returned p' /\ p_vars p' = [mkVar Continuous (-1) 1 1 1].
Proof.
  destruct (C50_add_variable Continuous (-1) 1 7 cp_init) as [_ H]. destruct H as [p' [g [E [V [B [N _]]]]]]; [lra|]. exists p'. split; [exact E|]. rewrite V.
  specialize (N 1 ltac:(lra)). assert (g = 1) as -> by (unfold Rabs in N; repeat destruct Rcase_abs; lra). reflexivity.
Qed.
Print Assumptions C50_add_variable.

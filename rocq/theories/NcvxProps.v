(** * C70: mixed-integer problems with approximated constraints *)
From Coq Require Import Reals List Arith ZArith Bool String Lia Lra ClassicalEpsilon.
From Verif Require Import Base BaseProofs IpModel BnbModel BnbSpec BnbProofs BnbProofs2 BnbProps ExprsModel ConicModel ConicSpec ConicProofs4 ConicProofs5
  ConicProofs6 ScpModel ScpSpec ScpProofs NcvxModel NcvxSpec NcvxProofs NcvxProofs2.
Import ListNotations.
Open Scope R_scope.

(** ** Every node solver *)
(** The search never explores more nodes than the limit, calls the node solver at most 2 + 4 * passes times, and at every pass its nodes cover
    all 0/1 assignments. *)
Theorem C70_nodes_cover_all_assignments : forall S O ask ids nodes0 opt0 o0 s (o : O),
  nreached S O ask ids nodes0 opt0 o0 s o ->
  (s_iter s < b_max S)%nat /\ (s_calls s <= 2 + 4 * s_iter s)%nat /\
  (forall k col, (k <= s_iter s)%nat -> nth_error (s_mat s) k = Some col -> List.length col = List.length ids /\ forall d, In d col -> d = 1%Z \/ d = 0%Z \/ d = (-1)%Z) /\
  (forall a, assignment (List.length ids) a -> exists k col, (k <= s_iter s)%nat /\ nth_error (s_mat s) k = Some col /\ agrees a col).
Proof.
  intros S O ask ids nodes0 opt0 o0 s o H. destruct (nreach_shape S O ask ids nodes0 opt0 o0 s o H) as [(I1 & I2 & I3 & I4 & I5 & I6 & I7) _].
  split; [exact I3|]. split; [exact I6|]. split; [exact I5|exact I7].
Qed.
Print Assumptions C70_nodes_cover_all_assignments.

(** With a node solver that keeps no state this is the search of BnBSolver, so C18 and C19 apply to it. *)
Theorem C70_same_search : forall S relax ids cost nodes0 opt0,
  nx_optimize S nat (fun k dec => (fst (relax k dec), snd (relax k dec), cost (snd (relax k dec)), (k + 1)%nat)) ids nodes0 opt0 0%nat =
  bind (bnb_optimize S relax ids cost nodes0 opt0 0%nat) (fun '(c, x, n) => Ok (c, x, n, n)).
Proof. intros. apply plain_optimize. Qed.
Print Assumptions C70_same_search.

(** ** Sound node solvers: the search ends, with one of four codes, and a vector reported as (nearly) optimal is feasible with near-binary
    binaries. *)
Theorem C70_search_sound : forall S O ask ids F okO nodes0 opt0 (o0 : O),
  0 < b_tol S -> 0 <= b_abs S -> sound_ask F ids (b_tol S) okO ask -> List.length nodes0 = b_max S -> (1 <= b_max S)%nat -> okO o0 ->
  exists c x o n, nx_optimize S O ask ids nodes0 opt0 o0 = Ok (c, x, o, n) /\ okO o /\ (n <= 4 * b_max S)%nat /\
    match c with Optimal | OptimalInacc => near_binary F ids (b_tol S) x | PrimalInf | PrimalInfInacc => True | _ => False end.
Proof.
  intros S O ask ids F okO nodes0 opt0 o0 Ht Ha HO Hl Hm H0.
  destruct (nroot_ok S O ask ids nodes0 opt0 o0 F okO Ht HO Ha Hl Hm H0) as (s0 & o1 & E0 & I0).
  destruct (nloop_ok S O ask ids nodes0 opt0 o0 F okO Ht HO Hl Hm (b_max S) s0 o1 I0 ltac:(lia)) as (s & o & E & I & HC).
  exists (bnb_exitcode S s), (s_opt s), o, (s_calls s). split; [unfold nx_optimize; rewrite E0; cbn [bind]; rewrite E; reflexivity|].
  destruct I as [HR Hok Hub HG HS]. split; [exact Hok|]. destruct (nreach_shape S O ask ids nodes0 opt0 o0 s o HR) as [(_ & _ & J3 & _ & _ & J6 & _) _]. split; [lia|].
  unfold bnb_exitcode. destruct Hub as [-> |(u & -> & HN)]; destruct (_ <? _)%Z; auto.
Qed.
Print Assumptions C70_search_sound.

Lemma map_rep {A B} (f : A -> B) a n : map f (repeat a n) = repeat (f a) n.
Proof. induction n; cbn; congruence. Qed.
(** ** The whole of Model::optimize on a problem with binaries and approximated constraints, given that programmes have been built before and the
    variables have any values [y]: it returns; an answer coded (nearly) optimal satisfies every constraint, those entered with a trust region as
    equalities up to threshold^(1+refinements), and every binary lies in [0,1] within the tolerance of 0 or 1. *)
Theorem C70_mixed_integer_answer_partial : forall S C solve cdot nodes0 opt0 cs y calls,
  scoped cs -> (forall c, In c cs -> call_convex c) -> (forall c, In c cs -> call_not_absurd c) ->
  (exists k, In (k, Binary) (issued cs cp_init)) -> (exists q s l ap, In (CAddQua q s l ap) cs /\ ap <> ApproxNone) ->
  (0 < c_max C)%Z -> 0 < b_tol S -> 0 <= b_abs S -> List.length nodes0 = b_max S -> (1 <= b_max S)%nat -> sound_below (b_tol S) solve ->
  exists c p', model_run S C solve cdot true nodes0 opt0 (set_vals y (run_calls cs cp_init)) calls = Ok (c, p') /\
    match c with
    | Optimal | OptimalInacc => asked cs (c_thr C ^ (1 + Z.to_nat (c_refs C))) (p_env p') /\
        forall k, In (k, Binary) (issued cs cp_init) -> 0 <= p_env p' k <= 1 /\ (Rabs (p_env p' k) < b_tol S \/ Rabs (p_env p' k - 1) < b_tol S)
    | PrimalInf | PrimalInfInacc => True
    | _ => False
    end.
Proof.
  intros S C solve cdot nodes0 opt0 cs y calls HS HC HA (kb & Hkb) (q0 & s0 & l0 & ap0 & Hin0 & Hap) HM Ht Ha Hl Hm HB.
  set (p := run_calls cs cp_init). assert (I := history_inv cs HS). fold p in I.
  assert (BR : ((0 <? List.length (p_bin p))%nat && has_approx p)%bool = true).
  { apply andb_true_iff. split; [apply (i_bin _ _ I) in Hkb; apply Nat.ltb_lt; destruct (p_bin p); [destruct Hkb|cbn; lia]|].
    unfold has_approx. destruct (call_counters cs) as [E1 E2]. fold p in E1, E2. rewrite E1, E2. unfold count_of. apply orb_true_iff.
    destruct ap0; [congruence| |].
    - left. apply Nat.ltb_lt. assert (X : In (CAddQua q0 s0 l0 ApproxTrustRegion) (filter (wants ApproxTrustRegion) cs)) by (apply filter_In; split; [exact Hin0|reflexivity]). destruct (filter _ cs); [destruct X|cbn; lia].
    - right. apply Nat.ltb_lt. assert (X : In (CAddQua q0 s0 l0 ApproxSoftConstraint) (filter (wants ApproxSoftConstraint) cs)) by (apply filter_In; split; [exact Hin0|reflexivity]). destruct (filter _ cs); [destruct X|cbn; lia]. }
  unfold model_run, ncvx_optimize. change (p_bin (set_vals y p)) with (p_bin p). change (has_approx (set_vals y p)) with (has_approx p). rewrite BR.
  assert (OK0 : node_state cs (set_vals y p, calls)).
  { exists (repeat (-1)%Z (List.length (p_bin p))). cbn [fst]. apply alike_vals.
    assert (E : decide (repeat (-1)%Z (List.length (p_bin p))) (run_calls cs cp_init) = p).
    { fold p. unfold decide. rewrite !map_rep. change (dec_lb (-1)) with 0. change (dec_ub (-1)) with 1. rewrite <- (i_lb _ _ I), <- (i_ub _ _ I). now destruct p. }
    rewrite E. apply alike_refl. }
  destruct (C70_search_sound S _ (scp_ask C solve cdot) (p_bin p) (asked cs (c_thr C ^ (1 + Z.to_nat (c_refs C)))) (node_state cs) nodes0 opt0 (set_vals y p, calls) Ht Ha
    (scp_ask_sound C solve cs (b_tol S) HS HC HA HM HB cdot) Hl Hm OK0) as (c & x & [p1 k1] & n & -> & (d & AL) & _ & V).
  cbn [bind fst] in *. exists c, (set_vals x p1). split; [reflexivity|].
  assert (ENV : forall k, In k (user_cols cs) -> p_env (set_vals x p1) k = x k).
  { intros k Hk. apply set_vals_env. destruct AL as (vs & a & b & L & ->). cbn [revalued p_vars]. rewrite L. apply (i_U _ _ I k Hk). }
  assert (G : near_binary (asked cs (c_thr C ^ (1 + Z.to_nat (c_refs C)))) (p_bin p) (b_tol S) x ->
    asked cs (c_thr C ^ (1 + Z.to_nat (c_refs C))) (p_env (set_vals x p1)) /\
        forall k, In (k, Binary) (issued cs cp_init) -> 0 <= p_env (set_vals x p1) k <= 1 /\ (Rabs (p_env (set_vals x p1) k) < b_tol S \/ Rabs (p_env (set_vals x p1) k - 1) < b_tol S)).
  { intros [[N1 N2] N3]. split; [split|].
    - intros c0 Hc0. eapply holds_agree; [exact HS|exact Hc0|exact ENV|now apply N1].
    - intros q l Hq. rewrite (qcon_agree cs q _ l _ x _ HS Hq ENV). now apply N2.
    - intros k Hk. rewrite ENV by (unfold user_cols; apply in_map_iff; exists (k, Binary); auto). apply N3. now apply (i_bin _ _ I). }
  destruct c; auto.
Qed.
Print Assumptions C70_mixed_integer_answer_partial.

(** ** When the first relaxation comes back with integral binaries, that answer is returned. *)
Lemma vget0 {A} (l : list A) a : nth_error l 0 = Some a -> vget l 0 = Ok a.
Proof. exact (vget_nat l 0 a). Qed.
Lemma vset0 {A} (l : list A) a : (0 < List.length l)%nat -> vset l 0 a = Ok (set_nth l 0 a).
Proof. exact (vset_nat l 0 a). Qed.
Lemma root_integral S O ask ids nodes0 opt0 (o0 : O) c x v o1 : 0 <= b_abs S -> (1 <= List.length nodes0)%nat -> (2 <= b_max S)%nat ->
  ask o0 (repeat (-1)%Z (List.length ids)) = (c, x, v, o1) -> accepted c = true -> is_integer S ids x = true -> nx_optimize S O ask ids nodes0 opt0 o0 = Ok (Optimal, x, o1, 1%nat).
Proof.
  intros Ha Hl Hm E Hac HI. destruct (nth_error nodes0 0) as [nd0|] eqn:En; [|apply nth_error_None in En; lia].
  unfold nx_optimize, nx_root. rewrite (vget0 _ _ En). cbn [bind]. rewrite vset0 by lia. cbn [bind].
  unfold nx_update. cbn [s_mat s_nodes s_calls s_iter s_node s_opt s_lb s_ub].
  rewrite (vget0 (repeat (repeat (-1)%Z (List.length ids)) (b_max S)) (repeat (-1)%Z (List.length ids))) by (destruct (b_max S); [lia|reflexivity]). cbn [bind].
  rewrite upd_data_ok by (intros d Hd; apply repeat_spec in Hd; auto). cbn [bind]. erewrite vget0 by (apply nth_set_same; lia). cbn [bind].
  rewrite E, Hac, HI. cbn [bind]. rewrite vset0 by (rewrite set_nth_length; lia). cbn [bind n_upper e_ltb s_nodes s_mat s_opt s_calls].
  erewrite vget0 by (apply nth_set_same; rewrite set_nth_length; lia). cbn [bind n_lower n_upper].
  set (st := mkB _ _ _ _ _ _ _ _). assert (EC : continue S st = false).
  { unfold continue, st. cbn [s_ub s_lb gap_exceeds]. replace (ltb (b_abs S) (v - v)) with false; [reflexivity|]. symmetry. apply ltb_false. lra. }
  destruct (b_max S) as [|bm] eqn:Eb; [lia|]. unfold nx_loop. rewrite EC. cbn [bind]. unfold bnb_exitcode, st. cbn [s_iter s_ub s_opt s_calls]. rewrite Eb.
  replace (Z.of_nat 0 <? Z.of_nat (Datatypes.S bm) - 1)%Z with true by (symmetry; apply Z.ltb_lt; lia). reflexivity.
Qed.

(** ** Non-vacuity: one binary b with b^2 <= b entered with a trust region. *)
Definition ex_mi (rhs : linexpr) : list call := [CAddVar Binary 0 1 0; CAddQua (mkQ (le_of_const 0) [(1, le_of_var 0 1)] [] false false) "<" rhs ApproxTrustRegion].
Lemma ex_mi_issued rhs : issued (ex_mi rhs) cp_init = [(0%nat, Binary)].
Proof. unfold ex_mi. cbn [issued]. destruct (Rlt_dec 1 0); [lra|]. reflexivity. Qed.
Lemma ex_mi_ok rhs : uses [0%nat] rhs -> scoped (ex_mi rhs) /\ (forall c, In c (ex_mi rhs) -> call_convex c) /\ (forall c, In c (ex_mi rhs) -> call_not_absurd c).
Proof.
  intros HU. split; [|split].
  - apply scoped_check. unfold ex_mi. cbn [scoped_from call_scoped app].
    assert (C1 : user_cols [CAddVar Binary 0 1 0] = [0%nat]) by (unfold user_cols; cbn [issued]; destruct (Rlt_dec 1 0); [lra|reflexivity]).
    rewrite C1. unfold uses_q, fresh_q. cbn [q_lexpr q_terms q_extra q_trust q_soft].
    repeat split; auto; try (intros t [<-|[]] c [<-|[]]; now left). intros c [].
  - intros c [<-|[<-|[]]]; [exact I|]. intros t [<-|[]]; cbn; lra.
  - intros c [<-|[<-|[]]]; exact I.
Qed.
Definition one_solver : oracle := fun _ _ P =>
  match excluded_middle_informative (exists x, feasible_answer P x /\ x 0%nat = 1) with
  | left H => (Optimal, proj1_sig (constructive_indefinite_description _ H))
  | right _ => (Indeterminate, fun _ => 0)
  end.
Lemma one_solver_sound tol : sound_below tol one_solver.
Proof.
  intros k b P c x. unfold one_solver. destruct (excluded_middle_informative _) as [H|H]; intros E; injection E as <- <-; [|exact I].
  exact (proj1 (proj2_sig (constructive_indefinite_description _ H))).
Qed.
Definition ex_bset : bset := mkBS 5 (/ 10) 0 0.
Definition ex_cset : scp_set := ScpSet 0 1 0 (/ 2) 0.
Lemma ex_mi_bin rhs : p_bin (run_calls (ex_mi rhs) cp_init) = [0%nat].
Proof. unfold ex_mi, run_calls. cbn [fold_left do_call]. unfold cp_addVar. destruct (Rlt_dec 1 0); [lra|]. cbn. unfold cp_addAux, cp_addVar. destruct (Rlt_dec 1 0); [lra|]. reflexivity. Qed.
Lemma ex_mi_vars rhs : (0 < List.length (p_vars (run_calls (ex_mi rhs) cp_init)))%nat.
Proof. unfold ex_mi, run_calls. cbn [fold_left do_call]. unfold cp_addVar. destruct (Rlt_dec 1 0); [lra|]. cbn. unfold cp_addAux, cp_addVar. destruct (Rlt_dec 1 0); [lra|]. cbn. lia. Qed.

(** The constraint-free skeleton of a call of the node solver at the root: one round. *)
Lemma root_ask solve cdot rhs y calls : let p := set_vals y (run_calls (ex_mi rhs) cp_init) in
  exists s, scp_ask ex_cset solve cdot (p, calls) [(-1)%Z] = (sc_code s, p_env (sc_p s), cdot (sc_calls s) (p_env (sc_p s)), (sc_p s, sc_calls s)) /\
    s = scp_round ex_cset solve 1 false (Scp p calls Indeterminate).
Proof.
  intros p. eexists. split; [|reflexivity]. unfold scp_ask. cbn [fst snd].
  assert (E : decide [(-1)%Z] p = p).
  { unfold decide, p, ex_mi, run_calls. cbn [fold_left do_call]. unfold cp_addVar. destruct (Rlt_dec 1 0); [lra|]. cbn. unfold cp_addAux, cp_addVar. destruct (Rlt_dec 1 0); [lra|]. reflexivity. }
  rewrite E. assert (E2 : scp_optimize ex_cset solve p calls = scp_round ex_cset solve 1 false (Scp p calls Indeterminate)) by reflexivity. rewrite E2. reflexivity.
Qed.
Example ex_mi_solved : forall cdot opt0 calls, let cs := ex_mi (le_of_var 0 1) in
  exists p', model_run ex_bset ex_cset one_solver cdot true (repeat ex_node 5) opt0 (set_vals (fun _ => 1) (run_calls cs cp_init)) calls = Ok (Optimal, p') /\ p_env p' 0%nat = 1.
Proof.
  intros cdot opt0 calls cs. assert (HU : uses [0%nat] (le_of_var 0 1)) by (intros c [<-|[]]; now left). destruct (ex_mi_ok _ HU) as (HS & HC & HA). fold cs in HS, HC, HA.
  set (p := set_vals (fun _ => 1) (run_calls cs cp_init)). destruct (root_ask one_solver cdot (le_of_var 0 1) (fun _ => 1) calls) as (s & EA & ES). fold cs p in EA, ES.
  assert (AL : alike (run_calls cs cp_init) p) by (apply alike_vals, alike_refl).
  destruct (round_is ex_cset one_solver cs HS 1 false (Scp p calls Indeterminate) AL) as (vs & a & b & x & k & bnb & L & _ & _ & EE & EO & EP & AG). rewrite <- ES in EO, EP, AG. cbn [sc_p] in EE.
  set (P := Program _ _ _ _) in EO. set (env := p_env (revalued (run_calls cs cp_init) vs a b)).
  assert (E0 : env 0%nat = 1). { unfold env. unfold p_env at 1. cbn [revalued p_vars]. rewrite EE. apply set_vals_env. apply ex_mi_vars. }
  destruct (complete_at (c_thr ex_cset) (c_wsoft ex_cset) 1 false cs vs a b L HS (fun _ => 1)) as (x1 & X1 & F1 & _).
  { intros c [<-|[<-|[]]]; [exact I|]. cbn [call_holds]. intros _. unfold wsq, aval, sumR. cbn. lra. }
  { intros c Hc. lra. }
  { intros _ c [<-|[<-|[]]]; [exact I|]. cbn [trust_holds]. intros _. change (p_env (revalued (run_calls cs cp_init) vs a b)) with env. clearbody env. unfold lin_model, wsq, aval, sumR. cbn. rewrite E0. lra. }
  assert (C0 : In 0%nat (user_cols cs)) by (unfold user_cols, cs; rewrite ex_mi_issued; now left).
  specialize (X1 0%nat C0). fold P in F1.
  unfold one_solver in EO. destruct (excluded_middle_informative _) as [H|H]; [|elim H; exists x1; auto]. injection EO as EC Ex.
  assert (Ex0 : x 0%nat = 1) by (rewrite <- Ex; exact (proj2 (proj2_sig (constructive_indefinite_description _ H)))).
  assert (Ey : p_env (sc_p s) 0%nat = 1). { specialize (AG 0%nat C0). unfold values in AG. rewrite AG. exact Ex0. }
  unfold model_run, ncvx_optimize. change (p_bin p) with (p_bin (run_calls cs cp_init)). unfold cs at 1. rewrite ex_mi_bin.
  replace (has_approx p) with true. 2:{ symmetry. unfold has_approx, p, set_vals. cbn [p_ntr p_nsc]. destruct (call_counters cs) as [-> ->]. reflexivity. }
  change (0 <? List.length [0%nat])%nat with true. cbn [andb]. unfold cs at 1. rewrite ex_mi_bin.
  rewrite (root_integral ex_bset _ (scp_ask ex_cset one_solver cdot) [0%nat] (repeat ex_node 5) opt0 (p, calls) _ _ _ _ ltac:(cbn; lra) ltac:(cbn; lia) ltac:(cbn; lia) EA).
  - cbn [bind]. eexists. split; [reflexivity|]. rewrite set_vals_env; [exact Ey|]. rewrite EP. cbn [set_vals p_vars revalued]. rewrite map_length, combine_length, seq_length, L, Nat.min_id. apply ex_mi_vars.
  - rewrite <- EC. reflexivity.
  - unfold is_integer. cbn [forallb]. rewrite Ey, round_one by lra. replace (1 - 1) with 0 by ring. rewrite Rabs_R0. cbn [b_tol ex_bset]. replace (ltb 0 (/ 10)) with true; [reflexivity|]. symmetry. apply ltb_true. lra.
Qed.

(** "Optimal" is false when the solver below answers an infeasible programme with a vector whose binaries happen to be integral: the exit code of
    the node is ignored.  b^2 + 1 <= 0 has no solution; the solver reports PrimalInf with the zero vector at every call; the search reports Optimal. *)
Theorem C70_infeasible_reported_optimal_refuted : exists S C solve nodes0 cs, scoped cs /\ (forall c, In c cs -> call_convex c) /\
  (forall k b P, fst (solve k b P) = PrimalInf) /\ (forall x, ~ forall c, In c cs -> call_holds x c) /\
  forall cdot opt0 y calls, exists p', model_run S C solve cdot true nodes0 opt0 (set_vals y (run_calls cs cp_init)) calls = Ok (Optimal, p').
Proof.
  set (cs := ex_mi (le_of_const (-1))). assert (HU : uses [0%nat] (le_of_const (-1))) by (intros c []). destruct (ex_mi_ok _ HU) as (HS & HC & HA). fold cs in HS, HC, HA.
  exists ex_bset, ex_cset, (fun _ _ _ => (PrimalInf, fun _ => 0)), (repeat ex_node 5), cs. split; [exact HS|]. split; [exact HC|]. split; [reflexivity|]. split.
  { intros x H. specialize (H _ (or_intror (or_introl eq_refl))). cbn [call_holds] in H. specialize (H eq_refl). unfold wsq, aval, sumR in H. cbn in H. pose proof (Rle_0_sqr (x 0%nat)) as Q. unfold Rsqr in Q. lra. }
  intros cdot opt0 y calls. set (p := set_vals y (run_calls cs cp_init)).
  destruct (root_ask (fun _ _ _ => (PrimalInf, fun _ => 0)) cdot (le_of_const (-1)) y calls) as (s & EA & ES). fold cs p in EA, ES.
  assert (Ey : p_env (sc_p s) 0%nat = 0). { rewrite ES. unfold scp_round. cbn [sc_p]. rewrite set_vals_env; [reflexivity|]. unfold recount, p, set_vals. cbn [p_vars]. rewrite map_length, combine_length, seq_length, Nat.min_id. apply ex_mi_vars. }
  unfold model_run, ncvx_optimize. change (p_bin p) with (p_bin (run_calls cs cp_init)). unfold cs at 1. rewrite ex_mi_bin.
  replace (has_approx p) with true. 2:{ symmetry. unfold has_approx, p, set_vals. cbn [p_ntr p_nsc]. destruct (call_counters cs) as [-> ->]. reflexivity. }
  change (0 <? List.length [0%nat])%nat with true. cbn [andb]. unfold cs at 1. rewrite ex_mi_bin.
  rewrite (root_integral ex_bset _ _ [0%nat] (repeat ex_node 5) opt0 (p, calls) _ _ _ _ ltac:(cbn; lra) ltac:(cbn; lia) ltac:(cbn; lia) EA).
  - cbn [bind]. eexists. reflexivity.
  - rewrite ES. reflexivity.
  - unfold is_integer. cbn [forallb]. rewrite Ey, round_zero by lra. replace (0 - 0) with 0 by ring. rewrite Rabs_R0. cbn [b_tol ex_bset]. replace (ltb 0 (/ 10)) with true; [reflexivity|]. symmetry. apply ltb_true. lra.
Qed.
Print Assumptions C70_infeasible_reported_optimal_refuted.

(** "optimize may be called on a fresh model" is false for mixed-integer problems with approximated constraints: the search sizes its storage by
    a cone that no programme has initialised yet. *)
Theorem C70_first_optimisation_refuted : forall S C solve cdot nodes0 opt0 cs calls, scoped cs ->
  (exists k, In (k, Binary) (issued cs cp_init)) -> (exists q s l ap, In (CAddQua q s l ap) cs /\ ap <> ApproxNone) ->
  model_run S C solve cdot false nodes0 opt0 (run_calls cs cp_init) calls = UB.
Proof.
  intros S C solve cdot nodes0 opt0 cs calls HS (kb & Hkb) (q0 & s0 & l0 & ap0 & Hin0 & Hap). set (p := run_calls cs cp_init). assert (I := history_inv cs HS). fold p in I.
  unfold model_run. replace ((0 <? List.length (p_bin p))%nat && has_approx p)%bool with true; [reflexivity|]. symmetry.
  apply andb_true_iff. split; [apply (i_bin _ _ I) in Hkb; apply Nat.ltb_lt; destruct (p_bin p); [destruct Hkb|cbn; lia]|].
  unfold has_approx. destruct (call_counters cs) as [E1 E2]. fold p in E1, E2. rewrite E1, E2. unfold count_of. apply orb_true_iff.
  destruct ap0; [congruence| |].
  - left. apply Nat.ltb_lt. assert (X : In (CAddQua q0 s0 l0 ApproxTrustRegion) (filter (wants ApproxTrustRegion) cs)) by (apply filter_In; split; [exact Hin0|reflexivity]). destruct (filter _ cs); [destruct X|cbn; lia].
  - right. apply Nat.ltb_lt. assert (X : In (CAddQua q0 s0 l0 ApproxSoftConstraint) (filter (wants ApproxSoftConstraint) cs)) by (apply filter_In; split; [exact Hin0|reflexivity]). destruct (filter _ cs); [destruct X|cbn; lia].
Qed.
Print Assumptions C70_first_optimisation_refuted.

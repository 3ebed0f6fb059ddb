(** * Properties C65, C66, C67: sequential convex programming *)
From Coq Require Import Reals List Arith ZArith Bool String Lia Lra ClassicalEpsilon.
Import ListNotations.
From Verif Require Import ExprsModel ConicModel ConicSpec ConicProofs4 ConicProofs5 ConicProofs6 ScpModel ScpSpec ScpProofs.
From Verif Require IpModel.
Local Open Scope R_scope.

Definition with_refs (S : scp_set) (n : nat) : scp_set := ScpSet (c_warm S) (c_max S) (Z.of_nat n) (c_thr S) (c_wsoft S).
Definition warm_only (S : scp_set) : scp_set := ScpSet (c_warm S) 0 0 (c_thr S) (c_wsoft S).

(** ** C65: whatever the linearisation points were, when the last solve succeeds every quadratic constraint entered with a trust region holds as an
    equality up to threshold^(1+refinements), and all other constraints hold. *)
Theorem C65_trust_region_accuracy : forall S solve cs,
  scoped cs -> (forall c, In c cs -> call_convex c) -> (forall c, In c cs -> call_not_absurd c) -> 0 <= c_wsoft S -> sound_solver solve -> (0 < c_max S)%Z ->
  (exists q l, In (CAddQua q "<" l ApproxTrustRegion) cs) ->
  let s := solved S solve cs in sc_code s = IpModel.Optimal ->
  (forall q l, In (CAddQua q "<" l ApproxTrustRegion) cs -> - c_thr S ^ (1 + Z.to_nat (c_refs S)) <= qcon (values s) q l <= 0) /\
  (forall c, In c cs -> call_holds (values s) c) /\ binaries_ok cs (values s).
Proof.
  intros S solve cs HS HC HA Hw HSo HM (q0 & l0 & H0) s EC.
  destruct (last_round S solve cs HM) as (s' & AL & ES). { now rewrite (trust_counts cs q0 l0 HS H0). }
  unfold s in *. rewrite ES in *. destruct (round_sound S solve cs HS HC HA Hw _ _ s' HSo AL EC) as (A & B & C).
  split; [|split; [exact A|exact B]]. intros q l Hin. now apply C.
Qed.
Print Assumptions C65_trust_region_accuracy.

(** Same without approximated constraints, or with soft ones only: all constraints hold. *)
Theorem C65_answer_is_feasible : forall S solve cs,
  scoped cs -> (forall c, In c cs -> call_convex c) -> (forall c, In c cs -> call_not_absurd c) -> 0 <= c_wsoft S -> sound_solver solve -> (0 < c_max S)%Z ->
  sc_code (solved S solve cs) = IpModel.Optimal -> (forall c, In c cs -> call_holds (values (solved S solve cs)) c) /\ binaries_ok cs (values (solved S solve cs)).
Proof.
  intros S solve cs HS HC HA Hw HSo HM EC.
  destruct ((0 <? n_tr (run_calls cs cp_init)) || (0 <? n_sc (run_calls cs cp_init)))%nat eqn:EA.
  - destruct (last_round S solve cs HM EA) as (s' & AL & ES). rewrite ES in *. destruct (round_sound S solve cs HS HC HA Hw _ _ s' HSo AL EC) as (A & B & _). auto.
  - assert (AL := warm_alike S solve cs).
    assert (ES : solved S solve cs = scp_round S solve 1 false (scp_warm S solve (Scp (run_calls cs cp_init) 0 IpModel.Indeterminate))).
    { unfold solved, scp_optimize, scp_refine, scp_main. replace (0 <? c_max S)%Z with true by (symmetry; apply Z.ltb_lt; lia).
      rewrite (round_counts S solve cs 1 false _ AL), EA, andb_false_r. reflexivity. }
    rewrite ES in *. destruct (round_sound S solve cs HS HC HA Hw _ _ _ HSo AL EC) as (A & B & _). auto.
Qed.
Print Assumptions C65_answer_is_feasible.

(** ** C66: with soft constraints only, more refinements never give a worse plan: the objective plus weighted squared slack of the soft constraints
    does not increase from one number of refinements to a larger one, nor from the warm start to the solution, as long as the solves succeed. *)
Lemma refs_step : forall S solve cs n, (0 < c_max S)%Z -> ((0 <? n_tr (run_calls cs cp_init)) || (0 <? n_sc (run_calls cs cp_init)))%nat = true ->
  solved (with_refs S (Datatypes.S n)) solve cs = scp_round S solve (2 + n) false (solved (with_refs S n) solve cs).
Proof.
  intros S solve cs n HM EA. unfold solved, scp_optimize, scp_refine, scp_main. cbn [with_refs c_max]. replace (0 <? c_max S)%Z with true by (symmetry; apply Z.ltb_lt; lia).
  assert (AL := fun k => warm_alike (with_refs S k) solve cs). rewrite (round_counts (with_refs S (Datatypes.S n)) solve cs 1 false _ (AL (Datatypes.S n))), (round_counts (with_refs S n) solve cs 1 false _ (AL n)), EA, !andb_true_r. cbn [with_refs c_refs].
  replace (0 <? Z.of_nat (Datatypes.S n))%Z with true by (symmetry; apply Z.ltb_lt; lia). rewrite !Nat2Z.id.
  assert (ER : forall k it w s, scp_round (with_refs S k) solve it w s = scp_round S solve it w s) by reflexivity.
  assert (EW : forall k s, scp_warm (with_refs S k) solve s = scp_warm S solve s) by reflexivity.
  rewrite seq_S, fold_left_app. cbn [fold_left]. rewrite ER. replace (1 + n + 1)%nat with (2 + n)%nat by lia. f_equal.
  destruct n as [|n]; [reflexivity|]. replace (0 <? Z.of_nat (Datatypes.S n))%Z with true by (symmetry; apply Z.ltb_lt; lia). reflexivity.
Qed.
Lemma refs_none : forall S solve cs n, (0 < c_max S)%Z -> ((0 <? n_tr (run_calls cs cp_init)) || (0 <? n_sc (run_calls cs cp_init)))%nat = false ->
  solved (with_refs S n) solve cs = solved (with_refs S 0) solve cs.
Proof.
  intros S solve cs n HM EA. unfold solved, scp_optimize, scp_refine, scp_main. cbn [with_refs c_max]. replace (0 <? c_max S)%Z with true by (symmetry; apply Z.ltb_lt; lia).
  assert (AL := fun k => warm_alike (with_refs S k) solve cs). rewrite (round_counts (with_refs S n) solve cs 1 false _ (AL n)), (round_counts (with_refs S 0) solve cs 1 false _ (AL 0%nat)), EA, !andb_false_r. reflexivity.
Qed.
Theorem C66_soft_refinements_descend : forall S solve cs n,
  scoped cs -> (forall c, In c cs -> call_convex c) -> (forall c, In c cs -> call_not_absurd c) -> 0 <= c_wsoft S -> exact_solver solve -> (0 < c_max S)%Z -> no_trust_calls cs ->
  (forall j, (j <= n)%nat -> sc_code (solved (with_refs S j) solve cs) = IpModel.Optimal) ->
  forall i j, (i <= j <= n)%nat -> penalised (c_wsoft S) cs (values (solved (with_refs S j) solve cs)) <= penalised (c_wsoft S) cs (values (solved (with_refs S i) solve cs)).
Proof.
  intros S solve cs n HS HC HA Hw HE HM NT HO.
  destruct ((0 <? n_tr (run_calls cs cp_init)) || (0 <? n_sc (run_calls cs cp_init)))%nat eqn:EA.
  2:{ intros i j _. rewrite (refs_none S solve cs i HM EA), (refs_none S solve cs j HM EA). apply Rle_refl. }
  assert (OK : forall j, (j <= n)%nat -> ok_state cs (solved (with_refs S j) solve cs)).
  { intros j Hj. destruct (last_round (with_refs S j) solve cs HM EA) as (s' & AL & ES). specialize (HO j Hj). rewrite ES in *. now apply round_exact. }
  intros i j [Hij Hjn]. induction Hij as [|j Hij IH]; [apply Rle_refl|]. eapply Rle_trans; [|apply IH; lia].
  rewrite (refs_step S solve cs j HM EA). apply round_descends; auto; [apply OK; lia|]. rewrite <- (refs_step S solve cs j HM EA). now apply HO.
Qed.
Print Assumptions C66_soft_refinements_descend.
Theorem C66_warm_start_is_improved : forall S solve cs,
  scoped cs -> (forall c, In c cs -> call_convex c) -> (forall c, In c cs -> call_not_absurd c) -> 0 <= c_wsoft S -> exact_solver solve -> (0 < c_max S)%Z -> (0 < c_warm S)%Z -> no_trust_calls cs ->
  (exists q l, In (CAddQua q "<" l ApproxSoftConstraint) cs) ->
  sc_code (solved (warm_only S) solve cs) = IpModel.Optimal -> sc_code (solved (with_refs S 0) solve cs) = IpModel.Optimal ->
  penalised (c_wsoft S) cs (values (solved (with_refs S 0) solve cs)) <= penalised (c_wsoft S) cs (values (solved (warm_only S) solve cs)).
Proof.
  intros S solve cs HS HC HA Hw HE HM HW NT (q & l & Hin) E1 E2.
  assert (AP : has_approx (run_calls cs cp_init) = true).
  { unfold has_approx. destruct (call_counters cs) as (_ & E). rewrite E. apply orb_true_iff. right. apply Nat.ltb_lt. unfold count_of.
    assert (X : In (CAddQua q "<" l ApproxSoftConstraint) (filter (wants ApproxSoftConstraint) cs)) by (apply filter_In; split; [exact Hin|reflexivity]). destruct (filter _ cs); [destruct X|cbn; lia]. }
  assert (A1 : alike (run_calls cs cp_init) (sc_p (Scp (run_calls cs cp_init) 0 IpModel.Indeterminate))) by apply alike_refl.
  set (sw := scp_round S solve 0 true (Scp (run_calls cs cp_init) 0 IpModel.Indeterminate)).
  assert (EW : solved (warm_only S) solve cs = sw).
  { unfold solved, scp_optimize, scp_refine, scp_main, scp_warm. cbn [warm_only c_max c_refs c_warm sc_p]. rewrite AP. replace (0 <? c_warm S)%Z with true by (symmetry; apply Z.ltb_lt; lia). reflexivity. }
  assert (EM : solved (with_refs S 0) solve cs = scp_round S solve 1 false sw).
  { unfold solved, scp_optimize, scp_refine, scp_main, scp_warm. cbn [with_refs c_max c_refs c_warm sc_p]. rewrite AP. replace (0 <? c_warm S)%Z with true by (symmetry; apply Z.ltb_lt; lia).
    replace (0 <? c_max S)%Z with true by (symmetry; apply Z.ltb_lt; lia). reflexivity. }
  rewrite EW, EM in *. apply round_descends; auto. apply round_exact; auto.
Qed.
Print Assumptions C66_warm_start_is_improved.

(** ** C67: which problems are solved, how often, by which solver.  [approximated]: a constraint in the problem has a trust region or is soft. *)
Definition approximated (cs : list call) : Prop := exists q l ap, In (CAddQua q "<" l ap) cs /\ ap <> ApproxNone.
Definition all_accepted (cs : list call) : Prop := forall q s l ap, In (CAddQua q s l ap) cs -> s = "<"%string.
Lemma approx_iff : forall cs, scoped cs -> all_accepted cs ->
  has_approx (run_calls cs cp_init) = ((0 <? n_tr (run_calls cs cp_init)) || (0 <? n_sc (run_calls cs cp_init)))%nat /\ (has_approx (run_calls cs cp_init) = true <-> approximated cs).
Proof.
  intros cs HS HA. destruct (call_counters cs) as (E1 & E2). destruct (stored_counters cs HS) as (E3 & E4). unfold has_approx. rewrite E1, E2, E3, E4. unfold count_of.
  assert (F : forall ap, filter (fun c => wants ap c && accepted_quad c) cs = filter (wants ap) cs).
  { intros ap. apply filter_ext_in. intros c Hc. destruct c as [ty lb ub g|a s b|q s l ap'|q s l|q l]; try now rewrite andb_true_r. cbn [accepted_quad]. rewrite (HA _ _ _ _ Hc). now rewrite String.eqb_refl, andb_true_r. }
  rewrite !F. split; [reflexivity|]. rewrite orb_true_iff, !Nat.ltb_lt.
  assert (G : forall ap, (0 < List.length (filter (wants ap) cs))%nat <-> exists c, In c cs /\ wants ap c = true).
  { intros ap. split.
    - destruct (filter (wants ap) cs) as [|c r] eqn:E; [cbn; lia|]. intros _. exists c. apply filter_In. rewrite E. now left.
    - intros (c & H). apply filter_In in H. destruct (filter (wants ap) cs); [destruct H|cbn; lia]. }
  rewrite !G. split.
  - intros [(c & Hc & W)|(c & Hc & W)]; destruct c as [ty lb ub g|a s b|q s l ap'|q s l|q l]; try discriminate; destruct ap'; try discriminate; exists q, l; eexists; (split; [rewrite (HA _ _ _ _ Hc) in Hc; exact Hc|discriminate]).
  - intros (q & l & ap & Hc & Hn). destruct ap; [congruence|left|right]; eexists; (split; [exact Hc|reflexivity]).
Qed.
Theorem C67_number_of_solves : forall S solve cs, scoped cs -> all_accepted cs ->
  (approximated cs -> sc_calls (solved S solve cs) = ((if (0 <? c_warm S)%Z then 1 else 0) + (if (0 <? c_max S)%Z then 1 else 0) + Z.to_nat (c_refs S))%nat) /\
  (~ approximated cs -> sc_calls (solved S solve cs) = if (0 <? c_max S)%Z then 1%nat else 0%nat).
Proof.
  intros S solve cs HS HA. destruct (approx_iff cs HS HA) as (EA & IFF). set (p := run_calls cs cp_init) in *.
  assert (RC : forall it w s, sc_calls (scp_round S solve it w s) = (sc_calls s + 1)%nat) by (intros it w s; unfold scp_round; destruct (solve _ _ _); cbn; lia).
  assert (FC : forall n s, sc_calls (fold_left (fun s ref => scp_round S solve (ref + 1) false s) (seq 1 n) s) = (sc_calls s + n)%nat).
  { induction n as [|n IH]; intros s; [cbn; lia|]. rewrite seq_S, fold_left_app. cbn [fold_left]. rewrite RC, IH. lia. }
  set (s0 := scp_warm S solve (Scp p 0 IpModel.Indeterminate)). set (s1 := scp_main S solve s0).
  assert (H0 : has_approx (sc_p s0) = has_approx p). { unfold s0, scp_warm. cbn [sc_p]. destruct ((0 <? c_warm S)%Z && has_approx p)%bool; [|reflexivity]. rewrite EA. apply round_counts. apply alike_refl. }
  assert (A0 : alike p (sc_p s0)) by apply warm_alike.
  assert (H1 : has_approx (sc_p s1) = has_approx p). { unfold s1, scp_main. destruct (0 <? c_max S)%Z; [|exact H0]. rewrite EA. now apply round_counts. }
  assert (C0 : sc_calls s0 = if ((0 <? c_warm S)%Z && has_approx p)%bool then 1%nat else 0%nat). { unfold s0, scp_warm. cbn [sc_p]. destruct (_ && _)%bool; [rewrite RC|]; reflexivity. }
  assert (C1 : sc_calls s1 = (sc_calls s0 + if (0 <? c_max S)%Z then 1 else 0)%nat). { unfold s1, scp_main. destruct (0 <? c_max S)%Z; [rewrite RC|]; lia. }
  assert (C2 : sc_calls (solved S solve cs) = (sc_calls s1 + if ((0 <? c_refs S)%Z && has_approx p)%bool then Z.to_nat (c_refs S) else 0)%nat).
  { unfold solved, scp_optimize, scp_refine. fold p s0 s1. rewrite H1. destruct ((0 <? c_refs S)%Z && has_approx p)%bool; [rewrite (FC (Z.to_nat (c_refs S)) s1)|]; lia. }
  rewrite C2, C1, C0. split; intros H.
  - apply IFF in H. rewrite H, !andb_true_r. destruct (0 <? c_refs S)%Z eqn:ER; [lia|]. apply Z.ltb_ge in ER. destruct (0 <? c_warm S)%Z, (0 <? c_max S)%Z; lia.
  - destruct (has_approx p) eqn:EH; [elim H; now apply IFF|]. rewrite !andb_false_r. destruct (0 <? c_max S)%Z; reflexivity.
Qed.
Print Assumptions C67_number_of_solves.

(** Nothing to do (no warm start, SolverMaxIters 0, no refinements): the code says so and the variables keep their values. *)
Theorem C67_nothing_solved : forall S solve p calls, (c_warm S <= 0)%Z -> (c_max S <= 0)%Z -> (c_refs S <= 0)%Z -> scp_optimize S solve p calls = Scp p calls IpModel.Indeterminate.
Proof.
  intros S solve p calls H1 H2 H3. unfold scp_optimize, scp_refine, scp_main, scp_warm. cbn [sc_p].
  replace (0 <? c_warm S)%Z with false by (symmetry; apply Z.ltb_ge; lia). replace (0 <? c_max S)%Z with false by (symmetry; apply Z.ltb_ge; lia). replace (0 <? c_refs S)%Z with false by (symmetry; apply Z.ltb_ge; lia). reflexivity.
Qed.
(** Mixed-integer problems: without approximations the one programme is solved by branch and bound; with approximations the search over
    non-convex relaxations is used; continuous problems go to the interior-point solver. *)
Definition has_binaries (cs : list call) : Prop := exists c, In (c, Binary) (issued cs cp_init).
Lemma bins_iff : forall cs, scoped cs -> (0 <? List.length (p_bin (run_calls cs cp_init)))%nat = true <-> has_binaries cs.
Proof.
  intros cs HS. assert (I := i_bin _ _ (history_inv cs HS)). rewrite Nat.ltb_lt. split.
  - destruct (p_bin (run_calls cs cp_init)) as [|c l] eqn:E; [cbn; lia|]. intros _. exists c. apply I. now left.
  - intros (c & H). apply I in H. destruct (p_bin (run_calls cs cp_init)); [destruct H|cbn; lia].
Qed.
Theorem C67_dispatch : forall S solve ncvx cs, scoped cs -> all_accepted cs ->
  let p := run_calls cs cp_init in
  (has_binaries cs -> approximated cs -> model_optimize S solve ncvx p 0 = Scp (set_vals (snd (ncvx p)) p) 0 (fst (ncvx p))) /\
  (~ (has_binaries cs /\ approximated cs) -> model_optimize S solve ncvx p 0 = solved S solve cs) /\
  (~ approximated cs -> (0 < c_max S)%Z -> exists prog b, (b = true <-> has_binaries cs) /\
     (forall x, feasible_answer prog x <-> compiled_feasible (c_thr S) (c_wsoft S) 1 false cs x) /\
     sc_code (solved S solve cs) = fst (solve 0%nat b prog) /\ agree (user_cols cs) (snd (solve 0%nat b prog)) (values (solved S solve cs))).
Proof.
  intros S solve ncvx cs HS HA p. destruct (approx_iff cs HS HA) as (EA & IFF). pose proof (bins_iff cs HS) as IB. fold p in EA, IFF, IB. unfold model_optimize. split; [|split].
  - intros HB HP. apply IB in HB. apply IFF in HP. rewrite HB, HP. cbn [andb]. destruct (ncvx p). reflexivity.
  - intros N. destruct ((0 <? List.length (p_bin p))%nat && has_approx p)%bool eqn:E; [|reflexivity]. apply andb_prop in E as [E1 E2]. elim N. split; [now apply IB|now apply IFF].
  - intros NP HM. assert (NA : has_approx p = false) by (destruct (has_approx p); [elim NP; now apply IFF|reflexivity]).
    assert (ES : solved S solve cs = scp_round S solve 1 false (Scp p 0 IpModel.Indeterminate)).
    { unfold solved, scp_optimize, scp_refine, scp_main, scp_warm. fold p. cbn [sc_p]. rewrite NA, andb_false_r. replace (0 <? c_max S)%Z with true by (symmetry; apply Z.ltb_lt; lia).
      rewrite (round_counts S solve cs 1 false (Scp p 0 IpModel.Indeterminate) (alike_refl _)). fold p. rewrite <- EA, NA, andb_false_r. reflexivity. }
    rewrite ES. unfold scp_round. cbn [sc_p sc_calls].
    exists (Program (b_nlineq (recount p) false) (b_q (recount p) false) (cp_build (c_thr S) (c_wsoft S) 1 false (recount p)) (p_bin (recount p))),
      ((0 <? List.length (p_bin (recount p))) && ((p_ntr (recount p) =? 0) && (p_nsc (recount p) =? 0)))%nat.
    split; [|split; [|split]].
    + cbn [recount p_bin p_ntr p_nsc]. rewrite EA in NA. apply orb_false_iff in NA as [N1 N2]. apply Nat.ltb_ge in N1, N2. replace (n_tr p =? 0)%nat with true by (symmetry; apply Nat.eqb_eq; lia). replace (n_sc p =? 0)%nat with true by (symmetry; apply Nat.eqb_eq; lia).
      rewrite andb_true_r. exact IB.
    + intros x. unfold feasible_answer, compiled_feasible. cbn [g_nl g_q g_stg]. reflexivity.
    + destruct (solve _ _ _) as [code x]. reflexivity.
    + destruct (solve _ _ _) as [code x]. cbn [snd]. intros c Hc. unfold values. cbn [sc_p]. apply set_vals_env. cbn [recount p_vars]. apply (i_U _ _ (history_inv cs HS) c Hc).
Qed.
Print Assumptions C67_dispatch.

(** "A problem is solved as if rejected constraints had never been entered" is false: a quadratic constraint with a trust region that was rejected
    (exception: wrong sense) still redirects a mixed-integer problem to the search over non-convex relaxations, although no constraint is approximated. *)
Definition rejected_calls : list call := [CAddVar Binary 0 1 0; CAddQua q_empty ">" (le_of_const 0) ApproxTrustRegion].
Theorem C67_rejected_constraint_redirects_refuted : exists cs, has_binaries cs /\ ~ approximated cs /\
  (exists c, In c cs /\ forall p, do_call c p = Threw (out_state (do_call c p))) /\
  forall S solve ncvx, model_optimize S solve ncvx (run_calls cs cp_init) 0 = Scp (set_vals (snd (ncvx (run_calls cs cp_init))) (run_calls cs cp_init)) 0 (fst (ncvx (run_calls cs cp_init))).
Proof.
  exists rejected_calls. split; [|split; [|split]].
  - exists 0%nat. unfold rejected_calls. cbn [issued]. destruct (Rlt_dec 1 0); [lra|]. now left.
  - intros (q & l & ap & [H|[H|[]]] & _); discriminate.
  - eexists. split; [right; left; reflexivity|]. intros p. reflexivity.
  - intros S solve ncvx. unfold model_optimize. destruct (ncvx _) as [code x] eqn:E.
    assert (B : ((0 <? List.length (p_bin (run_calls rejected_calls cp_init)))%nat && has_approx (run_calls rejected_calls cp_init))%bool = true).
    { unfold rejected_calls, run_calls. cbn [fold_left do_call]. unfold cp_addVar. destruct (Rlt_dec 1 0); [lra|]. reflexivity. }
    rewrite B. reflexivity.
Qed.
Print Assumptions C67_rejected_constraint_redirects_refuted.

(** ** Non-vacuity: minimise (x-1)^2 with x^2 <= 1 entered with a trust region or as a soft constraint; the solver returns a best point whenever
    there is one.  All hypotheses of the theorems hold, for any number of refinements, with and without warm start. *)
Definition best_solver : oracle := fun _ _ P =>
  match excluded_middle_informative (exists x, best_answer P x) with
  | left H => (IpModel.Optimal, proj1_sig (constructive_indefinite_description _ H))
  | right _ => (IpModel.PrimalInf, fun _ => 0)
  end.
Lemma best_solver_exact : exact_solver best_solver.
Proof.
  intros k b P x. unfold best_solver. destruct (excluded_middle_informative _) as [H|H]; [|discriminate]. intros E. injection E as <-. exact (proj2_sig (constructive_indefinite_description _ H)).
Qed.
Lemma exact_sound solve : exact_solver solve -> sound_solver solve.
Proof. intros H k b P x E. apply (H k b P x E). Qed.
Definition ex_x := le_of_var 0 1.
Definition ex_scp (ap : approx) : list call :=
  [CAddVar Continuous (-5) 5 1; CAddQua (mkQ (le_of_const 0) [(1, ex_x)] [] false false) "<" (le_of_const 1) ap; CSetObj (mkQ (le_of_const 0) [(1, mkLE (-1) [(0%nat, 1)])] [] false false) (le_of_const 0)].
Lemma ex_scp_cols ap : user_cols (ex_scp ap) = [0%nat].
Proof. unfold user_cols, ex_scp. cbn [issued]. destruct (Rlt_dec 5 (-5)); [lra|]. reflexivity. Qed.
Lemma ex_scp_ok ap : scoped (ex_scp ap) /\ (forall c, In c (ex_scp ap) -> call_convex c) /\ (forall c, In c (ex_scp ap) -> call_not_absurd c).
Proof.
  split; [|split].
  - apply scoped_check. unfold ex_scp. cbn [scoped_from call_scoped app].
    assert (K : forall U a, uses U (le_of_const a)) by (intros U a c []).
    assert (C1 : user_cols [CAddVar Continuous (-5) 5 1] = [0%nat]) by (unfold user_cols; cbn [issued]; destruct (Rlt_dec 5 (-5)); [lra|reflexivity]).
    assert (C2 : forall c, user_cols [CAddVar Continuous (-5) 5 1; CAddQua c "<" (le_of_const 1) ap] = [0%nat]) by (intros c; unfold user_cols; cbn [issued]; destruct (Rlt_dec 5 (-5)); [lra|reflexivity]).
    rewrite C1, C2. unfold uses_q, fresh_q. cbn [q_lexpr q_terms q_extra q_trust q_soft].
    repeat split; auto; try (intros t [<-|[]] c [<-|[]]; now left). intros q l [H|[H|[]]]; discriminate.
  - intros c [<-|[<-|[<-|[]]]]; [exact I| |]; intros t [<-|[]]; cbn; lra.
  - intros c [<-|[<-|[<-|[]]]]; exact I.
Qed.
Lemma ex_scp_obj ap x : user_obj (ex_scp ap) x = (x 0%nat - 1) * (x 0%nat - 1).
Proof. unfold user_obj, ex_scp. cbn [fold_left]. unfold obj_value, wsq, aval, sumR. cbn. ring. Qed.
Lemma ex_lin env x : env 0%nat = 1 -> x 0%nat = 1 -> lin_model env (mkQ (le_of_const 0) [(1, ex_x)] [] false false) (le_of_const 1) x = 0.
Proof. intros E1 E2. unfold lin_model, wsq, aval, sumR. cbn. rewrite E1, E2. ring. Qed.
Lemma ex_scp_pen ap env w x : 0 <= w -> 0 <= sumR (map (soft_penalty env w x) (ex_scp ap)) /\ (env 0%nat = 1 -> x 0%nat = 1 -> sumR (map (soft_penalty env w x) (ex_scp ap)) = 0).
Proof.
  intros Hw. unfold ex_scp, sumR. cbn [map fold_right soft_penalty]. destruct ap; try (split; intros; lra). cbn [String.eqb Ascii.eqb Bool.eqb].
  set (m := lin_model _ _ _ _). split; [assert (0 <= w * (m * m)) by (apply Rmult_le_pos; [exact Hw|apply Rle_0_sqr]); lra|].
  intros E1 E2. assert (M : m = 0) by now apply ex_lin. rewrite M. ring.
Qed.
Lemma ex_round S ap iter warm s : 0 <= c_wsoft S -> 0 <= c_thr S -> alike (run_calls (ex_scp ap) cp_init) (sc_p s) -> (warm = false -> p_env (sc_p s) 0%nat = 1) ->
  sc_code (scp_round S best_solver iter warm s) = IpModel.Optimal /\ values (scp_round S best_solver iter warm s) 0%nat = 1.
Proof.
  intros Hw Ht AL EV. destruct (ex_scp_ok ap) as (HS & HC & HA). set (cs := ex_scp ap) in *.
  destruct (round_is S best_solver cs HS iter warm s AL) as (vs & a & b & x & k & bnb & L & _ & _ & EE & ES & EP & AG).
  set (P := Program _ _ _ _) in ES. set (env := p_env (revalued (run_calls cs cp_init) vs a b)).
  assert (E0 : warm = false -> env 0%nat = 1) by (intros Ew; unfold env, p_env; cbn [revalued p_vars]; rewrite EE; now apply EV).
  destruct (complete_at (c_thr S) (c_wsoft S) iter warm cs vs a b L HS (fun _ => 1)) as (x1 & _ & F1 & O1).
  { intros c [<-|[<-|[<-|[]]]]; [exact I| |exact I]. cbn [call_holds]. intros _. unfold wsq, aval, sumR. cbn. lra. }
  { intros c Hc. lra. }
  { intros Ew c [<-|[<-|[<-|[]]]]; [exact I| |exact I]. cbn [trust_holds]. destruct ap; try exact I. intros _. fold env. specialize (E0 Ew).
    rewrite (ex_lin env (fun _ => 1) E0 eq_refl). assert (0 <= c_thr S ^ iter) by now apply pow_le. lra. }
  fold P in F1, O1. fold env in O1.
  assert (O1' : std_objective (g_stg P) x1 + obj_const cs = 0).
  { rewrite O1. unfold cs. rewrite ex_scp_obj. destruct warm; [ring|]. rewrite (proj2 (ex_scp_pen ap env (c_wsoft S) (fun _ => 1) Hw) (E0 eq_refl) eq_refl). ring. }
  assert (LB : forall y, feasible_answer P y -> (y 0%nat - 1) * (y 0%nat - 1) <= std_objective (g_stg P) y + obj_const cs).
  { intros y Fy. destruct (sound_at (c_thr S) (c_wsoft S) iter warm cs vs a b L HS y HC HA Hw Fy) as (_ & _ & _ & LE). fold P env in LE. unfold cs in LE at 1. rewrite ex_scp_obj in LE.
    destruct warm; [lra|]. pose proof (proj1 (ex_scp_pen ap env (c_wsoft S) y Hw)) as PP. fold cs in PP. lra. }
  assert (B1 : best_answer P x1). { split; [exact F1|]. intros y Fy. specialize (LB y Fy). assert (0 <= (y 0%nat - 1) * (y 0%nat - 1)) by apply Rle_0_sqr. lra. }
  assert (EC : sc_code (scp_round S best_solver iter warm s) = IpModel.Optimal).
  { unfold best_solver in ES at 1. destruct (excluded_middle_informative _) as [H|H]; [now injection ES as <- _|elim H; now exists x1]. }
  split; [exact EC|]. rewrite EC in ES. apply best_solver_exact in ES as [Fx Bx]. specialize (Bx x1 F1). specialize (LB x Fx).
  rewrite AG by (unfold cs; rewrite ex_scp_cols; now left). assert (0 <= (x 0%nat - 1) * (x 0%nat - 1)) by apply Rle_0_sqr.
  assert (Z : (x 0%nat - 1) * (x 0%nat - 1) = 0) by lra. apply Rmult_integral in Z. lra.
Qed.
Example ex_scp_solved : forall S ap, 0 <= c_wsoft S -> 0 <= c_thr S -> (0 < c_max S)%Z -> ap <> ApproxNone ->
  sc_code (solved S best_solver (ex_scp ap)) = IpModel.Optimal /\ values (solved S best_solver (ex_scp ap)) 0%nat = 1 /\
  ((0 < c_warm S)%Z -> sc_code (solved (warm_only S) best_solver (ex_scp ap)) = IpModel.Optimal).
Proof.
  intros S ap Hw Ht HM Hap. set (p := run_calls (ex_scp ap) cp_init).
  assert (A1 : alike p (sc_p (Scp p 0 IpModel.Indeterminate))) by apply alike_refl.
  assert (V1 : p_env p 0%nat = 1).
  { unfold p, ex_scp, run_calls. cbn [fold_left do_call]. unfold cp_addVar. destruct (Rlt_dec 5 (-5)); [lra|]. unfold p_env. destruct ap; cbn; unfold cp_addAux, cp_addVar; (destruct (Rlt_dec 1 0); [lra|]); cbn; unfold clamp_guess; (destruct (Rlt_dec 1 (-5)); [lra|]); (destruct (Rlt_dec 5 1); [lra|]); reflexivity. }
  set (s0 := scp_warm S best_solver (Scp p 0 IpModel.Indeterminate)).
  assert (A0 : alike p (sc_p s0)) by apply warm_alike.
  assert (V0 : p_env (sc_p s0) 0%nat = 1). { unfold s0, scp_warm. destruct (_ && _)%bool; [|exact V1]. apply (ex_round S ap 0 true); auto. }
  set (s1 := scp_round S best_solver 1 false s0).
  assert (R1 : sc_code s1 = IpModel.Optimal /\ values s1 0%nat = 1) by (apply (ex_round S ap); auto).
  assert (B1 : alike p (sc_p s1)) by now apply round_alike.
  assert (FN : forall n, let s := fold_left (fun s ref => scp_round S best_solver (ref + 1) false s) (seq 1 n) s1 in alike p (sc_p s) /\ sc_code s = IpModel.Optimal /\ values s 0%nat = 1).
  { induction n as [|n IH]; [cbn; auto|]. cbv zeta in *. rewrite seq_S, fold_left_app. cbn [fold_left]. destruct IH as (I1 & I2 & I3). split; [now apply round_alike|]. apply (ex_round S ap); auto. }
  assert (E : sc_code (solved S best_solver (ex_scp ap)) = IpModel.Optimal /\ values (solved S best_solver (ex_scp ap)) 0%nat = 1).
  { unfold solved, scp_optimize, scp_refine, scp_main. fold p s0. replace (0 <? c_max S)%Z with true by (symmetry; apply Z.ltb_lt; lia). fold s1. destruct (_ && _)%bool; [apply FN|exact R1]. }
  destruct E as [E1 E2]. split; [exact E1|]. split; [exact E2|].
  intros HW. unfold solved, scp_optimize, scp_refine, scp_main, scp_warm. fold p. cbn [warm_only c_max c_refs c_warm sc_p]. replace (0 <? c_warm S)%Z with true by (symmetry; apply Z.ltb_lt; lia).
  assert (HP : has_approx p = true). { unfold has_approx. destruct (call_counters (ex_scp ap)) as (N1 & N2). fold p in N1, N2. rewrite N1, N2. destruct ap; [congruence|reflexivity|reflexivity]. }
  rewrite HP. cbn [andb]. change (0 <? 0)%Z with false. cbn [andb]. apply (ex_round (warm_only S) ap); auto.
Qed.
Example ex_scp_hypotheses : (exists q l, In (CAddQua q "<" l ApproxTrustRegion) (ex_scp ApproxTrustRegion)) /\ no_trust_calls (ex_scp ApproxSoftConstraint) /\ sound_solver best_solver /\ exact_solver best_solver.
Proof.
  split; [eexists _, _; right; left; reflexivity|]. split; [intros q s l [H|[H|[H|[]]]]; discriminate|]. split; [apply exact_sound|]; apply best_solver_exact.
Qed.
Example ex_scp_dispatch : scoped (ex_scp ApproxNone) /\ all_accepted (ex_scp ApproxNone) /\ ~ approximated (ex_scp ApproxNone) /\ approximated (ex_scp ApproxTrustRegion).
Proof.
  split; [apply ex_scp_ok|]. split; [intros q s l ap [H|[H|[H|[]]]]; try discriminate; now injection H|]. split.
  - intros (q & l & ap & [H|[H|[H|[]]]] & N); try discriminate. injection H as _ _ <-. now apply N.
  - eexists _, _, _. split; [right; left; reflexivity|discriminate].
Qed.

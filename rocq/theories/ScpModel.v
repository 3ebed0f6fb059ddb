(** * Model of the solution loop of the modelling layer
    Sources: solver/src/solver/interface/ConicProblem.cpp l.319-363 (solveProblem, optimize), solver/src/solver/interface/Model.cpp l.16-31.
    The numerical solvers (interior point, branch and bound) are an oracle: what they answer to the [k]-th programme they are given, see
    IpModel and BnbModel.  The iteration limit SolverIntParam_MaxIters that optimize sets before each round is not read by any solver
    (IPSolver.cpp l.301, 338 read SolverIntParam_SolverMaxIters) and is left out. *)
From Coq Require Import Reals List Arith ZArith Bool.
Import ListNotations.
From Verif Require Import ExprsModel ConicModel.
From Verif Require IpModel.
Local Open Scope R_scope.
Notation exitcode := IpModel.exitcode.

(** The settings read: SolverIntParam_WarmStartIters, SolverMaxIters, NumberRefinementsTrustRegion, SolverDoubleParam_TrustRegionThreshold,
    SoftConstraintWeightReduced. *)
Record scp_set := ScpSet { c_warm : Z; c_max : Z; c_refs : Z; c_thr : R; c_wsoft : R }.

(** What buildProblem hands to a solver: size of the linear cone, sizes of the second-order cones, matrices; with the binary columns. *)
Record program := Program { g_nl : nat; g_q : list nat; g_stg : storage; g_bin : list nat }.
(** The k-th call of a solver; the flag says whether branch and bound is used (l.322). *)
Definition oracle := nat -> bool -> program -> exitcode * (nat -> R).

(** l.325-331: vars_[i]->set(SolverDoubleParam_X, x[i]); the storage is shared by all copies of a variable (Var.hpp l.56). *)
Definition set_val (v : cvar) (a : R) : cvar := mkVar (v_type v) (v_lb v) (v_ub v) a (v_guess v).
Definition set_vals (x : nat -> R) (p : problem) : problem :=
  mkP (map (fun iv => set_val (snd iv) (x (fst iv))) (combine (seq 0 (List.length (p_vars p))) (p_vars p)))
      (p_bin p) (p_leq p) (p_lineq p) (p_qineq p) (p_soc p) (p_obj p) (p_ntr p) (p_nsc p) (p_binlb p) (p_binub p).
(** l.104-113: the counters are recomputed by buildProblem. *)
Definition recount (p : problem) : problem :=
  mkP (p_vars p) (p_bin p) (p_leq p) (p_lineq p) (p_qineq p) (p_soc p) (p_obj p) (n_tr p) (n_sc p) (p_binlb p) (p_binub p).

(** The problem, the number of solver calls so far, the exit code. *)
Record scp_state := Scp { sc_p : problem; sc_calls : nat; sc_code : exitcode }.

Section Optimize.
  Variables (S : scp_set) (solve : oracle).

  (** l.343-344, 349-350, 357-358: buildProblem(iter, warm) and solveProblem, l.319-333. *)
  Definition scp_round (iter : nat) (warm : bool) (s : scp_state) : scp_state :=
    let p := recount (sc_p s) in
    let prog := Program (b_nlineq p warm) (b_q p warm) (cp_build (c_thr S) (c_wsoft S) iter warm p) (p_bin p) in
    let bnb := ((0 <? List.length (p_bin p)) && ((p_ntr p =? 0) && (p_nsc p =? 0)))%nat in
    let '(code, x) := solve (sc_calls s) bnb prog in
    Scp (set_vals x p) (Datatypes.S (sc_calls s)) code.

  (** numTrustRegions_>0 || numSoftConstraints_>0 *)
  Definition has_approx (p : problem) : bool := ((0 <? p_ntr p) || (0 <? p_nsc p))%nat.

  (** l.339-345 *)
  Definition scp_warm (s : scp_state) : scp_state :=
    if ((0 <? c_warm S)%Z && has_approx (sc_p s))%bool then scp_round 0 true s else s.
  (** l.347-352 *)
  Definition scp_main (s : scp_state) : scp_state := if (0 <? c_max S)%Z then scp_round 1 false s else s.
  (** l.354-361: for (ref=1..refs) *)
  Definition scp_refine (s : scp_state) : scp_state :=
    if ((0 <? c_refs S)%Z && has_approx (sc_p s))%bool
    then fold_left (fun s ref => scp_round (ref + 1) false s) (seq 1 (Z.to_nat (c_refs S))) s else s.
  (** l.335-363: ConicProblem::optimize. *)
  Definition scp_optimize (p : problem) (calls : nat) : scp_state :=
    scp_refine (scp_main (scp_warm (Scp p calls IpModel.Indeterminate))).

  (** Model.cpp l.18-30: Model::optimize; [ncvx] is NcvxBnBSolver (initialize and optimize): exit code and solution. *)
  Variable ncvx : problem -> exitcode * (nat -> R).
  Definition model_optimize (p : problem) (calls : nat) : scp_state :=
    if ((0 <? List.length (p_bin p))%nat && has_approx p)%bool
    then let '(code, x) := ncvx p in Scp (set_vals x p) calls code
    else scp_optimize p calls.
End Optimize.

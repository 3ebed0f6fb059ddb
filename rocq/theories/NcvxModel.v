(** * Model of the branch-and-bound search for mixed-integer problems with approximated constraints
    Source: solver/src/solver/optimizer/NcvxBnBSolver.cpp l.13-243, solver/src/solver/interface/Model.cpp l.16-31.
    The functions createBranches (l.14-26), selectNodeToExplore (l.29-41), getProblemLowerBound (l.44-50), selectPartitionVariable (l.53-63),
    optimilityCheck (l.153-158), exitcode (l.161-175) are those of BnBSolver.cpp word for word (getProblem().getSolver() for getSolver()) and the
    definitions of BnbModel are used.  What differs: every node is solved by ConicProblem::optimize, a whole sequence of convex programmes that
    starts from, and changes, the values of the problem's variables (ScpModel); the decisions are written into the bounds of the binaries; the cost
    vector is the one the last programme left in the storage.  [O] is the state of the problem between two calls.
    Not modelled: partition_val_, the statistics copied by storeSolution/loadSolution, the dual part of opt_. *)
From Coq Require Import Reals List Arith ZArith Bool.
From Verif Require Import Base IpModel BnbModel.
From Verif Require ConicModel ScpModel.
Import ListNotations.
Open Scope R_scope.

Section Ncvx.
Variable S : bset.
Variable O : Type.
(** updateProblemData(dec) followed by getProblem().optimize(): exit code, optimalVector().x(), c().dot(x), state afterwards. *)
Variable ask : O -> list Z -> exitcode * (nat -> R) * R * O.
Variable ids : list nat.

(** l.105-150: updateNodeBounds. *)
Definition nx_update (s : bstate) (o : O) (id : Z) : res (bstate * O) :=
  bind (vget (s_mat s) id) (fun dec =>
  bind (updateProblemData dec) (fun _ =>
  bind (vget (s_nodes s) id) (fun nd =>
  let '(c, x, v, o1) := ask o dec in
  if accepted c then
    bind (if is_integer S ids x then Ok (mkNode SolvedNonBranchable (n_part nd) (Fin v) (Fin v), x, false, (s_calls s + 1)%nat, o1)
          else
            bind (updateProblemData (rounded ids x)) (fun _ =>
            let '(c2, x2, v2, o2) := ask o1 (rounded ids x) in
            Ok (mkNode SolvedBranchable (select_part ids 0 x 1 (n_part nd)) (Fin v) (if optimal c2 then Fin v2 else n_upper nd),
                x2, optimal c2, (s_calls s + 2)%nat, o2)))
      (fun '(nd', last, viable, calls, o') =>
        let better := e_ltb (n_upper nd') (s_ub s) in
        let nd'' := if viable then mkNode (n_status nd') (n_part nd') (n_lower nd') PInf else nd' in
        bind (vset (s_nodes s) id nd'') (fun nodes =>
        Ok (mkB (s_iter s) (s_node s) nodes (s_mat s) (if better then last else s_opt s) (s_lb s) (if better then n_upper nd' else s_ub s) calls, o')))
  else
    bind (vset (s_nodes s) id (mkNode SolvedNonBranchable (n_part nd) PInf PInf)) (fun nodes =>
    Ok (mkB (s_iter s) (s_node s) nodes (s_mat s) (s_opt s) (s_lb s) (s_ub s) (s_calls s + 1)%nat, o1))))).

(** l.178-200: initializeRootNode and the root node; [nodes0], [opt0] are the previous contents of nodes_ and opt_. *)
Definition nx_root (nodes0 : list node) (opt0 : nat -> R) (o : O) : res (bstate * O) :=
  bind (vget nodes0 0) (fun nd =>
  bind (vset nodes0 0 (mkNode NotSolved (n_part nd) NInf PInf)) (fun nodes =>
  bind (nx_update (mkB 0 0 nodes (repeat (repeat (-1)%Z (List.length ids)) (b_max S)) opt0 NInf PInf 0) o 0) (fun '(s, o') =>
  bind (vget (s_nodes s) 0) (fun nd' =>
  Ok (mkB 0 0 (s_nodes s) (s_mat s) (s_opt s) (n_lower nd') (n_upper nd') (s_calls s), o'))))).

(** l.202-217: the body of the loop. *)
Definition nx_body (s : bstate) (o : O) : res (bstate * O) :=
  let s1 := mkB (s_iter s + 1)%nat (s_node s) (s_nodes s) (s_mat s) (s_opt s) (s_lb s) (s_ub s) (s_calls s) in
  bind (createBranches s1 (s_node s)) (fun s2 =>
  bind (nx_update s2 o (s_node s)) (fun '(s3, o3) =>
  bind (nx_update s3 o3 (Z.of_nat (s_iter s3))) (fun '(s4, o4) =>
  let s5 := mkB (s_iter s4) (s_node s4) (s_nodes s4) (s_mat s4) (s_opt s4) (getProblemLowerBound s4) (s_ub s4) (s_calls s4) in
  Ok (mkB (s_iter s5) (selectNodeToExplore s5) (s_nodes s5) (s_mat s5) (s_opt s5) (s_lb s5) (s_ub s5) (s_calls s5), o4)))).

(** The while loop; out of fuel = UB (C70 shows b_max passes suffice). *)
Fixpoint nx_loop (fuel : nat) (s : bstate) (o : O) : res (bstate * O) :=
  if continue S s then match fuel with 0%nat => UB | Datatypes.S f => bind (nx_body s o) (fun '(s', o') => nx_loop f s' o') end else Ok (s, o).

(** l.193-221: optimize: exit code, the vector loaded back into the solver (l.98-102), state of the problem, number of optimisations. *)
Definition nx_optimize (nodes0 : list node) (opt0 : nat -> R) (o : O) : res (exitcode * (nat -> R) * O * nat) :=
  bind (nx_root nodes0 opt0 o) (fun '(s0, o0) =>
  bind (nx_loop (b_max S) s0 o0) (fun '(s, o') => Ok (bnb_exitcode S s, s_opt s, o', s_calls s))).
End Ncvx.

(** ** The problem under the search *)
Import ConicModel ScpModel.

(** l.66-89: updateProblemData writes the bounds of binary number v (rows -x <= lb, x <= ub of the programme, ConicModel.rows_bin). *)
Definition dec_lb (d : Z) : R := if (d =? 1)%Z then -1 else 0.
Definition dec_ub (d : Z) : R := if (d =? 0)%Z then 0 else 1.
Definition decide (dec : list Z) (p : problem) : problem :=
  mkP (p_vars p) (p_bin p) (p_leq p) (p_lineq p) (p_qineq p) (p_soc p) (p_obj p) (p_ntr p) (p_nsc p) (map dec_lb dec) (map dec_ub dec).

(** l.110, 132: one optimisation; the state is the problem and the number of programmes solved so far; [cdot] is the product with the cost vector
    in the storage, which the solver has rescaled in place (Equilibration, EqModel).  optimalVector().x() are the values just written to the
    variables (ConicProblem.cpp l.329-330). *)
Definition scp_ask (C : scp_set) (solve : oracle) (cdot : nat -> (nat -> R) -> R) (o : problem * nat) (dec : list Z) : exitcode * (nat -> R) * R * (problem * nat) :=
  let s := scp_optimize C solve (decide dec (fst o)) (snd o) in
  (sc_code s, p_env (sc_p s), cdot (sc_calls s) (p_env (sc_p s)), (sc_p s, sc_calls s)).

(** l.223-238: initialize and optimize.  [built] tells whether a programme has been built for this problem before: opt_.initialize(getCone())
    (l.228) resizes by the sizes of the cone, which Cone(){} leaves uninitialised (Cone.hpp l.91, 158-170) and only buildProblem sets
    (ConicProblem.cpp l.123); reading them before is UB. *)
Definition ncvx_optimize (S : bset) (C : scp_set) (solve : oracle) (cdot : nat -> (nat -> R) -> R) (built : bool) (nodes0 : list node) (opt0 : nat -> R)
    (p : problem) (calls : nat) : res (exitcode * (nat -> R) * (problem * nat) * nat) :=
  if built then nx_optimize S (problem * nat) (scp_ask C solve cdot) (p_bin p) nodes0 opt0 (p, calls) else UB.

(** Model.cpp l.16-31: Model::optimize: exit code and the problem with the values of the variables. *)
Definition model_run (S : bset) (C : scp_set) (solve : oracle) (cdot : nat -> (nat -> R) -> R) (built : bool) (nodes0 : list node) (opt0 : nat -> R)
    (p : problem) (calls : nat) : res (exitcode * problem) :=
  if ((0 <? List.length (p_bin p))%nat && has_approx p)%bool
  then bind (ncvx_optimize S C solve cdot built nodes0 opt0 p calls) (fun '(c, x, (p', _), _) => Ok (c, set_vals x p'))
  else let s := scp_optimize C solve p calls in Ok (sc_code s, sc_p s).

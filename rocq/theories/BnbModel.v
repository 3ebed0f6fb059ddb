(** * Model of the branch-and-bound solver for mixed-integer problems
    Source: solver/src/solver/optimizer/BnBSolver.cpp l.17-239, solver/include/solver/optimizer/BnBSolver.hpp l.19-67.
    The interior-point solver is an oracle that may depend on the number of calls made so far (it keeps state between calls); its model
    is IpModel.v.  Reals for doubles, with the two infinities the code uses; comparisons with the NaN that inf - inf produces are false.
    Not modelled: partition_val_ (written, never read), statistics and printing. *)
From Coq Require Import Reals List Arith ZArith Bool.
From Verif Require Import Base IpModel.
Import ListNotations.
Open Scope R_scope.

(** Doubles that may be infinite. *)
Inductive eR := NInf | Fin (r : R) | PInf.
Definition e_ltb (a b : eR) : bool :=
  match a, b with
  | NInf, NInf => false | NInf, _ => true | _, NInf => false
  | PInf, _ => false | Fin _, PInf => true
  | Fin x, Fin y => ltb x y
  end.
(** std::min(a, b) = (b < a) ? b : a. *)
Definition e_min (a b : eR) : eR := if e_ltb b a then b else a.

(** BnBSolver.hpp l.20-26. *)
Inductive status := NotSolved | SolvedBranchable | SolvedNonBranchable.
Record node := mkNode { n_status : status; n_part : Z; n_lower : eR; n_upper : eR }.

(** The settings read: SolverIntParam_BnBMaxIters, BnBIntegerTol, BnBAbsSubOptGap, BnBRelSubOptGap. *)
Record bset := mkBS { b_max : nat; b_tol : R; b_abs : R; b_rel : R }.

(** The members.  [s_nodes] has b_max entries, [s_mat] b_max columns (vectors of decisions 1 / 0 / -1), [s_opt] is opt_ (the stored
    vector), [s_calls] counts the calls of the interior-point solver.  binvars_vec_id_ is always overwritten before use. *)
Record bstate := mkB { s_iter : nat; s_node : Z; s_nodes : list node; s_mat : list (list Z); s_opt : nat -> R; s_lb : eR; s_ub : eR; s_calls : nat }.

Section BnB.
Variable S : bset.
(** What the interior-point solver returns at its k-th call on the problem whose binaries are restricted by the given decisions. *)
Variable relax : nat -> list Z -> exitcode * (nat -> R).
(** binvars_ids_: the column of each binary variable. *)
Variable ids : list nat.
(** getStorage().c().dot(x). *)
Variable cost : (nat -> R) -> R.

(** l.69-92: updateProblemData; the rows set are in [restrict] of BnbSpec.v; here only the throw. *)
Definition decision_ok (d : Z) : bool := ((d =? 1) || (d =? 0) || (d =? -1))%Z.
Definition updateProblemData (dec : list Z) : res unit := if forallb decision_ok dec then Ok tt else Throw.

(** std::round: to nearest, halves away from zero. *)
Definition round_ (x : R) : Z := if Rle_dec 0 x then Int_part (x + / 2) else (- Int_part (- x + / 2))%Z.
(** l.121-125. *)
Definition rounded (x : nat -> R) : list Z := map (fun i => round_ (x i)) ids.
Definition is_integer (x : nat -> R) : bool := forallb (fun i => ltb (Rabs (x i - IZR (round_ (x i)))) (b_tol S)) ids.

(** l.56-66: selectPartitionVariable; [part] is the previous contents of partition_id_. *)
Fixpoint select_part (l : list nat) (v : nat) (x : nat -> R) (threshold : R) (part : Z) : Z :=
  match l with
  | [] => part
  | i :: l' => if ltb (Rabs (x i - / 2)) threshold then select_part l' (v + 1) x (Rabs (x i - / 2)) (Z.of_nat v) else select_part l' (v + 1) x threshold part
  end.

(** l.114-117 and l.137. *)
Definition accepted (c : exitcode) : bool :=
  match c with Optimal | OptimalInacc | DualInf | DualInfInacc | PrimalInf | PrimalInfInacc | ReachMaxIters => true | _ => false end.
Definition optimal (c : exitcode) : bool := match c with Optimal | OptimalInacc => true | _ => false end.

(** l.108-156: updateNodeBounds. *)
Definition updateNodeBounds (s : bstate) (id : Z) : res bstate :=
  bind (vget (s_mat s) id) (fun dec =>
  bind (updateProblemData dec) (fun _ =>
  bind (vget (s_nodes s) id) (fun nd =>
  let '(c, x) := relax (s_calls s) dec in
  if accepted c then
    bind (if is_integer x then Ok (mkNode SolvedNonBranchable (n_part nd) (Fin (cost x)) (Fin (cost x)), x, false, (s_calls s + 1)%nat)
          else
            bind (updateProblemData (rounded x)) (fun _ =>
            let '(c2, x2) := relax (s_calls s + 1)%nat (rounded x) in
            Ok (mkNode SolvedBranchable (select_part ids 0 x 1 (n_part nd)) (Fin (cost x)) (if optimal c2 then Fin (cost x2) else n_upper nd),
                x2, optimal c2, (s_calls s + 2)%nat)))
      (fun '(nd', last, viable, calls) =>
        let better := e_ltb (n_upper nd') (s_ub s) in
        let nd'' := if viable then mkNode (n_status nd') (n_part nd') (n_lower nd') PInf else nd' in
        bind (vset (s_nodes s) id nd'') (fun nodes =>
        Ok (mkB (s_iter s) (s_node s) nodes (s_mat s) (if better then last else s_opt s) (s_lb s) (if better then n_upper nd' else s_ub s) calls)))
  else
    bind (vset (s_nodes s) id (mkNode SolvedNonBranchable (n_part nd) PInf PInf)) (fun nodes =>
    Ok (mkB (s_iter s) (s_node s) nodes (s_mat s) (s_opt s) (s_lb s) (s_ub s) (s_calls s + 1)%nat))))).

(** l.17-29: createBranches. *)
Definition createBranches (s : bstate) (id : Z) : res bstate :=
  let it := Z.of_nat (s_iter s) in
  bind (vget (s_nodes s) id) (fun nd =>
  bind (vget (s_nodes s) it) (fun nw =>
  bind (vset (s_nodes s) it (mkNode NotSolved (n_part nw) (n_lower nd) (n_upper nd))) (fun nodes1 =>
  bind (vget (s_mat s) id) (fun col =>
  bind (vset col (n_part nd) 1%Z) (fun col1 =>
  bind (vset col (n_part nd) 0%Z) (fun col0 =>
  bind (vset (s_mat s) it col1) (fun mat1 =>
  bind (vset mat1 id col0) (fun mat2 =>
  bind (vget nodes1 id) (fun nd1 =>
  bind (vset nodes1 id (mkNode NotSolved (n_part nd1) (n_lower nd1) (n_upper nd1))) (fun nodes2 =>
  Ok (mkB (s_iter s) (s_node s) nodes2 mat2 (s_opt s) (s_lb s) (s_ub s) (s_calls s)))))))))))).

(** l.32-53: the loops for node_id = 0 .. iteration_. *)
Fixpoint best_node (l : list node) (k : Z) (next : Z) (lower : eR) : Z :=
  match l with
  | [] => next
  | nd :: l' =>
    match n_status nd with
    | SolvedBranchable => if e_ltb (n_lower nd) lower then best_node l' (k + 1) k (n_lower nd) else best_node l' (k + 1) next lower
    | _ => best_node l' (k + 1) next lower
    end
  end.
Definition selectNodeToExplore (s : bstate) : Z := best_node (firstn (s_iter s + 1) (s_nodes s)) 0 (-1) PInf.
Definition getProblemLowerBound (s : bstate) : eR := fold_left (fun b nd => e_min b (n_lower nd)) (firstn (s_iter s + 1) (s_nodes s)) PInf.

(** l.161: ub - lb > gap, and l.162: |ub / lb - 1| > gap, with IEEE infinities (NaN compares false; 0/0 is NaN). *)
Definition gap_exceeds (ub lb : eR) (g : R) : bool :=
  match ub, lb with
  | Fin u, Fin l => ltb g (u - l)
  | PInf, Fin _ | PInf, NInf | Fin _, NInf => true
  | _, _ => false
  end.
Definition ratio_exceeds (ub lb : eR) (g : R) : bool :=
  match ub, lb with
  | Fin u, Fin l => if eqb l 0 then negb (eqb u 0) else ltb g (Rabs (u / l - 1))
  | Fin _, _ => ltb g 1
  | _, Fin _ => true
  | _, _ => false
  end.
(** l.159-164: optimilityCheck. *)
Definition continue (s : bstate) : bool :=
  (gap_exceeds (s_ub s) (s_lb s) (b_abs S) && ratio_exceeds (s_ub s) (s_lb s) (b_rel S) && (0 <=? s_node s)%Z &&
   (Z.of_nat (s_iter s) <? Z.of_nat (b_max S) - 1)%Z)%bool.

(** l.167-180: exitcode. *)
Definition bnb_exitcode (s : bstate) : exitcode :=
  if (Z.of_nat (s_iter s) <? Z.of_nat (b_max S) - 1)%Z
  then match s_ub s with PInf => PrimalInf | NInf => DualInf | Fin _ => Optimal end
  else match s_ub s with PInf => PrimalInfInacc | NInf => DualInfInacc | Fin _ => OptimalInacc end.

(** l.183-202: initializeRootNode and the root; [nodes0], [opt0] previous contents (initialize, l.224-239, sizes nodes_ to BnBMaxIters and
    opt_ to the problem; it does not clear nodes_). *)
Definition bnb_root (nodes0 : list node) (opt0 : nat -> R) (calls0 : nat) : res bstate :=
  bind (vget nodes0 0) (fun nd =>
  bind (vset nodes0 0 (mkNode NotSolved (n_part nd) NInf PInf)) (fun nodes =>
  bind (updateNodeBounds (mkB 0 0 nodes (repeat (repeat (-1)%Z (List.length ids)) (b_max S)) opt0 NInf PInf calls0) 0) (fun s =>
  bind (vget (s_nodes s) 0) (fun nd' =>
  Ok (mkB 0 0 (s_nodes s) (s_mat s) (s_opt s) (n_lower nd') (n_upper nd') (s_calls s)))))).

(** l.204-218: the body of the loop. *)
Definition bnb_body (s : bstate) : res bstate :=
  let s1 := mkB (s_iter s + 1)%nat (s_node s) (s_nodes s) (s_mat s) (s_opt s) (s_lb s) (s_ub s) (s_calls s) in
  bind (createBranches s1 (s_node s)) (fun s2 =>
  bind (updateNodeBounds s2 (s_node s)) (fun s3 =>
  bind (updateNodeBounds s3 (Z.of_nat (s_iter s3))) (fun s4 =>
  let s5 := mkB (s_iter s4) (s_node s4) (s_nodes s4) (s_mat s4) (s_opt s4) (getProblemLowerBound s4) (s_ub s4) (s_calls s4) in
  Ok (mkB (s_iter s5) (selectNodeToExplore s5) (s_nodes s5) (s_mat s5) (s_opt s5) (s_lb s5) (s_ub s5) (s_calls s5))))).

(** The while loop; [fuel] bounds the passes (out of fuel = UB; C19_iteration_limit shows b_max passes suffice). *)
Fixpoint bnb_loop (fuel : nat) (s : bstate) : res bstate :=
  if continue s then match fuel with O => UB | Datatypes.S f => bind (bnb_body s) (bnb_loop f) end else Ok s.

(** l.196-222: optimize: exit code and the vector loaded back into the solver (l.102-106). *)
Definition bnb_optimize (nodes0 : list node) (opt0 : nat -> R) (calls0 : nat) : res (exitcode * (nat -> R) * nat) :=
  bind (bnb_root nodes0 opt0 calls0) (fun s0 =>
  bind (bnb_loop (b_max S) s0) (fun s => Ok (bnb_exitcode s, s_opt s, s_calls s))).
End BnB.

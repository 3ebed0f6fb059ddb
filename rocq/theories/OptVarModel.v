(** * Model of the planners' optimisation-variable blocks
    Sources: solver/include/solver/interface/OptVar.hpp, solver/src/solver/interface/OptVar.cpp,
    momentumopt/src/momentumopt/dynopt/DynamicsOptimizer.cpp l.30-55, 97-119, 500-502, 600-623,
    momentumopt/src/momentumopt/kinopt/KinematicsOptimizer.cpp l.67-112, 243-258, 459-484.
    Abstractions: int is Z (no overflow); matrices are functions of (row, column); reals for doubles;
    asserts on matrix sizes hold; the solver is an oracle giving one value per model column. *)
From Coq Require Import Reals List Arith ZArith Bool Ascii.
From Verif Require Import ExprsModel ConicModel.
From Verif Require Export Base.
Import ListNotations.
Open Scope R_scope.

(** OptVar.hpp l.60-65: data members. *)
Record optvar := mkOV {
  ov_type : ascii;
  ov_start : Z;               (* indexPosition_ *)
  ov_rows : Z;
  ov_cols : Z;
  ov_lb : Z -> Z -> R;        (* lBndMat_ *)
  ov_ub : Z -> Z -> R;        (* uBndMat_ *)
  ov_guess : Z -> Z -> R }.   (* guessMat_ *)

(** What the caller passes to initialize(): type, size, bounds and guess.  OptVar.cpp l.14-91: the overloads differ only in
    whether bounds are given as scalar, column or matrix, and in the default (zero) guess; all of them end with
    indexPosition_ = start; start += rows*cols. *)
Record blockspec := mkB { b_type : ascii; b_rows : nat; b_cols : nat; b_lb : Z -> Z -> R; b_ub : Z -> Z -> R; b_guess : Z -> Z -> R }.

Definition ov_initialize (b : blockspec) (start : Z) : optvar * Z :=
  (mkOV (b_type b) start (Z.of_nat (b_rows b)) (Z.of_nat (b_cols b)) (b_lb b) (b_ub b) (b_guess b),
   (start + Z.of_nat (b_rows b) * Z.of_nat (b_cols b))%Z).

(** DynamicsOptimizer.cpp l.30-55, KinematicsOptimizer.cpp l.67-87: blocks initialised one after the other with the same
    counter num_vars_; returns the blocks and the final counter. *)
Fixpoint init_blocks (bs : list blockspec) (start : Z) : list optvar * Z :=
  match bs with
  | [] => ([], start)
  | b :: bs' => let '(ov, s1) := ov_initialize b start in
                let '(ovs, s2) := init_blocks bs' s1 in (ov :: ovs, s2)
  end.

(** OptVar.cpp l.93-98 *)
Definition row_bnd_ind (ov : optvar) (row : Z) : Z :=
  if (ov_rows ov <=? row)%Z then (ov_rows ov - 1)%Z else if (row <=? 0)%Z then 0%Z else row.
(** OptVar.cpp l.100-105 *)
Definition col_bnd_ind (ov : optvar) (col : Z) : Z :=
  if (ov_cols ov <=? col)%Z then (ov_cols ov - 1)%Z else if (col <=? 0)%Z then 0%Z else col.
(** OptVar.hpp l.40 *)
Definition ov_id (ov : optvar) (row col : Z) : Z :=
  (ov_start ov + col_bnd_ind ov col * ov_rows ov + row_bnd_ind ov row)%Z.

(** for (col=0..cols-1) for (row=0..rows-1): the cells in loop order. *)
Definition zseq (n : Z) : list Z := map Z.of_nat (seq 0 (Z.to_nat n)).
Definition cells (ov : optvar) : list (Z * Z) :=
  flat_map (fun c => map (fun r => (r, c)) (zseq (ov_rows ov))) (zseq (ov_cols ov)).

(** The planner's state while adding variables: the model and vars_ (None = default constructed Var). *)
Definition mstate : Type := problem * list (option nat).

(** DynamicsOptimizer.cpp l.603-608 ([binary_ok] = false), KinematicsOptimizer.cpp l.462-468 ([binary_ok] = true):
    one iteration of the first loop.  The int() conversion of the bounds of binaries is not modelled. *)
Definition add_cell (binary_ok : bool) (ov : optvar) (s : mstate) (rc : Z * Z) : res mstate :=
  let '(r, c) := rc in
  let '(p, vars) := s in
  let add ty :=
    match cp_addVar ty (ov_lb ov r c) (ov_ub ov r c) (ov_guess ov r c) p with
    | Threw _ => Throw
    | Returned p' => bind (vset vars (ov_id ov r c) (Some (List.length (p_vars p)))) (fun vars' => Ok (p', vars'))
    end in
  if Ascii.eqb (ov_type ov) "C"%char then add Continuous
  else if Ascii.eqb (ov_type ov) "B"%char && binary_ok then add Binary
  else Throw.

(** Var::set(SolverDoubleParam_X, v) on the variable of column [c] (Var.cpp l.63-72; storage is shared with the model). *)
Definition set_val (p : problem) (c : nat) (v : R) : problem :=
  match nth_error (p_vars p) c with
  | Some x => set_vars (set_nth (p_vars p) c (mkVar (v_type x) (v_lb x) (v_ub x) v (v_guess x))) (p_bin p) (p_binlb p) (p_binub p) p
  | None => p
  end.

(** DynamicsOptimizer.cpp l.610-612, KinematicsOptimizer.cpp l.470-472: second loop.
    Writing through a null Var is undefined behaviour (Var::set does not check). *)
Definition set_cell (ov : optvar) (s : mstate) (rc : Z * Z) : res mstate :=
  let '(r, c) := rc in
  let '(p, vars) := s in
  bind (vget vars (ov_id ov r c)) (fun o =>
    match o with Some col => Ok (set_val p col (ov_guess ov r c), vars) | None => UB end).

(** DynamicsOptimizer.cpp l.600-613, KinematicsOptimizer.cpp l.459-473. *)
Definition add_block (binary_ok : bool) (s : mstate) (ov : optvar) : res mstate :=
  bind (foldM (add_cell binary_ok ov) (cells ov) s) (fun s' => foldM (set_cell ov) (cells ov) s').

(** DynamicsOptimizer.cpp l.97-119, KinematicsOptimizer.cpp l.94-112: vars_ is refilled with num_vars_ empty Vars, the
    model cleaned, and the blocks added in a fixed order [ord] (positions in the list of blocks). *)
Definition add_all (binary_ok : bool) (ovs : list optvar) (num_vars : Z) (ord : list nat) (p0 : problem) : res mstate :=
  foldM (fun s k => match nth_error ovs k with Some ov => add_block binary_ok s ov | None => UB end)
        ord (cp_clean p0, repeat None (Z.to_nat num_vars)).

(** ConicProblem.cpp l.325-326, 329-330: after a solve every model variable takes the value of its column in the
    solver's vector [x]. *)
Definition write_back (x : nat -> R) (p : problem) : problem :=
  set_vars (map (fun ic => mkVar (v_type (snd ic)) (v_lb (snd ic)) (v_ub (snd ic)) (x (fst ic)) (v_guess (snd ic)))
              (combine (seq 0 (List.length (p_vars p))) (p_vars p)))
           (p_bin p) (p_binlb p) (p_binub p) p.

(** DynamicsOptimizer.cpp l.501-502, KinematicsOptimizer.cpp l.243-245: solution_(i) = vars_[i].get(X); get throws on a null Var. *)
Definition extract (p : problem) (vars : list (option nat)) (num_vars : Z) : res (list R) :=
  foldM (fun acc i => bind (vget vars i) (fun o =>
           match o with
           | None => Throw
           | Some c => match nth_error (p_vars p) c with Some v => Ok (acc ++ [v_val v]) | None => UB end
           end)) (zseq num_vars) [].

(** DynamicsOptimizer.cpp l.615-623, KinematicsOptimizer.cpp l.475-484: the new guess matrix of the block. *)
Definition save_solution (solution : list R) (ov : optvar) : res optvar :=
  bind (foldM (fun (g : Z -> Z -> R) rc => bind (vget solution (ov_id ov (fst rc) (snd rc))) (fun v =>
                Ok (fun r c => if (Z.eqb r (fst rc) && Z.eqb c (snd rc))%bool then v else g r c)))
              (cells ov) (fun _ _ => 0))
       (fun g => Ok (mkOV (ov_type ov) (ov_start ov) (ov_rows ov) (ov_cols ov) (ov_lb ov) (ov_ub ov) g)).

(** One planner pass: initialise the blocks, add them in order [ord], let [setup] add constraints, objective and auxiliary
    variables to the model, solve (oracle [x]), extract, and save block [k].  *)
Definition planner_pass (binary_ok : bool) (bs : list blockspec) (ord : list nat) (setup : problem -> problem)
    (x : nat -> R) (p0 : problem) (k : nat) : res optvar :=
  let '(ovs, nv) := init_blocks bs 0 in
  bind (add_all binary_ok ovs nv ord p0) (fun '(p, vars) =>
  bind (extract (write_back x (setup p)) vars nv) (fun sol =>
  match nth_error ovs k with Some ov => save_solution sol ov | None => UB end)).

(** DynamicsOptimizer.cpp l.30-55 / l.102-119: the momentum planner's blocks (N time steps, active steps per effector),
    and the order in which they are added (the order of initialisation). *)
Definition free_block (r c : nat) (inf : R) : blockspec :=
  mkB "C"%char r c (fun _ _ => - inf) (fun _ _ => inf) (fun _ _ => 0).
Definition dyn_blocks (inf : R) (N : nat) (timeopt : bool) (steps : list nat) : list blockspec :=
  [free_block 3 N inf; free_block 3 N inf; free_block 3 N inf]
  ++ (if timeopt then [free_block 1 N inf; free_block 3 N inf; free_block 3 N inf] else [])
  ++ flat_map (fun n => [free_block 3 n inf; free_block 3 n inf; free_block 3 n inf; free_block 2 n inf; free_block 1 n inf]) steps.

(** KinematicsOptimizer.cpp l.67-87: com, lmom, amom, (eef_pos, eef_vel) per effector, q, qd, total qd, total qdd;
    l.100-112: added as com, lmom, amom, q, qd, total qd, total qdd, then the effectors. *)
Definition kin_blocks (inf : R) (N neff ndof : nat) : list blockspec :=
  [free_block 3 N inf; free_block 3 N inf; free_block 3 N inf]
  ++ repeat (free_block 3 N inf) (2 * neff)
  ++ repeat (free_block ndof N inf) 4.
Definition kin_order (neff : nat) : list nat :=
  [0; 1; 2]%nat ++ map (fun i => 3 + 2 * neff + i)%nat (seq 0 4) ++ map (fun i => 3 + i)%nat (seq 0 (2 * neff)).

(** * Model of the equilibration routine
    Source: solver/src/solver/optimizer/EqRoutine.cpp.
    Sparse matrices are lists of triplets (row, column, value), one per stored entry; vectors are functions of the index;
    reals for doubles.  The cone is (number of linear rows, list of second-order cone sizes), Cone.cpp l.31-74. *)
From Coq Require Import Reals List Arith Bool.
From Verif Require Import ConicModel.
Import ListNotations.
Open Scope R_scope.

(** A [Vector] (Cone.hpp l.187-230): parts x, y, z. *)
Record evec := mkE { e_x : nat -> R; e_y : nat -> R; e_z : nat -> R }.
Definition mat := list (nat * nat * R).

(** EqRoutine.cpp l.51-63: maxRowsCols.  The column entry is overwritten when the column has stored entries,
    the row entry is the running maximum. *)
Definition max_row (m : mat) (row : nat -> R) : nat -> R :=
  fun r => fold_right (fun t acc => match t with (r', _, v) => if Nat.eqb r' r then Rmax (Rabs v) acc else acc end) (row r) m.
Definition max_col (m : mat) (col : nat -> R) : nat -> R :=
  fun c => if existsb (fun t => match t with (_, c', _) => Nat.eqb c' c end) m
           then fold_right (fun t acc => match t with (_, c', v) => if Nat.eqb c' c then Rmax (Rabs v) acc else acc end) 0 m
           else col c.
Definition maxRowsCols (m : mat) (rc : (nat -> R) * (nat -> R)) : (nat -> R) * (nat -> R) :=
  (max_row m (fst rc), max_col m (snd rc)).

(** EqRoutine.cpp l.36: every entry of a second-order cone block becomes the sum over the block. *)
Definition sum_block (z : nat -> R) (start n : nat) : R := fold_right Rplus 0 (map (fun k => z (start + k)%nat) (seq 0 n)).
Fixpoint soc_sum (start : nat) (q : list nat) (z : nat -> R) : nat -> R :=
  match q with
  | [] => z
  | n :: q' => let s := sum_block z start n in
               soc_sum (start + n) q' (fun j => if (Nat.leb start j && Nat.ltb j (start + n))%bool then s else z j)
  end.

(** EqRoutine.cpp l.37 *)
Definition eq_factor (e : R) : R := if Rlt_dec (Rabs e) (1/1000000) then 1 else sqrt e.

(** EqRoutine.cpp l.65-70: equilibrateRowsCols. *)
Definition equilibrateRowsCols (row col : nat -> R) (m : mat) : mat :=
  map (fun t => match t with (r, c, v) => (r, c, v / (col c * row r)) end) m.
(** EqRoutine.cpp l.79-84: unequilibrateRowsCols. *)
Definition unequilibrateRowsCols (row col : nat -> R) (m : mat) : mat :=
  map (fun t => match t with (r, c, v) => (r, c, v * (row r * col c)) end) m.

(** EqRoutine.cpp l.28-46: the loop; state = (A, G, equil_vec). *)
Definition ruiz_step (nl : nat) (q : list nat) (st : mat * mat * evec) : mat * mat * evec :=
  let '(A, G, E) := st in
  let z0 := fun _ : nat => 0 in
  let '(ty, tx) := match A with [] => (z0, z0) | _ => maxRowsCols A (z0, z0) end in
  let '(tz, tx) := match G with [] => (z0, tx) | _ => maxRowsCols G (z0, tx) end in
  let tz := soc_sum nl q tz in
  let fx := fun i => eq_factor (tx i) in
  let fy := fun i => eq_factor (ty i) in
  let fz := fun i => eq_factor (tz i) in
  (equilibrateRowsCols fy fx A, equilibrateRowsCols fz fx G,
   mkE (fun i => e_x E i * fx i) (fun i => e_y E i * fy i) (fun i => e_z E i * fz i)).

Fixpoint ruiz_loop (iters : nat) (nl : nat) (q : list nat) (st : mat * mat * evec) : mat * mat * evec :=
  match iters with O => st | S k => ruiz_loop k nl q (ruiz_step nl q st) end.

(** EqRoutine.cpp l.16-49: setEquilibration on the compiled problem; returns scaled problem and equilibration vector. *)
Definition set_equilibration (iters nl : nat) (q : list nat) (s : storage) : storage * evec :=
  let '(A, G, E) := ruiz_loop iters nl q (s_A s, s_G s, mkE (fun _ => 1) (fun _ => 1) (fun _ => 1)) in
  (mkS (s_n s) (s_me s) (s_m s) A (fun i => s_b s i / e_y E i) G (fun i => s_h s i / e_z E i) (fun i => s_c s i / e_x E i) (s_ok s), E).

(** EqRoutine.cpp l.72-77: unsetEquilibration. *)
Definition unset_equilibration (E : evec) (s : storage) : storage :=
  mkS (s_n s) (s_me s) (s_m s)
      (unequilibrateRowsCols (e_y E) (e_x E) (s_A s)) (fun i => s_b s i * e_y E i)
      (unequilibrateRowsCols (e_z E) (e_x E) (s_G s)) (fun i => s_h s i * e_z E i)
      (fun i => s_c s i * e_x E i) (s_ok s).

(** OptimizationVector (Cone.hpp l.306-372): x, y, z, s and tau. *)
Record optvec := mkO { o_x : nat -> R; o_y : nat -> R; o_z : nat -> R; o_s : nat -> R; o_tau : R }.
(** EqRoutine.cpp l.86-90: scaleVariables. *)
Definition scale_variables (E : evec) (o : optvec) : optvec :=
  mkO (fun i => o_x o i / (e_x E i * o_tau o)) (fun i => o_y o i / (e_y E i * o_tau o))
      (fun i => o_z o i / (e_z E i * o_tau o)) (fun i => o_s o i * (e_z E i / o_tau o)) (o_tau o).

(** * Model of the sparse LDL' factorisation
    Source: solver/src/solver/optimizer/SparseCholesky.cpp (all of it), SparseCholesky.hpp.
    A column-compressed matrix is given by its columns: [col k] is the list of (row, value) pairs the InnerIterator of
    column k visits (equivalently Ai[p], Ax[p] for Ap[k] <= p < Ap[k+1]).  Work arrays are functions of the index and their initial
    contents are arbitrary (Eigen's resize does not initialise).  L_ is kept as in the code in the flat arrays Li, Lx with
    column starts Lp.  Outcome UB: index -1 or outside the column's storage, or a loop that does not stop within n+1 steps.
    Simplification: the array Pattern_ (a temporary path growing from the left, the result growing from the right end) is
    two lists, with the outcome UB if together they need more than n cells.  Reals for doubles. *)
From Coq Require Import Reals List Arith Bool.
From Verif Require Import Base.
Import ListNotations.
Open Scope R_scope.

Definition smatrix := nat -> list (nat * R).

(** ** analyzePattern, l.51-87 *)
Record sym := mkSym { y_parent : nat -> option nat; y_lnnz : nat -> nat; y_flag : nat -> nat }.

(** l.75-79: for (row; Flag[row]!=k; row=Parent[row]) { if (Parent[row]==-1) Parent[row]=k; Lnnz[row]++; Flag[row]=k; } *)
Fixpoint a_walk (fuel k row : nat) (st : sym) : res sym :=
  match fuel with
  | O => UB
  | S f =>
    if Nat.eqb (y_flag st row) k then Ok st else
    let par := match y_parent st row with None => upd (y_parent st) row (Some k) | Some _ => y_parent st end in
    let st' := mkSym par (upd (y_lnnz st) row (S (y_lnnz st row))) (upd (y_flag st) row k) in
    match par row with Some r => a_walk f k r st' | None => UB end
  end.
(** l.70-80 *)
Definition a_col (n : nat) (A : smatrix) (st : sym) (k : nat) : res sym :=
  foldM (fun st e => a_walk (S n) k (fst e) st) (A k)
        (mkSym (upd (y_parent st) k None) (upd (y_lnnz st) k 0%nat) (upd (y_flag st) k k)).
Definition analyze (n : nat) (A : smatrix) (st : sym) : res sym := foldM (a_col n A) (seq 0 n) st.
(** l.82-86: L_ gets Lnnz[col] entries in column col, so outerIndexPtr is the running sum. *)
Definition Lp_of (lnnz : nat -> nat) (j : nat) : nat := nsum j lnnz.

(** ** factorize, l.89-145 *)
Record num := mkNum { m_D : nat -> R; m_Y : nat -> R; m_lnnz : nat -> nat; m_flag : nat -> nat; m_Li : nat -> nat; m_Lx : nat -> R }.
Definition set_Y Y s := mkNum (m_D s) Y (m_lnnz s) (m_flag s) (m_Li s) (m_Lx s).
Definition set_D D s := mkNum D (m_Y s) (m_lnnz s) (m_flag s) (m_Li s) (m_Lx s).
Definition set_flag F s := mkNum (m_D s) (m_Y s) (m_lnnz s) F (m_Li s) (m_Lx s).

(** l.119-122: the path from row to the first marked node, Pattern[0..len). *)
Fixpoint f_walk (fuel : nat) (parent : nat -> option nat) (k row : nat) (flag : nat -> nat) : res (list nat * (nat -> nat)) :=
  match fuel with
  | O => UB
  | S f =>
    if Nat.eqb (flag row) k then Ok ([], flag) else
    match parent row with
    | None => UB
    | Some r => bind (f_walk f parent k r (upd flag row k)) (fun '(path, flag') => Ok (row :: path, flag'))
    end
  end.
(** l.116-124 *)
Definition f_entry (n : nat) (parent : nat -> option nat) (k : nat) (sp : num * list nat) (e : nat * R) : res (num * list nat) :=
  let '(s, pat) := sp in
  let s := set_Y (upd (m_Y s) (fst e) (snd e)) s in
  bind (f_walk (S n) parent k (fst e) (m_flag s)) (fun '(path, flag') =>
  if Nat.leb (length path + length pat) n then Ok (set_flag flag' s, path ++ pat) else UB).
(** l.130-138: one node of the pattern. *)
Definition f_elim (Lp : nat -> nat) (k : nat) (s : num) (i : nat) : res num :=
  let yi := m_Y s i in
  let Y := upd (m_Y s) i 0 in
  let Y := fold_left (fun Y p => upd Y (m_Li s p) (Y (m_Li s p) - m_Lx s p * yi)) (seq (Lp i) (m_lnnz s i)) Y in
  let p := (Lp i + m_lnnz s i)%nat in
  let l_ki := yi / m_D s i in
  if Nat.ltb p (Lp (S i)) then
    Ok (mkNum (upd (m_D s) k (m_D s k - l_ki * yi)) Y (upd (m_lnnz s) i (S (m_lnnz s i))) (m_flag s) (upd (m_Li s) p k) (upd (m_Lx s) p l_ki))
  else UB.
(** l.142 *)
Definition dyn_reg (sign eps delta d : R) : R := if Rle_dec (sign * d) eps then sign * delta else d.
(** l.110-143 *)
Definition f_row (n : nat) (A : smatrix) (sign : nat -> R) (eps delta : R) (parent : nat -> option nat) (Lp : nat -> nat) (s : num) (k : nat) : res num :=
  let s := mkNum (m_D s) (upd (m_Y s) k 0) (upd (m_lnnz s) k 0%nat) (upd (m_flag s) k k) (m_Li s) (m_Lx s) in
  bind (foldM (f_entry n parent k) (A k) (s, [])) (fun '(s, pat) =>
  let s := mkNum (upd (m_D s) k (m_Y s k)) (upd (m_Y s) k 0) (m_lnnz s) (m_flag s) (m_Li s) (m_Lx s) in
  bind (foldM (f_elim Lp k) pat s) (fun s =>
  Ok (set_D (upd (m_D s) k (dyn_reg (sign k) eps delta (m_D s k))) s))).
Definition factorize (n : nat) (A : smatrix) (sign : nat -> R) (eps delta : R) (y : sym) (Lp : nat -> nat) (s : num) : res num :=
  foldM (f_row n A sign eps delta (y_parent y) Lp) (seq 0 n) s.

(** ** solve, l.147-166 (and the identical overload l.168-181) *)
Definition fwd_col (s : num) (Lp : nat -> nat) (x : nat -> R) (j : nat) : nat -> R :=
  fold_left (fun x p => upd x (m_Li s p) (x (m_Li s p) - m_Lx s p * x j)) (seq (Lp j) (Lp (S j) - Lp j)) x.
Definition bwd_col (s : num) (Lp : nat -> nat) (x : nat -> R) (j : nat) : nat -> R :=
  fold_left (fun x p => upd x j (x j - m_Lx s p * x (m_Li s p))) (seq (Lp j) (Lp (S j) - Lp j)) x.
Definition ldl_solve (n : nat) (s : num) (Lp : nat -> nat) (b : nat -> R) : nat -> R :=
  let x := fold_left (fwd_col s Lp) (seq 0 n) b in
  let x := fold_left (fun x j => upd x j (x j / m_D s j)) (seq 0 n) x in
  fold_left (bwd_col s Lp) (rev (seq 0 n)) x.

(** analyzePattern on the first matrix A0 (LinSolver.cpp l.103), later factorize on a matrix A with other values (l.108) and solve
    (l.129, 167).  [s0] is the content of the work arrays before this factorisation: left by the analysis or by any earlier factorisation. *)
Definition ldl_run (n : nat) (A0 A : smatrix) (sign : nat -> R) (eps delta : R) (y0 : sym) (s0 : num) (b : nat -> R) : res ((nat -> R) * num) :=
  bind (analyze n A0 y0) (fun y =>
  let Lp := Lp_of (y_lnnz y) in
  bind (factorize n A sign eps delta y Lp s0) (fun s => Ok (ldl_solve n s Lp b, s))).

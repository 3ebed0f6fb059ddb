(** * Model of the real-time matrix utilities
    Source: solver/include/solver/rt_optimizer/RtMatrix.hpp.  Matrices and vectors carry their dimensions; reals are exact.
    [UB] stands for a failed assertion, that is for undefined behaviour when assertions are compiled out. *)
From Coq Require Import Reals List Arith Bool.
Import ListNotations.
From Verif Require Import Base.
Local Open Scope R_scope.

Record mat := Mat { nr : nat; nc : nat; ma : nat -> nat -> R }.
Record vec := Vec { vn : nat; va : nat -> R }.
Definition guard {A} (b : bool) (x : res A) : res A := if b then x else UB.

(** Eigen products, sums and transposition; the dimensions must agree. *)
Definition m_mul (A B : mat) : res mat :=
  guard (nc A =? nr B)%nat (Ok (Mat (nr A) (nc B) (fun i j => rsum (nc A) (fun k => ma A i k * ma B k j)))).
Definition m_vec (A : mat) (v : vec) : res vec := guard (nc A =? vn v)%nat (Ok (Vec (nr A) (fun i => rsum (nc A) (fun k => ma A i k * va v k)))).
Definition m_add (A B : mat) : res mat := guard ((nr A =? nr B) && (nc A =? nc B))%nat (Ok (Mat (nr A) (nc A) (fun i j => ma A i j + ma B i j))).
Definition v_add (a b : vec) : res vec := guard (vn a =? vn b)%nat (Ok (Vec (vn a) (fun i => va a i + va b i))).
Definition m_tr (A : mat) : mat := Mat (nc A) (nr A) (fun i j => ma A j i).
(** RtMatrixUtils::setIdentity l.209-213; resize to zero rows. *)
Definition m_id (n : nat) : mat := Mat n n (fun i j => if (i =? j)%nat then 1 else 0).
Definition m_empty (n : nat) : mat := Mat 0 n (fun _ _ => 0).
Definition v_zero (n : nat) : vec := Vec n (fun _ => 0).

(** RtMatrixUtils::append l.217-230.  [cap] is MaxRowsAtCompileTime. *)
Definition m_append (cap : nat) (A S : mat) : res mat :=
  guard ((nc S =? nc A) && (nr A + nr S <=? cap))%nat
    (Ok (Mat (nr A + nr S) (nc A) (fun i j => if (i <? nr A)%nat then ma A i j else ma S (i - nr A)%nat j))).
(** RtMatrixUtils::appendAtColumn l.236-248: the new rows are zero outside the columns of the appended matrix. *)
Definition m_appendAt (cap : nat) (A S : mat) (c : nat) : res mat :=
  guard ((nc S + c <=? nc A) && (nr A + nr S <=? cap))%nat
    (Ok (Mat (nr A + nr S) (nc A) (fun i j => if (i <? nr A)%nat then ma A i j
       else if ((c <=? j) && (j <? c + nc S))%nat then ma S (i - nr A)%nat (j - c)%nat else 0))).
(** RtVectorUtils::append l.384-393. *)
Definition v_append (cap : nat) (a s : vec) : res vec :=
  guard (vn a + vn s <=? cap)%nat (Ok (Vec (vn a + vn s) (fun i => if (i <? vn a)%nat then va a i else va s (i - vn a)%nat))).
(** RtAffineUtils::append l.405-434 and appendAtColumn l.440-468 (the variants without a vector append zeros). *)
Definition a_append (cap : nat) (A : mat) (a : vec) (S : mat) (s : vec) : res (mat * vec) :=
  guard ((nr A =? vn a) && (nr S =? vn s))%nat (bind (v_append cap a s) (fun a' => bind (m_append cap A S) (fun A' => Ok (A', a')))).
Definition a_appendAt (cap : nat) (A : mat) (a : vec) (S : mat) (s : vec) (c : nat) : res (mat * vec) :=
  guard ((nr A =? vn a) && (nr S =? vn s))%nat (bind (v_append cap a s) (fun a' => bind (m_appendAt cap A S c) (fun A' => Ok (A', a')))).
(** RtAffineUtils::substitute l.540-560: the vector first, with the old matrix. *)
Definition a_substitute (A : mat) (a : vec) (S : mat) (s : vec) : res (mat * vec) :=
  guard ((nr A =? vn a) && (nr S =? vn s))%nat
    (bind (m_vec A s) (fun As => bind (v_add a As) (fun a' => bind (m_mul A S) (fun A' => Ok (A', a'))))).
(** RtQuadraticUtils::addFromNorm l.582-600, addFromWeightedNorm l.602-622, substitute l.624-648. *)
Definition q_addNorm (Q : mat) (g : vec) (A : mat) (a : vec) : res (mat * vec) :=
  guard ((nr Q =? nc Q) && (nc Q =? vn g) && (nr A =? vn a))%nat
    (bind (m_mul (m_tr A) A) (fun AA => bind (m_add Q AA) (fun Q' => bind (m_vec (m_tr A) a) (fun Aa => bind (v_add g Aa) (fun g' => Ok (Q', g')))))).
Definition q_addWeighted (Q : mat) (g : vec) (A : mat) (a : vec) (W : mat) : res (mat * vec) :=
  guard ((nr Q =? nc Q) && (nc Q =? vn g) && (nr A =? vn a))%nat
    (bind (m_mul (m_tr A) W) (fun AW => bind (m_mul AW A) (fun AWA => bind (m_add Q AWA) (fun Q' => bind (m_vec AW a) (fun AWa => bind (v_add g AWa) (fun g' => Ok (Q', g'))))))).
Definition q_substitute (Q : mat) (g : vec) (S : mat) (s : vec) : res (mat * vec) :=
  guard ((nr Q =? nc Q) && (nc Q =? vn g) && (nr S =? vn s))%nat
    (bind (m_vec Q s) (fun Qs => bind (v_add g Qs) (fun g1 => bind (m_vec (m_tr S) g1) (fun g' =>
     bind (m_mul (m_tr S) Q) (fun SQ => bind (m_mul SQ S) (fun Q' => Ok (Q', g'))))))).

(** ** The in-place compaction loops: RtAffineUtils::removeZeroRows l.500-537 and RtModel::reduceColumns (RtModel.h l.44-79) have the same shape,
    on the rows (columns) seen as a list.  [e] tells an element where a run of kept elements ends, [k] one where a new run starts. *)
Fixpoint find_from {A} (p : A -> bool) (fuel : nat) (l : list A) (i : nat) : nat :=
  match fuel with
  | O => i
  | S fuel' => match nth_error l i with None => i | Some x => if p x then i else find_from p fuel' l (i + 1)%nat end
  end.
(** block(dst..) = block(src..) of [len] elements, src after dst, copied in increasing order. *)
Definition blit {A} (l : list A) (dst src len : nat) : list A :=
  firstn dst l ++ firstn len (skipn src l) ++ skipn (dst + len) l.
Fixpoint compact_loop {A} (e k : A -> bool) (fuel : nat) (l : list A) (first start : nat) : list A * nat :=
  let n := List.length l in
  match fuel with
  | O => (l, first)
  | S fuel' =>
    let start := find_from k n l start in
    if (n <=? start)%nat then (l, first)
    else let fin := find_from e n l (start + 1)%nat in
         compact_loop e k fuel' (blit l first start (fin - start)%nat) (first + (fin - start))%nat fin
  end.
Definition compact {A} (e k : A -> bool) (l : list A) : list A :=
  let first := find_from e (List.length l) l 0 in
  let '(l', first') := compact_loop e k (List.length l) l first (first + 1)%nat in
  firstn first' l'.
(** RtAffineUtils::removeZeroRows l.500-537 on the list of the pairs (row, entry of the vector). *)
Definition row_abs (nc : nat) (r : nat -> R) : R := rsum nc (fun j => Rabs (r j)).
Definition length_thresh : R := / 1000000000000.
Definition removeZeroRows (nc : nat) (l : list ((nat -> R) * R)) : list ((nat -> R) * R) :=
  compact (fun x => if Rlt_dec (row_abs nc (fst x)) length_thresh then true else false)
          (fun x => if Rlt_dec length_thresh (row_abs nc (fst x)) then true else false) l.
(** RtMatrixUtils::createSelectorMat l.70-80 and removeZeroRows l.82-107: the first row is not counted (the loop starts at 1), but it is selected.
    [None]: the counter runs outside the selector matrix. *)
Fixpoint selector (thr : R) (sq : list R) (row : nat) (valids : nat) : res (list nat) :=
  match sq with
  | [] => Ok []
  | x :: t => if Rlt_dec thr x then guard (row <? valids)%nat (bind (selector thr t (row + 1)%nat valids) (fun s => Ok (row :: s))) else selector thr t row valids
  end.
Fixpoint count_above (thr : R) (sq : list R) : nat :=
  match sq with [] => O | x :: t => ((if Rlt_dec thr x then 1 else 0) + count_above thr t)%nat end.
Definition prune (thr : R) (sq : list R) : res nat :=
  match sq with
  | [] => Ok O
  | _ :: t => let v := count_above thr t in
              if (v =? List.length sq)%nat then Ok (List.length sq) else if (v =? 0)%nat then Ok O else bind (selector thr sq 0 v) (fun _ => Ok v)
  end.

(** * Model of the checks of a solution of the real-time QP interface
    Source: solver/include/solver/rt_optimizer/RtQPSolverInterface.hpp l.117-183 (computeOptimalityCondition, checkSolution), 62-63 (the rows: mat*x + vec = 0, <= 0).
    n variables; vectors and matrices are functions of their indices, constraints lists of (row, constant).  Reals are exact.
    JacobiSVD::solve of Eigen is the parameter [lsq]: rows of the transposed matrix and right-hand side to coefficients.  Not modelled: capacities, printing. *)
From Coq Require Import Reals List Arith Bool.
Import ListNotations.
From Verif Require Import Base.
Local Open Scope R_scope.

Section Rtq.
Variables (n : nat) (H : nat -> nat -> R) (g : nat -> R) (eqs ineqs : list ((nat -> R) * R)).
Variable lsq : list (nat -> R) -> (nat -> R) -> list R.

(** row.dot(solution()) + vec[r] *)
Definition row_value (x : nat -> R) (r : (nat -> R) * R) : R := rsum n (fun i => fst r i * x i) + snd r.
(** squaredNorm of a vector given entry by entry *)
Definition sqsum (l : list R) : R := fold_right (fun a s => a * a + s) 0 l.

(** checkSolution, l.164-183 *)
Definition positive_part (d : R) : R := d * (if Rle_dec d 0 then 0 else 1).
Definition checkSolution (x : nat -> R) (eq_thr ineq_thr : R) : bool :=
  ((if Rle_dec (sqrt (sqsum (map (row_value x) eqs))) eq_thr then true else false) &&
   (if Rle_dec (sqrt (sqsum (map (fun r => positive_part (row_value x r)) ineqs))) ineq_thr then true else false))%bool.

(** computeOptimalityCondition, l.117-161: the transposed matrix of the equalities and of the inequalities that are nearly active, *)
Definition nearly_active (x : nat -> R) (r : (nat -> R) * R) : bool := if Rlt_dec (- / 100000000) (row_value x r) then true else false.
Definition jacobian (x : nat -> R) : list (nat -> R) := map fst eqs ++ map fst (filter (nearly_active x) ineqs).
(** the gradient of the objective, *)
Definition gradient (x : nat -> R) : nat -> R := fun i => rsum n (fun j => H i j * x j) + g i.
(** a combination of the rows (constr_jac_transp * lagr) *)
Fixpoint combination (rows : list (nat -> R)) (c : list R) (i : nat) : R := match rows, c with r :: rs, k :: cs => k * r i + combination rs cs i | _, _ => 0 end.
Definition gradient_rest (x : nat -> R) : R :=
  match jacobian x with
  | [] => rsum n (fun i => gradient x i * gradient x i)
  | J => rsum n (fun i => (combination J (lsq J (gradient x)) i - gradient x i) * (combination J (lsq J (gradient x)) i - gradient x i))
  end.
Definition computeOptimalityCondition (x : nat -> R) : R :=
  sqrt (gradient_rest x + sqsum (map (fun r => Rmax 0 (row_value x r)) ineqs) + sqsum (map (row_value x) eqs)).
End Rtq.

(** * Model of the Python QP wrapper
    Source: momentumopt/python/momentumopt/kinoptpy/qp.py.  Reals are exact.  Arrays carry their shape; entries outside are never read.  A raised exception is [Throw]. *)
From Coq Require Import Reals List Arith Bool.
Import ListNotations.
From Verif Require Import Base.
Local Open Scope R_scope.

(** numpy arrays of two and one dimensions. *)
Record pm := PM { pr : nat; pc : nat; pa : nat -> nat -> R }.
Record pv := PV { pl : nat; pe : nat -> R }.
Definition pneg (m : pm) : pm := PM (pr m) (pc m) (fun i j => - pa m i j).
Definition ptr (m : pm) : pm := PM (pc m) (pr m) (fun i j => pa m j i).
Definition pvneg (v : pv) : pv := PV (pl v) (fun i => - pe v i).
(** numpy.vstack of two matrices (ValueError unless the numbers of columns agree), numpy.hstack of two vectors. *)
Definition vstack (a b : pm) : res pm :=
  if (pc a =? pc b)%nat then Ok (PM (pr a + pr b) (pc a) (fun i j => if (i <? pr a)%nat then pa a i j else pa b (i - pr a) j)) else Throw.
Definition hstack (a b : pv) : pv := PV (pl a + pl b) (fun i => if (i <? pl a)%nat then pe a i else pe b (i - pl a)).

Section Wrapper.
  (** quadprog.solve_qp(G, a, C, b, meq)[0]: an external library, specified in PyqpSpec. *)
  Variable solve_qp : pm -> pv -> option (pm * pv) -> nat -> res pv.
  (** quadprog_solve_qp, l.18-79; initvals is only reported.  Negating None raises TypeError. *)
  Definition quadprog_solve_qp (P : pm) (q : pv) (G : option pm) (h : option pv) (A : option pm) (b : option pv) : res pv :=
    let a := pvneg q in
    match A, G with
    | Some A, None => match b with Some b => solve_qp P a (Some (pneg (ptr A), pvneg b)) (pr A) | None => Throw end
    | Some A, Some G =>
        bind (vstack A G) (fun S =>
        match b, h with Some b, Some h => solve_qp P a (Some (ptr (pneg S), pvneg (hstack b h))) (pr A) | _, _ => Throw end)
    | None, Some G => match h with Some h => solve_qp P a (Some (pneg (ptr G), pvneg h)) 0 | None => Throw end
    | None, None => solve_qp P a None 0
    end.
  (** cvxopt_solve_qp, l.81-91: the name qp is not imported (l.11-13 are comments; numpy exports matrix but not qp), so the call raises NameError. *)
  Definition cvxopt_solve_qp (P : pm) (q : pv) (G : option pm) (h : option pv) (A : option pm) (b : option pv) : res pv := Throw.
End Wrapper.

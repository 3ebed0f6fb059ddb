(** * Model of affine and quadratic expressions
    Sources: solver/src/solver/interface/Exprs.cpp, solver/include/solver/interface/Exprs.hpp.

    Abstractions:
    - [double] is the type [R] of exact real numbers (no rounding, NaN, overflow).
    - A [Var] (Var.hpp l.28-57) is a shared pointer to a [VarStorage]; expressions only look at its
      column number [col_no_] and at its value [value_].  A variable is modelled by its column number,
      the values by an environment [nat -> R].
    - The two parallel vectors [vars_] and [coeffs_] (Exprs.hpp l.72-74), always pushed together,
      are one list of pairs (column, coefficient). *)
From Coq Require Import Reals List Arith Bool.
From Verif Require Import ExprsSpec.
Import ListNotations.
Open Scope R_scope.

(** Exprs.hpp l.19-75: class LinExpr, fields constant_, vars_, coeffs_. *)
Record linexpr := mkLE { le_const : R; le_terms : list (nat * R) }.

(** Exprs.hpp l.22: LinExpr(double constant=0.0). *)
Definition le_of_const (a : R) : linexpr := mkLE a [].

(** Exprs.hpp l.23: LinExpr(Var var, double coeff=1.0). *)
Definition le_of_var (c : nat) (a : R) : linexpr := mkLE 0 [(c, a)].

(** Exprs.cpp l.17-22: getValue, a left-to-right accumulation. *)
Definition le_value (env : nat -> R) (e : linexpr) : R :=
  fold_left (fun v t => v + snd t * env (fst t)) (le_terms e) (le_const e).

(** Comparison [coeff != 0.0] of doubles (Exprs.cpp l.30, 48, 57). *)
Definition is_zero (a : R) : bool := if Req_EM_T a 0 then true else false.

(** Exprs.cpp l.42-47: inner loop of clean: add the coefficient to every equal column of [result]. *)
Definition clean_inner (c : nat) (a : R) (res : list (nat * R)) : list (nat * R) :=
  map (fun t => if Nat.eqb c (fst t) then (fst t, snd t + a) else t) res.

(** Exprs.cpp l.40-52: one iteration of the outer loop of clean. *)
Definition clean_step (res : list (nat * R)) (t : nat * R) : list (nat * R) :=
  let set := existsb (fun u => Nat.eqb (fst t) (fst u)) res in
  let res' := clean_inner (fst t) (snd t) res in
  if negb set && negb (is_zero (snd t)) then res' ++ [t] else res'.

(** Exprs.cpp l.36-54: LinExpr::clean. *)
Definition le_clean (e : linexpr) : linexpr :=
  mkLE (le_const e) (fold_left clean_step (le_terms e) []).

(** Exprs.cpp l.24-34: LinExpr::isClean.  The loops run over i=1..size-1 and j<i. *)
Definition le_isClean (e : linexpr) : bool :=
  let ts := le_terms e in
  forallb (fun i =>
    forallb (fun j => negb (Nat.eqb (fst (nth i ts (0%nat, 0))) (fst (nth j ts (0%nat, 0))))) (seq 0 i)
    && negb (is_zero (snd (nth i ts (0%nat, 0)))))
   (seq 1 (length ts - 1)).

(** Exprs.cpp l.56-65: operator*(double). *)
Definition le_scale (e : linexpr) (f : R) : linexpr :=
  if is_zero f then le_of_const 0
  else le_clean (mkLE (le_const e * f) (map (fun t => (fst t, snd t * f)) (le_terms e))).

(** Exprs.cpp l.67-75: operator+= when [rhs] is a different object than [*this]. *)
Definition le_add (e rhs : linexpr) : linexpr :=
  le_clean (mkLE (le_const e + le_const rhs) (le_terms e ++ le_terms rhs)).

(** Exprs.cpp l.67-75: the copying loop of operator+= when [rhs] aliases [*this]: [rhs.size()] is
    re-evaluated after every push_back.  [None] = fuel exhausted (loop still running). *)
Fixpoint le_self_loop (fuel i : nat) (ts : list (nat * R)) : option (list (nat * R)) :=
  match fuel with
  | O => None
  | S k => if Nat.ltb i (length ts)
           then le_self_loop k (S i) (ts ++ [nth i ts (0%nat, 0)])
           else Some ts
  end.

(** Exprs.hpp l.37-49, 63: the remaining operators, each in terms of the ones above. *)
Definition le_sub (e rhs : linexpr) : linexpr := le_add e (le_scale rhs (-1)).   (* l.39, l.46 *)
Definition le_div (e : linexpr) (a : R) : linexpr := le_scale e (1 / a).         (* l.40 *)
Definition le_addc (e : linexpr) (a : R) : linexpr := le_add e (le_of_const a).  (* l.37, l.41 *)
Definition le_subc (e : linexpr) (a : R) : linexpr := le_add e (le_of_const (- a)). (* l.38, l.42 *)
Definition le_addv (e : linexpr) (c : nat) : linexpr := le_add e (le_of_var c 1).  (* l.43 *)
Definition le_subv (e : linexpr) (c : nat) : linexpr := le_add e (le_of_var c (-1)). (* l.44 *)
Definition le_imul (e : linexpr) (a : R) : linexpr :=                              (* l.48: operator*= *)
  mkLE (le_const e * a) (map (fun t => (fst t, snd t * a)) (le_terms e)).
Definition le_idiv (e : linexpr) (a : R) : linexpr :=                              (* l.49: operator/= *)
  mkLE (le_const e / a) (map (fun t => (fst t, snd t / a)) (le_terms e)).
Definition le_neg (e : linexpr) : linexpr := le_sub (le_of_const 0) e.             (* l.63 *)

(** Exprs.hpp l.100-135: class DCPQuadExpr.  coeffs_ and qexpr_ are pushed together by addQuaTerm (l.109),
    they are one list of pairs.  extra_vars_ holds column numbers.  sense_ is never read. *)
Record quadexpr := mkQ {
  q_lexpr : linexpr;
  q_terms : list (R * linexpr);
  q_extra : list nat;
  q_trust : bool;
  q_soft : bool }.

(** Exprs.hpp l.103: constructor. *)
Definition q_empty : quadexpr := mkQ (le_of_const 0) [] [] false false.

(** Exprs.hpp l.107: addLinTerm. *)
Definition q_addLin (q : quadexpr) (l : linexpr) : quadexpr :=
  mkQ (le_add (q_lexpr q) l) (q_terms q) (q_extra q) (q_trust q) (q_soft q).

(** Exprs.hpp l.109: addQuaTerm; terms with zero coefficient are dropped. *)
Definition q_addQua (q : quadexpr) (a : R) (l : linexpr) : quadexpr :=
  if is_zero a then q
  else mkQ (q_lexpr q) (q_terms q ++ [(a, l)]) (q_extra q) (q_trust q) (q_soft q).

(** Exprs.hpp l.108: clear; the two flags are not reset. *)
Definition q_clear (q : quadexpr) : quadexpr :=
  mkQ (le_of_const 0) [] [] (q_trust q) (q_soft q).

(** Exprs.cpp l.85-90: DCPQuadExpr::getValue; the linear part lexpr_ is not added. *)
Definition q_value (env : nat -> R) (q : quadexpr) : R :=
  fold_left (fun v t => v + fst t * (le_value env (snd t)) ^ 2) (q_terms q) 0.

(** The model run on a user program: each public operator (Exprs.hpp l.22-67) is the function above. *)
Fixpoint ubuild (u : uexp) : linexpr :=
  match u with
  | UConst a => le_of_const a
  | UVar c => le_of_var c 1
  | UVarScaled c a => le_of_var c a
  | UAdd e1 e2 => le_add (ubuild e1) (ubuild e2)
  | USub e1 e2 => le_sub (ubuild e1) (ubuild e2)
  | UNeg e => le_neg (ubuild e)
  | UScale e a => le_scale (ubuild e) a
  | UDiv e a => le_div (ubuild e) a
  | UAddC e a => le_addc (ubuild e) a
  | USubC e a => le_subc (ubuild e) a
  | UAddV e c => le_addv (ubuild e) c
  | USubV e c => le_subv (ubuild e) c
  | UIMul e a => le_imul (ubuild e) a
  | UIDiv e a => le_idiv (ubuild e) a
  end.

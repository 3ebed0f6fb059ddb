(** * Specification of the affine-expression algebra, independent of the implementation.
    A user program building an expression is a syntax tree over the public operators; its meaning at an
    assignment [env] of the variables is ordinary real arithmetic. *)
From Coq Require Import Reals List.
Import ListNotations.
Open Scope R_scope.

Inductive uexp : Type :=
| UConst (a : R)                      (* LinExpr(a), implicit conversion *)
| UVar (c : nat)                      (* LinExpr(var) *)
| UVarScaled (c : nat) (a : R)        (* var*a, a*var, LinExpr(var,a) *)
| UAdd (e1 e2 : uexp)                 (* e1+e2, e1+=e2 *)
| USub (e1 e2 : uexp)                 (* e1-e2, e1-=e2 *)
| UNeg (e : uexp)                     (* -e *)
| UScale (e : uexp) (a : R)           (* e*a, a*e *)
| UDiv (e : uexp) (a : R)             (* e/a *)
| UAddC (e : uexp) (a : R)            (* e+a, e+=a *)
| USubC (e : uexp) (a : R)            (* e-a, e-=a *)
| UAddV (e : uexp) (c : nat)          (* e+var *)
| USubV (e : uexp) (c : nat)          (* e-var *)
| UIMul (e : uexp) (a : R)            (* e*=a *)
| UIDiv (e : uexp) (a : R).           (* e/=a *)

(** Mathematical meaning. *)
Fixpoint umean (env : nat -> R) (u : uexp) : R :=
  match u with
  | UConst a => a
  | UVar c => env c
  | UVarScaled c a => a * env c
  | UAdd e1 e2 => umean env e1 + umean env e2
  | USub e1 e2 => umean env e1 - umean env e2
  | UNeg e => - umean env e
  | UScale e a => umean env e * a
  | UDiv e a => umean env e / a
  | UAddC e a => umean env e + a
  | USubC e a => umean env e - a
  | UAddV e c => umean env e + env c
  | USubV e c => umean env e - env c
  | UIMul e a => umean env e * a
  | UIDiv e a => umean env e / a
  end.

(** The programs whose divisors are non-zero (a zero divisor produces inf/NaN in the code). *)
Fixpoint udivs_ok (u : uexp) : Prop :=
  match u with
  | UConst _ | UVar _ | UVarScaled _ _ => True
  | UAdd e1 e2 | USub e1 e2 => udivs_ok e1 /\ udivs_ok e2
  | UNeg e | UScale e _ | UAddC e _ | USubC e _ | UAddV e _ | USubV e _ | UIMul e _ => udivs_ok e
  | UDiv e a | UIDiv e a => udivs_ok e /\ a <> 0
  end.

(** Variables syntactically occurring. *)
Fixpoint uvars (u : uexp) : list nat :=
  match u with
  | UConst _ => []
  | UVar c | UVarScaled c _ => [c]
  | UAdd e1 e2 | USub e1 e2 => uvars e1 ++ uvars e2
  | UNeg e | UScale e _ | UDiv e _ | UAddC e _ | USubC e _ | UIMul e _ | UIDiv e _ => uvars e
  | UAddV e c | USubV e c => uvars e ++ [c]
  end.

(** Documented value of a quadratic expression  sum_i c_i (L_i)^2 + L   (Exprs.hpp l.93-96). *)
Definition quad_meaning (terms : list (R * R)) (lin : R) : R :=
  fold_right (fun t acc => fst t * (snd t * snd t) + acc) lin terms.

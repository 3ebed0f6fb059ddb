(** * Specification of sequential convex programming
    What the user asked for (ConicSpec) and what may be assumed of the numerical solver. *)
From Coq Require Import Reals List Arith ZArith String.
Import ListNotations.
From Verif Require Import ExprsModel ConicModel ConicSpec ScpModel.
From Verif Require IpModel.
Local Open Scope R_scope.

(** Left side minus right side of a quadratic constraint  sum c_i L_i^2 + lexpr <= l. *)
Definition qcon (x : nat -> R) (q : quadexpr) (l : linexpr) : R := wsq x (q_terms q) + aval x (q_lexpr q) - aval x l.

(** x is feasible, best for the programme handed to a solver. *)
Definition feasible_answer (P : program) (x : nat -> R) : Prop := std_feasible (g_nl P) (g_q P) (g_stg P) x.
Definition best_answer (P : program) (x : nat -> R) : Prop :=
  feasible_answer P x /\ forall y, feasible_answer P y -> std_objective (g_stg P) x <= std_objective (g_stg P) y.
(** A solver whose "optimal" answers are feasible; are best. *)
Definition sound_solver (solve : oracle) : Prop := forall k b P x, solve k b P = (IpModel.Optimal, x) -> feasible_answer P x.
Definition exact_solver (solve : oracle) : Prop := forall k b P x, solve k b P = (IpModel.Optimal, x) -> best_answer P x.

(** The objective with the squared slack of the soft constraints. *)
Definition slack_cost (x : nat -> R) (c : call) : R :=
  match c with CAddQua q s l ApproxSoftConstraint => if String.eqb s "<" then qcon x q l * qcon x q l else 0 | _ => 0 end.
Definition penalised (w : R) (cs : list call) (x : nat -> R) : R := user_obj cs x + w * sumR (map (slack_cost x) cs).
Definition no_trust_calls (cs : list call) : Prop := forall q s l, ~ In (CAddQua q s l ApproxTrustRegion) cs.
Definition no_approx_calls (cs : list call) : Prop := forall q s l ap, In (CAddQua q s l ap) cs -> ap = ApproxNone.
(** Values of the variables after an optimisation that started with the problem of the given calls. *)
Definition values (s : scp_state) : nat -> R := p_env (sc_p s).
Definition solved (S : scp_set) (solve : oracle) (cs : list call) : scp_state := scp_optimize S solve (run_calls cs cp_init) 0.

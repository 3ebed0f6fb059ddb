(** * Specification of the modelling layer, independent of how rows are laid out.
    (1) meaning of the user's calls, (2) the standard conic form that the numerical solver receives. *)
From Coq Require Import Reals List Arith String.
From Verif Require Import ExprsModel ConicModel.
Import ListNotations.
Open Scope R_scope.

(** Value of an affine expression at a point. *)
Definition aval (x : nat -> R) (e : linexpr) : R :=
  le_const e + fold_right (fun t acc => snd t * x (fst t) + acc) 0 (le_terms e).

Definition sumR (l : list R) : R := fold_right Rplus 0 l.

(** Weighted sum of squares, sum of squares. *)
Definition wsq (x : nat -> R) (ts : list (R * linexpr)) : R :=
  sumR (map (fun t => fst t * (aval x (snd t) * aval x (snd t))) ts).
Definition sq (x : nat -> R) (ts : list (R * linexpr)) : R :=
  sumR (map (fun t => aval x (snd t) * aval x (snd t)) ts).

(** What a constraint-adding call asks of a point (a rejected call asks nothing). *)
Definition call_holds (x : nat -> R) (c : call) : Prop :=
  match c with
  | CAddLin lhs s rhs =>
      (s = "="%string -> aval x lhs = aval x rhs) /\
      (s = "<"%string -> aval x lhs <= aval x rhs) /\
      (s = ">"%string -> aval x lhs >= aval x rhs)
  | CAddQua q s l _ => s = "<"%string -> wsq x (q_terms q) + aval x (q_lexpr q) <= aval x l
  | CAddSoc q s l => s = "<"%string -> sqrt (sq x (q_terms q)) + aval x (q_lexpr q) <= aval x l
  | CAddVar _ _ _ _ | CSetObj _ _ => True
  end.

(** Objective value asked for. *)
Definition obj_value (x : nat -> R) (q : quadexpr) (l : linexpr) : R :=
  wsq x (q_terms q) + aval x (q_lexpr q) + aval x l.

(** ** Standard conic form   min c.x   s.t.  A x = b,  h - G x in R+^nl x SOC(q1) x ... x SOC(qk) *)
Definition matvec (T : list (nat * nat * R)) (x : nat -> R) (r : nat) : R :=
  sumR (map (fun t => match t with (r', c, v) => if Nat.eqb r' r then v * x c else 0 end) T).

Definition slack (s : storage) (x : nat -> R) (r : nat) : R := s_h s r - matvec (s_G s) x r.

Definition in_soc (v : nat -> R) (n : nat) : Prop :=
  sqrt (sumR (map (fun j => v j * v j) (seq 1 (n - 1)))) <= v 0%nat.

Fixpoint in_socs (v : nat -> R) (start : nat) (q : list nat) : Prop :=
  match q with
  | [] => True
  | n :: q' => in_soc (fun j => v (start + j)%nat) n /\ in_socs v (start + n) q'
  end.

Definition std_feasible (nl : nat) (q : list nat) (s : storage) (x : nat -> R) : Prop :=
  (forall r, (r < s_me s)%nat -> matvec (s_A s) x r = s_b s r) /\
  (forall r, (r < nl)%nat -> 0 <= slack s x r) /\
  in_socs (slack s x) nl q.

Definition std_objective (s : storage) (x : nat -> R) : R :=
  sumR (map (fun j => s_c s j * x j) (seq 0 (s_n s))).

(** ** Histories of modelling calls, from the user's point of view *)

(** Variables handed out by the successful addVar calls: (column, type). *)
Fixpoint issued (cs : list call) (p : problem) : list (nat * vartype) :=
  match cs with
  | [] => []
  | c :: cs' =>
      match c with
      | CAddVar ty lb ub _ => if Rlt_dec ub lb then [] else [(List.length (p_vars p), ty)]
      | _ => []
      end ++ issued cs' (out_state (do_call c p))
  end.
Definition user_cols (cs : list call) : list nat := map fst (issued cs cp_init).

(** An expression uses only variables the user has received. *)
Definition uses (U : list nat) (e : linexpr) : Prop := forall c, In c (map fst (le_terms e)) -> In c U.
Definition uses_q (U : list nat) (q : quadexpr) : Prop :=
  uses U (q_lexpr q) /\ (forall t, In t (q_terms q) -> uses U (snd t)).
(** A quadratic expression made with the constructor, addLinTerm and addQuaTerm only. *)
Definition fresh_q (q : quadexpr) : Prop := q_extra q = [] /\ q_trust q = false /\ q_soft q = false.

Definition call_scoped (U : list nat) (c : call) : Prop :=
  match c with
  | CAddVar _ _ _ _ => True
  | CAddLin a _ b => uses U a /\ uses U b
  | CAddQua q _ l _ | CAddSoc q _ l | CSetObj q l => uses_q U q /\ fresh_q q /\ uses U l
  end.
(** No call of this history sets an objective with quadratic terms. *)
Definition no_quad_obj (cs : list call) : Prop := forall q l, In (CSetObj q l) cs -> q_terms q = [].

(** Histories in which every call uses variables issued before it, and the objective is not set again
    once an objective with quadratic terms has been set (see C51 for what happens otherwise). *)
Definition scoped (cs : list call) : Prop :=
  (forall pre c post, cs = pre ++ c :: post -> call_scoped (user_cols pre) c) /\
  (forall pre q l post, cs = pre ++ CSetObj q l :: post -> no_quad_obj pre).

(** Calls the compiler handles faithfully: quadratic coefficients are non-negative (the documented
    "disciplined convex" restriction) and a linear constraint that does not depend on the variables is true. *)
Definition call_convex (c : call) : Prop :=
  match c with
  | CAddQua q _ _ _ | CSetObj q _ => forall t, In t (q_terms q) -> 0 <= fst t
  | _ => True
  end.
Definition call_not_absurd (c : call) : Prop :=
  match c with
  | CAddLin a s b => (forall x y, aval x a - aval x b = aval y a - aval y b) -> call_holds (fun _ => 0) c
  | _ => True
  end.

(** A binary variable lies in [0,1]. *)
Definition binaries_ok (cs : list call) (x : nat -> R) : Prop :=
  forall c, In (c, Binary) (issued cs cp_init) -> 0 <= x c <= 1.

(** First-order model at [env] of the left hand side of a quadratic constraint  sum c_i L_i^2 + lexpr - l <= 0. *)
Definition lin_model (env : nat -> R) (q : quadexpr) (l : linexpr) (x : nat -> R) : R :=
  aval x (q_lexpr q) - aval x l + wsq env (q_terms q)
  + sumR (map (fun t => 2 * fst t * aval env (snd t) * (aval x (snd t) - aval env (snd t))) (q_terms q)).

(** What the trust-region variant adds:  linear model >= - threshold^iteration. *)
Definition trust_holds (env : nat -> R) (thr : R) (iter : nat) (x : nat -> R) (c : call) : Prop :=
  match c with
  | CAddQua q s l ApproxTrustRegion => s = "<"%string -> - thr ^ iter <= lin_model env q l x
  | _ => True
  end.
(** What the soft-constraint variant adds to the objective:  weight * (linear model)^2. *)
Definition soft_penalty (env : nat -> R) (w : R) (x : nat -> R) (c : call) : R :=
  match c with
  | CAddQua q s l ApproxSoftConstraint => if String.eqb s "<" then w * (lin_model env q l x * lin_model env q l x) else 0
  | _ => 0
  end.

(** The user's objective (0 if never set) and its constant part (irrelevant for the optimiser). *)
Definition user_obj (cs : list call) (x : nat -> R) : R :=
  fold_left (fun v c => match c with CSetObj q l => obj_value x q l | _ => v end) cs 0.
Definition obj_const (cs : list call) : R :=
  fold_left (fun v c => match c with CSetObj q l => le_const (q_lexpr q) + le_const l | _ => v end) cs 0.

(** ** The compiled problem of a history, in standard form *)
Definition compiled_feasible thr w iter warm (cs : list call) (x : nat -> R) : Prop :=
  let p := run_calls cs cp_init in
  std_feasible (b_nlineq p warm) (b_q p warm) (cp_build thr w iter warm p) x.
Definition compiled_objective thr w iter warm (cs : list call) (x : nat -> R) : R :=
  std_objective (cp_build thr w iter warm (run_calls cs cp_init)) x.

(** Columns a call asks for: user variables and auxiliaries (also allocated by rejected constraints). *)
Definition cols_of_call (c : call) : nat :=
  match c with
  | CAddVar _ lb ub _ => if Rlt_dec ub lb then 0 else 1
  | CAddLin _ _ _ => 0
  | CAddQua q _ _ ap => List.length (q_terms q) + match ap with ApproxSoftConstraint => 1 | _ => 0 end
  | CAddSoc _ _ _ => 1
  | CSetObj q _ => List.length (q_terms q)
  end.

(** Calls of a purely linear model. *)
Definition linear_call (c : call) : Prop :=
  match c with CAddVar _ _ _ _ | CAddLin _ _ _ => True | CSetObj q _ => q_terms q = [] | _ => False end.


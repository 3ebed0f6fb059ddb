(** Specification for the real-time model class. *)
From Coq Require Import Reals List Arith ZArith Bool.
Import ListNotations.
From Verif Require Import Base ExprsModel RtMatModel HierModel HierSpec RtmModel.
Local Open Scope R_scope.

(** A variable takes part in the optimisation when its index is not negative. *)
Definition is_active (flags : list Z) (j : nat) : bool := (0 <=? nth j flags (-1))%Z.
Fixpoint active_before (flags : list Z) (j : nat) : nat := match j with O => O | S j' => (active_before flags j' + (if is_active flags j' then 1 else 0))%nat end.
(** The full decision vector of a reduced one: inactive variables are zero, the active ones keep their order. *)
Definition expand (flags : list Z) (x : nat -> R) : nat -> R := fun j => if is_active flags j then x (active_before flags j) else 0.
Definition row_at (n : nat) (r : row) (x : nat -> R) : R := rsum n (fun j => fst r j * x j) + snd r.
(** Size used to drop rows. *)
Definition negligible (n : nat) (r : row) : Prop := rsum n (fun j => Rabs (fst r j)) < length_thresh.
Definition borderline (n : nat) (r : row) : Prop := rsum n (fun j => Rabs (fst r j)) = length_thresh.
(** Cost of a constraint in the sense of its relation. *)
Definition satisfied (s : sense) (lhs rhs : R) : Prop := match s with SEq => lhs = rhs | SLt => lhs <= rhs | SGt => lhs >= rhs | SOther => False end.
Definition vars_below (n : nat) (e : linexpr) : Prop := forall t, In t (le_terms e) -> (fst t < n)%nat.
Definition max_rank (c : cons) (comps : list composer) : Z :=
  fold_right Z.max 0%Z (map fst (leq c) ++ map fst (lineq c) ++ map cp_max comps).
(** Coefficient of variable j in an affine expression. *)
Definition coef (e : linexpr) (j : nat) : R := le_value (fun i => if (i =? j)%nat then 1 else 0) e - le_const e.
(** Sum of the sizes of the coefficients of the active variables. *)
Definition active_size (flags : list Z) (n : nat) (e : linexpr) : R := rsum n (fun j => if is_active flags j then Rabs (coef e j) else 0).
(** The calls of addLinConstr. *)
Record call := mkCall { c_lhs : linexpr; c_sense : sense; c_rhs : linexpr; c_rank : Z }.
Definition add_calls (cs : list call) (c : cons) : res cons := foldM (fun c k => addLinConstr c (c_lhs k) (c_sense k) (c_rhs k) (c_rank k)) cs c.
Definition difference (k : call) : linexpr := match c_sense k with SGt => le_sub (c_rhs k) (c_lhs k) | _ => le_sub (c_lhs k) (c_rhs k) end.
(** Row i of the task says what the call says, at every reduced decision vector. *)
Definition expresses (flags : list Z) (t : task) (k : call) : Prop :=
  match c_sense k with
  | SEq => exists i, (i < nr (t_E t))%nat /\ forall x, row_value (t_E t) (t_e t) i x = le_value (expand flags (va x)) (c_lhs k) - le_value (expand flags (va x)) (c_rhs k)
  | SLt => exists i, (i < nr (t_C t))%nat /\ forall x, row_value (t_C t) (t_c t) i x = le_value (expand flags (va x)) (c_lhs k) - le_value (expand flags (va x)) (c_rhs k)
  | SGt => exists i, (i < nr (t_C t))%nat /\ forall x, row_value (t_C t) (t_c t) i x = le_value (expand flags (va x)) (c_rhs k) - le_value (expand flags (va x)) (c_lhs k)
  | SOther => False
  end.

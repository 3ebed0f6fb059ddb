(** * Model of the minimum jerk polynomials
    Source: momentumopt/python/momentumopt/kinoptpy/min_jerk_traj.py.  Reals are exact; exponents are natural numbers (the only ones the module
    creates).  A raised exception is [Throw]. *)
From Coq Require Import Reals List Arith ZArith Bool.
Import ListNotations.
From Verif Require Import Base.
Local Open Scope R_scope.

(** A coefficient array: rows (coefficient, exponent). *)
Definition carray := list (R * nat).
(** Polynomial, l.15-25: coeffs (None before constraints are set), fitted, order (None if not set), constraints (x, y, derivative order). *)
Record poly := Poly { p_coeffs : option carray; p_fitted : bool; p_order : option nat; p_cons : list (R * R * nat) }.
(** Polynomial() and Polynomial(coeffs), l.17-25; with coefficients the attribute constraints does not exist. *)
Definition poly_new : poly := Poly None false None [].
Definition poly_of (c : carray) : poly := Poly (Some c) true (Some (length c - 1)%nat) [].
(** set_initial_coeffs, l.27-34 *)
Definition initial_coeffs (order : nat) : carray := map (fun i => (1, i)) (seq 0 (order + 1)).
(** differentiate, l.43-49: rows whose new exponent is negative become zero. *)
Definition diff_row (r : R * nat) : R * nat := match snd r with O => (0, O) | S e => (fst r * INR (S e), e) end.
Definition differentiate (c : carray) : carray := map diff_row c.
(** np.sum(np.power(x, exponents) * coefficients) *)
Definition csum (c : carray) (x : R) : R := fold_right (fun r s => x ^ snd r * fst r + s) 0 c.
(** eval l.51-54, deval l.56-66 *)
Definition peval (p : poly) (x : R) : res R :=
  match p_fitted p, p_coeffs p with true, Some c => Ok (csum c x) | _, _ => Throw end.
Definition pdeval (p : poly) (x : R) : res R :=
  match p_fitted p, p_coeffs p with
  | true, Some c => if (length c =? 1)%nat then Ok 0 else Ok (csum (differentiate c) x)
  | _, _ => Throw
  end.
(** set_constraint l.75-76, set_constraints l.68-73 *)
Definition set_constraint (p : poly) (k : R * R * nat) : poly := Poly (p_coeffs p) (p_fitted p) (p_order p) (p_cons p ++ [k]).
Definition set_constraints (p : poly) (ks : list (R * R * nat)) : poly :=
  let all := p_cons p ++ ks in
  let order := (length all - 1)%nat in
  Poly (Some (initial_coeffs order)) (p_fitted p) (Some order) all.
(** Row of A for one constraint, l.90-98. *)
Definition arow (c : carray) (k : R * R * nat) : res (list R) :=
  let t := fst (fst k) in
  let row (a : carray) := map (fun r => t ^ snd r * fst r) a in
  match snd k with
  | O => Ok (row c)
  | 1%nat => Ok (row (differentiate c))
  | 2%nat => Ok (row (differentiate (differentiate c)))
  | _ => Throw
  end.
Fixpoint arows (c : carray) (ks : list (R * R * nat)) : res (list (list R)) :=
  match ks with [] => Ok [] | k :: r => bind (arow c k) (fun a => bind (arows c r) (fun l => Ok (a :: l))) end.
(** fit, l.78-105.  [solve A b] is numpy.linalg.solve, None if it raises LinAlgError.  No constraint: ValueError; order not set: TypeError;
    more constraints than order + 1: IndexError. *)
Definition set_col0 (c : carray) (x : list R) : carray := combine x (map snd c).
Definition fit (solve : list (list R) -> list R -> option (list R)) (p : poly) : res poly :=
  match p_cons p, p_order p, p_coeffs p with
  | [], _, _ => Throw
  | ks, Some o, Some c =>
      if (length ks <=? o + 1)%nat then
        bind (arows c ks) (fun A =>
        let n := (o + 1)%nat in
        let pad := fun (k : nat) (z : R) => repeat z k in
        match solve (A ++ repeat (pad n 0) (n - length ks)) (map (fun k => snd (fst k)) ks ++ pad (n - length ks)%nat 0) with
        | Some x => Ok (Poly (Some (set_col0 c x)) true (Some o) ks)
        | None => Throw
        end)
      else Throw
  | _, _, _ => Throw
  end.
(** create_constraints, l.108-143; via = None takes the middle. *)
Definition create_constraints (t0 t1 x0 x1 : R) (via : option R) : list (R * R * nat) :=
  let tc := / 2 * (t1 - t0) + t0 in
  let v := match via with Some v => v | None => / 2 * (x1 - x0) + x0 end in
  [((t0, x0), 0%nat); ((t0, 0), 1%nat); ((t0, 0), 2%nat); ((tc, v), 0%nat); ((t1, x1), 0%nat); ((t1, 0), 1%nat); ((t1, 0), 2%nat)].
(** constant_poly l.146-150, poly_points l.153-158 *)
Definition constant_poly (y : R) : poly := poly_of [(y, 0%nat)].
Definition poly_points solve (t0 t1 x0 x1 : R) (via : option R) : res poly := fit solve (set_constraints poly_new (create_constraints t0 t1 x0 x1 via)).
(** PolynominalList, l.161-185: windows (start, end) with their polynomials. *)
Definition plist := list ((R * R) * poly).
Fixpoint get_poly (l : plist) (t : R) : res poly :=
  match l with
  | [] => Throw
  | [(_, p)] => Ok p
  | ((_, e), p) :: r => if Rlt_dec e t then get_poly r t else Ok p
  end.
Definition list_eval (l : plist) (t : R) : res R := bind (get_poly l t) (fun p => peval p t).
Definition list_deval (l : plist) (t : R) : res R := bind (get_poly l t) (fun p => pdeval p t).

(** * Specification: fitted polynomials *)
From Coq Require Import Reals List Arith.
Import ListNotations.
From Verif Require Import Base PolyModel.
Local Open Scope R_scope.

(** x solves A x = b. *)
Definition dot (a x : list R) : R := fold_right Rplus 0 (map (fun p => fst p * snd p) (combine a x)).
Definition solves (A : list (list R)) (b x : list R) : Prop := length x = length A /\ map (fun a => dot a x) A = b.
(** What the n-th derivative of a function is, by iterating the limit. *)
Fixpoint nth_derivative (n : nat) (f : R -> R) (g : R -> R) : Prop :=
  match n with O => forall t, f t = g t | S m => exists f', (forall t, derivable_pt_lim f t (f' t)) /\ nth_derivative m f' g end.
(** f satisfies the constraint (x, y, n): its n-th derivative at x is y. *)
Definition meets (f : R -> R) (k : R * R * nat) : Prop := exists g, nth_derivative (snd k) f g /\ g (fst (fst k)) = snd (fst k).
(** Windows follow each other without gap. *)
Fixpoint contiguous (l : list (R * R)) : Prop :=
  match l with (a, b) :: (((c, d) :: _) as r) => a <= b /\ b = c /\ contiguous r | [(a, b)] => a <= b | [] => True end.
(** A linear solver: what it returns is a solution; it fails only if the system does not have exactly one. *)
Definition sound (solve : list (list R) -> list R -> option (list R)) : Prop := forall A b x, solve A b = Some x -> solves A b x.
Definition complete (solve : list (list R) -> list R -> option (list R)) : Prop := forall A b x, solves A b x -> (forall y, solves A b y -> y = x) -> solve A b <> None.
(** The value a fitted polynomial has at t, as a function. *)
Definition is_function (p : poly) (f : R -> R) : Prop := forall t, peval p t = Ok (f t).

(** * Specification: feasible points, stationarity, optimality (C97). Independent of the model's functions. *)
From Coq Require Import Reals List Arith.
Import ListNotations.
From Verif Require Import Base.
Local Open Scope R_scope.

Definition lin (n : nat) (r : (nat -> R) * R) (x : nat -> R) : R := rsum n (fun i => fst r i * x i) + snd r.
Definition feasible (n : nat) (eqs ineqs : list ((nat -> R) * R)) (x : nat -> R) : Prop := (forall r, In r eqs -> lin n r x = 0) /\ (forall r, In r ineqs -> lin n r x <= 0).
Definition objective (n : nat) (H : nat -> nat -> R) (g x : nat -> R) : R := / 2 * rsum n (fun i => rsum n (fun j => x i * H i j * x j)) + rsum n (fun i => g i * x i).
Definition psd (n : nat) (H : nat -> nat -> R) : Prop := (forall i j, (i < n)%nat -> (j < n)%nat -> H i j = H j i) /\ forall v : nat -> R, 0 <= rsum n (fun i => rsum n (fun j => v i * H i j * v j)).
(** The gradient of the objective is a combination of rows, with one coefficient for each. *)
Definition spanned (n : nat) (H : nat -> nat -> R) (g x : nat -> R) (rows : list ((nat -> R) * R)) (c : list R) : Prop :=
  length c = length rows /\ forall i, (i < n)%nat -> rsum n (fun j => H i j * x j) + g i = fold_right Rplus 0 (map (fun p => snd p * fst (fst p) i) (combine rows c)).
(** Least squares: no coefficients come closer to the right-hand side. *)
Definition least_squares (n : nat) (rows : list (nat -> R)) (b : nat -> R) (c : list R) : Prop := length c = length rows /\
  forall d, length d = length rows ->
    rsum n (fun i => (fold_right Rplus 0 (map (fun p => snd p * fst p i) (combine rows c)) - b i) ^ 2) <= rsum n (fun i => (fold_right Rplus 0 (map (fun p => snd p * fst p i) (combine rows d)) - b i) ^ 2).

(** * Shared vocabulary of the models: outcomes, monadic loops, std::vector access, functional arrays. *)
From Coq Require Import Reals List Arith ZArith Bool.
Import ListNotations.

(** Results: normal, exception, undefined behaviour (index outside a std::vector or Eigen vector, unbounded loop). *)
Inductive res (A : Type) := Ok (a : A) | Throw | UB.
Arguments Ok {A}. Arguments Throw {A}. Arguments UB {A}.
Definition bind {A B} (x : res A) (f : A -> res B) : res B :=
  match x with Ok a => f a | Throw => Throw | UB => UB end.

(** vars[i] = a and vars[i] on a std::vector. *)
Fixpoint set_nth {A} (l : list A) (i : nat) (a : A) : list A :=
  match l, i with
  | [], _ => []
  | _ :: l', O => a :: l'
  | x :: l', S i' => x :: set_nth l' i' a
  end.
Definition vset {A} (l : list A) (i : Z) (a : A) : res (list A) :=
  if ((0 <=? i) && (i <? Z.of_nat (List.length l)))%Z then Ok (set_nth l (Z.to_nat i) a) else UB.
Definition vget {A} (l : list A) (i : Z) : res A :=
  if (0 <=? i)%Z then match nth_error l (Z.to_nat i) with Some a => Ok a | None => UB end else UB.

Fixpoint foldM {A S} (f : S -> A -> res S) (l : list A) (s : S) : res S :=
  match l with [] => Ok s | a :: l' => bind (f s a) (foldM f l') end.

(** Arrays as functions of the index; a[i] = v. *)
Definition upd {A} (f : nat -> A) (i : nat) (v : A) : nat -> A := fun j => if Nat.eqb j i then v else f j.

(** Finite sum f 0 + ... + f (n-1). *)
Fixpoint rsum (n : nat) (f : nat -> R) : R :=
  match n with O => 0%R | S m => (rsum m f + f m)%R end.
Fixpoint nsum (n : nat) (f : nat -> nat) : nat :=
  match n with O => 0%nat | S m => (nsum m f + f m)%nat end.

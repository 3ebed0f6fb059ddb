(** * Specification: interpolation *)
From Coq Require Import Reals List Arith.
Import ListNotations.
From Verif Require Import Base TrajModel.
Local Open Scope R_scope.

(** x solves the n x n system M x = b. *)
Definition solution (n : nat) (M : nat -> nat -> R) (b x : nat -> R) : Prop := forall i, (i < n)%nat -> rsum n (fun j => M i j * x j) = b i.
(** M is nonsingular. *)
Definition regular (n : nat) (M : nat -> nat -> R) : Prop := forall x, solution n M (fun _ => 0) x -> forall j, (j < n)%nat -> x j = 0.
(** The linear solver returns a solution of the system if the matrix is nonsingular. *)
Definition solves_if_regular (qr : nat -> (nat -> nat -> R) -> (nat -> R) -> (nat -> R)) (n : nat) (M : nat -> nat -> R) (b : nat -> R) : Prop :=
  regular n M -> solution n M b (qr n M b).
(** The way-points of a swing: position at both ends and in the middle, zero velocity and acceleration at both ends. *)
Definition swing_pos (tini pini tend pend via : R) : rows := [(tini, pini); (/ 2 * (tini + tend), via); (tend, pend)].
Definition swing_d (tini tend : R) : rows := [(tini, 0); (tend, 0)].
Definition position (r : option R * option R * option R) := fst (fst r).
Definition velocity (r : option R * option R * option R) := snd (fst r).
Definition acceleration (r : option R * option R * option R) := snd r.
(** The rest-to-rest profile through the middle value v, as a function of the phase s in [0,1]. *)
Definition swing (x0 v x1 s : R) : R :=
  x0 + (x1 - x0) * (10 * s ^ 3 - 15 * s ^ 4 + 6 * s ^ 5) + (v - (x0 + x1) / 2) * (64 * s ^ 3 * (1 - s) ^ 3).

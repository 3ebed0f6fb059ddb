(** * Specification: the Python view of a contact (C93) *)
From Coq Require Import Reals List Arith.
Import ListNotations.
From Verif Require Import Vec3 CntModel PycModel.
Local Open Scope R_scope.

(** Dot product of the columns a and b of the upper left 3x3 block. *)
Definition coldot (m : nat -> nat -> R) (a b : nat) : R := m 0%nat a * m 0%nat b + m 1%nat a * m 1%nat b + m 2%nat a * m 2%nat b.
Definition det3 (m : nat -> nat -> R) : R := (m 0%nat 0%nat * (m 1%nat 1%nat * m 2%nat 2%nat - m 1%nat 2%nat * m 2%nat 1%nat) - m 0%nat 1%nat * (m 1%nat 0%nat * m 2%nat 2%nat - m 1%nat 2%nat * m 2%nat 0%nat) + m 0%nat 2%nat * (m 1%nat 0%nat * m 2%nat 1%nat - m 1%nat 1%nat * m 2%nat 0%nat)).
(** The 3x3 block is a rotation matrix. *)
Definition rotation3 (m : nat -> nat -> R) : Prop := (forall a b, (a < 3)%nat -> (b < 3)%nat -> coldot m a b = if Nat.eqb a b then 1 else 0) /\ det3 m = 1.
(** A rigid placement: rotation, translation, last row 0 0 0 1. *)
Definition rigid (m : nat -> nat -> R) : Prop := rotation3 m /\ forall j, (j < 4)%nat -> m 3%nat j = if Nat.eqb j 3 then 1 else 0.
(** The value of the last assignment that [f] picks, or [d]. *)
Definition last_of {A} (f : cwrite -> option A) (d : A) (h : list cwrite) : A := fold_left (fun a w => match f w with Some x => x | None => a end) h d.
Definition sets_start (w : cwrite) := match w with WStart x => Some x | _ => None end.
Definition sets_end (w : cwrite) := match w with WEnd x => Some x | _ => None end.
Definition sets_type (w : cwrite) := match w with WType x => Some x | _ => None end.
Definition sets_active (w : cwrite) := match w with WActive x => Some x | _ => None end.
(** A position is set by position and by placement (fourth column). *)
Definition sets_position (w : cwrite) := match w with WPosition v => Some v | WPlacement m => Some (V3 (m 0%nat 3%nat) (m 1%nat 3%nat) (m 2%nat 3%nat)) | _ => None end.
Definition sets_placement (w : cwrite) := match w with WPlacement m => Some m | _ => None end.
Definition identity4 (i j : nat) : R := if Nat.eqb i j then 1 else 0.

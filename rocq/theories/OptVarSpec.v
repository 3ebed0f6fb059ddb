(** * Specification for C07/C08: where the (r,c) entry of a block lives, in words of block sizes only. *)
From Coq Require Import Reals List Arith ZArith Bool Ascii.
From Verif Require Import ConicModel OptVarModel.
Import ListNotations.
Open Scope R_scope.

Definition bsize (b : blockspec) : nat := (b_rows b * b_cols b)%nat.

(** First index of block [k]: total size of the blocks initialised before it. *)
Definition block_start (bs : list blockspec) (k : nat) : nat := sumn (map bsize (firstn k bs)).

(** Model column of entry (r,c) of block [k] when blocks are added to the model in the order [ord]:
    sizes of the blocks that come before [k] in that order, then column-major position. *)
Fixpoint column_of (bs : list blockspec) (ord : list nat) (k : nat) (r c : nat) : nat :=
  match ord with
  | [] => 0
  | j :: ord' =>
      let b := nth j bs (mkB "C"%char 0 0 (fun _ _ => 0) (fun _ _ => 0) (fun _ _ => 0)) in
      if Nat.eqb j k then (c * b_rows b + r)%nat else (bsize b + column_of bs ord' k r c)%nat
  end.

(** Blocks the planners may declare: type continuous, or binary where the planner supports it, and consistent bounds. *)
Definition block_ok (binary_ok : bool) (b : blockspec) : Prop :=
  (b_type b = "C"%char \/ (b_type b = "B"%char /\ binary_ok = true)) /\
  forall r c, (r < b_rows b)%nat -> (c < b_cols b)%nat -> b_lb b (Z.of_nat r) (Z.of_nat c) <= b_ub b (Z.of_nat r) (Z.of_nat c).

(** Adding constraints, objective and auxiliary variables only appends variables to the model. *)
Definition appends_vars (setup : problem -> problem) : Prop :=
  forall p, exists l, p_vars (setup p) = p_vars p ++ l.

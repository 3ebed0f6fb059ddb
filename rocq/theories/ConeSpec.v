(** * Specification for the cone algebra (C10, C11, C12, C15) *)
From Coq Require Import Reals List Arith.
From Verif Require Import ConicSpec.
Import ListNotations.
Open Scope R_scope.

(** Euclidean product of the tails 1..n-1, Lorentz form, and the sum of a list of sizes. *)
Definition tail_prod (n : nat) (u v : nat -> R) : R := sumR (map (fun j => u j * v j) (seq 1 (n - 1))).
Fixpoint total (q : list nat) : nat := match q with [] => O | n :: q' => (n + total q')%nat end.

(** Properties of every linear entry and every block; [P l n v] is about block l, given by its own entries v 0 .. v (n-1). *)
Fixpoint each_block (P : nat -> (nat -> R) -> Prop) (st : nat) (q : list nat) (v : nat -> R) : Prop :=
  match q with
  | [] => True
  | n :: q' => P n (fun j => v (st + j)%nat) /\ each_block P (st + n) q' v
  end.
(** Interior of the second-order cone of size n. *)
Definition soc_interior (n : nat) (v : nat -> R) : Prop := sqrt (tail_prod n v v) < v 0%nat.
Definition interior (nl : nat) (q : list nat) (v : nat -> R) : Prop :=
  (forall i, (i < nl)%nat -> 0 < v i) /\ each_block soc_interior nl q v.
(** Interior with the margin 1e-13 of the solver's division guard: linear entries, and roots of the cone determinants. *)
Definition soc_margin (g : R) (n : nat) (v : nat -> R) : Prop :=
  g <= v 0%nat /\ g <= v 0%nat * v 0%nat - tail_prod n v v.
Definition soc_root_margin (g : R) (n : nat) (v : nat -> R) : Prop :=
  0 < v 0%nat /\ g * g <= v 0%nat * v 0%nat - tail_prod n v v.

(** The Jordan product of a block, and of a cone vector: w = u o v. *)
Definition is_product_block (n : nat) (u v w : nat -> R) : Prop :=
  w 0%nat = sumR (map (fun j => u j * v j) (seq 0 n)) /\
  forall j, (1 <= j < n)%nat -> w j = u 0%nat * v j + v 0%nat * u j.
Fixpoint is_product_blocks (st : nat) (q : list nat) (u v w : nat -> R) : Prop :=
  match q with
  | [] => True
  | n :: q' => is_product_block n (fun j => u (st + j)%nat) (fun j => v (st + j)%nat) (fun j => w (st + j)%nat) /\
               is_product_blocks (st + n) q' u v w
  end.
Definition is_product (nl : nat) (q : list nat) (u v w : nat -> R) : Prop :=
  (forall i, (i < nl)%nat -> w i = u i * v i) /\ is_product_blocks nl q u v w.

(** Equality on the first N entries; inner product. *)
Definition eqN (N : nat) (a b : nat -> R) : Prop := forall i, (i < N)%nat -> a i = b i.
Definition inner (N : nat) (a b : nat -> R) : R := sumR (map (fun i => a i * b i) (seq 0 N)).

(** The identity element of the cone algebra: 1 on linear entries and block heads, 0 elsewhere. *)
Fixpoint head_pos (st : nat) (q : list nat) (i : nat) : Prop :=
  match q with [] => False | n :: q' => i = st \/ head_pos (st + n) q' i end.
(** v is s moved by t along that identity. *)
Definition moved (nl : nat) (q : list nat) (t : R) (s v : nat -> R) : Prop :=
  forall i, (i < nl + total q)%nat ->
    ((i < nl)%nat \/ head_pos nl q i -> v i = s i + t) /\ (~ ((i < nl)%nat \/ head_pos nl q i) -> v i = s i).
(** Closed cone. *)
Definition in_closed_cone (nl : nat) (q : list nat) (v : nat -> R) : Prop :=
  (forall i, (i < nl)%nat -> 0 <= v i) /\ each_block (fun n v => sqrt (tail_prod n v v) <= v 0%nat) nl q v.

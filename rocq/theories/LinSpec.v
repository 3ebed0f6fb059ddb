(** Specification for C13, C17 and C53: the KKT system of the interior-point method in extended variables. *)
From Coq Require Import Reals List Arith.
From Verif Require Import Base ConeModel LdlSpec.
Import ListNotations.
Open Scope R_scope.

(** inv is a permutation of 0..N-1 with inverse perm. *)
Definition is_perm (N : nat) (perm inv : nat -> nat) : Prop :=
  (forall i, (i < N)%nat -> (inv i < N)%nat /\ perm (inv i) = i) /\ (forall i, (i < N)%nat -> (perm i < N)%nat /\ inv (perm i) = i).

(** Extended row of cone row r: every second-order block is followed by two extra rows. *)
Fixpoint extra (q : list nat) (r : nat) : nat :=
  match q with [] => 0%nat | m :: q' => if Nat.ltb r m then 0%nat else (2 + extra q' (r - m))%nat end.
Definition ext_row (nl : nat) (q : list nat) (r : nat) : nat := if Nat.ltb r nl then r else (r + extra q (r - nl))%nat.
(** Start of block l in plain and extended numbering. *)
Definition blk_start (nl : nat) (q : list nat) (l : nat) : nat := (nl + fold_right Nat.add 0%nat (firstn l q))%nat.
Definition ext_start (nl : nat) (q : list nat) (l : nat) : nat := (blk_start nl q l + 2 * l)%nat.

(** Squared scaling of a block in the sparse (two extra rows) form: coefficients eta^2, d1, u0, u1, v1 and point w. *)
Definition arrow (m : nat) (eta2 d1 u0 u1 v1 : R) (w x : nat -> R) (j : nat) : R :=
  let wx := rsum m (fun i => if Nat.eqb i 0 then 0 else w i * x i) in
  eta2 * (if Nat.eqb j 0 then d1 * x 0%nat + u0 * x (S m)
          else if Nat.ltb j m then x j + (v1 * x m + u1 * x (S m)) * w j
          else if Nat.eqb j m then v1 * wx + x m
          else u0 * x 0%nat + u1 * wx - x (S m)).
Definition block_arrow (m : nat) (b : ntsoc) : (nat -> R) -> nat -> R := arrow m (nt_eta2 b) (nt_d1 b) (nt_u0 b) (nt_u1 b) (nt_v1 b) (nt_wbar b).

(** K is the regularised KKT operator of the problem with equality matrix A (p x n), cone matrix G, squared linear scalings w2
    and block scalings bs: rows for the variables x, the multipliers y, the linear cone rows, and per block its m rows and two extra rows. *)
Record is_kkt (n p nl : nat) (q : list nat) (A G : nat -> nat -> R) (reg : R) (w2 : nat -> R) (bs : list ntsoc) (K : (nat -> R) -> nat -> R) : Prop := {
  kkt_x : forall X i, (i < n)%nat -> K X i = reg * X i + rsum p (fun r => A r i * X (n + r)%nat)
            + rsum (nl + fold_right Nat.add 0%nat q) (fun r => G r i * X (n + p + ext_row nl q r)%nat);
  kkt_y : forall X r, (r < p)%nat -> K X (n + r)%nat = rsum n (fun i => A r i * X i) - reg * X (n + r)%nat;
  kkt_lp : forall X r, (r < nl)%nat -> K X (n + p + r)%nat = rsum n (fun i => G r i * X i) - (w2 r + reg) * X (n + p + r)%nat;
  kkt_soc : forall X k m b, nth_error q k = Some m -> nth_error bs k = Some b ->
    let e := (n + p + ext_start nl q k)%nat in let Z := fun j => X (e + j)%nat in
    (forall j, (j < m)%nat -> K X (e + j)%nat = rsum n (fun i => G (blk_start nl q k + j)%nat i * X i) - reg * Z j - block_arrow m b Z j) /\
    K X (e + m)%nat = - block_arrow m b Z m /\
    K X (e + m + 1)%nat = reg * Z (m + 1)%nat - block_arrow m b Z (m + 1)%nat }.

(** Columns of the stored matrices: no duplicate and no out-of-range row; every block has at least one row. *)
Definition col_ok (n : nat) (l : list (nat * R)) : Prop := NoDup (map fst l) /\ forall e, In e l -> (fst e < n)%nat.
(** Number of rows of the extended system. *)
Definition ext_size (n p nl : nat) (q : list nat) : nat := (n + p + (nl + fold_right Nat.add 0%nat q + 2 * length q))%nat.

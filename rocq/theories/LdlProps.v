(** * C16: the sparse LDL' factorisation and solve *)
From Coq Require Import Reals List Arith Bool Lia Lra.
From Verif Require Import Base LdlModel LdlSpec LdlProofs LdlProofs2 LdlProofs3.
Import ListNotations.
Open Scope R_scope.

(** C16.  For every order n, every symmetric matrix A given by its upper triangle, every vector of signs +1/-1, every
    regularisation eps >= 0, delta > 0, every matrix A0 of the same sparsity pattern analysed before, every content of the
    work arrays (fresh or left by any earlier factorisation) and every right-hand side b: analyzePattern, factorize and solve terminate without an out-of-range access; L D L' = A + diag(E) with L unit lower triangular, D without
    zeros, E k = 0 unless the pivot D k - E k has the wrong sign or is at most eps (then the pivot is sign k * delta);
    and the returned x is the one and only solution of (A + diag(E)) x = b. *)
Theorem C16_factorise_and_solve : forall n A0 A sign eps delta y0 s0 b,
  upper n A -> (forall k, (k < n)%nat -> map fst (A k) = map fst (A0 k)) -> 0 <= eps -> 0 < delta -> (forall k, (k < n)%nat -> sign k = 1 \/ sign k = -1) ->
  exists x s L E, ldl_run n A0 A sign eps delta y0 s0 b = Ok (x, s) /\ unit_lower n L /\
    (forall i j, (i < n)%nat -> (j < n)%nat -> LDLt n L (m_D s) i j = symm A i j + (if Nat.eqb i j then E i else 0)) /\
    (forall k, (k < n)%nat -> m_D s k <> 0 /\ regularised (sign k) eps delta (m_D s k - E k) (m_D s k)) /\
    (forall i, (i < n)%nat -> mulv n (fun i j => symm A i j + (if Nat.eqb i j then E i else 0)) x i = b i) /\
    (forall x', (forall i, (i < n)%nat -> mulv n (fun i j => symm A i j + (if Nat.eqb i j then E i else 0)) x' i = b i) ->
       forall i, (i < n)%nat -> x' i = x i).
Proof.
  intros n A0 A sign eps delta y0 s0 b HA HP He Hd Hs. destruct (ldl_run_correct n A0 A sign eps delta y0 s0 b HA HP He Hd Hs) as (x & s & L & E & R & HL & HF & HD & HS).
  exists x, s, L, E. assert (M : forall v i, (i < n)%nat -> mulv n (fun i j => symm A i j + (if Nat.eqb i j then E i else 0)) v i = mulv n (LDLt n L (m_D s)) v i).
  { intros v i Hi. unfold mulv. apply BaseProofs.rsum_ext. intros j Hj. rewrite HF by assumption. reflexivity. }
  repeat split; auto; try (now apply HL); try (now apply HD).
  - intros i Hi. rewrite M by assumption. now apply HS.
  - intros x' Hx' i Hi. apply (LDLt_inj n L (m_D s)); auto. { intros k Hk. apply HD. assumption. }
    intros j Hj. rewrite <- M by assumption. rewrite Hx' by assumption. symmetry. apply HS. assumption.
Qed.
Print Assumptions C16_factorise_and_solve.

(** The hypotheses hold of a KKT-like matrix with fill-in: [2 1 1; 1 -1 0; 1 0 -1], signs +,-,-. *)
Definition ex_A : smatrix := fun k => match k with O => [(0%nat, 2)] | 1%nat => [(0%nat, 1); (1%nat, -1)] | 2%nat => [(0%nat, 1); (2%nat, -1)] | _ => [] end.
Example ex_upper : upper 3 ex_A.
Proof.
  intros k Hk. destruct k as [|[|[|k]]]; [| | |lia]; simpl; split; try (repeat constructor; simpl; intuition lia);
  intros r v H; repeat (destruct H as [H|H]; [injection H as <- _; lia|]); destruct H.
Qed.
Example ex_pattern : forall y0, match analyze 3 ex_A y0 with Ok y => y_parent y 0%nat = Some 1%nat /\ y_parent y 1%nat = Some 2%nat /\ y_lnnz y 0%nat = 2%nat /\ y_lnnz y 1%nat = 1%nat | _ => False end.
Proof. intros y0. vm_compute. auto. Qed.

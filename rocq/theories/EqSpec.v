(** * Specification for C09: the standard conic program, its dual and its homogeneous (tau) form. *)
From Coq Require Import Reals List Arith Bool.
From Verif Require Import ConicModel ConicSpec EqModel.
Import ListNotations.
Open Scope R_scope.

(** Transposed product. *)
Definition tmatvec (T : list (nat * nat * R)) (y : nat -> R) (c : nat) : R :=
  sumR (map (fun t => match t with (r, c', v) => if Nat.eqb c' c then v * y r else 0 end) T).
Definition dot (n : nat) (a b : nat -> R) : R := sumR (map (fun i => a i * b i) (seq 0 n)).

(** The product cone R+^nl x SOC(q1) x ... *)
Definition in_cone (nl : nat) (q : list nat) (v : nat -> R) : Prop :=
  (forall r, (r < nl)%nat -> 0 <= v r) /\ in_socs v nl q.

(** Primal and dual conditions at embedding parameter tau (tau = 1: the problem itself). *)
Definition primal_ok (nl : nat) (q : list nat) (s : storage) (tau : R) (x sl : nat -> R) : Prop :=
  (forall r, (r < s_me s)%nat -> matvec (s_A s) x r = tau * s_b s r) /\
  (forall r, (r < s_m s)%nat -> matvec (s_G s) x r + sl r = tau * s_h s r) /\
  in_cone nl q sl.
Definition dual_ok (nl : nat) (q : list nat) (s : storage) (tau : R) (y z : nat -> R) : Prop :=
  (forall c, (c < s_n s)%nat -> tmatvec (s_A s) y c + tmatvec (s_G s) z c + tau * s_c s c = 0) /\
  in_cone nl q z.

(** Two storages hold the same data (entries listed in the same order, vectors equal everywhere). *)
Definition same_data (s t : storage) : Prop :=
  s_n s = s_n t /\ s_me s = s_me t /\ s_m s = s_m t /\ s_A s = s_A t /\ s_G s = s_G t /\
  (forall i, s_b s i = s_b t i) /\ (forall i, s_h s i = s_h t i) /\ (forall i, s_c s i = s_c t i).

Definition optimal (nl : nat) (q : list nat) (s : storage) (x : nat -> R) : Prop :=
  std_feasible nl q s x /\ forall y, std_feasible nl q s y -> std_objective s x <= std_objective s y.

(** * C01: properties of expressions *)
From Coq Require Import Reals List Arith Lra.
From Verif Require Import ExprsModel ExprsSpec ExprsProofs.
Import ListNotations.
Open Scope R_scope.

(** C01. Every expression-building program evaluates to ordinary arithmetic, mentions only variables the
    program mentions, and mentions none of them twice. *)
Theorem C01_expression_algebra :
  forall (u : uexp) (env : nat -> R),
    udivs_ok u ->
    le_value env (ubuild u) = umean env u
    /\ (forall c, In c (map fst (le_terms (ubuild u))) -> In c (uvars u))
    /\ NoDup (map fst (le_terms (ubuild u))).
Proof. exact (fun u env H => conj (ubuild_correct u env H) (conj (ubuild_vars u) (ubuild_nodup u))). Qed.
Print Assumptions C01_expression_algebra.

(** Non-vacuity: a program with repeated variables, cancellation and a division. *)
Example C01_nonvacuous :
  udivs_ok (UDiv (USub (UAdd (UVar 0) (UVarScaled 1 3)) (UAddV (UVarScaled 0 2) 1)) 2).
Proof. simpl; repeat split; lra. Qed.

(** C01. clean() preserves the value of every expression (also one with duplicates) and removes duplicates. *)
Theorem C01_clean_preserves :
  forall (e : linexpr) (env : nat -> R),
    le_value env (le_clean e) = le_value env e /\ NoDup (map fst (le_terms (le_clean e))).
Proof. exact (fun e env => conj (le_clean_value env e) (le_clean_nodup e)). Qed.
Print Assumptions C01_clean_preserves.

(** C01 (finding F6). [clean] does not establish [isClean]: cancelled terms stay with coefficient 0. *)
Theorem C01_clean_isClean_refuted :
  exists e : linexpr, le_isClean (le_clean e) = false.
Proof. exact (ex_intro _ _ isClean_clean_counter). Qed.
Print Assumptions C01_clean_isClean_refuted.

(** C01 (finding F7). [e += e] never terminates as soon as [e] contains a variable: after any number of
    loop iterations the loop is still running. *)
Theorem C01_self_addition_terminates_refuted :
  forall ts : list (nat * R), ts <> [] -> forall fuel, le_self_loop fuel 0 ts = None.
Proof.
  exact (fun ts Hne fuel => self_loop_runs fuel 0 ts
    (match ts as l return l <> [] -> (0 < length l)%nat with
     | [] => fun H => False_ind _ (H eq_refl) | _ :: l => fun _ => Nat.lt_0_succ (length l) end Hne)).
Qed.
Print Assumptions C01_self_addition_terminates_refuted.

(** C01 for quadratic expressions: getValue is the sum of the weighted squares, the linear part excluded. *)
Theorem C01_quadratic_value :
  forall (q : quadexpr) (env : nat -> R),
    q_value env q = quad_meaning (map (fun t => (fst t, le_value env (snd t))) (q_terms q)) 0.
Proof. exact (fun q env => q_value_meaning env q). Qed.
Print Assumptions C01_quadratic_value.

Theorem C01_addQuaTerm :
  forall (q : quadexpr) (a : R) (l : linexpr) (env : nat -> R),
    q_value env (q_addQua q a l) = q_value env q + a * (le_value env l * le_value env l).
Proof. exact (fun q a l env => q_addQua_value env q a l). Qed.
Print Assumptions C01_addQuaTerm.

(** C01 (finding). The documented value sum_i (..)^2 + (c x + d) of a quadratic expression is NOT what
    getValue returns: the linear part is ignored. *)
Theorem C01_quadratic_documented_value_refuted :
  exists (q : quadexpr) (env : nat -> R),
    q_value env q <> quad_meaning (map (fun t => (fst t, le_value env (snd t))) (q_terms q))
                                  (le_value env (q_lexpr q)).
Proof.
  exact (ex_intro _ (q_addLin q_empty (le_of_const 1)) (ex_intro _ (fun _ => 0)
    (fun H : 0 = 0 + 1 => R1_neq_R0 (eq_sym (eq_trans H (Rplus_0_l 1)))))).
Qed.
Print Assumptions C01_quadratic_documented_value_refuted.

(** * Interpolation of degree six through two rest points and a middle point *)
From Coq Require Import Reals Arith ZArith Lia Lra Psatz Field.
From Verif Require Import Base BaseProofs.
Local Open Scope R_scope.

(** Value, first and second derivative of the polynomial with coefficients c 0, ..., c (n-1). *)
Definition pval (n : nat) (c : nat -> R) (t : R) : R := rsum n (fun i => c i * t ^ i).
Definition pder (n : nat) (c : nat -> R) (t : R) : R := rsum n (fun i => c i * (INR i * t ^ (i - 1))).
Definition pder2 (n : nat) (c : nat -> R) (t : R) : R := rsum n (fun i => c i * (INR i * INR (i - 1) * t ^ (i - 2))).
Definition rest_to_rest (c : nat -> R) (t0 t1 x0 v x1 : R) : Prop :=
  pval 7 c t0 = x0 /\ pval 7 c (/ 2 * (t0 + t1)) = v /\ pval 7 c t1 = x1 /\ pder 7 c t0 = 0 /\ pder 7 c t1 = 0 /\ pder2 7 c t0 = 0 /\ pder2 7 c t1 = 0.
(** The minimum jerk profile and the bump of a via point. *)
Definition quintic (s : R) : R := 10 * s ^ 3 - 15 * s ^ 4 + 6 * s ^ 5.
Definition bump (s : R) : R := 64 * s ^ 3 * (1 - s) ^ 3.

Lemma pval7 : forall c t, pval 7 c t = c 0%nat + c 1%nat * t + c 2%nat * t^2 + c 3%nat * t^3 + c 4%nat * t^4 + c 5%nat * t^5 + c 6%nat * t^6.
Proof. intros. unfold pval. cbn [rsum]. ring. Qed.
Lemma pder7 : forall c t, pder 7 c t = c 1%nat + 2 * c 2%nat * t + 3 * c 3%nat * t^2 + 4 * c 4%nat * t^3 + 5 * c 5%nat * t^4 + 6 * c 6%nat * t^5.
Proof. intros. unfold pder. cbn [rsum Nat.sub INR]. ring. Qed.
Lemma pder27 : forall c t, pder2 7 c t = 2 * c 2%nat + 6 * c 3%nat * t + 12 * c 4%nat * t^2 + 20 * c 5%nat * t^3 + 30 * c 6%nat * t^4.
Proof. intros. unfold pder2. cbn [rsum Nat.sub INR]. ring. Qed.

Lemma hermite : forall c t0 t1 x0 v x1, t0 <> t1 -> rest_to_rest c t0 t1 x0 v x1 ->
  forall t, let s := (t - t0) / (t1 - t0) in pval 7 c t = x0 + (x1 - x0) * quintic s + (v - / 2 * (x0 + x1)) * bump s.
Proof.
  intros c t0 t1 x0 v x1 Hne (P0 & Pm & P1 & D0 & D1 & E0 & E1) t s.
  rewrite !pval7 in *. rewrite !pder7 in *. rewrite !pder27 in *.
  set (h := t1 - t0) in *. assert (Hh : h <> 0) by (unfold h; lra).
  set (c0 := c 0%nat) in *. set (c1 := c 1%nat) in *. set (c2 := c 2%nat) in *. set (c3 := c 3%nat) in *. set (c4 := c 4%nat) in *. set (c5 := c 5%nat) in *. set (c6 := c 6%nat) in *.
  (* coefficients in s *)
  set (q3 := h^3 * (c3 + 4 * c4 * t0 + 10 * c5 * t0^2 + 20 * c6 * t0^3)).
  set (q4 := h^4 * (c4 + 5 * c5 * t0 + 15 * c6 * t0^2)).
  set (q5 := h^5 * (c5 + 6 * c6 * t0)).
  set (q6 := h^6 * c6).
  assert (F : forall u, c0 + c1 * (t0 + h * u) + c2 * (t0 + h * u)^2 + c3 * (t0 + h * u)^3 + c4 * (t0 + h * u)^4 + c5 * (t0 + h * u)^5 + c6 * (t0 + h * u)^6
     = x0 + q3 * u^3 + q4 * u^4 + q5 * u^5 + q6 * u^6).
  { intros u. rewrite <- P0. transitivity ((c0 + c1 * t0 + c2 * t0^2 + c3 * t0^3 + c4 * t0^4 + c5 * t0^5 + c6 * t0^6)
      + h * u * (c1 + 2 * c2 * t0 + 3 * c3 * t0 ^ 2 + 4 * c4 * t0 ^ 3 + 5 * c5 * t0 ^ 4 + 6 * c6 * t0 ^ 5)
      + / 2 * h^2 * u^2 * (2 * c2 + 6 * c3 * t0 + 12 * c4 * t0 ^ 2 + 20 * c5 * t0 ^ 3 + 30 * c6 * t0 ^ 4)
      + q3 * u^3 + q4 * u^4 + q5 * u^5 + q6 * u^6); [unfold q3, q4, q5, q6; field|]. rewrite D0, E0. ring. }
  assert (A1 : q3 + q4 + q5 + q6 = x1 - x0).
  { pose proof (F 1) as X. replace (t0 + h * 1) with t1 in X by (unfold h; ring). rewrite P1 in X. lra. }
  assert (A2 : 3 * q3 + 4 * q4 + 5 * q5 + 6 * q6 = 0).
  { transitivity (h * (c1 + 2 * c2 * t1 + 3 * c3 * t1 ^ 2 + 4 * c4 * t1 ^ 3 + 5 * c5 * t1 ^ 4 + 6 * c6 * t1 ^ 5)
       - h * (c1 + 2 * c2 * t0 + 3 * c3 * t0 ^ 2 + 4 * c4 * t0 ^ 3 + 5 * c5 * t0 ^ 4 + 6 * c6 * t0 ^ 5)
       - h^2 * (2 * c2 + 6 * c3 * t0 + 12 * c4 * t0 ^ 2 + 20 * c5 * t0 ^ 3 + 30 * c6 * t0 ^ 4)); [|rewrite D0, D1, E0; ring].
    unfold q3, q4, q5, q6. replace t1 with (t0 + h) by (unfold h; ring). ring. }
  assert (A3 : 6 * q3 + 12 * q4 + 20 * q5 + 30 * q6 = 0).
  { transitivity (h^2 * (2 * c2 + 6 * c3 * t1 + 12 * c4 * t1 ^ 2 + 20 * c5 * t1 ^ 3 + 30 * c6 * t1 ^ 4)
       - h^2 * (2 * c2 + 6 * c3 * t0 + 12 * c4 * t0 ^ 2 + 20 * c5 * t0 ^ 3 + 30 * c6 * t0 ^ 4)); [|rewrite E0, E1; ring].
    unfold q3, q4, q5, q6. replace t1 with (t0 + h) by (unfold h; ring). ring. }
  assert (A4 : q3 * (/ 2)^3 + q4 * (/ 2)^4 + q5 * (/ 2)^5 + q6 * (/ 2)^6 = v - x0).
  { pose proof (F (/ 2)) as X. replace (t0 + h * / 2) with (/ 2 * (t0 + t1)) in X by (unfold h; field). rewrite Pm in X. lra. }
  assert (B6 : q6 = - 64 * (v - / 2 * (x0 + x1))) by lra.
  assert (B5 : q5 = 6 * (x1 - x0) + 192 * (v - / 2 * (x0 + x1))) by lra.
  assert (B4 : q4 = -15 * (x1 - x0) - 192 * (v - / 2 * (x0 + x1))) by lra.
  assert (B3 : q3 = 10 * (x1 - x0) + 64 * (v - / 2 * (x0 + x1))) by lra.
  replace t with (t0 + h * s) by (unfold s; fold h; field; exact Hh). rewrite F, B3, B4, B5, B6. unfold quintic, bump. ring.
Qed.
(** Coefficients that satisfy the seven conditions exist for t0 <> t1 ... *)
Definition from_s (t0 h : R) (q : nat -> R) : nat -> R := fun i =>
  let u := - t0 in let p k := q k / h ^ k in
  match i with
  | 0%nat => p 0%nat + p 1%nat * u + p 2%nat * u^2 + p 3%nat * u^3 + p 4%nat * u^4 + p 5%nat * u^5 + p 6%nat * u^6
  | 1%nat => p 1%nat + 2 * p 2%nat * u + 3 * p 3%nat * u^2 + 4 * p 4%nat * u^3 + 5 * p 5%nat * u^4 + 6 * p 6%nat * u^5
  | 2%nat => p 2%nat + 3 * p 3%nat * u + 6 * p 4%nat * u^2 + 10 * p 5%nat * u^3 + 15 * p 6%nat * u^4
  | 3%nat => p 3%nat + 4 * p 4%nat * u + 10 * p 5%nat * u^2 + 20 * p 6%nat * u^3
  | 4%nat => p 4%nat + 5 * p 5%nat * u + 15 * p 6%nat * u^2
  | 5%nat => p 5%nat + 6 * p 6%nat * u
  | _ => p 6%nat
  end.
Lemma from_s_val : forall t0 h q t, h <> 0 -> pval 7 (from_s t0 h q) t = pval 7 q ((t - t0) / h).
Proof. intros. rewrite !pval7. unfold from_s. field. exact H. Qed.
Lemma from_s_der : forall t0 h q t, h <> 0 -> pder 7 (from_s t0 h q) t = pder 7 q ((t - t0) / h) / h.
Proof. intros. rewrite !pder7. unfold from_s. field. exact H. Qed.
Lemma from_s_der2 : forall t0 h q t, h <> 0 -> pder2 7 (from_s t0 h q) t = pder2 7 q ((t - t0) / h) / h ^ 2.
Proof. intros. rewrite !pder27. unfold from_s. field. exact H. Qed.
(** ... for all right hand sides of the seven conditions. *)
Lemma unisolvent : forall t0 t1 b, t0 <> t1 -> exists c,
  pval 7 c t0 = b 0%nat /\ pval 7 c (/ 2 * (t0 + t1)) = b 1%nat /\ pval 7 c t1 = b 2%nat /\ pder 7 c t0 = b 3%nat /\ pder 7 c t1 = b 4%nat /\ pder2 7 c t0 = b 5%nat /\ pder2 7 c t1 = b 6%nat.
Proof.
  intros t0 t1 b H. set (h := t1 - t0). assert (Hh : h <> 0) by (unfold h; lra).
  set (q0 := b 0%nat). set (q1 := h * b 3%nat). set (q2 := / 2 * h^2 * b 5%nat).
  set (r1 := b 2%nat - q0 - q1 - q2). set (r2 := h * b 4%nat - q1 - 2 * q2). set (r3 := h^2 * b 6%nat - 2 * q2). set (r4 := b 1%nat - q0 - q1 * / 2 - q2 * (/ 2)^2).
  (* q3+q4+q5+q6 = r1; 3,4,5,6 -> r2; 6,12,20,30 -> r3; 1/8.. -> r4 *)
  set (m := 64 * r4 - 32 * r1 + 10 * r2 - r3).
  set (q6 := - (64 * r4 - 32 * r1 + 10 * r2 - r3)).
  exists (from_s t0 h (fun i => match i with 0%nat => q0 | 1%nat => q1 | 2%nat => q2
     | 3%nat => 10 * r1 - 4 * r2 + / 2 * r3 - q6 | 4%nat => -15 * r1 + 7 * r2 - r3 + 3 * q6 | 5%nat => 6 * r1 - 3 * r2 + / 2 * r3 - 3 * q6 | _ => q6 end)).
  rewrite !from_s_val, !from_s_der, !from_s_der2 by exact Hh.
  replace ((t0 - t0) / h) with 0 by (field; exact Hh). replace ((t1 - t0) / h) with 1 by (unfold h; field; lra).
  replace ((/ 2 * (t0 + t1) - t0) / h) with (/ 2) by (unfold h; field; lra).
  rewrite !pval7, !pder7, !pder27. repeat split.
  - unfold q0. ring.
  - unfold q6, r4, r3, r2, r1. field.
  - unfold q6, r1. field.
  - unfold q1. field. exact Hh.
  - apply Rmult_eq_reg_l with h; [|exact Hh]. transitivity (q1 + 2 * q2 + r2); [unfold q6; field; exact Hh | unfold r2; ring].
  - unfold q2. field. exact Hh.
  - apply Rmult_eq_reg_l with (h ^ 2); [|apply pow_nonzero; exact Hh]. transitivity (2 * q2 + r3); [unfold q6; field; exact Hh | unfold r3; ring].
Qed.
(** Only zero coefficients satisfy the homogeneous conditions. *)
Lemma homogeneous : forall c t0 t1, t0 <> t1 -> rest_to_rest c t0 t1 0 0 0 -> forall i, (i < 7)%nat -> c i = 0.
Proof.
  intros c t0 t1 Hne H.
  assert (Z : forall t, pval 7 c t = 0). { intros t. rewrite (hermite c t0 t1 0 0 0 Hne H t). ring. }
  pose proof (Z 0) as a0. pose proof (Z 1) as a1. pose proof (Z (-1)) as a2. pose proof (Z 2) as a3. pose proof (Z (-2)) as a4. pose proof (Z 3) as a5. pose proof (Z (-3)) as a6.
  rewrite pval7 in *. intros i Hi. do 7 (destruct i as [|i]; [lra|]). lia.
Qed.
Lemma quintic_bounds : forall s, 0 <= s <= 1 -> 0 <= quintic s <= 1.
Proof.
  intros s H. unfold quintic. split.
  - replace (10 * s ^ 3 - 15 * s ^ 4 + 6 * s ^ 5) with (s^3 * (10 - 15 * s + 6 * s^2)) by ring. apply Rmult_le_pos; [apply pow_le; lra|]. nra.
  - replace (10 * s ^ 3 - 15 * s ^ 4 + 6 * s ^ 5) with (1 - (1 - s)^3 * (10 - 15 * (1 - s) + 6 * (1 - s)^2)) by ring.
    assert (0 <= (1 - s)^3 * (10 - 15 * (1 - s) + 6 * (1 - s)^2)). { apply Rmult_le_pos; [apply pow_le; lra|]. nra. } lra.
Qed.
Lemma quintic_mono : forall a b, 0 <= a -> a <= b -> b <= 1 -> quintic a <= quintic b.
Proof.
  intros a b Ha Hab Hb. unfold quintic.
  assert (D : forall s, derivable_pt_lim (fun s => 10 * s ^ 3 - 15 * s ^ 4 + 6 * s ^ 5) s (30 * s^2 * (1 - s)^2)).
  { intros s. replace (30 * s^2 * (1 - s)^2) with (10 * (INR 3 * s ^ 2) - 15 * (INR 4 * s ^ 3) + 6 * (INR 5 * s ^ 4)) by (cbn [INR]; ring).
    apply derivable_pt_lim_plus. apply derivable_pt_lim_minus. all: apply derivable_pt_lim_scal; apply derivable_pt_lim_pow. }
  set (f := fun s => 10 * s ^ 3 - 15 * s ^ 4 + 6 * s ^ 5) in *. change (f a <= f b).
  assert (pr : derivable f) by (intros s; exists (30 * s^2 * (1 - s)^2); apply D).
  destruct (Req_dec a b) as [->|N]; [lra|].
  apply (derive_increasing_interv_var a b f pr); try lra.
  intros s Hs. rewrite (derive_pt_eq_0 f s (30 * s^2 * (1 - s)^2) (pr s) (D s)). repeat apply Rmult_le_pos; try apply pow2_ge_0; lra.
Qed.

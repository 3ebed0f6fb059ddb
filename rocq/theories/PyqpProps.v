(** * C41: the Python QP wrapper *)
From Coq Require Import Reals List Arith Bool Lia Lra Psatz.
Import ListNotations.
From Verif Require Import Base BaseProofs PyqpModel PyqpSpec.
Local Open Scope R_scope.

Lemma dotv_opp : forall n a x, dotv n (fun i => - a i) x = - dotv n a x.
Proof. intros. unfold dotv. replace (- rsum n (fun i => a i * x i)) with (-1 * rsum n (fun i => a i * x i)) by ring. rewrite <- rsum_scal. apply rsum_ext. intros. ring. Qed.
Lemma dotv_ext : forall n a b x, (forall i, (i < n)%nat -> a i = b i) -> dotv n a x = dotv n b x.
Proof. intros n a b x H. apply rsum_ext. intros i Hi. rewrite H by exact Hi. reflexivity. Qed.
Lemma qobj_ext : forall n M N c d x, (forall i j, (i < n)%nat -> (j < n)%nat -> M i j = N i j) -> (forall i, (i < n)%nat -> c i = d i) -> qobj n M c x = qobj n N d x.
Proof. intros n M N c d x H K. unfold qobj. f_equal; [f_equal|apply dotv_ext; exact K]. apply rsum_ext. intros i Hi. apply rsum_ext. intros j Hj. rewrite H by assumption. reflexivity. Qed.
Lemma lower_sym : forall n P, symmetric n P -> forall i j, (i < n)%nat -> (j < n)%nat -> lower P i j = P i j.
Proof. intros n P S i j Hi Hj. unfold lower. destruct (j <=? i)%nat; [reflexivity|]. now apply S. Qed.

(** What is passed to quadprog, in each of the four cases. *)
Lemma wrapper_cases : forall sq P q G h A b, qp_shapes P q G h A b ->
  exists Cb meq, quadprog_solve_qp sq P q G h A b = sq P (pvneg q) Cb meq /\ dual_shapes P (pvneg q) Cb meq /\ (forall y, dual_feasible (pr P) Cb meq y <-> qp_feasible (pr P) G h A b y).
Proof.
  intros sq P q G h A b (S1 & S2 & SG & SA). unfold quadprog_solve_qp. destruct A as [A|], G as [G|].
  - destruct (SG G eq_refl) as (G1 & h0 & -> & G2). destruct (SA A eq_refl) as (A1 & b0 & -> & A2). unfold vstack. rewrite A1, G1, Nat.eqb_refl. cbn [bind].
    eexists _, _. split; [reflexivity|]. split; [split; [exact S1|]; split; [exact S2|]; cbn; lia|].
    intros y. unfold qp_feasible, dual_feasible. cbn [pc ptr pneg pr pa pe pvneg hstack]. split.
    + intros H. split.
      * intros G' h' E1 E2 i Hi. injection E1 as <-. injection E2 as <-. specialize (H (pr A + i)%nat ltac:(lia)). cbv zeta in H.
        rewrite (proj2 (Nat.ltb_ge (pr A + i) (pr A)) ltac:(lia)) in H. rewrite (proj2 (Nat.ltb_ge (pr A + i) (pl b0)) ltac:(lia)) in H.
        rewrite dotv_opp in H. replace (pr A + i - pr A)%nat with i in H by lia. replace (pr A + i - pl b0)%nat with i in H by lia. lra.
      * intros A' b' E1 E2 i Hi. injection E1 as <-. injection E2 as <-. specialize (H i ltac:(lia)). cbv zeta in H.
        rewrite (proj2 (Nat.ltb_lt i (pr A)) ltac:(lia)) in H. rewrite (proj2 (Nat.ltb_lt i (pl b0)) ltac:(lia)) in H. rewrite dotv_opp in H. lra.
    + intros (H1 & H2) k Hk. destruct (Nat.ltb_spec k (pr A)) as [L|L].
      * rewrite (proj2 (Nat.ltb_lt k (pl b0)) ltac:(lia)). rewrite dotv_opp. rewrite (H2 A b0 eq_refl eq_refl k L). reflexivity.
      * rewrite (proj2 (Nat.ltb_ge k (pl b0)) ltac:(lia)). rewrite dotv_opp. pose proof (H1 G h0 eq_refl eq_refl (k - pr A)%nat ltac:(lia)). rewrite A2. lra.
  - destruct (SA A eq_refl) as (A1 & b0 & -> & A2). eexists _, _. split; [reflexivity|]. split; [split; [exact S1|]; split; [exact S2|]; cbn; lia|].
    intros y. unfold qp_feasible, dual_feasible. cbn [pc ptr pneg pr pa pe pvneg]. split.
    + intros H. split; [discriminate|]. intros A' b' E1 E2 i Hi. injection E1 as <-. injection E2 as <-. specialize (H i Hi). cbv zeta in H. rewrite (proj2 (Nat.ltb_lt i (pr A)) Hi) in H. rewrite dotv_opp in H. lra.
    + intros (_ & H) k Hk. rewrite (proj2 (Nat.ltb_lt k (pr A)) Hk). rewrite dotv_opp, (H A b0 eq_refl eq_refl k Hk). reflexivity.
  - destruct (SG G eq_refl) as (G1 & h0 & -> & G2). eexists _, _. split; [reflexivity|]. split; [split; [exact S1|]; split; [exact S2|]; cbn; lia|].
    intros y. unfold qp_feasible, dual_feasible. cbn [pc ptr pneg pr pa pe pvneg]. split.
    + intros H. split; [|discriminate]. intros G' h' E1 E2 i Hi. injection E1 as <-. injection E2 as <-. specialize (H i Hi). cbv zeta in H. cbn [Nat.ltb Nat.leb] in H. rewrite dotv_opp in H. lra.
    + intros (H & _) k Hk. cbn [Nat.ltb Nat.leb]. rewrite dotv_opp. pose proof (H G h0 eq_refl eq_refl k Hk). lra.
  - eexists _, _. split; [reflexivity|]. split; [split; [exact S1|]; split; [exact S2|exact I]|]. intros y. unfold qp_feasible, dual_feasible. split; [|tauto]. intros _. split; discriminate.
Qed.
(** What the wrapper returns solves the problem it documents: it minimises 1/2 x'Px + q'x over Gx <= h, Ax = b, for every combination of given and missing constraints. *)
Theorem C41_solution : forall sq P q G h A b x, quadprog_sound sq -> symmetric (pr P) (pa P) -> qp_shapes P q G h A b -> quadprog_solve_qp sq P q G h A b = Ok x ->
  pl x = pr P /\ minimises (qp_feasible (pr P) G h A b) (qobj (pr P) (pa P) (pe q)) (pe x).
Proof.
  intros sq P q G h A b x Hs Sy Sh H. destruct (wrapper_cases sq P q G h A b Sh) as (Cb & meq & E & _ & F). rewrite E in H. apply Hs in H. destruct H as (_ & L & M1 & M2). split; [exact L|].
  assert (O : forall y, qobj (pr P) (lower (pa P)) (fun i => - pe (pvneg q) i) y = qobj (pr P) (pa P) (pe q) y).
  { intros y. apply qobj_ext; [now apply lower_sym|]. intros i _. cbn. ring. }
  split; [now apply F|]. intros y Hy. rewrite <- !O. apply M2. now apply F.
Qed.
Print Assumptions C41_solution.
(** And it finds one whenever P is symmetric positive definite and the constraints can be met. *)
Theorem C41_succeeds : forall sq P q G h A b, quadprog_complete sq -> symmetric (pr P) (pa P) -> positive_definite (pr P) (pa P) -> qp_shapes P q G h A b -> (exists y, qp_feasible (pr P) G h A b y) ->
  exists x, quadprog_solve_qp sq P q G h A b = Ok x.
Proof.
  intros sq P q G h A b Hc Sy Pd Sh (y & Hy). destruct (wrapper_cases sq P q G h A b Sh) as (Cb & meq & E & D & F). rewrite E. apply Hc; [exact D| |exists y; now apply F].
  intros z Hz. specialize (Pd z Hz). erewrite rsum_ext; [exact Pd|]. intros i Hi. apply rsum_ext. intros j Hj. now rewrite (lower_sym _ _ Sy).
Qed.
Print Assumptions C41_succeeds.
(** Two answers for the same problem are equal: the minimiser is unique. *)
Theorem C41_unique : forall n P q G h A b x y, positive_definite n P -> symmetric n P -> minimises (qp_feasible n G h A b) (qobj n P q) x -> minimises (qp_feasible n G h A b) (qobj n P q) y -> forall i, (i < n)%nat -> x i = y i.
Proof.
  intros n P q G h A b x y Pd Sy (Fx & Mx) (Fy & My) i Hi. destruct (Req_dec (x i) (y i)) as [|N]; [assumption|exfalso].
  set (z := fun i => / 2 * (x i + y i)). set (d := fun i => x i - y i).
  assert (Lz : forall a, dotv n a z = / 2 * (dotv n a x + dotv n a y)).
  { intros a. unfold dotv, z. rewrite <- rsum_plus, <- rsum_scal. apply rsum_ext. intros. ring. }
  assert (Fz : qp_feasible n G h A b z).
  { destruct Fx as (X1 & X2), Fy as (Y1 & Y2). split.
    - intros G0 h0 E1 E2 k Hk. rewrite Lz. pose proof (X1 G0 h0 E1 E2 k Hk). pose proof (Y1 G0 h0 E1 E2 k Hk). lra.
    - intros A0 b0 E1 E2 k Hk. rewrite Lz. rewrite (X2 A0 b0 E1 E2 k Hk), (Y2 A0 b0 E1 E2 k Hk). lra. }
  pose proof (Pd d) as D. assert (Hd : exists i, (i < n)%nat /\ d i <> 0) by (exists i; split; [exact Hi|unfold d; lra]). specialize (D Hd).
  set (B := fun u v => rsum n (fun i => rsum n (fun j => u i * P i j * v j))).
  assert (Q : qobj n P q z = / 2 * qobj n P q x + / 2 * qobj n P q y - / 8 * B d d).
  { unfold qobj. rewrite Lz. fold (B z z) (B x x) (B y y).
    assert (Bz : B z z = / 2 * B x x + / 2 * B y y - / 4 * B d d).
    { unfold B. rewrite <- !rsum_scal. rewrite <- rsum_plus, <- rsum_minus. apply rsum_ext. intros k Hk. rewrite <- !rsum_scal. rewrite <- rsum_plus, <- rsum_minus. apply rsum_ext. intros j Hj. unfold z, d. field. }
    rewrite Bz. field. }
  pose proof (Mx z Fz). pose proof (Mx y Fy). pose proof (My x Fx). fold (B d d) in D. lra.
Qed.
Print Assumptions C41_unique.
(** P must be symmetric: of any other matrix the wrapper silently uses the lower triangle. *)
Theorem C41_nonsymmetric_refuted : exists P q y, pr P = 2%nat /\ pc P = 2%nat /\ pl q = 2%nat /\ positive_definite 2 (pa P) /\
  forall sq x, quadprog_sound sq -> quadprog_solve_qp sq P q None None None None = Ok x -> qobj 2 (pa P) (pe q) y < qobj 2 (pa P) (pe q) (pe x).
Proof.
  exists (PM 2 2 (fun i j => if (i =? j)%nat then 2 else if (i =? 0)%nat then 2 else 0)), (PV 2 (fun i => if (i =? 0)%nat then -1 else 0)), (fun i => if (i =? 0)%nat then 2 / 3 else - / 3).
  split; [reflexivity|]. split; [reflexivity|]. split; [reflexivity|]. split.
  - intros x (i & Hi & Nz). cbn. assert (x 0%nat <> 0 \/ x 1%nat <> 0) as [N|N] by (destruct i as [|[|]]; [now left|now right|lia]).
    + assert (0 < x 0%nat * x 0%nat) by nra. nra.
    + assert (0 < x 1%nat * x 1%nat) by nra. nra.
  - intros sq x Hs H. unfold quadprog_solve_qp in H. apply Hs in H. destruct H as (_ & _ & _ & M). cbn [pr] in M.
    pose proof (M (fun i => if (i =? 0)%nat then / 2 else 0) I) as M'. clear M. unfold qobj, dotv, lower in *. cbn in M' |- *.
    set (a := pe x 0%nat) in *. set (b := pe x 1%nat) in *. assert (a * a - a + b * b <= - / 4) by lra. assert (a = / 2) by nra. assert (b = 0) by nra. rewrite H0, H1. lra.
Qed.
Print Assumptions C41_nonsymmetric_refuted.
(** The lengths of b and h are only checked together: a b too long and an h too short shift the right hand sides. *)
Theorem C41_misaligned_refuted : exists P q G h A b, symmetric (pr P) (pa P) /\ positive_definite (pr P) (pa P) /\ pl b = 2%nat /\ pr A = 1%nat /\ pr G = 1%nat /\ pl h = 0%nat /\
  forall sq, quadprog_sound sq -> quadprog_complete sq -> exists x, quadprog_solve_qp sq P q (Some G) (Some h) (Some A) (Some b) = Ok x /\ pe x 0%nat = pe b 0%nat /\ pe x 0%nat <= pe b 1%nat.
Proof.
  exists (PM 1 1 (fun _ _ => 1)), (PV 1 (fun _ => 0)), (PM 1 1 (fun _ _ => 1)), (PV 0 (fun _ => 0)), (PM 1 1 (fun _ _ => 1)), (PV 2 (fun i => if (i =? 0)%nat then 1 else 2)).
  split; [intros i j _ _; reflexivity|]. split; [intros x (i & Hi & N); cbn in *; replace i with 0%nat in N by lia; nra|]. repeat (split; [reflexivity|]). intros sq Hs Hc.
  unfold quadprog_solve_qp, vstack. cbn [pc Nat.eqb bind pr].
  edestruct (Hc (PM 1 1 (fun _ _ => 1))) as (x & Hx); [| | |exists x; split; [exact Hx|]].
  - split; [reflexivity|]. split; [reflexivity|]. cbn. lia.
  - intros x (i & Hi & N). cbn in *. replace i with 0%nat in N by lia. nra.
  - exists (fun _ => 1). intros k Hk. cbn in Hk. destruct k as [|[|]]; cbn; lra || lia.
  - apply Hs in Hx. destruct Hx as (_ & _ & F & _). pose proof (F 0%nat ltac:(cbn; lia)) as F0. pose proof (F 1%nat ltac:(cbn; lia)) as F1. cbn in F0, F1 |- *. lra.
Qed.
Print Assumptions C41_misaligned_refuted.
(** The other entry point always raises. *)
Theorem C41_cvxopt_refuted : forall P q G h A b x, cvxopt_solve_qp P q G h A b <> Ok x.
Proof. intros. discriminate. Qed.
Print Assumptions C41_cvxopt_refuted.

(** ** A solver as assumed exists for a concrete problem: 1/2 x^2 - 3x with x <= 1, and without the constraint. *)
Example C41_demo : qp_shapes (PM 1 1 (fun _ _ => 1)) (PV 1 (fun _ => -3)) (Some (PM 1 1 (fun _ _ => 1))) (Some (PV 1 (fun _ => 1))) None None /\
  minimises (qp_feasible 1 (Some (PM 1 1 (fun _ _ => 1))) (Some (PV 1 (fun _ => 1))) None None) (qobj 1 (fun _ _ => 1) (fun _ => -3)) (fun _ => 1).
Proof.
  split.
  - split; [reflexivity|]. split; [reflexivity|]. split; [|discriminate]. intros G0 E. injection E as <-. split; [reflexivity|]. eexists. split; reflexivity.
  - split.
    + split; [|discriminate]. intros G0 h0 E1 E2 i Hi. injection E1 as <-. injection E2 as <-. unfold dotv. cbn. lra.
    + intros y (H & _). specialize (H _ _ eq_refl eq_refl 0%nat ltac:(cbn; lia)). unfold qobj, dotv in *. cbn in *. nra.
Qed.

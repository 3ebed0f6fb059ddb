(** * Second-order inverse kinematics: priorities *)
From Coq Require Import Reals List Arith Bool Lia Lra ZArith.
Import ListNotations.
From Verif Require Import Base BaseProofs Vec3 PyqpModel PyqpSpec PyqpProps IkModel IkSpec IkProofs MkoModel MkoSpec MkoProofs SoModel SoSpec SoProofs SoPinv.
Local Open Scope R_scope.

Lemma targets : forall (rb : sorobot) st s a s2, so_inv rb s -> update_des_acc rb st (update_kinematics rb s (sa_q a) (sa_dq a)) a = Ok s2 ->
  (forall i, (i < 3)%nat -> so_des s2 i - so_drift s2 i = lin_rate_ref rb st a i - sr_dh rb (sa_q a) (sa_dq a) i /\ so_des s2 (3 + i) - so_drift s2 (3 + i) = ang_rate_ref rb st a i - sr_dh rb (sa_q a) (sa_dq a) (3 + i)) /\
  (forall e c, (e < r_ne rb)%nat -> (c < 3)%nat -> so_des s2 (6 + (e * 3 + c)) - so_drift s2 (6 + (e * 3 + c)) = eff_acc_ref rb st a e c - sr_dv rb (sa_q a) (sa_dq a) e c) /\
  (forall j, (j < r_nv rb - 6)%nat -> so_des s2 ((r_ne rb + 2) * 3 + j) - so_drift s2 ((r_ne rb + 2) * 3 + j) = joint_acc_ref st a j).
Proof.
  intros rb st s a s2 I H. destruct (inv_kin rb s (sa_q a) (sa_dq a) I) as [[_ D0] J1]. remember (update_kinematics rb s (sa_q a) (sa_dq a)) as s1 eqn:Es1.
  unfold update_des_acc in H. destruct (negb _); [discriminate|]. destruct (_ || _)%bool; [discriminate|]. destruct (match sa_joint a with Some _ => _ | None => _ end) as [u| |]; cbn [bind] in H; try discriminate. match type of H with Ok ?v = Ok _ => assert (E2 : s2 = v) by congruence end. clear H. rewrite E2. cbn [so_des so_drift].
  assert (JQ : forall i, (i < 6)%nat -> Jdq rb s1 (sa_dq a) i = momentum_of rb (sa_q a) (entries (sa_dq a)) i). { intros i Hi. unfold Jdq, momentum_of, dotv, entries. rewrite J1. apply rsum_ext. intros j _. unfold J_of. now rewrite (proj2 (Nat.ltb_lt i 6)) by lia. }
  assert (DH : forall i, (i < 6)%nat -> so_drift s1 i = sr_dh rb (sa_q a) (sa_dq a) i). { intros i Hi. rewrite Es1. cbn [update_kinematics so_drift]. now rewrite (proj2 (Nat.ltb_lt i 6)) by lia. }
  split; [|split].
  - intros i Hi. split.
    + rewrite (proj2 (Nat.ltb_lt i 3)) by lia. rewrite DH, JQ by lia. unfold lin_rate_ref, rate_ref. ring.
    + rewrite (proj2 (Nat.ltb_ge (3 + i) 3)) by lia. rewrite (proj2 (Nat.ltb_lt (3 + i) 6)) by lia. rewrite DH, JQ by lia. replace (3 + i - 3)%nat with i by lia. unfold ang_rate_ref, rate_ref, entries. ring.
  - intros e c He Hc. destruct (block_div e c Hc) as (B1 & B2).
    rewrite (proj2 (Nat.ltb_ge (6 + (e * 3 + c)) 3)) by lia. rewrite (proj2 (Nat.ltb_ge (6 + (e * 3 + c)) 6)) by lia. rewrite (proj2 (Nat.ltb_lt (6 + (e * 3 + c)) ((r_ne rb + 2) * 3))) by nia.
    replace (so_drift s1 (6 + (e * 3 + c))) with (sr_dv rb (sa_q a) (sa_dq a) e c).
    2:{ rewrite Es1. cbn [update_kinematics so_drift]. rewrite (proj2 (Nat.ltb_ge (6 + (e * 3 + c)) 6)) by lia. rewrite (proj2 (Nat.ltb_lt (6 + (e * 3 + c)) ((r_ne rb + 2) * 3))) by nia. replace (6 + (e * 3 + c) - 6)%nat with (e * 3 + c)%nat by lia. now rewrite B1, B2. }
    replace (Jdq rb s1 (sa_dq a) (6 + (e * 3 + c))) with (eff_velocity_of rb (sa_q a) e (entries (sa_dq a)) c).
    2:{ unfold Jdq, eff_velocity_of, dotv, entries. rewrite J1. apply rsum_ext. intros j _. now rewrite J_eff. }
    replace (6 + (e * 3 + c) - 6)%nat with (e * 3 + c)%nat by lia. rewrite B1, B2. cbv zeta. unfold eff_acc_ref. ring.
  - intros j Hj. rewrite D0 by lia.
    rewrite (proj2 (Nat.ltb_ge ((r_ne rb + 2) * 3 + j) 3)) by lia. rewrite (proj2 (Nat.ltb_ge ((r_ne rb + 2) * 3 + j) 6)) by lia. rewrite (proj2 (Nat.ltb_ge ((r_ne rb + 2) * 3 + j) ((r_ne rb + 2) * 3))) by lia. unfold nrows. rewrite (proj2 (Nat.ltb_lt ((r_ne rb + 2) * 3 + j) ((r_ne rb + 2) * 3 + (r_nv rb - 6)))) by lia.
    replace ((r_ne rb + 2) * 3 + j - (r_ne rb + 2) * 3)%nat with j by lia. unfold joint_acc_ref, entries. destruct (sa_joint a); ring.
Qed.

Section Hier.
  Variables (rb : sorobot) (q : config).
  Notation ne := (r_ne rb). Notation nv := (r_nv rb).
  Definition nf : nat := Nat.min 12 (nrows rb - 6).
  Lemma nf_is : nf = (3 * Nat.min 4 ne + joints_first rb)%nat.
  Proof. unfold nf, nrows, joints_first. lia. Qed.
  Lemma first_is : same_mat (PM nf nv (fun i j => J_of rb q (6 + i) j)) (first_matrix rb q).
  Proof.
    split; [exact nf_is|]. split; [reflexivity|]. cbn [pr pc pa first_matrix]. intros i j Hi Hj. unfold J_of. rewrite (proj2 (Nat.ltb_ge (6 + i) 6)) by lia. replace (6 + i - 6)%nat with i by lia.
    destruct (Nat.ltb_spec (6 + i) ((ne + 2) * 3)) as [L|L]; destruct (Nat.ltb_spec i (3 * ne)) as [L2|L2]; try lia; [reflexivity|].
    destruct (Nat.leb_spec 6 j) as [G|G]; [|rewrite (proj2 (Nat.eqb_neq j _)) by lia; reflexivity]. destruct (Nat.eqb_spec (6 + i - (ne + 2) * 3) (j - 6)) as [E|E]; destruct (Nat.eqb_spec j (6 + (i - 3 * ne))); lia || reflexivity.
  Qed.
  Variables (st : soset) (a : soarg) (s2 : sost).
  Hypothesis Eq : q = sa_q a.
  Hypothesis Tm : forall i, (i < 3)%nat -> so_des s2 i - so_drift s2 i = lin_rate_ref rb st a i - sr_dh rb (sa_q a) (sa_dq a) i /\ so_des s2 (3 + i) - so_drift s2 (3 + i) = ang_rate_ref rb st a i - sr_dh rb (sa_q a) (sa_dq a) (3 + i).
  Hypothesis Te : forall e c, (e < ne)%nat -> (c < 3)%nat -> so_des s2 (6 + (e * 3 + c)) - so_drift s2 (6 + (e * 3 + c)) = eff_acc_ref rb st a e c - sr_dv rb (sa_q a) (sa_dq a) e c.
  Hypothesis Tj : forall j, (j < nv - 6)%nat -> so_des s2 ((ne + 2) * 3 + j) - so_drift s2 ((ne + 2) * 3 + j) = joint_acc_ref st a j.
  Lemma first_error : forall x, sqerr nf nv (fun i j => J_of rb q (6 + i) j) (fun i => so_des s2 (6 + i)%nat - so_drift s2 (6 + i)%nat) x = eff_error rb st a x + joint_error rb st a x.
  Proof.
    intros x. unfold sqerr, ap. rewrite nf_is. rewrite rsum_split. f_equal.
    - unfold eff_error. rewrite Nat.mul_comm. rewrite rsum_blocks. apply rsum_ext. intros e He. apply rsum_ext. intros c Hc. rewrite Te by lia. f_equal. rewrite (rsum_ext nv _ (fun k => r_Jf rb q e c k * x k)) by (intros; rewrite J_eff by lia; reflexivity). unfold eff_acceleration, eff_velocity_of, dotv. rewrite Eq. ring.
    - unfold joint_error. apply rsum_ext. intros j Hj. assert (N : (ne < 4)%nat) by (unfold joints_first in Hj; lia). replace (6 + (3 * Nat.min 4 ne + j))%nat with ((ne + 2) * 3 + j)%nat by lia. rewrite Tj by (unfold joints_first in Hj; lia). f_equal. f_equal.
      unfold joints_first in Hj. rewrite (rsum_single nv (6 + j)%nat) by (lia || (intros i Hi Ni; unfold J_of; rewrite (proj2 (Nat.ltb_ge ((ne + 2) * 3 + j) 6)) by lia; rewrite (proj2 (Nat.ltb_ge ((ne + 2) * 3 + j) ((ne + 2) * 3))) by lia;
        destruct (Nat.leb_spec 6 i); [|ring]; replace ((ne + 2) * 3 + j - (ne + 2) * 3)%nat with j by lia; destruct (Nat.eqb_spec j (i - 6)); [lia|ring])).
      unfold J_of. rewrite (proj2 (Nat.ltb_ge ((ne + 2) * 3 + j) 6)) by lia. rewrite (proj2 (Nat.ltb_ge ((ne + 2) * 3 + j) ((ne + 2) * 3))) by lia. rewrite (proj2 (Nat.leb_le 6 (6 + j))) by lia.
      replace ((ne + 2) * 3 + j - (ne + 2) * 3)%nat with j by lia. replace (6 + j - 6)%nat with j by lia. rewrite Nat.eqb_refl. ring.
  Qed.
  Lemma second_error : forall x, sqerr 6 nv (J_of rb q) (fun i => so_des s2 i - so_drift s2 i) x = momentum_error rb st a x.
  Proof.
    intros x. unfold sqerr. replace 6%nat with (3 + 3)%nat by lia. rewrite rsum_split. unfold momentum_error.
    assert (E : forall i, (i < 6)%nat -> ap nv (J_of rb q) x i = momentum_of rb q x i) by (intros i Hi; unfold ap, momentum_of, dotv; apply rsum_ext; intros; now rewrite J_mom).
    f_equal; apply rsum_ext; intros i Hi; destruct (Tm i Hi) as [T1 T2]; rewrite ?T1, ?T2, E by lia; unfold momentum_rate; rewrite Eq; f_equal; ring.
  Qed.
  Lemma ap_penrose : forall A P, penrose A P -> (forall x i, (i < pr A)%nat -> ap (pc A) (pa A) (ap (pr A) (pa P) (ap (pc A) (pa A) x)) i = ap (pc A) (pa A) x i) /\ (forall x i, (i < pc A)%nat -> ap (pr A) (pa P) (ap (pc A) (pa A) (ap (pr A) (pa P) x)) i = ap (pr A) (pa P) x i).
  Proof.
    intros A P [[S1 S2] H1 H2 _ _]. split; intros x i Hi.
    - rewrite <- (ap_mul (pr A) (pc A) (pa A) (pa P)), <- (ap_mul (pc A) (pr A) _ (pa A)). unfold ap. apply rsum_ext. intros j Hj. f_equal. exact (H1 i j Hi Hj).
    - rewrite <- (ap_mul (pc A) (pr A) (pa P) (pa A)), <- (ap_mul (pr A) (pc A) _ (pa P)). unfold ap. apply rsum_ext. intros j Hj. f_equal. rewrite <- (H2 i j Hi Hj). unfold mat_mul. rewrite S2. reflexivity.
  Qed.
  Lemma hier_best : forall pinv, exact_pinv pinv rb q -> so_J s2 = J_of rb q -> lexi (fun x => eff_error rb st a x + joint_error rb st a x) (momentum_error rb st a) (pe (hier_solve pinv rb s2)).
  Proof.
    intros pinv X EJ. set (A := PM nf nv (fun i j => J_of rb q (6 + i) j)). destruct (X A first_is) as [PA XB].
    set (B := PM 6 nv (mm nv (J_of rb q) (nul nf (pa A) (pa (pinv A))))).
    destruct (pn_shape _ _ PA) as [SA1 SA2].
    assert (PB : penrose B (pinv B)).
    { apply XB. split; [reflexivity|]. split; [reflexivity|]. cbn [pr pc pa B rest_matrix]. intros i j Hi Hj. unfold mm. apply rsum_ext. intros k Hk. rewrite J_mom by exact Hi. f_equal. unfold nul. f_equal. unfold mm, mat_mul. rewrite SA2. apply rsum_ext. intros l Hl. f_equal. apply first_is; assumption. }
    destruct (pn_shape _ _ PB) as [SB1 SB2]. destruct (ap_penrose A _ PA) as [AP1 AP2]. destruct (ap_penrose B _ PB) as [BP1 BP2]. pose proof (pn_AP _ _ PA) as SAP. pose proof (pn_PA _ _ PA) as SPA. pose proof (pn_AP _ _ PB) as SBP. pose proof (pn_PA _ _ PB) as SPB. unfold mat_mul in SAP, SPA, SBP, SPB. rewrite SA2 in SPA. rewrite SB2 in SPB. cbn [pr pc] in *.
    assert (HS : pe (hier_solve pinv rb s2) = sol nf 6 nv (pa (pinv A)) (J_of rb q) (pa (pinv B)) (fun i => so_des s2 (6 + i)%nat - so_drift s2 (6 + i)%nat) (fun i => so_des s2 i - so_drift s2 i)).
    { unfold hier_solve. cbv zeta. cbn [pe]. rewrite EJ. change (PM (Nat.min 12 (nrows rb - 6)) nv (fun i j => J_of rb q (6 + i) j)) with A. unfold sol.
      replace (pmul (PM 6 nv (J_of rb q)) (PM nv nv (fun i j => (if (i =? j)%nat then 1 else 0) - pa (pmul (pinv A) A) i j))) with B.
      2:{ unfold pmul, B. cbn [pr pc pa]. unfold mm, nul. rewrite SA2. reflexivity. }
      unfold papp. rewrite SA2, SB2. reflexivity. }
    rewrite HS. split.
    - intros y. rewrite <- !first_error. apply (level1 nf 6 nv (pa A) (pa (pinv A)) (J_of rb q) (pa (pinv B))); assumption.
    - intros y Hy. rewrite <- !second_error. apply (level2 nf 6 nv (pa A) (pa (pinv A)) (J_of rb q) (pa (pinv B))); try assumption. intros z. cbn [A pa]. rewrite !first_error. apply Hy.
  Qed.
End Hier.
Lemma step_lexi : forall sq pinv (rb : sorobot) st s a x s', so_inv rb s -> s_hier st = true -> exact_pinv pinv rb (sa_q a) -> so_step sq pinv rb st s a = Ok (x, s') ->
  pl x = r_nv rb /\ lexi (fun x => eff_error rb st a x + joint_error rb st a x) (momentum_error rb st a) (pe x).
Proof.
  intros sq pinv rb st s a x s' I Hh X H. destruct (step_state sq pinv rb st s a x s' I H) as (_ & EJ & _ & ED). unfold so_step in H. cbv zeta in H. rewrite ED in H. cbn [bind] in H. rewrite Hh in H. injection H as <-. split; [reflexivity|].
  destruct (targets rb st s a s' I ED) as (T1 & T2 & T3). now apply (hier_best rb (sa_q a)).
Qed.

(** * Second-order inverse kinematics: proofs *)
From Coq Require Import Reals List Arith Bool Lia Lra FunctionalExtensionality ZArith.
Import ListNotations.
From Verif Require Import Base BaseProofs Vec3 PyqpModel PyqpSpec PyqpProps IkModel IkSpec IkProofs MkoModel MkoSpec MkoProofs SoModel SoSpec.
Local Open Scope R_scope.

Section So.
  Variables (sq : pm -> pv -> option (pm * pv) -> nat -> res pv) (pinv : pm -> pm) (rb : sorobot).
  Notation ne := (r_ne rb). Notation nv := (r_nv rb).
  Definition so_inv (s : sost) : Prop := (forall i j, ((ne + 2) * 3 <= i)%nat -> (j < 6)%nat -> so_J s i j = 0) /\ (forall i, ((ne + 2) * 3 <= i)%nat -> so_drift s i = 0).
  Lemma inv_new : so_inv so_new.
  Proof. split; reflexivity. Qed.
  Lemma inv_kin : forall s q dq, so_inv s -> so_inv (update_kinematics rb s q dq) /\ so_J (update_kinematics rb s q dq) = J_of rb q.
  Proof.
    intros s q dq [A B]. split; [split|].
    - intros i j Hi Hj. cbn [update_kinematics so_J]. rewrite (proj2 (Nat.ltb_ge i 6)) by lia. rewrite (proj2 (Nat.ltb_ge i ((ne + 2) * 3))) by lia. rewrite (proj2 (Nat.leb_gt 6 j)) by lia. now apply A.
    - intros i Hi. cbn [update_kinematics so_drift]. rewrite (proj2 (Nat.ltb_ge i 6)) by lia. rewrite (proj2 (Nat.ltb_ge i ((ne + 2) * 3))) by lia. now apply B.
    - apply functional_extensionality. intros i. apply functional_extensionality. intros j. cbn [update_kinematics so_J]. unfold J_of. destruct (i <? 6)%nat; [reflexivity|]. destruct (Nat.ltb_spec i ((ne + 2) * 3)); [reflexivity|]. destruct (Nat.leb_spec 6 j); [reflexivity|]. apply A; lia.
  Qed.
  Lemma des_state : forall st s a s', update_des_acc rb st s a = Ok s' -> so_J s' = so_J s /\ so_drift s' = so_drift s.
  Proof.
    intros st s a s' H. unfold update_des_acc in H. destruct (negb _); [discriminate|]. destruct (_ || _)%bool; [discriminate|]. destruct (match sa_joint a with Some _ => _ | None => _ end) as [u| |]; cbn [bind] in H; try discriminate. injection H as <-. split; reflexivity.
  Qed.
  Lemma step_state : forall st s a x s', so_inv s -> so_step sq pinv rb st s a = Ok (x, s') -> so_inv s' /\ so_J s' = J_of rb (sa_q a) /\ so_drift s' = so_drift (update_kinematics rb s (sa_q a) (sa_dq a)) /\ update_des_acc rb st (update_kinematics rb s (sa_q a) (sa_dq a)) a = Ok s'.
  Proof.
    intros st s a x s' I H. unfold so_step in H. cbv zeta in H. destruct (inv_kin s (sa_q a) (sa_dq a) I) as [I1 J1]. destruct (update_des_acc rb st (update_kinematics rb s (sa_q a) (sa_dq a)) a) as [s2| |] eqn:E; cbn [bind] in H; try discriminate.
    destruct (des_state _ _ _ _ E) as [EJ ED]. assert (X : s2 = s'). { destruct (s_hier st); [now injection H|]. destruct (_ =? _)%nat; [|discriminate]. destruct (quadprog_solve_qp _ _ _ _ _ _ _); cbn [bind] in H; try discriminate. now injection H. }
    subst s2. split; [split; [rewrite EJ; apply I1|rewrite ED; apply I1]|]. split; [now rewrite EJ|]. split; [exact ED|reflexivity].
  Qed.
  Lemma so_reach_inv : forall s, so_reach sq pinv rb s -> so_inv s.
  Proof. induction 1 as [|s q dq _ IH|s st a x s' _ IH H]; [apply inv_new|now apply inv_kin|]. now apply (step_state st s a x s'). Qed.

  (** ** Sum over the rows *)
  Variables (wt wc wl wa wj : R) (contact : list R).
  Definition wlist : list R := repeat wl 3 ++ repeat wa 3 ++ flat_map (fun c => repeat (if Req_EM_T c 1 then wc else wt) 3) contact ++ repeat wj (nv - 6).
  Let ist := IkS wt wc wl wa wj 0 0 false.
  Let ia := IkA [] [] v0 v0 v0 [] [] contact None false.
  Lemma wlist_is : wlist = weight_list rb ist ia.
  Proof. reflexivity. Qed.
  Lemma rows_split : forall q v x, length contact = ne ->
    rsum (nrows rb) (fun k => nth k wlist 0 * (dotv nv (J_of rb q k) x - v k) ^ 2) =
    wl * rsum 3 (fun i => (momentum_of rb q x i - v i) ^ 2) + wa * rsum 3 (fun i => (momentum_of rb q x (3 + i) - v (3 + i)%nat) ^ 2)
    + rsum ne (fun e => (if Req_EM_T (nth e contact 0) 1 then wc else wt) * rsum 3 (fun c => (eff_velocity_of rb q e x c - v (6 + (e * 3 + c))%nat) ^ 2))
    + wj * rsum (nv - 6) (fun j => (x (6 + j)%nat - v ((ne + 2) * 3 + j)%nat) ^ 2).
  Proof.
    intros q v x Hl. rewrite wlist_is. unfold nrows. rewrite rsum_split. replace ((ne + 2) * 3)%nat with (6 + ne * 3)%nat at 1 by lia. rewrite rsum_split. replace 6%nat with (3 + 3)%nat at 1 by lia. rewrite rsum_split. f_equal; [f_equal; [f_equal|]|].
    - rewrite <- rsum_scal. apply rsum_ext. intros i Hi. destruct (weights_low rb ist ia i Hi) as (-> & _). f_equal. f_equal. unfold momentum_of. f_equal. apply dotv_ext. intros j _. unfold J_of. now rewrite (proj2 (Nat.ltb_lt i 6)) by lia.
    - rewrite <- rsum_scal. apply rsum_ext. intros i Hi. destruct (weights_low rb ist ia i Hi) as (_ & ->). f_equal. f_equal. unfold momentum_of. f_equal. apply dotv_ext. intros j _. unfold J_of. now rewrite (proj2 (Nat.ltb_lt (3 + i) 6)) by lia.
    - rewrite rsum_blocks. apply rsum_ext. intros e He. rewrite <- rsum_scal. apply rsum_ext. intros c Hc. rewrite (weights_eff rb ist ia) by (cbn [a_contact ia]; lia). cbn [a_contact ia w_contact w_track ist]. f_equal. f_equal. unfold eff_velocity_of. f_equal.
      destruct (block_div e c Hc) as (B1 & B2). apply dotv_ext. intros j _. unfold J_of. rewrite (proj2 (Nat.ltb_ge (6 + (e * 3 + c)) 6)) by lia. rewrite (proj2 (Nat.ltb_lt (6 + (e * 3 + c)) ((ne + 2) * 3))) by nia.
      replace (6 + (e * 3 + c) - 6)%nat with (e * 3 + c)%nat by lia. now rewrite B1, B2.
    - rewrite <- rsum_scal. apply rsum_ext. intros j Hj. rewrite (weights_joint rb ist ia) by assumption. f_equal. f_equal. f_equal.
      unfold dotv. rewrite (rsum_single nv (6 + j)%nat) by (lia || (intros i Hi Ni; unfold J_of; rewrite (proj2 (Nat.ltb_ge ((ne + 2) * 3 + j) 6)) by lia; rewrite (proj2 (Nat.ltb_ge ((ne + 2) * 3 + j) ((ne + 2) * 3))) by lia;
        destruct (Nat.leb_spec 6 i); [|ring]; replace ((ne + 2) * 3 + j - (ne + 2) * 3)%nat with j by lia; destruct (Nat.eqb_spec j (i - 6)); [lia|ring])).
      unfold J_of. rewrite (proj2 (Nat.ltb_ge ((ne + 2) * 3 + j) 6)) by lia. rewrite (proj2 (Nat.ltb_ge ((ne + 2) * 3 + j) ((ne + 2) * 3))) by lia. rewrite (proj2 (Nat.leb_le 6 (6 + j))) by lia.
      replace ((ne + 2) * 3 + j - (ne + 2) * 3)%nat with j by lia. replace (6 + j - 6)%nat with j by lia. rewrite Nat.eqb_refl. ring.
  Qed.
  Lemma wlist_length : length wlist = nrows rb <-> length contact = ne.
  Proof. rewrite wlist_is, weights_length. cbn [a_contact ia]. unfold nrows. lia. Qed.
  Lemma wlist_nonneg : 0 <= wt -> 0 <= wc -> 0 <= wl -> 0 <= wa -> 0 <= wj -> length contact = ne -> forall k, (k < nrows rb)%nat -> 0 <= nth k wlist 0.
  Proof.
    intros W1 W2 W3 W4 W5 L k Hk. apply wlist_length in L. assert (Hin : In (nth k wlist 0) wlist) by (apply nth_In; lia). revert Hin. generalize (nth k wlist 0). intros r Hin.
    unfold wlist in Hin. rewrite !in_app_iff in Hin. destruct Hin as [Hin|[Hin|[Hin|Hin]]]; [apply repeat_spec in Hin; lra|apply repeat_spec in Hin; lra| |apply repeat_spec in Hin; lra].
    apply in_flat_map in Hin. destruct Hin as (c & _ & Hin). apply repeat_spec in Hin. destruct (Req_EM_T c 1); lra.
  Qed.
End So.

(** ** The cost *)
Lemma so_weights_is : forall (rb : sorobot) st contact, so_weights rb st contact = wlist rb (s_track st) (s_contact st) (s_lin st) (s_ang st) (s_joint st) contact.
Proof. reflexivity. Qed.
Lemma nth_skip : forall (l : config) k j, nth j (skipn k l) 0 = nth (k + j) l 0.
Proof. intros l. induction l as [|a l IH]; intros k j; [destruct k, j; destruct (_ + _)%nat; reflexivity|]. destruct k; [reflexivity|]. cbn [skipn Nat.add nth]. apply IH. Qed.
Lemma so_cost : forall (rb : sorobot) st s a s2 x, so_inv rb s -> update_des_acc rb st (update_kinematics rb s (sa_q a) (sa_dq a)) a = Ok s2 -> length (sa_contact a) = r_ne rb ->
  rsum (nrows rb) (fun k => nth k (so_weights rb st (sa_contact a)) 0 * (dotv (r_nv rb) (J_of rb (sa_q a) k) x - (so_des s2 k - so_drift s2 k)) ^ 2) + / 1000000 * rsum (r_nv rb) (fun i => x i ^ 2) = acc_cost rb st a x.
Proof.
  intros rb st s a s2 x I H Hl. rewrite so_weights_is, rows_split by exact Hl. destruct (inv_kin rb s (sa_q a) (sa_dq a) I) as [[_ D0] J1]. remember (update_kinematics rb s (sa_q a) (sa_dq a)) as s1 eqn:Es1.
  unfold update_des_acc in H. destruct (negb _); [discriminate|]. destruct (_ || _)%bool; [discriminate|]. destruct (match sa_joint a with Some _ => _ | None => _ end) as [u| |]; cbn [bind] in H; try discriminate. match type of H with Ok ?v = Ok _ => assert (E2 : s2 = v) by congruence end. clear H. rewrite E2. cbn [so_des so_drift].
  assert (JQ : forall i, (i < 6)%nat -> Jdq rb s1 (sa_dq a) i = momentum_of rb (sa_q a) (entries (sa_dq a)) i). { intros i Hi. unfold Jdq, momentum_of, dotv, entries. rewrite J1. apply rsum_ext. intros j _. unfold J_of. now rewrite (proj2 (Nat.ltb_lt i 6)) by lia. }
  assert (DH : forall i, (i < 6)%nat -> so_drift s1 i = sr_dh rb (sa_q a) (sa_dq a) i). { intros i Hi. rewrite Es1. cbn [update_kinematics so_drift]. now rewrite (proj2 (Nat.ltb_lt i 6)) by lia. }
  unfold acc_cost. cbv zeta. f_equal. f_equal; [f_equal; [f_equal|]|].
  - f_equal. apply rsum_ext. intros i Hi. f_equal. rewrite (proj2 (Nat.ltb_lt i 3)) by lia. rewrite DH by lia. rewrite JQ by lia. unfold momentum_rate, lin_rate_ref, rate_ref. ring.
  - f_equal. apply rsum_ext. intros i Hi. f_equal. rewrite (proj2 (Nat.ltb_ge (3 + i) 3)) by lia. rewrite (proj2 (Nat.ltb_lt (3 + i) 6)) by lia. rewrite DH by lia. rewrite JQ by lia.
    replace (3 + i - 3)%nat with i by lia. unfold momentum_rate, ang_rate_ref, rate_ref, entries. ring.
  - apply rsum_ext. intros e He. f_equal. apply rsum_ext. intros c Hc. f_equal. destruct (block_div e c Hc) as (B1 & B2).
    rewrite (proj2 (Nat.ltb_ge (6 + (e * 3 + c)) 3)) by lia. rewrite (proj2 (Nat.ltb_ge (6 + (e * 3 + c)) 6)) by lia. rewrite (proj2 (Nat.ltb_lt (6 + (e * 3 + c)) ((r_ne rb + 2) * 3))) by nia.
    replace (so_drift s1 (6 + (e * 3 + c))) with (sr_dv rb (sa_q a) (sa_dq a) e c).
    2:{ rewrite Es1. cbn [update_kinematics so_drift]. rewrite (proj2 (Nat.ltb_ge (6 + (e * 3 + c)) 6)) by lia. rewrite (proj2 (Nat.ltb_lt (6 + (e * 3 + c)) ((r_ne rb + 2) * 3))) by nia. replace (6 + (e * 3 + c) - 6)%nat with (e * 3 + c)%nat by lia. now rewrite B1, B2. }
    replace (Jdq rb s1 (sa_dq a) (6 + (e * 3 + c))) with (eff_velocity_of rb (sa_q a) e (entries (sa_dq a)) c).
    2:{ unfold Jdq, eff_velocity_of, dotv, entries. rewrite J1. apply rsum_ext. intros j _. now rewrite J_eff. }
    replace (6 + (e * 3 + c) - 6)%nat with (e * 3 + c)%nat by lia. rewrite B1, B2. cbv zeta. unfold eff_acceleration, eff_acc_ref. ring.
  - f_equal. apply rsum_ext. intros j Hj. f_equal. rewrite D0 by lia.
    rewrite (proj2 (Nat.ltb_ge ((r_ne rb + 2) * 3 + j) 3)) by lia. rewrite (proj2 (Nat.ltb_ge ((r_ne rb + 2) * 3 + j) 6)) by lia. rewrite (proj2 (Nat.ltb_ge ((r_ne rb + 2) * 3 + j) ((r_ne rb + 2) * 3))) by lia. unfold nrows. rewrite (proj2 (Nat.ltb_lt ((r_ne rb + 2) * 3 + j) ((r_ne rb + 2) * 3 + (r_nv rb - 6)))) by lia.
    replace ((r_ne rb + 2) * 3 + j - (r_ne rb + 2) * 3)%nat with j by lia. unfold joint_acc_ref, entries. destruct (sa_joint a); ring.
Qed.
Lemma acc_cost_ext : forall rb st a x y, (forall j, (j < r_nv (sr rb))%nat -> x j = y j) -> acc_cost rb st a x = acc_cost rb st a y.
Proof.
  intros rb st a x y H. unfold acc_cost, momentum_rate, eff_acceleration, momentum_of, eff_velocity_of. cbv zeta.
  assert (D : forall b, dotv (r_nv rb) b x = dotv (r_nv rb) b y) by (intros b; apply rsum_ext; intros j Hj; now rewrite H).
  f_equal; [f_equal; [f_equal; [f_equal|]|]|].
  - f_equal. apply rsum_ext. intros. now rewrite D.
  - f_equal. apply rsum_ext. intros. now rewrite D.
  - apply rsum_ext. intros. f_equal. apply rsum_ext. intros. now rewrite D.
  - f_equal. apply rsum_ext. intros j Hj. rewrite H by lia. reflexivity.
  - f_equal. apply rsum_ext. intros j Hj. now rewrite H.
Qed.
Lemma step_minimises : forall sq pinv (rb : sorobot) st s a x s', quadprog_sound sq -> s_hier st = false -> so_inv rb s -> so_step sq pinv rb st s a = Ok (x, s') ->
  pl x = r_nv rb /\ minimises (fun _ => True) (acc_cost rb st a) (pe x).
Proof.
  intros sq pinv rb st s a x s' Hs Hh I H. destruct (step_state sq pinv rb st s a x s' I H) as (_ & EJ & _ & ED). unfold so_step in H. cbv zeta in H. rewrite ED in H. cbn [bind] in H. rewrite Hh in H.
  destruct (Nat.eqb_spec (length (so_weights rb st (sa_contact a))) (nrows rb)) as [E|]; [|discriminate]. rewrite so_weights_is in E. apply wlist_length in E. rewrite EJ in H.
  destruct (quadprog_solve_qp _ _ _ _ _ _ _) as [y| |] eqn:EQ; cbn [bind] in H; try discriminate. injection H as ->.
  apply C41_solution in EQ; [|exact Hs|apply hessian_sym|split; [reflexivity|]; split; [reflexivity|]; split; discriminate]. destruct EQ as (L & _ & M). cbn [pr hessian] in L, M. split; [exact L|]. split; [exact Logic.I|]. intros y _.
  specialize (M y ltac:(split; discriminate)). cbn [pa pe hessian gradient] in M. rewrite !least_squares in M. pose proof (so_cost rb st s a s' (pe x) I ED E) as C1. pose proof (so_cost rb st s a s' y I ED E) as C2. lra.
Qed.
Lemma step_succeeds : forall sq pinv (rb : sorobot) st s a, quadprog_complete sq -> (6 <= r_nv rb)%nat -> so_inv rb s -> so_shapes rb a -> 0 <= s_lin st -> 0 <= s_ang st -> 0 <= s_contact st -> 0 <= s_track st -> 0 <= s_joint st ->
  exists x s', so_step sq pinv rb st s a = Ok (x, s').
Proof.
  intros sq pinv rb st s a Hc Hn I (L1 & L2 & L3 & L4 & L5 & L6) W1 W2 W3 W4 W5. unfold so_step. cbv zeta.
  assert (X : exists s2, update_des_acc rb st (update_kinematics rb s (sa_q a) (sa_dq a)) a = Ok s2).
  { unfold update_des_acc. rewrite L1, Nat.eqb_refl. cbn [negb]. rewrite (proj2 (Nat.ltb_ge _ _) L2), (proj2 (Nat.ltb_ge _ _) L3), (proj2 (Nat.ltb_ge _ _) L4). cbn [orb]. destruct (sa_joint a) as [r|]; [|cbn [bind]; eexists; reflexivity].
    destruct (L6 r eq_refl) as [P Q]. rewrite P, Nat.eqb_refl, skipn_length, Q. replace (r_nv rb + 1 - 7 =? r_nv rb - 6)%nat with true by (symmetry; apply Nat.eqb_eq; lia). cbn [andb bind]. eexists. reflexivity. }
  destruct X as (s2 & ->). cbn [bind]. destruct (s_hier st); [eexists _, _; reflexivity|]. rewrite (proj2 (Nat.eqb_eq _ _)) by (rewrite so_weights_is; now apply wlist_length).
  destruct (C41_succeeds sq (hessian rb (so_J s2) (fun k => nth k (so_weights rb st (sa_contact a)) 0)) (gradient rb (so_J s2) (fun k => nth k (so_weights rb st (sa_contact a)) 0) (fun k => so_des s2 k - so_drift s2 k)) None None None None) as (x & ->).
  - exact Hc.
  - apply hessian_sym.
  - apply hessian_pd. rewrite so_weights_is. now apply wlist_nonneg.
  - split; [reflexivity|]. split; [reflexivity|]. split; discriminate.
  - exists (fun _ => 0). split; discriminate.
  - cbn [bind]. eexists _, _. reflexivity.
Qed.

(** Every plan is the plan of some assignment; plans that agree are interchangeable. *)
From Coq Require Import Reals List Arith ZArith Bool String Ascii Lra Lia Permutation.
Import ListNotations.
From Verif Require Import Base BaseProofs Vec3 ExprsModel ExprsProofs ConicModel ConicSpec ConicProofs ConicProofs4 ConicProofs5 ConicProofs6
  OptVarModel OptVarSpec OptVarProofs OptVarProofs2 OptVarProps CntModel DynModel DynSpec DynProofs DynProofs2 DynProofs3 DynProofs4 KinModel KinSpec KinProofs KinProofs2 KinProofs3 KinProofs4.
Local Open Scope R_scope.

Lemma find_key : forall {A} (key : A -> nat) (f : A -> R) l a, In a l -> (forall a b, In a l -> In b l -> key a = key b -> f a = f b) ->
  match find (fun b => key b =? key a)%nat l with Some b => f b | None => 0 end = f a.
Proof.
  intros A key f l a Ha H. destruct (find (fun b => (key b =? key a)%nat) l) as [b|] eqn:E.
  - apply find_some in E. destruct E as (Hb & E). apply Nat.eqb_eq in E. now apply H.
  - exfalso. pose proof (find_none _ _ E a Ha) as X. cbn in X. rewrite Nat.eqb_refl in X. discriminate.
Qed.
Section Assign.
  Variables (bs : list blockspec) (ord : list nat).
  Let B k := nth k bs (mkB "C"%char 0 0 (fun _ _ => 0) (fun _ _ => 0) (fun _ _ => 0)).
  Hypothesis HP : Permutation ord (seq 0 (List.length bs)).
  Definition block_cells (k : nat) : list (nat * nat * nat) := flat_map (fun r => map (fun c => (k, r, c)) (seq 0 (b_cols (B k)))) (seq 0 (b_rows (B k))).
  Definition all_cells : list (nat * nat * nat) := flat_map block_cells ord.
  Lemma in_cells : forall k r c, In (k, r, c) all_cells <-> In k ord /\ (r < b_rows (B k))%nat /\ (c < b_cols (B k))%nat.
  Proof.
    intros k r c. unfold all_cells. rewrite in_flat_map. split.
    - intros (j & Hj & H). unfold block_cells in H. apply in_flat_map in H. destruct H as (r' & Hr & H). apply in_map_iff in H. destruct H as (c' & E & Hc). injection E as <- <- <-. apply in_seq in Hr, Hc. repeat split; [exact Hj|lia|lia].
    - intros (Hk & Hr & Hc). exists k. split; [exact Hk|]. unfold block_cells. apply in_flat_map. exists r. split; [apply in_seq; lia|]. apply in_map_iff. exists c. split; [reflexivity|apply in_seq; lia].
  Qed.
  Definition key (p : nat * nat * nat) : nat := match p with (k, r, c) => column_of bs ord k r c end.
  Lemma assign_exists : forall f : nat -> nat -> nat -> R, exists x, forall k rows cols r c, blk bs k rows cols -> (r < rows)%nat -> (c < cols)%nat -> x (column_of bs ord k r c) = f k r c.
  Proof.
    intros f. set (f3 := fun p : nat * nat * nat => match p with (k, r, c) => f k r c end).
    exists (fun j => match find (fun p => key p =? j)%nat all_cells with Some p => f3 p | None => 0 end).
    intros k rows cols r c Hk Hr Hc. destruct (blk_B bs ord HP k rows cols Hk) as (E1 & E2 & E3).
    apply (find_key key f3 all_cells (k, r, c)).
    - apply in_cells. unfold B. rewrite E1, E2. auto.
    - intros [[k1 r1] c1] [[k2 r2] c2] H1 H2 E. apply in_cells in H1, H2. destruct H1 as (A1 & A2 & A3), H2 as (B1 & B2 & B3). cbn [key] in E.
      destruct (column_inj bs ord k1 r1 c1 k2 r2 c2) as (-> & -> & ->); auto. eapply Permutation_NoDup; [apply Permutation_sym, HP|apply seq_NoDup].
  Qed.
End Assign.

Section Traj.
  Variables (g : kset) (rob : robot) (dini : dstate) (dyn : nat -> dstate) (kini : kstate) (seqk : nat -> kstate).
  Hypothesis HI : 0 <= k_inf g.
  Let bs := kin_blocks (k_inf g) (k_N g) (k_neff g) (k_next g).
  Lemma kplan_exists : forall P, exists x, same_kplan g (kplan_of g x) P.
  Proof.
    intros P. set (n := (3 + 2 * k_neff g)%nat).
    destruct (assign_exists bs (kin_order (k_neff g)) (t_perm g HI) (fun k r c =>
      if (k =? 0)%nat then vget3 (kp_com P c) r else if (k =? 1)%nat then vget3 (kp_lmom P c) r else if (k =? 2)%nat then vget3 (kp_amom P c) r
      else if (k <? n)%nat then (if Nat.even (k - 3) then vget3 (kp_epos P (Nat.div2 (k - 3)) c) r else vget3 (kp_evel P (Nat.div2 (k - 3)) c) r)
      else if (k =? n)%nat then kp_q P r c else if (k =? n + 1)%nat then kp_qd P r c else if (k =? n + 2)%nat then kp_tqd P r c else kp_tqdd P r c)) as (x & Hx).
    exists x. intros t Ht. unfold kplan_of. cbn [kp_com kp_lmom kp_amom kp_epos kp_evel kp_q kp_qd kp_tqd kp_tqdd].
    assert (VE : forall a : vec3, V3 (vget3 a 0) (vget3 a 1) (vget3 a 2) = a) by (intros [? ? ?]; reflexivity).
    fold bs n. split; [|split; [|split; [|split]]].
    - rewrite !(Hx 0%nat 3%nat (k_N g)) by (try apply b_com; lia). cbn [Nat.eqb]. apply VE.
    - rewrite !(Hx 1%nat 3%nat (k_N g)) by (try apply b_lm; lia). cbn [Nat.eqb]. apply VE.
    - rewrite !(Hx 2%nat 3%nat (k_N g)) by (try apply b_am; lia). cbn [Nat.eqb]. apply VE.
    - intros e He. pose proof (b_ep g e He) as B1. pose proof (b_ev g e He) as B2. unfold kEV in B2. unfold kEP in B1. replace (3 + (2 * e + 1))%nat with (4 + 2 * e)%nat in B2 by lia.
      rewrite !(Hx (3 + 2 * e)%nat 3%nat (k_N g)), !(Hx (4 + 2 * e)%nat 3%nat (k_N g)) by first [apply B1|apply B2|lia].
      replace (3 + 2 * e - 3)%nat with (2 * e)%nat by lia. replace (4 + 2 * e - 3)%nat with (S (2 * e))%nat by lia.
      replace (3 + 2 * e <? n)%nat with true by (symmetry; apply Nat.ltb_lt; unfold n; lia). replace (4 + 2 * e <? n)%nat with true by (symmetry; apply Nat.ltb_lt; unfold n; lia).
      rewrite Nat.even_succ, Nat.even_mul. rewrite Nat.div2_double, Nat.div2_succ_double. unfold Nat.odd. rewrite Nat.even_mul. cbn [Nat.eqb Nat.even orb negb Nat.add]. split; apply VE.
    - intros d Hd.
      rewrite (Hx n (k_next g) (k_N g)), (Hx (n + 1)%nat (k_next g) (k_N g)), (Hx (n + 2)%nat (k_next g) (k_N g)), (Hx (n + 3)%nat (k_next g) (k_N g)) by first [apply b_q|apply b_qd|apply b_tqd|apply b_tqdd|lia].
      assert (EF : forall a b, a <> b -> (a =? b)%nat = false) by (intros a b H; now apply Nat.eqb_neq).
      assert (LF : forall a b, (b <= a)%nat -> (a <? b)%nat = false) by (intros a b H; now apply Nat.ltb_ge).
      assert (n >= 3)%nat by (unfold n; lia).
      rewrite !(EF _ 0%nat), !(EF _ 1%nat), !(EF _ 2%nat) by lia. rewrite !LF by lia. rewrite !Nat.eqb_refl. rewrite (EF (n + 1)%nat n), (EF (n + 2)%nat n), (EF (n + 2)%nat (n + 1)%nat), (EF (n + 3)%nat n), (EF (n + 3)%nat (n + 1)%nat), (EF (n + 3)%nat (n + 2)%nat) by lia. auto.
  Qed.
  Lemma same_sym : forall P P', same_kplan g P P' -> same_kplan g P' P.
  Proof.
    intros P P' H t Ht. destruct (H t Ht) as (A & B & C & D & E). repeat split; try (symmetry; assumption); try (symmetry; now apply D); symmetry; now apply E.
  Qed.
  Lemma jac_ext : forall J i0 w w', (forall d, (d < k_next g)%nat -> w d = w' d) -> jac_times g J i0 w = jac_times g J i0 w'.
  Proof. intros J i0 w w' H. unfold jac_times. cbv zeta. f_equal; apply rsum_ext; intros; now rewrite H. Qed.
  Lemma same_feasible : forall P P', same_kplan g P P' -> kin_feasible g rob dyn kini seqk P -> kin_feasible g rob dyn kini seqk P'.
  Proof.
    intros P P' H F t Ht. destruct (F t Ht) as [F1 F2 F3 F4 F5 F6 F7 F8 F9 F10]. destruct (H t Ht) as (A & B & C & D & E).
    constructor.
    - rewrite <- A, F1. do 2 f_equal. apply jac_ext. intros d Hd. apply E, Hd.
    - intros e He. rewrite <- (proj2 (D e He)), (F2 e He). apply jac_ext. intros d Hd. apply E, Hd.
    - intros e He. rewrite <- (proj2 (D e He)), <- (proj1 (D e He)). now apply F3.
    - rewrite <- B, F4. apply jac_ext. intros d Hd. apply E, Hd.
    - rewrite <- C, F5. apply jac_ext. intros d Hd. apply E, Hd.
    - intros d Hd. destruct (E d Hd) as (E1 & E2 & _). rewrite <- E1, <- E2. now apply F6.
    - intros d Hd. destruct (E d Hd) as (E1 & E2 & E3 & _). rewrite <- E1, <- E3, (F7 d Hd). destruct t as [|t]; [reflexivity|]. cbn [before1]. destruct (H t ltac:(lia)) as (_ & _ & _ & _ & E'). now rewrite (proj1 (E' d Hd)).
    - intros d Hd. destruct (E d Hd) as (E1 & E2 & E3 & E4). rewrite <- E4, <- E3, (F8 d Hd). destruct t as [|t]; [reflexivity|]. cbn [before1]. destruct (H t ltac:(lia)) as (_ & _ & _ & _ & E'). destruct (E' d Hd) as (_ & _ & X & _). now rewrite X.
    - intros e He. rewrite <- (proj1 (D e He)). now apply F9.
    - intros d Hd. cbv zeta. rewrite <- (proj1 (E (6 + d)%nat ltac:(unfold k_next, k_nact; lia))). now apply F10.
  Qed.
  Lemma same_cost : forall P P', same_kplan g P P' -> kin_cost g dini dyn P = kin_cost g dini dyn P'.
  Proof.
    intros P P' H. unfold kin_cost. apply rsum_ext. intros t Ht. destruct (H t Ht) as (A & B & C & D & E). cbv zeta. rewrite A, B, C.
    assert (PL : prev (kp_lmom P) (d_lmom dini) t = prev (kp_lmom P') (d_lmom dini) t /\ prev (kp_amom P) (d_amom dini) t = prev (kp_amom P') (d_amom dini) t).
    { destruct t as [|t]; [split; reflexivity|]. cbn [prev]. destruct (H t ltac:(lia)) as (_ & B' & C' & _). now split. }
    destruct PL as (-> & ->).
    rewrite (rsum_ext (k_neff g) _ (fun e => wsq3 (if e_act (d_eff (dyn t) e) then kw_eff g else kw_neff g) (vsub (e_pos (d_eff (dyn t) e)) (kp_epos P' e t)))) by (intros e He; now rewrite (proj1 (D e He))).
    rewrite (rsum_ext (List.length (k_act g)) _ (fun i => kw_def g i * sqr (k_qdef g i - kp_q P' (6 + i) t))) by (intros d Hd; now rewrite (proj1 (E (6 + d)%nat ltac:(unfold k_next, k_nact; lia)))).
    rewrite (rsum_ext (k_next g) _ (fun i => kw_vel g i * sqr (kp_tqd P' i t) + kw_acc g i * sqr (kp_tqdd P' i t))) by (intros d Hd; destruct (E d Hd) as (_ & _ & -> & ->); reflexivity).
    reflexivity.
  Qed.
End Traj.
Section Post.
  Variables (g : kset) (rob : robot) (s0 : kstate) (des : dstate).
  Hypothesis HI : 0 <= k_inf g.
  Let bs := post_blocks g (rb_ncon rob).
  Lemma pplan_exists : forall P, exists x, same_pplan g rob (pplan_of g rob x) P.
  Proof.
    intros P. destruct (assign_exists bs post_order (p_perm g rob) (fun k r c =>
      if (k =? 3)%nat then pp_q P r else if (k =? 4)%nat then pp_qd P r else if (k =? 2)%nat then pp_slack P r else if (k =? 5)%nat then pp_qdd P r else pp_tqd P r)) as (x & Hx).
    exists x. unfold pplan_of. fold bs. split; [|split]; cbn [pp_q pp_qd pp_slack pp_qdd pp_tqd].
    - intros d Hd. rewrite (Hx 3%nat (k_nact g) 1%nat) by first [apply c_q|exact Hd|lia]. reflexivity.
    - intros d Hd. rewrite (Hx 2%nat (rb_ncon rob) 1%nat) by first [apply c_slack|exact Hd|lia]. reflexivity.
    - intros d Hd. rewrite (Hx 4%nat (k_next g) 1%nat), (Hx 5%nat (k_next g) 1%nat), (Hx 6%nat (k_next g) 1%nat) by first [apply c_qd|apply c_qdd|apply c_tqd|exact Hd|lia]. auto.
  Qed.
  Lemma same_psym : forall P P', same_pplan g rob P P' -> same_pplan g rob P' P.
  Proof. intros P P' (A & B & C). repeat split; intros; symmetry; first [now apply A|now apply B|now apply C]. Qed.
  Lemma same_pfeasible : forall P P', same_pplan g rob P P' -> posture_feasible g rob s0 P -> posture_feasible g rob s0 P'.
  Proof.
    intros P P' (A & B & C) [F1 F2 F3 F4]. constructor.
    - intros c Hc. rewrite <- B by exact Hc. auto.
    - intros c Hc. rewrite <- B by exact Hc. rewrite (rsum_ext (k_next g) _ (fun d => rb_cmat rob s0 c d * pp_qd P d)) by (intros d Hd; now rewrite (proj1 (C d Hd))). auto.
    - intros d Hd. rewrite <- A by exact Hd. rewrite <- (proj1 (C (6 + d)%nat ltac:(unfold k_next, k_nact; lia))). auto.
    - intros d Hd. rewrite <- A by exact Hd. auto.
  Qed.
  Lemma jac3_ext : forall J w w', (forall d, (d < k_next g)%nat -> w d = w' d) -> jac3 g J w = jac3 g J w'.
  Proof. intros J w w' H. unfold jac3. cbv zeta. f_equal; apply rsum_ext; intros; now rewrite H. Qed.
  Lemma posture_cost_ext : forall P P', (forall d, (d < List.length (k_act g))%nat -> pp_q P d = pp_q P' d) -> (forall c, (c < rb_ncon rob)%nat -> pp_slack P c = pp_slack P' c) ->
    (forall d, (d < k_next g)%nat -> pp_qd P d = pp_qd P' d) -> posture_cost g rob s0 des P = posture_cost g rob s0 des P'.
  Proof.
    intros P P' A B C. unfold posture_cost. cbv zeta. rewrite (jac3_ext (rb_jcom rob s0) _ _ C).
    rewrite (rsum_ext (k_neff g) _ (fun e => wsq3 (if e_act (d_eff des e) then kw_eff g else kw_neff g) (vsub (jac3 g (rb_jeff rob s0 e) (pp_qd P')) (vscale (/ k_step g) (vsub (e_pos (d_eff des e)) (ks_eff (rb_update rob s0 (k_step g)) e)))))) by (intros e He; now rewrite (jac3_ext (rb_jeff rob s0 e) _ _ C)).
    rewrite (rsum_ext (k_next g) _ (fun d => k_lambda g * sqr (pp_qd P' d))) by (intros d Hd; now rewrite C).
    rewrite (rsum_ext (rb_ncon rob) _ (fun i => k_slackw g * sqr (pp_slack P' i))) by (intros d Hd; now rewrite B).
    rewrite (rsum_ext (List.length (k_act g)) _ (fun d => kw_def g d * sqr (pp_q P' d - k_qdef g d))) by (intros d Hd; now rewrite A). reflexivity.
  Qed.
  Lemma momentum_cost_ext : forall P P', (forall d, (d < k_next g)%nat -> pp_qdd P d = pp_qdd P' d /\ pp_tqd P d = pp_tqd P' d) -> momentum_cost g rob s0 des P = momentum_cost g rob s0 des P'.
  Proof.
    intros P P' C. unfold momentum_cost. cbv zeta.
    assert (C1 : forall d, (d < k_next g)%nat -> pp_qdd P d = pp_qdd P' d) by (intros; now apply C). assert (C2 : forall d, (d < k_next g)%nat -> pp_tqd P d = pp_tqd P' d) by (intros; now apply C).
    rewrite !(jac3_ext _ (pp_qdd P) (pp_qdd P') C1), !(jac3_ext _ (pp_tqd P) (pp_tqd P') C2).
    rewrite (rsum_ext (k_next g) _ (fun d => k_lambda g * sqr (pp_qdd P' d))) by (intros d Hd; now rewrite C1). reflexivity.
  Qed.
End Post.

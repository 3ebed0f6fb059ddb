(** Every plan is the plan of some values of the variables; plans that agree on the variables are interchangeable. *)
From Coq Require Import Reals List Arith ZArith Bool String Ascii Lra Lia Permutation.
Import ListNotations.
From Verif Require Import Base BaseProofs Vec3 ExprsModel ExprsProofs ConicModel ConicSpec ConicProofs ConicProofs4 ConicProofs5 ConicProofs6
  OptVarModel OptVarSpec OptVarProofs OptVarProofs2 OptVarProps CntModel CntSpec DynModel DynSpec DynProofs DynProofs2 DynProofs3 DynProofs4 KinModel KinSpec KinProofs KinProofs2 KinProofs3 KinProofs5
  DynCostSpec DynCostProofs.
Local Open Scope R_scope.

Section Exists.
  Variables (g : dset) (q : dseq) (cs : nat -> list contact).
  Variable stray : nat -> nat -> option ctype.
  Hypothesis HR : ready g q cs stray.
  Hypothesis HN : numbered g q.
  Definition step_of (e c : nat) : nat :=
    match find (fun t => act q t e && (Z.to_nat (aid q t e) =? c)%nat) (seq 0 (g_N g)) with Some t => t | None => 0%nat end.
  Lemma step_of_is : forall e t, (e < g_neff g)%nat -> (t < g_N g)%nat -> act q t e = true -> step_of e (Z.to_nat (aid q t e)) = t.
  Proof.
    intros e t He Ht Ha. unfold step_of. destruct (find _ _) as [s|] eqn:E.
    - apply find_some in E. destruct E as (Hs & E). apply in_seq in Hs. apply andb_prop in E. destruct E as (E1 & E2). apply Nat.eqb_eq in E2.
      destruct (act_aid g q cs stray HR e t He Ht Ha) as (k & Ek & _). destruct (act_aid g q cs stray HR e s He) as (j & Ej & _); [lia|exact E1|].
      apply (HN e s t He); [lia|exact Ht|exact E1|exact Ha|]. change (aid q s e = aid q t e). lia.
    - exfalso. pose proof (find_none _ _ E t ltac:(apply in_seq; lia)) as X. cbn beta in X. rewrite Ha, Nat.eqb_refl in X. discriminate.
  Qed.
  Definition base : nat := if timeopt g then 6%nat else 3%nat.
  Definition entry (P : plan) (k r c : nat) : R :=
    if (k =? 0)%nat then vget3 (p_com P c) r else if (k =? 1)%nat then vget3 (p_lmom P c) r else if (k =? 2)%nat then vget3 (p_amom P c) r
    else if (k <? base)%nat then (if (k =? 3)%nat then p_dt P c else if (k =? 4)%nat then vget3 (p_lmomd P c) r else vget3 (p_amomd P c) r)
    else let e := ((k - base) / 5)%nat in let t := step_of e c in
      match ((k - base) mod 5)%nat with
      | O => vget3 (p_lb P e t) r | 1%nat => vget3 (p_ub P e t) r | 2%nat => vget3 (p_frc P e t) r
      | 3%nat => (match r with O => p_copx P e t | _ => p_copy P e t end) | _ => p_trq P e t
      end.
  Lemma entry_eff : forall P e j r c, (j < 5)%nat -> entry P (bEff g e j) r c = let t := step_of e c in
      match j with
      | O => vget3 (p_lb P e t) r | 1%nat => vget3 (p_ub P e t) r | 2%nat => vget3 (p_frc P e t) r
      | 3%nat => (match r with O => p_copx P e t | _ => p_copy P e t end) | _ => p_trq P e t
      end.
  Proof.
    intros P e j r c Hj. unfold entry, bEff. fold base. assert (Hb : (3 <= base)%nat) by (unfold base; destruct (timeopt g); lia).
    replace (base + 5 * e + j =? 0)%nat with false by (symmetry; apply Nat.eqb_neq; lia). replace (base + 5 * e + j =? 1)%nat with false by (symmetry; apply Nat.eqb_neq; lia). replace (base + 5 * e + j =? 2)%nat with false by (symmetry; apply Nat.eqb_neq; lia).
    replace (base + 5 * e + j <? base)%nat with false by (symmetry; apply Nat.ltb_ge; lia).
    replace (base + 5 * e + j - base)%nat with (j + e * 5)%nat by lia. rewrite Nat.div_add, Nat.mod_add by lia. rewrite (Nat.div_small j 5), (Nat.mod_small j 5) by lia. reflexivity.
  Qed.
  Lemma plan_exists : forall P, exists x, same_plan g q (plan_of g q x) P.
  Proof.
    intros P. destruct (assign_exists (dblocks g q) (seq 0 (List.length (dblocks g q))) (Permutation_refl _) (entry P)) as (x & Hx).
    assert (HB : forall b rows cols r c, in_block g q b rows cols -> (r < rows)%nat -> (c < cols)%nat -> planned (dblocks g q) x b r c = entry P b r c).
    { intros b rows cols r c Hb Hr Hc. unfold planned. eapply Hx; [|exact Hr|exact Hc]. eexists. split; [exact Hb|]. split; reflexivity. }
    exists x. assert (VE : forall a : vec3, V3 (vget3 a 0) (vget3 a 1) (vget3 a 2) = a) by (intros [? ? ?]; reflexivity).
    unfold plan_of. cbv zeta. split; [|split]; cbn [p_com p_lmom p_amom p_dt p_lmomd p_amomd p_lb p_ub p_frc p_copx p_copy p_trq].
    - intros t Ht. rewrite !(HB 0%nat 3%nat (g_N g)) by (first [apply blk_com|lia]). rewrite !(HB 1%nat 3%nat (g_N g)) by (first [apply blk_lm|lia]). rewrite !(HB 2%nat 3%nat (g_N g)) by (first [apply blk_am|lia]). cbn [entry Nat.eqb]. rewrite !VE. auto.
    - intros Eh t Ht. assert (T : timeopt g = true) by now apply timeopt_iff.
      rewrite !(HB 3%nat 1%nat (g_N g)) by (first [now apply blk_dt|lia]). rewrite !(HB 4%nat 3%nat (g_N g)) by (first [now apply blk_lmd|lia]). rewrite !(HB 5%nat 3%nat (g_N g)) by (first [now apply blk_amd|lia]).
      unfold entry, base. rewrite T. cbn [Nat.eqb Nat.ltb Nat.leb]. rewrite !VE. auto.
    - intros e t He Ht Ha. change (act q t e = true) in Ha. destruct (act_aid g q cs stray HR e t He Ht Ha) as (k & Ek & Hk).
      assert (Ek' : Z.to_nat (e_aid (look q e t)) = k) by (change (e_aid (look q e t)) with (aid q t e); lia).
      assert (ES : step_of e k = t) by (rewrite <- Ek'; now apply step_of_is).
      rewrite !(base_is g). rewrite Ek'.
      rewrite !(HB (bEff g e 0) 3%nat (Z.to_nat (act_steps q e))) by (first [exact Hk|apply (blk_eff g q e 0 He); lia|lia]).
      rewrite !(HB (bEff g e 1) 3%nat (Z.to_nat (act_steps q e))) by (first [exact Hk|apply (blk_eff g q e 1 He); lia|lia]).
      rewrite !(HB (bEff g e 2) 3%nat (Z.to_nat (act_steps q e))) by (first [exact Hk|apply (blk_eff g q e 2 He); lia|lia]).
      rewrite !(HB (bEff g e 3) 2%nat (Z.to_nat (act_steps q e))) by (first [exact Hk|apply (blk_eff g q e 3 He); lia|lia]).
      rewrite !(HB (bEff g e 4) 1%nat (Z.to_nat (act_steps q e))) by (first [exact Hk|apply (blk_eff g q e 4 He); lia|lia]).
      rewrite !entry_eff by lia. cbv zeta. rewrite ES, !VE. repeat split; reflexivity.
  Qed.
  Lemma agree_same : forall x x', (forall c, (c < nvars g q)%nat -> x' c = x c) -> same_plan g q (plan_of g q x') (plan_of g q x).
  Proof.
    intros x x' A.
    assert (HB : forall b rows cols r c, in_block g q b rows cols -> (r < rows)%nat -> (c < cols)%nat -> planned (dblocks g q) x' b r c = planned (dblocks g q) x b r c).
    { intros b rows cols r c Hb Hr Hc. rewrite !(planned_is g q _ b rows cols) by assumption. apply A. now apply (col_lt g q b rows cols). }
    unfold plan_of. cbv zeta. split; [|split]; cbn [p_com p_lmom p_amom p_dt p_lmomd p_amomd p_lb p_ub p_frc p_copx p_copy p_trq].
    - intros t Ht. rewrite !(HB 0%nat 3%nat (g_N g)) by (first [apply blk_com|lia]). rewrite !(HB 1%nat 3%nat (g_N g)) by (first [apply blk_lm|lia]). rewrite !(HB 2%nat 3%nat (g_N g)) by (first [apply blk_am|lia]). auto.
    - intros Eh t Ht. assert (T : timeopt g = true) by now apply timeopt_iff.
      rewrite !(HB 3%nat 1%nat (g_N g)) by (first [now apply blk_dt|lia]). rewrite !(HB 4%nat 3%nat (g_N g)) by (first [now apply blk_lmd|lia]). rewrite !(HB 5%nat 3%nat (g_N g)) by (first [now apply blk_amd|lia]). auto.
    - intros e t He Ht Ha. change (act q t e = true) in Ha. destruct (act_aid g q cs stray HR e t He Ht Ha) as (k & Ek & Hk).
      assert (Ek' : Z.to_nat (e_aid (look q e t)) = k) by (change (e_aid (look q e t)) with (aid q t e); lia).
      rewrite !(base_is g). rewrite Ek'.
      rewrite !(HB (bEff g e 0) 3%nat (Z.to_nat (act_steps q e))) by (first [exact Hk|apply (blk_eff g q e 0 He); lia|lia]).
      rewrite !(HB (bEff g e 1) 3%nat (Z.to_nat (act_steps q e))) by (first [exact Hk|apply (blk_eff g q e 1 He); lia|lia]).
      rewrite !(HB (bEff g e 2) 3%nat (Z.to_nat (act_steps q e))) by (first [exact Hk|apply (blk_eff g q e 2 He); lia|lia]).
      rewrite !(HB (bEff g e 3) 2%nat (Z.to_nat (act_steps q e))) by (first [exact Hk|apply (blk_eff g q e 3 He); lia|lia]).
      rewrite !(HB (bEff g e 4) 1%nat (Z.to_nat (act_steps q e))) by (first [exact Hk|apply (blk_eff g q e 4 He); lia|lia]).
      repeat split; reflexivity.
  Qed.
End Exists.

Section Same.
  Variables (g : dset) (q : dseq) (ini : dstate) (cs : nat -> list contact).
  Lemma same_plan_sym : forall P P', same_plan g q P P' -> same_plan g q P' P.
  Proof.
    intros P P' (A & B & C). split; [|split].
    - intros t Ht. destruct (A t Ht) as (A1 & A2 & A3). auto.
    - intros E t Ht. destruct (B E t Ht) as (A1 & A2 & A3). auto.
    - intros e t He Ht Ha. destruct (C e t He Ht Ha) as (A1 & A2 & A3 & A4 & A5 & A6). repeat split; auto.
  Qed.
  Lemma same_plan_trans : forall P1 P2 P3, same_plan g q P1 P2 -> same_plan g q P2 P3 -> same_plan g q P1 P3.
  Proof.
    intros P1 P2 P3 (A & B & C) (A' & B' & C'). split; [|split].
    - intros t Ht. destruct (A t Ht) as (-> & -> & ->). now apply A'.
    - intros E t Ht. destruct (B E t Ht) as (-> & -> & ->). now apply B'.
    - intros e t He Ht Ha. destruct (C e t He Ht Ha) as (-> & -> & -> & -> & -> & ->). now apply C'.
  Qed.
  Section Two.
    Variables P P' : plan.
    Hypothesis H : same_plan g q P P'.
    Lemma same_arm : forall e t, (e < g_neff g)%nat -> (t < g_N g)%nat -> active q e t -> arm cs q P e t = arm cs q P' e t.
    Proof.
      intros e t He Ht Ha. destruct H as (A & _ & C). unfold arm. destruct (A t Ht) as (-> & _). destruct (C e t He Ht Ha) as (_ & _ & _ & E1 & E2 & _). now rewrite E1, E2.
    Qed.
    Lemma same_prev : forall a a' v t, (forall t, (t < g_N g)%nat -> a t = a' t) -> (t < g_N g)%nat -> prev a v t = prev a' v t.
    Proof. intros a a' v [|t] E Ht; [reflexivity|]. cbn [prev]. apply E. lia. Qed.
    Lemma same_sum : forall n t f f', (n <= g_neff g)%nat -> (forall e, (e < g_neff g)%nat -> active q e t -> f e = f' e) -> active_sum q n t f = active_sum q n t f'.
    Proof.
      induction n as [|n IH]; intros t f f' Hn E; [reflexivity|]. cbn [active_sum]. rewrite (IH t f f') by (auto; lia). destruct (e_act (look q n t)) eqn:Ea; [|reflexivity]. now rewrite E.
    Qed.
    Lemma same_feasible_plan : forall first, momentum_feasible g ini cs q first P -> momentum_feasible g ini cs q first P'.
    Proof.
      intros first [F1 F2 F3 F4]. assert (A := proj1 H). assert (B := proj1 (proj2 H)). assert (C := proj2 (proj2 H)).
      assert (NF : forall t, (t < g_N g)%nat -> net_force g q P t = net_force g q P' t).
      { intros t Ht. unfold net_force. f_equal. apply same_sum; [lia|]. intros e He Ha. destruct (C e t He Ht Ha) as (_ & _ & -> & _). reflexivity. }
      assert (NT : forall t, (t < g_N g)%nat -> net_torque g cs q P t = net_torque g cs q P' t).
      { intros t Ht. unfold net_torque. apply same_sum; [lia|]. intros e He Ha. unfold torque_used. destruct (C e t He Ht Ha) as (-> & -> & _ & _ & _ & ->). reflexivity. }
      assert (PC : forall v t, (t < g_N g)%nat -> prev (p_com P) v t = prev (p_com P') v t) by (intros; apply same_prev; auto; intros; now apply A).
      assert (PL : forall v t, (t < g_N g)%nat -> prev (p_lmom P) v t = prev (p_lmom P') v t) by (intros; apply same_prev; auto; intros; now apply A).
      assert (PA : forall v t, (t < g_N g)%nat -> prev (p_amom P) v t = prev (p_amom P') v t) by (intros; apply same_prev; auto; intros; now apply A).
      constructor.
      - intros t Ht. destruct (A t Ht) as (<- & _). now apply F1.
      - intros t Ht. specialize (F2 t Ht). destruct (A t Ht) as (A1 & A2 & A3).
        assert (DF : dynamics_fixed g ini cs q P t -> dynamics_fixed g ini cs q P' t).
        { unfold dynamics_fixed. rewrite <- NF, <- NT, <- PC, <- PL, <- PA, <- A1, <- A2, <- A3 by exact Ht. tauto. }
        destruct (g_heur g) eqn:Eh; auto. destruct (B eq_refl t Ht) as (B1 & B2 & B3).
        unfold dynamics_time in *. rewrite <- NF, <- NT, <- PC, <- PL, <- PA, <- A1, <- A2, <- A3, <- B1, <- B2, <- B3 by exact Ht. exact F2.
      - intros Eh. destruct (F3 Eh) as (G1 & G2). split; [intros t Ht; destruct (B Eh t Ht) as (<- & _); now apply G1|]. intros Ef. rewrite <- (G2 Ef). apply rsum_ext. intros t Ht. destruct (B Eh t Ht) as (-> & _). reflexivity.
      - intros e t He Ht Ha. destruct (F4 e t He Ht Ha) as [G1 G2 G3 G4 G5 G6 G7]. pose proof (same_arm e t He Ht Ha) as EA. destruct (C e t He Ht Ha) as (C1 & C2 & C3 & C4 & C5 & C6).
        constructor; rewrite <- ?EA, <- ?C1, <- ?C2, <- ?C3, <- ?C4, <- ?C5, <- ?C6; assumption.
    Qed.
    Lemma via_step_lt : forall tau, (0 < g_N g)%nat -> (via_step g tau < g_N g)%nat.
    Proof. intros tau HN. unfold via_step. lia. Qed.
    Lemma same_plan_cost : forall kin goal wtrack first, (g_via g <> [] -> (0 < g_N g)%nat) -> momentum_cost g ini cs q kin goal wtrack first P = momentum_cost g ini cs q kin goal wtrack first P'.
    Proof.
      intros kin goal wtrack first HV. assert (A := proj1 H). assert (B := proj1 (proj2 H)). assert (C := proj2 (proj2 H)). unfold momentum_cost. f_equal.
      - unfold via_cost, sum_list. f_equal. apply map_ext_in. intros v Hv. assert (HN : (0 < g_N g)%nat) by (apply HV; intros E; rewrite E in Hv; destruct Hv).
        destruct (A _ (via_step_lt (fst v) HN)) as (-> & _). reflexivity.
      - apply rsum_ext. intros t Ht. destruct (A t Ht) as (A1 & A2 & A3).
        assert (PL : prev (p_lmom P) (d_lmom ini) t = prev (p_lmom P') (d_lmom ini) t) by (apply same_prev; auto; intros; now apply A).
        assert (PA : prev (p_amom P) (d_amom ini) t = prev (p_amom P') (d_amom ini) t) by (apply same_prev; auto; intros; now apply A).
        assert (E1 : state_cost g kin goal wtrack P t = state_cost g kin goal wtrack P' t) by (unfold state_cost; rewrite A1, A2, A3; reflexivity).
        assert (E2 : rate_cost g ini q P t = rate_cost g ini q P' t).
        { unfold rate_cost. rewrite A2, A3, PL, PA. destruct (g_heur g) eqn:Eh; try reflexivity. destruct (B eq_refl t Ht) as (_ & -> & ->). reflexivity. }
        assert (E3 : time_cost g P t = time_cost g P' t). { unfold time_cost. destruct (g_heur g) eqn:Eh; try reflexivity. destruct (B eq_refl t Ht) as (-> & _). reflexivity. }
        rewrite E1, E2, E3. f_equal. unfold eff_sum. apply rsum_ext. intros e He. destruct (e_act (look q e t)) eqn:Ea; [|reflexivity].
        assert (FA : forall s, (s < g_N g)%nat -> force_at q P e s = force_at q P' e s).
        { intros s Hs. unfold force_at. destruct (e_act (look q e s)) eqn:Es; [|reflexivity]. destruct (C e s He Hs Es) as (_ & _ & -> & _). reflexivity. }
        destruct (C e t He Ht Ea) as (C1 & C2 & C3 & C4 & C5 & C6). f_equal.
        + unfold contact_cost. rewrite C3, C6. destruct (Nat.eqb_spec (S t) (g_N g)) as [El|El]; [|rewrite (FA (S t)) by lia]; (destruct t as [|s]; [reflexivity|rewrite (FA s) by lia; reflexivity]).
        + unfold gap_cost. rewrite C1, C2, C3, (same_arm e t He Ht Ea). reflexivity.
    Qed.
  End Two.
End Same.

Lemma wlen_nonneg : forall w a, nonneg3 w -> 0 <= wlen w a.
Proof.
  intros w a (A & B & C). unfold wlen, sqr. assert (H : forall u v, 0 <= u -> 0 <= u * (v * v)) by (intros u v Hu; apply Rmult_le_pos; [exact Hu|apply Rle_0_sqr]). specialize (H (vx w) (vx a) A) as H1. specialize (H (vy w) (vy a) B) as H2. specialize (H (vz w) (vz a) C) as H3. lra.
Qed.
Lemma cost_nonneg : forall g ini cs q kin goal wtrack first P, weights_ok g wtrack -> 0 <= momentum_cost g ini cs q kin goal wtrack first P.
Proof.
  intros g ini cs q kin goal wtrack first P W. unfold weights_ok in W. decompose [and] W. clear W. assert (SQ : forall u v, 0 <= u -> 0 <= u * sqr v) by (intros u v Hu; apply Rmult_le_pos; [exact Hu|apply Rle_0_sqr]).
  unfold momentum_cost. apply Rplus_le_le_0_compat.
  - unfold via_cost, sum_list. induction (g_via g) as [|v l IH]; cbn [map fold_right]; [lra|]. apply Rplus_le_le_0_compat; [now apply wlen_nonneg|exact IH].
  - apply rsum_nonneg. intros t Ht. assert (A1 : 0 <= state_cost g kin goal wtrack P t) by (unfold state_cost; destruct (S t =? g_N g)%nat; repeat match goal with |- 0 <= _ + _ => apply Rplus_le_le_0_compat end; now apply wlen_nonneg).
    assert (A2 : 0 <= rate_cost g ini q P t) by (unfold rate_cost; destruct (g_heur g); apply Rplus_le_le_0_compat; now apply wlen_nonneg).
    assert (A3 : 0 <= time_cost g P t) by (unfold time_cost; destruct (g_heur g); try lra; apply Rplus_le_le_0_compat; now apply SQ).
    enough (A4 : 0 <= eff_sum q (g_neff g) t (fun e => contact_cost g ini q P e t + (if gaps g first then gap_cost g cs q P e t else 0))) by lra.
    unfold eff_sum. apply rsum_nonneg. intros e He. destruct (e_act (look q e t)); [|lra]. apply Rplus_le_le_0_compat.
    + unfold contact_cost. cbv zeta. destruct (e <=? 1)%nat, ((e =? 2) || (e =? 3))%nat; repeat match goal with |- 0 <= _ + _ => apply Rplus_le_le_0_compat end; first [now apply wlen_nonneg|now apply SQ].
    + destruct (gaps g first); [|lra]. unfold gap_cost. cbv zeta. apply Rmult_le_pos; [assumption|]. unfold vdot.
      repeat match goal with |- context [?a * ?a] => let k := fresh in assert (k : 0 <= a * a) by (apply Rle_0_sqr); revert k; generalize (a * a); intros ? k end. lra.
Qed.

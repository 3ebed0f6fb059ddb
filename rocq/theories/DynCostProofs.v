(** Value of the objective of the momentum planner. *)
From Coq Require Import Reals List Arith ZArith Bool String Ascii Lra Lia.
Import ListNotations.
From Verif Require Import Base BaseProofs Vec3 ExprsModel ExprsProofs ConicModel ConicSpec ConicProofs ConicProofs4 ConicProofs5 ConicProofs6
  OptVarModel OptVarSpec OptVarProofs OptVarProofs2 OptVarProps CntModel CntSpec DynModel DynSpec DynProofs DynProofs2 DynProofs3 DynProofs4 KinModel KinSpec KinProofs KinProofs2 KinProofs3 DynCostSpec.
Local Open Scope R_scope.

Section Cost.
  Variables (g : dset) (q : dseq) (ini : dstate) (cs : nat -> list contact) (kin : list kinref) (goal wtrack : vec3) (first : bool).
  Variable stray : nat -> nat -> option ctype.
  Hypothesis HR : ready g q cs stray.
  Variable x : nat -> R.
  Let N := g_N g.
  Let P := plan_of g q x.
  Notation con t e := (contact_on cs q e t).

  Lemma timeopt_iff : timeopt g = true <-> g_heur g = TimeOptimization.
  Proof. unfold timeopt. destruct (g_heur g); cbn; split; congruence. Qed.
  Lemma tv : forall w e, term_value x (w, e) = w * sqr (aval x e).
  Proof. reflexivity. Qed.
  Lemma cost_axes_map : forall f, cost_of (map f axes) x = term_value x (f 0%nat) + term_value x (f 1%nat) + term_value x (f 2%nat).
  Proof. intros f. unfold axes. cbn [map]. rewrite !cost_cons, cost_nil. ring. Qed.
  Lemma axes3 : In 0%nat axes /\ In 1%nat axes /\ In 2%nat axes. Proof. unfold axes; cbn; tauto. Qed.

  Lemma via_ev : forall i tau, In i axes -> (0 < N)%nat -> aval x (ev g q bCOM i (trunc (tau / g_dt g))) = vget3 (p_com P (via_step g tau)) i.
  Proof.
    intros i tau Hi HN. set (z := trunc _).
    assert (Hs : (via_step g tau < N)%nat) by (unfold via_step; fold z N; lia).
    unfold P. rewrite <- (v_com g q x (via_step g tau) i Hs Hi). unfold evt, ev. f_equal. f_equal. unfold col. f_equal.
    destruct (init_blocks_spec (dblocks g q) 0%nat) as (ovs & E & L & H). change (Z.of_nat 0) with 0%Z in E. unfold dovs. rewrite E. cbn [fst].
    destruct (H bCOM _ (blk_com g q)) as (ov & Eo & S). rewrite (nth_error_nth _ _ _ Eo). rewrite S. unfold ov_id. f_equal. f_equal. f_equal.
    unfold col_bnd_ind. cbn [ov_cols b_cols free_block]. unfold via_step. fold z N. fold N in HN.
    rewrite Z2Nat.id by lia. repeat match goal with |- context [Z.leb ?a ?b] => destruct (Z.leb_spec a b) end; lia.
  Qed.
  Hypothesis HV : g_via g <> [] -> (0 < g_N g)%nat.
  Lemma via_is : cost_of (via_terms g q) x = via_cost g P.
  Proof.
    unfold via_terms, via_cost, sum_list. assert (H : g_via g = [] \/ (0 < N)%nat) by (clear - HV; destruct (g_via g); [now left|right; apply HV; discriminate]).
    destruct H as [->|HN]; [reflexivity|]. clear HV. induction (g_via g) as [|v l IH]; [reflexivity|]. cbn [flat_map map fold_right]. rewrite cost_app, IH. f_equal.
    rewrite cost_axes_map, !tv, !aval_sub, !via_ev by (auto; apply axes3). unfold ec. rewrite !aval_const. unfold wlen. cbn [vget3 vsub vx vy vz]. reflexivity.
  Qed.

  Section Step.
    Variable t : nat.
    Hypothesis Ht : (t < N)%nat.
    Lemma mom_is : cost_of (flat_map (mom_terms g q kin goal wtrack t) axes) x = state_cost g kin goal wtrack P t.
    Proof.
      destruct axes3 as (A0 & A1 & A2). rewrite cost_axes. unfold mom_terms, state_cost, ref_at. set (r := nth t kin _). destruct (S t =? g_N g)%nat; cbn [app]; rewrite !cost_cons, !cost_nil, !tv, !aval_sub, !v_com, !v_lm, !v_am by auto; unfold ec; rewrite !aval_const;
        unfold wlen; cbn [vget3 vsub vx vy vz]; fold P; ring.
    Qed.
    Lemma before_lm : forall i, In i axes -> aval x (match t with O => ec (vget3 (d_lmom ini) i) | S t' => evt g q bLM i t' end) = vget3 (prev (p_lmom P) (d_lmom ini) t) i.
    Proof. intros i Hi. destruct t as [|t']; [apply aval_const|]. cbn [prev]. apply v_lm; [unfold N in *; lia|exact Hi]. Qed.
    Lemma before_am : forall i, In i axes -> aval x (match t with O => ec (vget3 (d_amom ini) i) | S t' => evt g q bAM i t' end) = vget3 (prev (p_amom P) (d_amom ini) t) i.
    Proof. intros i Hi. destruct t as [|t']; [apply aval_const|]. cbn [prev]. apply v_am; [unfold N in *; lia|exact Hi]. Qed.
    Lemma rate_is : cost_of (flat_map (rate_terms g q ini t) axes) x = rate_cost g ini q P t.
    Proof.
      destruct axes3 as (A0 & A1 & A2). rewrite cost_axes. unfold rate_terms, rate_cost. destruct (timeopt g) eqn:T.
      - rewrite (proj1 timeopt_iff T). rewrite !cost_cons, !cost_nil, !tv, !v_lmd, !v_amd by auto. unfold wlen. cbn [vget3]. fold P. ring.
      - assert (E : forall a b : R, match g_heur g with TimeOptimization => a | _ => b end = b) by (intros a b; destruct (g_heur g) eqn:Eh; auto; unfold timeopt in T; rewrite Eh in T; discriminate).
        rewrite E. cbv zeta. rewrite !cost_cons, !cost_nil, !tv, !aval_scale, !aval_sub, !before_lm, !before_am, !v_lm, !v_am by auto.
        unfold wlen. cbn [vget3 vsub vscale vx vy vz]. change (sdt q t) with (step_time q t). fold P. unfold sqr. ring.
    Qed.
    Lemma time_is : cost_of (time_terms g q t) x = time_cost g P t.
    Proof.
      unfold time_terms, time_cost. destruct (timeopt g) eqn:T.
      - rewrite (proj1 timeopt_iff T). rewrite !cost_cons, cost_nil, !tv, aval_sub, !v_dt by auto. unfold ec. rewrite aval_const. fold P. ring.
      - destruct (g_heur g) eqn:Eh; auto. unfold timeopt in T; rewrite Eh in T; discriminate.
    Qed.
    Lemma force_next : forall e i, (e < g_neff g)%nat -> In i axes -> act q t e = true ->
      aval x (if (S t =? g_N g)%nat then force g q t e i else if act q (S t) e then force g q (S t) e i else ec 0) = vget3 (if (S t =? g_N g)%nat then p_frc P e t else force_at q P e (S t)) i.
    Proof.
      intros e i He Hi Ha. destruct (Nat.eqb_spec (S t) (g_N g)) as [E|E]; [now apply (v_frc g q cs stray HR)|]. unfold force_at. change (e_act (look q e (S t))) with (act q (S t) e).
      destruct (act q (S t) e) eqn:Ea; [apply (v_frc g q cs stray HR); auto; unfold N in *; lia|]. rewrite vget3_0. apply aval_const.
    Qed.
    Lemma force_prev : forall e i, (e < g_neff g)%nat -> In i axes ->
      aval x (match t with O => ec (vget3 (e_frc (d_eff ini e)) i) | S t' => if act q t' e then force g q t' e i else ec 0 end) = vget3 (match t with O => e_frc (d_eff ini e) | S s => force_at q P e s end) i.
    Proof.
      intros e i He Hi. destruct t as [|t']; [apply aval_const|]. unfold force_at. change (e_act (look q e t')) with (act q t' e).
      destruct (act q t' e) eqn:Ea; [apply (v_frc g q cs stray HR); auto; unfold N in *; lia|]. rewrite vget3_0. apply aval_const.
    Qed.
    Lemma contacts_is : cost_of (flat_map (fun i => force_terms g q t i ++ force_rate_terms g q ini t i) axes ++ torque_terms g q t) x = eff_sum q (g_neff g) t (fun e => contact_cost g ini q P e t).
    Proof.
      destruct axes3 as (A0 & A1 & A2). rewrite cost_app, cost_axes, !cost_app. unfold force_terms, force_rate_terms, torque_terms, effs, eff_sum. rewrite !cost_flat.
      rewrite <- !rsum_plus. apply rsum_ext. intros e He. change (e_act (look q e t)) with (act q t e). destruct (act q t e) eqn:Ha; [|rewrite !cost_nil; ring].
      cbv zeta. rewrite !cost_cons, !cost_nil, !tv. unfold contact_cost, is_foot, is_hand. rewrite !aval_sub, !force_next, !force_prev by auto.
      rewrite !(v_frc g q cs stray HR), (v_trq g q cs stray HR) by auto. fold P.
      set (after := if (S t =? g_N g)%nat then p_frc P e t else force_at q P e (S t)). set (bef := match t with O => e_frc (d_eff ini e) | S s => force_at q P e s end).
      unfold wlen. cbn [vsub vget3 vx vy vz]. ring.
    Qed.
    Lemma gap_is : forall e, (e < g_neff g)%nat -> act q t e = true ->
      cost_of (flat_map (fun i => [soft_term g (ub_parts g q (con t e) t e i) (part_vals q 1 (con t e) t e i) (eff_ev g q (bUB g e) i t e);
                            soft_term g (lb_parts g q (con t e) t e i) (part_vals q (-1) (con t e) t e i) (eff_ev g q (bLB g e) i t e)]) axes) x = gap_cost g cs q P e t.
    Proof.
      intros e He Ha. destruct axes3 as (A0 & A1 & A2). rewrite cost_axes, !cost_cons, !cost_nil. unfold soft_term. rewrite !tv. cbn [ub_parts lb_parts part_vals fst snd]. unfold lin_sq, negadd, negsub.
      rewrite !aval_sub, !aval_add, !aval_scale, !aval_subc, !aval_add, !aval_sub. rewrite !(v_lever g q cs stray HR), !(v_frc g q cs stray HR), !(v_ub g q cs stray HR), !(v_lb g q cs stray HR) by auto. unfold ec. rewrite !aval_const.
      fold P. assert (EL : forall i, In i axes -> lever_val q (con t e) t e i = vget3 (stored_arm cs q e t) i).
      { intros i Hi. unfold lever_val, stored_arm, surf. cbv zeta. rewrite vget3_sub, !vget3_add, !vget3_scale. unfold st. ring. }
      rewrite !EL by auto. change (e_frc (d_eff (st q t) e)) with (stored_force q e t).
      unfold gap_cost, tangent. set (a := arm cs q P e t). set (f := p_frc P e t). set (a0 := stored_arm cs q e t). set (f0 := stored_force q e t). set (u := p_ub P e t). set (l := p_lb P e t). clearbody a f a0 f0 u l.
      unfold vdot, upper, lower, sqr. cbn [vsub vget3 vx vy vz]. ring.
    Qed.
  End Step.
  Lemma gaps_is : gaps g first = negb first && timeopt g.
  Proof. unfold gaps, timeopt. destruct (g_heur g); cbn; now rewrite ?andb_false_r, ?andb_true_r. Qed.
  Lemma soft_is : cost_of (soft_pure g q cs first) x = rsum (g_N g) (fun t => eff_sum q (g_neff g) t (fun e => if gaps g first then gap_cost g cs q P e t else 0)).
  Proof.
    unfold soft_pure. rewrite gaps_is. destruct (negb first && timeopt g).
    - unfold steps. rewrite cost_flat. apply rsum_ext. intros t Ht. unfold effs. rewrite cost_flat. unfold eff_sum. apply rsum_ext. intros e He. change (e_act (look q e t)) with (act q t e).
      destruct (act q t e) eqn:Ha; [now apply gap_is|reflexivity].
    - rewrite cost_nil. symmetry. unfold eff_sum. assert (Z : forall n (f : nat -> R), (forall k, f k = 0) -> rsum n f = 0) by (induction n; intros f H; cbn [rsum]; [reflexivity|rewrite IHn, H by exact H; ring]).
      apply Z. intros t. apply Z. intros e. now destruct (e_act _).
  Qed.
  Lemma cost_perm2 : forall (a b : nat -> list (R * linexpr)) l, cost_of (flat_map (fun i => a i ++ b i) l) x = cost_of (flat_map a l) x + cost_of (flat_map b l) x.
  Proof. intros a b l. induction l as [|i l IH]; [cbn [flat_map]; rewrite !cost_nil; ring|]. cbn [flat_map]. rewrite !cost_app, IH. ring. Qed.
  Theorem objective_value : cost_of (obj_terms g q ini kin goal wtrack ++ soft_pure g q cs first) x = momentum_cost g ini cs q kin goal wtrack first P.
  Proof.
    rewrite cost_app, soft_is. unfold obj_terms, momentum_cost. rewrite cost_app, via_is, Rplus_assoc. f_equal. unfold steps. rewrite cost_flat, <- rsum_plus. apply rsum_ext. intros t Ht.
    rewrite !cost_app, cost_perm2, mom_is by exact Ht. rewrite cost_perm2, rate_is by exact Ht.
    pose proof (contacts_is t Ht) as HC. rewrite cost_app in HC. rewrite time_is by exact Ht.
    assert (EE : eff_sum q (g_neff g) t (fun e => contact_cost g ini q P e t + (if gaps g first then gap_cost g cs q P e t else 0)) =
      eff_sum q (g_neff g) t (fun e => contact_cost g ini q P e t) + eff_sum q (g_neff g) t (fun e => if gaps g first then gap_cost g cs q P e t else 0)).
    { unfold eff_sum. rewrite <- rsum_plus. apply rsum_ext. intros e He. destruct (e_act _); ring. }
    rewrite EE. rewrite <- HC. ring.
  Qed.
End Cost.

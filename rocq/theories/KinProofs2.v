From Coq Require Import Reals List Arith ZArith Bool String Ascii Lra Lia Permutation.
Import ListNotations.
From Verif Require Import Base BaseProofs Vec3 ExprsModel ExprsProofs ConicModel ConicSpec ConicProofs ConicProofs4 ConicProofs5 ConicProofs6
  OptVarModel OptVarSpec OptVarProofs OptVarProofs2 OptVarProps CntModel DynModel DynSpec DynProofs DynProofs2 DynProofs3 DynProofs4 KinModel KinSpec KinProofs.
Local Open Scope R_scope.

Section Traj.
  Variables (g : kset) (rob : robot) (dini : dstate) (dyn : nat -> dstate) (kini : kstate) (seqk : nat -> kstate).
  Hypothesis HI : 0 <= k_inf g.
  Let bs := kin_blocks (k_inf g) (k_N g) (k_neff g) (k_next g).
  Let ord := kin_order (k_neff g).
  Let N := k_N g.
  Lemma t_perm : Permutation ord (seq 0 (List.length bs)).
  Proof. apply (C08_kinematics_planner false); exact HI. Qed.
  Lemma t_free : forall b, In b bs -> exists r c inf, b = free_block r c inf /\ 0 <= inf.
  Proof.
    intros b Hb. unfold bs, kin_blocks in Hb. rewrite !in_app_iff in Hb. destruct Hb as [Hb|[Hb|Hb]].
    - cbn in Hb. repeat destruct Hb as [<-|Hb]; try (eexists _, _, _; split; [reflexivity|exact HI]). destruct Hb.
    - apply repeat_spec in Hb as ->. eexists _, _, _; split; [reflexivity|exact HI].
    - apply repeat_spec in Hb as ->. eexists _, _, _; split; [reflexivity|exact HI].
  Qed.
  Lemma nth_rep : forall {A} (a : A) n k, (k < n)%nat -> nth_error (repeat a n) k = Some a.
  Proof. intros A a n. induction n; intros [|k] H; cbn; try lia; auto. apply IHn. lia. Qed.
  Lemma b_com : blk bs kCOM 3 N. Proof. eexists. split; [reflexivity|split; reflexivity]. Qed.
  Lemma b_lm : blk bs kLM 3 N. Proof. eexists. split; [reflexivity|split; reflexivity]. Qed.
  Lemma b_am : blk bs kAM 3 N. Proof. eexists. split; [reflexivity|split; reflexivity]. Qed.
  Lemma b_e : forall k, (k < 2 * k_neff g)%nat -> blk bs (3 + k) 3 N.
  Proof.
    intros k Hk. exists (free_block 3 N (k_inf g)). split; [|split; reflexivity]. unfold bs, kin_blocks. cbn [app Nat.add nth_error]. rewrite nth_error_app1 by (rewrite repeat_length; lia). now apply nth_rep.
  Qed.
  Lemma b_ep : forall e, (e < k_neff g)%nat -> blk bs (kEP e) 3 N. Proof. intros. apply b_e. lia. Qed.
  Lemma b_ev : forall e, (e < k_neff g)%nat -> blk bs (kEV e) 3 N. Proof. intros. apply b_e. lia. Qed.
  Lemma b_d : forall k, (k < 4)%nat -> blk bs (3 + 2 * k_neff g + k) (k_next g) N.
  Proof.
    intros k Hk. exists (free_block (k_next g) N (k_inf g)). split; [|split; reflexivity]. unfold bs, kin_blocks. rewrite !nth_error_app2 by (rewrite ?repeat_length; cbn [List.length]; lia).
    rewrite repeat_length. cbn [List.length]. apply nth_rep. lia.
  Qed.
  Lemma b_q : blk bs (kQ g) (k_next g) N. Proof. pose proof (b_d 0). rewrite Nat.add_0_r in H. apply H. lia. Qed.
  Lemma b_qd : blk bs (kQD g) (k_next g) N. Proof. apply b_d. lia. Qed.
  Lemma b_tqd : blk bs (kTQD g) (k_next g) N. Proof. apply b_d. lia. Qed.
  Lemma b_tqdd : blk bs (kTQDD g) (k_next g) N. Proof. apply b_d. lia. Qed.

  Section X.
    Variable x : nat -> R.
    Let P := kplan_of g x.
    Lemma x_com : forall i t, In i axes -> (t < N)%nat -> x (k_col bs ord kCOM i t) = vget3 (kp_com P t) i.
    Proof. intros i t Hi Ht. rewrite (k_col_is bs ord t_perm t_free _ 3 N i t b_com (in_axes _ Hi) Ht). destruct Hi as [<-|[<-|[<-|[]]]]; reflexivity. Qed.
    Lemma x_lm : forall i t, In i axes -> (t < N)%nat -> x (k_col bs ord kLM i t) = vget3 (kp_lmom P t) i.
    Proof. intros i t Hi Ht. rewrite (k_col_is bs ord t_perm t_free _ 3 N i t b_lm (in_axes _ Hi) Ht). destruct Hi as [<-|[<-|[<-|[]]]]; reflexivity. Qed.
    Lemma x_am : forall i t, In i axes -> (t < N)%nat -> x (k_col bs ord kAM i t) = vget3 (kp_amom P t) i.
    Proof. intros i t Hi Ht. rewrite (k_col_is bs ord t_perm t_free _ 3 N i t b_am (in_axes _ Hi) Ht). destruct Hi as [<-|[<-|[<-|[]]]]; reflexivity. Qed.
    Lemma x_ep : forall e i t, (e < k_neff g)%nat -> In i axes -> (t < N)%nat -> x (k_col bs ord (kEP e) i t) = vget3 (kp_epos P e t) i.
    Proof. intros e i t He Hi Ht. rewrite (k_col_is bs ord t_perm t_free _ 3 N i t (b_ep e He) (in_axes _ Hi) Ht). destruct Hi as [<-|[<-|[<-|[]]]]; reflexivity. Qed.
    Lemma x_ev : forall e i t, (e < k_neff g)%nat -> In i axes -> (t < N)%nat -> x (k_col bs ord (kEV e) i t) = vget3 (kp_evel P e t) i.
    Proof.
      intros e i t He Hi Ht. rewrite (k_col_is bs ord t_perm t_free _ 3 N i t (b_ev e He) (in_axes _ Hi) Ht). unfold kEV. replace (3 + (2 * e + 1))%nat with (4 + 2 * e)%nat by lia.
      destruct Hi as [<-|[<-|[<-|[]]]]; reflexivity.
    Qed.
    Lemma x_q : forall d t, (d < k_next g)%nat -> (t < N)%nat -> x (k_col bs ord (kQ g) d t) = kp_q P d t.
    Proof. intros d t Hd Ht. now rewrite (k_col_is bs ord t_perm t_free _ (k_next g) N d t b_q Hd Ht). Qed.
    Lemma x_qd : forall d t, (d < k_next g)%nat -> (t < N)%nat -> x (k_col bs ord (kQD g) d t) = kp_qd P d t.
    Proof. intros d t Hd Ht. now rewrite (k_col_is bs ord t_perm t_free _ (k_next g) N d t b_qd Hd Ht). Qed.
    Lemma x_tqd : forall d t, (d < k_next g)%nat -> (t < N)%nat -> x (k_col bs ord (kTQD g) d t) = kp_tqd P d t.
    Proof. intros d t Hd Ht. now rewrite (k_col_is bs ord t_perm t_free _ (k_next g) N d t b_tqd Hd Ht). Qed.
    Lemma x_tqdd : forall d t, (d < k_next g)%nat -> (t < N)%nat -> x (k_col bs ord (kTQDD g) d t) = kp_tqdd P d t.
    Proof. intros d t Hd Ht. now rewrite (k_col_is bs ord t_perm t_free _ (k_next g) N d t b_tqdd Hd Ht). Qed.

    Lemma jac_axis : forall J i0 w i, In i axes -> vget3 (jac_times g J i0 w) i = rsum (k_next g) (fun d => J (i0 + i)%nat (k_ext g d) * w d).
    Proof. intros J i0 w i Hi. destruct Hi as [<-|[<-|[<-|[]]]]; reflexivity. Qed.
    Lemma coord_is : forall lo s d, lo = rb_log rob (ks_ori s) -> forall s', k_coord g lo s' d = coords g rob (ks_ori s) s' d.
    Proof.
      intros lo s d -> s'. unfold k_coord, coords, k_dof. do 6 (destruct d as [|d]; [reflexivity|]). reflexivity.
    Qed.
    Lemma axes_imp : forall (A : Prop) (F : nat -> Prop), (forall i, In i axes -> F i <-> A) -> True. Proof. auto. Qed.

    Lemma axis_iff : forall t i, (t < N)%nat -> In i axes ->
      ((forall c, In c (k_axis_calls g rob seqk t i) -> call_holds x c) <->
       vget3 (kp_com P t) i = vget3 (vadd (ks_com (kcur g rob seqk t)) (vscale (k_step g) (jac_times g (rb_jcom rob (seqk t)) 0 (fun d => kp_qd P d t)))) i /\
       vget3 (kp_lmom P t) i = vget3 (jac_times g (rb_ag rob (seqk t)) 0 (fun d => kp_tqd P d t)) i /\
       vget3 (kp_amom P t) i = vget3 (jac_times g (rb_ag rob (seqk t)) 3 (fun d => kp_tqd P d t)) i /\
       forall e, (e < k_neff g)%nat ->
         vget3 (kp_epos P e t) i = vget3 (vadd (ks_eff (kcur g rob seqk t) e) (vscale (k_step g) (kp_evel P e t))) i /\
         vget3 (kp_evel P e t) i = vget3 (jac_times g (rb_jeff rob (seqk t) e) 0 (fun d => kp_qd P d t)) i).
    Proof.
      intros t i Ht Hi. unfold k_axis_calls. fold bs ord. rewrite all_app, !all_cons, all_nil, all_flat. unfold k_effs. rewrite all_seq.
      assert (RQ : forall (c : nat -> R), rsum (k_next g) (fun d => c d * x (k_col bs ord (kQD g) d t)) = rsum (k_next g) (fun d => c d * kp_qd P d t)) by (intros; apply rsum_ext; intros; now rewrite x_qd).
      assert (RT : forall (c : nat -> R), rsum (k_next g) (fun d => c d * x (k_col bs ord (kTQD g) d t)) = rsum (k_next g) (fun d => c d * kp_tqd P d t)) by (intros; apply rsum_ext; intros; now rewrite x_tqd).
      rewrite !holds_eq. unfold kc. rewrite !aval_loop, !aval_addc, !aval_v, !aval_const, RQ, !RT, x_com, x_lm, x_am by assumption.
      rewrite vget3_add, vget3_scale, !jac_axis by exact Hi. cbn [Nat.add].
      rewrite (rsum_ext (k_next g) (fun d => k_step g * rb_jcom rob (seqk t) i (k_ext g d) * kp_qd P d t) (fun d => k_step g * (rb_jcom rob (seqk t) i (k_ext g d) * kp_qd P d t))) by (intros; ring). rewrite rsum_scal.
      assert (EE : forall e, (e < k_neff g)%nat ->
         (forall c, In c [CAddLin (le_sub (le_sub (kv bs ord (kEP e) i t) (le_of_const (vget3 (ks_eff (kcur g rob seqk t) e) i))) (le_of_var (k_col bs ord (kEV e) i t) (k_step g))) "=" (le_of_const 0);
          CAddLin (k_acc_loop (k_next g) (fun d => rb_jeff rob (seqk t) e i (k_ext g d)) (fun d => k_col bs ord (kQD g) d t) (le_of_var (k_col bs ord (kEV e) i t) (-1))) "=" (le_of_const 0)] -> call_holds x c) <->
         vget3 (kp_epos P e t) i = vget3 (vadd (ks_eff (kcur g rob seqk t) e) (vscale (k_step g) (kp_evel P e t))) i /\
         vget3 (kp_evel P e t) i = vget3 (jac_times g (rb_jeff rob (seqk t) e) 0 (fun d => kp_qd P d t)) i).
      { intros e He. rewrite !all_cons, all_nil, !holds_eq. unfold kv. rewrite aval_loop, !aval_sub, !aval_v, !aval_const, RQ, x_ep, x_ev by assumption.
        rewrite vget3_add, vget3_scale, jac_axis by exact Hi. cbn [Nat.add]. split; [intros (H1 & H2 & _)|intros (H1 & H2)]; repeat split; lra. }
      split.
      - intros ((H1 & H2 & H3 & _) & H4). split; [lra|]. split; [lra|]. split; [lra|]. intros e He. apply EE; [exact He|]. apply H4, He.
      - intros (H1 & H2 & H3 & H4). split; [repeat split; lra|]. intros e He. apply EE; [exact He|]. apply H4, He.
    Qed.
    Lemma traj_iff : (forall c, In c (k_constraints g rob dyn kini seqk) -> call_holds x c) <-> kin_feasible g rob dyn kini seqk P.
    Proof.
      unfold k_constraints, kin_feasible. rewrite all_flat. unfold k_steps. rewrite all_seq.
      split; intros H t Ht; specialize (H t Ht).
      - rewrite !all_app in H. destruct H as (HA & HF & HQ & HV & HC & HL).
        rewrite all_flat in HA. assert (A : forall i, In i axes -> _) by (intros i Hi; exact (proj1 (axis_iff t i Ht Hi) (HA i Hi))). clear HA.
        constructor.
        + apply veq_axes. intros i Hi. apply (A i Hi).
        + intros e He. apply veq_axes. intros i Hi. apply (A i Hi). exact He.
        + intros e He. apply veq_axes. intros i Hi. apply (A i Hi). exact He.
        + apply veq_axes. intros i Hi. apply (A i Hi).
        + apply veq_axes. intros i Hi. apply (A i Hi).
        + intros d Hd. unfold k_posture_calls in HQ. fold bs ord in HQ. rewrite all_map in HQ. unfold k_dofs in HQ. rewrite all_seq in HQ. specialize (HQ d Hd). rewrite holds_eq in HQ.
          unfold kv, kc in HQ. rewrite aval_sub, aval_add, !aval_v, !aval_const, x_q, x_qd in HQ by assumption. rewrite (coord_is _ (seqk t) d eq_refl) in HQ. unfold kcur in HQ. lra.
        + intros d Hd. unfold k_vel_calls in HV. fold bs ord in HV. rewrite all_map in HV. unfold k_dofs in HV. rewrite all_seq in HV. specialize (HV d Hd). rewrite holds_eq in HV.
          unfold kv, kc in HV. rewrite aval_sub, aval_div, aval_sub, !aval_v, aval_const, x_q, x_tqd in HV by assumption. unfold kdt in HV. destruct t as [|t]; cbn [before1].
          * rewrite aval_const, (coord_is _ kini d eq_refl) in HV. lra.
          * rewrite aval_v, x_q in HV by (assumption || lia). lra.
        + intros d Hd. unfold k_acc_calls in HC. fold bs ord in HC. rewrite all_map in HC. unfold k_dofs in HC. rewrite all_seq in HC. specialize (HC d Hd). rewrite holds_eq in HC.
          unfold kv, kc in HC. rewrite aval_sub, aval_v, aval_const, x_tqdd in HC by assumption. unfold kdt in HC. destruct t as [|t]; cbn [before1].
          * rewrite aval_v, x_tqd in HC by assumption. lra.
          * rewrite aval_div, aval_sub, !aval_v, !x_tqd in HC by (assumption || lia). lra.
        + intros e He. unfold k_floor_calls in HF. fold bs ord in HF. rewrite all_map in HF. unfold k_effs in HF. rewrite all_seq in HF. specialize (HF e He). rewrite holds_gt in HF.
          unfold kv, kc in HF. rewrite aval_v, aval_const, x_ep in HF by (assumption || (unfold axes; cbn; tauto)). change (vget3 (kp_epos P e t) 2) with (vz (kp_epos P e t)) in HF. lra.
        + intros d Hd. unfold k_limit_calls in HL. fold bs ord in HL. rewrite all_flat, all_seq in HL. specialize (HL d Hd). rewrite !all_cons, holds_gt, holds_lt in HL. destruct HL as (L1 & L2 & _).
          unfold kv, kc in L1, L2. rewrite aval_v, aval_const, x_q in L1 by (assumption || (unfold k_next, k_nact; lia)). rewrite aval_v, aval_const, x_q in L2 by (assumption || (unfold k_next, k_nact; lia)). unfold k_dof in *. cbv zeta. lra.
      - destruct H as [F1 F2 F3 F4 F5 F6 F7 F8 F9 F10]. rewrite !all_app. repeat match goal with |- _ /\ _ => split end.
        + rewrite all_flat. intros i Hi. apply (axis_iff t i Ht Hi). unfold kcur. rewrite <- F1, <- F4, <- F5. repeat (split; [reflexivity|]). intros e He. rewrite <- F3, <- F2 by exact He. now split.
        + unfold k_floor_calls. fold bs ord. rewrite all_map. unfold k_effs. rewrite all_seq. intros e He. rewrite holds_gt. unfold kv, kc. rewrite aval_v, aval_const, x_ep by (assumption || (unfold axes; cbn; tauto)). change (vget3 (kp_epos P e t) 2) with (vz (kp_epos P e t)). specialize (F9 e He). lra.
        + unfold k_posture_calls. fold bs ord. rewrite all_map. unfold k_dofs. rewrite all_seq. intros d Hd. rewrite holds_eq. unfold kv, kc. rewrite aval_sub, aval_add, !aval_v, !aval_const, x_q, x_qd by assumption.
          rewrite (coord_is _ (seqk t) d eq_refl). unfold kcur. specialize (F6 d Hd). lra.
        + unfold k_vel_calls. fold bs ord. rewrite all_map. unfold k_dofs. rewrite all_seq. intros d Hd. rewrite holds_eq. unfold kv, kc. rewrite aval_sub, aval_div, aval_sub, !aval_v, aval_const, x_q, x_tqd by assumption.
          unfold kdt. specialize (F7 d Hd). destruct t as [|t]; cbn [before1] in F7.
          * rewrite aval_const, (coord_is _ kini d eq_refl). lra.
          * rewrite aval_v, x_q by (assumption || lia). lra.
        + unfold k_acc_calls. fold bs ord. rewrite all_map. unfold k_dofs. rewrite all_seq. intros d Hd. rewrite holds_eq. unfold kv, kc. rewrite aval_sub, aval_v, aval_const, x_tqdd by assumption.
          unfold kdt. specialize (F8 d Hd). destruct t as [|t]; cbn [before1] in F8.
          * rewrite aval_v, x_tqd by assumption. lra.
          * rewrite aval_div, aval_sub, !aval_v, !x_tqd by (assumption || lia). lra.
        + unfold k_limit_calls. fold bs ord. rewrite all_flat, all_seq. intros d Hd. specialize (F10 d Hd). cbv zeta in F10. rewrite !all_cons, all_nil, holds_gt, holds_lt. unfold kv, kc.
          rewrite !aval_v, !aval_const, x_q by (assumption || (unfold k_next, k_nact in *; lia)). unfold k_dof. repeat split; lra.
    Qed.
  End X.
End Traj.

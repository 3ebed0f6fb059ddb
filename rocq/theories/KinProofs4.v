(** Posture problem. *)
From Coq Require Import Reals List Arith ZArith Bool String Ascii Lra Lia Permutation.
Import ListNotations.
From Verif Require Import Base BaseProofs Vec3 ExprsModel ExprsProofs ConicModel ConicSpec ConicProofs ConicProofs4 ConicProofs5 ConicProofs6
  OptVarModel OptVarSpec OptVarProofs OptVarProofs2 OptVarProps CntModel DynModel DynSpec DynProofs DynProofs2 DynProofs3 DynProofs4 KinModel KinSpec KinProofs KinProofs2 KinProofs3.
Local Open Scope R_scope.

Section Post.
  Variables (g : kset) (rob : robot) (s0 : kstate) (des : dstate).
  Hypothesis HI : 0 <= k_inf g.
  Let bs := post_blocks g (rb_ncon rob).
  Let ord := post_order.
  Let vs := k_var_calls bs ord.
  Let nv := List.length vs.
  Lemma p_perm : Permutation ord (seq 0 (List.length bs)).
  Proof.
    unfold ord, post_order. cbn. do 2 apply perm_skip. change [3;4;5;6;2]%nat with ([3;4;5;6] ++ [2])%nat. change [2;3;4;5;6]%nat with ([2] ++ [3;4;5;6])%nat. apply Permutation_app_comm.
  Qed.
  Lemma p_free : forall b, In b bs -> exists r c inf, b = free_block r c inf /\ 0 <= inf.
  Proof. intros b Hb. unfold bs, post_blocks in Hb. cbn [In] in Hb. repeat destruct Hb as [<-|Hb]; try (eexists _, _, _; split; [reflexivity|exact HI]). destruct Hb. Qed.
  Lemma c_slack : blk bs bSLACK (rb_ncon rob) 1. Proof. eexists. split; [reflexivity|split; reflexivity]. Qed.
  Lemma c_q : blk bs bQ (k_nact g) 1. Proof. eexists. split; [reflexivity|split; reflexivity]. Qed.
  Lemma c_qd : blk bs bQD (k_next g) 1. Proof. eexists. split; [reflexivity|split; reflexivity]. Qed.
  Lemma c_qdd : blk bs bQDD (k_next g) 1. Proof. eexists. split; [reflexivity|split; reflexivity]. Qed.
  Lemma c_tqd : blk bs bTQD (k_next g) 1. Proof. eexists. split; [reflexivity|split; reflexivity]. Qed.
  Lemma p_vars : forall c, In c vs -> is_var c.
  Proof. apply (k_vars_are bs ord p_perm p_free). Qed.
  Lemma p_in : forall k rows r, blk bs k rows 1 -> (r < rows)%nat -> In (k_col bs ord k r 0) (seq 0 nv).
  Proof.
    intros. apply in_seq. unfold nv, vs. rewrite (k_vars_len bs ord). split; [lia|]. cbn [Nat.add]. apply (k_col_lt bs ord p_perm p_free k rows 1); auto.
  Qed.
  Lemma p_sep : forall k k' rows rows' r r', blk bs k rows 1 -> blk bs k' rows' 1 -> (r < rows)%nat -> (r' < rows')%nat -> k <> k' -> k_col bs ord k r 0 <> k_col bs ord k' r' 0.
  Proof.
    intros k k' rows rows' r r' B1 B2 H1 H2 D E. destruct (k_col_inj bs ord p_perm p_free k k' rows rows' 1 1 r r' 0 0 B1 B2 H1 ltac:(lia) H2 ltac:(lia) E) as (A & _ & _). tauto.
  Qed.
  Ltac blk_tac := first [apply c_slack|apply c_q|apply c_qd|apply c_qdd|apply c_tqd].
  Ltac inn := eapply p_in; [blk_tac|unfold k_next, k_nact in *; lia].
  Ltac sep := eapply p_sep; [blk_tac|blk_tac| | |unfold bSLACK, bQ, bQD, bQDD, bTQD; lia]; unfold k_next, k_nact in *; lia.
  Lemma p_mom_uses : forall U row dv l, (forall d, In d l -> In (k_col bs ord bQDD d 0) U /\ In (k_col bs ord bTQD d 0) U) -> forall l0, uses U l0 ->
    uses U (fold_left (fun l d => le_add l (le_add (le_of_var (k_col bs ord bQDD d 0) (rb_ag rob s0 row d)) (le_of_var (k_col bs ord bTQD d 0) (dv d)))) l l0).
  Proof.
    intros U row dv. induction l as [|d l IH]; intros H l0 H0; cbn [fold_left]; [exact H0|]. apply IH; [intros; apply H; now right|]. apply uses_add; [exact H0|]. apply uses_add; apply uses_var, H; now left.
  Qed.
  Lemma p_terms : kweights_ok g -> 0 <= k_lambda g -> 0 <= k_slackw g -> forall t, In t (p_obj_terms g rob s0 des) -> 0 <= fst t /\ uses (seq 0 nv) (snd t).
  Proof.
    intros (W1 & W2 & W3 & W4 & W5 & W6 & W7 & W8 & W9 & W10) WL WS p Hp. unfold p_obj_terms in Hp.
    assert (NN : forall w i, nonneg3 w -> In i axes -> 0 <= vget3 w i) by (intros w i (A & B & C) [<-|[<-|[<-|[]]]]; assumption).
    rewrite !in_app_iff in Hp. destruct Hp as [Hp|[Hp|[Hp|Hp]]].
    - apply in_flat_map in Hp. destruct Hp as (i & Hi & Hp). rewrite in_app_iff in Hp. destruct Hp as [Hp|Hp].
      + destruct Hp as [<-|[<-|[<-|[]]]]; unfold p_com_term, p_mom_term; cbn [fst snd]; (split; [now apply NN|]).
        * repeat us; intros; inn.
        * apply p_mom_uses; [|apply uses_const]. intros d Hd. apply in_seq in Hd. split; inn.
        * apply p_mom_uses; [|apply uses_const]. intros d Hd. apply in_seq in Hd. split; inn.
      + apply in_map_iff in Hp. destruct Hp as (e & <- & He). unfold p_eff_term. cbn [fst snd]. split; [destruct (e_act (d_eff des e)); now apply NN|]. repeat us; intros; inn.
    - apply in_flat_map in Hp. destruct Hp as (d & Hd & Hp). apply in_seq in Hd. destruct Hp as [<-|[<-|[]]]; cbn [fst snd]; (split; [exact WL|]); unfold kv; repeat us; inn.
    - apply in_map_iff in Hp. destruct Hp as (d & <- & Hd). apply in_seq in Hd. cbn [fst snd]. split; [exact WS|]. unfold kv; repeat us; inn.
    - apply in_map_iff in Hp. destruct Hp as (d & <- & Hd). apply in_seq in Hd. cbn [fst snd]. split; [apply W8|]. unfold kv; repeat us; inn.
  Qed.
  Lemma p_calls : forall c, In c (p_constraints g rob s0) -> is_lin c /\ call_scoped (seq 0 nv) c /\ call_not_absurd c.
  Proof.
    intros c Hc. unfold p_constraints in Hc. rewrite in_app_iff in Hc. destruct Hc as [Hc|Hc]; apply in_flat_map in Hc; destruct Hc as (d & Hd & Hc); apply in_seq in Hd.
    - destruct Hc as [<-|[<-|[]]]; (split; [exact I|]); (split; [split; unfold kv; repeat us; intros; inn|]).
      + eapply (row_depends _ _ _ (k_col bs ord bSLACK d 0) 1); [lra|]. fold bs ord. unfold kv. rewrite !aval_const, !aval_v, ind_same. ring.
      + eapply (row_depends _ _ _ (k_col bs ord bSLACK d 0) (-1)); [lra|]. fold bs ord. rewrite loop_zero, loop_sep by (intros; sep). unfold kv. rewrite !aval_const, !aval_v, ind_same. ring.
    - destruct Hc as [<-|[<-|[<-|[]]]]; (split; [exact I|]); (split; [split; unfold kv; repeat us; intros; inn|]).
      + eapply (row_depends _ _ _ (k_col bs ord bQ d 0) (-1)); [lra|]. fold bs ord. rewrite !aval_add, !aval_addc, !aval_const, !aval_v, ind_same, ind_other by sep. ring.
      + eapply (row_depends _ _ _ (k_col bs ord bQ d 0) 1); [lra|]. fold bs ord. unfold kv. rewrite !aval_const, !aval_v, ind_same. ring.
      + eapply (row_depends _ _ _ (k_col bs ord bQ d 0) 1); [lra|]. fold bs ord. unfold kv. rewrite !aval_const, !aval_v, ind_same. ring.
  Qed.
  Section X.
    Variable x : nat -> R.
    Let P := pplan_of g rob x.
    Lemma y_slack : forall d, (d < rb_ncon rob)%nat -> x (k_col bs ord bSLACK d 0) = pp_slack P d.
    Proof. intros d Hd. now rewrite (k_col_is bs ord p_perm p_free _ _ 1 d 0 c_slack Hd ltac:(lia)). Qed.
    Lemma y_q : forall d, (d < k_nact g)%nat -> x (k_col bs ord bQ d 0) = pp_q P d.
    Proof. intros d Hd. now rewrite (k_col_is bs ord p_perm p_free _ _ 1 d 0 c_q Hd ltac:(lia)). Qed.
    Lemma y_qd : forall d, (d < k_next g)%nat -> x (k_col bs ord bQD d 0) = pp_qd P d.
    Proof. intros d Hd. now rewrite (k_col_is bs ord p_perm p_free _ _ 1 d 0 c_qd Hd ltac:(lia)). Qed.
    Lemma y_qdd : forall d, (d < k_next g)%nat -> x (k_col bs ord bQDD d 0) = pp_qdd P d.
    Proof. intros d Hd. now rewrite (k_col_is bs ord p_perm p_free _ _ 1 d 0 c_qdd Hd ltac:(lia)). Qed.
    Lemma y_tqd : forall d, (d < k_next g)%nat -> x (k_col bs ord bTQD d 0) = pp_tqd P d.
    Proof. intros d Hd. now rewrite (k_col_is bs ord p_perm p_free _ _ 1 d 0 c_tqd Hd ltac:(lia)). Qed.
    Lemma post_iff : (forall c, In c (p_constraints g rob s0) -> call_holds x c) <-> posture_feasible g rob s0 P.
    Proof.
      unfold p_constraints. fold bs ord. rewrite all_app, !all_flat, !all_seq.
      assert (A : forall d, (d < rb_ncon rob)%nat ->
        ((forall c, In c [CAddLin (kv bs ord bSLACK d 0) ">" (le_of_const 0); CAddLin (k_acc_loop (k_next g) (fun k => rb_cmat rob s0 d k) (fun k => k_col bs ord bQD k 0) (le_of_const (- rb_cvec rob s0 d))) "<" (kv bs ord bSLACK d 0)] -> call_holds x c)
         <-> 0 <= pp_slack P d /\ rsum (k_next g) (fun k => rb_cmat rob s0 d k * pp_qd P k) - rb_cvec rob s0 d <= pp_slack P d)).
      { intros d Hd. rewrite !all_cons, all_nil, holds_gt, holds_lt. unfold kv. rewrite aval_loop, !aval_v, !aval_const, y_slack by exact Hd.
        rewrite (rsum_ext (k_next g) _ (fun k => rb_cmat rob s0 d k * pp_qd P k)) by (intros; now rewrite y_qd). split; intros; repeat split; try lra; intuition lra. }
      assert (B : forall d, (d < k_nact g)%nat ->
        ((forall c, In c [CAddLin (le_add (le_addc (le_of_var (k_col bs ord bQ d 0) (-1)) (ks_jnt (cur g rob s0) d)) (le_of_var (k_col bs ord bQD (6 + d) 0) (k_step g))) "=" (le_of_const 0);
            CAddLin (kv bs ord bQ d 0) ">" (le_of_const (k_min g d)); CAddLin (kv bs ord bQ d 0) "<" (le_of_const (k_max g d))] -> call_holds x c)
         <-> pp_q P d = ks_jnt (rb_update rob s0 (k_step g)) d + k_step g * pp_qd P (6 + d)%nat /\ k_min g d <= pp_q P d <= k_max g d)).
      { intros d Hd. rewrite !all_cons, all_nil, holds_eq, holds_gt, holds_lt. unfold kv. rewrite aval_add, aval_addc, !aval_v, !aval_const, y_q by exact Hd. rewrite y_qd by (unfold k_next; lia). unfold cur.
        split; intros; repeat split; try lra; intuition lra. }
      split.
      - intros (H1 & H2). constructor; intros d Hd.
        + now apply (A d Hd), H1.
        + now apply (A d Hd), H1.
        + now apply (B d Hd), H2.
        + now apply (B d Hd), H2.
      - intros [F1 F2 F3 F4]. split; intros d Hd.
        + apply (A d Hd). split; auto.
        + apply (B d Hd). split; auto.
    Qed.
    Lemma p_cost : cost_of (p_obj_terms g rob s0 des) x = posture_cost g rob s0 des P + momentum_cost g rob s0 des P.
    Proof.
      unfold p_obj_terms. fold bs ord. rewrite !cost_app, cost_flat, !cost_map, cost_axes, !cost_app, !cost_map.
      assert (LQ : forall coeff, rsum (k_next g) (fun d => coeff d * x (k_col bs ord bQD d 0)) = rsum (k_next g) (fun d => coeff d * pp_qd P d)) by (intros; apply rsum_ext; intros; now rewrite y_qd).
      assert (MF : forall row dv, aval x (fold_left (fun l d => le_add l (le_add (le_of_var (k_col bs ord bQDD d 0) (rb_ag rob s0 row d)) (le_of_var (k_col bs ord bTQD d 0) (rb_dag rob s0 row d)))) (seq 0 (k_next g)) (le_of_const dv))
         = dv + rsum (k_next g) (fun d => rb_ag rob s0 row d * pp_qdd P d) + rsum (k_next g) (fun d => rb_dag rob s0 row d * pp_tqd P d)).
      { intros row dv. assert (G : forall n, (n <= k_next g)%nat -> aval x (fold_left (fun l d => le_add l (le_add (le_of_var (k_col bs ord bQDD d 0) (rb_ag rob s0 row d)) (le_of_var (k_col bs ord bTQD d 0) (rb_dag rob s0 row d)))) (seq 0 n) (le_of_const dv))
           = dv + rsum n (fun d => rb_ag rob s0 row d * pp_qdd P d) + rsum n (fun d => rb_dag rob s0 row d * pp_tqd P d)).
        { induction n as [|n IH]; intros Hn; [cbn [seq fold_left rsum]; rewrite aval_const; ring|]. rewrite seq_S, fold_left_app. cbn [fold_left Nat.add rsum]. rewrite !aval_add, !aval_v, IH by lia. rewrite y_qdd, y_tqd by lia. ring. }
        apply G. lia. }
      assert (C1 : forall i, In i axes -> term_value x (p_com_term g rob s0 des i) = vget3 (kw_com g) i * sqr (rsum (k_next g) (fun d => rb_jcom rob s0 i d * pp_qd P d) - vget3 (des_com g rob s0 des) i)).
      { intros i Hi. unfold p_com_term, term_value. cbn [fst snd]. fold bs ord. rewrite aval_loop, aval_const, LQ. unfold sqr. ring. }
      assert (C2 : forall w dv row i, term_value x (p_mom_term g rob s0 w dv row i) = vget3 w i * sqr (rsum (k_next g) (fun d => rb_ag rob s0 row d * pp_qdd P d) + rsum (k_next g) (fun d => rb_dag rob s0 row d * pp_tqd P d) - vget3 dv i)).
      { intros w dv row i. unfold p_mom_term, term_value. cbn [fst snd]. fold bs ord. rewrite MF. unfold sqr. ring. }
      assert (C3 : forall i e, term_value x (p_eff_term g rob s0 des i e) = vget3 (if e_act (d_eff des e) then kw_eff g else kw_neff g) i * sqr (rsum (k_next g) (fun d => rb_jeff rob s0 e i d * pp_qd P d) - vget3 (des_eff g rob s0 des e) i)).
      { intros i e. unfold p_eff_term, term_value. cbn [fst snd]. fold bs ord. rewrite aval_loop, aval_const, LQ. unfold sqr. ring. }
      rewrite !cost_cons, !cost_nil, !C1, !C2 by (unfold axes; cbn; tauto).
      rewrite (rsum_ext (k_neff g) _ _ (fun e _ => C3 0%nat e)), (rsum_ext (k_neff g) _ _ (fun e _ => C3 1%nat e)), (rsum_ext (k_neff g) _ _ (fun e _ => C3 2%nat e)).
      rewrite (rsum_ext (k_next g) (fun d => cost_of [(k_lambda g, kv bs ord bQD d 0); (k_lambda g, kv bs ord bQDD d 0)] x) (fun d => k_lambda g * sqr (pp_qd P d) + k_lambda g * sqr (pp_qdd P d))).
      2:{ intros d Hd. rewrite !cost_cons, cost_nil. unfold term_value, kv. cbn [fst snd]. rewrite !aval_v, y_qd, y_qdd by exact Hd. unfold sqr. ring. }
      rewrite (rsum_ext (rb_ncon rob) _ (fun i => k_slackw g * sqr (pp_slack P i))).
      2:{ intros d Hd. unfold term_value, kv. cbn [fst snd]. rewrite !aval_v, y_slack by exact Hd. unfold sqr. ring. }
      rewrite (rsum_ext (k_nact g) _ (fun d => kw_def g d * sqr (pp_q P d - k_qdef g d))).
      2:{ intros d Hd. unfold term_value, kv. cbn [fst snd]. rewrite !aval_sub, !aval_v, aval_const, y_q by exact Hd. unfold sqr. ring. }
      unfold posture_cost, momentum_cost, wsq3, jac3, des_com, des_lmom, des_amom, des_eff, cur, k_nact. cbn [vx vy vz vsub vadd vscale vget3 Nat.add]. rewrite !rsum_plus. ring.
    Qed.
  End X.
End Post.

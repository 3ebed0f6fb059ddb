From Coq Require Import Reals List Arith ZArith Bool String Ascii Lra Lia Permutation.
Import ListNotations.
From Verif Require Import Base BaseProofs Vec3 ExprsModel ExprsProofs ConicModel ConicSpec ConicProofs ConicProofs4 ConicProofs5 ConicProofs6
  OptVarModel OptVarSpec OptVarProofs OptVarProofs2 OptVarProps CntModel DynModel DynSpec DynProofs DynProofs2 DynProofs3 DynProofs4 KinModel KinSpec KinProofs KinProofs2.
Local Open Scope R_scope.

Lemma uses_div : forall U a k, uses U a -> uses U (le_div a k).
Proof. intros. unfold le_div. now apply uses_scale. Qed.
Lemma uses_addc : forall U a k, uses U a -> uses U (le_addc a k).
Proof. intros. unfold le_addc. apply uses_add; [assumption|apply uses_const]. Qed.
Lemma loop_sep : forall c n coeff col l0, (forall d, (d < n)%nat -> c <> col d) -> aval (ind c) (k_acc_loop n coeff col l0) = aval (ind c) l0.
Proof.
  intros c n coeff col l0 H. rewrite aval_loop, rsum_zero; [ring|]. intros d Hd. rewrite ind_other by (now apply H). ring.
Qed.
Lemma loop_zero : forall n coeff col l0, aval (fun _ => 0) (k_acc_loop n coeff col l0) = aval (fun _ => 0) l0.
Proof. intros. rewrite aval_loop, rsum_zero by (intros; ring). ring. Qed.
Ltac us := match goal with
  | |- uses _ (le_sub _ _) => apply uses_sub
  | |- uses _ (le_add _ _) => apply uses_add
  | |- uses _ (le_addc _ _) => apply uses_addc
  | |- uses _ (le_div _ _) => apply uses_div
  | |- uses _ (le_scale _ _) => apply uses_scale
  | |- uses _ (le_of_const _) => apply uses_const
  | |- uses _ (le_of_var _ _) => apply uses_var
  | |- uses _ (k_acc_loop _ _ _ _) => apply k_loop_uses
  end.
Section Traj.
  Variables (g : kset) (rob : robot) (dini : dstate) (dyn : nat -> dstate) (kini : kstate) (seqk : nat -> kstate).
  Hypothesis HI : 0 <= k_inf g.
  Let bs := kin_blocks (k_inf g) (k_N g) (k_neff g) (k_next g).
  Let ord := kin_order (k_neff g).
  Let N := k_N g.
  Let vs := k_var_calls bs ord.
  Let nv := List.length vs.
  Lemma t_vars : forall c, In c vs -> is_var c.
  Proof. apply (k_vars_are bs ord (t_perm g HI) (t_free g HI)). Qed.
  Lemma t_in : forall k rows cols r c, blk bs k rows cols -> (r < rows)%nat -> (c < cols)%nat -> In (k_col bs ord k r c) (seq 0 nv).
  Proof.
    intros. apply in_seq. unfold nv, vs. rewrite (k_vars_len bs ord). split; [lia|]. cbn [Nat.add].
    now apply (k_col_lt bs ord (t_perm g HI) (t_free g HI) k rows cols).
  Qed.
  Lemma t_sep : forall k k' rows rows' cols cols' r r' c c', blk bs k rows cols -> blk bs k' rows' cols' -> (r < rows)%nat -> (c < cols)%nat -> (r' < rows')%nat -> (c' < cols')%nat ->
    (k <> k' \/ c <> c') -> k_col bs ord k r c <> k_col bs ord k' r' c'.
  Proof.
    intros k k' rows rows' cols cols' r r' c c' B1 B2 H1 H2 H3 H4 D E.
    destruct (k_col_inj bs ord (t_perm g HI) (t_free g HI) k k' rows rows' cols cols' r r' c c' B1 B2 H1 H2 H3 H4 E) as (-> & _ & ->). tauto.
  Qed.
  Ltac blk_tac := first [apply b_com|apply b_lm|apply b_am|apply b_q|apply b_qd|apply b_tqd|apply b_tqdd|apply b_ep; assumption|apply b_ev; assumption].
  Ltac inn := eapply t_in; [blk_tac|unfold k_next, k_nact in *; lia|unfold N in *; lia].
  Ltac sep := first [eapply t_sep; [blk_tac|blk_tac| | | | |left; unfold kCOM, kLM, kAM, kEP, kEV, kQ, kQD, kTQD, kTQDD; lia]; unfold N, k_next, k_nact in *; lia
                    |eapply t_sep; [blk_tac|blk_tac| | | | |right; lia]; unfold N, k_next, k_nact in *; lia].
  Lemma t_terms : kweights_ok g -> forall t, In t (k_obj_terms g dini dyn) -> 0 <= fst t /\ uses (seq 0 nv) (snd t).
  Proof.
    intros (W1 & W2 & W3 & W4 & W5 & W6 & W7 & W8 & W9 & W10) p Hp. unfold k_obj_terms, k_steps in Hp. apply in_flat_map in Hp. destruct Hp as (t & Ht & Hp). apply in_seq in Ht.
    assert (NN : forall w i, nonneg3 w -> In i axes -> 0 <= vget3 w i) by (intros w i (A & B & C) [<-|[<-|[<-|[]]]]; assumption).
    rewrite !in_app_iff in Hp. destruct Hp as [Hp|[Hp|Hp]].
    - apply in_flat_map in Hp. destruct Hp as (i & Hi & Hp). pose proof (in_axes i Hi) as Hi3. unfold k_track_terms in Hp. rewrite !in_app_iff in Hp. destruct Hp as [Hp|[Hp|Hp]].
      + destruct Hp as [<-|[<-|[<-|[]]]]; cbn [fst snd]; (split; [now apply NN|]); unfold kc, kv; repeat us; inn.
      + destruct t as [|t]; destruct Hp as [<-|[<-|[]]]; cbn [fst snd]; (split; [now apply NN|]); unfold kc, kv; repeat us; inn.
      + apply in_map_iff in Hp. destruct Hp as (e & <- & He). unfold k_effs in He. apply in_seq in He. assert (He' : (e < k_neff g)%nat) by lia. cbn [fst snd]. split; [destruct (e_act (d_eff (dyn t) e)); now apply NN|]. unfold kc, kv; repeat us; inn.
    - apply in_map_iff in Hp. destruct Hp as (d & <- & Hd). apply in_seq in Hd. cbn [fst snd]. split; [apply W8|]. unfold kc, kv; repeat us; inn.
    - apply in_flat_map in Hp. destruct Hp as (d & Hd & Hp). unfold k_dofs in Hd. apply in_seq in Hd. destruct Hp as [<-|[<-|[]]]; cbn [fst snd]; (split; [apply W9 || apply W10|]); unfold kc, kv; repeat us; inn.
  Qed.
  Lemma t_calls : forall c, In c (k_constraints g rob dyn kini seqk) -> is_lin c /\ call_scoped (seq 0 nv) c /\ call_not_absurd c.
  Proof.
    intros c Hc. unfold k_constraints, k_steps in Hc. apply in_flat_map in Hc. destruct Hc as (t & Ht & Hc). apply in_seq in Ht. rewrite !in_app_iff in Hc.
    destruct Hc as [Hc|[Hc|[Hc|[Hc|[Hc|Hc]]]]].
    - apply in_flat_map in Hc. destruct Hc as (i & Hi & Hc). pose proof (in_axes i Hi) as Hi3. unfold k_axis_calls in Hc. rewrite in_app_iff in Hc. destruct Hc as [Hc|Hc].
      + destruct Hc as [<-|[<-|[<-|[]]]]; (split; [exact I|]); (split; [split; unfold kc, kv; repeat us; intros; inn|]).
        * eapply (row_depends _ _ _ (k_col bs ord kCOM i t) (-1)); [lra|]. fold bs ord. rewrite loop_zero, loop_sep by (intros; sep). unfold kc. rewrite !aval_const, !aval_addc, !aval_v, ind_same. ring.
        * eapply (row_depends _ _ _ (k_col bs ord kLM i t) (-1)); [lra|]. fold bs ord. rewrite loop_zero, loop_sep by (intros; sep). unfold kc. rewrite !aval_const, !aval_v, ind_same. ring.
        * eapply (row_depends _ _ _ (k_col bs ord kAM i t) (-1)); [lra|]. fold bs ord. rewrite loop_zero, loop_sep by (intros; sep). unfold kc. rewrite !aval_const, !aval_v, ind_same. ring.
      + apply in_flat_map in Hc. destruct Hc as (e & He & Hc). unfold k_effs in He. apply in_seq in He. assert (He' : (e < k_neff g)%nat) by lia.
        destruct Hc as [<-|[<-|[]]]; (split; [exact I|]); (split; [split; unfold kc, kv; repeat us; intros; inn|]).
        * eapply (row_depends _ _ _ (k_col bs ord (kEP e) i t) 1); [lra|]. fold bs ord. unfold kv, kc. rewrite !aval_sub, !aval_const, !aval_v, ind_same, ind_other by sep. ring.
        * eapply (row_depends _ _ _ (k_col bs ord (kEV e) i t) (-1)); [lra|]. fold bs ord. rewrite loop_zero, loop_sep by (intros; sep). unfold kc. rewrite !aval_const, !aval_v, ind_same. ring.
    - unfold k_floor_calls in Hc. apply in_map_iff in Hc. destruct Hc as (e & <- & He). unfold k_effs in He. apply in_seq in He. assert (He' : (e < k_neff g)%nat) by lia.
      split; [exact I|]. split; [split; unfold kc, kv; repeat us; intros; inn|]. eapply (row_depends _ _ _ (k_col bs ord (kEP e) 2 t) 1); [lra|]. fold bs ord. unfold kv, kc. rewrite !aval_const, !aval_v, ind_same. ring.
    - unfold k_posture_calls in Hc. apply in_map_iff in Hc. destruct Hc as (d & <- & Hd). unfold k_dofs in Hd. apply in_seq in Hd.
      split; [exact I|]. split; [split; unfold kc, kv; repeat us; intros; inn|]. eapply (row_depends _ _ _ (k_col bs ord (kQ g) d t) 1); [lra|]. fold bs ord. unfold kv, kc.
      rewrite !aval_sub, !aval_add, !aval_const, !aval_v, ind_same, ind_other by sep. ring.
    - unfold k_vel_calls in Hc. apply in_map_iff in Hc. destruct Hc as (d & <- & Hd). unfold k_dofs in Hd. apply in_seq in Hd.
      split; [exact I|]. split; [split; unfold kc, kv; repeat us; intros; try (destruct t; repeat us); inn|]. eapply (row_depends _ _ _ (k_col bs ord (kTQD g) d t) 1); [lra|]. fold bs ord. unfold kv, kc.
      rewrite !aval_sub, !aval_div, !aval_sub, !aval_const, !aval_v, ind_same. rewrite ind_other by sep. destruct t as [|t]; rewrite ?aval_const, ?aval_v; [ring|]. rewrite ind_other by sep. ring.
    - unfold k_acc_calls in Hc. apply in_map_iff in Hc. destruct Hc as (d & <- & Hd). unfold k_dofs in Hd. apply in_seq in Hd.
      split; [exact I|]. split; [split; unfold kc, kv; repeat us; intros; try (destruct t; repeat us); inn|]. eapply (row_depends _ _ _ (k_col bs ord (kTQDD g) d t) 1); [lra|]. fold bs ord. unfold kv, kc.
      rewrite !aval_sub, !aval_const, !aval_v, ind_same. destruct t as [|t]; rewrite ?aval_div, ?aval_sub, ?aval_v; rewrite ind_other by sep; [ring|]. rewrite ind_other by sep. ring.
    - unfold k_limit_calls in Hc. apply in_flat_map in Hc. destruct Hc as (d & Hd & Hc). apply in_seq in Hd.
      destruct Hc as [<-|[<-|[]]]; (split; [exact I|]); (split; [split; unfold kc, kv; repeat us; intros; inn|]); eapply (row_depends _ _ _ (k_col bs ord (kQ g) (6 + d) t) 1); try lra; fold bs ord; unfold kv, kc; rewrite !aval_const, !aval_v, ind_same; ring.
  Qed.
End Traj.

(** ** The objective *)
Definition term_value (x : nat -> R) (t : R * linexpr) : R := fst t * (aval x (snd t) * aval x (snd t)).
Lemma cost_app : forall x a b, cost_of (a ++ b) x = cost_of a x + cost_of b x.
Proof. intros x a b. unfold cost_of. induction a as [|t a IH]; cbn [app map]; rewrite ?sumR_cons, ?IH; [unfold sumR; cbn; ring|]. ring. Qed.
Lemma cost_nil : forall x, cost_of [] x = 0. Proof. reflexivity. Qed.
Lemma cost_cons : forall x t a, cost_of (t :: a) x = term_value x t + cost_of a x.
Proof. intros. unfold cost_of. cbn [map]. now rewrite sumR_cons. Qed.
Lemma cost_flat : forall x f n, cost_of (flat_map f (seq 0 n)) x = rsum n (fun k => cost_of (f k) x).
Proof. intros x f n. induction n as [|n IH]; [reflexivity|]. rewrite seq_S, flat_map_app, cost_app, IH. cbn [flat_map Nat.add rsum]. now rewrite app_nil_r. Qed.
Lemma cost_map : forall x f n, cost_of (map f (seq 0 n)) x = rsum n (fun k => term_value x (f k)).
Proof. intros x f n. induction n as [|n IH]; [reflexivity|]. rewrite seq_S, map_app, cost_app, IH. cbn [map Nat.add rsum]. rewrite cost_cons, cost_nil. ring. Qed.
Lemma cost_axes : forall x f, cost_of (flat_map f axes) x = cost_of (f 0%nat) x + cost_of (f 1%nat) x + cost_of (f 2%nat) x.
Proof. intros. unfold axes. cbn [flat_map]. rewrite !cost_app, cost_nil. ring. Qed.
Lemma wsq3_axes : forall w a, wsq3 w a = vget3 w 0 * sqr (vget3 a 0) + vget3 w 1 * sqr (vget3 a 1) + vget3 w 2 * sqr (vget3 a 2).
Proof. reflexivity. Qed.
Lemma cost_effs : forall n (h : nat -> nat -> R) , rsum n (fun e => h 0%nat e + h 1%nat e + h 2%nat e) = rsum n (h 0%nat) + rsum n (h 1%nat) + rsum n (h 2%nat).
Proof. intros. now rewrite !rsum_plus. Qed.
Section Cost.
  Variables (g : kset) (rob : robot) (dini : dstate) (dyn : nat -> dstate).
  Hypothesis HI : 0 <= k_inf g.
  Lemma t_cost : forall x, cost_of (k_obj_terms g dini dyn) x = kin_cost g dini dyn (kplan_of g x).
  Proof.
    intros x. unfold k_obj_terms, k_steps, kin_cost. rewrite cost_flat. apply rsum_ext. intros t Ht.
    rewrite !cost_app, cost_map. unfold k_dofs. rewrite cost_flat.
    assert (E1 : cost_of (flat_map (k_track_terms g dini dyn t) axes) x =
       wsq3 (kw_com g) (vsub (d_com (dyn t)) (kp_com (kplan_of g x) t)) + wsq3 (kw_lmom g) (vsub (d_lmom (dyn t)) (kp_lmom (kplan_of g x) t)) + wsq3 (kw_amom g) (vsub (d_amom (dyn t)) (kp_amom (kplan_of g x) t))
       + wsq3 (kw_lmomd g) (vscale (1 / d_time (dyn t)) (vsub (kp_lmom (kplan_of g x) t) (prev (kp_lmom (kplan_of g x)) (d_lmom dini) t))) + wsq3 (kw_amomd g) (vscale (1 / d_time (dyn t)) (vsub (kp_amom (kplan_of g x) t) (prev (kp_amom (kplan_of g x)) (d_amom dini) t)))
       + rsum (k_neff g) (fun e => wsq3 (if e_act (d_eff (dyn t) e) then kw_eff g else kw_neff g) (vsub (e_pos (d_eff (dyn t) e)) (kp_epos (kplan_of g x) e t)))).
    { assert (AX : forall i, In i axes -> cost_of (k_track_terms g dini dyn t i) x =
         vget3 (kw_com g) i * sqr (vget3 (vsub (d_com (dyn t)) (kp_com (kplan_of g x) t)) i) + vget3 (kw_lmom g) i * sqr (vget3 (vsub (d_lmom (dyn t)) (kp_lmom (kplan_of g x) t)) i)
         + vget3 (kw_amom g) i * sqr (vget3 (vsub (d_amom (dyn t)) (kp_amom (kplan_of g x) t)) i)
         + vget3 (kw_lmomd g) i * sqr (vget3 (vscale (1 / d_time (dyn t)) (vsub (kp_lmom (kplan_of g x) t) (prev (kp_lmom (kplan_of g x)) (d_lmom dini) t))) i)
         + vget3 (kw_amomd g) i * sqr (vget3 (vscale (1 / d_time (dyn t)) (vsub (kp_amom (kplan_of g x) t) (prev (kp_amom (kplan_of g x)) (d_amom dini) t))) i)
         + rsum (k_neff g) (fun e => vget3 (if e_act (d_eff (dyn t) e) then kw_eff g else kw_neff g) i * sqr (vget3 (vsub (e_pos (d_eff (dyn t) e)) (kp_epos (kplan_of g x) e t)) i))).
      { intros i Hi. unfold k_track_terms. rewrite !cost_app. unfold k_effs. rewrite cost_map.
        rewrite (rsum_ext (k_neff g) _ (fun e => vget3 (if e_act (d_eff (dyn t) e) then kw_eff g else kw_neff g) i * sqr (vget3 (vsub (e_pos (d_eff (dyn t) e)) (kp_epos (kplan_of g x) e t)) i))).
        2:{ intros e He. unfold term_value, kv, kc. cbn [fst snd]. rewrite aval_sub, aval_const, aval_v, (x_ep g HI x) by assumption. rewrite vget3_sub. unfold sqr. ring. }
        rewrite !cost_cons, cost_nil. unfold term_value at 1 2 3. unfold kv, kc. cbn [fst snd]. rewrite !aval_sub, !aval_const, !aval_v, (x_com g HI x), (x_lm g HI x), (x_am g HI x) by assumption.
        rewrite !vget3_scale, !vget3_sub, !vget3_prev.
        destruct t as [|t]; rewrite !cost_cons, cost_nil; unfold term_value; cbn [fst snd]; rewrite !aval_div, !aval_sub, ?aval_const, ?aval_v, ?(x_lm g HI x), ?(x_am g HI x) by (assumption || lia); unfold kdt, sqr; ring. }
      rewrite cost_axes, !AX by (unfold axes; cbn; tauto). unfold wsq3. rewrite !rsum_plus. cbn [vget3]. ring. }
    rewrite E1. cbv zeta.
    assert (E2 : rsum (k_nact g) (fun k => term_value x (kw_def g k, le_sub (kc (k_qdef g k)) (kv (kin_blocks (k_inf g) (k_N g) (k_neff g) (k_next g)) (kin_order (k_neff g)) (kQ g) (6 + k) t))) = rsum (List.length (k_act g)) (fun i => kw_def g i * sqr (k_qdef g i - kp_q (kplan_of g x) (6 + i) t))).
    { apply rsum_ext. intros d Hd. unfold term_value, kv, kc. cbn [fst snd]. rewrite aval_sub, aval_const, aval_v, (x_q g HI x) by (assumption || (unfold k_next, k_nact in *; lia)). unfold sqr. ring. }
    rewrite E2. clear E1 E2.
    assert (E3 : rsum (k_next g) (fun d => cost_of [(kw_vel g d, kv (kin_blocks (k_inf g) (k_N g) (k_neff g) (k_next g)) (kin_order (k_neff g)) (kTQD g) d t); (kw_acc g d, kv (kin_blocks (k_inf g) (k_N g) (k_neff g) (k_next g)) (kin_order (k_neff g)) (kTQDD g) d t)] x) =
       rsum (k_next g) (fun i => kw_vel g i * sqr (kp_tqd (kplan_of g x) i t) + kw_acc g i * sqr (kp_tqdd (kplan_of g x) i t))).
    { apply rsum_ext. intros d Hd. rewrite !cost_cons, cost_nil. unfold term_value, kv. cbn [fst snd]. rewrite !aval_v, (x_tqd g HI x), (x_tqdd g HI x) by assumption. unfold sqr. ring. }
    rewrite E3. ring.
  Qed.
End Cost.

From Coq Require Import Reals List Arith ZArith Bool String Ascii Lra Lia.
Import ListNotations.
From Verif Require Import Base BaseProofs Vec3 ExprsModel ExprsProofs ConicModel ConicSpec ConicProofs ConicProofs4 ConicProofs5 ConicProofs6 OptVarModel OptVarSpec OptVarProofs CntModel CntSpec CntProofs DynModel DynSpec DynProofs.
Local Open Scope R_scope.

Lemma foldM_pure {A S} : forall (f : S -> A -> res S) (h : S -> A -> S) l s, (forall a s, In a l -> f s a = Ok (h s a)) -> foldM f l s = Ok (fold_left h l s).
Proof. intros f h. induction l as [|a l IH]; intros s H; cbn [foldM fold_left]; [reflexivity|]. rewrite H by now left. cbn [bind]. apply IH. intros. apply H. now right. Qed.

(** ** The friction pyramid *)
Lemma clamp_is : forall mu, clamp_mu mu = Rmax mu (1 / 1000).
Proof. intros. unfold clamp_mu, Rmax. destruct (Rle_dec mu (1 / 1000)); reflexivity. Qed.
Lemma turn_is : forall v, cone_turn v = V3 (- vy v) (vx v) (vz v).
Proof. intros [a b c]. unfold cone_turn. replace (2 * PI / 4) with (PI / 2) by field. rewrite cos_PI2, sin_PI2. cbn [vx vy vz]. f_equal; ring. Qed.
Lemma row_scale : exists k, forall mu, 0 < k mu /\ let a := / 2 * sqrt 2 in let m := Rmax mu (1 / 1000) in
  cone_row mu 0 = V3 (k mu * a) (k mu * a) (- (k mu * m)) /\ cone_row mu 1 = V3 (- (k mu * a)) (k mu * a) (- (k mu * m)) /\
  cone_row mu 2 = V3 (- (k mu * a)) (- (k mu * a)) (- (k mu * m)) /\ cone_row mu 3 = V3 (k mu * a) (- (k mu * a)) (- (k mu * m)).
Proof.
  exists (fun mu => / sqrt (vdot (V3 (/ 2 * sqrt 2) (/ 2 * sqrt 2) (- clamp_mu mu)) (V3 (/ 2 * sqrt 2) (/ 2 * sqrt 2) (- clamp_mu mu)))).
  intros mu. split.
  - apply Rinv_0_lt_compat, sqrt_lt_R0. unfold vdot. cbn [vx vy vz]. assert (H := sqrt_sqrt 2). nra.
  - cbv zeta. unfold cone_row. cbn [Nat.iter nat_rect]. rewrite !turn_is. unfold cone_vec0, vnormalize, vscale. cbn [vx vy vz]. rewrite clamp_is.
    set (k := / sqrt _). repeat split; f_equal; ring.
Qed.
Lemma four_rows : forall mu u v w, (forall r, In r [0; 1; 2; 3]%nat -> vx (cone_row mu r) * u + vy (cone_row mu r) * v + vz (cone_row mu r) * w <= 0) <->
  Rabs u + Rabs v <= sqrt 2 * Rmax mu (1 / 1000) * w.
Proof.
  intros mu u v w. destruct row_scale as (k & K). destruct (K mu) as (Kp & R0 & R1 & R2 & R3). cbv zeta in *. set (m := Rmax mu (1 / 1000)) in *.
  rewrite !all_cons, all_nil. rewrite R0, R1, R2, R3. cbn [vx vy vz]. set (kk := k mu) in *. clearbody kk m.
  assert (S2 : sqrt 2 * sqrt 2 = 2) by (apply sqrt_sqrt; lra). assert (Sp : 0 < sqrt 2) by (apply sqrt_lt_R0; lra).
  set (s := sqrt 2) in *. clearbody s.
  assert (X : forall a b, kk * (/ 2 * s) * a + kk * (/ 2 * s) * b + - (kk * m) * w <= 0 <-> a + b <= s * m * w).
  { intros a b. replace (kk * (/ 2 * s) * a + kk * (/ 2 * s) * b + - (kk * m) * w) with (kk * (/ 2 * s * (a + b - s * m * w))) by (replace (/ 2 * s * (a + b - s * m * w)) with (/ 2 * s * (a + b) - / 2 * (s * s) * (m * w)) by ring; rewrite S2; field).
    split; intros H.
    - apply Rnot_lt_le. intros L. assert (0 < kk * (/ 2 * s * (a + b - s * m * w))) by (apply Rmult_lt_0_compat; [lra|]; apply Rmult_lt_0_compat; lra). lra.
    - assert (0 <= kk * (/ 2 * s * (s * m * w - (a + b)))) by (apply Rmult_le_pos; [lra|]; apply Rmult_le_pos; lra). nra. }
  replace (- (kk * (/ 2 * s)) * u + kk * (/ 2 * s) * v + - (kk * m) * w) with (kk * (/ 2 * s) * (- u) + kk * (/ 2 * s) * v + - (kk * m) * w) by ring.
  replace (- (kk * (/ 2 * s)) * u + - (kk * (/ 2 * s)) * v + - (kk * m) * w) with (kk * (/ 2 * s) * (- u) + kk * (/ 2 * s) * (- v) + - (kk * m) * w) by ring.
  replace (kk * (/ 2 * s) * u + - (kk * (/ 2 * s)) * v + - (kk * m) * w) with (kk * (/ 2 * s) * u + kk * (/ 2 * s) * (- v) + - (kk * m) * w) by ring.
  rewrite !X. unfold Rabs. destruct (Rcase_abs u), (Rcase_abs v); lra.
Qed.

Section Run.
  Variables (g : dset) (q : dseq) (ini : dstate) (cs : nat -> list contact) (kin : list kinref) (goal wtrack : vec3) (first : bool).
  Variable stray : nat -> nat -> option ctype.
  Hypothesis HR : ready g q cs stray.
  Let N := g_N g.
  Notation con t e := (contact_on cs q e t).

  Lemma look_st : forall e t, look q e t = d_eff (st q t) e. Proof. reflexivity. Qed.
  Lemma contact_ok : forall e t, (0 <= e_cid (look q e t) < Z.of_nat (List.length (cs e)))%Z -> contact_at q cs t e = Ok (con t e).
  Proof.
    intros e t H. unfold contact_at, contact_on. rewrite <- look_st. destruct (Z_of_nat_complete (e_cid (look q e t))) as (k & E); [lia|]. rewrite E in *.
    rewrite Nat2Z.id. apply vget_nth. lia.
  Qed.
  Lemma act_contact : forall e t, (e < g_neff g)%nat -> (t < N)%nat -> act q t e = true -> contact_at q cs t e = Ok (con t e).
  Proof. intros e t He Ht Ha. destruct HR as (_ & H & _). apply contact_ok. now apply H. Qed.
  Lemma act_aid : forall e t, (e < g_neff g)%nat -> (t < N)%nat -> act q t e = true -> exists k, aid q t e = Z.of_nat k /\ (k < Z.to_nat (act_steps q e))%nat.
  Proof.
    intros e t He Ht Ha. destruct HR as (_ & H & _). destruct (H e t He Ht Ha) as (H1 & _). exists (Z.to_nat (aid q t e)). unfold aid in *. rewrite <- look_st. split; lia.
  Qed.

  (** ** The calls without the checks *)
  Definition soft_pure : list (R * linexpr) :=
    if negb first && timeopt g then
      flat_map (fun t => flat_map (fun e => if act q t e then
        flat_map (fun i => [soft_term g (ub_parts g q (con t e) t e i) (part_vals q 1 (con t e) t e i) (eff_ev g q (bUB g e) i t e);
                            soft_term g (lb_parts g q (con t e) t e i) (part_vals q (-1) (con t e) t e i) (eff_ev g q (bLB g e) i t e)]) axes else []) (effs g)) (steps g)
    else [].
  Definition height_pure : list call := flat_map (fun t => [CAddLin (le_sub (evt g q bCOM 2 t) (ec (vz (c_pos (con 0%nat 0%nat))))) ">" (ec (g_minh g))]) (steps g).
  Definition friction_pure : list call :=
    flat_map (fun t => flat_map (fun e => match contact_type q cs stray t e with Ok FullContact => [] | _ =>
      if act q t e then (if g_linfric g then map (lin_friction g q (con t e) t e) [0; 1; 2; 3]%nat else [soc_friction g q (con t e) t e]) else [] end) (effs g)) (steps g).
  Definition amomd_expr (t i : nat) : linexpr :=
    fold_left (fun l e => if act q t e then
        le_add (le_add l (le_scale (le_scale (le_sub (eff_ev g q (bUB g e) i t e) (eff_ev g q (bLB g e) i t e)) (/ 4)) (g_mg g)))
               (le_scale (eff_ev g q (bTRQ g e) 0 t e) (vget3 (rotcol (c_ori (con t e)) 2) i)) else l) (effs g) (le_sub (ec 0) (evt g q bAMD i t)).
  Definition amom_expr (t i : nat) : linexpr :=
    fold_left (fun l e => if act q t e then
        le_add (le_add l (le_scale (le_sub (eff_ev g q (bLB g e) i t e) (eff_ev g q (bUB g e) i t e)) (/ 4 * sdt q t * g_mg g)))
               (le_scale (eff_ev g q (bTRQ g e) 0 t e) (- vget3 (rotcol (c_ori (con t e)) 2) i * sdt q t)) else l) (effs g)
      (le_sub (evt g q bAM i t) (before g q bAM i t (d_amom ini))).
  Definition dynamics_pure : list call :=
    flat_map (fun t => if timeopt g then
      (if first then map (com_call g q ini t) axes ++ map (fun i => rate_call g q bLM bLMD i t (d_lmom ini)) axes ++ map (fun i => rate_call g q bAM bAMD i t (d_amom ini)) axes
       else map (fun i => product_call g q bCOM bLM i t (d_com ini) (d_lmom (st q t)) (/ 4 / g_mass g)) axes
            ++ map (fun i => product_call g q bLM bLMD i t (d_lmom ini) (d_lmomd (st q t)) (/ 4)) axes
            ++ map (fun i => product_call g q bAM bAMD i t (d_amom ini) (d_amomd (st q t)) (/ 4)) axes)
      ++ map (lmomd_call g q t) axes ++ map (fun i => CAddLin (amomd_expr t i) "=" (ec 0)) axes
      else map (com_call g q ini t) axes ++ map (lmom_call g q ini t) axes ++ map (fun i => CAddLin (amom_expr t i) "=" (ec 0)) axes) (steps g).
  Definition quad_pure : list call :=
    flat_map (fun t => flat_map (fun e => if act q t e then cone_calls g q (con t e) t e else []) (effs g)) (steps g).
  Definition objective : quadexpr := q_of (obj_terms g q ini kin goal wtrack ++ soft_pure).
  Definition constraints : list call := height_pure ++ horizon_calls g q ++ bound_calls g q ++ friction_pure ++ dynamics_pure ++ quad_pure.

  Lemma in_steps : forall t, In t (steps g) <-> (t < N)%nat.
  Proof. intros. unfold steps. rewrite in_seq. unfold N. lia. Qed.
  Lemma in_effs : forall e, In e (effs g) <-> (e < g_neff g)%nat.
  Proof. intros. unfold effs. rewrite in_seq. lia. Qed.

  Lemma setup_ok : (g_N g <= List.length kin)%nat -> setup_calls g q ini cs kin goal wtrack first stray = Ok ([CSetObj objective (ec 0)] ++ constraints).
  Proof.
    intros HK. unfold setup_calls. destruct HR as (HL & HA & H0 & HS).
    replace ((List.length (states q) <? g_N g) || (List.length kin <? g_N g))%nat with false by (symmetry; apply orb_false_iff; split; apply Nat.ltb_ge; assumption).
    assert (E1 : soft_terms g q cs first = Ok soft_pure).
    { unfold soft_terms, soft_pure. destruct (negb first && timeopt g); [|reflexivity]. apply flatM_ok. intros t Ht. apply in_steps in Ht. apply flatM_ok. intros e He. apply in_effs in He.
      destruct (act q t e) eqn:Ea; [|reflexivity]. rewrite act_contact by assumption. reflexivity. }
    assert (E2 : height_calls g q cs = Ok height_pure).
    { unfold height_calls, height_pure. apply flatM_ok. intros t Ht. apply in_steps in Ht. rewrite contact_ok; [reflexivity|]. apply H0. unfold N in Ht. lia. }
    assert (E3 : friction_calls g q cs stray = Ok friction_pure).
    { unfold friction_calls, friction_pure. apply flatM_ok. intros t Ht. apply in_steps in Ht. apply flatM_ok. intros e He. apply in_effs in He.
      assert (CT : exists ty, contact_type q cs stray t e = Ok ty).
      { unfold contact_type. destruct (contact_at q cs t e) eqn:Ec; eauto; destruct (stray t e) eqn:Es; eauto; exfalso; apply (HS e t); auto; intros Ha;
          rewrite (act_contact e t He Ht Ha) in Ec; discriminate. }
      destruct CT as (ty & CT). rewrite CT. cbn [bind]. destruct ty; try reflexivity; (destruct (act q t e) eqn:Ea; [|reflexivity]); now rewrite act_contact by assumption. }
    assert (E4 : dynamics_calls g q ini cs first = Ok dynamics_pure).
    { unfold dynamics_calls, dynamics_pure. apply flatM_ok. intros t Ht. apply in_steps in Ht.
      assert (A1 : amomd_calls g q cs t = Ok (map (fun i => CAddLin (amomd_expr t i) "=" (ec 0)) axes)).
      { unfold amomd_calls. rewrite (flatM_ok _ (fun i => [CAddLin (amomd_expr t i) "=" (ec 0)])); [reflexivity|]. intros i Hi.
        erewrite foldM_pure; [reflexivity|]. intros e l He. apply in_effs in He. cbv beta. destruct (act q t e) eqn:Ea; [|reflexivity]. now rewrite act_contact by assumption. }
      assert (A2 : amom_calls g q ini cs t = Ok (map (fun i => CAddLin (amom_expr t i) "=" (ec 0)) axes)).
      { unfold amom_calls. rewrite (flatM_ok _ (fun i => [CAddLin (amom_expr t i) "=" (ec 0)])); [reflexivity|]. intros i Hi.
        erewrite foldM_pure; [reflexivity|]. intros e l He. apply in_effs in He. cbv beta. destruct (act q t e) eqn:Ea; [|reflexivity]. now rewrite act_contact by assumption. }
      rewrite A1, A2. cbn [bind]. destruct (timeopt g); reflexivity. }
    assert (E5 : quad_calls g q cs = Ok quad_pure).
    { unfold quad_calls, quad_pure. apply flatM_ok. intros t Ht. apply in_steps in Ht. apply flatM_ok. intros e He. apply in_effs in He.
      destruct (act q t e) eqn:Ea; [|reflexivity]. now rewrite act_contact by assumption. }
    rewrite E1, E2, E3, E4, E5. reflexivity.
  Qed.

  (** ** Values *)
  Section Values.
    Variable x : nat -> R.
    Let P := plan_of g q x.
    Lemma v_com : forall t i, (t < N)%nat -> In i axes -> aval x (evt g q bCOM i t) = vget3 (p_com P t) i.
    Proof. intros t i Ht Hi. unfold evt, ev. rewrite aval_var. unfold P, plan_of. cbn [p_com]. rewrite (vget3_V3 (fun r => planned (dblocks g q) x 0 r t)) by exact Hi. symmetry. apply (planned_is g q x 0 3 N); [apply blk_com|now apply in_axes|exact Ht]. Qed.
    Lemma v_lm : forall t i, (t < N)%nat -> In i axes -> aval x (evt g q bLM i t) = vget3 (p_lmom P t) i.
    Proof. intros t i Ht Hi. unfold evt, ev. rewrite aval_var. unfold P, plan_of. cbn [p_lmom]. rewrite (vget3_V3 (fun r => planned (dblocks g q) x 1 r t)) by exact Hi. symmetry. apply (planned_is g q x 1 3 N); [apply blk_lm|now apply in_axes|exact Ht]. Qed.
    Lemma v_am : forall t i, (t < N)%nat -> In i axes -> aval x (evt g q bAM i t) = vget3 (p_amom P t) i.
    Proof. intros t i Ht Hi. unfold evt, ev. rewrite aval_var. unfold P, plan_of. cbn [p_amom]. rewrite (vget3_V3 (fun r => planned (dblocks g q) x 2 r t)) by exact Hi. symmetry. apply (planned_is g q x 2 3 N); [apply blk_am|now apply in_axes|exact Ht]. Qed.
    Lemma v_dt : forall t, timeopt g = true -> (t < N)%nat -> aval x (evt g q bDT 0 t) = p_dt P t.
    Proof. intros t T Ht. unfold evt, ev. rewrite aval_var. unfold P, plan_of. cbn [p_dt]. symmetry. apply (planned_is g q x 3 1 N); [now apply blk_dt|lia|exact Ht]. Qed.
    Lemma v_lmd : forall t i, timeopt g = true -> (t < N)%nat -> In i axes -> aval x (evt g q bLMD i t) = vget3 (p_lmomd P t) i.
    Proof. intros t i T Ht Hi. unfold evt, ev. rewrite aval_var. unfold P, plan_of. cbn [p_lmomd]. rewrite (vget3_V3 (fun r => planned (dblocks g q) x 4 r t)) by exact Hi. symmetry. apply (planned_is g q x 4 3 N); [now apply blk_lmd|now apply in_axes|exact Ht]. Qed.
    Lemma v_amd : forall t i, timeopt g = true -> (t < N)%nat -> In i axes -> aval x (evt g q bAMD i t) = vget3 (p_amomd P t) i.
    Proof. intros t i T Ht Hi. unfold evt, ev. rewrite aval_var. unfold P, plan_of. cbn [p_amomd]. rewrite (vget3_V3 (fun r => planned (dblocks g q) x 5 r t)) by exact Hi. symmetry. apply (planned_is g q x 5 3 N); [now apply blk_amd|now apply in_axes|exact Ht]. Qed.
    Lemma base_is : forall e k, ((match g_heur g with TimeOptimization => 6 | _ => 3 end) + 5 * e + k)%nat = bEff g e k.
    Proof. intros. unfold bEff, timeopt. destruct (g_heur g); reflexivity. Qed.
    Lemma eff_entry : forall e t k r, (e < g_neff g)%nat -> (t < N)%nat -> act q t e = true -> (k < 5)%nat -> (r < match k with 3%nat => 2 | 4%nat => 1 | _ => 3 end)%nat ->
      aval x (eff_ev g q (bEff g e k) r t e) = planned (dblocks g q) x (bEff g e k) r (Z.to_nat (e_aid (look q e t))).
    Proof.
      intros e t k r He Ht Ha Hk Hr. unfold eff_ev, ev. rewrite aval_var. destruct (act_aid e t He Ht Ha) as (n & E & Hn). unfold aid in *. rewrite <- look_st in *. rewrite E, Nat2Z.id.
      symmetry. eapply planned_is; [apply blk_eff; assumption|exact Hr|exact Hn].
    Qed.
    Section Eff.
      Variables (e t : nat).
      Hypothesis He : (e < g_neff g)%nat.
      Hypothesis Ht : (t < N)%nat.
      Hypothesis Ha : act q t e = true.
      Lemma v_lb : forall i, In i axes -> aval x (eff_ev g q (bLB g e) i t e) = vget3 (p_lb P e t) i.
      Proof. intros i Hi. unfold bLB. rewrite eff_entry by (auto; try lia; now apply in_axes). unfold P, plan_of. cbn [p_lb]. rewrite base_is. now rewrite (vget3_V3 (fun r => planned (dblocks g q) x (bEff g e 0) r _)). Qed.
      Lemma v_ub : forall i, In i axes -> aval x (eff_ev g q (bUB g e) i t e) = vget3 (p_ub P e t) i.
      Proof. intros i Hi. unfold bUB. rewrite eff_entry by (auto; try lia; now apply in_axes). unfold P, plan_of. cbn [p_ub]. rewrite base_is. now rewrite (vget3_V3 (fun r => planned (dblocks g q) x (bEff g e 1) r _)). Qed.
      Lemma v_frc : forall i, In i axes -> aval x (force g q t e i) = vget3 (p_frc P e t) i.
      Proof. intros i Hi. unfold force, bFRC. rewrite eff_entry by (auto; try lia; now apply in_axes). unfold P, plan_of. cbn [p_frc]. rewrite base_is. now rewrite (vget3_V3 (fun r => planned (dblocks g q) x (bEff g e 2) r _)). Qed.
      Lemma v_copx : aval x (eff_ev g q (bCOP g e) 0 t e) = p_copx P e t.
      Proof. unfold bCOP. rewrite eff_entry by (auto; lia). unfold P, plan_of. cbn [p_copx]. now rewrite base_is. Qed.
      Lemma v_copy : aval x (eff_ev g q (bCOP g e) 1 t e) = p_copy P e t.
      Proof. unfold bCOP. rewrite eff_entry by (auto; lia). unfold P, plan_of. cbn [p_copy]. now rewrite base_is. Qed.
      Lemma v_trq : aval x (eff_ev g q (bTRQ g e) 0 t e) = p_trq P e t.
      Proof. unfold bTRQ. rewrite eff_entry by (auto; lia). unfold P, plan_of. cbn [p_trq]. now rewrite base_is. Qed.
      Lemma v_lever : forall i, In i axes -> aval x (lever g q (con t e) t e i) = vget3 (arm cs q P e t) i.
      Proof.
        intros i Hi. unfold lever, ec. rewrite !aval_add, !aval_sub, !aval_scale, aval_const, v_com, v_copx, v_copy by assumption.
        unfold arm, surf. rewrite vget3_sub, !vget3_add, !vget3_scale. ring.
      Qed.
    End Eff.
    Lemma v_fold : forall (k : nat -> linexpr) (f : nat -> R) t n l0, (forall e, (e < n)%nat -> act q t e = true -> aval x (k e) = f e) ->
      aval x (fold_left (fun l e => if act q t e then le_add l (k e) else l) (seq 0 n) l0) = aval x l0 + rsum n (fun e => if act q t e then f e else 0).
    Proof.
      intros k f t n l0 H. induction n as [|n IH]; [cbn; lra|]. rewrite seq_S, fold_left_app. cbn [fold_left rsum Nat.add].
      assert (IH' := IH (fun e He => H e (Nat.lt_lt_succ_r _ _ He))). destruct (act q t n) eqn:Ea; [rewrite aval_add, H by (auto; lia)|]; rewrite IH'; ring.
    Qed.
    Lemma active_get : forall n t f i, vget3 (active_sum q n t f) i = rsum n (fun e => if act q t e then vget3 (f e) i else 0).
    Proof.
      intros n t f i. induction n as [|n IH]; [apply vget3_0|]. cbn [active_sum rsum]. rewrite vget3_add, IH. f_equal. change (e_act (look q n t)) with (act q t n). destruct (act q t n); [reflexivity|apply vget3_0].
    Qed.
    Lemma rsum_eq : forall n f h, (forall e, (e < n)%nat -> f e = h e) -> rsum n f = rsum n h.
    Proof. induction n; intros; cbn [rsum]; [reflexivity|]. rewrite (IHn f h), H by (auto; lia). reflexivity. Qed.
    Lemma rsum_scale : forall n k f, rsum n (fun e => k * f e) = k * rsum n f.
    Proof. induction n; intros; cbn [rsum]; [ring|]. rewrite IHn. ring. Qed.
    Lemma v_before : forall b (p : nat -> vec3) v t i, (forall t, (t < N)%nat -> aval x (evt g q b i t) = vget3 (p t) i) -> (t < N)%nat ->
      aval x (before g q b i t v) = vget3 (prev p v t) i.
    Proof. intros b p v t i H Ht. destruct t as [|t]; cbn [before prev]; [apply aval_const|]. apply H. lia. Qed.

    (** ** One constraint at a time *)
    Lemma com_iff : forall t, (t < N)%nat -> (forall i, In i axes -> call_holds x (com_call g q ini t i)) <->
      p_com P t = vadd (prev (p_com P) (d_com ini) t) (vscale (sdt q t / g_mass g) (p_lmom P t)).
    Proof.
      intros t Ht. rewrite veq_axes. assert (E : forall i, In i axes -> call_holds x (com_call g q ini t i) <-> vget3 (p_com P t) i = vget3 (vadd (prev (p_com P) (d_com ini) t) (vscale (sdt q t / g_mass g) (p_lmom P t))) i).
      { intros i Hi. unfold com_call. rewrite holds_eq, !aval_sub, aval_scale, v_com, v_lm by assumption. unfold ec. rewrite aval_const.
        rewrite (v_before bCOM (p_com P)) by (auto; intros; now apply v_com). rewrite vget3_add, vget3_scale. split; intros; lra. }
      split; intros H i Hi; apply E; auto.
    Qed.
    Lemma lmom_iff : forall t, (t < N)%nat -> (forall i, In i axes -> call_holds x (lmom_call g q ini t i)) <->
      p_lmom P t = vadd (prev (p_lmom P) (d_lmom ini) t) (vscale (sdt q t) (vadd (net_force g q P t) (if (t =? 0)%nat then vscale (g_mg g) (g_ext g) else v0))).
    Proof.
      intros t Ht. rewrite veq_axes. assert (E : forall i, In i axes -> call_holds x (lmom_call g q ini t i) <-> vget3 (p_lmom P t) i = vget3 (vadd (prev (p_lmom P) (d_lmom ini) t) (vscale (sdt q t) (vadd (net_force g q P t) (if (t =? 0)%nat then vscale (g_mg g) (g_ext g) else v0)))) i).
      { intros i Hi. unfold lmom_call. rewrite holds_eq. unfold ec at 2. rewrite aval_const. unfold effs.
        assert (F : forall l0, aval x (fold_left (fun l e => if act q t e then le_add l (le_scale (force g q t e i) (- sdt q t * g_mg g)) else l) (seq 0 (g_neff g)) l0) =
                     aval x l0 - sdt q t * vget3 (active_sum q (g_neff g) t (fun e => vscale (g_mg g) (p_frc P e t))) i).
        { intros l0. rewrite (v_fold _ (fun e => - sdt q t * (g_mg g * vget3 (p_frc P e t) i))) by (intros e He Ha; rewrite aval_scale, v_frc by assumption; ring).
          rewrite active_get. rewrite (rsum_eq (g_neff g) _ (fun e => - sdt q t * (if act q t e then g_mg g * vget3 (p_frc P e t) i else 0))) by (intros; destruct (act q t e); ring).
          rewrite rsum_scale. rewrite (rsum_eq (g_neff g) (fun e => if act q t e then vget3 (vscale _ _) i else 0) (fun e => if act q t e then g_mg g * vget3 (p_frc P e t) i else 0)) by (intros; destruct (act q t e); [apply vget3_scale|reflexivity]). ring. }
        assert (B : aval x (before g q bLM i t (d_lmom ini)) = vget3 (prev (p_lmom P) (d_lmom ini) t) i) by (apply v_before; auto; intros; now apply v_lm).
        unfold net_force. rewrite vget3_add, vget3_scale, !vget3_add, !vget3_scale.
        destruct (t =? 0)%nat; rewrite ?aval_add, F, ?aval_scale, !aval_sub, v_lm, B by assumption; unfold ec; rewrite ?aval_const, ?vget3_scale, ?vget3_0; split; intros; lra. }
      split; intros H i Hi; apply E; auto.
    Qed.
    Lemma amom_iff : forall t, (t < N)%nat -> (forall i, In i axes -> call_holds x (CAddLin (amom_expr t i) "=" (ec 0))) <->
      p_amom P t = vadd (prev (p_amom P) (d_amom ini) t) (vscale (sdt q t) (net_torque g cs q P t)).
    Proof.
      intros t Ht. rewrite veq_axes. assert (E : forall i, In i axes -> call_holds x (CAddLin (amom_expr t i) "=" (ec 0)) <-> vget3 (p_amom P t) i = vget3 (vadd (prev (p_amom P) (d_amom ini) t) (vscale (sdt q t) (net_torque g cs q P t))) i).
      { intros i Hi. rewrite holds_eq. unfold ec. rewrite aval_const. unfold amom_expr, effs.
        assert (B : aval x (before g q bAM i t (d_amom ini)) = vget3 (prev (p_amom P) (d_amom ini) t) i) by (apply v_before; auto; intros; now apply v_am).
        assert (F : forall n l0, (n <= g_neff g)%nat -> aval x (fold_left (fun l e => if act q t e then
            le_add (le_add l (le_scale (le_sub (eff_ev g q (bLB g e) i t e) (eff_ev g q (bUB g e) i t e)) (/ 4 * sdt q t * g_mg g)))
               (le_scale (eff_ev g q (bTRQ g e) 0 t e) (- vget3 (rotcol (c_ori (con t e)) 2) i * sdt q t)) else l) (seq 0 n) l0) =
            aval x l0 - sdt q t * vget3 (active_sum q n t (fun e => torque_used g cs q P e t)) i).
        { intros n l0. induction n as [|n IH]; intros Hn; [cbn [seq fold_left active_sum]; rewrite vget3_0; ring|]. rewrite seq_S, fold_left_app. cbn [fold_left active_sum Nat.add].
          rewrite vget3_add. change (e_act (look q n t)) with (act q t n). destruct (act q t n) eqn:Ea.
          - rewrite !aval_add, IH, !aval_scale, aval_sub, v_lb, v_ub, v_trq by (auto; lia). unfold torque_used, surf. rewrite vget3_add, !vget3_scale, vget3_sub. field.
          - rewrite IH by lia. rewrite vget3_0. ring. }
        rewrite F by lia. rewrite aval_sub, v_am, B by assumption. unfold net_torque. rewrite vget3_add, vget3_scale. split; intros; lra. }
      split; intros H i Hi; apply E; auto.
    Qed.
    Lemma rate_iff : forall b bd (p pd : nat -> vec3) v t, (forall t i, (t < N)%nat -> In i axes -> aval x (evt g q b i t) = vget3 (p t) i) ->
      (forall t i, (t < N)%nat -> In i axes -> aval x (evt g q bd i t) = vget3 (pd t) i) -> (t < N)%nat ->
      (forall i, In i axes -> call_holds x (rate_call g q b bd i t v)) <-> p t = vadd (prev p v t) (vscale (sdt q t) (pd t)).
    Proof.
      intros b bd p pd v t H1 H2 Ht. rewrite veq_axes. assert (E : forall i, In i axes -> call_holds x (rate_call g q b bd i t v) <-> vget3 (p t) i = vget3 (vadd (prev p v t) (vscale (sdt q t) (pd t))) i).
      { intros i Hi. unfold rate_call. rewrite holds_eq, !aval_sub, aval_scale, H1, H2 by assumption. rewrite (v_before b p) by (auto; intros; now apply H1). unfold ec. rewrite aval_const, vget3_add, vget3_scale. split; intros; lra. }
      split; intros H i Hi; apply E; auto.
    Qed.
    Lemma product_iff : forall b ba (p pa : nat -> vec3) v stored k t, timeopt g = true -> (forall t i, (t < N)%nat -> In i axes -> aval x (evt g q b i t) = vget3 (p t) i) ->
      (forall t i, (t < N)%nat -> In i axes -> aval x (evt g q ba i t) = vget3 (pa t) i) -> (t < N)%nat ->
      (forall i, In i axes -> call_holds x (product_call g q b ba i t v stored k)) <-> p t = vadd (prev p v t) (vscale (4 * k) (product_model (sdt q t) stored (p_dt P t) (pa t))).
    Proof.
      intros b ba p pa v stored k t T H1 H2 Ht. rewrite veq_axes. assert (E : forall i, In i axes -> call_holds x (product_call g q b ba i t v stored k) <-> vget3 (p t) i = vget3 (vadd (prev p v t) (vscale (4 * k) (product_model (sdt q t) stored (p_dt P t) (pa t)))) i).
      { intros i Hi. unfold product_call, product_lin. rewrite holds_eq, !aval_add, !aval_sub, !aval_scale, !aval_add, !aval_scale, !aval_subc, aval_add, aval_sub, v_dt, H1, H2 by assumption.
        rewrite (v_before b p) by (auto; intros; now apply H1). unfold ec. rewrite !aval_const, vget3_add, vget3_scale. unfold product_model. rewrite vget3_sub, vget3_add, !vget3_scale.
        set (A := vget3 (pa t) i). set (B := vget3 stored i). set (D := sdt q t). set (d := p_dt P t). set (c := vget3 (p t) i). set (c0 := vget3 (prev p v t) i). 
        replace (((D + B) ^ 2 + (d + A - (D + B)) * 2 * (D + B)) * k - ((D - B) ^ 2 + (d - A - (D - B)) * 2 * (D - B)) * k) with (4 * k * (D * A + d * B - D * B)) by ring. split; intros; lra. }
      split; intros H i Hi; apply E; auto.
    Qed.
    Lemma lmomd_iff : forall t, timeopt g = true -> (t < N)%nat -> (forall i, In i axes -> call_holds x (lmomd_call g q t i)) <-> p_lmomd P t = net_force g q P t.
    Proof.
      intros t T Ht. rewrite veq_axes. assert (E : forall i, In i axes -> call_holds x (lmomd_call g q t i) <-> vget3 (p_lmomd P t) i = vget3 (net_force g q P t) i).
      { intros i Hi. unfold lmomd_call. rewrite holds_eq. unfold effs. rewrite (v_fold _ (fun e => g_mg g * vget3 (p_frc P e t) i)) by (intros e He Ha; rewrite aval_scale, v_frc by assumption; ring).
        unfold net_force. rewrite vget3_add, vget3_scale, active_get.
        rewrite (rsum_eq (g_neff g) (fun e => if act q t e then vget3 (vscale _ _) i else 0) (fun e => if act q t e then g_mg g * vget3 (p_frc P e t) i else 0)) by (intros; destruct (act q t e); [apply vget3_scale|reflexivity]).
        rewrite aval_sub, v_lmd by assumption. unfold ec. rewrite !aval_const. split; intros; lra. }
      split; intros H i Hi; apply E; auto.
    Qed.
    Lemma amomd_iff : forall t, timeopt g = true -> (t < N)%nat -> (forall i, In i axes -> call_holds x (CAddLin (amomd_expr t i) "=" (ec 0))) <-> p_amomd P t = net_torque g cs q P t.
    Proof.
      intros t T Ht. rewrite veq_axes. assert (E : forall i, In i axes -> call_holds x (CAddLin (amomd_expr t i) "=" (ec 0)) <-> vget3 (p_amomd P t) i = vget3 (net_torque g cs q P t) i).
      { intros i Hi. rewrite holds_eq. unfold ec. rewrite aval_const. unfold amomd_expr, effs.
        assert (F : forall n l0, (n <= g_neff g)%nat -> aval x (fold_left (fun l e => if act q t e then
            le_add (le_add l (le_scale (le_scale (le_sub (eff_ev g q (bUB g e) i t e) (eff_ev g q (bLB g e) i t e)) (/ 4)) (g_mg g)))
               (le_scale (eff_ev g q (bTRQ g e) 0 t e) (vget3 (rotcol (c_ori (con t e)) 2) i)) else l) (seq 0 n) l0) =
            aval x l0 + vget3 (active_sum q n t (fun e => torque_used g cs q P e t)) i).
        { intros n l0. induction n as [|n IH]; intros Hn; [cbn [seq fold_left active_sum]; rewrite vget3_0; ring|]. rewrite seq_S, fold_left_app. cbn [fold_left active_sum Nat.add].
          rewrite vget3_add. change (e_act (look q n t)) with (act q t n). destruct (act q t n) eqn:Ea.
          - rewrite !aval_add, IH, !aval_scale, aval_sub, v_lb, v_ub, v_trq by (auto; lia). unfold torque_used, surf. rewrite vget3_add, !vget3_scale, vget3_sub. field.
          - rewrite IH by lia. rewrite vget3_0. ring. }
        rewrite F by lia. rewrite aval_sub, v_amd by assumption. unfold ec. rewrite aval_const. unfold net_torque. split; intros; lra. }
      split; intros H i Hi; apply E; auto.
    Qed.

    (** ** Contacts *)
    Section EffC.
      Variables (e t : nat).
      Hypothesis He : (e < g_neff g)%nat.
      Hypothesis Ht : (t < N)%nat.
      Hypothesis Ha : act q t e = true.
      Lemma ax0 : In 0%nat axes. Proof. now left. Qed.
      Lemma ax1 : In 1%nat axes. Proof. right; now left. Qed.
      Lemma ax2 : In 2%nat axes. Proof. right; right; now left. Qed.
      Hint Resolve ax0 ax1 ax2 : core.
      Lemma v_local : forall j, aval x (local_force g q (con t e) t e j) = vdot (surf (con t e) j) (p_frc P e t).
      Proof. intros j. unfold local_force, axes. cbn [fold_left]. rewrite !aval_add, !aval_scale, !v_frc by auto. unfold ec. rewrite aval_const. unfold vdot, surf. cbn [vget3]. ring. Qed.
      Lemma lin_fric_iff : (forall r, In r [0; 1; 2; 3]%nat -> call_holds x (lin_friction g q (con t e) t e r)) <-> pyramid (Rmax (g_mu g) (1 / 1000)) (con t e) (p_frc P e t).
      Proof.
        unfold pyramid. rewrite <- four_rows. assert (E : forall r, call_holds x (lin_friction g q (con t e) t e r) <->
          vx (cone_row (g_mu g) r) * vdot (surf (con t e) 0) (p_frc P e t) + vy (cone_row (g_mu g) r) * vdot (surf (con t e) 1) (p_frc P e t) + vz (cone_row (g_mu g) r) * vdot (surf (con t e) 2) (p_frc P e t) <= 0).
        { intros r. unfold lin_friction. rewrite holds_lt. unfold axes. cbn [fold_left]. rewrite !aval_add, !aval_scale, !v_frc by auto. unfold ec. rewrite !aval_const. unfold cone_coeff, vdot, surf. cbn [vget3]. split; intros; lra. }
        split; intros H r Hr; apply E; auto.
      Qed.
      Lemma soc_fric_iff : call_holds x (soc_friction g q (con t e) t e) <-> coulomb (g_mu g) (con t e) (p_frc P e t).
      Proof.
        unfold soc_friction. rewrite holds_soc. destruct (q_of_props [(1, local_force g q (con t e) t e 0); (1, local_force g q (con t e) t e 1)]) as (L & _).
        rewrite L, aval_const. change [(1, local_force g q (con t e) t e 0); (1, local_force g q (con t e) t e 1)] with (map (fun x : linexpr => (1, x)) [local_force g q (con t e) t e 0; local_force g q (con t e) t e 1]).
        rewrite q_of_ones. unfold sq. cbn [map snd]. rewrite !sumR_cons. change (sumR []) with 0. rewrite aval_scale, !v_local. unfold coulomb, sqr.
        replace (vdot (surf (con t e) 0) (p_frc P e t) * vdot (surf (con t e) 0) (p_frc P e t) + (vdot (surf (con t e) 1) (p_frc P e t) * vdot (surf (con t e) 1) (p_frc P e t) + 0)) with
          (vdot (surf (con t e) 0) (p_frc P e t) * vdot (surf (con t e) 0) (p_frc P e t) + vdot (surf (con t e) 1) (p_frc P e t) * vdot (surf (con t e) 1) (p_frc P e t)) by ring. split; intros; lra.
      Qed.
      Lemma two_squares : forall a b l ap, call_holds x (CAddQua (q_of [(1, a); (1, b)]) "<" l ap) <-> sqr (aval x a) + sqr (aval x b) <= aval x l.
      Proof.
        intros a b l ap. rewrite holds_qua. destruct (q_of_props [(1, a); (1, b)]) as (L & _ & _ & W). rewrite L, W, aval_const. cbn [map fst snd]. rewrite !sumR_cons. change (sumR []) with 0. unfold sqr. split; intros; lra.
      Qed.
      Lemma cones_iff : (forall c, In c (cone_calls g q (con t e) t e) -> call_holds x c) <->
        vle (upper (arm cs q P e t) (p_frc P e t)) (p_ub P e t) /\ vle (lower (arm cs q P e t) (p_frc P e t)) (p_lb P e t) /\
        (let d := vsub (arm cs q P e t) (g_off g e) in vdot d d <= sqr (g_maxlen g e)).
      Proof.
        unfold cone_calls. rewrite !all_app, !all_map, !all_axes, all_cons, all_nil. cbn [ub_parts lb_parts fst snd]. rewrite !two_squares.
        rewrite holds_qua. destruct (q_of_props (map (fun i => (1, le_subc (lever g q (con t e) t e i) (vget3 (g_off g e) i))) axes)) as (L & _ & _ & W). rewrite L, W, aval_const. cbn [map axes fst snd]. rewrite !sumR_cons. change (sumR []) with 0.
        unfold negadd, negsub. rewrite !aval_add, !aval_sub, !aval_subc, !v_lever, !v_frc, !v_ub, !v_lb by auto. unfold ec. rewrite !aval_const.
        set (l := arm cs q P e t). set (f := p_frc P e t). set (o := g_off g e). unfold vle, upper, lower, vdot, sqr. cbn [vget3 vx vy vz vsub].
        intuition (try nra).
      Qed.
    End EffC.

    (** ** All of them *)
    Lemma height_iff : (forall c, In c height_pure -> call_holds x c) <-> forall t, (t < N)%nat -> vz (p_com P t) >= vz (c_pos (con 0%nat 0%nat)) + g_minh g.
    Proof.
      unfold height_pure, steps. rewrite all_flat, all_seq. fold N.
      assert (E : forall t, (t < N)%nat -> (forall b, In b [CAddLin (le_sub (evt g q bCOM 2 t) (ec (vz (c_pos (con 0%nat 0%nat))))) ">" (ec (g_minh g))] -> call_holds x b) <-> vz (p_com P t) >= vz (c_pos (con 0%nat 0%nat)) + g_minh g).
      { intros t Ht. rewrite all_cons, all_nil, holds_gt, aval_sub, v_com by (auto; apply ax2). unfold ec. rewrite !aval_const. cbn [vget3]. split; intros; lra. }
      split; intros H t Ht; [apply (E t Ht); exact (H t Ht)|exact (proj2 (E t Ht) (H t Ht))].
    Qed.
    Lemma horizon_iff : timeopt g = true -> (forall c, In c (horizon_calls g q) -> call_holds x c) <-> (g_fixed g = true -> rsum (g_N g) (p_dt P) = INR (g_N g) * g_dt g).
    Proof.
      intros T. unfold horizon_calls. rewrite T. destruct (g_fixed g); cbn [andb]; [|rewrite all_nil; split; [intros; discriminate|auto]].
      rewrite all_cons, all_nil, holds_eq. unfold ec. rewrite aval_const. assert (E : aval x (fold_left (fun l t => le_add l (evt g q bDT 0 t)) (steps g) (le_of_const 0)) = rsum (g_N g) (p_dt P)).
      { unfold steps. assert (G : forall n, (n <= N)%nat -> aval x (fold_left (fun l t => le_add l (evt g q bDT 0 t)) (seq 0 n) (le_of_const 0)) = rsum n (p_dt P)).
        { induction n as [|n IH]; intros Hn; [apply aval_const|]. rewrite seq_S, fold_left_app. cbn [fold_left rsum Nat.add]. rewrite aval_add, IH, v_dt by (auto; lia). reflexivity. }
        apply G. apply le_n. }
      rewrite E. tauto.
    Qed.
    Lemma bounds_iff : (forall c, In c (bound_calls g q) -> call_holds x c) <->
      (timeopt g = true -> forall t, (t < N)%nat -> g_tlo g <= p_dt P t <= g_thi g) /\
      (forall e t, (e < g_neff g)%nat -> (t < N)%nat -> active q e t -> g_trqlo g <= p_trq P e t <= g_trqhi g /\
         g_coprange g e 0 <= p_copx P e t <= g_coprange g e 1 /\ g_coprange g e 2 <= p_copy P e t <= g_coprange g e 3).
    Proof.
      unfold bound_calls, steps. rewrite all_flat, all_seq. fold N.
      assert (E1 : forall t, timeopt g = true -> (t < N)%nat -> (forall b, In b [CAddLin (evt g q bDT 0 t) ">" (ec (g_tlo g)); CAddLin (evt g q bDT 0 t) "<" (ec (g_thi g))] -> call_holds x b) <-> g_tlo g <= p_dt P t <= g_thi g).
      { intros t T Ht. rewrite !all_cons, all_nil, holds_gt, holds_lt, v_dt by assumption. unfold ec. rewrite !aval_const. split; intros; lra. }
      assert (E2 : forall e t, (e < g_neff g)%nat -> (t < N)%nat -> act q t e = true ->
        (forall b, In b [CAddLin (eff_ev g q (bTRQ g e) 0 t e) ">" (ec (g_trqlo g)); CAddLin (eff_ev g q (bTRQ g e) 0 t e) "<" (ec (g_trqhi g));
         CAddLin (eff_ev g q (bCOP g e) 0 t e) ">" (ec (g_coprange g e 0)); CAddLin (eff_ev g q (bCOP g e) 0 t e) "<" (ec (g_coprange g e 1));
         CAddLin (eff_ev g q (bCOP g e) 1 t e) ">" (ec (g_coprange g e 2)); CAddLin (eff_ev g q (bCOP g e) 1 t e) "<" (ec (g_coprange g e 3))] -> call_holds x b) <->
        g_trqlo g <= p_trq P e t <= g_trqhi g /\ g_coprange g e 0 <= p_copx P e t <= g_coprange g e 1 /\ g_coprange g e 2 <= p_copy P e t <= g_coprange g e 3).
      { intros e t He Ht Ha. rewrite !all_cons, all_nil, !holds_gt, !holds_lt, v_trq, v_copx, v_copy by assumption. unfold ec. rewrite !aval_const. split; intros; lra. }
      split.
      - intros H. split.
        + intros T t Ht. apply (E1 t T Ht). intros b Hb. apply (H t Ht). rewrite T. apply in_or_app. now left.
        + intros e t He Ht Ha. apply (E2 e t He Ht Ha). intros b Hb. apply (H t Ht). apply in_or_app. right. apply in_flat_map. exists e. split; [now apply in_effs|]. change (e_act (look q e t)) with (act q t e) in *. unfold active in Ha. change (e_act (look q e t)) with (act q t e) in Ha. rewrite Ha. exact Hb.
      - intros (H1 & H2) t Ht. apply all_app. split.
        + destruct (Bool.bool_dec (timeopt g) true) as [T|T]; [rewrite T; apply (E1 t T Ht); auto|apply not_true_is_false in T; rewrite T; intros b []].
        + apply all_flat. intros e He. apply in_effs in He. destruct (act q t e) eqn:Ha; [apply (E2 e t He Ht Ha); now apply H2|intros b []].
    Qed.
    Lemma friction_iff : (forall c, In c friction_pure -> call_holds x c) <->
      (forall e t, (e < g_neff g)%nat -> (t < N)%nat -> active q e t -> c_type (con t e) <> FullContact ->
        if g_linfric g then pyramid (Rmax (g_mu g) (1 / 1000)) (con t e) (p_frc P e t) else coulomb (g_mu g) (con t e) (p_frc P e t)).
    Proof.
      unfold friction_pure, steps. rewrite all_flat, all_seq. fold N.
      assert (E : forall e t, (e < g_neff g)%nat -> (t < N)%nat -> (forall b, In b (match contact_type q cs stray t e with Ok FullContact => [] | _ =>
          if act q t e then (if g_linfric g then map (lin_friction g q (con t e) t e) [0; 1; 2; 3]%nat else [soc_friction g q (con t e) t e]) else [] end) -> call_holds x b) <->
         (act q t e = true -> c_type (con t e) <> FullContact -> if g_linfric g then pyramid (Rmax (g_mu g) (1 / 1000)) (con t e) (p_frc P e t) else coulomb (g_mu g) (con t e) (p_frc P e t))).
      { intros e t He Ht. destruct (act q t e) eqn:Ha.
        - unfold contact_type. rewrite act_contact by assumption.
          assert (G : (forall b, In b (if g_linfric g then map (lin_friction g q (con t e) t e) [0; 1; 2; 3]%nat else [soc_friction g q (con t e) t e]) -> call_holds x b) <->
             if g_linfric g then pyramid (Rmax (g_mu g) (1 / 1000)) (con t e) (p_frc P e t) else coulomb (g_mu g) (con t e) (p_frc P e t)).
          { destruct (g_linfric g); [rewrite all_map; now apply lin_fric_iff|rewrite all_cons, all_nil, soc_fric_iff by assumption; tauto]. }
          destruct (c_type (con t e)) eqn:Ec; try (rewrite G; split; [intros H _ _; exact H|intros H; apply H; [reflexivity|discriminate]]).
          split; [intros _ _ H; congruence|intros _ b []].
        - split; [intros _ H; discriminate|]. intros _ b. destruct (contact_type q cs stray t e) as [[]| |]; intros []. }
      split.
      - intros H e t He Ht Ha. apply (E e t He Ht); [|exact Ha]. intros b Hb. apply (H t Ht). apply in_flat_map. exists e. split; [now apply in_effs|exact Hb].
      - intros H t Ht. apply all_flat. intros e He. apply in_effs in He. apply (E e t He Ht). intros Ha. now apply H.
    Qed.
    Lemma quad_iff : (forall c, In c quad_pure -> call_holds x c) <->
      (forall e t, (e < g_neff g)%nat -> (t < N)%nat -> active q e t ->
        vle (upper (arm cs q P e t) (p_frc P e t)) (p_ub P e t) /\ vle (lower (arm cs q P e t) (p_frc P e t)) (p_lb P e t) /\
        (let d := vsub (arm cs q P e t) (g_off g e) in vdot d d <= sqr (g_maxlen g e))).
    Proof.
      unfold quad_pure, steps. rewrite all_flat, all_seq. fold N. split.
      - intros H e t He Ht Ha. apply cones_iff; auto. intros b Hb. apply (H t Ht). apply in_flat_map. exists e. split; [now apply in_effs|].
        unfold active in Ha. change (e_act (look q e t)) with (act q t e) in Ha. rewrite Ha. exact Hb.
      - intros H t Ht. apply all_flat. intros e He. apply in_effs in He. destruct (act q t e) eqn:Ha; [|intros b []]. apply cones_iff; auto.
    Qed.
    Lemma dynamics_iff : (forall c, In c dynamics_pure -> call_holds x c) <-> (forall t, (t < N)%nat ->
      match g_heur g with TimeOptimization => dynamics_time g ini cs q first P t | _ => dynamics_fixed g ini cs q P t end).
    Proof.
      unfold dynamics_pure, steps. rewrite all_flat, all_seq. fold N.
      enough (E : forall t, (t < N)%nat -> ((forall b, In b (if timeopt g then
      (if first then map (com_call g q ini t) axes ++ map (fun i => rate_call g q bLM bLMD i t (d_lmom ini)) axes ++ map (fun i => rate_call g q bAM bAMD i t (d_amom ini)) axes
       else map (fun i => product_call g q bCOM bLM i t (d_com ini) (d_lmom (st q t)) (/ 4 / g_mass g)) axes
            ++ map (fun i => product_call g q bLM bLMD i t (d_lmom ini) (d_lmomd (st q t)) (/ 4)) axes
            ++ map (fun i => product_call g q bAM bAMD i t (d_amom ini) (d_amomd (st q t)) (/ 4)) axes)
      ++ map (lmomd_call g q t) axes ++ map (fun i => CAddLin (amomd_expr t i) "=" (ec 0)) axes
      else map (com_call g q ini t) axes ++ map (lmom_call g q ini t) axes ++ map (fun i => CAddLin (amom_expr t i) "=" (ec 0)) axes) -> call_holds x b) <->
      match g_heur g with TimeOptimization => dynamics_time g ini cs q first P t | _ => dynamics_fixed g ini cs q P t end)).
      { split; intros H t Ht; [exact (proj1 (E t Ht) (H t Ht))|exact (proj2 (E t Ht) (H t Ht))]. }
      { intros t Ht. assert (F : timeopt g = false -> (forall b, In b (map (com_call g q ini t) axes ++ map (lmom_call g q ini t) axes ++ map (fun i => CAddLin (amom_expr t i) "=" (ec 0)) axes) -> call_holds x b) <-> dynamics_fixed g ini cs q P t).
        { intros _. rewrite !all_app, !all_map, com_iff, lmom_iff, amom_iff by assumption. reflexivity. }
        destruct (g_heur g) eqn:Eh; try (unfold timeopt in *; rewrite Eh in *; cbn [is_timeopt] in *; now apply F).
        assert (T : timeopt g = true) by (unfold timeopt; rewrite Eh; reflexivity). rewrite T. rewrite !all_app. rewrite !(all_map _ (lmomd_call g q t)), !(all_map _ (fun i => CAddLin (amomd_expr t i) "=" (ec 0))), lmomd_iff, amomd_iff by assumption.
        unfold dynamics_time. change (d_time (nth t (states q) dstate_new)) with (sdt q t). destruct first.
        - rewrite !all_app, !all_map, com_iff by assumption. rewrite (rate_iff bLM bLMD (p_lmom P) (p_lmomd P)) by (intros; first [exact Ht|exact T|now apply v_lm|now apply v_lmd]).
          rewrite (rate_iff bAM bAMD (p_amom P) (p_amomd P)) by (intros; first [exact Ht|exact T|now apply v_am|now apply v_amd]).
          replace (vscale (/ g_mass g) (vscale (sdt q t) (p_lmom P t))) with (vscale (sdt q t / g_mass g) (p_lmom P t)) by (unfold vscale; cbn [vx vy vz]; f_equal; unfold Rdiv; ring). tauto.
        - rewrite !all_app, !all_map. rewrite (product_iff bCOM bLM (p_com P) (p_lmom P)) by (intros; first [exact Ht|exact T|now apply v_com|now apply v_lm]).
          rewrite (product_iff bLM bLMD (p_lmom P) (p_lmomd P)) by (intros; first [exact Ht|exact T|now apply v_lm|now apply v_lmd]).
          rewrite (product_iff bAM bAMD (p_amom P) (p_amomd P)) by (intros; first [exact Ht|exact T|now apply v_am|now apply v_amd]).
          assert (K1 : 4 * (/ 4 / g_mass g) = / g_mass g) by (unfold Rdiv; rewrite <- Rmult_assoc; replace (4 * / 4) with 1 by field; ring). assert (K2 : 4 * / 4 = 1) by field. rewrite K1, K2.
          assert (S1 : forall v, vscale 1 v = v) by (intros [a b c]; unfold vscale; cbn; f_equal; ring). rewrite !S1. unfold st. tauto. }
    Qed.
    Theorem constraints_iff : (forall c, In c constraints -> call_holds x c) <-> momentum_feasible g ini cs q first P.
    Proof.
      unfold constraints. rewrite !all_app, height_iff, bounds_iff, friction_iff, dynamics_iff, quad_iff. split.
      - intros (H1 & H2 & (H3 & H4) & H5 & H6 & H7). constructor; auto.
        + intros Eh. assert (T : timeopt g = true) by (unfold timeopt; rewrite Eh; reflexivity). split; [now apply H3|]. apply horizon_iff; [exact T|exact H2].
        + intros e t He Ht Ha. destruct (H4 e t He Ht Ha) as (A & B & C). destruct (H7 e t He Ht Ha) as (D & E & F). constructor; auto. exact (H5 e t He Ht Ha).
      - intros [H1 H2 H3 H4]. assert (TH : timeopt g = true -> g_heur g = TimeOptimization) by (unfold timeopt; destruct (g_heur g); auto; discriminate).
        split; [exact H1|]. split.
        { destruct (Bool.bool_dec (timeopt g) true) as [T|T]; [apply horizon_iff; [exact T|apply (H3 (TH T))]|apply not_true_is_false in T]. unfold horizon_calls. rewrite T, andb_false_r. intros c []. }
        split; [split|split; [|split; [exact H2|]]].
        + intros T. apply (H3 (TH T)).
        + intros e t He Ht Ha. destruct (H4 e t He Ht Ha). auto.
        + intros e t He Ht Ha. destruct (H4 e t He Ht Ha). auto.
        + intros e t He Ht Ha. destruct (H4 e t He Ht Ha). auto.
    Qed.
  End Values.
End Run.

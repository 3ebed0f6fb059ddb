(** * Label l2a and the run *)
From Coq Require Import Reals List Arith ZArith Bool Lia Lra Psatz FunctionalExtensionality.
Import ListNotations.
From Verif Require Import Base BaseProofs QpModel QpSpec QpProofs QpProofs2 QpProofs3.
Local Open Scope R_scope.

Lemma ratio_spec : forall cnt k0 r u A t1 l t1' l', ratio cnt k0 r u A t1 l = (t1', l') ->
  match t1' with
  | None => t1 = None /\ forall k, (k0 <= k < k0 + cnt)%nat -> r k <= 0
  | Some t => (forall k, (k0 <= k < k0 + cnt)%nat -> 0 < r k -> t <= u k / r k) /\ (match t1 with Some t0 => t <= t0 | None => True end) /\
      ((t1 = Some t /\ l' = l) \/ exists k, (k0 <= k < k0 + cnt)%nat /\ 0 < r k /\ t = u k / r k /\ l' = A k)
  end.
Proof.
  induction cnt; intros k0 r u A t1 l t1' l' E; cbn [ratio] in E.
  - injection E as <- <-. destruct t1.
    + split; [intros; lia|]. split; [lra|]. now left.
    + split; [easy|intros; lia].
  - destruct (rltb 0 (r k0) && match t1 with None => true | Some t => rltb (u k0 / r k0) t end) eqn:G.
    + apply andb_prop in G. destruct G as [G1 G2]. apply rltb_t in G1. specialize (IHcnt _ _ _ _ _ _ _ _ E).
      destruct t1' as [t|]; [|destruct IHcnt; discriminate]. destruct IHcnt as (K & L & D). split; [|split].
      * intros k Hk Hr. destruct (Nat.eq_dec k k0); [subst; easy|]. apply K; [lia|easy].
      * destruct t1 as [t0|]; [|easy]. apply rltb_t in G2. lra.
      * right. destruct D as [[D1 D2]|(k & D1 & D2 & D3 & D4)].
        -- injection D1 as D1. exists k0. repeat split; auto; lia.
        -- exists k. repeat split; auto; lia.
    + specialize (IHcnt _ _ _ _ _ _ _ _ E). destruct t1' as [t|].
      * destruct IHcnt as (K & L & D). split; [|split].
        -- intros k Hk Hr. destruct (Nat.eq_dec k k0); [|apply K; [lia|easy]]. subst k.
           assert (rltb 0 (r k0) = true) by now apply rltb_t. rewrite H in G. cbn [andb] in G. destruct t1 as [t0|]; [|discriminate]. apply rltb_f in G. lra.
        -- easy.
        -- destruct D as [D|(k & D1 & D2)]; [now left|]. right. exists k. split; [lia|easy].
      * destruct IHcnt as (K1 & K2). subst t1. split; [easy|]. intros k Hk. destruct (Nat.eq_dec k k0); [|apply K2; lia]. subst k.
        rewrite andb_true_r in G. now apply rltb_f in G.
Qed.

Lemma rsum_skip : forall m qq f, (qq < m)%nat -> rsum m f = rsum (m - 1) (fun k => f (skip qq k)) + f qq.
Proof.
  induction m; intros qq f Hq; [lia|]. cbn [rsum]. replace (S m - 1)%nat with m by lia.
  destruct (Nat.eq_dec qq m).
  - subst. f_equal. apply rsum_ext; intros k Hk. unfold skip. destruct (Nat.ltb_spec k m); [easy|lia].
  - rewrite (IHm qq) by lia. assert (Hm : exists m', m = S m') by (exists (m - 1)%nat; lia). destruct Hm as (m' & ->). replace (S m' - 1)%nat with m' by lia.
    cbn [rsum]. assert (E : skip qq m' = S m') by (unfold skip; destruct (Nat.ltb_spec m' qq); lia). rewrite E. ring.
Qed.

(** A dropped constraint with zero multiplier. *)
Lemma inv_drop : forall P J0 E q e x' u' f' s' iai' kst mu,
  core P J0 (QS x' u' (A q) iai' (iaexcl q) s' (ss q) (ip q) (np q) (mR q) (mJ q) (Rn q) f' (iq q) (u_old q) (A_old q) (x_old q)) mu (np q) ->
  (q_me P <= kst < iq q)%nat -> u' kst = 0 -> (iq q < q_me P + q_mi P)%nat ->
  (q_me P <= iq q)%nat -> (forall k, (k < q_me P)%nat -> A q k = (- Z.of_nat k - 1)%Z) ->
  (forall k, (q_me P <= k < iq q)%nat -> (0 <= A q k < Z.of_nat (q_mi P))%Z) ->
  (forall k k', (q_me P <= k < iq q)%nat -> (q_me P <= k' < iq q)%nat -> A q k = A q k' -> k = k') ->
  (forall k, (q_me P <= k < iq q)%nat -> resid P (A q k) x' = 0) ->
  (forall k, (q_me P <= k < iq q)%nat -> 0 <= u' k) ->
  (forall i, (i < q_me P)%nat -> eq_residual P x' i = E i) ->
  (forall i, (i < q_mi P)%nat -> iai q i = (-1)%Z -> exists k, (q_me P <= k < iq q)%nat /\ A q k = Z.of_nat i) ->
  iai' = upd (iai q) (Z.to_nat (A q kst)) (A q kst) ->
  mu = u' (iq q) ->
  deleteConstraint (q_me P + q_mi P) (mR q) (mJ q) (A q) u' (q_me P) (iq q) (A q kst) = Some e ->
  qinv P J0 E (QS x' (e_u e) (e_A e) iai' (iaexcl q) s' (ss q) (ip q) (np q) (e_R e) (e_J e) (Rn q) f' (e_iq e) (u_old q) (A_old q) (x_old q)) (e_u e (e_iq e)) (np q)
  /\ e_iq e = (iq q - 1)%nat /\ e_A e (e_iq e) = A q (iq q) /\ e_u e (e_iq e) = u' (iq q) /\
  (forall k, (k < e_iq e)%nat -> exists k', (k' < iq q)%nat /\ ((q_me P <= k)%nat -> (q_me P <= k')%nat) /\ e_A e k = A q k').
Proof.
  intros P J0 E q e x' u' f' s' iai' kst mu [G F D I RN ST FV] Hk Hu Hlen Me Aeq Ain Inj Act Un Res Ia Eia Emu ED.
  cbn [iq mJ mR A Rn x u fv] in *.
  destruct (find_active_some (iq q - q_me P) (A q) (A q kst) (q_me P) kst ltac:(lia) eq_refl) as (qq & EQ).
  destruct (find_active_spec _ _ _ _ _ EQ) as [Hqq HAq]. assert (qq = kst) by (apply Inj; [lia|lia|easy]). subst qq.
  destruct (delete_factor _ _ _ _ _ _ _ _ _ _ _ _ F D I ED EQ) as (_ & Eiq & F' & D' & G' & EA & EU & EA0 & EU0).
  assert (EL : skip kst (iq q - 1) = iq q) by (unfold skip; destruct (Nat.ltb_spec (iq q - 1) kst); lia).
  assert (EUL : e_u e (iq q - 1)%nat = u' (iq q)) by (rewrite EU by lia; now rewrite EL).
  assert (SK : forall k, (k < iq q - 1)%nat -> (skip kst k < iq q)%nat /\ (q_me P <= k -> q_me P <= skip kst k)%nat /\ (k < q_me P -> skip kst k = k)%nat)
    by (intros k Hk'; unfold skip; destruct (Nat.ltb_spec k kst); repeat split; lia).
  split; [|rewrite Eiq; split; [easy|split; [|split]]].
  - constructor; cbn [iq mJ mR A Rn x u fv iai]; rewrite ?Eiq.
    + constructor; cbn [iq mJ mR A Rn x u fv iai]; rewrite ?Eiq; auto.
      * intros. rewrite G'. now apply G.
      * apply factor_ext with (1 := F'). intros k Hk'. now rewrite EA by lia.
      * lia.
      * intros i Hi. rewrite ST by easy. rewrite EUL, Emu. f_equal. rewrite (rsum_skip (iq q) kst) by lia. rewrite Hu, Rmult_0_l, Rplus_0_r.
        apply rsum_ext; intros k Hk'. now rewrite EA, EU by lia.
    + lia.
    + intros k Hk'. rewrite EA by lia. rewrite (proj2 (proj2 (SK k ltac:(lia)))) by easy. now apply Aeq.
    + intros k Hk'. rewrite EA by lia. apply Ain. destruct (SK k ltac:(lia)) as (a & b & c). lia.
    + intros k k' Hk1 Hk2 EQA. rewrite !EA in EQA by lia. destruct (SK k ltac:(lia)) as (a & b & c). destruct (SK k' ltac:(lia)) as (a' & b' & c').
      apply Inj in EQA; [|lia|lia]. unfold skip in EQA. destruct (Nat.ltb_spec k kst), (Nat.ltb_spec k' kst); lia.
    + intros k Hk'. rewrite EA by lia. apply Act. destruct (SK k ltac:(lia)) as (a & b & c). lia.
    + intros k Hk'. rewrite EU by lia. apply Un. destruct (SK k ltac:(lia)) as (a & b & c). lia.
    + easy.
    + intros i Hi. rewrite Eia. intros Ei. pose proof (Ain kst ltac:(lia)) as Hr. unfold upd in Ei. destruct (Nat.eqb_spec i (Z.to_nat (A q kst))); [lia|].
      destruct (Ia i Hi Ei) as (k & Hk' & Ek). assert (k <> kst) by (intros ->; rewrite Ek in n; lia).
      destruct (lt_dec k kst).
      * exists k. split; [lia|]. rewrite EA by lia. unfold skip. destruct (Nat.ltb_spec k kst); [easy|lia].
      * exists (k - 1)%nat. split; [lia|]. rewrite EA by lia. unfold skip. destruct (Nat.ltb_spec (k - 1) kst); [lia|]. replace (S (k - 1)) with k by lia. easy.
  - rewrite EA by lia. now rewrite EL.
  - easy.
  - intros k Hk'. exists (skip kst k). destruct (SK k Hk') as (a & b & c). split; [easy|]. split; [easy|]. apply EA. lia.
Qed.

Lemma dot_zero_vec : forall n z, dotn n z z = 0 -> forall k, (k < n)%nat -> z k = 0.
Proof. intros. now apply (rsum_sq_zero n z). Qed.

(** The outcome of one pass through l2a. *)
Lemma step_l2a_spec : forall P J0 E q, inverse_factor P J0 -> inv_at P J0 E L2a q ->
  match step_l2a P q with
  | Bad o => o = true
  | Return o e q' => e = ExitInfeasible /\ (o = false -> q' = q /\ (forall k, (k < q_n P)%nat -> updateZ (q_n P) (mJ q) (computeD (q_n P) (mJ q) (np q)) (iq q) k = 0) /\
        forall k, (q_me P <= k < iq q)%nat -> updateR (mR q) (computeD (q_n P) (mJ q) (np q)) (iq q) k <= 0)
  | Next true pc q' => True
  | Next false L1 q' => inv_at P J0 E L1 q' /\ iq q' = S (iq q) /\ fv q < fv q'
  | Next false L2 q' => False
  | Next false L2a q' => inv_at P J0 E L2a q' /\ S (iq q') = iq q /\ fv q <= fv q'
  end.
Proof.
  intros P J0 E q HJ [[C Me Aeq Ain Inj Act Un Res Ia] [Hip [EAip [Enp [HNE [Hu0 [Hs Hsn]]]]]]]. unfold step_l2a.
  pose proof (count_active P (A q) (iq q) (ip q) Me Hip Ain Inj HNE) as Hlen.
  destruct C as [G F D I RN ST FV].
  set (n := q_n P) in *. set (d := computeD n (mJ q) (np q)). set (z := updateZ n (mJ q) d (iq q)). set (r := updateR (mR q) d (iq q)).
  assert (Ez : (if (n <=? iq q)%nat then (fun _ => 0) else z) = z).
  { destruct (Nat.leb_spec n (iq q)); [|easy]. apply functional_extensionality; intros k. unfold z, updateZ. replace (n - iq q)%nat with 0%nat by lia. reflexivity. }
  cbv zeta. rewrite Ez.
  destruct (ratio (iq q - q_me P) (q_me P) r (u q) (A q) None 0%Z) as [t1 l] eqn:ER.
  pose proof (ratio_spec _ _ _ _ _ _ _ _ _ ER) as RS.
  pose proof eps_pos as Hep.
  assert (Hzz : 0 <= dotn n z z) by (apply rsum_nonneg; intros; nra).
  pose proof (z_np_nonneg P (iq q) (mJ q) (np q) I) as Hnn. fold n d z in Hnn.
  pose proof (z_np_zero P (iq q) (mJ q) (np q) I) as Hnz. fold n d z in Hnz.
  (* consequences of a step of length t *)
  set (up := fun t => upd (head_sub (iq q) t r (u q)) (iq q) (u q (iq q) + t)).
  assert (UP : forall t k, (k < iq q)%nat -> up t k = u q k - t * r k).
  { intros t k Hk. unfold up, upd, head_sub. destruct (Nat.eqb_spec k (iq q)); [lia|]. destruct (Nat.ltb_spec k (iq q)); [easy|lia]. }
  assert (UPq : forall t, up t (iq q) = u q (iq q) + t) by (intros; unfold up; apply upd_same).
  assert (STP : forall t i, (i < n)%nat -> Hmul P (axpy t z (x q)) i + q_g P i = rsum (iq q) (fun k => up t k * nrm P (A q k) i) + (u q (iq q) + t) * np q i).
  { intros t i Hi. unfold z, d, n. rewrite (step_stat P J0 HJ (iq q) (mJ q) (mR q) (fun k => nrm P (A q k)) (np q) I G F D (x q) (u q) (u q (iq q)) ST t i Hi). f_equal.
    apply rsum_ext; intros k Hk. rewrite UP by easy. unfold head_sub. fold n d r. destruct (Nat.ltb_spec k (iq q)); [easy|lia]. }
  assert (OBJ : forall t, objective P (axpy t z (x q)) = objective P (x q) + t * dotn n z (np q) * (/ 2 * t + u q (iq q))).
  { intros t. apply (step_obj P J0 HJ (iq q) (mJ q) (mR q) (fun k => nrm P (A q k)) (np q) I G F D (x q) (u q) (u q (iq q)) ST t). }
  assert (ACT : forall t k, (k < iq q)%nat -> resid P (A q k) (axpy t z (x q)) = resid P (A q k) (x q)).
  { intros t k Hk. unfold resid. f_equal. apply (step_active P (iq q) (mJ q) (mR q) (fun k => nrm P (A q k)) (np q) I F (x q) t k Hk). }
  assert (RES : forall t i, (i < q_me P)%nat -> eq_residual P (axpy t z (x q)) i = E i).
  { intros t i Hi. rewrite <- Res by easy. rewrite <- !resid_eq, <- (Aeq i Hi). apply ACT. lia. }
  assert (NP : forall t, slack P (axpy t z (x q)) (ip q) = slack P (x q) (ip q) + t * dotn n z (np q)).
  { intros t. rewrite !slack_is. unfold resid. rewrite <- Enp. unfold z, d, n. rewrite step_np. ring. }
  assert (UN : forall t, 0 <= t -> match t1 with Some tm => t <= tm | None => True end -> forall k, (q_me P <= k < iq q)%nat -> 0 <= up t k).
  { intros t Ht Htt k Hk. rewrite UP by lia. pose proof (Un k Hk). destruct (Rle_dec (r k) 0); [nra|]. assert (Hr : 0 < r k) by lra.
    destruct t1 as [tm|]; [|destruct RS as [_ RS]; specialize (RS k ltac:(lia)); lra].
    destruct RS as [K _]. pose proof (K k ltac:(lia) Hr) as K'. 
    assert (r k * (u q k / r k) = u q k) by (field; lra). nra. }
  destruct (rltb eps (Rabs (dotn n z z))) eqn:Et2; [apply rltb_t in Et2|apply rltb_f in Et2]; rewrite Rabs_right in Et2 by lra.
  - (* a full step exists *)
    assert (Hzn : 0 < dotn n z (np q)).
    { destruct (Rle_lt_or_eq_dec _ _ Hnn); [easy|]. exfalso. assert (dotn n z z = 0); [|lra]. apply rsum_zero; intros. rewrite Hnz by easy. ring. }
    set (t2 := - s q (ip q) / dotn n z (np q)).
    assert (Ht2 : 0 < t2) by (unfold t2; apply Rdiv_lt_0_compat; lra).
    assert (Ht2z : t2 * dotn n z (np q) = - s q (ip q)) by (unfold t2; field; lra).
    assert (Hiqn : (iq q < n)%nat).
    { destruct (lt_dec (iq q) n); [easy|]. exfalso. assert (dotn n z z = 0); [|lra]. apply rsum_zero; intros. unfold z, updateZ. replace (n - iq q)%nat with 0%nat by lia. cbn [rsum]. ring. }
    set (t := match t1 with Some t1v => Rmin t1v t2 | None => t2 end).
    destruct (reqb t t2) eqn:Ett; [apply reqb_t in Ett|apply reqb_f in Ett].
    + (* full step *)
      destruct (addConstraint n (mR q) (mJ q) d (iq q) (Rn q)) as [a|] eqn:EA.
      2:{ exfalso. unfold addConstraint in EA. destruct (Nat.ltb_spec (iq q) n); [|lia]. destruct (add_loop _ _ _ _). destruct (rleb _ _); discriminate. }
      destruct (a_ok a) eqn:OK.
      2:{ destruct t1; destruct (deleteConstraint _ (a_R a) _ _ _ _ _ _) as [e|]; try easy; destruct (rollback_iai _ _ _ _ _); easy. }
      set (qn := QS (axpy t z (x q)) (up t) (A q) (upd (iai q) (ip q) (-1)%Z) (iaexcl q) (s q) (ss q) (ip q) (np q) (a_R a) (a_J a) (a_Rn a)
                    (fv q + t * dotn n z (np q) * (/ 2 * t + u q (iq q))) (iq q + 1)%nat (u_old q) (A_old q) (x_old q)).
      assert (GG : inv_at P J0 E L1 qn /\ iq qn = S (iq q) /\ fv q < fv qn).
      2:{ destruct t1; exact GG. }
      assert (Htt : match t1 with Some tm => t <= tm | None => True end) by (unfold t; destruct t1; [apply Rmin_l|easy]).
      assert (SL : resid P (Z.of_nat (ip q)) (axpy t z (x q)) = 0) by (rewrite <- slack_is, NP, Ett, Ht2z, <- Hs; ring).
      split; [|split].
      * constructor; unfold qn; cbn [iq mJ mR A Rn x u fv iai].
        -- apply core_mu0 with (np q).
           refine (core_add P J0 q (u q (iq q)) (np q) t a (A q) (s q) (ss q) (ip q) (upd (iai q) (ip q) (-1)%Z) (iaexcl q) (u_old q) (A_old q) (x_old q) (np q) (Z.of_nat (ip q)) HJ _ _ EAip _ EA OK (up t) _ _ _ _).
           ++ constructor; auto.
           ++ easy.
           ++ easy.
           ++ intros k Hk. rewrite UP by easy. unfold head_sub. fold n d r. destruct (Nat.ltb_spec k (iq q)); [easy|lia].
           ++ apply UPq.
           ++ reflexivity.
        -- lia.
        -- easy.
        -- intros k Hk. destruct (Nat.eq_dec k (iq q)). subst k. rewrite EAip. lia. apply Ain. lia.
        -- intros k k' Hk Hk' EQ. destruct (Nat.eq_dec k (iq q)), (Nat.eq_dec k' (iq q)); try lia.
           ++ subst k. exfalso. apply (HNE k'); [lia|]. now rewrite <- EQ.
           ++ subst k'. exfalso. apply (HNE k); [lia|]. now rewrite EQ.
           ++ apply Inj; [lia|lia|easy].
        -- intros k Hk. destruct (Nat.eq_dec k (iq q)). subst k. rewrite EAip. easy. rewrite ACT by lia. apply Act. lia.
        -- intros k Hk. destruct (Nat.eq_dec k (iq q)). subst k. rewrite UPq. lra. apply UN; [lra|easy|lia].
        -- apply RES.
        -- intros i Hi Ei. unfold upd in Ei. destruct (Nat.eqb_spec i (ip q)). subst i. exists (iq q). split; [lia|easy].
           destruct (Ia i Hi Ei) as (k & Hk & Ek). exists k. split; [lia|easy].
      * unfold qn. cbn [iq]. lia.
      * unfold qn. cbn [fv]. assert (0 < t * dotn n z (np q) * (/ 2 * t + u q (iq q))); [|lra].
        rewrite Ett. apply Rmult_lt_0_compat; [nra|lra].
    + (* partial step *)
      destruct t1 as [t1v|]; [|easy]. destruct RS as (K & _ & [[RS _]|(kst & Hk & Hr & Et & El)]); [discriminate|].
      assert (Hkq : (q_me P <= kst < iq q)%nat) by lia.
      assert (Ett' : t = t1v /\ t1v < t2) by (unfold t in *; unfold Rmin in *; destruct (Rle_dec t1v t2); split; try easy; destruct (Req_dec t1v t2); [easy|lra]).
      destruct Ett' as [Ett1 Htlt].
      assert (Ht0 : 0 <= t). { rewrite Ett1, Et. apply Rmult_le_pos. now apply Un. left. now apply Rinv_0_lt_compat. }
      assert (UK : up t kst = 0) by (rewrite UP by lia; rewrite Ett1, Et; field; lra).
      subst l.
      change (upd (head_sub (iq q) t r (u q)) (iq q) (u q (iq q) + t)) with (up t).
      destruct (deleteConstraint (q_me P + q_mi P) (mR q) (mJ q) (A q) (up t) (q_me P) (iq q) (A q kst)) as [e|] eqn:ED.
      2:{ exfalso. unfold deleteConstraint in ED. destruct (Nat.leb_spec 1 (iq q)); [|lia]. destruct (Nat.ltb_spec (iq q) (q_me P + q_mi P)); [|lia]. cbn [andb] in ED. destruct (del_loop _ _ _ _ _). discriminate. }
      set (s' := upd (s q) (ip q) (slack P (axpy t z (x q)) (ip q))).
      set (f' := fv q + t * dotn n z (np q) * (/ 2 * t + u q (iq q))).
      set (iai' := upd (iai q) (Z.to_nat (A q kst)) (A q kst)).
      edestruct (inv_drop P J0 E q e (axpy t z (x q)) (up t) f' s' iai' kst (u q (iq q) + t)) as (Q1 & Q2 & Q3 & Q4 & Q5); try eassumption; try reflexivity.
      * constructor; cbn [iq mJ mR A Rn x u fv]; auto. unfold f'. now rewrite OBJ, FV.
      * intros k Hk'. rewrite ACT by lia. now apply Act.
      * apply UN; [easy|lra].
      * apply RES.
      * now rewrite UPq.
      * assert (SL : slack P (axpy t z (x q)) (ip q) < 0) by (rewrite NP, <- Hs; rewrite Ett1; nra).
        split; [|split].
        -- split; [exact Q1|]. cbn [iq mJ mR A Rn x u fv iai np ip s]. split; [easy|]. split; [now rewrite Q3|]. split; [easy|]. split.
           ++ intros k Hk'. destruct (Q5 k ltac:(lia)) as (k' & a & b & c). rewrite c. apply HNE. lia.
           ++ rewrite Q4, UPq. split; [lra|]. unfold s'. rewrite upd_same. split; [easy|exact SL].
        -- cbn [iq]. lia.
        -- cbn [fv]. unfold f'. assert (0 <= t * dotn n z (np q) * (/ 2 * t + u q (iq q))); [|lra]. apply Rmult_le_pos; [nra|lra].
  - (* z is taken for zero *)
    destruct (reqb (dotn n z z) 0) eqn:E0; cbn [negb].
    2:{ destruct t1 as [t|].
        - change (upd (head_sub (iq q) t r (u q)) (iq q) (u q (iq q) + t)) with (up t).
          destruct RS as (K & _ & [[RS _]|(kst & Hk & Hr & Et & El)]); [discriminate|].
          destruct (deleteConstraint (q_me P + q_mi P) (mR q) (mJ q) (A q) (up t) (q_me P) (iq q) l) as [e|] eqn:ED; [easy|].
          exfalso. unfold deleteConstraint in ED. destruct (Nat.leb_spec 1 (iq q)); [|lia]. destruct (Nat.ltb_spec (iq q) (q_me P + q_mi P)); [|lia]. cbn [andb] in ED. destruct (del_loop _ _ _ _ _). discriminate.
        - split; [easy|]. intros; discriminate. }
    apply reqb_t in E0. pose proof (dot_zero_vec n z E0) as Z0.
    destruct t1 as [t|].
    + destruct RS as (K & _ & [[RS _]|(kst & Hk & Hr & Et & El)]); [discriminate|].
      assert (Hkq : (q_me P <= kst < iq q)%nat) by lia. subst l.
      assert (Ht0 : 0 <= t). { rewrite Et. apply Rmult_le_pos. now apply Un. left. now apply Rinv_0_lt_compat. }
      assert (UK : up t kst = 0) by (rewrite UP by lia; rewrite Et; field; lra).
      change (upd (head_sub (iq q) t r (u q)) (iq q) (u q (iq q) + t)) with (up t).
      destruct (deleteConstraint (q_me P + q_mi P) (mR q) (mJ q) (A q) (up t) (q_me P) (iq q) (A q kst)) as [e|] eqn:ED.
      2:{ exfalso. unfold deleteConstraint in ED. destruct (Nat.leb_spec 1 (iq q)); [|lia]. destruct (Nat.ltb_spec (iq q) (q_me P + q_mi P)); [|lia]. cbn [andb] in ED. destruct (del_loop _ _ _ _ _). discriminate. }
      set (iai' := upd (iai q) (Z.to_nat (A q kst)) (A q kst)).
      edestruct (inv_drop P J0 E q e (x q) (up t) (fv q) (s q) iai' kst (u q (iq q) + t)) as (Q1 & Q2 & Q3 & Q4 & Q5); try eassumption; try reflexivity.
      * constructor; cbn [iq mJ mR A Rn x u fv]; auto. intros i Hi. rewrite <- STP by easy. f_equal. unfold axpy. rewrite Hmul_lin.
        assert (Hmul P z i = 0) by (unfold Hmul; apply rsum_zero; intros k Hk'; rewrite Z0 by easy; ring). rewrite H. ring.
      * apply UN; [easy|lra].
      * now rewrite UPq.
      * split; [|split].
        -- split; [exact Q1|]. cbn [iq mJ mR A Rn x u fv iai np ip s]. split; [easy|]. split; [now rewrite Q3|]. split; [easy|]. split.
           ++ intros k Hk'. destruct (Q5 k ltac:(lia)) as (k' & a & b & c). rewrite c. apply HNE. lia.
           ++ rewrite Q4, UPq. split; [lra|]. easy.
        -- cbn [iq]. lia.
        -- cbn [fv]. lra.
    + split; [easy|]. intros _. split; [easy|]. split; [exact Z0|]. destruct RS as [_ RS]. intros k Hk. apply RS. lia.
Qed.

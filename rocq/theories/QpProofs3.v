(** * The loop invariant of the QP solver *)
From Coq Require Import Reals List Arith ZArith Bool Lia Lra Psatz FunctionalExtensionality.
Import ListNotations.
From Verif Require Import Base BaseProofs QpModel QpSpec QpProofs QpProofs2.
Local Open Scope R_scope.

(** Normal and offset of the constraint with code a (negative codes are equalities): n.x + o is the residual, respectively the slack. *)
Definition nrm (P : qp) (a : Z) : qvec := if (a <? 0)%Z then q_CE P (Z.to_nat (- a - 1)) else vopp (q_CI P (Z.to_nat a)).
Definition off (P : qp) (a : Z) : R := if (a <? 0)%Z then q_ce0 P (Z.to_nat (- a - 1)) else - q_ci0 P (Z.to_nat a).
Definition resid (P : qp) (a : Z) (v : qvec) : R := dotn (q_n P) (nrm P a) v + off P a.

Record core (P : qp) (J0 : qmat) (q : qst) (mu : R) (npv : qvec) : Prop := Core {
  v_gram : forall a b, (a < q_n P)%nat -> (b < q_n P)%nat -> gram (q_n P) (mJ q) a b = gram (q_n P) J0 a b;
  v_fac : factor (q_n P) (iq q) (mJ q) (mR q) (fun k => nrm P (A q k));
  v_diag : forall k, (k < iq q)%nat -> mR q k k <> 0;
  v_iqn : (iq q <= q_n P)%nat;
  v_rn : 1 <= Rn q;
  v_st : forall i, (i < q_n P)%nat -> Hmul P (x q) i + q_g P i = rsum (iq q) (fun k => u q k * nrm P (A q k) i) + mu * npv i;
  v_fv : fv q = objective P (x q) }.

Lemma factor_ext : forall n iq J M N N', factor n iq J M N -> (forall k, (k < iq)%nat -> N k = N' k) -> factor n iq J M N'.
Proof. intros n iq J M N N' (a & b & c) E. split; [|split]; auto. intros. rewrite <- E by easy. now apply a. Qed.
Lemma rsum_opp : forall n f, rsum n (fun i => - f i) = - rsum n f.
Proof. induction n; intros; cbn [rsum]; [ring|rewrite IHn; ring]. Qed.
Lemma eps_pos : 0 < eps.
Proof. unfold eps. apply Rinv_0_lt_compat. apply pow_lt. lra. Qed.

(** After a step of length t and the addition of the constraint. *)
Lemma core_add : forall P J0 q mu npv t a A' s' ss' ip' iai' excl' uo ao xo np' aa,
  inverse_factor P J0 -> core P J0 q mu npv ->
  (forall k, (k < iq q)%nat -> A' k = A q k) -> A' (iq q) = aa -> nrm P aa = npv ->
  addConstraint (q_n P) (mR q) (mJ q) (computeD (q_n P) (mJ q) npv) (iq q) (Rn q) = Some a -> a_ok a = true ->
  let z := updateZ (q_n P) (mJ q) (computeD (q_n P) (mJ q) npv) (iq q) in
  let r := updateR (mR q) (computeD (q_n P) (mJ q) npv) (iq q) in
  forall u' f', (forall k, (k < iq q)%nat -> u' k = head_sub (iq q) t r (u q) k) -> u' (iq q) = mu + t -> f' = fv q + t * dotn (q_n P) z npv * (/ 2 * t + mu) ->
  core P J0 (QS (axpy t z (x q)) u' A' iai' excl' s' ss' ip' np' (a_R a) (a_J a) (a_Rn a) f' (iq q + 1) uo ao xo) 0 npv.
Proof.
  intros P J0 q mu npv t a A' s' ss' ip' iai' excl' uo ao xo np' aa HJ [G F D I RN ST FV] EA EA2 EN E OK z r u' f' EU EU2 EF.
  destruct (add_factor _ _ _ _ _ _ _ _ F E) as (F' & G' & Hn & HD & HK).
  destruct (addConstraint_spec _ _ _ _ _ _ _ E) as (_ & _ & _ & _ & _ & _ & HR & HB). rewrite OK in HB. destruct HB as [HB1 HB2].
  pose proof eps_pos as He.
  constructor; cbn [iq mJ mR A Rn x u fv].
  - intros. rewrite G'. now apply G.
  - replace (iq q + 1)%nat with (S (iq q)) by lia. apply factor_ext with (1 := F').
    intros k Hk. destruct (Nat.eqb_spec k (iq q)). subst k. now rewrite EA2, EN. now rewrite EA by lia.
  - intros k Hk. destruct (Nat.eq_dec k (iq q)).
    + subst k. rewrite HR, Nat.eqb_refl, Nat.leb_refl. cbn [andb]. intros Z. rewrite Z, Rabs_R0 in HB1. nra.
    + rewrite HK by lia. apply D. lia.
  - lia.
  - rewrite HB2. apply Rle_trans with (1 := RN), Rmax_l.
  - intros i Hi. rewrite Nat.add_1_r. cbn [rsum].
    unfold z. rewrite (step_stat P J0 HJ (iq q) (mJ q) (mR q) (fun k => nrm P (A q k)) npv I G F D (x q) (u q) mu ST t i Hi). fold r.
    rewrite EA2, EN, EU2. rewrite Rmult_0_l, Rplus_0_r. f_equal. apply rsum_ext; intros k Hk. rewrite EU, EA by easy. reflexivity.
  - rewrite EF, FV. symmetry. unfold z. apply (step_obj P J0 HJ (iq q) (mJ q) (mR q) (fun k => nrm P (A q k)) npv I G F D (x q) (u q) mu ST t).
Qed.

(** ** The equality phase *)
Lemma core_start : forall P J0 q0 npv, inverse_factor P J0 -> core P J0 (start P J0 q0) 0 npv.
Proof.
  intros P J0 q0 npv HJ. unfold start.
  set (x0 := fun i : nat => - rsum (q_n P) (fun k => J0 i k * computeD (q_n P) J0 (q_g P) k)).
  assert (HX : forall i, (i < q_n P)%nat -> Hmul P x0 i = - q_g P i).
  { intros i Hi. rewrite <- (HG P J0 HJ (q_g P) i Hi). unfold Hmul. rewrite <- rsum_opp.
    apply rsum_ext; intros k Hk. unfold x0, computeD. 
    assert (E : rsum (q_n P) (fun k0 => J0 k k0 * rsum (q_n P) (fun k1 => J0 k1 k0 * q_g P k1)) = rsum (q_n P) (fun m => gram (q_n P) J0 k m * q_g P m)).
    { transitivity (rsum (q_n P) (fun l => rsum (q_n P) (fun m => J0 k l * (J0 m l * q_g P m)))). { apply rsum_ext; intros. now rewrite rsum_scal. }
      rewrite rsum_swap. apply rsum_ext; intros m Hm. unfold gram, dotn. rewrite <- rsum_scal_r. apply rsum_ext; intros; ring. }
    rewrite E. ring. }
  constructor; cbn [iq mJ mR A Rn x u fv].
  - easy.
  - split; [|split]; intros; try lia; easy.
  - intros; lia.
  - lia.
  - lra.
  - intros i Hi. cbn [rsum]. rewrite HX by easy. ring.
  - rewrite obj_alt. rewrite (dotn_ext (q_n P) x0 (Hmul P x0) x0 (fun i => - q_g P i)) by easy.
    assert (E : dotn (q_n P) x0 (fun i => - q_g P i) = - dotn (q_n P) (q_g P) x0).
    { unfold dotn. rewrite <- rsum_opp. apply rsum_ext; intros; ring. }
    rewrite E. field.
Qed.

Lemma nrm_eq : forall P k, nrm P (- Z.of_nat k - 1) = q_CE P k.
Proof. intros. unfold nrm. destruct (Z.ltb_spec (- Z.of_nat k - 1) 0); [|lia]. f_equal. lia. Qed.
Lemma off_eq : forall P k, off P (- Z.of_nat k - 1) = q_ce0 P k.
Proof. intros. unfold off. destruct (Z.ltb_spec (- Z.of_nat k - 1) 0); [|lia]. f_equal. lia. Qed.
Lemma nrm_in : forall P k, nrm P (Z.of_nat k) = vopp (q_CI P k).
Proof. intros. unfold nrm. destruct (Z.ltb_spec (Z.of_nat k) 0); [lia|]. f_equal. f_equal. lia. Qed.
Lemma off_in : forall P k, off P (Z.of_nat k) = - q_ci0 P k.
Proof. intros. unfold off. destruct (Z.ltb_spec (Z.of_nat k) 0); [lia|]. f_equal. f_equal. lia. Qed.
Lemma resid_eq : forall P k v, resid P (- Z.of_nat k - 1) v = eq_residual P v k.
Proof. intros. unfold resid, eq_residual. now rewrite nrm_eq, off_eq. Qed.
Lemma resid_in : forall P k v, resid P (Z.of_nat k) v = - ineq_value P v k.
Proof.
  intros. unfold resid, ineq_value. rewrite nrm_in, off_in. unfold dotn, vopp.
  rewrite Ropp_plus_distr. f_equal. rewrite <- rsum_opp.
  apply rsum_ext; intros; ring.
Qed.
Lemma slack_is : forall P k v, slack P v k = resid P (Z.of_nat k) v.
Proof. intros. rewrite resid_in. reflexivity. Qed.

Lemma core_mu0 : forall P J0 q a b, core P J0 q 0 a -> core P J0 q 0 b.
Proof. intros P J0 q a b [G F D I RN ST FV]. constructor; auto. intros. rewrite ST by easy. ring. Qed.
Lemma eq_step_spec : forall P J0 i q, inverse_factor P J0 -> core P J0 q 0 (fun _ => 0) -> iq q = i -> (i < q_n P)%nat ->
  (forall k, (k < i)%nat -> A q k = (- Z.of_nat k - 1)%Z) ->
  match eq_step P i q with
  | Bad _ => False
  | Return o e q' => e = ExitDependent
  | Next o pc q' => pc = L1 /\ core P J0 q' 0 (fun _ => 0) /\ iq q' = S i /\ (forall k, (k < S i)%nat -> A q' k = (- Z.of_nat k - 1)%Z)
      /\ iai q' = iai q /\ (forall k, (k < i)%nat -> eq_residual P (x q') k = eq_residual P (x q) k) /\ (o = false -> eq_residual P (x q') i = 0)
  end.
Proof.
  intros P J0 i q HJ HC Hi Hn HA. unfold eq_step.
  destruct (addConstraint (q_n P) (mR q) (mJ q) (computeD (q_n P) (mJ q) (row (q_CE P) i)) (iq q) (Rn q)) as [a|] eqn:E.
  2:{ unfold addConstraint in E. rewrite Hi in E. destruct (Nat.ltb_spec i (q_n P)); [|lia]. destruct (add_loop _ _ _ _). destruct (rleb _ _); discriminate. }
  destruct (a_ok a) eqn:OK; [|easy]. split; [easy|].
  assert (HC' : core P J0 q 0 (row (q_CE P) i)).
  { destruct HC. constructor; auto. intros. rewrite v_st0 by easy. ring. }
  set (t2 := if rltb eps _ then _ else _). cbv zeta.
  assert (HA' : forall k, (k < S i)%nat -> upd (A q) i (- Z.of_nat i - 1)%Z k = (- Z.of_nat k - 1)%Z).
  { intros k Hk. destruct (Nat.eq_dec k i). subst k. now rewrite upd_same. rewrite upd_other by easy. apply HA. lia. }
  assert (HRes : (forall k, (k < i)%nat -> eq_residual P (axpy t2 (updateZ (q_n P) (mJ q) (computeD (q_n P) (mJ q) (row (q_CE P) i)) (iq q)) (x q)) k = eq_residual P (x q) k) /\
     (negb (rltb eps (Rabs (dotn (q_n P) (updateZ (q_n P) (mJ q) (computeD (q_n P) (mJ q) (row (q_CE P) i)) (iq q)) (updateZ (q_n P) (mJ q) (computeD (q_n P) (mJ q) (row (q_CE P) i)) (iq q))))) && negb (reqb (dotn (q_n P) (row (q_CE P) i) (x q) + q_ce0 P i) 0) = false ->
       eq_residual P (axpy t2 (updateZ (q_n P) (mJ q) (computeD (q_n P) (mJ q) (row (q_CE P) i)) (iq q)) (x q)) i = 0)).
  { destruct HC as [G F D I RN ST FV]. split.
    - intros k Hk. rewrite <- !resid_eq, <- HA by easy. unfold resid. f_equal.
      apply (step_active P (iq q) (mJ q) (mR q) (fun k => nrm P (A q k)) (row (q_CE P) i) I F (x q) t2 k). lia.
    - intros Ho. unfold eq_residual. fold (dotn (q_n P) (q_CE P i) (axpy t2 (updateZ (q_n P) (mJ q) (computeD (q_n P) (mJ q) (row (q_CE P) i)) (iq q)) (x q))).
      change (q_CE P i) with (row (q_CE P) i). rewrite (step_np P (iq q) (mJ q) (row (q_CE P) i) (x q) t2).
      unfold t2 in *. clear t2. destruct (rltb eps _) eqn:Ez.
      + apply rltb_t in Ez. pose proof eps_pos.
        pose proof (z_np_nonneg P (iq q) (mJ q) (row (q_CE P) i) I) as Hnn. pose proof (z_np_zero P (iq q) (mJ q) (row (q_CE P) i) I) as Hnz.
        set (z := updateZ (q_n P) (mJ q) (computeD (q_n P) (mJ q) (row (q_CE P) i)) (iq q)) in *.
        assert (dotn (q_n P) z (row (q_CE P) i) <> 0).
        { intros Z. assert (dotn (q_n P) z z = 0) by (apply rsum_zero; intros; rewrite Hnz by easy; ring). rewrite H0, Rabs_R0 in Ez. lra. }
        field. easy.
      + cbn [negb andb] in Ho. apply negb_false_iff in Ho. apply reqb_t in Ho. lra. }
  split; [|split; [|split; [|split; [|exact HRes]]]].
  - assert (C := core_add P J0 q 0 (row (q_CE P) i) t2 a (upd (A q) i (- Z.of_nat i - 1)%Z) (s q) (ss q) (ip q) (iai q) (iaexcl q) (u_old q) (A_old q) (x_old q) (row (q_CE P) i) (- Z.of_nat i - 1)%Z HJ HC').
    cbv zeta in C.
    apply core_mu0 with (row (q_CE P) i).
    apply C.
    + intros k Hk. apply upd_other. lia.
    + rewrite Hi. apply upd_same.
    + apply nrm_eq.
    + exact E.
    + exact OK.
    + intros k Hk. unfold head_sub. destruct (Nat.ltb_spec k (iq q)); [|lia]. rewrite upd_other by lia. reflexivity.
    + unfold head_sub. destruct (Nat.ltb_spec (iq q) (iq q)); [lia|]. rewrite upd_same. ring.
    + f_equal. ring.
  - cbn [iq]. lia.
  - cbn [A]. exact HA'.
  - reflexivity.
Qed.

Lemma eq_phase_spec : forall P J0, inverse_factor P J0 -> (q_me P <= q_n P)%nat -> forall cnt i obs q, core P J0 q 0 (fun _ => 0) -> iq q = i -> (i + cnt = q_me P)%nat ->
  (forall k, (k < i)%nat -> A q k = (- Z.of_nat k - 1)%Z) -> (obs = false -> forall k, (k < i)%nat -> eq_residual P (x q) k = 0) ->
  match eq_phase P cnt i obs q with
  | Bad _ => False
  | Return o e q' => e = ExitDependent
  | Next o pc q' => pc = L1 /\ (o = false -> forall k, (k < q_me P)%nat -> eq_residual P (x q') k = 0) /\ core P J0 q' 0 (fun _ => 0) /\ iq q' = q_me P /\ (forall k, (k < q_me P)%nat -> A q' k = (- Z.of_nat k - 1)%Z)
      /\ (forall k, (k < q_mi P)%nat -> iai q' k = Z.of_nat k)
  end.
Proof.
  intros P J0 HJ Hme. induction cnt; intros i obs q HC Hi Hs HA HO; cbn [eq_phase].
  - split; [easy|]. split; [cbn [x]; intros; apply HO; [easy|lia]|]. split; [|split; [|split]].
    + destruct HC. constructor; auto.
    + cbn [iq]. lia.
    + cbn [A]. intros. apply HA. lia.
    + cbn [iai]. intros k Hk. destruct (Nat.ltb_spec k (q_mi P)); [easy|lia].
  - pose proof (eq_step_spec P J0 i q HJ HC Hi ltac:(lia) HA) as S.
    destruct (eq_step P i q) as [|o e q'|o pc q']; [easy|easy|].
    destruct S as (_ & HC' & Hi' & HA' & _ & HR1 & HR2). apply IHcnt; auto; [lia|].
    intros Ho k Hk. apply orb_false_iff in Ho. destruct Ho as [Ho1 Ho2]. destruct (Nat.eq_dec k i). subst k. now apply HR2. rewrite HR1 by lia. apply HO; [easy|lia].
Qed.

(** ** Invariant at the labels *)
Record qinv (P : qp) (J0 : qmat) (E : qvec) (q : qst) (mu : R) (npv : qvec) : Prop := Qinv {
  w_core : core P J0 q mu npv;
  w_me : (q_me P <= iq q)%nat;
  w_Aeq : forall k, (k < q_me P)%nat -> A q k = (- Z.of_nat k - 1)%Z;
  w_Ain : forall k, (q_me P <= k < iq q)%nat -> (0 <= A q k < Z.of_nat (q_mi P))%Z;
  w_inj : forall k k', (q_me P <= k < iq q)%nat -> (q_me P <= k' < iq q)%nat -> A q k = A q k' -> k = k';
  w_act : forall k, (q_me P <= k < iq q)%nat -> resid P (A q k) (x q) = 0;
  w_u : forall k, (q_me P <= k < iq q)%nat -> 0 <= u q k;
  w_res : forall i, (i < q_me P)%nat -> eq_residual P (x q) i = E i;
  w_ia : forall i, (i < q_mi P)%nat -> iai q i = (-1)%Z -> exists k, (q_me P <= k < iq q)%nat /\ A q k = Z.of_nat i }.
Definition inv_l2 (P : qp) (J0 : qmat) (E : qvec) (q : qst) : Prop :=
  qinv P J0 E q 0 (fun _ => 0) /\ (forall i, (i < q_mi P)%nat -> s q i = slack P (x q) i) /\ ss q = 0 /\
  (forall i, (i < q_mi P)%nat -> iaexcl q i = true) /\ (forall k, (q_me P <= k < iq q)%nat -> iai q (Z.to_nat (A q k)) = (-1)%Z).
Definition inv_l2a (P : qp) (J0 : qmat) (E : qvec) (q : qst) : Prop :=
  qinv P J0 E q (u q (iq q)) (np q) /\ (ip q < q_mi P)%nat /\ A q (iq q) = Z.of_nat (ip q) /\ np q = nrm P (Z.of_nat (ip q)) /\
  (forall k, (q_me P <= k < iq q)%nat -> A q k <> Z.of_nat (ip q)) /\ 0 <= u q (iq q) /\ s q (ip q) = slack P (x q) (ip q) /\ s q (ip q) < 0.
Definition inv_at (P : qp) (J0 : qmat) (E : qvec) (pc : label) (q : qst) : Prop :=
  match pc with L1 => qinv P J0 E q 0 (fun _ => 0) | L2 => inv_l2 P J0 E q | L2a => inv_l2a P J0 E q end.

Lemma mark_active_spec : forall cnt len A first iai, (forall k, (first <= k < first + cnt)%nat -> (0 <= A k < Z.of_nat len)%Z) ->
  exists iai', mark_active len A first cnt iai = Some iai' /\
   (forall k, (first <= k < first + cnt)%nat -> iai' (Z.to_nat (A k)) = (-1)%Z) /\
   (forall i, iai' i = (-1)%Z -> iai i = (-1)%Z \/ exists k, (first <= k < first + cnt)%nat /\ A k = Z.of_nat i) /\
   (forall i, iai i = (-1)%Z -> iai' i = (-1)%Z).
Proof.
  induction cnt; intros len A first iai HA; cbn [mark_active].
  - exists iai. repeat split; auto. intros; lia.
  - pose proof (HA first ltac:(lia)). destruct ((0 <=? A first)%Z && (A first <? Z.of_nat len)%Z) eqn:G.
    2:{ destruct (Z.leb_spec 0 (A first)), (Z.ltb_spec (A first) (Z.of_nat len)); try discriminate; lia. }
    destruct (IHcnt len A (S first) (upd iai (Z.to_nat (A first)) (-1)%Z)) as (iai' & E & H1 & H2 & H3).
    { intros; apply HA; lia. }
    exists iai'. split; [easy|]. split; [|split].
    + intros k Hk. destruct (Nat.eq_dec k first). subst k. apply H3. apply upd_same. apply H1. lia.
    + intros i Hi. destruct (H2 i Hi) as [H0|(k & Hk & Ek)].
      * destruct (Nat.eq_dec i (Z.to_nat (A first))). right. exists first. split; [lia|]. subst i. lia. rewrite upd_other in H0 by easy. now left.
      * right. exists k. split; [lia|easy].
    + intros i Hi. apply H3. unfold upd. destruct (Nat.eqb_spec i (Z.to_nat (A first))); easy.
Qed.

(** What holds when the exit tests succeed. *)
Definition solved (P : qp) (J0 : qmat) (E : qvec) (q : qst) : Prop := qinv P J0 E q 0 (fun _ => 0).

Lemma rsum_min_max : forall m f, rsum m (fun i => Rmin 0 (- f i)) = - rsum m (fun i => Rmax 0 (f i)).
Proof.
  induction m; intros; cbn [rsum]. ring. rewrite IHm.
  assert (Rmin 0 (- f m) = - Rmax 0 (f m)) by (unfold Rmin, Rmax; destruct (Rle_dec 0 (- f m)), (Rle_dec 0 (f m)); lra). lra.
Qed.
Lemma violation_nonneg : forall P v, 0 <= violation P v.
Proof. intros. apply rsum_nonneg; intros. apply Rmax_l. Qed.

Lemma step_l1_spec : forall P J0 E q, inv_at P J0 E L1 q ->
  match step_l1 P J0 q with
  | Bad _ => False
  | Return o e q' => o = false /\ e = ExitTolerance /\ inv_at P J0 E L1 q' /\ violation P (x q') <= tolerance P J0 /\ x q' = x q
  | Next o pc q' => o = false /\ pc = L2 /\ inv_at P J0 E L2 q' /\ x q' = x q /\ iq q' = iq q /\ A q' = A q
  end.
Proof.
  intros P J0 E q [C Me Aeq Ain Inj Act Un Res Ia]. unfold step_l1.
  destruct (mark_active_spec (iq q - q_me P) (q_me P + q_mi P) (A q) (q_me P) (iai q)) as (iai' & EM & M1 & M2 & M3).
  { intros k Hk. pose proof (Ain k ltac:(lia)). lia. }
  rewrite EM. cbv zeta.
  assert (IA : forall i, (i < q_mi P)%nat -> iai' i = (-1)%Z -> exists k, (q_me P <= k < iq q)%nat /\ A q k = Z.of_nat i).
  { intros i Hi Ei. destruct (M2 i Ei) as [H|(k & Hk & Ek)]. now apply Ia. exists k. split; [lia|easy]. }
  set (sv := fun i => if (i <? q_mi P)%nat then slack P (x q) i else s q i).
  assert (PS : rsum (q_mi P) (fun i => Rmin 0 (sv i)) = - violation P (x q)).
  { unfold violation. rewrite <- rsum_min_max. apply rsum_ext; intros i Hi. unfold sv. destruct (Nat.ltb_spec i (q_mi P)); [|lia]. rewrite slack_is, resid_in. reflexivity. }
  match goal with |- context [rleb (Rabs ?p) _] => replace p with (- violation P (x q)) by (symmetry; exact PS) end.
  destruct (rleb (Rabs (- violation P (x q))) _) eqn:ET.
  - apply rleb_t in ET. rewrite Rabs_Ropp, (Rabs_right _ (Rle_ge _ _ (violation_nonneg P (x q)))) in ET.
    split; [easy|]. split; [easy|]. split; [|split; [exact ET|easy]].
    constructor; cbn [iq mJ mR A Rn x u fv iai]; auto. destruct C; constructor; auto.
  - split; [easy|]. split; [easy|]. split; [|easy]. split; [|split; [|split; [|split]]]; cbn [iq mJ mR A Rn x u fv iai ss s iaexcl].
    + constructor; cbn [iq mJ mR A Rn x u fv iai]; auto. destruct C; constructor; auto.
    + intros i Hi. unfold sv. destruct (Nat.ltb_spec i (q_mi P)); [easy|lia].
    + easy.
    + intros i Hi. destruct (Nat.ltb_spec i (q_mi P)); [easy|lia].
    + intros k Hk. apply M1. lia.
Qed.

Lemma pick_spec : forall cnt i sv iai excl best ip b' ip', pick cnt i sv iai excl best ip = (b', ip') ->
  b' <= best /\ (forall k, (i <= k < i + cnt)%nat -> iai k <> (-1)%Z -> excl k = true -> b' <= sv k) /\
  ((b' = best /\ ip' = ip) \/ ((i <= ip' < i + cnt)%nat /\ b' = sv ip' /\ iai ip' <> (-1)%Z /\ b' < best)).
Proof.
  induction cnt; intros i sv iai excl best ip b' ip' E; cbn [pick] in E.
  - injection E as <- <-. split; [lra|]. split; [intros; lia|]. now left.
  - destruct (rltb (sv i) best && negb (iai i =? -1)%Z && excl i) eqn:G.
    + apply andb_prop in G. destruct G as [G G3]. apply andb_prop in G. destruct G as [G1 G2]. apply rltb_t in G1.
      destruct (Z.eqb_spec (iai i) (-1)); [discriminate|].
      destruct (IHcnt _ _ _ _ _ _ _ _ E) as (B & K & D). split; [lra|]. split.
      * intros k Hk H1 H2. destruct (Nat.eq_dec k i). subst; easy. apply K; auto. lia.
      * right. destruct D as [[-> ->]|(D1 & D2 & D3 & D4)]. repeat split; auto; lia. repeat split; auto; try lia. lra.
    + destruct (IHcnt _ _ _ _ _ _ _ _ E) as (B & K & D). split; [lra|]. split.
      * intros k Hk H1 H2. destruct (Nat.eq_dec k i); [|apply K; auto; lia]. subst k. rewrite H2, andb_true_r in G.
        destruct (Z.eqb_spec (iai i) (-1)); [easy|]. cbn [negb] in G. rewrite andb_true_r in G. apply rltb_f in G. lra.
      * destruct D as [D|(D1 & D2 & D3 & D4)]; [now left|]. right. repeat split; auto; lia.
Qed.

Lemma count_active : forall P (Av : nat -> Z) m i0, (q_me P <= m)%nat -> (i0 < q_mi P)%nat ->
  (forall k, (q_me P <= k < m)%nat -> (0 <= Av k < Z.of_nat (q_mi P))%Z) ->
  (forall k k', (q_me P <= k < m)%nat -> (q_me P <= k' < m)%nat -> Av k = Av k' -> k = k') ->
  (forall k, (q_me P <= k < m)%nat -> Av k <> Z.of_nat i0) -> (m < q_me P + q_mi P)%nat.
Proof.
  intros P Av m i0 Hm Hi Hin Hinj Hne.
  set (l := i0 :: map (fun k => Z.to_nat (Av k)) (seq (q_me P) (m - q_me P))).
  assert (ND : NoDup l).
  { constructor.
    - intros Hin'. apply in_map_iff in Hin'. destruct Hin' as (k & Ek & Hk). apply in_seq in Hk. apply (Hne k ltac:(lia)). pose proof (Hin k ltac:(lia)). lia.
    - assert (G : forall c st, (q_me P <= st)%nat -> (st + c <= m)%nat -> NoDup (map (fun k => Z.to_nat (Av k)) (seq st c))).
      { induction c; intros st H1 H2; cbn [seq map]; constructor.
        - intros Hin'. apply in_map_iff in Hin'. destruct Hin' as (k & Ek & Hk). apply in_seq in Hk.
          pose proof (Hin k ltac:(lia)). pose proof (Hin st ltac:(lia)). assert (k = st) by (apply Hinj; lia). lia.
        - apply IHc; lia. }
      apply G; lia. }
  assert (IN : incl l (seq 0 (q_mi P))).
  { intros y Hy. apply in_seq. destruct Hy as [<-|Hy]; [lia|]. apply in_map_iff in Hy. destruct Hy as (k & <- & Hk). apply in_seq in Hk. pose proof (Hin k ltac:(lia)). lia. }
  pose proof (NoDup_incl_length ND IN) as L. unfold l in L. cbn [length] in L. rewrite map_length, !seq_length in L. lia.
Qed.

Lemma step_l2_spec : forall P J0 E q, inv_at P J0 E L2 q ->
  match step_l2 P q with
  | Bad _ => False
  | Return o e q' => o = false /\ e = ExitFeasible /\ inv_at P J0 E L1 q' /\ (forall i, (i < q_mi P)%nat -> ineq_value P (x q') i <= 0)
  | Next o pc q' => o = false /\ pc = L2a /\ inv_at P J0 E L2a q' /\ x q' = x q /\ iq q' = iq q /\ (forall k, (k < iq q)%nat -> A q' k = A q k)
  end.
Proof.
  intros P J0 E q [I [S [SS [EX IA2]]]]. unfold step_l2.
  destruct (pick (q_mi P) 0 (s q) (iai q) (iaexcl q) (ss q) (ip q)) as [b' ip'] eqn:EP.
  destruct (pick_spec _ _ _ _ _ _ _ _ _ EP) as (B & K & D). rewrite SS in *.
  destruct (rleb 0 b') eqn:Eb; [apply rleb_t in Eb | apply rleb_f in Eb].
  - split; [easy|]. split; [easy|]. split.
    + destruct I as [C Me Aeq Ain Inj Act Un Res Ia]. constructor; cbn [iq mJ mR A Rn x u fv iai]; auto. destruct C; constructor; auto.
    + cbn [x]. intros i Hi. destruct (Z.eq_dec (iai q i) (-1)).
      * destruct (w_ia _ _ _ _ _ _ I i Hi e) as (k & Hk & Ek). pose proof (w_act _ _ _ _ _ _ I k Hk) as Z. rewrite Ek, resid_in in Z. lra.
      * pose proof (K i ltac:(lia) n (EX i Hi)) as L. rewrite S, slack_is, resid_in in L by easy. lra.
  - destruct D as [[D1 _]|(D1 & D2 & D3 & D4)]; [lra|].
    assert (Hip : (ip' < q_mi P)%nat) by lia.
    assert (HNE : forall k, (q_me P <= k < iq q)%nat -> A q k <> Z.of_nat ip').
    { intros k Hk Ek. apply D3. rewrite <- (IA2 k Hk), Ek. f_equal. lia. }
    destruct I as [C Me Aeq Ain Inj Act Un Res Ia].
    pose proof (count_active P (A q) (iq q) ip' Me Hip Ain Inj HNE) as Hlen.
    destruct (Nat.ltb_spec (iq q) (q_me P + q_mi P)); [|lia].
    split; [easy|]. split; [easy|]. split; [|split; [easy|split; [easy|]]].
    2:{ cbn [A]. intros. apply upd_other. lia. }
    split; [|split; [|split; [|split; [|split; [|split; [|split]]]]]]; cbn [iq mJ mR A Rn x u fv iai ss s iaexcl np ip].
    + constructor; cbn [iq mJ mR A Rn x u fv iai].
      * destruct C as [G F DD II RN ST FV]. constructor; cbn [iq mJ mR A Rn x u fv iai]; auto.
        -- apply factor_ext with (1 := F). intros k Hk. now rewrite upd_other by lia.
        -- intros i Hi. rewrite ST by easy. rewrite upd_same. rewrite Rmult_0_l, Rmult_0_l. f_equal. apply rsum_ext; intros k Hk. now rewrite !upd_other by lia.
      * easy.
      * intros. rewrite upd_other by lia. now apply Aeq.
      * intros. rewrite upd_other by lia. now apply Ain.
      * intros k k' Hk Hk'. rewrite !upd_other by lia. now apply Inj.
      * intros. rewrite upd_other by lia. now apply Act.
      * intros. rewrite upd_other by lia. now apply Un.
      * easy.
      * intros i Hi Ei. destruct (Ia i Hi Ei) as (k & Hk & Ek). exists k. split; [easy|]. now rewrite upd_other by lia.
    + easy.
    + apply upd_same.
    + now rewrite nrm_in.
    + intros k Hk. rewrite upd_other by lia. now apply HNE.
    + rewrite upd_same. lra.
    + now apply S.
    + rewrite <- D2. easy.
Qed.

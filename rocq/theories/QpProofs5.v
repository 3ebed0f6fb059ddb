(** * Optimality of the returned point, infeasibility certificate, termination *)
From Coq Require Import Reals List Arith ZArith Bool Lia Lra Psatz FunctionalExtensionality.
Import ListNotations.
From Verif Require Import Base BaseProofs QpModel QpSpec QpProofs QpProofs2 QpProofs3 QpProofs4.
Local Open Scope R_scope.

Lemma objective_ext : forall P v w, (forall i, (i < q_n P)%nat -> v i = w i) -> objective P v = objective P w.
Proof.
  intros. unfold objective. f_equal; [f_equal|].
  - apply rsum_ext; intros. apply rsum_ext; intros. now rewrite !H.
  - apply rsum_ext; intros. now rewrite H.
Qed.
Lemma resid_diff : forall P a y v, dotn (q_n P) (nrm P a) (fun i => y i - v i) = resid P a y - resid P a v.
Proof. intros. unfold resid, dotn. replace (fun i => nrm P a i * (y i - v i)) with (fun i => nrm P a i * y i - nrm P a i * v i) by (apply functional_extensionality; intros; ring). rewrite rsum_minus. ring. Qed.

Lemma weak_duality : forall P J0 q npv y, inverse_factor P J0 -> core P J0 q 0 npv ->
  objective P (x q) + rsum (iq q) (fun k => u q k * (resid P (A q k) y - resid P (A q k) (x q))) <= objective P y.
Proof.
  intros P J0 q npv y HJ [G F D I RN ST FV].
  rewrite (objective_ext P y (axpy 1 (fun i => y i - x q i) (x q))) by (intros; unfold axpy; ring).
  rewrite (obj_expand P J0 HJ). pose proof (H_psd P J0 HJ (fun i => y i - x q i)).
  assert (E : dotn (q_n P) (fun i => y i - x q i) (fun i => Hmul P (x q) i + q_g P i) = rsum (iq q) (fun k => u q k * (resid P (A q k) y - resid P (A q k) (x q)))).
  { transitivity (dotn (q_n P) (fun i => y i - x q i) (fun i => rsum (iq q) (fun k => u q k * nrm P (A q k) i))).
    { apply dotn_ext; [easy|]. intros. rewrite ST by easy. ring. }
    unfold dotn. transitivity (rsum (q_n P) (fun i => rsum (iq q) (fun k => u q k * (nrm P (A q k) i * (y i - x q i))))).
    { apply rsum_ext; intros. rewrite <- rsum_scal. apply rsum_ext; intros; ring. }
    rewrite rsum_swap. apply rsum_ext; intros k Hk. rewrite rsum_scal. f_equal. apply resid_diff. }
  rewrite E. lra.
Qed.

Lemma optimal_of_inv : forall P J0 E q y, inverse_factor P J0 -> qinv P J0 E q 0 (fun _ => 0) -> (forall i, (i < q_me P)%nat -> E i = 0) ->
  feasible P y -> objective P (x q) <= objective P y.
Proof.
  intros P J0 E q y HJ [C Me Aeq Ain Inj Act Un Res Ia] HE [Y1 Y2].
  pose proof (weak_duality P J0 q _ y HJ C) as W.
  assert (0 <= rsum (iq q) (fun k => u q k * (resid P (A q k) y - resid P (A q k) (x q)))); [|lra].
  apply rsum_nonneg; intros k Hk. destruct (lt_dec k (q_me P)).
  - rewrite (Aeq k) by easy. rewrite !resid_eq, Res, HE, Y1 by easy. lra.
  - rewrite Act by lia. pose proof (Un k ltac:(lia)). pose proof (Ain k ltac:(lia)).
    replace (A q k) with (Z.of_nat (Z.to_nat (A q k))) by lia. rewrite resid_in. pose proof (Y2 (Z.to_nat (A q k)) ltac:(lia)). apply Rmult_le_pos; lra.
Qed.

Lemma infeasible_of_inv : forall P J0 E q y, inverse_factor P J0 -> inv_at P J0 E L2a q -> (forall i, (i < q_me P)%nat -> E i = 0) ->
  (forall k, (k < q_n P)%nat -> updateZ (q_n P) (mJ q) (computeD (q_n P) (mJ q) (np q)) (iq q) k = 0) ->
  (forall k, (q_me P <= k < iq q)%nat -> updateR (mR q) (computeD (q_n P) (mJ q) (np q)) (iq q) k <= 0) -> ~ feasible P y.
Proof.
  intros P J0 E q y HJ [[C Me Aeq Ain Inj Act Un Res Ia] [Hip [EAip [Enp [HNE [Hu0 [Hs Hsn]]]]]]] HE HZ HR [Y1 Y2].
  destruct C as [G F D I RN ST FV].
  set (r := updateR (mR q) (computeD (q_n P) (mJ q) (np q)) (iq q)) in *.
  assert (W : forall i, (i < q_n P)%nat -> np q i = rsum (iq q) (fun k => r k * nrm P (A q k) i)).
  { intros i Hi. pose proof (Hz P J0 HJ (iq q) (mJ q) (mR q) (fun k => nrm P (A q k)) (np q) I G F D i Hi) as Z.
    unfold wdir in Z. fold r in Z. rewrite <- (Rplus_0_l (rsum _ _)).
    assert (Z0 : Hmul P (updateZ (q_n P) (mJ q) (computeD (q_n P) (mJ q) (np q)) (iq q)) i = 0) by (unfold Hmul; apply rsum_zero; intros; rewrite HZ by easy; ring).
    rewrite Z0 in Z. lra. }
  assert (EQ : dotn (q_n P) (np q) (fun i => y i - x q i) = rsum (iq q) (fun k => r k * (resid P (A q k) y - resid P (A q k) (x q)))).
  { transitivity (dotn (q_n P) (fun i => rsum (iq q) (fun k => r k * nrm P (A q k) i)) (fun i => y i - x q i)). { apply dotn_ext; auto. }
    unfold dotn. transitivity (rsum (q_n P) (fun i => rsum (iq q) (fun k => r k * (nrm P (A q k) i * (y i - x q i))))).
    { apply rsum_ext; intros. rewrite <- rsum_scal_r. apply rsum_ext; intros; ring. }
    rewrite rsum_swap. apply rsum_ext; intros k Hk. rewrite rsum_scal. f_equal. apply resid_diff. }
  rewrite Enp, resid_diff in EQ.
  assert (LE : rsum (iq q) (fun k => - (r k * (resid P (A q k) y - resid P (A q k) (x q)))) >= 0).
  { apply Rle_ge, rsum_nonneg; intros k Hk. destruct (lt_dec k (q_me P)).
    - rewrite (Aeq k) by easy. rewrite !resid_eq, Res, HE, Y1 by easy. lra.
    - rewrite Act by lia. pose proof (HR k ltac:(lia)). pose proof (Ain k ltac:(lia)).
      replace (A q k) with (Z.of_nat (Z.to_nat (A q k))) by lia. rewrite resid_in. pose proof (Y2 (Z.to_nat (A q k)) ltac:(lia)). nra. }
  rewrite rsum_opp in LE. rewrite <- !slack_is in EQ. rewrite <- Hs in EQ.
  pose proof (Y2 (ip q) Hip). assert (slack P y (ip q) >= 0) by (rewrite slack_is, resid_in; lra). lra.
Qed.

(** ** The run *)
Definition post (P : qp) (J0 : qmat) (E : qvec) (f : final) : Prop :=
  match f with
  | Crash o => o = true
  | Done e q o => o = false ->
      match e with
      | ExitDependent => False
      | ExitTolerance => qinv P J0 E q 0 (fun _ => 0) /\ violation P (x q) <= tolerance P J0
      | ExitFeasible => qinv P J0 E q 0 (fun _ => 0) /\ forall i, (i < q_mi P)%nat -> ineq_value P (x q) i <= 0
      | ExitInfeasible => inv_at P J0 E L2a q /\ (forall k, (k < q_n P)%nat -> updateZ (q_n P) (mJ q) (computeD (q_n P) (mJ q) (np q)) (iq q) k = 0) /\
          (forall k, (q_me P <= k < iq q)%nat -> updateR (mR q) (computeD (q_n P) (mJ q) (np q)) (iq q) k <= 0)
      end
  | Running _ _ _ => True
  end.
Lemma qrun_obs : forall P J0 fuel pc q, match qrun P J0 fuel true pc q with Crash o => o = true | Done _ _ o => o = true | Running o _ _ => o = true end.
Proof.
  induction fuel; intros; cbn [qrun]; [easy|]. destruct (qstep P J0 pc q); cbn [orb]; first [apply IHfuel | reflexivity].
Qed.
Lemma qrun_post : forall P J0 E, inverse_factor P J0 -> forall fuel pc q, inv_at P J0 E pc q -> post P J0 E (qrun P J0 fuel false pc q).
Proof.
  intros P J0 E HJ. induction fuel; intros pc q HI; cbn [qrun]; [easy|].
  assert (OB : forall pc' q', post P J0 E (qrun P J0 fuel true pc' q')).
  { intros. pose proof (qrun_obs P J0 fuel pc' q') as Q. destruct (qrun P J0 fuel true pc' q'); cbn [post]; auto. intros ->. discriminate. }
  destruct pc; cbn [qstep].
  - pose proof (step_l1_spec P J0 E q HI) as S. destruct (step_l1 P J0 q) as [o|o e q'|o pc' q'].
    + easy.
    + destruct S as (-> & -> & S1 & S2 & _). cbn [orb post]. easy.
    + destruct S as (-> & -> & S1 & _). cbn [orb]. now apply IHfuel.
  - pose proof (step_l2_spec P J0 E q HI) as S. destruct (step_l2 P q) as [o|o e q'|o pc' q'].
    + easy.
    + destruct S as (-> & -> & S1 & S2). cbn [orb post]. easy.
    + destruct S as (-> & -> & S1 & _). cbn [orb]. now apply IHfuel.
  - pose proof (step_l2a_spec P J0 E q HJ HI) as S. destruct (step_l2a P q) as [o|o e q'|o pc' q'].
    + cbn [orb post]. easy.
    + destruct S as (-> & S). cbn [orb post]. intros Ho. destruct (S Ho) as (-> & S1 & S2). easy.
    + destruct o; cbn [orb]; [apply OB|]. apply IHfuel. destruct pc'; [apply S|easy|apply S].
Qed.

Lemma qinv_of_core : forall P J0 q, core P J0 q 0 (fun _ => 0) -> iq q = q_me P -> (forall k, (k < q_me P)%nat -> A q k = (- Z.of_nat k - 1)%Z) ->
  (forall k, (k < q_mi P)%nat -> iai q k = Z.of_nat k) -> qinv P J0 (eq_residual P (x q)) q 0 (fun _ => 0).
Proof.
  intros P J0 q C E1 E2 E3. constructor; auto; try lia; try (intros; lia).
  intros i Hi Ei. rewrite E3 in Ei by easy. lia.
Qed.

(** ** Termination *)
Definition stops (P : qp) (J0 : qmat) (pc : label) (q : qst) : Prop := exists fuel, match qrun P J0 fuel false pc q with Running false _ _ => False | _ => True end.
Lemma stops_next : forall P J0 pc q pc' q', qstep P J0 pc q = Next false pc' q' -> stops P J0 pc' q' -> stops P J0 pc q.
Proof. intros P J0 pc q pc' q' E (f & H). exists (S f). cbn [qrun]. rewrite E. exact H. Qed.
Lemma stops_obs : forall P J0 pc q, match qstep P J0 pc q with Next false _ _ => False | _ => True end -> stops P J0 pc q.
Proof. intros P J0 pc q H. exists 1%nat. cbn [qrun]. destruct (qstep P J0 pc q) as [| |o pc' q']; auto. Qed.

Definition key (P : qp) (q : qst) : list bool := map (fun i => existsb (fun k => (A q k =? Z.of_nat i)%Z) (seq (q_me P) (iq q - q_me P))) (seq 0 (q_mi P)).
Lemma key_active : forall P q i, (i < q_mi P)%nat -> (nth i (key P q) false = true <-> exists k, (q_me P <= k < iq q)%nat /\ A q k = Z.of_nat i).
Proof.
  intros P q i Hi. unfold key. rewrite (nth_indep _ false (existsb (fun k => (A q k =? Z.of_nat 0)%Z) (seq (q_me P) (iq q - q_me P)))) by (rewrite map_length, seq_length; easy).
  rewrite (map_nth (fun i => existsb (fun k => (A q k =? Z.of_nat i)%Z) (seq (q_me P) (iq q - q_me P))) (seq 0 (q_mi P)) 0%nat i).
  rewrite seq_nth by easy. cbn [Nat.add]. rewrite existsb_exists. split.
  - intros (k & Hk & Ek). apply in_seq in Hk. apply Z.eqb_eq in Ek. exists k. split; [lia|easy].
  - intros (k & Hk & Ek). exists k. split; [apply in_seq; lia|now apply Z.eqb_eq].
Qed.
Lemma key_fv_le : forall P J0 E q q', inverse_factor P J0 -> qinv P J0 E q 0 (fun _ => 0) -> qinv P J0 E q' 0 (fun _ => 0) -> key P q = key P q' -> fv q <= fv q'.
Proof.
  intros P J0 E q q' HJ I1 I2 EK. rewrite (v_fv _ _ _ _ _ (w_core _ _ _ _ _ _ I1)), (v_fv _ _ _ _ _ (w_core _ _ _ _ _ _ I2)).
  pose proof (weak_duality P J0 q _ (x q') HJ (w_core _ _ _ _ _ _ I1)) as W.
  rewrite rsum_zero in W; [lra|]. intros k Hk.
  assert (Z : resid P (A q k) (x q') = resid P (A q k) (x q)).
  { destruct (lt_dec k (q_me P)).
    - rewrite (w_Aeq _ _ _ _ _ _ I1) by easy. rewrite !resid_eq, (w_res _ _ _ _ _ _ I1), (w_res _ _ _ _ _ _ I2); easy.
    - pose proof (w_Ain _ _ _ _ _ _ I1 k ltac:(lia)) as B.
      rewrite (w_act _ _ _ _ _ _ I1) by lia.
      assert (T : nth (Z.to_nat (A q k)) (key P q) false = true) by (apply key_active; [lia|]; exists k; split; lia).
      rewrite EK in T. apply key_active in T; [|lia]. destruct T as (k' & Hk' & Ek').
      replace (A q k) with (A q' k') by lia. now apply (w_act _ _ _ _ _ _ I2). }
  rewrite Z. ring.
Qed.
Fixpoint all_keys (m : nat) : list (list bool) := match m with O => [[]] | S m' => map (cons true) (all_keys m') ++ map (cons false) (all_keys m') end.
Lemma all_keys_length : forall m, length (all_keys m) = (2 ^ m)%nat.
Proof. induction m; cbn [all_keys Nat.pow]; [easy|]. rewrite app_length, !map_length, IHm. lia. Qed.
Lemma all_keys_in : forall m l, length l = m -> In l (all_keys m).
Proof.
  induction m; intros l Hl; destruct l as [|b l]; try discriminate; cbn [all_keys]; [now left|]. cbn [length] in Hl. apply in_or_app.
  destruct b; [left|right]; apply in_map; apply IHm; lia.
Qed.

Lemma stops_l2a : forall P J0 E, inverse_factor P J0 -> forall m q, iq q = m -> inv_at P J0 E L2a q ->
  (forall q', inv_at P J0 E L1 q' -> fv q < fv q' -> stops P J0 L1 q') -> stops P J0 L2a q.
Proof.
  intros P J0 E HJ. induction m; intros q Hm HI HK.
  - pose proof (step_l2a_spec P J0 E q HJ HI) as S. destruct (step_l2a P q) as [o|o e q'|o pc' q'] eqn:ES.
    + apply stops_obs. cbn [qstep]. now rewrite ES.
    + apply stops_obs. cbn [qstep]. now rewrite ES.
    + destruct o. apply stops_obs; cbn [qstep]; now rewrite ES. destruct pc'; [|easy|lia].
      apply stops_next with L1 q'; [exact ES|]. now apply HK.
  - pose proof (step_l2a_spec P J0 E q HJ HI) as S. destruct (step_l2a P q) as [o|o e q'|o pc' q'] eqn:ES.
    + apply stops_obs. cbn [qstep]. now rewrite ES.
    + apply stops_obs. cbn [qstep]. now rewrite ES.
    + destruct o. apply stops_obs; cbn [qstep]; now rewrite ES. destruct pc'; [|easy|].
      * apply stops_next with L1 q'; [exact ES|]. now apply HK.
      * apply stops_next with L2a q'; [exact ES|]. apply IHm; [lia|easy|]. intros q'' H1 H2. apply HK; [easy|]. destruct S as (_ & _ & S). lra.
Qed.
Lemma stops_l1 : forall P J0 E, inverse_factor P J0 -> forall N seen q, (length seen + N = 2 ^ q_mi P)%nat -> NoDup seen -> (forall l, In l seen -> length l = q_mi P) ->
  inv_at P J0 E L1 q -> (forall l, In l seen -> exists q0, inv_at P J0 E L1 q0 /\ key P q0 = l /\ fv q0 < fv q) -> stops P J0 L1 q.
Proof.
  intros P J0 E HJ. induction N; intros seen q HL ND HS HI HP.
  all: assert (NI : ~ In (key P q) seen) by (intros Hin; destruct (HP _ Hin) as (q0 & I0 & K0 & F0); pose proof (key_fv_le P J0 E q q0 HJ HI I0 (eq_sym K0)); lra).
  all: assert (LK : length (key P q) = q_mi P) by (unfold key; now rewrite map_length, seq_length).
  - exfalso. assert (L : (length (key P q :: seen) <= length (all_keys (q_mi P)))%nat).
    { apply NoDup_incl_length; [now constructor|]. intros l [<-|Hl]; apply all_keys_in; auto. }
    rewrite all_keys_length in L. cbn [length] in L. lia.
  - pose proof (step_l1_spec P J0 E q HI) as S1. destruct (step_l1 P J0 q) as [o|o e q1|o pc1 q1] eqn:E1; [easy|apply stops_obs; cbn [qstep]; now rewrite E1|].
    destruct S1 as (-> & -> & I1 & X1 & _). apply stops_next with L2 q1; [exact E1|].
    pose proof (step_l2_spec P J0 E q1 I1) as S2. destruct (step_l2 P q1) as [o|o e q2|o pc2 q2] eqn:E2; [easy|apply stops_obs; cbn [qstep]; now rewrite E2|].
    destruct S2 as (-> & -> & I2 & X2 & _). apply stops_next with L2a q2; [exact E2|].
    apply stops_l2a with (E := E) (m := iq q2); auto. intros q' H1 H2.
    assert (F : fv q2 = fv q).
    { rewrite (v_fv _ _ _ _ _ (w_core _ _ _ _ _ _ HI)). destruct I2 as [I2 _]. rewrite (v_fv _ _ _ _ _ (w_core _ _ _ _ _ _ I2)). now rewrite X2, X1. }
    apply IHN with (key P q :: seen); auto.
    + cbn [length]. lia.
    + now constructor.
    + intros l [<-|Hl]; auto.
    + intros l [<-|Hl].
      * exists q. split; [exact HI|split; [easy|lra]].
      * destruct (HP l Hl) as (q0 & I0 & K0 & F0). exists q0. split; [exact I0|split; [easy|lra]].
Qed.

(** * The array of past values (delta-based stopping test) *)
From Coq Require Import Reals List Arith ZArith Bool Lia Lra.
From Verif Require Import Base BaseProofs IpModel BnbProofs LbfgsModel LbfgsSpec LbfgsProofs LbfgsProofs2 LbfgsProofs3 LbfgsProofs4.
Import ListNotations.
Open Scope R_scope.

Section S.
Variable n : nat.
Variable F : vec -> R.
Variable G : vec -> vec.
Variable P : params.
Variable progress : Z -> vec -> vec -> R -> Z.
Variable x0 : vec.

(** The value of the i-th newest point is in the slot of its iteration number. *)
Definition past_ok (h : list (vec * vec)) (S : lstate) : Prop :=
  forall i x g, (Z.of_nat i < p_past P)%Z -> nth_error h i = Some (x, g) -> nth_error (l_pf S) (Z.to_nat ((l_k S - 1 - Z.of_nat i) mod p_past P)) = Some (F x).

Lemma stop_tests_inv S fx o : (0 < p_past P)%Z -> (0 <= l_k S)%Z -> Z.of_nat (length (l_pf S)) = p_past P -> stop_tests P S fx = Ok o ->
  let i := Z.to_nat (l_k S mod p_past P) in
  (o = inl Stop /\ (p_past P <= l_k S)%Z /\ exists old, nth_error (l_pf S) i = Some old /\ fx <> 0 /\ (old - fx) / fx < p_delta P) \/
  (o <> inl Stop /\ (forall pf, o = inr pf -> pf = set_nth (l_pf S) i fx) /\
    ((p_past P <= l_k S)%Z -> exists old, nth_error (l_pf S) i = Some old /\ fx <> 0 /\ p_delta P <= (old - fx) / fx)).
Proof.
  intros Hp Hk Hl H i. unfold stop_tests in H. rewrite (proj2 (Z.ltb_lt _ _) Hp) in H. rewrite imod_pos in H by lia. cbn [bind] in H.
  assert (Hi := Z.mod_pos_bound (l_k S) (p_past P) Hp).
  assert (Ei : (l_k S mod p_past P)%Z = Z.of_nat i) by (unfold i; lia).
  apply bind_ok in H as (o1 & H1 & H). apply bind_ok in H1 as (b & H2 & H1).
  assert (Hb : b = true -> (p_past P <= l_k S)%Z /\ exists old, nth_error (l_pf S) i = Some old /\ fx <> 0 /\ (old - fx) / fx < p_delta P).
  { intros ->. destruct (p_past P <=? l_k S)%Z eqn:E; [|discriminate]. apply Z.leb_le in E. split; [exact E|]. apply bind_ok in H2 as (old & H2 & H3). apply bind_ok in H3 as (rate & H3 & H4).
    apply vget_inv in H2 as (j & Ej & H2). rewrite Ei in Ej. apply Nat2Z.inj in Ej. subst j. exists old. split; [exact H2|]. unfold rdiv in H3. destruct (eqb fx 0) eqn:E0; [discriminate|]. apply eqb_false in E0.
    injection H3 as <-. injection H4 as H4. apply ltb_true in H4. auto. }
  destruct b.
  - injection H1 as <-. cbn in H. injection H as <-. left. split; [reflexivity|]. auto.
  - right. apply bind_ok in H1 as (pf & H3 & H1). injection H1 as <-. cbn in H.
    assert (Eo : o <> inl Stop /\ (forall pf', o = inr pf' -> pf' = pf)). { destruct (negb (p_maxit P =? 0) && (p_maxit P <? l_k S + 1))%Z%bool; injection H as <-; split; try discriminate; intros pf' E; congruence. }
    split; [apply Eo|]. split.
    + intros pf' E. rewrite (proj2 Eo pf' E). apply vset_inv in H3 as (j & Ej & _ & ->). rewrite Ei in Ej. apply Nat2Z.inj in Ej. now subst.
    + intros Hpk. rewrite (proj2 (Z.leb_le _ _) Hpk) in H2. apply bind_ok in H2 as (old & H2 & H4). apply bind_ok in H4 as (rate & H4 & H5).
      apply vget_inv in H2 as (j & Ej & H2). rewrite Ei in Ej. apply Nat2Z.inj in Ej. subst j. exists old. split; [exact H2|]. unfold rdiv in H4. destruct (eqb fx 0) eqn:E0; [discriminate|]. apply eqb_false in E0.
      injection H4 as <-. injection H5 as H5. apply ltb_false in H5. auto.
Qed.

Lemma past_start : (0 < p_past P)%Z -> past_ok [(x0, G x0)] (start n F G P x0).
Proof.
  intros Hp [|i] x g Hi H; [|destruct i; discriminate]. injection H as <- <-. cbn [start l_k l_pf]. replace (1 - 1 - Z.of_nat 0)%Z with 0%Z by reflexivity. rewrite Z.mod_0_l by lia.
  destruct (Z.to_nat (p_past P)) eqn:E; [lia|]. reflexivity.
Qed.
Lemma past_visited h S : checked n P -> (0 < p_m P)%Z -> (0 < p_past P)%Z -> converged n P x0 (G x0) = false -> visited n F G P progress x0 h S -> past_ok h S.
Proof.
  intros C Hm Hp Hc H. induction H as [|h S S' H IH Hs]; [now apply past_start|].
  pose proof (inv_visited n F G P progress x0 h S C Hm Hc H) as I.
  pose proof (iter_next n F G P progress S S' Hs) as (r & c & it & j & lm & L & Lo & X1 & X2 & X3 & _ & Xk & _ & _ & Hst & _).
  rewrite (v_fx _ _ _ _ _ _ _ I), (v_g _ _ _ _ _ _ _ I) in L. destruct (linesearch_ok n F G P _ _ _ _ _ C L Lo) as (_ & L2 & _).
  assert (Hk : l_k S = Z.of_nat (length h)) by apply (v_k _ _ _ _ _ _ _ I). assert (Hk0 : (0 <= l_k S)%Z) by (rewrite Hk; apply Nat2Z.is_nonneg).
  assert (Hpl := v_pf _ _ _ _ _ _ _ I).
  destruct (stop_tests_inv S _ _ Hp ltac:(lia) ltac:(lia) Hst) as [[E _]|(_ & E & _)]; [discriminate|]. specialize (E _ eq_refl).
  intros i x g Hi Hn. rewrite E, Xk. assert (Hb0 := Z.mod_pos_bound (l_k S) (p_past P) Hp). destruct i as [|i]; cbn [nth_error] in Hn.
  - injection Hn as <- <-. replace (l_k S + 1 - 1 - Z.of_nat 0)%Z with (l_k S) by lia. rewrite X1, <- L2. apply nth_set_same. lia.
  - replace (l_k S + 1 - 1 - Z.of_nat (Datatypes.S i))%Z with (l_k S - 1 - Z.of_nat i)%Z by lia.
    assert (Hb := Z.mod_pos_bound (l_k S - 1 - Z.of_nat i) (p_past P) Hp).
    rewrite nth_set_other; [apply (IH i x g); [lia|exact Hn]|]. intros Eq.
    assert (E2 : ((l_k S - (l_k S - 1 - Z.of_nat i)) mod p_past P = 0)%Z).
    { rewrite Zminus_mod. replace (l_k S mod p_past P)%Z with ((l_k S - 1 - Z.of_nat i) mod p_past P)%Z by lia. rewrite Z.sub_diag. apply Z.mod_0_l. lia. }
    replace (l_k S - (l_k S - 1 - Z.of_nat i))%Z with (1 + Z.of_nat i)%Z in E2 by lia. rewrite Z.mod_small in E2 by lia. lia.
Qed.

(** What the test reads is the value [past] iterations ago. *)
Lemma past_read h S : checked n P -> (0 < p_m P)%Z -> (0 < p_past P)%Z -> converged n P x0 (G x0) = false -> visited n F G P progress x0 h S -> (p_past P <= l_k S)%Z ->
  exists x g, nth_error h (Z.to_nat (p_past P) - 1) = Some (x, g) /\ nth_error (l_pf S) (Z.to_nat (l_k S mod p_past P)) = Some (F x).
Proof.
  intros C Hm Hp Hc V Hk. pose proof (inv_visited n F G P progress x0 h S C Hm Hc V) as I. pose proof (v_k _ _ _ _ _ _ _ I) as Ek. assert (Hk0 : (0 <= l_k S)%Z) by (rewrite Ek; apply Nat2Z.is_nonneg).
  destruct (nth_error h (Z.to_nat (p_past P) - 1)) as [[x g]|] eqn:E.
  - exists x, g. split; [reflexivity|]. rewrite <- (past_visited h S C Hm Hp Hc V (Z.to_nat (p_past P) - 1)%nat x g ltac:(lia) E). f_equal. f_equal.
    replace (l_k S - 1 - Z.of_nat (Z.to_nat (p_past P) - 1))%Z with (l_k S + -1 * p_past P)%Z by lia. symmetry. apply Z_mod_plus_full.
  - exfalso. apply nth_error_None in E. unfold vec in *. lia.
Qed.

Lemma stop_out h S o : checked n P -> (0 < p_m P)%Z -> converged n P x0 (G x0) = false -> visited n F G P progress x0 h S -> iteration n F G P progress S = Ok (inl o) -> o_code o = Stop ->
  (forall r, linesearch n F G P (l_x S) (F (l_x S)) (G (l_x S)) (l_d S) (l_step S) = Ok r -> ls_out r <> inl Stop) ->
  exists x g, (0 < p_past P)%Z /\ nth_error h (Z.to_nat (p_past P) - 1) = Some (x, g) /\ F (o_x o) <> 0 /\ (F x - F (o_x o)) / F (o_x o) < p_delta P.
Proof.
  intros C Hm Hc V Hi Ho HL. pose proof (inv_visited n F G P progress x0 h S C Hm Hc V) as I.
  assert (Ho2 := Hi). apply (iter_out n F G P progress x0 h S o C I) in Ho2 as [(r & R1 & R2 & _)|(_ & Efx & Hcode)]; [exfalso; rewrite Ho in R2; exact (HL r R1 R2)|].
  rewrite Ho in Hcode. unfold iteration in Hi. apply bind_ok in Hi as (r & H1 & Hi). rewrite (v_fx _ _ _ _ _ _ _ I), (v_g _ _ _ _ _ _ _ I) in H1.
  destruct (ls_out r) as [e|c] eqn:Lo; [exfalso; injection Hi as <-; cbn in Ho; subst e; exact (HL r H1 Lo)|]. cbv zeta in Hi.
  destruct (negb _); [injection Hi as <-; discriminate|]. destruct (converged n P (ls_x r) (ls_g r)); [injection Hi as <-; discriminate|].
  apply bind_ok in Hi as ([e|pf] & H2 & Hi).
  2: { exfalso. apply bind_ok in Hi as (it & _ & H). apply bind_ok in H as (lm & _ & H). apply bind_ok in H as (j & _ & H). apply bind_ok in H as ([lm' d'] & _ & H). discriminate. }
  injection Hi as <-. cbn [o_code o_x o_fx] in *. subst e.
  assert (Hpl := v_pf _ _ _ _ _ _ _ I). pose proof (v_k _ _ _ _ _ _ _ I) as Ek. assert (Hk0 : (0 <= l_k S)%Z) by (rewrite Ek; apply Nat2Z.is_nonneg).
  destruct (stop_tests_inv S _ _ ltac:(lia) ltac:(lia) ltac:(lia) H2) as [(_ & Hk & old & E1 & E2 & E3)|(E & _)]; [|congruence].
  destruct (past_read h S C Hm ltac:(lia) Hc V Hk) as (x & g & R1 & R2). exists x, g. rewrite R2 in E1. injection E1 as <-. rewrite <- Efx. split; [lia|]. auto.
Qed.
Lemma nostop_next h S S' x g : checked n P -> (0 < p_m P)%Z -> (0 < p_past P)%Z -> converged n P x0 (G x0) = false -> visited n F G P progress x0 h S -> iteration n F G P progress S = Ok (inr S') ->
  nth_error h (Z.to_nat (p_past P) - 1) = Some (x, g) -> F (l_x S') <> 0 /\ p_delta P <= (F x - F (l_x S')) / F (l_x S').
Proof.
  intros C Hm Hp Hc V Hs Hn. pose proof (inv_visited n F G P progress x0 h S C Hm Hc V) as I.
  pose proof (iter_next n F G P progress S S' Hs) as (r & c & it & j & lm & L & Lo & X1 & X2 & X3 & _ & Xk & _ & _ & Hst & _).
  rewrite (v_fx _ _ _ _ _ _ _ I), (v_g _ _ _ _ _ _ _ I) in L. destruct (linesearch_ok n F G P _ _ _ _ _ C L Lo) as (_ & L2 & _).
  assert (Hpl := v_pf _ _ _ _ _ _ _ I). pose proof (v_k _ _ _ _ _ _ _ I) as Ek. assert (Hk0 : (0 <= l_k S)%Z) by (rewrite Ek; apply Nat2Z.is_nonneg).
  assert (Hk : (p_past P <= l_k S)%Z). { assert (Z.to_nat (p_past P) - 1 < length h)%nat by (apply nth_error_Some; congruence). unfold vec in *. lia. }
  destruct (stop_tests_inv S _ _ Hp ltac:(lia) ltac:(lia) Hst) as [[E _]|(_ & _ & E)]; [discriminate|]. destruct (E Hk) as (old & E1 & E2 & E3).
  destruct (past_read h S C Hm Hp Hc V Hk) as (x' & g' & R1 & R2). rewrite R2 in E1. injection E1 as <-. rewrite R1 in Hn. injection Hn as -> ->. rewrite X1, <- L2. auto.
Qed.
End S.

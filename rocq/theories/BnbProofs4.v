(** * Branch and bound: the loop *)
From Coq Require Import Reals List Arith ZArith Bool Lia Lra.
From Verif Require Import Base BaseProofs IpModel BnbModel BnbSpec BnbProofs BnbProofs2 BnbProofs3.
Import ListNotations.
Open Scope R_scope.

Lemma e_ltb_trans_ge a b c : e_ltb a b = false -> e_ltb b c = false -> e_ltb a c = false.
Proof. destruct a, b, c; cbn; try congruence. rewrite !ltb_false. lra. Qed.
Lemma e_ltb_asym a b : e_ltb a b = true -> e_ltb b a = false.
Proof. destruct a, b; cbn; try congruence. rewrite ltb_true, ltb_false. lra. Qed.
Lemma e_ltb_refl a : e_ltb a a = false.
Proof. destruct a; cbn; auto. apply ltb_false. lra. Qed.
Lemma e_min_le a b : e_ltb a (e_min a b) = false /\ e_ltb b (e_min a b) = false.
Proof. unfold e_min. destruct (e_ltb b a) eqn:E; split; auto using e_ltb_refl, e_ltb_asym. Qed.
Lemma lower_fold l : forall b, e_ltb b (fold_left (fun b nd => e_min b (n_lower nd)) l b) = false /\
  forall nd, In nd l -> e_ltb (n_lower nd) (fold_left (fun b nd => e_min b (n_lower nd)) l b) = false.
Proof.
  induction l as [|x l IH]; intros b; cbn; [split; [apply e_ltb_refl|tauto]|]. destruct (IH (e_min b (n_lower x))) as [H1 H2]. destruct (e_min_le b (n_lower x)) as [M1 M2]. split.
  - eapply e_ltb_trans_ge; eassumption.
  - intros nd [<-|H]; [eapply e_ltb_trans_ge; eassumption|auto].
Qed.
Lemma lower_fold_notn l : forall b, b <> NInf -> (forall nd, In nd l -> n_lower nd <> NInf) -> fold_left (fun b nd => e_min b (n_lower nd)) l b <> NInf.
Proof. induction l as [|x l IH]; intros b Hb H; cbn; auto. apply IH; [|intros; apply H; now right]. unfold e_min. destruct (e_ltb (n_lower x) b); auto. apply H. now left. Qed.
Lemma best_spec l : forall k next bound,
  (best_node l k next bound = next /\ forall nd, In nd l -> n_status nd = SolvedBranchable -> e_ltb (n_lower nd) bound = false) \/
  (exists w nd, best_node l k next bound = (k + Z.of_nat w)%Z /\ nth_error l w = Some nd /\ n_status nd = SolvedBranchable).
Proof.
  induction l as [|x l IH]; intros k next bound; cbn [best_node]; [left; split; [reflexivity|intros ? []]|].
  assert (G : forall next bound, e_ltb (n_lower x) bound = false \/ n_status x <> SolvedBranchable ->
    (best_node l (k + 1) next bound = next /\ (forall nd, In nd (x :: l) -> n_status nd = SolvedBranchable -> e_ltb (n_lower nd) bound = false)) \/
    (exists w nd, best_node l (k + 1) next bound = (k + Z.of_nat w)%Z /\ nth_error (x :: l) w = Some nd /\ n_status nd = SolvedBranchable)).
  { intros nx bd H. destruct (IH (k + 1)%Z nx bd) as [[E HA]|(w & nd & E & H1 & H2)].
    - left. split; [exact E|]. intros nd [<-|Hn] Hs; [destruct H; [assumption|congruence]|auto].
    - right. exists (Datatypes.S w), nd. split; [rewrite E; lia|]. auto. }
  destruct (n_status x) eqn:Es; [apply G; right; congruence| |apply G; right; congruence].
  destruct (e_ltb (n_lower x) bound) eqn:El; [|apply G; left; exact El].
  right. destruct (IH (k + 1)%Z k (n_lower x)) as [[E _]|(w & nd & E & H1 & H2)].
  - exists 0%nat, x. split; [rewrite E; lia|]. auto.
  - exists (Datatypes.S w), nd. split; [rewrite E; lia|]. auto.
Qed.
Lemma firstn_nth {A} (l : list A) n k a : nth_error l k = Some a -> (k < n)%nat -> In a (firstn n l).
Proof. revert l k; induction n; intros l k H Hk; [lia|]. destruct l; [destruct k; discriminate|]. destruct k; cbn in *; [left; congruence|right; apply (IHn l k); auto; lia]. Qed.
Lemma nth_firstn {A} (l : list A) n k a : nth_error (firstn n l) k = Some a -> nth_error l k = Some a /\ (k < n)%nat.
Proof. revert l k; induction n; intros l k H; [destruct k; discriminate|]. destruct l; [destruct k; discriminate|]. destruct k; cbn in *; [split; [auto|lia]|]. destruct (IHn l k H). split; [auto|lia]. Qed.

Section P.
Variable S : bset.
Variable relax : nat -> list Z -> exitcode * (nat -> R).
Variable ids : list nat.
Variable cost : (nat -> R) -> R.
Variable F : (nat -> R) -> Prop.
Hypothesis Htol : 0 < b_tol S.
Hypothesis Habs : 0 <= b_abs S.
Hypothesis HO : exact_relaxation F ids cost (b_tol S) relax.
Variable nodes0 : list node.
Variable opt0 : nat -> R.
Variable calls0 : nat.
Hypothesis Hlen : length nodes0 = b_max S.
Hypothesis Hmax : (1 <= b_max S)%nat.
Notation reach := (reached S relax ids cost nodes0 opt0 calls0).
Notation ubok := (ubok S ids cost F).
Notation good := (good ids cost F).

Record Inv (s : bstate) : Prop := mkInv {
  inv_reach : reach s;
  inv_ub : ubok s;
  inv_good : forall k, (k <= s_iter s)%nat -> exists nd col, nth_error (s_nodes s) k = Some nd /\ nth_error (s_mat s) k = Some col /\ good (s_ub s) nd col /\ e_ltb (n_lower nd) (s_lb s) = false;
  inv_lb : s_lb s <> NInf;
  inv_sel : (s_node s = (-1)%Z /\ forall k nd, (k <= s_iter s)%nat -> nth_error (s_nodes s) k = Some nd -> n_status nd <> SolvedBranchable) \/
            (exists i nd, s_node s = Z.of_nat i /\ (i <= s_iter s)%nat /\ nth_error (s_nodes s) i = Some nd /\ (n_status nd = SolvedBranchable \/ continue S s = false)) }.

Lemma root_ok : exists s, bnb_root S relax ids cost nodes0 opt0 calls0 = Ok s /\ Inv s.
Proof.
  destruct (nth_error nodes0 0) as [nd0|] eqn:En; [|apply nth_error_None in En; lia].
  set (s0 := mkB 0 0 (set_nth nodes0 0 (mkNode NotSolved (n_part nd0) NInf PInf)) (repeat (repeat (-1)%Z (length ids)) (b_max S)) opt0 NInf PInf calls0).
  assert (H0 : nth_error (s_nodes s0) 0 = Some (mkNode NotSolved (n_part nd0) NInf PInf)) by (cbn [s_nodes s0]; apply nth_set_same; lia).
  assert (H1 : nth_error (s_mat s0) 0 = Some (repeat (-1)%Z (length ids))) by (cbn [s_mat s0]; destruct (b_max S); [lia|reflexivity]).
  assert (HD : dec_ok ids (repeat (-1)%Z (length ids))) by (split; [apply repeat_length|]; intros d Hd; apply repeat_spec in Hd; auto).
  destruct (update_good S relax ids cost F Htol HO s0 0 _ _ H0 H1 eq_refl HD (or_introl eq_refl)) as (s1 & E1 & Hub & _ & nd1 & Hn & Hg & Hst).
  assert (ER : bnb_root S relax ids cost nodes0 opt0 calls0 = Ok (mkB 0 0 (s_nodes s1) (s_mat s1) (s_opt s1) (n_lower nd1) (n_upper nd1) (s_calls s1))).
  { unfold bnb_root. change 0%Z with (Z.of_nat 0) at 1 2. rewrite (vget_nat _ _ _ En). cbn [bind]. rewrite vset_nat by lia. cbn [bind]. fold s0.
    change 0%Z with (Z.of_nat 0) at 1 2. rewrite E1. cbn [bind]. rewrite (vget_nat _ _ _ Hn). reflexivity. }
  pose proof (update_frame _ _ _ _ _ _ _ E1) as (G1 & G2 & G3 & G4 & G5 & G6 & G7).
  eexists. split; [exact ER|]. split; cbn [s_iter s_node s_nodes s_mat s_opt s_lb s_ub s_calls].
  - now apply reached_root.
  - unfold BnbProofs3.ubok. cbn [s_ub s_opt]. unfold BnbProofs3.good in Hg. destruct (n_status nd1) eqn:Es; [tauto|left; tauto|].
    specialize (Hst eq_refl eq_refl). rewrite <- Hst. exact Hub.
  - intros k Hk. replace k with 0%nat by lia. exists nd1, (repeat (-1)%Z (length ids)). split; [exact Hn|]. split; [rewrite G3; exact H1|]. split; [|apply e_ltb_refl].
    unfold BnbProofs3.good in *. destruct (n_status nd1); [tauto|tauto|]. destruct Hg as [(l & A & B & C & D)|Hg]; [left|right; exact Hg]. exists l. repeat split; auto. rewrite B. exists l. split; [reflexivity|lra].
  - unfold BnbProofs3.good in Hg. destruct (n_status nd1); [tauto| |].
    + destruct Hg as (_ & (l & -> & _) & _). discriminate.
    + destruct Hg as [(l & -> & _)|(-> & _)]; discriminate.
  - right. exists 0%nat, nd1. split; [reflexivity|]. split; [lia|]. split; [exact Hn|]. unfold BnbProofs3.good in Hg. destruct (n_status nd1); [tauto|now left|right].
    unfold continue. cbn [s_ub s_lb s_node s_iter]. destruct Hg as [(l & -> & -> & _)|(-> & -> & _)]; cbn; [|reflexivity].
    replace (ltb (b_abs S) (l - l)) with false; [reflexivity|]. symmetry. apply ltb_false. lra.
Qed.

Lemma body_ok s : Inv s -> continue S s = true -> exists s', bnb_body S relax ids cost s = Ok s' /\ Inv s'.
Proof.
  intros [HR Hub HG HL HS] HC. destruct (reach_shape _ _ _ _ _ _ _ s HR) as [(I1 & I2 & I3 & I4 & I5 & I6 & I7) _].
  destruct (continue_iter S s HC) as [C1 C2]. destruct HS as [[HS _]|(i & nd & Ei & Hi & Hn & Hst)]; [lia|]. destruct Hst as [Hst|]; [|congruence].
  destruct (HG i Hi) as (nd' & col & Hn' & Hc & Hg & _). rewrite Hn in Hn'. injection Hn' as <-. unfold BnbProofs3.good in Hg. rewrite Hst in Hg. destruct Hg as (HU & (l & HLo & Hlow) & p & Hp & Hpl).
  pose proof (I5 i col Hi Hc) as Hd. set (it := (s_iter s + 1)%nat).
  set (s1 := mkB it (s_node s) (s_nodes s) (s_mat s) (s_opt s) (s_lb s) (s_ub s) (s_calls s)).
  destruct (nth_error (s_nodes s) it) as [nw|] eqn:Enw; [|apply nth_error_None in Enw; unfold it in Enw; lia].
  assert (HB : exists s2, createBranches s1 (s_node s) = Ok s2).
  { unfold createBranches. cbn [s_iter s_nodes s_mat s1]. rewrite Ei. rewrite (vget_nat _ _ _ Hn). cbn [bind]. rewrite (vget_nat _ _ _ Enw). cbn [bind]. rewrite vset_nat by (unfold it; lia). cbn [bind].
    rewrite (vget_nat _ _ _ Hc). cbn [bind]. rewrite Hp. rewrite !(vset_nat col) by (rewrite (proj1 Hd); lia). cbn [bind]. rewrite vset_nat by (unfold it; lia). cbn [bind].
    rewrite vset_nat by (rewrite set_nth_length; unfold it; lia). cbn [bind]. rewrite (vget_nat _ i nd) by (rewrite nth_set_other by (unfold it; lia); exact Hn). cbn [bind].
    rewrite vset_nat by (rewrite set_nth_length; unfold it; lia). eexists. reflexivity. }
  destruct HB as (s2 & EB). pose proof (branch_spec _ _ _ EB ltac:(cbn; unfold it; lia)) as (i' & nd' & col' & p' & A1 & A2 & A3 & A4 & A5 & A6 & A7 & A8 & A9 & A10 & A11 & A12 & A13 & A14 & A15 & A16 & A17).
  cbn [s_iter s_node s_nodes s_mat s_opt s_lb s_ub s_calls s1] in A2, A3, A6, A7, A8, A9, A10, A11, A12, A13, A14, A15, A16, A17.
  rewrite Ei in A1. apply Nat2Z.inj in A1. subst i'. rewrite Hn in A2. injection A2 as <-. rewrite Hc in A3. injection A3 as <-. rewrite Hp in A4. apply Nat2Z.inj in A4. subst p'.
  assert (Hne : i <> it) by (unfold it; lia). destruct (A17 Hne) as [(nd1 & B1 & B2) (nd2 & B3 & B4)].
  assert (M0 : nth_error (s_mat s2) i = Some (set_nth col p 0%Z)) by (rewrite A12; apply nth_set_same; rewrite set_nth_length; unfold it in *; lia).
  assert (M1 : nth_error (s_mat s2) it = Some (set_nth col p 1%Z)) by (rewrite A12, nth_set_other by auto; apply nth_set_same; lia).
  assert (Mk : forall k, k <> i -> k <> it -> nth_error (s_mat s2) k = nth_error (s_mat s) k) by (intros k K1 K2; rewrite A12, !nth_set_other by auto; reflexivity).
  assert (Hub2 : ubok s2) by (unfold BnbProofs3.ubok in *; rewrite A10, A8; exact Hub).
  destruct (update_good S relax ids cost F Htol HO s2 i nd1 _ B1 M0 ltac:(congruence) ltac:(apply set_dec_ok; auto) Hub2) as (s3 & E3 & Hub3 & Hde3 & nd3 & Hn3 & Hg3 & _).
  pose proof (update_frame _ _ _ _ _ _ _ E3) as (F1 & F2 & F3 & F4 & F5 & F6 & (j & Fj & _ & F7)). apply Nat2Z.inj in Fj. subst j.
  assert (N3 : nth_error (s_nodes s3) it = Some nd2) by (rewrite F7 by auto; exact B3).
  assert (M3 : nth_error (s_mat s3) it = Some (set_nth col p 1%Z)) by (rewrite F3; exact M1).
  destruct (update_good S relax ids cost F Htol HO s3 it nd2 _ N3 M3 ltac:(congruence) ltac:(apply set_dec_ok; auto) Hub3) as (s4 & E4 & Hub4 & Hde4 & nd4 & Hn4 & Hg4 & _).
  pose proof (update_frame _ _ _ _ _ _ _ E4) as (K1 & K2 & K3 & K4 & K5 & K6 & (j & Kj & _ & K7)). apply Nat2Z.inj in Kj. subst j.
  assert (It : s_iter s4 = it) by congruence.
  assert (EBd : exists s', bnb_body S relax ids cost s = Ok s' /\ s_iter s' = it /\ s_nodes s' = s_nodes s4 /\ s_mat s' = s_mat s4 /\ s_opt s' = s_opt s4 /\ s_ub s' = s_ub s4 /\
    s_lb s' = getProblemLowerBound s4 /\ s_node s' = selectNodeToExplore s4).
  { unfold bnb_body. fold it. fold s1. rewrite EB. cbn [bind]. rewrite Ei, E3. cbn [bind]. replace (s_iter s3) with it by congruence. rewrite E4. cbn [bind]. eexists. split; [reflexivity|]. cbn. repeat split; auto. }
  destruct EBd as (s' & EBd & S1 & S2 & S3 & S4 & S5 & S6 & S7). exists s'. split; [exact EBd|].
  assert (GG : forall k, (k <= it)%nat -> exists nd col, nth_error (s_nodes s4) k = Some nd /\ nth_error (s_mat s4) k = Some col /\ good (s_ub s4) nd col).
  { intros k Hk. destruct (Nat.eq_dec k it) as [->|Kit]; [exists nd4, (set_nth col p 1%Z); rewrite K3; auto|]. destruct (Nat.eq_dec k i) as [->|Ki].
    - exists nd3, (set_nth col p 0%Z). rewrite K7 by auto. split; [exact Hn3|]. split; [rewrite K3, F3; exact M0|]. eapply good_mono; eassumption.
    - destruct (HG k ltac:(unfold it in *; lia)) as (ndk & ck & Q1 & Q2 & Q3 & _). exists ndk, ck. rewrite K7, F7, A16 by auto. split; [exact Q1|]. split; [rewrite K3, F3, Mk by auto; exact Q2|].
      eapply good_mono; [exact Hde4|]. eapply good_mono; [exact Hde3|]. rewrite A10. exact Q3. }
  split.
  - eapply reached_body; eassumption.
  - unfold BnbProofs3.ubok in *. rewrite S4, S5. exact Hub4.
  - intros k Hk. rewrite S1 in Hk. destruct (GG k Hk) as (ndk & ck & Q1 & Q2 & Q3). exists ndk, ck. rewrite S2, S3, S5, S6. do 3 (split; [assumption|]).
    unfold getProblemLowerBound. apply (proj2 (lower_fold _ _)). rewrite It. apply (firstn_nth _ _ k); [exact Q1|lia].
  - rewrite S6. unfold getProblemLowerBound. apply lower_fold_notn; [discriminate|]. intros x Hx. apply In_nth_error in Hx as [k Hx]. apply nth_firstn in Hx as [Hx Hk]. rewrite It in Hk.
    destruct (GG k ltac:(lia)) as (ndk & ck & Q1 & Q2 & Q3). rewrite Hx in Q1. injection Q1 as <-. unfold BnbProofs3.good in Q3. destruct (n_status x); [tauto| |].
    + destruct Q3 as (_ & (l' & -> & _) & _). discriminate.
    + destruct Q3 as [(l' & -> & _)|(-> & _)]; discriminate.
  - rewrite S1, S2, S7. unfold selectNodeToExplore. rewrite It. destruct (best_spec (firstn (it + 1) (s_nodes s4)) 0 (-1) PInf) as [[E HA]|(w & ndw & E & W1 & W2)].
    + left. split; [exact E|]. intros k ndk Hk Q Hs. pose proof (HA ndk ltac:(apply (firstn_nth _ _ k); [exact Q|lia]) Hs) as Hf.
      destruct (GG k Hk) as (nd' & c' & Q1 & Q2 & Q3). rewrite Q in Q1. injection Q1 as <-. unfold BnbProofs3.good in Q3. rewrite Hs in Q3. destruct Q3 as (_ & (l' & El & _) & _). rewrite El in Hf. discriminate.
    + right. apply nth_firstn in W1 as [W1 Ww]. exists w, ndw. split; [rewrite E; lia|]. split; [lia|]. auto.
Qed.

Lemma loop_ok : forall fuel s, Inv s -> (b_max S <= s_iter s + fuel)%nat -> exists s', bnb_loop S relax ids cost fuel s = Ok s' /\ Inv s' /\ continue S s' = false.
Proof.
  induction fuel as [|f IH]; intros s HI Hf; cbn [bnb_loop].
  - destruct (continue S s) eqn:E; [|eauto]. apply continue_iter in E. lia.
  - destruct (continue S s) eqn:E; [|eauto]. destruct (body_ok s HI E) as (s' & EB & HI'). rewrite EB. cbn [bind]. apply IH; [exact HI'|].
    apply body_inv in EB as (i & nd & col & p & _ & _ & _ & _ & _ & Eit & _). lia.
Qed.

(** ** From feasible binary points to nodes *)
Lemma binary_agrees y : binary_point F ids y -> forall col, (exists a, assignment (length ids) a /\ a = map (fun i => if Req_EM_T (y i) 1 then 1%Z else 0%Z) ids /\ agrees a col) -> restrict F ids col y.
Proof.
  intros [HF HB] col (a & Ha & -> & [HL HA]). split; [exact HF|]. intros v i d Hi Hd. destruct (HA v d Hd) as [-> |Hd'].
  - split; [discriminate|]. split; [discriminate|]. intros _. destruct (HB i (nth_error_In _ _ Hi)) as [-> | ->]; lra.
  - rewrite (map_nth_error (fun i => if Req_EM_T (y i) 1 then 1%Z else 0%Z) _ _ Hi) in Hd'. injection Hd' as <-. destruct (HB i (nth_error_In _ _ Hi)) as [E|E]; rewrite E.
    + destruct (Req_EM_T 0 1); [lra|]. repeat split; try discriminate; lra.
    + destruct (Req_EM_T 1 1); [|lra]. repeat split; try discriminate; lra.
Qed.
Lemma covered s y : reach s -> binary_point F ids y -> exists k col, (k <= s_iter s)%nat /\ nth_error (s_mat s) k = Some col /\ restrict F ids col y.
Proof.
  intros HR Hy. destruct (reach_shape _ _ _ _ _ _ _ s HR) as [(_ & _ & _ & _ & _ & _ & HA) _].
  set (a := map (fun i => if Req_EM_T (y i) 1 then 1%Z else 0%Z) ids). assert (Ha : assignment (length ids) a).
  { split; [apply map_length|]. intros z Hz. apply in_map_iff in Hz as (i & <- & _). destruct (Req_EM_T (y i) 1); auto. }
  destruct (HA a Ha) as (k & col & H1 & H2 & H3). exists k, col. split; [exact H1|]. split; [exact H2|]. apply binary_agrees; [exact Hy|]. exists a. auto.
Qed.

Definition verdict (c : exitcode) (x : nat -> R) : Prop :=
  match c with
  | Optimal => near_binary F ids (b_tol S) x /\ exists lb, (forall y, binary_point F ids y -> lb <= cost y) /\ (cost x - lb <= b_abs S \/ Rabs (cost x - lb) <= b_rel S * Rabs lb)
  | OptimalInacc => near_binary F ids (b_tol S) x
  | PrimalInf => forall y, ~ binary_point F ids y
  | PrimalInfInacc => True
  | _ => False
  end.

Lemma final_verdict s : Inv s -> continue S s = false -> verdict (bnb_exitcode S s) (s_opt s).
Proof.
  intros [HR Hub HG HL HS] HC. unfold bnb_exitcode. destruct (Z.of_nat (s_iter s) <? Z.of_nat (b_max S) - 1)%Z eqn:EI.
  2:{ destruct Hub as [-> |(u & -> & _ & HN)]; cbn; auto. }
  unfold continue in HC. rewrite EI, andb_true_r in HC.
  (* no branchable node left *)
  assert (HB : s_node s = (-1)%Z -> forall y, binary_point F ids y -> exists l, e_le_fin (s_ub s) l /\ l <= cost y).
  { intros En y Hy. destruct (covered s y HR Hy) as (k & col & Hk & Hc & Hy'). destruct (HG k Hk) as (nd & c' & N1 & N2 & N3 & _). rewrite Hc in N2. injection N2 as <-.
    destruct HS as [[_ HS]|(i & _ & Ei & _)]; [|lia]. specialize (HS k nd Hk N1). unfold BnbProofs3.good in N3. destruct (n_status nd); [tauto|congruence|].
    destruct N3 as [(l & _ & _ & Hl & Hu)|(_ & _ & Hn)]; [|destruct (Hn y Hy')]. exists l. auto. }
  assert (HLB : forall y, binary_point F ids y -> exists l, s_lb s = Fin l /\ l <= cost y).
  { intros y Hy. destruct (covered s y HR Hy) as (k & col & Hk & Hc & Hy'). destruct (HG k Hk) as (nd & c' & N1 & N2 & N3 & N4). rewrite Hc in N2. injection N2 as <-.
    assert (exists l, n_lower nd = Fin l /\ l <= cost y) as (l & El & Hl).
    { unfold BnbProofs3.good in N3. destruct (n_status nd); [tauto| |]. { destruct N3 as (_ & (l & El & Hl) & _). eauto. }
      destruct N3 as [(l & El & _ & Hl & _)|(_ & _ & Hn)]; [eauto|destruct (Hn y Hy')]. }
    rewrite El in N4. destruct (s_lb s) as [|b|] eqn:Eb; [congruence| |discriminate]. cbn in N4. apply ltb_false in N4. exists b. split; [reflexivity|lra]. }
  destruct Hub as [Eu|(u & Eu & Hu & HN)]; rewrite Eu in *.
  - cbn. intros y Hy. destruct (HLB y Hy) as (l & El & _). rewrite El in HC. cbn in HC. destruct (Z.leb_spec 0 (s_node s)); [discriminate|].
    destruct HS as [[En _]|(i & _ & Ei & _)]; [|lia]. destruct (HB En y Hy) as (l' & (u & Hf & _) & _). discriminate.
  - cbn. split; [exact HN|]. rewrite Hu. apply andb_false_iff in HC as [HC|HC]; [apply andb_false_iff in HC as [HC|HC]|].
    + destruct (s_lb s) as [|l|] eqn:El; [discriminate| |].
      * cbn in HC. apply ltb_false in HC. exists l. split; [|now left]. intros y Hy. destruct (HLB y Hy) as (l' & [= <-] & H). exact H.
      * exists u. split; [|left; lra]. intros y Hy. destruct (HLB y Hy) as (l' & E & _). discriminate.
    + destruct (s_lb s) as [|l|] eqn:El; [congruence| |].
      * exists l. split; [intros y Hy; destruct (HLB y Hy) as (l' & [= <-] & H); exact H|]. right. cbn in HC. destruct (eqb l 0) eqn:E0.
        -- apply eqb_true in E0. apply negb_false_iff, eqb_true in HC. rewrite HC, E0. replace (0 - 0) with 0 by ring. rewrite Rabs_R0. lra.
        -- assert (l <> 0) by (intros ->; assert (eqb 0 0 = true) by (now apply eqb_true); congruence). apply ltb_false in HC.
           replace (u - l) with ((u / l - 1) * l) by (field; assumption). rewrite Rabs_mult. apply Rmult_le_compat_r; [apply Rabs_pos|exact HC].
      * exists u. split; [|left; lra]. intros y Hy. destruct (HLB y Hy) as (l' & E & _). discriminate.
    + apply Z.leb_gt in HC. destruct HS as [[En _]|(i & _ & Ei & _)]; [|lia]. exists u. split; [|left; lra]. intros y Hy. destruct (HB En y Hy) as (l & (u' & [= <-] & Hle) & H). lra.
Qed.
End P.

(** * Lemmas for the search over problems with approximated constraints *)
From Coq Require Import Reals List Arith ZArith Bool Lia Lra.
From Verif Require Import Base BaseProofs IpModel BnbModel BnbSpec BnbProofs BnbProofs2 BnbProofs3 BnbProofs4 NcvxModel NcvxSpec.
Import ListNotations.
Open Scope R_scope.

(** States at the head of the while loop. *)
Inductive nreached (S : bset) (O : Type) ask ids (nodes0 : list node) (opt0 : nat -> R) (o0 : O) : bstate -> O -> Prop :=
| nreached_root s o : nx_root S O ask ids nodes0 opt0 o0 = Ok (s, o) -> nreached S O ask ids nodes0 opt0 o0 s o
| nreached_body s o s' o' : nreached S O ask ids nodes0 opt0 o0 s o -> continue S s = true -> nx_body S O ask ids s o = Ok (s', o') -> nreached S O ask ids nodes0 opt0 o0 s' o'.

Lemma npart_ok (ids : list nat) x part : (forall i, In i ids -> - / 2 < x i < 3 / 2) -> ids <> [] -> exists p, select_part ids 0 x 1 part = Z.of_nat p /\ (p < length ids)%nat.
Proof.
  intros H Hne. destruct (select_range ids 0 x 1 part) as [(w & Hw & E & _)|[_ HA]]; [exists w; split; [exact E|exact Hw]|].
  destruct ids as [|i l]; [congruence|]. specialize (HA i (or_introl eq_refl)). specialize (H i (or_introl eq_refl)).
  exfalso. assert (Rabs (x i - / 2) < 1) by (apply Rabs_def1; lra). lra.
Qed.
Lemma nnot_int S (ids : list nat) x : is_integer S ids x = false -> ids <> [].
Proof. intros H ->. discriminate. Qed.

Section P.
Variable S : bset.
Variable O : Type.
Variable ask : O -> list Z -> exitcode * (nat -> R) * R * O.
Variable ids : list nat.

Lemma nx_frame s o id s' o' : nx_update S O ask ids s o id = Ok (s', o') ->
  s_iter s' = s_iter s /\ s_node s' = s_node s /\ s_mat s' = s_mat s /\ s_lb s' = s_lb s /\ length (s_nodes s') = length (s_nodes s) /\
  (s_calls s <= s_calls s' <= s_calls s + 2)%nat /\
  (exists i, id = Z.of_nat i /\ (i < length (s_nodes s))%nat /\ forall j, j <> i -> nth_error (s_nodes s') j = nth_error (s_nodes s) j).
Proof.
  unfold nx_update. intros H. apply bind_ok in H as (dec & H1 & H). apply bind_ok in H as (u & H2 & H). apply bind_ok in H as (nd & H3 & H).
  destruct (ask o dec) as [[[c x] v] o1] eqn:ER. destruct (accepted c).
  - apply bind_ok in H as ([[[[nd' last] viable] calls] o2] & H4 & H). apply bind_ok in H as (nodes & H5 & H). injection H as <- <-. cbn.
    apply vset_inv in H5 as (i & -> & Hi & ->). rewrite set_nth_length.
    assert (Hc : (s_calls s <= calls <= s_calls s + 2)%nat).
    { destruct (is_integer S ids x); [injection H4 as _ _ _ <- _; lia|]. apply bind_ok in H4 as (w & H6 & H4). destruct (ask o1 (rounded ids x)) as [[[c2 x2] v2] o3]. injection H4 as _ _ _ <- _. lia. }
    repeat split; try lia. exists i. repeat split; auto. intros j Hj. now apply nth_set_other.
  - apply bind_ok in H as (nodes & H5 & H). injection H as <- <-. cbn. apply vset_inv in H5 as (i & -> & Hi & ->). rewrite set_nth_length.
    repeat split; try lia. exists i. repeat split; auto. intros j Hj. now apply nth_set_other.
Qed.

Variable nodes0 : list node.
Variable opt0 : nat -> R.
Variable o0 : O.
Notation reach := (nreached S O ask ids nodes0 opt0 o0).

Lemma nroot_inv s o : nx_root S O ask ids nodes0 opt0 o0 = Ok (s, o) ->
  s_iter s = 0%nat /\ s_node s = 0%Z /\ s_mat s = repeat (repeat (-1)%Z (length ids)) (b_max S) /\ length (s_nodes s) = length nodes0 /\ (1 <= length nodes0)%nat /\
  (s_calls s <= 2)%nat /\ (1 <= b_max S)%nat.
Proof.
  unfold nx_root. intros H. apply bind_ok in H as (nd & H1 & H). apply bind_ok in H as (nodes & H2 & H). apply bind_ok in H as ([s1 o1] & H3 & H). apply bind_ok in H as (nd' & H4 & H).
  injection H as <- <-. assert (Hb : (1 <= b_max S)%nat).
  { unfold nx_update in H3. apply bind_ok in H3 as (dec & H5 & _). cbn [s_mat] in H5. apply vget_inv in H5 as (i & _ & H5). destruct (b_max S); [destruct i; discriminate|lia]. }
  apply nx_frame in H3 as (E1 & E2 & E3 & E4 & E5 & E6 & E7). cbn in *. apply vset_inv in H2 as (i & Ei & Hi & ->). rewrite set_nth_length in E5.
  rewrite E3, E5. repeat split; try lia.
Qed.

Lemma nbody_inv s o s' o' : nx_body S O ask ids s o = Ok (s', o') ->
  (exists i nd col p, s_node s = Z.of_nat i /\ nth_error (s_nodes s) i = Some nd /\ nth_error (s_mat s) i = Some col /\ n_part nd = Z.of_nat p /\ (p < length col)%nat /\
   s_iter s' = (s_iter s + 1)%nat /\ (s_iter s + 1 < length (s_mat s))%nat /\ (s_iter s + 1 < length (s_nodes s))%nat /\ length (s_nodes s') = length (s_nodes s) /\
   s_mat s' = set_nth (set_nth (s_mat s) (s_iter s + 1) (set_nth col p 1%Z)) i (set_nth col p 0%Z) /\ (s_calls s <= s_calls s' <= s_calls s + 4)%nat /\
   s_node s' = selectNodeToExplore s' /\ s_lb s' = getProblemLowerBound s').
Proof.
  unfold nx_body. intros H. apply bind_ok in H as (s2 & H1 & H). apply bind_ok in H as ([s3 o3] & H2 & H). apply bind_ok in H as ([s4 o4] & H3 & H).
  injection H as <- <-. apply branch_spec in H1; [|cbn; lia]. destruct H1 as (i & nd & col & p & A1 & A2 & A3 & A4 & A5 & A6 & A7 & A8 & A9 & A10 & A11 & A12 & A13 & A14 & A15 & A16 & A17).
  cbn in A2, A3, A6, A7, A8, A9, A10, A11, A12, A13, A14, A15.
  apply nx_frame in H2 as (E1 & E2 & E3 & E4 & E5 & E6 & _). apply nx_frame in H3 as (G1 & G2 & G3 & G4 & G5 & G6 & _). cbn.
  exists i, nd, col, p. do 5 (split; [assumption|]). split; [congruence|]. do 2 (split; [assumption|]). do 2 (split; [congruence|]). split; [lia|]. split; reflexivity.
Qed.

Definition nshape (s : bstate) : Prop :=
  length (s_nodes s) = length nodes0 /\ length (s_mat s) = b_max S /\ (s_iter s < b_max S)%nat /\ (s_iter s < length nodes0)%nat /\
  (forall k col, (k <= s_iter s)%nat -> nth_error (s_mat s) k = Some col -> dec_ok ids col) /\
  (s_calls s <= 2 + 4 * s_iter s)%nat /\
  (forall a, assignment (length ids) a -> exists k col, (k <= s_iter s)%nat /\ nth_error (s_mat s) k = Some col /\ agrees a col).
Lemma nreach_shape s o : reach s o -> nshape s /\ (s_node s <= Z.of_nat (s_iter s))%Z.
Proof.
  induction 1 as [s o H|s o s' o' HR [IH IHn] HC HB].
  - apply nroot_inv in H as (E1 & E2 & E3 & E4 & E5 & E6 & Hb).
    split; [|lia]. unfold nshape. rewrite E1, E3, E4. rewrite repeat_length. repeat (split; [lia|]). split; [|split; [lia|]].
    + intros k col _ Hc. apply nth_error_In, repeat_spec in Hc. subst col. split; [apply repeat_length|]. intros d Hd. apply repeat_spec in Hd. auto.
    + intros a [Ha _]. exists 0%nat, (repeat (-1)%Z (length ids)). split; [lia|]. split; [destruct (b_max S); [lia|reflexivity]|].
      split; [now rewrite repeat_length|]. intros v d Hv. left. eapply repeat_spec, nth_error_In, Hv.
  - apply nbody_inv in HB as (i & nd & col & p & B1 & B2 & B3 & B4 & B5 & B6 & B7 & B8 & B9 & B10 & B11 & B12 & B13).
    destruct (continue_iter S s HC) as [C1 C2]. destruct IH as (I1 & I2 & I3 & I4 & I5 & I6 & I7). assert (Hi : (i <= s_iter s)%nat) by lia.
    assert (Hne : i <> (s_iter s + 1)%nat) by lia. pose proof (I5 i col Hi B3) as Hcol.
    split; [|rewrite B12; apply node_le]. unfold nshape. rewrite B6, B9, B10, !set_nth_length. repeat (split; [lia|]). split; [|split; [lia|]].
    + intros k c Hk Hc. apply (fun H => nth_mid _ _ _ _ _ _ _ H Hne) in Hc as [[-> ->]|[[-> ->]|(N1 & N2 & Hc)]]; [apply set_dec_ok; auto|apply set_dec_ok; auto|]. apply (I5 k); [lia|assumption].
    + intros a Ha. destruct (I7 a Ha) as (k & c & Hk & Hc & Hag). destruct (Nat.eq_dec k i) as [->|Hki].
      * rewrite Hc in B3. injection B3 as ->. assert (Hp : (p < length ids)%nat) by (rewrite <- (proj1 Hcol); assumption).
        destruct (assignment_at _ a p Ha Hp) as [Hap|Hap].
        -- exists i, (set_nth col p 0%Z). split; [lia|]. split; [apply nth_set_same; rewrite set_nth_length; lia|]. now apply agrees_set.
        -- exists (s_iter s + 1)%nat, (set_nth col p 1%Z). split; [lia|]. split; [rewrite nth_set_other by auto; apply nth_set_same; lia|]. now apply agrees_set.
      * exists k, c. split; [lia|]. split; [|exact Hag]. rewrite !nth_set_other by lia. exact Hc.
Qed.

(** ** Soundness *)
Variable F : (nat -> R) -> Prop.
Variable okO : O -> Prop.
Notation tol := (b_tol S).
Hypothesis Htol : 0 < tol.
Hypothesis HO : sound_ask F ids tol okO ask.

Definition nubok (s : bstate) : Prop := s_ub s = PInf \/ exists u, s_ub s = Fin u /\ near_binary F ids tol (s_opt s).
Definition ngood (ub : eR) (nd : node) : Prop :=
  match n_status nd with
  | SolvedBranchable => n_upper nd = PInf /\ (exists l, n_lower nd = Fin l) /\ exists p, n_part nd = Z.of_nat p /\ (p < length ids)%nat
  | SolvedNonBranchable => (exists l, n_lower nd = Fin l /\ n_upper nd = Fin l /\ e_le_fin ub l) \/ (n_lower nd = PInf /\ n_upper nd = PInf)
  | NotSolved => False
  end.
Lemma ngood_mono ub ub' nd : e_dec ub' ub -> ngood ub nd -> ngood ub' nd.
Proof.
  unfold ngood. intros H. destruct (n_status nd); auto. intros [(l & A & B & u & E & D)|H']; [left|right; auto].
  exists l. do 2 (split; [assumption|]). destruct H as [->|[->|(x & y & -> & H & H2)]]; [now exists u|discriminate|]. exists x. split; [reflexivity|]. rewrite E in H. injection H as ->. lra.
Qed.

Lemma nupdate_good s o i nd col : nth_error (s_nodes s) i = Some nd -> nth_error (s_mat s) i = Some col -> n_upper nd = PInf -> dec_ok ids col -> nubok s -> okO o ->
  exists s' o', nx_update S O ask ids s o (Z.of_nat i) = Ok (s', o') /\ okO o' /\ nubok s' /\ e_dec (s_ub s') (s_ub s) /\
    exists nd', nth_error (s_nodes s') i = Some nd' /\ ngood (s_ub s') nd' /\ (s_ub s = PInf -> n_status nd' = SolvedNonBranchable -> s_ub s' = n_upper nd').
Proof.
  intros Hn Hm HU HD Hub Hok. assert (Hi : (i < length (s_nodes s))%nat) by (apply nth_error_Some; congruence).
  unfold nx_update. rewrite (vget_nat _ _ _ Hm). cbn [bind]. rewrite (upd_data_ok col (proj2 HD)). cbn [bind]. rewrite (vget_nat _ _ _ Hn). cbn [bind].
  destruct (ask o col) as [[[c x] v] o1] eqn:ER. destruct (HO o col c x v o1 Hok (proj1 HD) (proj2 HD) ER) as [Hok1 HR].
  assert (HC : (accepted c = true /\ restrict F ids col x) \/ (accepted c = true /\ clearly_fractional ids tol x) \/ accepted c = false).
  { destruct c; cbn; auto. }
  assert (HF : accepted c = true -> is_integer S ids x = false -> exists s' o',
    bind (bind (updateProblemData (rounded ids x)) (fun _ => let '(c2, x2, v2, o2) := ask o1 (rounded ids x) in
            Ok (mkNode SolvedBranchable (select_part ids 0 x 1 (n_part nd)) (Fin v) (if optimal c2 then Fin v2 else n_upper nd), x2, optimal c2, (s_calls s + 2)%nat, o2)))
      (fun '(nd', last, viable, calls, o') =>
        bind (vset (s_nodes s) (Z.of_nat i) (if viable : bool then mkNode (n_status nd') (n_part nd') (n_lower nd') PInf else nd')) (fun nodes =>
        Ok (mkB (s_iter s) (s_node s) nodes (s_mat s) (if e_ltb (n_upper nd') (s_ub s) then last else s_opt s) (s_lb s) (if e_ltb (n_upper nd') (s_ub s) then n_upper nd' else s_ub s) calls, o'))) = Ok (s', o') /\
    okO o' /\ nubok s' /\ e_dec (s_ub s') (s_ub s) /\
    exists nd', nth_error (s_nodes s') i = Some nd' /\ ngood (s_ub s') nd' /\ (s_ub s = PInf -> n_status nd' = SolvedNonBranchable -> s_ub s' = n_upper nd')).
  { intros Hac EI. assert (HB : forall i, In i ids -> - / 2 < x i < 3 / 2).
    { destruct HC as [(_ & HX)|[(_ & HX)|HX]]; [|exact (proj2 HX)|congruence]. intros k Hk. pose proof (box_unit ids col x HD (proj2 HX) k Hk). lra. }
    pose proof (rounded_ok ids x HB) as [HL HRd]. rewrite upd_data_ok by (intros d Hd; destruct (HRd d Hd); auto). cbn [bind].
    destruct (npart_ok ids x (n_part nd) HB (nnot_int S ids x EI)) as (p & Ep & Hp).
    destruct (ask o1 (rounded ids x)) as [[[c2 x2] v2] o2] eqn:ER2.
    destruct (HO o1 (rounded ids x) c2 x2 v2 o2 Hok1 HL ltac:(intros d Hd; destruct (HRd d Hd); auto) ER2) as [Hok2 HR2].
    cbn [bind]. rewrite (vset_nat _ _ _ Hi). cbn [bind]. do 2 eexists. split; [reflexivity|]. split; [exact Hok2|]. cbn [s_ub s_opt s_nodes n_upper n_status n_part n_lower].
    destruct (optimal c2) eqn:Eo.
    - assert (HN : near_binary F ids tol x2) by (destruct c2; try discriminate; apply (rounded_binary S ids F Htol x); tauto).
      destruct (e_ltb (Fin v2) (s_ub s)) eqn:EB.
      + split; [right; exists v2; cbn; auto|]. split.
        { destruct Hub as [Hub|(u & Hu & _)]; [right; left; exact Hub|right; right]. exists v2, u. rewrite Hu in EB. cbn in EB. apply ltb_true in EB. split; [reflexivity|split; [assumption|lra]]. }
        eexists. split; [apply nth_set_same, Hi|]. unfold ngood. cbn [n_status n_upper n_lower n_part]. split; [|discriminate]. split; [reflexivity|]. split; [exists v; auto|eauto].
      + split; [exact Hub|]. split; [left; reflexivity|]. eexists. split; [apply nth_set_same, Hi|]. unfold ngood. cbn [n_status n_upper n_lower n_part]. split; [|discriminate]. split; [reflexivity|]. split; [exists v; auto|eauto].
    - rewrite HU. assert (EB : e_ltb PInf (s_ub s) = false) by (destruct (s_ub s); reflexivity). rewrite EB. split; [exact Hub|]. split; [left; reflexivity|].
      eexists. split; [apply nth_set_same, Hi|]. unfold ngood. cbn [n_status n_upper n_lower n_part]. split; [|discriminate]. split; [reflexivity|]. split; [exists v; auto|eauto]. }
  destruct (accepted c) eqn:Eac.
  - destruct (is_integer S ids x) eqn:EI; [|exact (HF eq_refl eq_refl)].
    destruct HC as [(_ & HX)|[(_ & HX)|HX]]; [|rewrite (fractional_not_int S ids x HX) in EI; discriminate|discriminate].
    cbn [bind]. rewrite (vset_nat _ _ _ Hi). cbn [bind]. do 2 eexists. split; [reflexivity|]. split; [exact Hok1|]. cbn [s_ub s_opt s_nodes n_upper].
    pose proof (int_near S ids F col x HD HX EI) as HN.
    destruct (e_ltb (Fin v) (s_ub s)) eqn:EB.
    + split; [right; exists v; cbn; auto|]. split.
      { destruct Hub as [Hub|(u & Hu & _)]; [right; left; exact Hub|right; right]. exists v, u. rewrite Hu in EB. cbn in EB. apply ltb_true in EB. split; [reflexivity|split; [assumption|lra]]. }
      eexists. split; [apply nth_set_same, Hi|]. unfold ngood. cbn [n_status n_upper n_lower n_part]. split; [|auto]. left. exists v. repeat split; auto. exists v. split; [reflexivity|lra].
    + destruct Hub as [Hub|(u & Hu & Hub)]; [rewrite Hub in EB; discriminate|]. rewrite Hu in *. cbn in EB. apply ltb_false in EB.
      split; [right; exists u; cbn; auto|]. split; [left; reflexivity|]. eexists. split; [apply nth_set_same, Hi|]. unfold ngood. cbn [n_status n_upper n_lower n_part]. split; [|discriminate]. left. exists v. repeat split; auto. now exists u.
  - rewrite (vset_nat _ _ _ Hi). cbn [bind]. do 2 eexists. split; [reflexivity|]. split; [exact Hok1|]. cbn [s_ub s_opt s_nodes]. split; [exact Hub|]. split; [left; reflexivity|].
    eexists. split; [apply nth_set_same, Hi|]. unfold ngood. cbn [n_status n_upper n_lower n_part]. split; [|auto]. right. auto.
Qed.

Hypothesis Habs : 0 <= b_abs S.
Hypothesis Hlen : length nodes0 = b_max S.
Hypothesis Hmax : (1 <= b_max S)%nat.
Hypothesis Hok0 : okO o0.

Record NInv (s : bstate) (o : O) : Prop := {
  nv_reach : reach s o;
  nv_ok : okO o;
  nv_ub : nubok s;
  nv_good : forall k, (k <= s_iter s)%nat -> exists nd, nth_error (s_nodes s) k = Some nd /\ ngood (s_ub s) nd;
  nv_sel : (s_node s = (-1)%Z /\ forall k nd, (k <= s_iter s)%nat -> nth_error (s_nodes s) k = Some nd -> n_status nd <> SolvedBranchable) \/
           (exists i nd, s_node s = Z.of_nat i /\ (i <= s_iter s)%nat /\ nth_error (s_nodes s) i = Some nd /\ (n_status nd = SolvedBranchable \/ continue S s = false)) }.

Lemma nroot_ok : exists s o, nx_root S O ask ids nodes0 opt0 o0 = Ok (s, o) /\ NInv s o.
Proof.
  destruct (nth_error nodes0 0) as [nd0|] eqn:En; [|apply nth_error_None in En; lia].
  set (s0 := mkB 0 0 (set_nth nodes0 0 (mkNode NotSolved (n_part nd0) NInf PInf)) (repeat (repeat (-1)%Z (length ids)) (b_max S)) opt0 NInf PInf 0).
  assert (H0 : nth_error (s_nodes s0) 0 = Some (mkNode NotSolved (n_part nd0) NInf PInf)) by (cbn [s_nodes s0]; apply nth_set_same; lia).
  assert (H1 : nth_error (s_mat s0) 0 = Some (repeat (-1)%Z (length ids))) by (cbn [s_mat s0]; destruct (b_max S); [lia|reflexivity]).
  assert (HD : dec_ok ids (repeat (-1)%Z (length ids))) by (split; [apply repeat_length|]; intros d Hd; apply repeat_spec in Hd; auto).
  destruct (nupdate_good s0 o0 0 _ _ H0 H1 eq_refl HD (or_introl eq_refl) Hok0) as (s1 & o1 & E1 & Hok1 & Hub & _ & nd1 & Hn & Hg & Hst).
  assert (ER : nx_root S O ask ids nodes0 opt0 o0 = Ok (mkB 0 0 (s_nodes s1) (s_mat s1) (s_opt s1) (n_lower nd1) (n_upper nd1) (s_calls s1), o1)).
  { unfold nx_root. change 0%Z with (Z.of_nat 0) at 1 2. rewrite (vget_nat _ _ _ En). cbn [bind]. rewrite vset_nat by lia. cbn [bind]. fold s0.
    change 0%Z with (Z.of_nat 0) at 1 2. rewrite E1. cbn [bind]. rewrite (vget_nat _ _ _ Hn). reflexivity. }
  do 2 eexists. split; [exact ER|]. split; cbn [s_iter s_node s_nodes s_mat s_opt s_lb s_ub s_calls].
  - now apply nreached_root.
  - exact Hok1.
  - unfold nubok. cbn [s_ub s_opt]. unfold ngood in Hg. destruct (n_status nd1) eqn:Es; [tauto|left; tauto|].
    specialize (Hst eq_refl eq_refl). rewrite <- Hst. exact Hub.
  - intros k Hk. replace k with 0%nat by lia. exists nd1. split; [exact Hn|].
    unfold ngood in *. destruct (n_status nd1); [tauto|tauto|]. destruct Hg as [(l & A & B & D)|Hg]; [left|right; exact Hg]. exists l. repeat split; auto. rewrite B. exists l. split; [reflexivity|lra].
  - right. exists 0%nat, nd1. split; [reflexivity|]. split; [lia|]. split; [exact Hn|]. unfold ngood in Hg. destruct (n_status nd1); [tauto|now left|right].
    unfold continue. cbn [s_ub s_lb s_node s_iter]. destruct Hg as [(l & -> & -> & _)|(-> & ->)]; cbn; [|reflexivity].
    replace (ltb (b_abs S) (l - l)) with false; [reflexivity|]. symmetry. apply ltb_false. lra.
Qed.

Lemma nbody_ok s o : NInv s o -> continue S s = true -> exists s' o', nx_body S O ask ids s o = Ok (s', o') /\ NInv s' o'.
Proof.
  intros [HR Hok Hub HG HS] HC. destruct (nreach_shape s o HR) as [(I1 & I2 & I3 & I4 & I5 & I6 & I7) _].
  destruct (continue_iter S s HC) as [C1 C2]. destruct HS as [[HS _]|(i & nd & Ei & Hi & Hn & Hst)]; [lia|]. destruct Hst as [Hst|]; [|congruence].
  destruct (HG i Hi) as (nd' & Hn' & Hg). rewrite Hn in Hn'. injection Hn' as <-. unfold ngood in Hg. rewrite Hst in Hg. destruct Hg as (HU & (l & HLo) & p & Hp & Hpl).
  destruct (nth_error (s_mat s) i) as [col|] eqn:Hc; [|apply nth_error_None in Hc; lia].
  pose proof (I5 i col Hi Hc) as Hd. set (it := (s_iter s + 1)%nat).
  set (s1 := mkB it (s_node s) (s_nodes s) (s_mat s) (s_opt s) (s_lb s) (s_ub s) (s_calls s)).
  destruct (nth_error (s_nodes s) it) as [nw|] eqn:Enw; [|apply nth_error_None in Enw; unfold it in Enw; lia].
  assert (HB : exists s2, createBranches s1 (s_node s) = Ok s2).
  { unfold createBranches. cbn [s_iter s_nodes s_mat s1]. rewrite Ei. rewrite (vget_nat _ _ _ Hn). cbn [bind]. rewrite (vget_nat _ _ _ Enw). cbn [bind]. rewrite vset_nat by (unfold it; lia). cbn [bind].
    rewrite (vget_nat _ _ _ Hc). cbn [bind]. rewrite Hp. rewrite !(vset_nat col) by (rewrite (proj1 Hd); lia). cbn [bind]. rewrite vset_nat by (unfold it; lia). cbn [bind].
    rewrite vset_nat by (rewrite set_nth_length; unfold it; lia). cbn [bind]. rewrite (vget_nat _ i nd) by (rewrite nth_set_other by (unfold it; lia); exact Hn). cbn [bind].
    rewrite vset_nat by (rewrite set_nth_length; unfold it; lia). eexists. reflexivity. }
  destruct HB as (s2 & EB). pose proof (branch_spec _ _ _ EB ltac:(cbn; unfold it; lia)) as (i' & nd' & col' & p' & A1 & A2 & A3 & A4 & A5 & A6 & A7 & A8 & A9 & A10 & A11 & A12 & A13 & A14 & A15 & A16 & A17).
  cbn [s_iter s_node s_nodes s_mat s_opt s_lb s_ub s_calls s1] in A2, A3, A6, A7, A8, A9, A10, A11, A12, A13, A14, A15, A16, A17.
  rewrite Ei in A1. apply Nat2Z.inj in A1. subst i'. rewrite Hn in A2. injection A2 as <-. rewrite Hc in A3. injection A3 as <-. rewrite Hp in A4. apply Nat2Z.inj in A4. subst p'.
  assert (Hne : i <> it) by (unfold it; lia). destruct (A17 Hne) as [(nd1 & B1 & B2) (nd2 & B3 & B4)].
  assert (M0 : nth_error (s_mat s2) i = Some (set_nth col p 0%Z)) by (rewrite A12; apply nth_set_same; rewrite set_nth_length; unfold it in *; lia).
  assert (M1 : nth_error (s_mat s2) it = Some (set_nth col p 1%Z)) by (rewrite A12, nth_set_other by auto; apply nth_set_same; lia).
  assert (Hub2 : nubok s2) by (unfold nubok in *; rewrite A10, A8; exact Hub).
  destruct (nupdate_good s2 o i nd1 _ B1 M0 ltac:(congruence) ltac:(apply set_dec_ok; auto) Hub2 Hok) as (s3 & o3 & E3 & Hok3 & Hub3 & Hde3 & nd3 & Hn3 & Hg3 & _).
  pose proof (nx_frame _ _ _ _ _ E3) as (F1 & F2 & F3 & F4 & F5 & F6 & (j & Fj & _ & F7)). apply Nat2Z.inj in Fj. subst j.
  assert (N3 : nth_error (s_nodes s3) it = Some nd2) by (rewrite F7 by auto; exact B3).
  assert (M3 : nth_error (s_mat s3) it = Some (set_nth col p 1%Z)) by (rewrite F3; exact M1).
  destruct (nupdate_good s3 o3 it nd2 _ N3 M3 ltac:(congruence) ltac:(apply set_dec_ok; auto) Hub3 Hok3) as (s4 & o4 & E4 & Hok4 & Hub4 & Hde4 & nd4 & Hn4 & Hg4 & _).
  pose proof (nx_frame _ _ _ _ _ E4) as (K1 & K2 & K3 & K4 & K5 & K6 & (j & Kj & _ & K7)). apply Nat2Z.inj in Kj. subst j.
  assert (It : s_iter s4 = it) by congruence.
  assert (EBd : exists s', nx_body S O ask ids s o = Ok (s', o4) /\ s_iter s' = it /\ s_nodes s' = s_nodes s4 /\ s_opt s' = s_opt s4 /\ s_ub s' = s_ub s4 /\ s_node s' = selectNodeToExplore s4).
  { unfold nx_body. fold it. fold s1. rewrite EB. cbn [bind]. rewrite Ei, E3. cbn [bind]. replace (s_iter s3) with it by congruence. rewrite E4. cbn [bind]. eexists. split; [reflexivity|]. cbn. repeat split; auto. }
  destruct EBd as (s' & EBd & S1 & S2 & S4 & S5 & S7). exists s', o4. split; [exact EBd|].
  assert (GG : forall k, (k <= it)%nat -> exists nd, nth_error (s_nodes s4) k = Some nd /\ ngood (s_ub s4) nd).
  { intros k Hk. destruct (Nat.eq_dec k it) as [->|Kit]; [exists nd4; auto|]. destruct (Nat.eq_dec k i) as [->|Ki].
    - exists nd3. rewrite K7 by auto. split; [exact Hn3|]. eapply ngood_mono; eassumption.
    - destruct (HG k ltac:(unfold it in *; lia)) as (ndk & Q1 & Q3). exists ndk. rewrite K7, F7, A16 by auto. split; [exact Q1|].
      eapply ngood_mono; [exact Hde4|]. eapply ngood_mono; [exact Hde3|]. rewrite A10. exact Q3. }
  split.
  - eapply nreached_body; eassumption.
  - exact Hok4.
  - unfold nubok in *. rewrite S4, S5. exact Hub4.
  - intros k Hk. rewrite S1 in Hk. destruct (GG k Hk) as (ndk & Q1 & Q3). exists ndk. rewrite S2, S5. auto.
  - rewrite S1, S2, S7. unfold selectNodeToExplore. rewrite It. destruct (best_spec (firstn (it + 1) (s_nodes s4)) 0 (-1) PInf) as [[E HA]|(w & ndw & E & W1 & W2)].
    + left. split; [exact E|]. intros k ndk Hk Q Hs. pose proof (HA ndk ltac:(apply (firstn_nth _ _ k); [exact Q|lia]) Hs) as Hf.
      destruct (GG k Hk) as (nd' & Q1 & Q3). rewrite Q in Q1. injection Q1 as <-. unfold ngood in Q3. rewrite Hs in Q3. destruct Q3 as (_ & (l' & El) & _). rewrite El in Hf. discriminate.
    + right. apply nth_firstn in W1 as [W1 Ww]. exists w, ndw. split; [rewrite E; lia|]. split; [lia|]. auto.
Qed.

Lemma nloop_ok : forall fuel s o, NInv s o -> (b_max S <= s_iter s + fuel)%nat -> exists s' o', nx_loop S O ask ids fuel s o = Ok (s', o') /\ NInv s' o' /\ continue S s' = false.
Proof.
  induction fuel as [|f IH]; intros s o HI Hf; cbn [nx_loop].
  - destruct (continue S s) eqn:E; [|eauto]. apply continue_iter in E. lia.
  - destruct (continue S s) eqn:E; [|eauto]. destruct (nbody_ok s o HI E) as (s' & o' & EB & HI'). rewrite EB. cbn [bind]. apply IH; [exact HI'|].
    apply nbody_inv in EB as (i & nd & col & p & _ & _ & _ & _ & _ & Eit & _). lia.
Qed.
End P.

(** ** A node solver without memory: the search of BnBSolver *)
Section Plain.
Variables (S : bset) (relax : nat -> list Z -> exitcode * (nat -> R)) (ids : list nat) (cost : (nat -> R) -> R).
Definition plain_ask (k : nat) (dec : list Z) : exitcode * (nat -> R) * R * nat := (fst (relax k dec), snd (relax k dec), cost (snd (relax k dec)), (k + 1)%nat).
Definition with_calls (r : res bstate) : res (bstate * nat) := bind r (fun s => Ok (s, s_calls s)).
Lemma plain_update s id : nx_update S nat plain_ask ids s (s_calls s) id = with_calls (updateNodeBounds S relax ids cost s id).
Proof.
  unfold nx_update, updateNodeBounds, with_calls, plain_ask. destruct (vget (s_mat s) id) as [dec| |]; [cbn [bind]|reflexivity|reflexivity].
  destruct (updateProblemData dec); [cbn [bind]|reflexivity|reflexivity]. destruct (vget (s_nodes s) id) as [nd| |]; [cbn [bind]|reflexivity|reflexivity].
  destruct (relax (s_calls s) dec) as [c x]. cbn [fst snd]. destruct (accepted c).
  - destruct (is_integer S ids x).
    + cbn [bind]. destruct (vset _ id _); reflexivity.
    + destruct (updateProblemData (rounded ids x)); [cbn [bind]|reflexivity|reflexivity]. destruct (relax (s_calls s + 1) (rounded ids x)) as [c2 x2]. cbn [fst snd bind].
      rewrite <- Nat.add_assoc. destruct (vset _ id _); reflexivity.
  - destruct (vset _ id _); reflexivity.
Qed.
Lemma plain_root nodes0 opt0 : nx_root S nat plain_ask ids nodes0 opt0 0%nat = with_calls (bnb_root S relax ids cost nodes0 opt0 0%nat).
Proof.
  unfold nx_root, bnb_root, with_calls. destruct (vget nodes0 0) as [nd| |]; [cbn [bind]|reflexivity|reflexivity]. destruct (vset nodes0 0 _) as [nodes| |]; [cbn [bind]|reflexivity|reflexivity].
  pose proof (plain_update (mkB 0 0 nodes (repeat (repeat (-1)%Z (length ids)) (b_max S)) opt0 NInf PInf 0) 0) as E. cbn [s_calls] in E. rewrite E. unfold with_calls.
  destruct (updateNodeBounds _ _ _ _ _ _) as [s| |]; [cbn [bind]|reflexivity|reflexivity]. destruct (vget (s_nodes s) 0); reflexivity.
Qed.
Lemma plain_body s : nx_body S nat plain_ask ids s (s_calls s) = with_calls (bnb_body S relax ids cost s).
Proof.
  unfold nx_body, bnb_body, with_calls. destruct (createBranches _ (s_node s)) as [s2| |] eqn:EB; [cbn [bind]|reflexivity|reflexivity].
  assert (E2 : s_calls s2 = s_calls s).
  { unfold createBranches in EB. repeat (apply bind_ok in EB as (? & _ & EB)). injection EB as <-. reflexivity. }
  rewrite <- E2, plain_update. unfold with_calls. destruct (updateNodeBounds _ _ _ _ s2 _) as [s3| |]; [cbn [bind]|reflexivity|reflexivity].
  rewrite plain_update. unfold with_calls. destruct (updateNodeBounds _ _ _ _ s3 _) as [s4| |]; [cbn [bind]|reflexivity|reflexivity]. reflexivity.
Qed.
Lemma plain_loop : forall fuel s, nx_loop S nat plain_ask ids fuel s (s_calls s) = with_calls (bnb_loop S relax ids cost fuel s).
Proof.
  induction fuel as [|f IH]; intros s; cbn [nx_loop bnb_loop].
  - destruct (continue S s); reflexivity.
  - destruct (continue S s); [|reflexivity]. rewrite plain_body. unfold with_calls at 1. destruct (bnb_body S relax ids cost s) as [s'| |]; [cbn [bind]|reflexivity|reflexivity]. apply IH.
Qed.
Lemma plain_optimize nodes0 opt0 : nx_optimize S nat plain_ask ids nodes0 opt0 0%nat = bind (bnb_optimize S relax ids cost nodes0 opt0 0%nat) (fun '(c, x, n) => Ok (c, x, n, n)).
Proof.
  unfold nx_optimize, bnb_optimize. rewrite plain_root. unfold with_calls. destruct (bnb_root _ _ _ _ _ _ _) as [s| |]; [cbn [bind]|reflexivity|reflexivity].
  rewrite plain_loop. unfold with_calls. destruct (bnb_loop _ _ _ _ _ _); reflexivity.
Qed.
End Plain.

(** * Branch and bound: soundness for exact relaxation solvers *)
From Coq Require Import Reals List Arith ZArith Bool Lia Lra.
From Verif Require Import Base BaseProofs IpModel BnbModel BnbSpec BnbProofs BnbProofs2.
Import ListNotations.
Open Scope R_scope.

Section P.
Variable S : bset.
Variable relax : nat -> list Z -> exitcode * (nat -> R).
Variable ids : list nat.
Variable cost : (nat -> R) -> R.
Variable F : (nat -> R) -> Prop.
Hypothesis Htol : 0 < b_tol S.
Hypothesis HO : exact_relaxation F ids cost (b_tol S) relax.
Notation tol := (b_tol S).

Definition ubok (s : bstate) : Prop := s_ub s = PInf \/ exists u, s_ub s = Fin u /\ cost (s_opt s) = u /\ near_binary F ids tol (s_opt s).
Definition e_le_fin (a : eR) (l : R) : Prop := exists u, a = Fin u /\ u <= l.
Definition good (ub : eR) (nd : node) (dec : list Z) : Prop :=
  match n_status nd with
  | SolvedBranchable => n_upper nd = PInf /\ (exists l, n_lower nd = Fin l /\ forall y, restrict F ids dec y -> l <= cost y) /\ exists p, n_part nd = Z.of_nat p /\ (p < length ids)%nat
  | SolvedNonBranchable => (exists l, n_lower nd = Fin l /\ n_upper nd = Fin l /\ (forall y, restrict F ids dec y -> l <= cost y) /\ e_le_fin ub l) \/
                           (n_lower nd = PInf /\ n_upper nd = PInf /\ forall y, ~ restrict F ids dec y)
  | NotSolved => False
  end.
(** The upper bound only decreases. *)
Definition e_dec (a b : eR) : Prop := a = b \/ b = PInf \/ exists x y, a = Fin x /\ b = Fin y /\ x <= y.
Lemma good_mono ub ub' nd dec : e_dec ub' ub -> good ub nd dec -> good ub' nd dec.
Proof.
  unfold good. intros H. destruct (n_status nd); auto. intros [(l & A & B & C & u & E & D)|H']; [left|right; auto].
  exists l. do 3 (split; [assumption|]). destruct H as [->|[->|(x & y & -> & H & H2)]]; [now exists u|discriminate|]. exists x. split; [reflexivity|]. rewrite E in H. injection H as ->. lra.
Qed.
Lemma e_dec_trans a b c : e_dec a b -> e_dec b c -> e_dec a c.
Proof.
  intros [->|[->|(x & y & -> & -> & H)]] H2; auto.
  - destruct H2 as [<-|[->|(x & y & E & _)]]; [now right; left|now right; left|discriminate].
  - destruct H2 as [<-|[->|(x' & y' & E & -> & H2)]]; [right; right; eauto|now right; left|]. injection E as <-. right; right. exists x, y'. repeat split; lra.
Qed.

Lemma box_unit dec x : dec_ok ids dec -> in_box ids dec x -> forall i, In i ids -> 0 <= x i <= 1.
Proof.
  intros [HL HD] HB i Hi. apply In_nth_error in Hi as [v Hv]. destruct (nth_error dec v) as [d|] eqn:E.
  - destruct (HB v i d Hv E) as (A & B & C). destruct (HD d (nth_error_In _ _ E)) as [->|[->| ->]]; [rewrite A by auto|rewrite B by auto|apply C; auto]; lra.
  - apply nth_error_None in E. assert (v < length ids)%nat by (apply nth_error_Some; congruence). lia.
Qed.
Lemma int_near dec x : dec_ok ids dec -> restrict F ids dec x -> is_integer S ids x = true -> near_binary F ids tol x.
Proof.
  intros HD [HF HB] HI. split; [exact HF|]. intros i Hi. pose proof (box_unit dec x HD HB i Hi) as Hu. split; [exact Hu|].
  unfold is_integer in HI. rewrite forallb_forall in HI. specialize (HI i Hi). apply ltb_true in HI.
  destruct (round_01 (x i) ltac:(lra)) as [[E _]|[E _]]; rewrite E in HI; [left|right; exact HI]. replace (x i) with (x i - 0) by ring. exact HI.
Qed.
Lemma not_int x : is_integer S ids x = false -> ids <> [].
Proof. intros H ->. discriminate. Qed.
Lemma fractional_not_int x : clearly_fractional ids tol x -> is_integer S ids x = false.
Proof.
  intros [(i & Hi & Hz) _]. destruct (is_integer S ids x) eqn:E; [|reflexivity]. unfold is_integer in E. rewrite forallb_forall in E.
  specialize (E i Hi). apply ltb_true in E. specialize (Hz (round_ (x i))). lra.
Qed.
Lemma part_ok x part : (forall i, In i ids -> - / 2 < x i < 3 / 2) -> ids <> [] -> exists p, select_part ids 0 x 1 part = Z.of_nat p /\ (p < length ids)%nat.
Proof.
  intros H Hne. destruct (select_range ids 0 x 1 part) as [(w & Hw & E & _)|[_ HA]]; [exists w; split; [exact E|exact Hw]|].
  destruct ids as [|i l] eqn:Ei; [congruence|]. specialize (HA i (or_introl eq_refl)). specialize (H i (or_introl eq_refl)). 
  exfalso. assert (Rabs (x i - / 2) < 1) by (apply Rabs_def1; lra). lra.
Qed.
Lemma rounded_ok x : (forall i, In i ids -> - / 2 < x i < 3 / 2) -> length (rounded ids x) = length ids /\ forall d, In d (rounded ids x) -> d = 0%Z \/ d = 1%Z.
Proof.
  intros H. unfold rounded. split; [apply map_length|]. intros d Hd. apply in_map_iff in Hd as (i & <- & Hi). destruct (round_01 (x i) (H i Hi)) as [[E _]|[E _]]; auto.
Qed.
Lemma rounded_binary x y : (forall i, In i ids -> - / 2 < x i < 3 / 2) -> restrict F ids (rounded ids x) y -> near_binary F ids tol y.
Proof.
  intros H [HF HB]. split; [exact HF|]. intros i Hi. apply In_nth_error in Hi as [v Hv]. assert (E : nth_error (rounded ids x) v = Some (round_ (x i))) by (unfold rounded; exact (map_nth_error (fun i => round_ (x i)) _ _ Hv)).
  destruct (HB v i _ Hv E) as (A & B & _). destruct (round_01 (x i) (H i (nth_error_In _ _ Hv))) as [[R _]|[R _]].
  - rewrite B by exact R. split; [lra|]. left. rewrite Rabs_R0. exact Htol.
  - rewrite A by exact R. split; [lra|]. right. replace (1 - 1) with 0 by ring. rewrite Rabs_R0. exact Htol.
Qed.

Lemma e_ltb_fin_pinf a : e_ltb (Fin a) PInf = true.
Proof. reflexivity. Qed.

Lemma update_good s i nd col : nth_error (s_nodes s) i = Some nd -> nth_error (s_mat s) i = Some col -> n_upper nd = PInf -> dec_ok ids col -> ubok s ->
  exists s', updateNodeBounds S relax ids cost s (Z.of_nat i) = Ok s' /\ ubok s' /\ e_dec (s_ub s') (s_ub s) /\
    exists nd', nth_error (s_nodes s') i = Some nd' /\ good (s_ub s') nd' col /\ (s_ub s = PInf -> n_status nd' = SolvedNonBranchable -> s_ub s' = n_upper nd').
Proof.
  intros Hn Hm HU HD Hub. assert (Hi : (i < length (s_nodes s))%nat) by (apply nth_error_Some; congruence).
  unfold updateNodeBounds. rewrite (vget_nat _ _ _ Hm). cbn [bind]. rewrite (upd_data_ok col (proj2 HD)). cbn [bind]. rewrite (vget_nat _ _ _ Hn). cbn [bind].
  pose proof (HO (s_calls s) col (proj1 HD) (proj2 HD)) as HR. destruct (relax (s_calls s) col) as [c x] eqn:ER. cbn [fst snd] in HR.
  (* the three possible answers *)
  assert (HC : (accepted c = true /\ restrict F ids col x /\ forall y, restrict F ids col y -> cost x <= cost y) \/
               (accepted c = true /\ (forall y, ~ restrict F ids col y) /\ clearly_fractional ids tol x) \/ (accepted c = false /\ forall y, ~ restrict F ids col y)).
  { destruct c; cbn; tauto. }
  clear HR. destruct HC as [(-> & HX & HM)|[(-> & HE & HX)|(-> & HE)]].
  - destruct (is_integer S ids x) eqn:EI.
    + cbn [bind]. rewrite (vset_nat _ _ _ Hi). cbn [bind]. eexists. split; [reflexivity|]. cbn [s_ub s_opt s_nodes n_upper].
      pose proof (int_near col x HD HX EI) as HN.
      destruct (e_ltb (Fin (cost x)) (s_ub s)) eqn:EB.
      * split; [right; exists (cost x); cbn; auto|]. split.
        { destruct Hub as [Hub|(u & Hu & _)]; [right; left; exact Hub|right; right]. exists (cost x), u. rewrite Hu in EB. cbn in EB. apply ltb_true in EB. split; [reflexivity|split; [assumption|lra]]. }
        eexists. split; [apply nth_set_same, Hi|]. cbn. split; [|auto]. left. exists (cost x). repeat split; auto. exists (cost x). split; [reflexivity|lra].
      * destruct Hub as [Hub|(u & Hu & Hub)]; [rewrite Hub in EB; discriminate|]. rewrite Hu in *. cbn in EB. apply ltb_false in EB.
        split; [right; exists u; cbn; auto|]. split; [left; reflexivity|]. eexists. split; [apply nth_set_same, Hi|]. cbn. split; [|discriminate]. left. exists (cost x). repeat split; auto. now exists u.
    + assert (HB : forall i, In i ids -> - / 2 < x i < 3 / 2) by (intros k Hk; pose proof (box_unit col x HD (proj2 HX) k Hk); lra).
      pose proof (rounded_ok x HB) as [HL HRd]. rewrite upd_data_ok by (intros d Hd; destruct (HRd d Hd); auto). cbn [bind].
      destruct (part_ok x (n_part nd) HB (not_int x EI)) as (p & Ep & Hp).
      pose proof (HO (s_calls s + 1)%nat (rounded ids x) HL ltac:(intros d Hd; destruct (HRd d Hd); auto)) as HR2. destruct (relax (s_calls s + 1) (rounded ids x)) as [c2 x2]. cbn [fst snd] in HR2.
      cbn [bind]. rewrite (vset_nat _ _ _ Hi). cbn [bind]. eexists. split; [reflexivity|]. cbn [s_ub s_opt s_nodes n_upper n_status n_part n_lower].
      destruct (optimal c2) eqn:Eo.
      * assert (HN : near_binary F ids tol x2) by (destruct c2; try discriminate; apply (rounded_binary x); tauto).
        destruct (e_ltb (Fin (cost x2)) (s_ub s)) eqn:EB.
        -- split; [right; exists (cost x2); cbn; auto|]. split.
           { destruct Hub as [Hub|(u & Hu & _)]; [right; left; exact Hub|right; right]. exists (cost x2), u. rewrite Hu in EB. cbn in EB. apply ltb_true in EB. split; [reflexivity|split; [assumption|lra]]. }
           eexists. split; [apply nth_set_same, Hi|]. cbn. split; [|discriminate]. split; [reflexivity|]. split; [exists (cost x); auto|eauto].
        -- split; [exact Hub|]. split; [left; reflexivity|]. eexists. split; [apply nth_set_same, Hi|]. cbn. split; [|discriminate]. split; [reflexivity|]. split; [exists (cost x); auto|eauto].
      * rewrite HU. assert (EB : e_ltb PInf (s_ub s) = false) by (destruct (s_ub s); reflexivity). rewrite EB. split; [exact Hub|]. split; [left; reflexivity|].
        eexists. split; [apply nth_set_same, Hi|]. cbn. split; [|discriminate]. split; [reflexivity|]. split; [exists (cost x); auto|eauto].
  - rewrite (fractional_not_int x HX). pose proof (fractional_not_int x HX) as EI. destruct HX as [_ HB].
      pose proof (rounded_ok x HB) as [HL HRd]. rewrite upd_data_ok by (intros d Hd; destruct (HRd d Hd); auto). cbn [bind].
      destruct (part_ok x (n_part nd) HB (not_int x EI)) as (p & Ep & Hp).
      pose proof (HO (s_calls s + 1)%nat (rounded ids x) HL ltac:(intros d Hd; destruct (HRd d Hd); auto)) as HR2. destruct (relax (s_calls s + 1) (rounded ids x)) as [c2 x2]. cbn [fst snd] in HR2.
      cbn [bind]. rewrite (vset_nat _ _ _ Hi). cbn [bind]. eexists. split; [reflexivity|]. cbn [s_ub s_opt s_nodes n_upper n_status n_part n_lower].
      assert (HM : forall y, restrict F ids col y -> cost x <= cost y) by (intros y Hy; destruct (HE y Hy)).
      destruct (optimal c2) eqn:Eo.
      * assert (HN : near_binary F ids tol x2) by (destruct c2; try discriminate; apply (rounded_binary x); tauto).
        destruct (e_ltb (Fin (cost x2)) (s_ub s)) eqn:EB.
        -- split; [right; exists (cost x2); cbn; auto|]. split.
           { destruct Hub as [Hub|(u & Hu & _)]; [right; left; exact Hub|right; right]. exists (cost x2), u. rewrite Hu in EB. cbn in EB. apply ltb_true in EB. split; [reflexivity|split; [assumption|lra]]. }
           eexists. split; [apply nth_set_same, Hi|]. cbn. split; [|discriminate]. split; [reflexivity|]. split; [exists (cost x); auto|eauto].
        -- split; [exact Hub|]. split; [left; reflexivity|]. eexists. split; [apply nth_set_same, Hi|]. cbn. split; [|discriminate]. split; [reflexivity|]. split; [exists (cost x); auto|eauto].
      * rewrite HU. assert (EB : e_ltb PInf (s_ub s) = false) by (destruct (s_ub s); reflexivity). rewrite EB. split; [exact Hub|]. split; [left; reflexivity|].
        eexists. split; [apply nth_set_same, Hi|]. cbn. split; [|discriminate]. split; [reflexivity|]. split; [exists (cost x); auto|eauto].
  - rewrite (vset_nat _ _ _ Hi). cbn [bind]. eexists. split; [reflexivity|]. cbn [s_ub s_opt s_nodes]. split; [exact Hub|]. split; [left; reflexivity|].
    eexists. split; [apply nth_set_same, Hi|]. cbn. split; [|auto]. right. auto.
Qed.
End P.

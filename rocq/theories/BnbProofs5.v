(** * Branch and bound: the nodes partition the assignments when relaxations respect fixed binaries *)
From Coq Require Import Reals List Arith ZArith Bool Lia Lra.
From Verif Require Import Base BaseProofs IpModel BnbModel BnbSpec BnbProofs BnbProofs2 BnbProofs3 BnbProofs4.
Import ListNotations.
Open Scope R_scope.

Section P.
Variable S : bset.
Variable relax : nat -> list Z -> exitcode * (nat -> R).
Variable ids : list nat.
Variable cost : (nat -> R) -> R.
Variable nodes0 : list node.
Variable opt0 : nat -> R.
Variable calls0 : nat.
Notation reach := (reached S relax ids cost nodes0 opt0 calls0).
Hypothesis Htol : 0 < b_tol S.
Hypothesis HB : forall k dec, length dec = length ids -> accepted (fst (relax k dec)) = true -> in_box ids dec (snd (relax k dec)).

Definition free_part (nd : node) (col : list Z) : Prop := n_status nd = SolvedBranchable -> forall p, n_part nd = Z.of_nat p -> (p < length col)%nat -> nth_error col p = Some (-1)%Z.

Lemma frac_unfixed dec x part p : dec_ok ids dec -> in_box ids dec x -> is_integer S ids x = false -> select_part ids 0 x 1 part = Z.of_nat p -> nth_error dec p = Some (-1)%Z.
Proof.
  intros HD Hb Hi Hp. assert (exists i, In i ids /\ b_tol S <= Rabs (x i - IZR (round_ (x i)))) as (i & Hin & Hfr).
  { unfold is_integer in Hi. clear Hp. revert Hi. generalize ids as l. induction l as [|j l IH]; cbn; [discriminate|]. intros H. apply andb_false_iff in H as [H|H].
    - apply ltb_false in H. exists j. auto.
    - destruct (IH H) as (i & H1 & H2). exists i. auto. }
  assert (Hu : 0 <= x i <= 1) by (apply (box_unit ids dec x HD Hb i Hin)).
  assert (Hs : Rabs (x i - / 2) < / 2).
  { assert (x i <> 0) by (intros E; rewrite E, round_zero in Hfr by lra; replace (0 - 0) with 0 in Hfr by ring; rewrite Rabs_R0 in Hfr; lra).
    assert (x i <> 1) by (intros E; rewrite E, round_one in Hfr by lra; replace (1 - 1) with 0 in Hfr by ring; rewrite Rabs_R0 in Hfr; lra).
    apply Rabs_def1; lra. }
  destruct (select_range ids 0 x 1 part) as [(w & Hw & E & j & Hj & _ & Hmin)|[_ HA]]; [|specialize (HA i Hin); lra].
  rewrite Hp in E. apply Nat2Z.inj in E. cbn in E. subst w. specialize (Hmin i Hin).
  destruct (nth_error dec p) as [d|] eqn:Ed; [|apply nth_error_None in Ed; rewrite (proj1 HD) in Ed; lia].
  destruct (Hb p j d Hj Ed) as (B1 & B0 & _). destruct (proj2 HD d (nth_error_In _ _ Ed)) as [-> |[-> | ->]]; [| |reflexivity]; exfalso.
  - rewrite B1 in Hmin by reflexivity. replace (1 - / 2) with (/ 2) in Hmin by lra. rewrite Rabs_pos_eq in Hmin by lra. lra.
  - rewrite B0 in Hmin by reflexivity. replace (0 - / 2) with (- / 2) in Hmin by lra. rewrite Rabs_Ropp, Rabs_pos_eq in Hmin by lra. lra.
Qed.

Lemma update_part s i col s' : updateNodeBounds S relax ids cost s (Z.of_nat i) = Ok s' -> nth_error (s_mat s) i = Some col -> dec_ok ids col ->
  exists nd', nth_error (s_nodes s') i = Some nd' /\ free_part nd' col.
Proof.
  intros H Hc HD. unfold updateNodeBounds in H. rewrite (vget_nat _ _ _ Hc) in H. cbn [bind] in H. apply bind_ok in H as (u & _ & H). apply bind_ok in H as (nd & H3 & H).
  pose proof (HB (s_calls s) col (proj1 HD)) as Hb. destruct (relax (s_calls s) col) as [c x] eqn:ER. cbn [fst snd] in Hb. destruct (accepted c).
  - specialize (Hb eq_refl). apply bind_ok in H as ([[[nd' last] viable] calls] & H4 & H). apply bind_ok in H as (nodes & H5 & H). injection H as <-. cbn [s_nodes].
    apply vset_inv in H5 as (j & Ej & Hj & ->). apply Nat2Z.inj in Ej. subst j. eexists. split; [apply nth_set_same, Hj|].
    destruct (is_integer S ids x) eqn:EI.
    + injection H4 as <- <- <- <-. intros Hs. discriminate.
    + apply bind_ok in H4 as (v & _ & H4). destruct (relax (s_calls s + 1) (rounded ids x)). injection H4 as <- <- <- <-. 
      intros _ p Hp _. destruct (optimal e); cbn in Hp; eapply frac_unfixed; eassumption.
  - apply bind_ok in H as (nodes & H5 & H). injection H as <-. cbn [s_nodes]. apply vset_inv in H5 as (j & Ej & Hj & ->). apply Nat2Z.inj in Ej. subst j. eexists. split; [apply nth_set_same, Hj|].
    intros Hs. discriminate.
Qed.

Record Part (s : bstate) : Prop := mkPart {
  pt_disj : forall a k k' col col', (k <= s_iter s)%nat -> (k' <= s_iter s)%nat -> nth_error (s_mat s) k = Some col -> nth_error (s_mat s) k' = Some col' -> agrees a col -> agrees a col' -> k = k';
  pt_free : forall k nd col, (k <= s_iter s)%nat -> nth_error (s_nodes s) k = Some nd -> nth_error (s_mat s) k = Some col -> free_part nd col;
  pt_sel : forall i nd, s_node s = Z.of_nat i -> nth_error (s_nodes s) i = Some nd -> n_status nd = SolvedBranchable \/ s_iter s = 0%nat }.

Lemma part_reach s : reach s -> Part s.
Proof.
  induction 1 as [s H|s s' HR IH HC HBd].
  - pose proof (root_inv _ _ _ _ _ _ _ _ H) as (E1 & E2 & E3 & E4 & E5 & E6 & E7).
    assert (Hcol : forall k col, nth_error (s_mat s) k = Some col -> col = repeat (-1)%Z (length ids)) by (intros k col Hc; rewrite E3 in Hc; eapply repeat_spec, nth_error_In, Hc).
    split.
    + intros. rewrite E1 in *. lia.
    + intros k nd col _ _ Hc _ p _ Hp. rewrite (Hcol k col Hc) in *. rewrite nth_error_repeat; [reflexivity|]. now rewrite repeat_length in Hp.
    + auto.
  - destruct (reach_shape _ _ _ _ _ _ _ s HR) as [(I1 & I2 & I3 & I4 & I5 & I6 & I7) _]. destruct (continue_iter S s HC) as [C1 C2].
    unfold bnb_body in HBd. apply bind_ok in HBd as (s2 & EB & HBd). apply bind_ok in HBd as (s3 & E3 & HBd). apply bind_ok in HBd as (s4 & E4 & HBd). injection HBd as <-.
    pose proof (branch_spec _ _ _ EB ltac:(cbn; lia)) as (i & nd & col & p & A1 & A2 & A3 & A4 & A5 & A6 & A7 & A8 & A9 & A10 & A11 & A12 & A13 & A14 & A15 & A16 & A17).
    set (it := (s_iter s + 1)%nat) in *. cbn [s_iter s_node s_nodes s_mat s_opt s_lb s_ub s_calls] in A2, A3, A6, A7, A8, A9, A10, A11, A12, A13, A14, A15, A16, A17.
    assert (Hi : (i <= s_iter s)%nat) by (destruct (reach_shape _ _ _ _ _ _ _ s HR) as [_ Hn]; lia). assert (Hne : i <> it) by (unfold it; lia).
    pose proof (I5 i col Hi A3) as Hd.
    assert (Hfree : nth_error col p = Some (-1)%Z).
    { destruct (pt_sel _ IH i nd A1 A2) as [Hs|H0]; [exact (pt_free _ IH i nd col Hi A2 A3 Hs p A4 A5)|].
      clear - HR H0 A3 A5 Hi. inversion HR as [s0 H|s0 s1 HR0 HC0 HB0]; subst.
      - apply root_inv in H as (_ & _ & E3 & _). rewrite E3 in A3. apply nth_error_In, repeat_spec in A3. subst col. rewrite repeat_length in A5. now apply nth_error_repeat.
      - apply body_inv in HB0 as (i0 & nd0 & col0 & p0 & _ & _ & _ & _ & _ & Eit & _). lia. }
    rewrite A1 in E3. 
    assert (M0 : nth_error (s_mat s2) i = Some (set_nth col p 0%Z)) by (rewrite A12; apply nth_set_same; rewrite set_nth_length; unfold it in *; lia).
    assert (M1 : nth_error (s_mat s2) it = Some (set_nth col p 1%Z)) by (rewrite A12, nth_set_other by auto; apply nth_set_same; lia).
    destruct (update_part s2 i _ s3 E3 M0 ltac:(apply set_dec_ok; auto)) as (nd3 & N3 & P3).
    pose proof (update_frame _ _ _ _ _ _ _ E3) as (F1 & F2 & F3 & F4 & F5 & F6 & (j & Fj & _ & F7)). apply Nat2Z.inj in Fj. subst j.
    replace (s_iter s3) with it in E4 by congruence.
    destruct (update_part s3 it _ s4 E4 ltac:(rewrite F3; exact M1) ltac:(apply set_dec_ok; auto)) as (nd4 & N4 & P4).
    pose proof (update_frame _ _ _ _ _ _ _ E4) as (K1 & K2 & K3 & K4 & K5 & K6 & (j & Kj & _ & K7)). apply Nat2Z.inj in Kj. subst j.
    assert (It : s_iter s4 = it) by congruence.
    assert (MM : s_mat s4 = s_mat s2) by congruence. rewrite A12 in MM.
    split; cbn [s_iter s_node s_nodes s_mat].
    + rewrite It, MM. intros a k k' c c' Hk Hk' Hc Hc' Ha Ha'.
      apply (fun H => nth_mid _ _ _ _ _ _ _ H Hne) in Hc. apply (fun H => nth_mid _ _ _ _ _ _ _ H Hne) in Hc'.
      assert (Sup : forall d, agrees a (set_nth col p d) -> agrees a col).
      { intros d [L1 L2]. rewrite set_nth_length in L1. split; [exact L1|]. intros v e Hv. destruct (Nat.eq_dec v p) as [->|Hvp]; [left; congruence|]. apply L2. now rewrite nth_set_other by auto. }
      assert (X01 : agrees a (set_nth col p 0%Z) -> agrees a (set_nth col p 1%Z) -> False).
      { intros U V. apply agrees_set_inv in U; [|auto|lia]. apply agrees_set_inv in V; [|auto|lia]. congruence. }
      destruct Hc as [[-> ->]|[[-> ->]|(D1 & D2 & Hc)]]; destruct Hc' as [[-> ->]|[[-> ->]|(D1' & D2' & Hc')]]; try reflexivity; try (exfalso; now auto).
      * exfalso. apply D1'. symmetry. apply (pt_disj _ IH a i k' col c'); auto; [unfold it in *; lia|eapply Sup; eassumption].
      * exfalso. apply D1'. symmetry. apply (pt_disj _ IH a i k' col c'); auto; [unfold it in *; lia|eapply Sup; eassumption].
      * exfalso. apply D1. apply (pt_disj _ IH a k i c col); auto; [unfold it in *; lia|eapply Sup; eassumption].
      * exfalso. apply D1. apply (pt_disj _ IH a k i c col); auto; [unfold it in *; lia|eapply Sup; eassumption].
      * apply (pt_disj _ IH a k k' c c'); auto; unfold it in *; lia.
    + rewrite It, MM. intros k ndk c Hk Hn Hc. apply (fun H => nth_mid _ _ _ _ _ _ _ H Hne) in Hc. destruct Hc as [[-> ->]|[[-> ->]|(D1 & D2 & Hc)]].
      * rewrite K7 in Hn by auto. rewrite N3 in Hn. injection Hn as <-. exact P3.
      * rewrite N4 in Hn. injection Hn as <-. exact P4.
      * rewrite K7, F7, A16 in Hn by auto. apply (pt_free _ IH k); auto. unfold it in *. lia.
    + intros i' nd' Hsel Hn. left. unfold selectNodeToExplore in Hsel. cbn [s_iter s_nodes] in Hsel.
      destruct (best_spec (firstn (s_iter s4 + 1) (s_nodes s4)) 0 (-1) PInf) as [[E _]|(w & ndw & E & W1 & W2)]; [rewrite E in Hsel; lia|].
      rewrite E in Hsel. assert (w = i') by lia. subst w. apply nth_firstn in W1 as [W1 _]. congruence.
Qed.
End P.

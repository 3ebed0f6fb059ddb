(** * Lemmas for branch and bound *)
From Coq Require Import Reals List Arith ZArith Bool Lia Lra.
From Verif Require Import Base BaseProofs IpModel BnbModel BnbSpec.
Import ListNotations.
Open Scope R_scope.

Lemma ltb_true a b : ltb a b = true <-> a < b.
Proof. unfold ltb. destruct (Rlt_dec a b); intuition congruence. Qed.
Lemma ltb_false a b : ltb a b = false <-> b <= a.
Proof. unfold ltb. destruct (Rlt_dec a b); split; intros; try congruence; lra. Qed.
Lemma eqb_true a b : eqb a b = true <-> a = b.
Proof. unfold eqb. destruct (Req_EM_T a b); intuition congruence. Qed.

Lemma vget_nat {A} (l : list A) i a : nth_error l i = Some a -> vget l (Z.of_nat i) = Ok a.
Proof. intros H. unfold vget. replace (0 <=? Z.of_nat i)%Z with true by (symmetry; apply Z.leb_le; lia). now rewrite Nat2Z.id, H. Qed.
Lemma vget_inv {A} (l : list A) z a : vget l z = Ok a -> exists i, z = Z.of_nat i /\ nth_error l i = Some a.
Proof.
  unfold vget. destruct (Z.leb_spec 0 z); [|discriminate]. destruct (nth_error l (Z.to_nat z)) eqn:E; [|discriminate].
  intros [= ->]. exists (Z.to_nat z). split; [lia|exact E].
Qed.
Lemma vset_nat {A} (l : list A) i a : (i < length l)%nat -> vset l (Z.of_nat i) a = Ok (set_nth l i a).
Proof.
  intros H. unfold vset. replace ((0 <=? Z.of_nat i) && (Z.of_nat i <? Z.of_nat (length l)))%Z with true by (symmetry; apply andb_true_iff; split; [apply Z.leb_le|apply Z.ltb_lt]; lia).
  now rewrite Nat2Z.id.
Qed.
Lemma vset_inv {A} (l : list A) z a l' : vset l z a = Ok l' -> exists i, z = Z.of_nat i /\ (i < length l)%nat /\ l' = set_nth l i a.
Proof.
  unfold vset. destruct (Z.leb_spec 0 z); [|discriminate]. destruct (Z.ltb_spec z (Z.of_nat (length l))); [|discriminate]. cbn.
  intros [= <-]. exists (Z.to_nat z). split; [lia|]. split; [lia|reflexivity].
Qed.
Lemma set_nth_length {A} (l : list A) i a : length (set_nth l i a) = length l.
Proof. revert i; induction l; intros [|i]; cbn; auto. Qed.
Lemma nth_set_same {A} (l : list A) i a : (i < length l)%nat -> nth_error (set_nth l i a) i = Some a.
Proof. revert i; induction l; intros [|i] H; cbn in *; try lia; auto. apply IHl; lia. Qed.
Lemma nth_set_other {A} (l : list A) i j a : j <> i -> nth_error (set_nth l i a) j = nth_error l j.
Proof. revert i j; induction l; intros [|i] [|j] H; cbn in *; try congruence; auto. Qed.
Lemma bind_ok {A B} (x : res A) (f : A -> res B) b : bind x f = Ok b -> exists a, x = Ok a /\ f a = Ok b.
Proof. destruct x; cbn; try discriminate. eauto. Qed.

(** std::round *)
Lemma Int_part_bounds r : IZR (Int_part r) <= r < IZR (Int_part r) + 1.
Proof. destruct (base_Int_part r). lra. Qed.
Lemma Int_part_eq r z : IZR z <= r < IZR z + 1 -> Int_part r = z.
Proof.
  intros H. pose proof (Int_part_bounds r). assert (IZR z < IZR (Int_part r) + 1) by lra. assert (IZR (Int_part r) < IZR z + 1) by lra.
  rewrite <- plus_IZR in *. apply lt_IZR in H1. apply lt_IZR in H2. lia.
Qed.
Lemma round_zero x : - / 2 < x < / 2 -> round_ x = 0%Z.
Proof.
  intros H. unfold round_. destruct (Rle_dec 0 x).
  - apply Int_part_eq. lra.
  - replace (Int_part (- x + / 2)) with 0%Z; [reflexivity|]. symmetry. apply Int_part_eq. lra.
Qed.
Lemma round_one x : / 2 <= x < 3 / 2 -> round_ x = 1%Z.
Proof. intros H. unfold round_. destruct (Rle_dec 0 x); [|lra]. apply Int_part_eq. lra. Qed.
Lemma round_01 x : - / 2 < x < 3 / 2 -> (round_ x = 0%Z /\ x < / 2) \/ (round_ x = 1%Z /\ / 2 <= x).
Proof. intros H. destruct (Rlt_dec x (/ 2)); [left; split; [apply round_zero; lra|assumption]|right; split; [apply round_one; lra|lra]]. Qed.

Section P.
Variable S : bset.
Variable relax : nat -> list Z -> exitcode * (nat -> R).
Variable ids : list nat.
Variable cost : (nat -> R) -> R.

(** ** The branching variable *)
Lemma select_range l : forall v x th part,
  (exists w, (w < length l)%nat /\ select_part l v x th part = Z.of_nat (v + w) /\
     (exists i, nth_error l w = Some i /\ Rabs (x i - / 2) < th /\ forall j, In j l -> Rabs (x i - / 2) <= Rabs (x j - / 2))) \/
  (select_part l v x th part = part /\ forall i, In i l -> th <= Rabs (x i - / 2)).
Proof.
  induction l as [|i l IH]; intros v x th part; [right; split; [reflexivity|intros ? []]|]. cbn [select_part].
  destruct (ltb (Rabs (x i - / 2)) th) eqn:E.
  - apply ltb_true in E. left. destruct (IH (v + 1)%nat x (Rabs (x i - / 2)) (Z.of_nat v)) as [(w & Hw & Hs & j & Hj & Hlt & Hmin)|[Hs Hall]].
    + exists (Datatypes.S w). split; [cbn; lia|]. split; [rewrite Hs; f_equal; lia|]. exists j. split; [exact Hj|]. split; [lra|].
      intros k [->|Hk]; [lra|auto].
    + exists 0%nat. split; [cbn; lia|]. split; [rewrite Hs; f_equal; lia|]. exists i. split; [reflexivity|]. split; [exact E|].
      intros k [->|Hk]; [lra|auto].
  - apply ltb_false in E. destruct (IH (v + 1)%nat x th part) as [(w & Hw & Hs & j & Hj & Hlt & Hmin)|[Hs Hall]].
    + left. exists (Datatypes.S w). split; [cbn; lia|]. split; [rewrite Hs; f_equal; lia|]. exists j. split; [exact Hj|]. split; [lra|].
      intros k [->|Hk]; [lra|auto].
    + right. split; [exact Hs|]. intros k [->|Hk]; [lra|auto].
Qed.

(** ** What one evaluation of a node does, for every oracle *)
Definition dec_ok (dec : list Z) : Prop := length dec = length ids /\ forall d, In d dec -> d = 1%Z \/ d = 0%Z \/ d = (-1)%Z.
Lemma decision_ok_iff d : decision_ok d = true <-> d = 1%Z \/ d = 0%Z \/ d = (-1)%Z.
Proof. unfold decision_ok. rewrite !orb_true_iff, !Z.eqb_eq. tauto. Qed.
Lemma upd_data_ok dec : (forall d, In d dec -> d = 1%Z \/ d = 0%Z \/ d = (-1)%Z) -> updateProblemData dec = Ok tt.
Proof. intros H. unfold updateProblemData. replace (forallb decision_ok dec) with true; [reflexivity|]. symmetry. apply forallb_forall. intros d Hd. now apply decision_ok_iff, H. Qed.

(** Frame: the other members are kept, the number of calls grows by at most two. *)
Lemma update_frame s id s' : updateNodeBounds S relax ids cost s id = Ok s' ->
  s_iter s' = s_iter s /\ s_node s' = s_node s /\ s_mat s' = s_mat s /\ s_lb s' = s_lb s /\ length (s_nodes s') = length (s_nodes s) /\
  (s_calls s <= s_calls s' <= s_calls s + 2)%nat /\
  (exists i, id = Z.of_nat i /\ (i < length (s_nodes s))%nat /\ forall j, j <> i -> nth_error (s_nodes s') j = nth_error (s_nodes s) j).
Proof.
  unfold updateNodeBounds. intros H. apply bind_ok in H as (dec & H1 & H). apply bind_ok in H as (u & H2 & H). apply bind_ok in H as (nd & H3 & H).
  destruct (relax (s_calls s) dec) as [c x] eqn:ER. destruct (accepted c).
  - apply bind_ok in H as ([[[nd' last] viable] calls] & H4 & H). apply bind_ok in H as (nodes & H5 & H). injection H as <-. cbn.
    apply vset_inv in H5 as (i & -> & Hi & ->). rewrite set_nth_length.
    assert (Hc : (s_calls s <= calls <= s_calls s + 2)%nat).
    { destruct (is_integer S ids x); [injection H4 as _ _ _ <-; lia|]. apply bind_ok in H4 as (v & H6 & H4). destruct (relax (s_calls s + 1) (rounded ids x)). injection H4 as _ _ _ <-. lia. }
    repeat split; try lia. exists i. repeat split; auto. intros j Hj. now apply nth_set_other.
  - apply bind_ok in H as (nodes & H5 & H). injection H as <-. cbn. apply vset_inv in H5 as (i & -> & Hi & ->). rewrite set_nth_length.
    repeat split; try lia. exists i. repeat split; auto. intros j Hj. now apply nth_set_other.
Qed.

(** ** Branching, for every oracle *)
Lemma branch_spec s id s' : createBranches s id = Ok s' -> (0 < s_iter s)%nat -> 
  (exists i nd col p, id = Z.of_nat i /\ nth_error (s_nodes s) i = Some nd /\ nth_error (s_mat s) i = Some col /\
    n_part nd = Z.of_nat p /\ (p < length col)%nat /\
    s_iter s' = s_iter s /\ s_node s' = s_node s /\ s_opt s' = s_opt s /\ s_lb s' = s_lb s /\ s_ub s' = s_ub s /\ s_calls s' = s_calls s /\
    s_mat s' = set_nth (set_nth (s_mat s) (s_iter s) (set_nth col p 1%Z)) i (set_nth col p 0%Z) /\
    length (s_nodes s') = length (s_nodes s) /\ (s_iter s < length (s_nodes s))%nat /\ (s_iter s < length (s_mat s))%nat /\
    (forall j, j <> i -> j <> s_iter s -> nth_error (s_nodes s') j = nth_error (s_nodes s) j) /\
    (i <> s_iter s -> (exists nd1, nth_error (s_nodes s') i = Some nd1 /\ n_upper nd1 = n_upper nd) /\ exists nd2, nth_error (s_nodes s') (s_iter s) = Some nd2 /\ n_upper nd2 = n_upper nd)).
Proof.
  unfold createBranches. intros H Hit. apply bind_ok in H as (nd & H1 & H). apply bind_ok in H as (nw & H2 & H). apply bind_ok in H as (nodes1 & H3 & H).
  apply bind_ok in H as (col & H4 & H). apply bind_ok in H as (col1 & H5 & H). apply bind_ok in H as (col0 & H6 & H). apply bind_ok in H as (mat1 & H7 & H).
  apply bind_ok in H as (mat2 & H8 & H). apply bind_ok in H as (nd1 & H9 & H). apply bind_ok in H as (nodes2 & H10 & H). injection H as <-. cbn.
  apply vget_inv in H1 as (i & -> & H1). apply vget_inv in H4 as (i' & E & H4). apply Nat2Z.inj in E. subst i'.
  apply vset_inv in H3 as (k & E & Hk & ->). apply Nat2Z.inj in E. subst k.
  apply vset_inv in H5 as (p & Ep & Hp & ->). apply vset_inv in H6 as (p' & Ep' & _ & ->). rewrite Ep in Ep'. apply Nat2Z.inj in Ep'. subst p'.
  apply vset_inv in H7 as (k & E & Hm & ->). apply Nat2Z.inj in E. subst k. apply vset_inv in H8 as (k & E & _ & ->). apply Nat2Z.inj in E. subst k.
  apply vset_inv in H10 as (k & E & Hi & ->). apply Nat2Z.inj in E. subst k. rewrite set_nth_length in Hi.
  exists i, nd, col, p. rewrite !set_nth_length. repeat (split; [now auto|]). split.
  { intros j Hj Hj'. now rewrite !nth_set_other by auto. }
  intros Hne. apply vget_inv in H9 as (k & E & H9). apply Nat2Z.inj in E. subst k. rewrite nth_set_other in H9 by auto. rewrite H1 in H9. injection H9 as <-. split.
  - eexists. split; [apply nth_set_same; now rewrite set_nth_length|reflexivity].
  - eexists. split; [rewrite nth_set_other by auto; apply nth_set_same; assumption|reflexivity].
Qed.
End P.

(** * Branch and bound: coverage and limits for every oracle; soundness for exact oracles *)
From Coq Require Import Reals List Arith ZArith Bool Lia Lra.
From Verif Require Import Base BaseProofs IpModel BnbModel BnbSpec BnbProofs.
Import ListNotations.
Open Scope R_scope.

(** States at the head of the while loop. *)
Inductive reached (S : bset) relax ids cost (nodes0 : list node) (opt0 : nat -> R) (calls0 : nat) : bstate -> Prop :=
| reached_root s : bnb_root S relax ids cost nodes0 opt0 calls0 = Ok s -> reached S relax ids cost nodes0 opt0 calls0 s
| reached_body s s' : reached S relax ids cost nodes0 opt0 calls0 s -> continue S s = true -> bnb_body S relax ids cost s = Ok s' -> reached S relax ids cost nodes0 opt0 calls0 s'.

Section P.
Variable S : bset.
Variable relax : nat -> list Z -> exitcode * (nat -> R).
Variable ids : list nat.
Variable cost : (nat -> R) -> R.
Variable nodes0 : list node.
Variable opt0 : nat -> R.
Variable calls0 : nat.
Notation reach := (reached S relax ids cost nodes0 opt0 calls0).

Lemma root_inv s : bnb_root S relax ids cost nodes0 opt0 calls0 = Ok s ->
  s_iter s = 0%nat /\ s_node s = 0%Z /\ s_mat s = repeat (repeat (-1)%Z (length ids)) (b_max S) /\ length (s_nodes s) = length nodes0 /\ (1 <= length nodes0)%nat /\
  (calls0 <= s_calls s <= calls0 + 2)%nat /\ (1 <= b_max S)%nat.
Proof.
  unfold bnb_root. intros H. apply bind_ok in H as (nd & H1 & H). apply bind_ok in H as (nodes & H2 & H). apply bind_ok in H as (s1 & H3 & H). apply bind_ok in H as (nd' & H4 & H).
  injection H as <-. assert (Hb : (1 <= b_max S)%nat).
  { unfold updateNodeBounds in H3. apply bind_ok in H3 as (dec & H5 & _). cbn [s_mat] in H5. apply vget_inv in H5 as (i & _ & H5). destruct (b_max S); [destruct i; discriminate|lia]. }
  apply update_frame in H3 as (E1 & E2 & E3 & E4 & E5 & E6 & E7). cbn in *. apply vset_inv in H2 as (i & Ei & Hi & ->). rewrite set_nth_length in E5.
  rewrite E3, E5. repeat split; try lia.
Qed.

Lemma body_inv s s' : bnb_body S relax ids cost s = Ok s' ->
  (exists i nd col p, s_node s = Z.of_nat i /\ nth_error (s_nodes s) i = Some nd /\ nth_error (s_mat s) i = Some col /\ n_part nd = Z.of_nat p /\ (p < length col)%nat /\
   s_iter s' = (s_iter s + 1)%nat /\ (s_iter s + 1 < length (s_mat s))%nat /\ (s_iter s + 1 < length (s_nodes s))%nat /\ length (s_nodes s') = length (s_nodes s) /\
   s_mat s' = set_nth (set_nth (s_mat s) (s_iter s + 1) (set_nth col p 1%Z)) i (set_nth col p 0%Z) /\ (s_calls s <= s_calls s' <= s_calls s + 4)%nat /\
   s_node s' = selectNodeToExplore s' /\ s_lb s' = getProblemLowerBound s').
Proof.
  unfold bnb_body. intros H. apply bind_ok in H as (s2 & H1 & H). apply bind_ok in H as (s3 & H2 & H). apply bind_ok in H as (s4 & H3 & H).
  injection H as <-. apply branch_spec in H1; [|cbn; lia]. destruct H1 as (i & nd & col & p & A1 & A2 & A3 & A4 & A5 & A6 & A7 & A8 & A9 & A10 & A11 & A12 & A13 & A14 & A15 & A16 & A17).
  cbn in A2, A3, A6, A7, A8, A9, A10, A11, A12, A13, A14, A15.
  apply update_frame in H2 as (E1 & E2 & E3 & E4 & E5 & E6 & _). apply update_frame in H3 as (G1 & G2 & G3 & G4 & G5 & G6 & _). cbn.
  exists i, nd, col, p. do 5 (split; [assumption|]). split; [congruence|]. do 2 (split; [assumption|]). do 2 (split; [congruence|]). split; [lia|]. split; reflexivity.
Qed.

(** ** Structural invariant, every oracle *)
Definition shape (s : bstate) : Prop :=
  length (s_nodes s) = length nodes0 /\ length (s_mat s) = b_max S /\ (s_iter s < b_max S)%nat /\ (s_iter s < length nodes0)%nat /\
  (forall k col, (k <= s_iter s)%nat -> nth_error (s_mat s) k = Some col -> dec_ok ids col) /\
  (calls0 <= s_calls s <= calls0 + 2 + 4 * s_iter s)%nat /\
  (forall a, assignment (length ids) a -> exists k col, (k <= s_iter s)%nat /\ nth_error (s_mat s) k = Some col /\ agrees a col).

Lemma set_dec_ok col p d : dec_ok ids col -> d = 1%Z \/ d = 0%Z \/ d = (-1)%Z -> dec_ok ids (set_nth col p d).
Proof.
  intros [H1 H2] Hd. split; [now rewrite set_nth_length|]. intros e He. apply In_nth_error in He as [k Hk].
  destruct (Nat.eq_dec k p) as [->|Hne]; [|rewrite nth_set_other in Hk by auto; apply H2; eapply nth_error_In, Hk].
  assert (p < length col)%nat. { rewrite <- (set_nth_length col p d). apply nth_error_Some. congruence. }
  rewrite nth_set_same in Hk by assumption. injection Hk as <-. exact Hd.
Qed.
Lemma agrees_set a col p d : agrees a col -> (p < length col)%nat -> nth_error a p = Some d -> agrees a (set_nth col p d).
Proof.
  intros [H1 H2] Hp Ha. split; [now rewrite set_nth_length|]. intros v e Hv. destruct (Nat.eq_dec v p) as [->|Hne].
  - rewrite nth_set_same in Hv by assumption. injection Hv as <-. now right.
  - rewrite nth_set_other in Hv by auto. now apply H2.
Qed.
Lemma agrees_set_inv a col p d : agrees a (set_nth col p d) -> (p < length col)%nat -> d <> (-1)%Z -> nth_error a p = Some d.
Proof. intros [H1 H2] Hp Hd. destruct (H2 p d (nth_set_same _ _ _ Hp)); congruence. Qed.

Lemma nth_set_cases {A} (l : list A) i (a : A) j b : nth_error (set_nth l i a) j = Some b -> (j = i /\ b = a) \/ (j <> i /\ nth_error l j = Some b).
Proof.
  destruct (Nat.eq_dec j i) as [->|Hne]; [|rewrite nth_set_other by auto; auto]. intros H.
  assert (i < length l)%nat. { rewrite <- (set_nth_length l i a). apply nth_error_Some. congruence. }
  rewrite nth_set_same in H by assumption. injection H as <-. auto.
Qed.
Lemma nth_mid {A} (l : list A) i k (a b : A) j c : nth_error (set_nth (set_nth l k a) i b) j = Some c -> i <> k ->
  (j = i /\ c = b) \/ (j = k /\ c = a) \/ (j <> i /\ j <> k /\ nth_error l j = Some c).
Proof. intros H Hne. apply nth_set_cases in H as [H|[Hj H]]; [auto|]. apply nth_set_cases in H as [H|[Hj' H]]; auto. Qed.

Lemma continue_iter s : continue S s = true -> (s_iter s + 1 < b_max S)%nat /\ (0 <= s_node s)%Z.
Proof. unfold continue. rewrite !andb_true_iff. intros [[[_ _] H1] H2]. apply Z.leb_le in H1. apply Z.ltb_lt in H2. lia. Qed.

Lemma node_range l : forall k next lower, (best_node l k next lower = next) \/ (k <= best_node l k next lower < k + Z.of_nat (length l))%Z.
Proof.
  induction l as [|nd l IH]; intros k next lower; cbn [best_node length]; [left; reflexivity|]. rewrite Nat2Z.inj_succ.
  destruct (n_status nd); [destruct (IH (k + 1)%Z next lower); lia| |destruct (IH (k + 1)%Z next lower); lia].
  destruct (e_ltb (n_lower nd) lower); [destruct (IH (k + 1)%Z k (n_lower nd)); lia|destruct (IH (k + 1)%Z next lower); lia].
Qed.
Lemma node_le s : (selectNodeToExplore s <= Z.of_nat (s_iter s))%Z /\ (-1 <= selectNodeToExplore s)%Z.
Proof.
  unfold selectNodeToExplore. pose proof (firstn_le_length (s_iter s + 1) (s_nodes s)).
  destruct (node_range (firstn (s_iter s + 1) (s_nodes s)) 0 (-1) PInf); lia.
Qed.

Lemma assignment_at n a p : assignment n a -> (p < n)%nat -> nth_error a p = Some 0%Z \/ nth_error a p = Some 1%Z.
Proof.
  intros [H1 H2] Hp. destruct (nth_error a p) eqn:E; [|apply nth_error_None in E; lia]. destruct (H2 z (nth_error_In _ _ E)); subst; auto.
Qed.

Lemma reach_shape s : reach s -> shape s /\ (s_node s <= Z.of_nat (s_iter s))%Z.
Proof.
  induction 1 as [s H|s s' HR [IH IHn] HC HB].
  - apply root_inv in H as (E1 & E2 & E3 & E4 & E5 & E6 & Hb).
    split; [|lia]. unfold shape. rewrite E1, E3, E4. rewrite repeat_length. repeat (split; [lia|]). split; [|split; [lia|]].
    + intros k col _ Hc. apply nth_error_In, repeat_spec in Hc. subst col. split; [apply repeat_length|]. intros d Hd. apply repeat_spec in Hd. auto.
    + intros a [Ha _]. exists 0%nat, (repeat (-1)%Z (length ids)). split; [lia|]. split; [destruct (b_max S); [lia|reflexivity]|].
      split; [now rewrite repeat_length|]. intros v d Hv. left. eapply repeat_spec, nth_error_In, Hv.
  - apply body_inv in HB as (i & nd & col & p & B1 & B2 & B3 & B4 & B5 & B6 & B7 & B8 & B9 & B10 & B11 & B12 & B13).
    destruct (continue_iter s HC) as [C1 C2]. destruct IH as (I1 & I2 & I3 & I4 & I5 & I6 & I7). assert (Hi : (i <= s_iter s)%nat) by lia.
    assert (Hne : i <> (s_iter s + 1)%nat) by lia. pose proof (I5 i col Hi B3) as Hcol.
    split; [|rewrite B12; apply node_le]. unfold shape. rewrite B6, B9, B10, !set_nth_length. repeat (split; [lia|]). split; [|split; [lia|]].
    + intros k c Hk Hc. apply (fun H => nth_mid _ _ _ _ _ _ _ H Hne) in Hc as [[-> ->]|[[-> ->]|(N1 & N2 & Hc)]]; [apply set_dec_ok; auto|apply set_dec_ok; auto|]. apply (I5 k); [lia|assumption].
    + intros a Ha. destruct (I7 a Ha) as (k & c & Hk & Hc & Hag). destruct (Nat.eq_dec k i) as [->|Hki].
      * rewrite Hc in B3. injection B3 as ->. assert (Hp : (p < length ids)%nat) by (rewrite <- (proj1 Hcol); assumption).
        destruct (assignment_at _ a p Ha Hp) as [Hap|Hap].
        -- exists i, (set_nth col p 0%Z). split; [lia|]. split; [apply nth_set_same; rewrite set_nth_length; lia|]. now apply agrees_set.
        -- exists (s_iter s + 1)%nat, (set_nth col p 1%Z). split; [lia|]. split; [rewrite nth_set_other by auto; apply nth_set_same; lia|]. now apply agrees_set.
      * exists k, c. split; [lia|]. split; [|exact Hag]. rewrite !nth_set_other by lia. exact Hc.
Qed.
End P.

(** * Proofs about the replay of a plan *)
From Coq Require Import Reals List Arith Bool Lia Lra.
Import ListNotations.
From Verif Require Import Base Vec3 MkoModel ItpModel ItpSpec.
Local Open Scope R_scope.
Lemma Rdiv_0_l x : 0 / x = 0. Proof. unfold Rdiv. ring. Qed.

(** ** argmin *)
Lemma argmin_from_ok l : forall best v i, (best < i)%nat ->
  let c := argmin_from best v i l in let val := fun k => if (k <? i)%nat then v else nth (k - i) l 0 in
  (c = best \/ (i <= c < i + length l)%nat) /\ val c <= v /\ forall j, (j < length l)%nat -> val c <= nth j l 0.
Proof.
  induction l as [|x r IH]; intros best v i Hb; cbn [argmin_from length].
  - cbv zeta. rewrite (proj2 (Nat.ltb_lt best i) Hb). split; [now left|]. split; [lra|]. intros; lia.
  - destruct (Rlt_dec x v) as [Hx|Hx]; cbv zeta.
    + specialize (IH i x (S i) (Nat.lt_succ_diag_r i)). cbv zeta in IH. set (c := argmin_from i x (S i) r) in *. destruct IH as (A & B & C).
      assert (Hc : (i <= c < i + S (length r))%nat) by (destruct A; lia).
      assert (V : (if (c <? i)%nat then v else nth (c - i) (x :: r) 0) = (if (c <? S i)%nat then x else nth (c - S i) r 0)).
      { rewrite (proj2 (Nat.ltb_ge c i)) by lia. destruct (Nat.ltb_spec c (S i)).
        - replace (c - i)%nat with 0%nat by lia. reflexivity.
        - replace (c - i)%nat with (S (c - S i)) by lia. reflexivity. }
      rewrite V. split; [now right|]. split; [lra|]. intros [|j] Hj; cbn [nth]; [exact B|]. apply C. lia.
    + specialize (IH best v (S i) (Nat.lt_lt_succ_r _ _ Hb)). cbv zeta in IH. set (c := argmin_from best v (S i) r) in *. destruct IH as (A & B & C).
      assert (V : (if (c <? i)%nat then v else nth (c - i) (x :: r) 0) = (if (c <? S i)%nat then v else nth (c - S i) r 0)).
      { destruct A as [->|A].
        - rewrite (proj2 (Nat.ltb_lt best i)), (proj2 (Nat.ltb_lt best (S i))) by lia. reflexivity.
        - rewrite (proj2 (Nat.ltb_ge c i)), (proj2 (Nat.ltb_ge c (S i))) by lia. replace (c - i)%nat with (S (c - S i)) by lia. reflexivity. }
      rewrite V. split; [destruct A; [now left|right; lia]|]. split; [exact B|]. intros [|j] Hj; cbn [nth]; [lra|]. apply C. lia.
Qed.
Lemma argmin_ok l : l <> [] -> exists c, argmin l = Ok c /\ (c < length l)%nat /\ forall j, (j < length l)%nat -> nth c l 0 <= nth j l 0.
Proof.
  destruct l as [|x r]; [congruence|]. intros _. cbn [argmin]. eexists; split; [reflexivity|].
  destruct (argmin_from_ok r 0 x 1 Nat.lt_0_1) as (A & B & C). cbv zeta in *. set (c := argmin_from 0 x 1 r) in *.
  assert (V : nth c (x :: r) 0 = (if (c <? 1)%nat then x else nth (c - 1) r 0)).
  { destruct (Nat.ltb_spec c 1); [replace c with 0%nat by lia; reflexivity|]. destruct c; [lia|]. cbn [nth]. now rewrite Nat.sub_succ, Nat.sub_0_r. }
  split; [cbn [length]; destruct A; lia|]. rewrite V. intros [|j] Hj; cbn [nth]; [exact B|]. apply C. cbn [length] in Hj. lia.
Qed.
Lemma argmin_bound l c : argmin l = Ok c -> (c < length l)%nat.
Proof. destruct l as [|x r]; [discriminate|]. intros E. destruct (argmin_ok (x :: r)) as (c' & E' & H & _); [congruence|]. congruence. Qed.

(** ** The interval *)
Lemma increasing_lt tv : increasing tv -> forall i j, (i < j < length tv)%nat -> stamp tv i < stamp tv j.
Proof.
  intros H i j. induction j as [|j IH]; intros Hj; [lia|]. destruct (Nat.eq_dec i j) as [->|N]; [apply H; lia|].
  apply Rlt_trans with (stamp tv j); [apply IH; lia|apply H; lia].
Qed.
Lemma nth_map_abs tv t j : (j < length tv)%nat -> nth j (map (fun x => Rabs (x - t)) tv) 0 = Rabs (stamp tv j - t).
Proof. intros H. unfold stamp. rewrite nth_indep with (d' := Rabs (0 - t)) by (rewrite map_length; lia). exact (map_nth (fun x => Rabs (x - t)) tv 0 j). Qed.
Lemma bracket_ok tv t : tv <> [] -> increasing tv -> exists i1 i2, bracket tv t = Ok (i1, i2) /\
  ((i1 = 0%nat /\ i2 = 0%nat /\ t < stamp tv 0) \/ (i1 = (length tv - 1)%nat /\ i2 = (length tv - 1)%nat /\ stamp tv (length tv - 1) <= t) \/
   (S i1 < length tv)%nat /\ i2 = S i1 /\ stamp tv i1 <= t <= stamp tv (S i1)).
Proof.
  intros Hne Hinc. unfold bracket.
  destruct (argmin_ok (map (fun x => Rabs (x - t)) tv)) as (c & E & Hc & Hmin); [destruct tv; [congruence|discriminate]|].
  rewrite map_length in *. rewrite E. cbn [bind].
  assert (M : forall j, (j < length tv)%nat -> Rabs (stamp tv c - t) <= Rabs (stamp tv j - t)) by (intros j Hj; rewrite <- !nth_map_abs by lia; apply Hmin; lia).
  change (nth c tv 0) with (stamp tv c). destruct (Rlt_dec t (stamp tv c)) as [L|L].
  - exists (c - 1)%nat, c. split; [reflexivity|]. destruct c as [|c]; [now left|]. right; right.
    replace (S c - 1)%nat with c by lia. split; [exact Hc|]. split; [reflexivity|].
    pose proof (M c ltac:(lia)) as Mc. pose proof (increasing_lt tv Hinc c (S c) ltac:(lia)). split; [|lra].
    destruct (Rle_lt_dec (stamp tv c) t); [assumption|]. rewrite !Rabs_right in Mc by lra. lra.
  - exists c, (Nat.min (c + 1) (length tv - 1)). split; [reflexivity|]. destruct (Nat.eq_dec c (length tv - 1)) as [->|N].
    + right; left. split; [reflexivity|]. split; [lia|]. lra.
    + right; right. split; [lia|]. split; [lia|]. split; [lra|].
      pose proof (M (S c) ltac:(lia)) as Mc. pose proof (increasing_lt tv Hinc c (S c) ltac:(lia)).
      destruct (Rle_lt_dec t (stamp tv (S c))); [assumption|]. rewrite !Rabs_left1 in Mc by lra. lra.
Qed.

(** ** The curve *)
Lemma between_0 a b : length a = length b -> between 0 a b = a.
Proof. revert b. induction a as [|x a IH]; intros [|y b] H; try discriminate; [reflexivity|]. unfold between in *. cbn [combine map fst snd]. f_equal; [ring|]. apply IH. cbn in H; lia. Qed.
Lemma between_1 a b : length a = length b -> between 1 a b = b.
Proof. revert b. induction a as [|x a IH]; intros [|y b] H; try discriminate; [reflexivity|]. unfold between in *. cbn [combine map fst snd]. f_equal; [ring|]. apply IH. cbn in H; lia. Qed.
Lemma between_nth l a b j : length a = length b -> nth j (between l a b) 0 = (1 - l) * nth j a 0 + l * nth j b 0.
Proof. revert b j. induction a as [|x a IH]; intros [|y b] j H; try discriminate; [destruct j; cbn; ring|]. destruct j; [reflexivity|]. apply (IH b j). cbn in H; lia. Qed.
Lemma between_length l a b : length a = length b -> length (between l a b) = length a.
Proof. intros H. unfold between. rewrite map_length, combine_length. lia. Qed.
Lemma blend_ok t1 t2 t a b : length a = length b -> t1 < t2 -> blend t1 t2 t a b = Ok (between ((t - t1) / (t2 - t1)) a b).
Proof.
  intros H Ht. unfold blend. rewrite (proj2 (Nat.eqb_eq _ _) H). destruct (Req_EM_T (t2 - t1) 0); [lra|]. f_equal. unfold between. apply map_ext. intros [x y]. cbn. field. lra.
Qed.
Lemma eval_ok tv s state t : tv <> [] -> increasing tv -> (forall i, (i < length tv)%nat -> state i = Ok (s i)) -> same_size (length tv) s ->
  exists v, eval_at state tv t = Ok v /\ on_curve tv s t v.
Proof.
  intros Hne Hinc Hst Hsz. assert (Hn : (0 < length tv)%nat) by (destruct tv; [congruence|cbn; lia]).
  assert (Sz : forall i j, (i < length tv)%nat -> (j < length tv)%nat -> length (s i) = length (s j)) by (intros i j Hi Hj; rewrite (Hsz i Hi), (Hsz j Hj); reflexivity).
  destruct (bracket_ok tv t Hne Hinc) as (i1 & i2 & E & C). unfold eval_at. rewrite E. cbn [bind].
  pose proof (increasing_lt tv Hinc) as Lt.
  assert (Le : forall i j, (i <= j < length tv)%nat -> stamp tv i <= stamp tv j).
  { intros i j H. destruct (Nat.eq_dec i j) as [->|]; [lra|]. left. apply Lt. lia. }
  destruct C as [(-> & -> & L)|[(-> & -> & L)|(H & -> & L)]]; rewrite !Hst by lia; cbn [bind].
  - rewrite Nat.leb_refl. eexists; split; [reflexivity|]. pose proof (Le 0%nat (length tv - 1)%nat ltac:(lia)). split.
    + reflexivity.
    + intros. lra.
    + intros i Hi [A _]. pose proof (Le 0%nat i ltac:(lia)). lra.
  - rewrite Nat.leb_refl. assert (Q : forall (v : list R), (if (length tv - 1 <=? 0)%nat then Ok (s (length tv - 1)%nat) else Ok (s (length tv - 1)%nat)) = Ok v -> v = s (length tv - 1)%nat)
      by (intros v; destruct (length tv - 1 <=? 0)%nat; congruence).
    exists (s (length tv - 1)%nat). split; [destruct (length tv - 1 <=? 0)%nat; reflexivity|]. split.
    + intros A. assert (length tv - 1 = 0)%nat; [|congruence]. destruct (Nat.eq_dec (length tv - 1) 0); [assumption|]. pose proof (Lt 0%nat (length tv - 1)%nat ltac:(lia)). lra.
    + reflexivity.
    + intros i Hi [A B]. assert (Si : S i = (length tv - 1)%nat).
      { destruct (Nat.eq_dec (S i) (length tv - 1)); [assumption|]. pose proof (Lt (S i) (length tv - 1)%nat ltac:(lia)). lra. }
      pose proof (Hinc i Hi). rewrite <- Si in L |- *. replace (t - stamp tv i) with (stamp tv (S i) - stamp tv i) by lra.
      replace ((stamp tv (S i) - stamp tv i) / (stamp tv (S i) - stamp tv i)) with 1 by (field; lra). symmetry. apply between_1, Sz; lia.
  - cbn [Nat.leb]. rewrite (proj2 (Nat.leb_gt _ _)) by lia. change (nth i1 tv 0) with (stamp tv i1). change (nth (S i1) tv 0) with (stamp tv (S i1)).
    pose proof (Hinc i1 H) as H1. rewrite blend_ok; [|apply Sz; lia|exact H1]. eexists; split; [reflexivity|]. split.
    + intros A. pose proof (Le 0%nat i1 ltac:(lia)). assert (i1 = 0)%nat by (destruct i1; [reflexivity|]; pose proof (Lt 0%nat (S i1) ltac:(lia)); lra). subst i1.
      replace (t - stamp tv 0) with 0 by lra. rewrite Rdiv_0_l. apply between_0, Sz; lia.
    + intros A. assert (S1 : S i1 = (length tv - 1)%nat).
      { destruct (Nat.eq_dec (S i1) (length tv - 1)); [assumption|]. pose proof (Lt (S i1) (length tv - 1)%nat ltac:(lia)). lra. }
      rewrite <- S1 in A |- *. replace (t - stamp tv i1) with (stamp tv (S i1) - stamp tv i1) by lra. replace ((stamp tv (S i1) - stamp tv i1) / (stamp tv (S i1) - stamp tv i1)) with 1 by (field; lra).
      apply between_1, Sz; lia.
    + intros i Hi [A B]. destruct (Nat.lt_trichotomy i i1) as [G|[->|G]]; [|reflexivity|].
      * assert (i1 = S i).
        { destruct (Nat.eq_dec i1 (S i)); [assumption|]. pose proof (Lt (S i) i1 ltac:(lia)). lra. }
        subst i1. pose proof (Hinc i Hi). replace (t - stamp tv (S i)) with 0 by lra. rewrite Rdiv_0_l.
        replace (t - stamp tv i) with (stamp tv (S i) - stamp tv i) by lra. replace ((stamp tv (S i) - stamp tv i) / (stamp tv (S i) - stamp tv i)) with 1 by (field; lra).
        rewrite between_0, between_1; try reflexivity; apply Sz; lia.
      * assert (i = S i1).
        { destruct (Nat.eq_dec i (S i1)); [assumption|]. pose proof (Lt (S i1) i ltac:(lia)). lra. }
        subst i. pose proof (Hinc (S i1) Hi). replace (t - stamp tv (S i1)) with 0 by lra. rewrite Rdiv_0_l.
        replace (t - stamp tv i1) with (stamp tv (S i1) - stamp tv i1) by lra. replace ((stamp tv (S i1) - stamp tv i1) / (stamp tv (S i1) - stamp tv i1)) with 1 by (field; lra).
        rewrite between_0, between_1; try reflexivity; apply Sz; lia.
Qed.

(** Lemmas about the real-time matrix utilities. *)
From Coq Require Import Reals List Arith Bool Lia Lra.
Import ListNotations.
From Verif Require Import Base BaseProofs RtMatModel.
Local Open Scope R_scope.

Lemma guard_ok : forall A b (x : res A) y, guard b x = Ok y -> b = true /\ x = Ok y.
Proof. intros A [|] x y H; cbn in H; [auto|discriminate]. Qed.
Lemma bind_ok : forall A B (x : res A) (f : A -> res B) y, bind x f = Ok y -> exists a, x = Ok a /\ f a = Ok y.
Proof. intros A B [a| |] f y H; cbn in H; try discriminate. eauto. Qed.

(** ** Compaction *)
Lemma find_from_spec : forall A (p : A -> bool) fuel l i, (length l <= i + fuel)%nat ->
  (i <= find_from p fuel l i)%nat /\ (forall j x, (i <= j < find_from p fuel l i)%nat -> nth_error l j = Some x -> p x = false) /\
  ((find_from p fuel l i < length l)%nat -> exists x, nth_error l (find_from p fuel l i) = Some x /\ p x = true) /\
  (i <= length l -> find_from p fuel l i <= length l)%nat.
Proof.
  intros A p fuel. induction fuel as [|fuel IH]; intros l i Hf; cbn.
  - repeat split; intros; try lia.
  - destruct (nth_error l i) as [x|] eqn:E.
    + assert (Hi : (i < length l)%nat) by (apply nth_error_Some; congruence).
      destruct (p x) eqn:Ex.
      * repeat split; try lia. intros _. eauto.
      * destruct (IH l (i + 1)%nat ltac:(lia)) as (H1 & H2 & H3 & H4). repeat split; try lia; auto.
        intros j y Hj Ej. destruct (Nat.eq_dec j i) as [->|]; [congruence|]. apply (H2 j); [lia|exact Ej].
    + apply nth_error_None in E. repeat split; intros; try lia.
Qed.
Lemma skipn_nth : forall A (l : list A) i x, nth_error l i = Some x -> skipn i l = x :: skipn (S i) l.
Proof. induction l; intros [|i] x H; cbn in *; try discriminate; [congruence|]. now apply IHl. Qed.
Lemma firstn_snoc : forall A (l : list A) i x, nth_error l i = Some x -> firstn (S i) l = firstn i l ++ [x].
Proof. induction l; intros [|i] x H; cbn in *; try discriminate; [congruence|]. f_equal. now apply IHl. Qed.
Lemma filter_range : forall A (q : A -> bool) b l i n, (i + n <= length l)%nat -> (forall j x, (i <= j < i + n)%nat -> nth_error l j = Some x -> q x = b) ->
  filter q (firstn (i + n) l) = filter q (firstn i l) ++ (if b then firstn n (skipn i l) else []).
Proof.
  intros A q b l i n. induction n as [|n IH]; intros Hl Hq.
  - rewrite Nat.add_0_r. destruct b; cbn; now rewrite app_nil_r.
  - rewrite Nat.add_succ_r. destruct (nth_error l (i + n)) as [x|] eqn:E; [|apply nth_error_None in E; lia].
    rewrite (firstn_snoc _ _ _ _ E), filter_app, IH; [|lia|intros; eapply Hq; eauto; lia].
    cbn [filter]. rewrite (Hq (i + n)%nat x ltac:(lia) E). destruct b.
    + assert (E2 : nth_error (skipn i l) n = Some x).
      { clear -E. revert l E. induction i; intros l E; cbn; [exact E|]. destruct l; [now destruct n|]. now apply IHi. }
      rewrite (firstn_snoc _ _ _ _ E2), app_assoc. reflexivity.
    + now rewrite !app_nil_r.
Qed.
Section Compact.
Variable A : Type.
Variable e k : A -> bool.
(** The two tests are complementary on the elements of the list. *)
Variable l0 : list A.
Hypothesis Hek : forall x, In x l0 -> k x = negb (e x).
Lemma k_at : forall j x, nth_error l0 j = Some x -> k x = negb (e x).
Proof. intros. apply Hek. eapply nth_error_In; eauto. Qed.
Lemma skipn_eq_nth : forall (l : list A) s j, skipn s l = skipn s l0 -> (s <= j)%nat -> nth_error l j = nth_error l0 j.
Proof.
  intros l s j H Hj. replace j with (s + (j - s))%nat by lia. assert (G : forall (m : list A) a b, nth_error (skipn a m) b = nth_error m (a + b)).
  { intros m a. revert m. induction a; intros m b; cbn; [reflexivity|]. destruct m; [now destruct b|]. apply IHa. }
  now rewrite <- !G, H.
Qed.
Lemma find_from_ext : forall p fuel (l : list A) s i, skipn s l = skipn s l0 -> (s <= i)%nat -> find_from p fuel l i = find_from p fuel l0 i.
Proof. induction fuel as [|fuel IH]; intros l s i H Hi; cbn; [reflexivity|]. rewrite (skipn_eq_nth l s i H Hi). destruct (nth_error l0 i); auto. destruct (p a); auto. apply (IH l s); [exact H|lia]. Qed.

Lemma compact_loop_spec : forall fuel l first start, (length l = length l0) -> (first < start)%nat -> (length l0 < fuel + start)%nat ->
  firstn first l = filter k (firstn start l0) -> skipn start l = skipn start l0 -> (first < length l0)%nat ->
  let '(l', first') := compact_loop e k fuel l first start in firstn first' l' = filter k l0.
Proof.
  induction fuel as [|fuel IH]; intros l first start Hl Hfs Hf H1 H2 H3.
  - cbn. rewrite H1. rewrite firstn_all2 by lia. reflexivity.
  - cbn [compact_loop]. rewrite Hl.
    destruct (Nat.le_gt_cases (length l0) start) as [Hbig|Hsmall].
    { pose proof (find_from_spec _ k (length l0) l start ltac:(lia)) as (F1 & _). destruct (Nat.leb_spec (length l0) (find_from k (length l0) l start)); [|lia].
      rewrite H1, firstn_all2 by lia. reflexivity. }
    rewrite (find_from_ext k _ l start start H2) by lia.
    pose proof (find_from_spec _ k (length l0) l0 start ltac:(lia)) as (F1 & F2 & F3 & F4).
    set (s1 := find_from k (length l0) l0 start) in *. specialize (F4 ltac:(lia)).
    assert (E1 : filter k (firstn s1 l0) = filter k (firstn start l0)).
    { replace s1 with (start + (s1 - start))%nat by lia. rewrite (filter_range _ k false l0 start (s1 - start)); [now rewrite app_nil_r|lia|].
      intros; eapply F2; eauto; lia. }
    destruct (Nat.leb_spec (length l0) s1) as [Hend|Hs1].
    { rewrite H1, <- E1, firstn_all2 by lia. reflexivity. }
    rewrite (find_from_ext e _ l start (s1 + 1)%nat H2) by lia.
    pose proof (find_from_spec _ e (length l0) l0 (s1 + 1)%nat ltac:(lia)) as (G1 & G2 & G3 & G4).
    set (f1 := find_from e (length l0) l0 (s1 + 1)%nat) in *. specialize (G4 ltac:(lia)).
    assert (E2 : filter k (firstn f1 l0) = filter k (firstn start l0) ++ firstn (f1 - s1) (skipn s1 l0)).
    { replace f1 with (s1 + (f1 - s1))%nat at 1 by lia. rewrite (filter_range _ k true l0 s1 (f1 - s1)); [now rewrite E1|lia|].
      intros j x Hj Ej. destruct (Nat.eq_dec j s1) as [->|].
      - destruct (F3 Hs1) as (y & Ey & Ky). congruence.
      - rewrite (k_at _ _ Ej), (G2 j x ltac:(lia) Ej). reflexivity. }
    assert (Sk : skipn s1 l = skipn s1 l0).
    { replace s1 with (s1 - start + start)%nat by lia. clear -H2 F1. assert (G : forall (m : list A) a b, skipn (a + b) m = skipn a (skipn b m)).
      { intros m a b. revert m. induction b; intros m; cbn; [now rewrite Nat.add_0_r|]. rewrite Nat.add_succ_r. destruct m; cbn; [now rewrite skipn_nil|]. apply IHb. }
      now rewrite !G, H2. }
    assert (Lf : length (firstn first l) = first) by (rewrite firstn_length; lia).
    assert (Lm : length (firstn (f1 - s1) (skipn s1 l)) = (f1 - s1)%nat) by (rewrite firstn_length, skipn_length; lia).
    assert (Gen : forall (m : list A) a b, skipn (a + b) m = skipn a (skipn b m)).
    { intros m a b. revert m. induction b; intros m; cbn; [now rewrite Nat.add_0_r|]. rewrite Nat.add_succ_r. destruct m; cbn; [now rewrite skipn_nil|]. apply IHb. }
    apply IH.
    + unfold blit. rewrite !app_length, Lf, Lm, skipn_length. lia.
    + lia.
    + lia.
    + unfold blit. rewrite app_assoc, firstn_app, app_length, Lf, Lm, Nat.sub_diag. cbn [firstn]. rewrite app_nil_r, firstn_all2 by (rewrite app_length; lia).
      rewrite H1, Sk, E2. reflexivity.
    + unfold blit. rewrite app_assoc, skipn_app, app_length, Lf, Lm, skipn_all2 by (rewrite app_length; lia). cbn [app].
      rewrite <- Gen. replace (f1 - (first + (f1 - s1)) + (first + (f1 - s1)))%nat with f1 by lia.
      replace f1 with (f1 - s1 + s1)%nat at 1 2 by lia. now rewrite !Gen, Sk.
    + lia.
Qed.
Lemma compact_spec : compact e k l0 = filter k l0.
Proof.
  unfold compact. pose proof (find_from_spec _ e (length l0) l0 0 ltac:(lia)) as (F1 & F2 & F3 & F4).
  set (f := find_from e (length l0) l0 0) in *. specialize (F4 ltac:(lia)).
  assert (E0 : filter k (firstn f l0) = firstn f l0).
  { replace f with (0 + f)%nat at 1 by lia. rewrite (filter_range _ k true l0 0 f); [reflexivity|lia|]. intros j x Hj Ej. rewrite (k_at _ _ Ej), (F2 j x ltac:(lia) Ej). reflexivity. }
  destruct (Nat.eq_dec f (length l0)) as [Ef|Nf].
  - assert (Hloop : compact_loop e k (length l0) l0 f (f + 1) = (l0, f)).
    { clearbody f. pose proof (find_from_spec _ k (length l0) l0 (f + 1)%nat ltac:(lia)) as (G1 & _).
      remember (length l0) as n eqn:En. destruct n; cbn [compact_loop]; [reflexivity|]. rewrite <- En.
      destruct (Nat.leb_spec (S n) (find_from k (S n) l0 (f + 1))); [reflexivity|lia]. }
    rewrite Hloop. rewrite <- E0, Ef, firstn_all. reflexivity.
  - pose proof (compact_loop_spec (length l0) l0 f (f + 1)%nat eq_refl ltac:(lia) ltac:(lia)) as C.
    destruct (compact_loop e k (length l0) l0 f (f + 1)) as [l' f'].
    apply C; [|reflexivity|lia].
    destruct (F3 ltac:(lia)) as (x & Ex & Hx). rewrite Nat.add_1_r, (firstn_snoc _ _ _ _ Ex), filter_app, E0. cbn.
    rewrite (k_at _ _ Ex), Hx. cbn. now rewrite app_nil_r.
Qed.
End Compact.

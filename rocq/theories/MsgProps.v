(** * C90: formatted messages *)
From Coq Require Import Reals String Ascii List Arith Bool Lia Lra.
Import ListNotations.
From Verif Require Import Base MsgModel.
Local Open Scope R_scope.

(** ** Specification: a format is a text followed by holes, each a precision digit and the text after it. *)
Definition plain (t : text) : Prop := ~ In percent t.
Fixpoint render (t : text) (holes : list (ascii * text)) : text := match holes with [] => t | (d, t') :: r => t ++ percent :: d :: render t' r end.
Definition wf (t : text) (holes : list (ascii * text)) : Prop := plain t /\ forall d t', In (d, t') holes -> d <> percent /\ plain t'.
(** Numbers in the holes, in order; holes beyond the last number stay empty. *)
Fixpoint filled (t : text) (holes : list (ascii * text)) (vals : list R) (sci : list bool) : list token :=
  match holes with
  | [] => [Text t]
  | (d, t') :: r => match vals, sci with v :: vs, b :: bs => Text t :: Num v [d] b :: filled t' r vs bs | _, _ => Text t :: filled t' r [] [] end
  end.

Lemma find0_plain : forall t, plain t -> find0 percent t = None.
Proof.
  intros t. induction t as [|x t IH]; intros H; [reflexivity|]. cbn. destruct (Ascii.eqb_spec x percent) as [->|N]; [destruct H; now left|].
  rewrite IH; [reflexivity|]. intros K. apply H. now right.
Qed.
Lemma find0_app : forall t r, plain t -> find0 percent (t ++ percent :: r) = Some (List.length t).
Proof.
  intros t r. induction t as [|x t IH]; intros H; [reflexivity|]. cbn [app find0 List.length]. destruct (Ascii.eqb_spec x percent) as [->|N]; [destruct H; now left|].
  rewrite IH; [reflexivity|]. intros K. apply H. now right.
Qed.
Lemma skipn_app_len : forall A (a b : list A) n, n = List.length a -> skipn n (a ++ b) = b.
Proof. intros A a b n ->. induction a; [reflexivity|assumption]. Qed.
Lemma firstn_app_len : forall A (a b : list A) n, n = List.length a -> firstn n (a ++ b) = a.
Proof. intros A a b n ->. induction a; [reflexivity|cbn; now f_equal]. Qed.

Lemma split_loop_ok : forall holes fuel pre t d t' vs vp, (List.length holes < fuel)%nat -> wf t ((d, t') :: holes) ->
  split_loop fuel (pre ++ render t ((d, t') :: holes)) (List.length pre) (List.length pre + List.length t) vs vp =
  Ok (vs ++ t :: t' :: map snd holes, vp ++ [d] :: map (fun h => [fst h]) holes).
Proof.
  intros holes. induction holes as [|[d2 t2] holes IH]; intros fuel pre t d t' vs vp F [PT W]; (destruct fuel as [|fuel]; [cbn in F; lia|]);
  destruct (W d t' (or_introl eq_refl)) as [ND PT']; cbn [split_loop render].
  - set (s := pre ++ t ++ percent :: d :: t'). assert (L : List.length s = (List.length pre + List.length t + 2 + List.length t')%nat) by (unfold s; rewrite !app_length; cbn [List.length]; lia).
    assert ((List.length pre + List.length t <? List.length pre)%nat = false) as -> by (apply Nat.ltb_ge; lia).
    assert (S1 : substr s (List.length pre) (Some (List.length pre + List.length t - List.length pre)%nat) = Ok t).
    { unfold substr. rewrite L. destruct (Nat.ltb_spec (List.length pre + List.length t + 2 + List.length t') (List.length pre)); [lia|]. f_equal. unfold s. rewrite skipn_app_len by reflexivity. apply firstn_app_len. lia. }
    assert (K1 : skipn (List.length pre + List.length t + 1) s = d :: t').
    { unfold s. replace (pre ++ t ++ percent :: d :: t') with ((pre ++ t ++ [percent]) ++ d :: t') by (rewrite <- !app_assoc; reflexivity). apply skipn_app_len. rewrite !app_length. cbn [List.length]. lia. }
    assert (S2 : substr s (List.length pre + List.length t + 1) (Some 1%nat) = Ok [d]).
    { unfold substr. rewrite L, K1. destruct (Nat.ltb_spec (List.length pre + List.length t + 2 + List.length t') (List.length pre + List.length t + 1)); [lia|reflexivity]. }
    assert (FN : find_from percent s (List.length pre + List.length t + 1) = None).
    { unfold find_from. rewrite K1. rewrite find0_plain; [reflexivity|]. intros [K|K]; [congruence|now apply PT']. }
    assert (S3 : substr s (List.length pre + List.length t + 2) (Some (List.length s)) = Ok t').
    { unfold substr. rewrite L. destruct (Nat.ltb_spec (List.length pre + List.length t + 2 + List.length t') (List.length pre + List.length t + 2)); [lia|]. f_equal. unfold s.
      replace (pre ++ t ++ percent :: d :: t') with ((pre ++ t ++ [percent; d]) ++ t') by (rewrite <- !app_assoc; reflexivity). rewrite skipn_app_len by (rewrite !app_length; cbn [List.length]; lia).
      apply firstn_all2. lia. }
    rewrite S1. cbn [bind]. rewrite S2. cbn [bind]. rewrite FN, S3. cbn [bind map]. now rewrite <- app_assoc.
  - destruct (W d2 t2 (or_intror (or_introl eq_refl))) as [ND2 PT2].
    set (tl := render t2 holes). set (s := pre ++ t ++ percent :: d :: t' ++ percent :: d2 :: tl).
    assert (L : List.length s = (List.length pre + List.length t + 2 + List.length t' + 2 + List.length tl)%nat) by (unfold s; rewrite !app_length; cbn [List.length]; rewrite app_length; cbn [List.length]; lia).
    assert ((List.length pre + List.length t <? List.length pre)%nat = false) as -> by (apply Nat.ltb_ge; lia).
    assert (S1 : substr s (List.length pre) (Some (List.length pre + List.length t - List.length pre)%nat) = Ok t).
    { unfold substr. rewrite L. match goal with |- context [(?a <? ?b)%nat] => destruct (Nat.ltb_spec a b); [lia|] end. f_equal. unfold s. rewrite skipn_app_len by reflexivity. apply firstn_app_len. lia. }
    assert (K1 : skipn (List.length pre + List.length t + 1) s = d :: t' ++ percent :: d2 :: tl).
    { unfold s. replace (pre ++ t ++ percent :: d :: t' ++ percent :: d2 :: tl) with ((pre ++ t ++ [percent]) ++ d :: t' ++ percent :: d2 :: tl) by (rewrite <- !app_assoc; reflexivity).
      apply skipn_app_len. rewrite !app_length. cbn [List.length]. lia. }
    assert (S2 : substr s (List.length pre + List.length t + 1) (Some 1%nat) = Ok [d]).
    { unfold substr. rewrite L, K1. match goal with |- context [(?a <? ?b)%nat] => destruct (Nat.ltb_spec a b); [lia|] end. reflexivity. }
    assert (FN : find_from percent s (List.length pre + List.length t + 1) = Some (List.length pre + List.length t + 2 + List.length t')%nat).
    { unfold find_from. rewrite K1. change (d :: t' ++ percent :: d2 :: tl) with ((d :: t') ++ percent :: d2 :: tl). rewrite find0_app; [|intros [K|K]; [congruence|now apply PT']]. cbn [List.length]. f_equal. lia. }
    rewrite S1. cbn [bind]. rewrite S2. cbn [bind]. rewrite FN.
    replace s with ((pre ++ t ++ [percent; d]) ++ render t' ((d2, t2) :: holes)) by (unfold s, tl; cbn [render]; rewrite <- !app_assoc; reflexivity).
    replace (List.length pre + List.length t + 2)%nat with (List.length (pre ++ t ++ [percent; d])) by (rewrite !app_length; cbn [List.length]; lia).
    rewrite IH; [|cbn in F; lia|split; [exact PT'|]].
    + cbn [map fst snd]. now rewrite <- !app_assoc.
    + intros e x Hx. apply W. now right.
Qed.
Lemma render_length : forall holes t, (List.length holes <= List.length (render t holes))%nat.
Proof. intros holes. induction holes as [|[d t'] h IH]; intros t; cbn [render List.length]; [lia|]. rewrite app_length. cbn [List.length]. specialize (IH t'). lia. Qed.
Lemma split_ok : forall t d t' holes, wf t ((d, t') :: holes) -> split (render t ((d, t') :: holes)) = Ok (t :: t' :: map snd holes, [d] :: map (fun h => [fst h]) holes).
Proof.
  intros t d t' holes W. unfold split. pose proof (proj1 W) as PT. cbn [render]. rewrite find0_app by exact PT.
  pose proof (split_loop_ok holes (S (List.length (t ++ percent :: d :: render t' holes))) [] t d t' [] []) as H. cbn [app List.length Nat.add render] in H. apply H; [|exact W].
  rewrite app_length. cbn [List.length]. pose proof (render_length holes t'). lia.
Qed.
Lemma nth_error_skip : forall A n (v : A) (l : list A) r, skipn n l = v :: r -> nth_error l n = Some v /\ skipn (S n) l = r /\ (n < List.length l)%nat.
Proof. intros A n. induction n as [|n IH]; intros v l r H; [destruct l; [discriminate|]; cbn in H; injection H as -> ->; cbn; repeat split; lia|]. destruct l as [|y l]; [discriminate|]. cbn in H. destruct (IH _ _ _ H) as [A1 [A2 A3]]. cbn. repeat split; auto. lia. Qed.
Lemma print_loop_ok : forall holes t i vp vals sci, skipn i vp = map (fun h : ascii * text => [fst h]) holes -> List.length sci = List.length vals -> (List.length vals <= i + List.length holes)%nat ->
  print_loop i (t :: map snd holes) vp vals sci = Ok (filled t holes (skipn i vals) (skipn i sci)).
Proof.
  intros holes. induction holes as [|[d t'] holes IH]; intros t i vp vals sci HP LS LV.
  - cbn [map print_loop]. cbn [List.length] in LV. destruct (Nat.ltb_spec i (List.length vals)); [lia|]. reflexivity.
  - change (map snd ((d, t') :: holes)) with (t' :: map snd holes). cbn [map fst] in HP. cbn [List.length] in LV.
    destruct (nth_error_skip _ _ _ _ _ HP) as [N1 [N2 N3]].
    assert (R : print_loop (S i) (t' :: map snd holes) vp vals sci = Ok (filled t' holes (skipn (S i) vals) (skipn (S i) sci))) by (apply IH; [exact N2|exact LS|lia]).
    cbn [print_loop]. cbn [print_loop] in R. rewrite R. destruct (Nat.ltb_spec i (List.length vals)) as [Hi|Hi].
    + destruct (skipn i vals) as [|v vr] eqn:EV; [pose proof (skipn_length i vals); rewrite EV in H; cbn in H; lia|].
      destruct (skipn i sci) as [|b br] eqn:EB; [pose proof (skipn_length i sci); rewrite EB in H; cbn in H; lia|].
      destruct (nth_error_skip _ _ _ _ _ EV) as [V1 [V2 _]]. destruct (nth_error_skip _ _ _ _ _ EB) as [B1 [B2 _]]. unfold at_vec. rewrite V1. cbn [bind]. unfold text in *. rewrite N1. cbn [bind]. rewrite B1. cbn [bind app filled]. now rewrite V2, B2.
    + rewrite (skipn_all2 (n := i) vals) by lia. rewrite (skipn_all2 (n := i) sci) by lia. rewrite (skipn_all2 (n := S i) vals) by lia. rewrite (skipn_all2 (n := S i) sci) by lia. reflexivity.
Qed.

(** Every format with at least one hole prints its texts with the numbers in the holes, in order, with the hole's precision, if there are at most as many
    numbers as holes. *)
Theorem C90_format : forall t hole holes vals sci, wf t (hole :: holes) -> List.length sci = List.length vals -> (List.length vals <= S (List.length holes))%nat ->
  print_msg (render t (hole :: holes)) vals sci = Ok (filled t (hole :: holes) vals sci).
Proof.
  intros t [d t'] holes vals sci W LS LV. unfold print_msg. rewrite split_ok by exact W. cbn [bind fst snd].
  apply (print_loop_ok ((d, t') :: holes) t 0 ([d] :: map (fun h => [fst h]) holes) vals sci); [reflexivity|exact LS|cbn [List.length]; lia].
Qed.
(** More numbers than holes: a precision is read beyond the end of the vector. *)
Theorem C90_too_many_numbers : forall t hole holes vals sci, wf t (hole :: holes) -> List.length sci = List.length vals -> (S (List.length holes) < List.length vals)%nat ->
  print_msg (render t (hole :: holes)) vals sci = UB.
Proof.
  intros t [d t'] holes vals sci W LS LV. unfold print_msg. rewrite split_ok by exact W. cbn [bind fst snd].
  assert (G : forall (hs : list (ascii * text)) (t : text) i (vp : list text), List.length vp = (i + List.length hs)%nat -> (i + List.length hs < List.length vals)%nat -> print_loop i (t :: map snd hs) vp vals sci = UB).
  { intros hs. induction hs as [|[e x] hs IH]; intros u i vp HP HL.
    - cbn [map print_loop]. cbn [List.length] in *. destruct (Nat.ltb_spec i (List.length vals)); [|lia]. unfold at_vec.
      destruct (nth_error vals i) eqn:E; [|reflexivity]. cbn [bind]. destruct (nth_error vp i) eqn:E2; [|reflexivity]. assert (i < List.length vp)%nat by (apply nth_error_Some; congruence). lia.
    - change (map snd ((e, x) :: hs)) with (x :: map snd hs). cbn [List.length] in *.
      assert (R : print_loop (S i) (x :: map snd hs) vp vals sci = UB) by (apply IH; lia). cbn [print_loop]. cbn [print_loop] in R. rewrite R.
      destruct (Nat.ltb_spec i (List.length vals)); [|lia]. unfold at_vec. destruct (nth_error vals i) eqn:E1; [|reflexivity]. cbn [bind].
      destruct (nth_error vp i) eqn:E2; [|reflexivity]. cbn [bind]. destruct (nth_error sci i) eqn:E3; reflexivity. }
  apply (G ((d, t') :: holes) t 0%nat); cbn [List.length]; rewrite ?map_length; lia.
Qed.
(** Refuted: text without a hole is printed. *)
Theorem C90_no_hole_refuted : forall t vals sci, plain t -> print_msg t vals sci = Ok [].
Proof. intros t vals sci H. unfold print_msg, split. now rewrite find0_plain. Qed.
(** Refuted: every text can be printed: one that ends in the delimiter throws out_of_range. *)
Theorem C90_trailing_delimiter_refuted : forall t vals sci, plain t -> print_msg (t ++ [percent]) vals sci = Throw.
Proof.
  intros t vals sci H. unfold print_msg, split. rewrite find0_app by exact H. cbn [split_loop].
  assert (L : List.length (t ++ [percent]) = (List.length t + 1)%nat) by (rewrite app_length; reflexivity).
  assert ((List.length t <? 0)%nat = false) as -> by (apply Nat.ltb_ge; lia).
  assert (S1 : substr (t ++ [percent]) 0 (Some (List.length t - 0)%nat) = Ok t).
  { unfold substr. assert ((List.length (t ++ [percent]) <? 0)%nat = false) as -> by (apply Nat.ltb_ge; lia). f_equal. cbn [skipn]. apply firstn_app_len. lia. }
  assert (S2 : substr (t ++ [percent]) (List.length t + 1) (Some 1%nat) = Ok []).
  { unfold substr. rewrite L. assert ((List.length t + 1 <? List.length t + 1)%nat = false) as -> by (apply Nat.ltb_ge; lia). f_equal. rewrite skipn_all2 by lia. reflexivity. }
  assert (S3 : substr (t ++ [percent]) (List.length t + 2) (Some (List.length (t ++ [percent]))) = Throw).
  { unfold substr. rewrite L. assert ((List.length t + 1 <? List.length t + 2)%nat = true) as -> by (apply Nat.ltb_lt; lia). reflexivity. }
  assert (FN : find_from percent (t ++ [percent]) (List.length t + 1) = None) by (unfold find_from; rewrite skipn_all2 by lia; reflexivity).
  rewrite S1. cbn [bind]. rewrite S2. cbn [bind]. rewrite FN, S3. reflexivity.
Qed.
(** The loop of split ends for every text: the number of turns granted is never used up (UB of [split] could only come from there). *)
Theorem C90_split_ends : forall s, split s <> UB.
Proof.
  assert (FF : forall s from p, find_from percent s from = Some p -> (from <= p < List.length s)%nat).
  { intros s from p H. unfold find_from in H. destruct (find0 percent (skipn from s)) as [q|] eqn:E; [|discriminate]. injection H as <-. split; [lia|].
    assert (Q : forall l q, find0 percent l = Some q -> (q < List.length l)%nat).
    { intros l. induction l as [|x l IH]; intros k K; [discriminate|]. cbn in K. destruct (Ascii.eqb x percent); [injection K as <-; cbn; lia|].
      destruct (find0 percent l) as [j|] eqn:EJ; [|discriminate]. injection K as <-. specialize (IH _ eq_refl). cbn. lia. }
    apply Q in E. rewrite skipn_length in E. lia. }
  assert (SU : forall s a n, substr s a n <> UB) by (intros; unfold substr; destruct (_ <? _)%nat; discriminate).
  assert (G : forall fuel s i pos vs vp, (List.length s <= pos + fuel)%nat -> (pos < List.length s)%nat -> split_loop fuel s i pos vs vp <> UB).
  { intros fuel. induction fuel as [|fuel IH]; intros s i pos vs vp HF HP; [lia|]. cbn [split_loop].
    match goal with |- context [substr s i ?n] => pose proof (SU s i n); destruct (substr s i n) end; cbn [bind]; try discriminate; try contradiction.
    match goal with |- context [substr s ?j (Some 1%nat)] => pose proof (SU s j (Some 1%nat)); destruct (substr s j (Some 1%nat)) end; cbn [bind]; try discriminate; try contradiction.
    destruct (find_from percent s (pos + 1)) as [q|] eqn:E; [|].
    - apply FF in E. apply IH; lia.
    - match goal with |- context [substr s ?j ?n] => pose proof (SU s j n); destruct (substr s j n) end; cbn [bind]; try discriminate; contradiction. }
  intros s. unfold split. destruct (find0 percent s) as [p|] eqn:E; [|discriminate]. apply G; [lia|]. assert (find_from percent s 0 = Some p) by (unfold find_from; cbn [skipn]; rewrite E; reflexivity). now apply FF in H.
Qed.

(** ** The message of an accepted iteration *)
Theorem C90_iteration_message : forall digit a b c d e, digit <> percent -> print_msg (msg_success [digit]) [a; b; c; d; e] success_sci =
  Ok [Text (lit "Iter: "); Num a (lit "0") false; Text (lit " cost: "); Num b [digit] true; Text (lit " reduc: "); Num c [digit] true; Text (lit " grad: "); Num d [digit] true;
      Text (lit " log10lam: "); Num e [digit] false; Text ["010"%char]].
Proof.
  intros digit a b c d e N.
  pose proof (C90_format (lit "Iter: ") ("0"%char, lit " cost: ") [(digit, lit " reduc: "); (digit, lit " grad: "); (digit, lit " log10lam: "); (digit, ["010"%char])] [a; b; c; d; e] success_sci) as H.
  cbn [filled success_sci] in H. apply H; [|reflexivity|cbn; lia]. unfold wf, plain. split; [cbn; intuition discriminate|].
  intros d0 t0 Hin. cbn in Hin. repeat (destruct Hin as [Hin|Hin]; [injection Hin as <- <-; split; [first [exact N|discriminate]|cbn; intuition discriminate]|]). destruct Hin.
Qed.
(** Refuted: the configured number of digits is used, if it has two figures: 12 digits print with one, and a stray 2 follows. *)
Theorem C90_precision_refuted : forall a b c d e, exists rest, print_msg (msg_success (lit "12")) [a; b; c; d; e] success_sci =
  Ok (Text (lit "Iter: ") :: Num a (lit "0") false :: Text (lit " cost: ") :: Num b (lit "1") true :: Text (lit "2 reduc: ") :: rest).
Proof. intros. eexists. reflexivity. Qed.
Example C90_wf_example : wf (lit "a ") [("3"%char, lit " b")] /\ render (lit "a ") [("3"%char, lit " b")] = lit "a %3 b".
Proof. split; [|reflexivity]. split; [cbn; unfold plain; cbn; intuition discriminate|]. intros d t [H|[]]. injection H as <- <-. split; [discriminate|unfold plain; cbn; intuition discriminate]. Qed.

Print Assumptions C90_format. Print Assumptions C90_too_many_numbers. Print Assumptions C90_no_hole_refuted. Print Assumptions C90_trailing_delimiter_refuted.
Print Assumptions C90_split_ends. Print Assumptions C90_iteration_message. Print Assumptions C90_precision_refuted.

(** * C89: assignments to a dynamic state from Python *)
From Coq Require Import Reals List Arith ZArith Bool Lia Lra.
Import ListNotations.
From Verif Require Import Base Vec3 PydModel.
Local Open Scope R_scope.

(** ** Specification: the property a call names, and the last value given to a property in a history *)
Definition meant (w : dwrite) : dprop * dval :=
  match w with
  | WDt x => (PDt, DR x) | WCom v => (PCom, DV v) | WLmom v => (PLmom, DV v) | WAmom v => (PAmom, DV v) | WLmomd v => (PLmomd, DV v) | WAmomd v => (PAmomd, DV v)
  | WPos i v => (PPos i, DV v) | WForce i v => (PForce i, DV v) | WTorque i v => (PTorque i, DV v) | WAct i b => (PAct i, DB b)
  end.
Definition dprop_eq : forall p q : dprop, {p = q} + {p <> q}.
Proof. decide equality; apply Z.eq_dec. Defined.
Definition last_value (f : dwrite -> dprop * dval) (h : list dwrite) (p : dprop) (d : dval) : dval :=
  fold_left (fun d w => if dprop_eq (fst (f w)) p then snd (f w) else d) h d.
Definition eff_of (p : dprop) : option Z := match p with PPos i | PForce i | PTorque i | PCop i | PAct i => Some i | _ => None end.
Definition in_range (p : dprop) : Prop := match eff_of p with Some i => (0 <= i < 4)%Z | None => True end.
Definition initially (p : dprop) : dval := match p with PDt => DR (/ 10) | PAct _ => DB false | _ => DV v0 end.
Definition torque_call (w : dwrite) : Prop := match w with WTorque _ _ => True | _ => False end.
(** What the calls do: a torque goes to the position. *)
Definition done (w : dwrite) : dprop * dval := match w with WTorque i v => (PPos i, DV v) | _ => meant w end.

Definition sized (s : dstate) : Prop := length (ds_act s) = 4%nat /\ length (ds_pos s) = 4%nat /\ length (ds_force s) = 4%nat /\ length (ds_torque s) = 4%nat /\ length (ds_cop s) = 4%nat.
Lemma set_nth_len : forall A (l : list A) i x, length (set_nth l i x) = length l.
Proof. intros A l. induction l as [|y l IH]; intros [|i] x; cbn; auto. Qed.
Lemma nth_error_set : forall A (l : list A) i k x, (i < length l)%nat -> nth_error (set_nth l i x) k = if Nat.eqb k i then Some x else nth_error l k.
Proof. intros A l. induction l as [|y l IH]; intros [|i] [|k] x H; cbn in *; try lia; auto. apply IH. lia. Qed.
Lemma at_eff_put : forall A (l l' : list A) i k x, put_eff l i x = Ok l' -> length l' = length l /\ at_eff l' k = if Z.eq_dec k i then Ok x else at_eff l k.
Proof.
  intros A l l' i k x H. unfold put_eff in H. destruct (Z.ltb_spec i 0); [discriminate|]. destruct (Nat.ltb_spec (Z.to_nat i) (length l)); [|discriminate]. injection H as <-.
  split; [apply set_nth_len|]. unfold at_eff. destruct (Z.ltb_spec k 0); [destruct (Z.eq_dec k i); [lia|reflexivity]|].
  rewrite nth_error_set by assumption. destruct (Z.eq_dec k i) as [->|N]; [now rewrite Nat.eqb_refl|]. destruct (Nat.eqb_spec (Z.to_nat k) (Z.to_nat i)); [lia|reflexivity].
Qed.
Lemma at_eff_in : forall A (l : list A) i, length l = 4%nat -> ((0 <= i < 4)%Z -> exists x, at_eff l i = Ok x) /\ (~ (0 <= i < 4)%Z -> at_eff l i = UB).
Proof.
  intros A l i L. unfold at_eff. split; intros H; destruct (Z.ltb_spec i 0); try lia; [|reflexivity|].
  - destruct (nth_error l (Z.to_nat i)) eqn:E; [eauto|]. apply nth_error_None in E. lia.
  - destruct (nth_error l (Z.to_nat i)) eqn:E; [|reflexivity]. assert (Z.to_nat i < length l)%nat by (apply nth_error_Some; congruence). lia.
Qed.
Lemma put_eff_in : forall A (l : list A) i x, length l = 4%nat -> ((0 <= i < 4)%Z -> exists l', put_eff l i x = Ok l') /\ (~ (0 <= i < 4)%Z -> put_eff l i x = UB).
Proof.
  intros A l i x L. unfold put_eff. split; intros H; destruct (Z.ltb_spec i 0); try lia; [|reflexivity|]; destruct (Nat.ltb_spec (Z.to_nat i) (length l)); try lia; eauto.
Qed.
Lemma read_sized : forall s p, sized s -> (in_range p -> exists v, dread p s = Ok v) /\ (~ in_range p -> dread p s = UB).
Proof.
  intros s p [A [B [C [D E]]]]. destruct p as [| | | | | |i|i|i|i|i]; cbn [dread]; unfold in_range; cbn [eff_of]; (split; intros H; [eauto; fail|tauto]) || idtac.
  - destruct (at_eff_in _ _ i B) as [X Y]. split; intros H; [destruct (X H) as [x ->]; cbn; eauto|rewrite (Y H); reflexivity].
  - destruct (at_eff_in _ _ i C) as [X Y]. split; intros H; [destruct (X H) as [x ->]; cbn; eauto|rewrite (Y H); reflexivity].
  - destruct (at_eff_in _ _ i D) as [X Y]. split; intros H; [destruct (X H) as [x ->]; cbn; eauto|rewrite (Y H); reflexivity].
  - destruct (at_eff_in _ _ i E) as [X Y]. split; intros H; [destruct (X H) as [x ->]; cbn; eauto|rewrite (Y H); reflexivity].
  - destruct (at_eff_in _ _ i A) as [X Y]. split; intros H; [destruct (X H) as [x ->]; cbn; eauto|rewrite (Y H); reflexivity].
Qed.
Lemma apply_ok : forall w s, sized s -> in_range (fst (done w)) -> exists s', dapply w s = Ok s' /\ sized s' /\
  forall p, dread p s' = if dprop_eq (fst (done w)) p then Ok (snd (done w)) else dread p s.
Proof.
  intros w [dt c l a ld ad act p f t cop] [A [B [C [D E]]]]. cbn [ds_act ds_pos ds_force ds_torque ds_cop] in A, B, C, D, E.
  assert (NP : forall r : dprop, dprop_eq r r = left eq_refl \/ exists e, dprop_eq r r = left e) by (intros r; destruct (dprop_eq r r) as [e|n]; [right; eauto|congruence]).
  destruct w as [x|v|v|v|v|v|i v|i v|i v|i b]; cbn [done meant fst snd dapply]; unfold in_range; cbn [eff_of]; intros R.
  1-6: eexists; split; [reflexivity|]; split; [repeat split; assumption|]; intros q; destruct q; cbn [dread ds_dt ds_com ds_lmom ds_amom ds_lmomd ds_amomd ds_act ds_pos ds_force ds_torque ds_cop];
       match goal with |- context [dprop_eq ?x ?y] => destruct (dprop_eq x y) as [K|K] end; try discriminate; try reflexivity; congruence.
  all: match goal with |- context [put_eff ?l ?i ?v] => destruct (proj1 (put_eff_in _ l i v ltac:(assumption)) R) as [l' H]; rewrite H end; cbn [bind];
       eexists; (split; [reflexivity|]); (split; [repeat split; cbn [ds_act ds_pos ds_force ds_torque ds_cop]; try assumption; rewrite (proj1 (at_eff_put _ _ _ _ 0%Z _ H)); assumption|]);
       intros q; destruct q as [| | | | | |k|k|k|k|k]; cbn [dread ds_dt ds_com ds_lmom ds_amom ds_lmomd ds_amomd ds_act ds_pos ds_force ds_torque ds_cop];
       match goal with |- context [dprop_eq ?x ?y] => destruct (dprop_eq x y) as [K|K] end; try discriminate; try reflexivity;
       rewrite (proj2 (at_eff_put _ _ _ _ k _ H)); destruct (Z.eq_dec k i) as [->|N]; try reflexivity; congruence.
Qed.
Lemma new_sized : sized dstate_new.
Proof. repeat split. Qed.
Lemma new_reads : forall p, in_range p -> dread p dstate_new = Ok (initially p).
Proof.
  intros p H. unfold in_range in H. destruct p as [| | | | | |i|i|i|i|i]; cbn [eff_of] in H; try reflexivity; assert (K : i = 0%Z \/ i = 1%Z \/ i = 2%Z \/ i = 3%Z) by lia;
  destruct K as [->|[->|[->| ->]]]; reflexivity.
Qed.

(** For every history of calls with effector numbers 0 to 3, every property reads the last value that any call put there. *)
Theorem C89_reads : forall h, (forall w, In w h -> in_range (fst (done w))) ->
  exists s, drun h dstate_new = Ok s /\ forall p, in_range p -> dread p s = Ok (last_value done h p (initially p)).
Proof.
  assert (G : forall h s f, sized s -> (forall p, in_range p -> dread p s = Ok (f p)) -> (forall w, In w h -> in_range (fst (done w))) ->
    exists s', drun h s = Ok s' /\ forall p, in_range p -> dread p s' = Ok (last_value done h p (f p))).
  { intros h. induction h as [|w h IH]; intros s f SZ RD H; [exists s; split; [reflexivity|exact RD]|]. cbn [drun].
    destruct (apply_ok w s SZ (H w (or_introl eq_refl))) as [s1 [E [SZ1 R1]]]. rewrite E. cbn [bind].
    destruct (IH s1 (fun p => if dprop_eq (fst (done w)) p then snd (done w) else f p) SZ1) as [s' [E' R']].
    - intros p Hp. rewrite R1. destruct (dprop_eq (fst (done w)) p); [reflexivity|now apply RD].
    - intros w' Hw. apply H. now right.
    - exists s'. split; [exact E'|]. intros p Hp. rewrite (R' p Hp). reflexivity. }
  intros h H. apply (G h dstate_new initially new_sized new_reads H).
Qed.
(** So without calls of setEffTorque a state is a set of independent variables. *)
Theorem C89_last_assignment_wins : forall h, (forall w, In w h -> in_range (fst (meant w)) /\ ~ torque_call w) ->
  exists s, drun h dstate_new = Ok s /\ forall p, in_range p -> dread p s = Ok (last_value meant h p (initially p)).
Proof.
  intros h H. assert (EQ : forall w, In w h -> done w = meant w) by (intros w Hw; destruct w; try reflexivity; destruct (H _ Hw) as [_ K]; now destruct K).
  destruct (C89_reads h) as [s [E R]]; [intros w Hw; rewrite (EQ w Hw); apply (H w Hw)|]. exists s. split; [exact E|]. intros p Hp. rewrite (R p Hp). f_equal.
  clear -EQ. generalize (initially p). induction h as [|w h IH]; intros d; [reflexivity|]. unfold last_value in *. cbn [fold_left]. rewrite (EQ w (or_introl eq_refl)).
  apply IH. intros w' Hw. apply EQ. now right.
Qed.
(** Refuted: setEffTorque sets the torque. No history of calls ever changes a torque, and each such call overwrites the position. *)
Theorem C89_torque_refuted : (forall h s i, drun h dstate_new = Ok s -> (0 <= i < 4)%Z -> dread (PTorque i) s = Ok (DV v0)) /\
  (forall h i v, (forall w, In w h -> in_range (fst (done w))) -> (0 <= i < 4)%Z -> exists s, drun (h ++ [WTorque i v]) dstate_new = Ok s /\ dread (PPos i) s = Ok (DV v)).
Proof.
  split.
  - assert (G : forall h s s', drun h s = Ok s' -> ds_torque s' = ds_torque s).
    { intros h. induction h as [|w h IH]; intros s s' H; cbn [drun] in H; [now injection H as <-|]. destruct (dapply w s) as [s1| |] eqn:E; [|discriminate|discriminate]. cbn [bind] in H.
      rewrite (IH _ _ H). clear -E. destruct s as [dt c l a ld ad act p f t cop]. destruct w; cbn [dapply] in E;
      try (injection E as <-; reflexivity); destruct (put_eff _ _ _); cbn [bind] in E; try discriminate; injection E as <-; reflexivity. }
    intros h s i H Hi. cbn [dread]. rewrite (G _ _ _ H). pose proof (new_reads (PTorque i)) as N. cbn [dread] in N. apply N. exact Hi.
  - intros h i v H Hi. destruct (C89_reads (h ++ [WTorque i v])) as [s [E R]].
    + intros w Hw. apply in_app_or in Hw. destruct Hw as [Hw|[<-|[]]]; [auto|exact Hi].
    + exists s. split; [exact E|]. rewrite (R (PPos i) Hi). unfold last_value. rewrite fold_left_app. cbn [fold_left done fst snd]. destruct (dprop_eq (PPos i) (PPos i)); [reflexivity|congruence].
Qed.
(** An effector number outside 0 to 3 is undefined behaviour (no exception), for every call and reading, after every history. *)
Theorem C89_out_of_range : forall h s, drun h dstate_new = Ok s -> (forall p, ~ in_range p -> dread p s = UB) /\ (forall w, ~ in_range (fst (meant w)) -> dapply w s = UB).
Proof.
  intros h s H. assert (SZ : sized s).
  { revert H. generalize new_sized. generalize dstate_new. induction h as [|w h IH]; intros s0 SZ H; cbn [drun] in H; [now injection H as <-|].
    destruct (dapply w s0) as [s1| |] eqn:E; [|discriminate|discriminate]. cbn [bind] in H. apply (IH s1); [|exact H]. clear -SZ E.
    destruct s0 as [dt c l a ld ad act p f t cop]. destruct SZ as [A [B [C [D F]]]]. cbn [ds_act ds_pos ds_force ds_torque ds_cop] in *.
    destruct w; cbn [dapply] in E; try (injection E as <-; repeat split; assumption);
    match type of E with context [put_eff ?l ?i ?v] => destruct (put_eff l i v) as [l'| |] eqn:K end; cbn [bind] in E; try discriminate; injection E as <-; repeat split; cbn [ds_act ds_pos ds_force ds_torque ds_cop]; try assumption;
    rewrite (proj1 (at_eff_put _ _ _ _ 0%Z _ K)); assumption. }
  split; [intros p; now apply read_sized|]. intros w Hw. destruct s as [dt c l a ld ad act p f t cop]. destruct SZ as [A [B [C [D F]]]]. cbn [ds_act ds_pos ds_force ds_torque ds_cop] in *.
  destruct w; cbn [meant fst] in Hw; unfold in_range in Hw; cbn [eff_of] in Hw; try tauto; cbn [dapply]; match goal with |- context [put_eff ?l ?i ?v] => rewrite (proj2 (put_eff_in _ l i v ltac:(assumption)) Hw) end; reflexivity.
Qed.
Example C89_example : exists s, drun [WForce 1 (V3 0 0 5); WPos 1 (V3 1 2 0); WForce 2 (V3 0 0 7); WForce 1 (V3 0 0 6); WTorque 1 (V3 9 9 9)] dstate_new = Ok s /\
  dread (PForce 1) s = Ok (DV (V3 0 0 6)) /\ dread (PTorque 1) s = Ok (DV v0) /\ dread (PPos 1) s = Ok (DV (V3 9 9 9)) /\ dread (PForce 2) s = Ok (DV (V3 0 0 7)).
Proof. eexists. repeat split. Qed.

Print Assumptions C89_reads. Print Assumptions C89_last_assignment_wins. Print Assumptions C89_torque_refuted. Print Assumptions C89_out_of_range.

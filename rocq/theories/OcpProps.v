(** * Sequences of states and controls of the LQR solver (C96) *)
From Coq Require Import Reals List Arith ZArith Bool Lia Lra.
Import ListNotations.
From Verif Require Import Base OcpModel.
Local Open Scope R_scope.

(** ** initialize *)
(** A problem that was never initialised gets T+1 zero states and T zero controls of the dimensions of the setting. *)
Theorem C96_first_initialize : forall T nx nu, (0 <= T)%Z -> let o := ocp_initialize (T, nx, nu) ocp_new in
  Z.of_nat (length (o_states o)) = (T + 1)%Z /\ Z.of_nat (length (o_controls o)) = T /\
  (forall s, In s (o_states o) -> length s = nx /\ forall x, In x s -> x = 0) /\
  (forall c, In c (o_controls o) -> length (oc_ff c) = nu /\ length (oc_fb c) = nu /\ (forall r, In r (oc_fb c) -> length r = nx /\ forall x, In x r -> x = 0) /\ forall x, In x (oc_ff c) -> x = 0).
Proof.
  intros T nx nu H o. cbn in o. subst o. unfold states_resize, controls_resize. cbn [o_states o_controls app]. rewrite !repeat_length. split; [lia|]. split; [lia|]. split.
  - intros s I. apply repeat_spec in I. subst s. unfold state_zero. rewrite repeat_length. split; [reflexivity|]. intros x. apply repeat_spec.
  - intros c I. apply repeat_spec in I. subst c. unfold control_zero. cbn [oc_ff oc_fb]. rewrite !repeat_length. split; [reflexivity|]. split; [reflexivity|]. split; [|intros x; apply repeat_spec].
    intros r J. apply repeat_spec in J. subst r. rewrite repeat_length. split; [reflexivity|]. intros x. apply repeat_spec.
Qed.
(** After any history of initialisations the controls are those of the last one. *)
Theorem C96_controls_of_the_last : forall h T nx nu o, o_controls (ocp_history (h ++ [(T, nx, nu)]) o) = o_controls (ocp_initialize (T, nx, nu) ocp_new).
Proof. intros h T nx nu o. unfold ocp_history. rewrite fold_left_app. reflexivity. Qed.
(** The states of all initialisations pile up, the oldest first. *)
Theorem C96_states_pile_up : forall h, o_states (ocp_history h ocp_new) = flat_map (fun d => o_states (ocp_initialize d ocp_new)) h.
Proof.
  intros h. assert (G : forall o, o_states (ocp_history h o) = o_states o ++ flat_map (fun d => o_states (ocp_initialize d ocp_new)) h).
  { induction h as [|[[T nx] nu] h IH]; intros o; cbn [ocp_history fold_left flat_map]; [now rewrite app_nil_r|].
    change (fold_left (fun o d => ocp_initialize d o) h ?x) with (ocp_history h x). rewrite IH. cbn [ocp_initialize o_states ocp_new]. unfold states_resize. cbn [app]. now rewrite app_assoc. }
  apply (G ocp_new).
Qed.
(** Refuted: a second initialisation gives the state sequence of its setting: with at least one state from before, its length is wrong and the first state is an old one. *)
Theorem C96_second_initialize_refuted : forall T nx nu T' nx' nu', (0 <= T)%Z -> (0 <= T')%Z -> let o := ocp_history [(T, nx, nu); (T', nx', nu')] ocp_new in
  Z.of_nat (length (o_states o)) = (T + T' + 2)%Z /\ (forall t, (t <= Z.to_nat T)%nat -> exists s, nth_error (o_states o) t = Some s /\ length s = nx).
Proof.
  intros T nx nu T' nx' nu' H H' o. subst o. rewrite C96_states_pile_up. cbn [flat_map ocp_initialize ocp_new o_states]. unfold states_resize. cbn [app]. rewrite app_nil_r, app_length, !repeat_length. split; [lia|].
  intros t Ht. exists (state_zero nx). split; [|unfold state_zero; apply repeat_length]. rewrite nth_error_app1 by (rewrite repeat_length; lia). rewrite (nth_error_nth' _ (state_zero nx)) by (rewrite repeat_length; lia). f_equal. apply nth_repeat.
Qed.

(** ** Assignment *)
Theorem C96_assignment : forall lhs rhs, rhs <> [] -> controls_assign lhs rhs = Ok rhs.
Proof.
  intros lhs rhs N. unfold controls_assign. destruct rhs as [|c r]; [congruence|]. cbv zeta. unfold controls_resize. rewrite Nat2Z.id. f_equal.
  generalize (c :: r) as l. intros l. generalize (control_zero (length (hd [] (oc_fb c))) (length (oc_fb c))) as z. intros z. induction l as [|x l IH]; [reflexivity|]. cbn [length repeat combine map snd]. now rewrite IH.
Qed.
(** Refuted: an empty sequence can be assigned. *)
Theorem C96_assign_empty_refuted : forall lhs, controls_assign lhs [] = UB.
Proof. reflexivity. Qed.

(** ** Arithmetic. The specification: sums and multiples of the feedforward entry by entry; a multiple keeps the feedback, a sum has that of its right operand. *)
Definition same_dims (a b : ocontrol) : Prop := length (oc_ff a) = length (oc_ff b).
Lemma vplus_spec a b : length a = length b -> exists r, vplus_ a b = Ok r /\ length r = length a /\ forall i, nth i r 0 = nth i a 0 + nth i b 0.
Proof.
  intros H. unfold vplus_. rewrite (proj2 (Nat.eqb_eq _ _) H). eexists. split; [reflexivity|]. split; [rewrite map_length, combine_length; lia|].
  revert b H. induction a as [|x a IH]; intros [|y b] H i; try discriminate H; [destruct i; cbn; lra|]. destruct i; cbn [combine map nth fst snd]; [reflexivity|]. apply IH. now injection H.
Qed.
Theorem C96_sum : forall a b, (length a <= length b)%nat -> (forall t x y, nth_error a t = Some x -> nth_error b t = Some y -> same_dims x y) ->
  exists r, controls_plus a b = Ok r /\ length r = length a /\ forall t x y, nth_error a t = Some x -> nth_error b t = Some y -> exists z, nth_error r t = Some z /\
    oc_fb z = oc_fb y /\ length (oc_ff z) = length (oc_ff x) /\ forall i, nth i (oc_ff z) 0 = nth i (oc_ff x) 0 + nth i (oc_ff y) 0.
Proof.
  induction a as [|x a IH]; intros [|y b] L D; cbn [length] in L; try lia.
  - exists []. split; [reflexivity|]. split; [reflexivity|]. intros [|t] ? ? E; discriminate E.
  - exists []. split; [reflexivity|]. split; [reflexivity|]. intros [|t] ? ? E; discriminate E.
  - destruct (vplus_spec (oc_ff x) (oc_ff y) (D 0%nat x y eq_refl eq_refl)) as (f & F & F1 & F2). destruct (IH b ltac:(lia) (fun t => D (S t))) as (r & E & R1 & R2).
    exists (OC f (oc_fb y) :: r). cbn [controls_plus]. unfold control_plus. rewrite F. cbn [bind]. rewrite E. cbn [bind]. split; [reflexivity|]. split; [cbn [length]; now rewrite R1|].
    intros [|t] x' y' X Y; cbn [nth_error] in X, Y |- *; [injection X as <-; injection Y as <-; eexists; split; [reflexivity|]; auto|]. now apply R2.
Qed.
Theorem C96_multiple : forall l k, length (controls_times l k) = length l /\ forall t x, nth_error l t = Some x -> exists z, nth_error (controls_times l k) t = Some z /\
    oc_fb z = oc_fb x /\ length (oc_ff z) = length (oc_ff x) /\ forall i, nth i (oc_ff z) 0 = k * nth i (oc_ff x) 0.
Proof.
  intros l k. unfold controls_times. split; [apply map_length|]. intros t x X. exists (control_times x k). split; [exact (map_nth_error (fun c => control_times c k) t l X)|]. cbn [control_times oc_fb oc_ff]. unfold vtimes. split; [reflexivity|]. split; [apply map_length|].
  intros i. replace 0 with ((fun x => x * k) 0) at 1 by lra. rewrite (map_nth (fun x => x * k)). ring.
Qed.
(** Multiples distribute over sums, and sums are associative, for sequences of equal lengths and dimensions. *)
Definition alike (a b : list ocontrol) : Prop := Forall2 same_dims a b.
Lemma alike_plus a b : alike a b -> exists r, controls_plus a b = Ok r /\ alike a r.
Proof.
  intros H. induction H as [|x y a b D H (r & E & A)]; [exists []; split; [reflexivity|constructor]|]. destruct (vplus_spec _ _ D) as (f & F & F1 & _).
  cbn [controls_plus]. unfold control_plus. rewrite F. cbn [bind]. rewrite E. cbn [bind]. eexists. split; [reflexivity|]. constructor; [unfold same_dims; cbn [oc_ff]; now symmetry|exact A].
Qed.
Lemma vplus_eq a b : length a = length b -> vplus_ a b = Ok (map (fun p => fst p + snd p) (combine a b)).
Proof. intros H. unfold vplus_. now rewrite (proj2 (Nat.eqb_eq _ _) H). Qed.
Theorem C96_distributes : forall a b k, alike a b -> exists r, controls_plus a b = Ok r /\ controls_plus (controls_times a k) (controls_times b k) = Ok (controls_times r k).
Proof.
  intros a b k H. induction H as [|x y a b D H (r & E & A)]; [exists []; split; reflexivity|]. unfold same_dims in D.
  cbn [controls_plus controls_times map]. unfold control_plus. cbn [control_times oc_ff oc_fb]. rewrite (vplus_eq (vtimes k (oc_ff x))) by (unfold vtimes; now rewrite !map_length). rewrite (vplus_eq _ _ D). cbn [bind]. rewrite E. cbn [bind].
  fold (controls_times a k) (controls_times b k). rewrite A. cbn [bind]. eexists. split; [reflexivity|]. cbn [controls_times map]. unfold control_times at 1. cbn [oc_ff oc_fb]. do 3 f_equal.
  clear. unfold vtimes. generalize (oc_ff x) (oc_ff y). intros u. induction u as [|p u IH]; intros [|q v]; try reflexivity. cbn [map combine fst snd]. rewrite IH. f_equal. lra.
Qed.
Theorem C96_associative : forall a b c, alike a b -> alike b c -> exists ab bc r, controls_plus a b = Ok ab /\ controls_plus b c = Ok bc /\ controls_plus ab c = Ok r /\ controls_plus a bc = Ok r.
Proof.
  intros a b c H. revert c. induction H as [|x y a b D H IH]; intros c K; inversion K as [|? z ? c' D' K']; subst; [exists [], [], []; repeat split; reflexivity|].
  destruct (IH c' K') as (ab & bc & r & E1 & E2 & E3 & E4). unfold same_dims in D, D'. cbn [controls_plus]. unfold control_plus. rewrite (vplus_eq _ _ D), (vplus_eq _ _ D'). cbn [bind]. rewrite E1, E2. cbn [bind].
  do 3 eexists. split; [reflexivity|]. split; [reflexivity|]. cbn [controls_plus]. unfold control_plus. cbn [oc_ff oc_fb]. rewrite !vplus_eq by (rewrite map_length, combine_length; lia). cbn [bind]. rewrite E3, E4. cbn [bind]. split; [reflexivity|]. do 3 f_equal.
  clear -D D'. revert D D'. generalize (oc_ff x) (oc_ff y) (oc_ff z). intros u. induction u as [|p u IH]; intros [|q v] [|s w] A B; try discriminate; [reflexivity|]. cbn [map combine fst snd]. rewrite IH by (cbn in *; lia). f_equal. lra.
Qed.
(** Refuted: sums are commutative: the feedback of the left operand is lost. *)
Theorem C96_commutative_refuted : exists a b ab ba, alike a b /\ controls_plus a b = Ok ab /\ controls_plus b a = Ok ba /\ ab <> ba.
Proof.
  exists [OC [1] [[2]]], [OC [1] [[3]]]. do 2 eexists. split; [repeat constructor|]. split; [reflexivity|]. split; [reflexivity|]. cbn [oc_fb]. intros E. injection E as E. lra.
Qed.
(** A right operand that is too short is read past its end. *)
Theorem C96_short_operand : forall a b, alike (firstn (length b) a) b -> (length b < length a)%nat -> controls_plus a b = UB.
Proof.
  intros a b. revert a. induction b as [|y b IH]; intros [|x a] H L; cbn [length] in L; try lia; [reflexivity|]. cbn [length firstn] in H. inversion H as [|? ? ? ? D H']; subst.
  cbn [controls_plus]. unfold control_plus. rewrite (vplus_eq _ _ D). cbn [bind]. rewrite IH by (assumption || lia). reflexivity.
Qed.

(** ** Concrete cases *)
Example C96_demo : o_states (ocp_history [(1%Z, 2%nat, 1%nat); (1%Z, 3%nat, 1%nat)] ocp_new) = [[0; 0]; [0; 0]; [0; 0; 0]; [0; 0; 0]] /\
  alike [OC [1; 2] [[3]]; OC [4; 5] [[6]]] [OC [7; 8] [[9]]; OC [1; 1] [[1]]] /\ exists r, controls_plus [OC [1; 2] [[3]]; OC [4; 5] [[6]]] [OC [7; 8] [[9]]; OC [1; 1] [[1]]] = Ok r /\ nth_error r 1 = Some (OC [4 + 1; 5 + 1] [[1]]).
Proof. split; [reflexivity|]. split; [repeat constructor|]. eexists. split; reflexivity. Qed.
Print Assumptions C96_first_initialize. Print Assumptions C96_controls_of_the_last. Print Assumptions C96_states_pile_up. Print Assumptions C96_second_initialize_refuted.
Print Assumptions C96_assignment. Print Assumptions C96_assign_empty_refuted. Print Assumptions C96_sum. Print Assumptions C96_multiple. Print Assumptions C96_distributes.
Print Assumptions C96_associative. Print Assumptions C96_commutative_refuted. Print Assumptions C96_short_operand.

(** * C78: the passes of DynamicsOptimizer::optimize *)
From Coq Require Import Reals List Arith ZArith Bool String Lia Lra FunctionalExtensionality.
Import ListNotations.
From Verif Require Import Base BaseProofs Vec3 ExprsModel ConicModel ConicSpec OptVarModel OptVarSpec CntModel CntSpec CntProofs CntProps
  DynModel DynSpec DynProofs DynProofs2 DynProofs3 DynProofs4 DynProps DynStoreSpec DynStoreProofs DynStoreProps.
Local Open Scope R_scope.

(** ** Specification *)
(** The history of one call: pass k got sequence q_k, the solver answered x_k, the pass ended with a sequence, a residual and the flag "converged". *)
Definition no_pass : pass_out := Pass (Seq [] (fun _ => 0%Z)) 0 false (fun _ => 0) (fun _ => v0).
Definition nth_pass (os : list pass_out) (k : nat) : pass_out := nth k os no_pass.
Definition sequence_before (q : dseq) (os : list pass_out) (k : nat) : dseq := match k with O => q | S j => po_seq (nth_pass os j) end.
(** Pass k solves the problem built from the sequence that the pass before left; only pass 0 is built as a first pass. *)
Definition solves_in_turn (g : dset) (ini : dstate) (cs : nat -> list contact) (kin : list kinref) (goal wtrack : vec3) (stray : nat -> nat -> option ctype)
    (solve : nat -> list call -> nat -> R) (q : dseq) (os : list pass_out) : Prop :=
  forall k, (k < List.length os)%nat -> exists calls, problem_calls g (sequence_before q os k) ini cs kin goal wtrack (k =? 0)%nat stray = Ok calls /\ po_x (nth_pass os k) = solve k calls.
(** Residual below the tolerance, or changed by less than the least improvement, in this or an earlier pass. *)
Definition settled (g : dset) (os : list pass_out) (k : nat) : Prop :=
  exists j, (j <= k)%nat /\ (po_err (nth_pass os j) < g_tol g \/ ((0 < j)%nat /\ Rabs (po_err (nth_pass os (j - 1)) - po_err (nth_pass os j)) < g_improve g)).

(** ** Proofs *)
Lemma pass_facts g ini cs kin goal wtrack stray slv first conv0 err0 q o : g_heur g = TimeOptimization ->
  internalOptimize g ini cs kin goal wtrack stray slv first conv0 err0 q = Ok o ->
  (exists calls, problem_calls g q ini cs kin goal wtrack first stray = Ok calls /\ po_x o = slv calls) /\ act_steps (po_seq o) = act_steps q /\
  (po_conv o = true <-> conv0 = true \/ po_err o < g_tol g \/ (first = false /\ Rabs (err0 - po_err o) < g_improve g)).
Proof.
  intros Hh E. unfold internalOptimize in E. destruct (problem_calls g q ini cs kin goal wtrack first stray) as [calls| |]; cbn [bind] in E; try discriminate.
  unfold is_timeopt in E. rewrite Hh in E. destruct (storeSolution _ _ _ _ (states q)) as [l| |]; cbn [bind] in E; try discriminate.
  match type of E with context [if conv0 || ?a || ?b then _ else _] => set (c1 := a) in E; set (c2 := b) in E end.
  match type of E with context [Pass _ ?e _ _ _] => set (err := e) in * end.
  assert (C1 : c1 = true <-> err < g_tol g) by (unfold c1; fold err; destruct (Rlt_dec err (g_tol g)); intuition congruence).
  assert (C2 : c2 = true <-> first = false /\ Rabs (err0 - err) < g_improve g) by (unfold c2; fold err; destruct first; [intuition congruence|]; destruct (Rlt_dec (Rabs (err0 - err)) (g_improve g)); intuition congruence).
  clearbody c1 c2. split; [|split].
  - exists calls. split; [reflexivity|]. destruct (conv0 || c1 || c2); [destruct (storeSolution _ _ _ _ l) as [l'| |]; cbn [bind] in E; try discriminate|]; injection E as <-; reflexivity.
  - destruct (conv0 || c1 || c2); [destruct (storeSolution _ _ _ _ l) as [l'| |]; cbn [bind] in E; try discriminate|]; injection E as <-; reflexivity.
  - assert (P : po_conv o = (conv0 || c1 || c2) /\ po_err o = err) by (destruct (conv0 || c1 || c2); [destruct (storeSolution _ _ _ _ l) as [l'| |]; cbn [bind] in E; try discriminate|]; injection E as <-; split; reflexivity).
    destruct P as [-> ->]. rewrite !orb_true_iff, C1, C2. intuition.
Qed.
Section Passes.
Variables (g : dset) (ini : dstate) (cs : nat -> list contact) (kin : list kinref) (goal wtrack : vec3) (stray : nat -> nat -> option ctype) (solve : nat -> list call -> nat -> R).
Hypothesis Hh : g_heur g = TimeOptimization.
Let step it conv err q := internalOptimize g ini cs kin goal wtrack stray (solve it) false conv err q.
Definition history (q : dseq) (os : list pass_out) : Prop := solves_in_turn g ini cs kin goal wtrack stray solve q os /\ forall k, (k < List.length os)%nat -> (po_conv (nth_pass os k) = true <-> settled g os k).
Lemma nth_pass_app os o k : (k < List.length os)%nat -> nth_pass (os ++ [o]) k = nth_pass os k.
Proof. intros H. unfold nth_pass. now rewrite app_nth1. Qed.
Lemma nth_pass_last os o : nth_pass (os ++ [o]) (List.length os) = o.
Proof. unfold nth_pass. now rewrite nth_middle. Qed.
Lemma history_snoc q os o n : history q os -> List.length os = S n -> step (S n) (po_conv (nth_pass os n)) (po_err (nth_pass os n)) (po_seq (nth_pass os n)) = Ok o -> history q (os ++ [o]).
Proof.
  intros [H1 H2] L E. destruct (pass_facts _ _ _ _ _ _ _ _ _ _ _ _ _ Hh E) as (Hx & _ & Hc). split.
  - intros k Hk. rewrite app_length in Hk. cbn [List.length] in Hk. destruct (Nat.eq_dec k (S n)) as [->|Hne].
    + destruct Hx as (calls & Hc1 & Hx). exists calls. cbn [sequence_before Nat.eqb]. rewrite nth_pass_app by lia. split; [exact Hc1|]. rewrite <- L, nth_pass_last, L. exact Hx.
    + destruct (H1 k) as (calls & Hc1 & Hx1); [lia|]. exists calls. rewrite nth_pass_app by lia. split; [|exact Hx1]. destruct k as [|k]; [exact Hc1|]. cbn [sequence_before] in *. now rewrite nth_pass_app by lia.
  - intros k Hk. rewrite app_length in Hk. cbn [List.length] in Hk.
    assert (Old : forall k, (k < S n)%nat -> settled g (os ++ [o]) k <-> settled g os k).
    { intros j Hj. unfold settled. split; intros (i & Hi & Hs); exists i; (split; [exact Hi|]); rewrite !nth_pass_app in * by lia; exact Hs. }
    destruct (Nat.eq_dec k (S n)) as [->|Hne].
    + replace (nth_pass (os ++ [o]) (S n)) with o by (rewrite <- L; symmetry; apply nth_pass_last). rewrite Hc. rewrite (H2 n) by lia. rewrite <- (Old n) by lia. split.
      * intros [(j & Hj & Hs)|[Hs|[_ Hs]]]; [exists j; split; [lia|exact Hs]| |]; exists (S n); (split; [lia|]); rewrite <- L, nth_pass_last; [left; exact Hs|].
        right. split; [lia|]. rewrite L. replace (S n - 1)%nat with n by lia. rewrite nth_pass_app by lia. exact Hs.
      * intros (j & Hj & Hs). destruct (Nat.eq_dec j (S n)) as [->|]; [|left; exists j; split; [lia|exact Hs]]. rewrite <- L, nth_pass_last, L in Hs. replace (S n - 1)%nat with n in Hs by lia. rewrite nth_pass_app in Hs by lia.
        destruct Hs as [Hs|[_ Hs]]; auto.
    + rewrite nth_pass_app, Old by lia. apply H2. lia.
Qed.
Lemma passes_history q : forall fuel n os o, history q os -> List.length os = S n -> time_passes fuel step (S n) (nth_pass os n) = Ok o ->
  exists os', (exists tl, os' = os ++ tl) /\ history q os' /\ (List.length os' <= S (n + fuel))%nat /\ (S n <= List.length os')%nat /\ ((0 < fuel)%nat -> (S n < List.length os')%nat) /\ o = nth_pass os' (List.length os' - 1) /\ ((List.length os' < S (n + fuel))%nat -> po_conv o = true) /\
  forall k, (n < k < List.length os' - 1)%nat -> po_conv (nth_pass os' k) = false.
Proof.
  induction fuel as [|fuel IH]; intros n os o HH L E; cbn [time_passes] in E.
  - injection E as <-. exists os. split; [exists []; now rewrite app_nil_r|]. split; [exact HH|]. rewrite L. replace (S n - 1)%nat with n by lia. repeat split; try lia.
  - destruct (step (S n) _ _ _) as [o'| |] eqn:E'; cbn [bind] in E; try discriminate. pose proof (history_snoc q os o' n HH L E') as HH'.
    destruct (po_conv o') eqn:Ec.
    + injection E as <-. exists (os ++ [o']). split; [now exists [o']|]. split; [exact HH'|]. rewrite app_length. cbn [List.length]. split; [lia|]. split; [lia|]. split; [lia|].
      replace (List.length os + 1 - 1)%nat with (List.length os) by lia. split; [symmetry; apply nth_pass_last|]. split; [intros _; exact Ec|]. intros k Hk. lia.
    + destruct (IH (S n) (os ++ [o']) o HH') as (os' & (tl & Etl) & H1 & H2 & H2' & _ & H3 & H4 & H5).
      * rewrite app_length. cbn [List.length]. lia.
      * replace (nth_pass (os ++ [o']) (S n)) with o' by (rewrite <- L; symmetry; apply nth_pass_last). exact E.
      * exists os'. split; [exists (o' :: tl); rewrite Etl, <- app_assoc; reflexivity|]. split; [exact H1|]. split; [lia|]. split; [lia|]. split; [lia|]. split; [exact H3|]. split; [intros; apply H4; lia|].
        intros k Hk. destruct (Nat.eq_dec k (S n)) as [->|]; [|apply H5; lia]. rewrite Etl. unfold nth_pass. rewrite app_nth1 by (rewrite app_length; cbn; lia). change (po_conv (nth_pass (os ++ [o']) (S n)) = false). rewrite <- L, nth_pass_last. exact Ec.
Qed.
End Passes.

(** ** C78: without time optimisation one problem is solved, whose goal is the initial position plus the desired motion; *)
Theorem C78_one_pass g ini cs kin motion wtrack stray solve q0 o : g_heur g <> TimeOptimization -> optimize g ini cs kin motion wtrack stray solve q0 = Ok o ->
  exists q calls, fillDynamicsSequence (g_N g) (g_dt g) cs q0 = Ok q /\ problem_calls g q ini cs kin (vadd (d_com ini) motion) wtrack true stray = Ok calls /\ po_x o = solve 0%nat calls.
Proof.
  intros Hh. unfold optimize. destruct (fillDynamicsSequence _ _ _ _) as [q| |]; cbn [bind]; try discriminate. assert (T : is_timeopt (g_heur g) = false) by (destruct (g_heur g); [reflexivity|reflexivity|now elim Hh]). rewrite T.
  destruct (internalOptimize _ _ _ _ _ _ _ _ _ _ _ _) as [o1| |] eqn:E; cbn [bind]; try discriminate. intros H. injection H as ->. exists q.
  unfold internalOptimize in E. destruct (problem_calls _ _ _ _ _ _ _ _ _) as [calls| |]; cbn [bind] in E; try discriminate. exists calls. split; [reflexivity|]. split; [reflexivity|]. rewrite T in E.
  destruct (storeSolution _ _ _ _ _) as [l| |]; cbn [bind] in E; try discriminate. injection E as <-. reflexivity.
Qed.
(** with it, one first pass and at most MaxNumTimeIterations more, each built on the result of the one before; the repetition stops after the first repeated pass that has settled;
    the result is that of the last pass. *)
Theorem C78_passes g ini cs kin motion wtrack stray solve q0 o : g_heur g = TimeOptimization -> optimize g ini cs kin motion wtrack stray solve q0 = Ok o ->
  exists q os n, fillDynamicsSequence (g_N g) (g_dt g) cs q0 = Ok q /\ List.length os = S n /\ (n <= g_maxit g)%nat /\
  solves_in_turn g ini cs kin (vadd (d_com ini) motion) wtrack stray solve q os /\ o = nth_pass os n /\
  (forall k, (0 < k < n)%nat -> ~ settled g os k) /\ ((n < g_maxit g)%nat -> (0 < n)%nat /\ settled g os n) /\ (po_conv o = true <-> settled g os n).
Proof.
  intros Hh. unfold optimize. destruct (fillDynamicsSequence _ _ _ _) as [q| |]; cbn [bind]; try discriminate.
  destruct (internalOptimize _ _ _ _ _ _ _ _ _ _ _ _) as [o0| |] eqn:E; cbn [bind]; try discriminate. unfold is_timeopt. rewrite Hh. intros T.
  destruct (pass_facts _ _ _ _ _ _ _ _ _ _ _ _ _ Hh E) as (Hx & _ & Hc).
  assert (H0 : history g ini cs kin (vadd (d_com ini) motion) wtrack stray solve q [o0]).
  { split.
    - intros k Hk. cbn [List.length] in Hk. replace k with 0%nat by lia. exact Hx.
    - intros k Hk. cbn [List.length] in Hk. replace k with 0%nat by lia. unfold nth_pass at 1. cbn [nth]. rewrite Hc. split.
      + intros [|[|[]]]; try discriminate. exists 0%nat. split; [lia|left; assumption].
      + intros (j & Hj & [Hs|[Hs _]]); [|lia]. replace j with 0%nat in Hs by lia. right. left. exact Hs. }
  destruct (passes_history g ini cs kin _ wtrack stray solve Hh q (g_maxit g) 0 [o0] o H0 eq_refl T) as (os & _ & [H1 H2] & H3 & H3' & H3'' & H4 & H5 & H6).
  exists q, os, (List.length os - 1)%nat. split; [reflexivity|]. split; [lia|]. split; [lia|]. split; [exact H1|]. split; [exact H4|]. split; [|split].
  - intros k Hk Hs. apply H2 in Hs; [|lia]. rewrite H6 in Hs by lia. discriminate.
  - intros Hn. split; [|apply H2; [lia|]; rewrite <- H4; apply H5; lia]. specialize (H3'' ltac:(lia)). lia.
  - rewrite H4. apply H2. lia.
Qed.
(** The first pass is not asked: a result that has settled at once is still computed a second time (and the flag, which is not reset, ends the repetition there). *)
Theorem C78_settled_at_once_refuted g ini cs kin motion wtrack stray solve q0 o : g_heur g = TimeOptimization -> (0 < g_maxit g)%nat -> optimize g ini cs kin motion wtrack stray solve q0 = Ok o ->
  exists q os n, fillDynamicsSequence (g_N g) (g_dt g) cs q0 = Ok q /\ List.length os = S n /\ solves_in_turn g ini cs kin (vadd (d_com ini) motion) wtrack stray solve q os /\ o = nth_pass os n /\
  (po_err (nth_pass os 0) < g_tol g -> n = 1%nat /\ po_conv o = true).
Proof.
  intros Hh Hm E. destruct (C78_passes _ _ _ _ _ _ _ _ _ _ Hh E) as (q & os & n & Eq & L & Hn & HS & Ho & Hk & Hl & Hc). exists q, os, n. split; [exact Eq|]. split; [exact L|]. split; [exact HS|]. split; [exact Ho|].
  intros He. assert (S : forall k, settled g os k) by (intros k; exists 0%nat; split; [lia|left; exact He]). split; [|apply Hc, S].
  destruct (Nat.lt_ge_cases n (g_maxit g)) as [Hlt|Hge]; [destruct (Hl Hlt) as [Hp _]|]; (destruct (Nat.eq_dec n 1) as [|Hne]; [assumption|]); exfalso; apply (Hk 1%nat); try apply S; lia.
Qed.
Print Assumptions C78_one_pass.
Print Assumptions C78_passes.
Print Assumptions C78_settled_at_once_refuted.

(** ** The passes do not fail: with a ready sequence of more than N states every pass leaves a ready sequence of as many states. *)
Lemma ready_stored g q cs stray P am l : ready g q cs stray -> stored g q P am l -> ready g (Seq l (act_steps q)) cs stray.
Proof.
  intros (R1 & R2 & R3 & R4) S.
  assert (K : forall e t, e_act (look (Seq l (act_steps q)) e t) = e_act (look q e t) /\ e_cid (look (Seq l (act_steps q)) e t) = e_cid (look q e t) /\ e_aid (look (Seq l (act_steps q)) e t) = e_aid (look q e t)).
  { intros e t. change (look (Seq l (act_steps q)) e t) with (d_eff (nth_state l t) e).
    destruct (Nat.lt_ge_cases e (g_neff g)) as [He|He]; [|rewrite (so_eff_kept _ _ _ _ _ S) by auto; auto].
    destruct (Nat.lt_ge_cases t (g_N g)) as [Ht|Ht]; [|rewrite (so_eff_kept _ _ _ _ _ S) by auto; auto].
    assert (D : active q e t \/ ~ active q e t) by (unfold active; destruct (e_act (look q e t)); intuition congruence).
    destruct D as [D|D]; [rewrite (so_eff _ _ _ _ _ S) by assumption; auto|rewrite (so_eff_kept _ _ _ _ _ S) by auto; auto]. }
  split; [cbn [states]; rewrite (so_len _ _ _ _ _ S); exact R1|]. split; [|split].
  - intros e t He Ht Ha. unfold active in Ha. destruct (K e t) as (K1 & K2 & K3). rewrite K2, K3. cbn [act_steps]. apply R2; [assumption..|]. unfold active. now rewrite <- K1.
  - intros HN. destruct (K 0%nat 0%nat) as (_ & K2 & _). rewrite K2. auto.
  - intros e t Ha. apply R4. unfold active in *. destruct (K e t) as (K1 & _). now rewrite K1 in Ha.
Qed.
Theorem C78_total g q0 q ini cs kin motion wtrack stray solve : fillDynamicsSequence (g_N g) (g_dt g) cs q0 = Ok q ->
  ready g q cs stray -> (g_N g <= List.length kin)%nat -> (0 < g_N g)%nat -> (g_N g < List.length (states q))%nat -> exists o, optimize g ini cs kin motion wtrack stray solve q0 = Ok o.
Proof.
  intros Eq HR HK HN HL. unfold optimize. rewrite Eq. cbn [bind].
  destruct (is_timeopt (g_heur g)) eqn:T.
  2:{ destruct (C32_stored_angular_momentum g q ini cs kin (vadd (d_com ini) motion) wtrack true stray (solve 0%nat) false 0 HR HK HN HL) as (o & E & _); [intros E; rewrite E in T; discriminate|]. rewrite E. cbn [bind]. eexists. reflexivity. }
  assert (Hh : g_heur g = TimeOptimization) by (destruct (g_heur g); try discriminate; reflexivity).
  assert (G : forall it first conv err p, ready g p cs stray -> (g_N g < List.length (states p))%nat -> exists o, internalOptimize g ini cs kin (vadd (d_com ini) motion) wtrack stray (solve it) first conv err p = Ok o /\ ready g (po_seq o) cs stray /\ (g_N g < List.length (states (po_seq o)))%nat).
  { intros it first conv err p Hp Hlp. destruct (C32_time_optimal_stored g p ini cs kin (vadd (d_com ini) motion) wtrack first stray (solve it) conv err Hp HK HN Hlp Hh) as (o & E & _ & S & _). exists o. split; [exact E|].
    destruct (pass_facts _ _ _ _ _ _ _ _ _ _ _ _ _ Hh E) as (_ & Ha & _). pose proof (ready_stored _ _ _ _ _ _ _ Hp S) as HR'. rewrite <- Ha in HR'. destruct (po_seq o) as [l a]. split; [exact HR'|]. rewrite (so_len _ _ _ _ _ S). exact Hlp. }
  destruct (G 0%nat true false 0 q HR HL) as (o & E & HRo & HLo). rewrite E. cbn [bind]. clear E. generalize 1%nat as it. revert o HRo HLo. induction (g_maxit g) as [|m IH]; intros o HRo HLo it; [eexists; reflexivity|].
  cbn [time_passes]. destruct (G it false (po_conv o) (po_err o) (po_seq o) HRo HLo) as (o' & E & HR' & HL'). rewrite E. cbn [bind]. destruct (po_conv o'); [eexists; reflexivity|]. now apply IH.
Qed.
Print Assumptions C78_total.

(** In particular for every well formed contact plan sampled into a fresh sequence with one state more than the horizon (the planner itself allocates one less: C35). *)
Lemma fresh_ready g qi cs stray : 0 < g_dt g -> (g_neff g <= n_endeffs)%nat -> (forall e, (e < n_endeffs)%nat -> ordered (cs e)) -> (g_N g <= List.length (states qi))%nat -> (forall e t, (t < g_N g)%nat -> look qi e t = eff_new) ->
  ((0 < g_N g)%nat -> exists k c, scheduled (g_dt g) (cs 0%nat) k c 0) -> (forall e t, stray t e <> None) ->
  exists q, fillDynamicsSequence (g_N g) (g_dt g) cs qi = Ok q /\ ready g q cs stray /\ List.length (states q) = List.length (states qi).
Proof.
  intros Hdt Hn Ho LI FI H0 Hs.
  destruct (C30_sampling (g_N g) (g_dt g) cs qi) as (q & E & L & HA & HC & HN & HT & _); [lia|]. exists q.
  assert (ACT : forall e t, (e < n_endeffs)%nat -> (t < g_N g)%nat -> e_act (look q e t) = true <-> exists k c, scheduled (g_dt g) (cs e) k c t).
  { intros e t He Ht. rewrite (HA e t He Ht), FI by exact Ht. cbn. split; [intros [X|X]; [discriminate|exact X]|now right]. }
  assert (CON : forall e t k c, (e < n_endeffs)%nat -> (t < g_N g)%nat -> scheduled (g_dt g) (cs e) k c t -> e_cid (look q e t) = Z.of_nat k /\ nth_error (cs e) k = Some c).
  { intros e t k c He Ht Hk. split; [|apply Hk]. apply (HC e t k c He Ht Hk). intros k' c' L' Hk'. pose proof (ordered_exclusive (g_dt g) (cs e) (g_N g) (Ho e He) k k' c c' t Ht Hk Hk'). lia. }
  split; [exact E|]. split; [|exact L]. split; [rewrite L; lia|]. split; [|split; [|intros; apply Hs]].
  - intros e t He Ht Ha. assert (He' : (e < n_endeffs)%nat) by lia. apply (ACT e t He' Ht) in Ha. destruct Ha as (k & c & Hk). destruct (CON e t k c He' Ht Hk) as (EC & EN).
    assert (Hl : (k < List.length (cs e))%nat) by (apply nth_error_Some; rewrite EN; discriminate).
    set (holds := fun t => any (g_dt g) (cs e) t).
    assert (HH : forall t, holds t = true <-> exists k c, scheduled (g_dt g) (cs e) k c t).
    { intros s. unfold holds. rewrite any_iff. split.
      - intros (c' & Hc & Hx). apply In_nth_error in Hc. destruct Hc as (k' & Hk'). apply hits_iff in Hx. exists k', c'. split; easy.
      - intros (k' & c' & X1 & X2 & X3). exists c'. split; [eapply nth_error_In; eauto|]. now apply hits_iff. }
    destruct (C31_numbering (g_N g) (g_dt g) cs qi e Hdt ltac:(lia) He' (Ho e He') holds HH) as (q2 & E2 & NUM & TOT). rewrite E in E2. injection E2 as <-.
    assert (Ht' : holds t = true) by (apply HH; eauto). rewrite (NUM t Ht Ht'), TOT, EC.
    pose proof (proj1 (C31_no_gap_no_repetition holds (g_N g)) t (g_N g) Ht Ht'). lia.
  - intros HP. destruct (H0 HP) as (k & c & Hk). destruct (CON 0%nat 0%nat k c ltac:(unfold n_endeffs; lia) HP Hk) as (EC & EN). rewrite EC.
    assert (Hl : (k < List.length (cs 0%nat))%nat) by (apply nth_error_Some; rewrite EN; discriminate). lia.
Qed.
Theorem C78_enough_states g ini cs kin motion wtrack stray solve : 0 < g_dt g -> (0 < g_N g)%nat -> (g_neff g <= n_endeffs)%nat -> (forall e, (e < n_endeffs)%nat -> ordered (cs e)) ->
  (exists k c, scheduled (g_dt g) (cs 0%nat) k c 0) -> (forall e t, stray t e <> None) -> (g_N g <= List.length kin)%nat ->
  exists o, optimize g ini cs kin motion wtrack stray solve (Seq (repeat dstate_new (S (g_N g))) (fun _ => 0%Z)) = Ok o.
Proof.
  intros Hdt HN Hn Ho H0 Hs HK.
  destruct (fresh_ready g (Seq (repeat dstate_new (S (g_N g))) (fun _ => 0%Z)) cs stray) as (q & E & HR & L); try assumption.
  - cbn [states]. rewrite repeat_length. lia.
  - intros e t Ht. unfold look. cbn [states]. rewrite nth_repeat. reflexivity.
  - intros _. exact H0.
  - apply (C78_total g _ q); try assumption. rewrite L. cbn [states]. rewrite repeat_length. lia.
Qed.
Print Assumptions C78_enough_states.
Example C78_demo : forall h motion solve, exists o, optimize (demo_g h) demo_ini demo_cs [Kin v0 v0 v0] motion v0 no_stray solve (Seq (repeat dstate_new 2) (fun _ => 0%Z)) = Ok o.
Proof.
  intros h motion solve. apply (C78_enough_states (demo_g h)); try (cbn; lra); try (cbn; lia); try (unfold n_endeffs; cbn; lia).
  - intros e He i j a b Hij Ha Hb. destruct i; [|destruct i; discriminate]. destruct j as [|[|j]]; try lia; discriminate.
  - exists 0%nat, demo_c. split; [reflexivity|]. split; [reflexivity|]. unfold in_contact. cbn. lra.
  - intros e t. discriminate.
Qed.

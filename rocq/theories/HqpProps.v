(** * C27: the handshake between the hierarchical solver and its SVD thread *)
From Coq Require Import List Arith Bool Lia.
Import ListNotations.
From Verif Require Import HqpModel HqpSpec HqpProofs.

Section Props.
Variable M : Type.
Variable has_rows : M -> bool.
Variable nullmap : M -> M.
Notation st := (st M). Notation call := (call M).
Notation steps := (steps M has_rows nullmap). Notation step := (step M has_rows nullmap).
Notation seq_run := (seq_run M has_rows nullmap).

(** A program of calls that initialises the solver before its first task. *)
Fixpoint init_first (p : list call) : bool :=
  match p with [] => true | Init _ :: _ => true | Solve _ _ _ :: _ => false | ResetTo _ _ _ :: t => init_first t | NullDim _ :: t => init_first t end.
Definition n_spurious (l : list label) : nat := length (filter (fun a => match a with Spurious => true | _ => false end) l).
Definition is_solve (c : call) := match c with Solve _ _ _ => true | _ => false end.
Definition is_reset (c : call) := match c with ResetTo _ _ _ => true | _ => false end.

(** Whenever the user's thread is between two calls, in whatever interleaving, everything it has read so far and the current null space are those of the
    sequential execution of the calls made so far. *)
Theorem C27_sequential_between_calls : forall b0 k0 g p l s, steps l (init M b0 k0 g p) s -> mp M s = Next M ->
  past M s ++ prog M s = p /\ obs M s = q_obs M (seq_run b0 k0 (past M s)) /\ K M s = q_K M (seq_run b0 k0 (past M s)) /\ rank M s = q_rank M (seq_run b0 k0 (past M s)).
Proof.
  intros b0 k0 g p l s H Hm. destruct (Inv_steps _ _ _ b0 k0 p _ _ _ H) as (_ & I2 & I3 & _ & _).
  unfold data in I2. rewrite Hm in *. cbn in I3. destruct I2 as (_ & A & B & C). auto.
Qed.
(** And so at the end of the program. *)
Theorem C27_sequential : forall b0 k0 g p l s, steps l (init M b0 k0 g p) s -> mp M s = Done M ->
  obs M s = q_obs M (seq_run b0 k0 p) /\ K M s = q_K M (seq_run b0 k0 p).
Proof.
  intros b0 k0 g p l s H Hm. destruct (Inv_steps _ _ _ b0 k0 p _ _ _ H) as (_ & I2 & I3 & I4 & _).
  unfold data in I2. rewrite Hm in *. cbn in I3. rewrite (I4 eq_refl), app_nil_r in I3. subst p. destruct I2 as (_ & A & B & C). auto.
Qed.
(** The two threads are never both about to touch the shared matrices. *)
Theorem C27_mutual_exclusion : forall b0 k0 g p l s, steps l (init M b0 k0 g p) s ->
  ~ (main_touches M (mp M s) (prog M s) /\ worker_touches (wp M s)).
Proof.
  intros b0 k0 g p l s H [A B]. destruct (Inv_steps _ _ _ b0 k0 p _ _ _ H) as (I1 & _). unfold ctl_s in I1.
  destruct (mp M s), (wp M s), (mu M s) as [[|]|], (computed M s), (stop M s); cbn in *; try discriminate; tauto.
Qed.
(** No deadlock: as long as the user's thread has not finished, one of the threads can go on without any spurious wake-up. *)
Theorem C27_deadlock_free : forall b0 k0 g p l s, init_first p = true -> steps l (init M b0 k0 g p) s -> ub M s = false -> mp M s <> Done M ->
  exists a s', a <> Spurious /\ step a s s'.
Proof.
  intros b0 k0 g p l s Hp H Hu Hd. destruct (Inv_steps _ _ _ b0 k0 p _ _ _ H) as (I1 & _).
  destruct (progress M has_rows nullmap s I1 (alive_steps _ _ _ _ _ _ _ _ _ Hp H) Hu Hd) as [[s' E]|[s' E]].
  - exists ByMain, s'. split; [discriminate|now constructor].
  - exists ByWorker, s'. split; [discriminate|now constructor].
Qed.
(** Stopping: when the solver has been destroyed the SVD thread has ended (or was never started). *)
Theorem C27_worker_ends : forall b0 k0 g p l s, steps l (init M b0 k0 g p) s -> mp M s = Done M -> wp M s = W_end \/ wp M s = W_none.
Proof.
  intros b0 k0 g p l s H Hm. destruct (Inv_steps _ _ _ b0 k0 p _ _ _ H) as (I1 & _). unfold ctl_s in I1. rewrite Hm in I1.
  destruct (wp M s), (mu M s) as [[|]|], (computed M s), (stop M s); cbn in *; try discriminate; auto.
Qed.
(** Termination: executions are bounded in the number of calls and of spurious wake-ups. *)
Theorem C27_terminates : forall b0 k0 g p l s, steps l (init M b0 k0 g p) s -> length l <= 60 * length p + 20 + 4 * n_spurious l.
Proof. intros b0 k0 g p l s H. pose proof (steps_weight _ _ _ b0 k0 p _ _ _ H). unfold n_spurious, spurious in *. lia. Qed.
(** Hence every execution that cannot be continued has run all calls with the sequential results, or indexed outside the array of seven. *)
Theorem C27_maximal_executions_finish : forall b0 k0 g p l s, init_first p = true -> steps l (init M b0 k0 g p) s -> (forall a s', ~ step a s s') ->
  ub M s = true \/ (mp M s = Done M /\ (wp M s = W_end \/ wp M s = W_none) /\ obs M s = q_obs M (seq_run b0 k0 p)).
Proof.
  intros b0 k0 g p l s Hp H Hn. destruct (ub M s) eqn:U; [now left|right].
  assert (D : mp M s = Done M).
  { destruct (mp M s) eqn:E; auto; exfalso; destruct (C27_deadlock_free b0 k0 g p l s Hp H U ltac:(congruence)) as (a & s' & _ & S1); exact (Hn _ _ S1). }
  split; [exact D|]. split; [eapply C27_worker_ends; eassumption|]. eapply C27_sequential; eassumption.
Qed.

(** The array index stays in range when at most seven tasks are solved between two resets. *)
Lemma over_mono : forall p q, q_over M q = true -> q_over M (fold_left (seq_call M has_rows nullmap) p q) = true.
Proof.
  induction p as [|c p IH]; intros q Hq; auto. cbn [fold_left]. apply IH. destruct c; cbn; auto. destruct (early (q_K M q)); cbn; auto. now rewrite Hq.
Qed.
Lemma rank_bound : forall b0 k0 p, (exists p1 seg, p = p1 ++ seg /\ forallb (fun c => negb (is_reset c)) seg = true /\ q_rank M (seq_run b0 k0 p) <= length (filter is_solve seg)) /\
  (q_over M (seq_run b0 k0 p) = true -> exists p1 seg p2, p = p1 ++ seg ++ p2 /\ forallb (fun c => negb (is_reset c)) seg = true /\ 7 < length (filter is_solve seg)).
Proof.
  intros b0 k0 p. induction p as [|c p [(p1 & seg & Ep & Hr & Hl) IH2]] using rev_ind.
  - split; [exists [], []; cbn; auto|]. cbn. discriminate.
  - rewrite (seq_run_snoc M has_rows nullmap). set (q := HqpSpec.seq_run M has_rows nullmap b0 k0 p) in *.
    assert (Ext : forall n, is_reset c = false -> n <= length (filter is_solve (seg ++ [c])) ->
      exists p1 seg, p ++ [c] = p1 ++ seg /\ forallb (fun c => negb (is_reset c)) seg = true /\ n <= length (filter is_solve seg)).
    { intros n Hc Hn. exists p1, (seg ++ [c]). split; [rewrite Ep; now rewrite app_assoc|]. split; [rewrite forallb_app, Hr; cbn; now rewrite Hc|exact Hn]. }
    assert (Old : q_over M q = true -> exists p1 seg p2, p ++ [c] = p1 ++ seg ++ p2 /\ forallb (fun c => negb (is_reset c)) seg = true /\ 7 < length (filter is_solve seg)).
    { intros Ho. destruct (IH2 Ho) as (r1 & r2 & r3 & E & F & G). exists r1, r2, (r3 ++ [c]). rewrite E, <- !app_assoc. auto. }
    assert (Len : length (filter is_solve (seg ++ [c])) = length (filter is_solve seg) + (if is_solve c then 1 else 0)).
    { rewrite filter_app, app_length. cbn. destruct (is_solve c); reflexivity. }
    destruct c; cbn [HqpSpec.seq_call is_reset is_solve] in *.
    + split; [apply Ext; auto; lia|exact Old].
    + split; [exists (p ++ [ResetTo M b k]), []; rewrite app_nil_r; cbn; auto|exact Old].
    + destruct (early (q_K M q)); cbn [q_rank q_over].
      * split; [apply Ext; auto; lia|exact Old].
      * split; [apply Ext; auto; lia|]. intros Ho. apply orb_prop in Ho. destruct Ho as [Ho|Ho]; [auto|].
        apply andb_prop in Ho. destruct Ho as [_ Ho]. apply negb_true_iff in Ho. apply Nat.ltb_ge in Ho.
        exists p1, (seg ++ [Solve M early newB]), []. rewrite app_nil_r, Ep, app_assoc. repeat split; [rewrite forallb_app, Hr; reflexivity|lia].
    + cbn [q_rank q_over]. split; [apply Ext; auto; lia|exact Old].
Qed.
Theorem C27_no_overflow : forall b0 k0 g p l s,
  (forall p1 seg p2, p = p1 ++ seg ++ p2 -> forallb (fun c => negb (is_reset c)) seg = true -> length (filter is_solve seg) <= 7) ->
  steps l (init M b0 k0 g p) s -> ub M s = false.
Proof.
  intros b0 k0 g p l s Hp H. destruct (ub M s) eqn:U; auto. destruct (Inv_steps _ _ _ b0 k0 p _ _ _ H) as (_ & _ & I3 & _ & I5).
  specialize (I5 U). assert (Ho : q_over M (seq_run b0 k0 p) = true).
  { rewrite <- I3, app_assoc. unfold HqpSpec.seq_run. rewrite fold_left_app. apply over_mono. exact I5. }
  destruct (proj2 (rank_bound b0 k0 p) Ho) as (p1 & seg & p2 & E & F & G). specialize (Hp _ _ _ E F). lia.
Qed.
End Props.

(** ** Executions computed from a schedule, to exhibit the failures *)
Section Runs.
Definition sched_step (a : label) (s : st nat) : option (st nat) :=
  if ub nat s then None else
  match a with ByMain => main_step nat s | ByWorker => worker_step nat (fun b => negb (b =? 0)) S s | Spurious => None end.
Fixpoint run (l : list label) (s : st nat) : option (st nat) :=
  match l with [] => Some s | a :: t => match sched_step a s with Some s' => run t s' | None => None end end.
(** The user's thread runs until it blocks, then the other. *)
Fixpoint greedy (n : nat) (s : st nat) : list label :=
  match n with O => [] | Datatypes.S n =>
    match sched_step ByMain s with Some s' => ByMain :: greedy n s'
    | None => match sched_step ByWorker s with Some s' => ByWorker :: greedy n s' | None => [] end end end.
Notation stepsN := (steps nat (fun b => negb (b =? 0)) S).
Lemma steps_cons : forall l a s s' s'', step nat (fun b => negb (b =? 0)) S a s s' -> stepsN l s' s'' -> stepsN (a :: l) s s''.
Proof.
  intros l a s s' s'' H1 H2. induction H2.
  - change [a] with ([] ++ [a]). econstructor; [constructor|exact H1].
  - change (a :: l ++ [a0]) with ((a :: l) ++ [a0]). econstructor; [apply IHsteps; exact H1|exact H].
Qed.
Lemma run_sound : forall l s s', run l s = Some s' -> stepsN l s s'.
Proof.
  induction l as [|a l IH]; intros s s' H; cbn in H; [injection H as <-; constructor|].
  unfold sched_step in H. destruct (ub nat s) eqn:U; [discriminate|].
  destruct a; [destruct (main_step nat s) eqn:E|destruct (worker_step _ _ _ s) eqn:E|discriminate]; try discriminate;
    (eapply steps_cons; [constructor; eassumption|now apply IH]).
Qed.
Definition task : call nat := Solve nat (fun _ => false) (fun _ => Some 1).
Definition st0 (p : list (call nat)) := init nat 0 5 true p.

Lemma run_test : forall l s0 (t : st nat -> bool), match run l s0 with Some s => t s | None => false end = true -> exists s, stepsN l s0 s /\ t s = true.
Proof. intros l s0 t H. destruct (run l s0) as [s|] eqn:E; [|discriminate]. exists s. split; [now apply run_sound|exact H]. Qed.

(** Eight tasks with equalities and no reset between them write prev_K_[7]: one past the end of the array of seven (finding F20). *)
Theorem C27_overflow_refuted : exists l s, stepsN l (st0 (Init nat :: repeat task 8)) s /\ ub nat s = true.
Proof.
  exists (greedy 1000 (st0 (Init nat :: repeat task 8))).
  apply (run_test _ _ (ub nat)). vm_cast_no_check (eq_refl true).
Qed.
(** solveNextTask before initialize() posts a job nobody takes and waits for ever. *)
Definition stuck (s : st nat) : bool :=
  match main_step nat s, worker_step nat (fun b => negb (b =? 0)) S s, mp nat s with None, None, T_wait _ _ _ => negb (ub nat s) | _, _, _ => false end.
Theorem C27_task_without_initialize_refuted : exists l s, stepsN l (st0 [task]) s /\ mp nat s <> Done nat /\ ub nat s = false /\
  forall a s', step nat (fun b => negb (b =? 0)) S a s s' -> a = Spurious.
Proof.
  exists (greedy 1000 (st0 [task])).
  destruct (run_test (greedy 1000 (st0 [task])) (st0 [task]) stuck) as (s & H1 & H2); [vm_cast_no_check (eq_refl true)|].
  exists s. split; [exact H1|]. unfold stuck in H2.
  destruct (main_step nat s) eqn:E1; [discriminate|]. destruct (worker_step _ _ _ s) eqn:E2; [discriminate|]. destruct (mp nat s) eqn:E3; try discriminate.
  apply negb_true_iff in H2. split; [discriminate|]. split; [exact H2|].
  intros a s' Hs. destruct Hs; congruence || reflexivity.
Qed.
(** stop_svd2problem_converter_ is an ordinary bool that the SVD thread reads without the mutex (l.57) while the user's thread writes it (l.84). *)
Theorem C27_stop_flag_race_refuted : exists l s, stepsN l (st0 [Init nat]) s /\ mp nat s = S_set nat true /\ wp nat s = W_head.
Proof.
  exists (repeat ByMain 6).
  destruct (run_test (repeat ByMain 6) (st0 [Init nat]) (fun s => match mp nat s, wp nat s with S_set _ true, W_head => true | _, _ => false end)) as (s & H1 & H2); [vm_cast_no_check (eq_refl true)|].
  exists s. split; [exact H1|]. cbn beta in H2. destruct (mp nat s) as [| | | | |[|]| | | | | | | | | | | | | | | | | | |]; try discriminate. destruct (wp nat s); try discriminate. auto.
Qed.
(** A second initialize() writes is_svd_computed_ without the mutex (l.43) while the SVD thread tests it under the mutex (l.60). *)
Theorem C27_reinitialize_race_refuted : exists l s, stepsN l (st0 [Init nat; Init nat]) s /\ mp nat s = I_flag nat /\ wp nat s = W_check.
Proof.
  exists [ByMain; ByMain; ByMain; ByMain; ByMain; ByWorker; ByWorker].
  destruct (run_test [ByMain; ByMain; ByMain; ByMain; ByMain; ByWorker; ByWorker] (st0 [Init nat; Init nat]) (fun s => match mp nat s, wp nat s with I_flag _, W_check => true | _, _ => false end)) as (s & H1 & H2); [vm_cast_no_check (eq_refl true)|].
  exists s. split; [exact H1|]. cbn beta in H2. destruct (mp nat s); try discriminate. destruct (wp nat s); try discriminate. auto.
Qed.
(** Non-vacuity: a program with re-initialisation, an early return, tasks and a reset meets the hypotheses and finishes. *)
Definition demo : list (call nat) :=
  [Init nat; task; NullDim nat; Solve nat (fun k => k =? 2) (fun _ => None); ResetTo nat 0 9; Init nat; Solve nat (fun _ => false) (fun o => Some (length o)); task; NullDim nat].
Definition demo_end (s : st nat) : bool :=
  match mp nat s, wp nat s with Done _, W_end => if list_eq_dec Nat.eq_dec (obs nat s) [5; 2; 2; 9; 5; 2] then negb (ub nat s) else false | _, _ => false end.
Example C27_demo : init_first nat demo = true /\ exists l s, stepsN l (st0 demo) s /\ mp nat s = Done nat /\ wp nat s = W_end /\ obs nat s = [5; 2; 2; 9; 5; 2] /\ ub nat s = false.
Proof.
  split; [reflexivity|]. exists (greedy 1000 (st0 demo)).
  destruct (run_test (greedy 1000 (st0 demo)) (st0 demo) demo_end) as (s & H1 & H2); [vm_cast_no_check (eq_refl true)|].
  exists s. split; [exact H1|]. unfold demo_end in H2. destruct (mp nat s); try discriminate. destruct (wp nat s); try discriminate.
  destruct (list_eq_dec Nat.eq_dec (obs nat s) [5; 2; 2; 9; 5; 2]); [|discriminate]. apply negb_true_iff in H2. auto.
Qed.
End Runs.
Print Assumptions C27_sequential.
Print Assumptions C27_maximal_executions_finish.
Print Assumptions C27_no_overflow.
Print Assumptions C27_overflow_refuted.

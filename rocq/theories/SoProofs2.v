(** * Second-order inverse kinematics: the motion *)
From Coq Require Import Reals List Arith Bool Lia Lra ZArith.
Import ListNotations.
From Verif Require Import Base BaseProofs Vec3 PyqpModel PyqpSpec PyqpProps IkModel IkSpec IkProofs MkoModel MkoSpec MkoProofs SoModel SoSpec SoProofs.
Local Open Scope R_scope.

Section Motion.
  Variables (sq : pm -> pv -> option (pm * pv) -> nat -> res pv) (pinv : pm -> pm) (rb : sorobot) (st : soset) (integ : config -> config -> config) (rf : sorefs)
    (contacts : list (list R)) (k : nat) (q0 dq0 : config) (good : soarg -> (nat -> R) -> Prop).
  Notation nv := (r_nv rb).
  Hypothesis Hgood : forall s a x s', so_inv rb s -> so_step sq pinv rb st s a = Ok (x, s') -> pl x = nv /\ good a (pe x).
  Hypothesis Hext : forall a x y, (forall j, (j < nv)%nat -> x j = y j) -> good a x -> good a y.
  Notation mot := (so_motion rb integ good rf contacts k q0 dq0).
  Definition at_step (m : nat) (v : sv) (Q DQ DDQ : nat -> config) : Prop :=
    mot m Q DQ DDQ /\ v_q v = Q m /\ v_dq v = DQ m /\ v_t v = INR m * / 1000 /\ so_inv rb (v_s v) /\ so_J (v_s v) = J_of rb (v_q v) /\ length (v_dq v) = nv.
  Definition agree (m : nat) (Q Q' DQ DQ' : nat -> config) : Prop := forall t, (t <= m)%nat -> Q' t = Q t /\ DQ' t = DQ t.
  Definition upd {A} (f : nat -> A) (n : nat) (a : A) : nat -> A := fun t => if (t =? n)%nat then a else f t.
  Lemma upd_same {A} : forall (f : nat -> A) n a, upd f n a n = a. Proof. intros. unfold upd. now rewrite Nat.eqb_refl. Qed.
  Lemma upd_other {A} : forall (f : nat -> A) n a t, t <> n -> upd f n a t = f t. Proof. intros. unfold upd. now rewrite (proj2 (Nat.eqb_neq _ _)). Qed.
  Lemma scaled_entries : forall h dq x d', add_scaled h dq x = Ok d' -> length dq = pl x /\ length d' = length dq /\ forall j, (j < length dq)%nat -> entries d' j = entries dq j + pe x j * h.
  Proof.
    intros h dq x d' H. unfold add_scaled in H. destruct (Nat.eqb_spec (length dq) (pl x)) as [E|]; [|discriminate]. injection H as <-. split; [exact E|]. split; [now rewrite map_length, seq_length|]. intros j Hj. unfold entries.
    rewrite (nth_indep _ 0 ((fun j => nth j dq 0 + pe x j * h) 0%nat)) by (rewrite map_length, seq_length; lia). rewrite (map_nth (fun j => nth j dq 0 + pe x j * h)). now rewrite seq_nth by lia.
  Qed.
  Lemma inner_ok : forall m v Q DQ DDQ v', at_step m v Q DQ DDQ -> inner sq pinv rb st integ rf (nth (S (m / k)) contacts []) v = Ok v' ->
    exists Q' DQ' DDQ', agree m Q Q' DQ DQ' /\ at_step (S m) v' Q' DQ' DDQ' /\ v_ddq v' <> None.
  Proof.
    intros m v Q DQ DDQ v' (M & Eq & Ed & Et & I & EJ & L) H. unfold inner in H. destruct (so_step _ _ _ _ _ _) as [[x s2]| |] eqn:ES; cbn [bind fst snd] in H; try discriminate.
    destruct (add_scaled _ _ _) as [d'| |] eqn:EA; cbn [bind] in H; try discriminate. injection H as <-. destruct (Hgood _ _ _ _ I ES) as [Lx G]. destruct (scaled_entries _ _ _ _ EA) as (E1 & E2 & E3).
    destruct (step_state sq pinv rb st _ _ _ _ I ES) as (I2 & _ & _ & _). rewrite Eq, Ed, Et in *.
    exists (upd Q (S m) (integ (Q m) (map (Rmult (/ 1000)) d'))), (upd DQ (S m) d'), (upd DDQ m (listing x)). split; [intros t Ht; now rewrite !upd_other by lia|]. split; [|discriminate].
    unfold at_step. cbn [v_q v_dq v_t v_s]. rewrite !upd_same.
    split; [|split; [reflexivity|split; [reflexivity|split; [rewrite S_INR; ring|split; [now apply inv_kin|split; [now apply inv_kin|lia]]]]]].
    destruct M as [S0 S1]. constructor; [now rewrite !upd_other by lia|]. intros i Hi a. destruct (Nat.eq_dec i m) as [->|Ne].
    - subst a. rewrite !upd_same, !(upd_other _ (S m) _ m) by lia. split; [now rewrite listing_length|]. split; [apply (Hext _ (pe x)); [intros j Hj; symmetry; apply listing_entries; lia|exact G]|]. split; [lia|].
      split; [|reflexivity]. intros j Hj. rewrite (listing_entries x) by lia. apply E3. lia.
    - subst a. specialize (S1 i ltac:(lia)). cbv zeta in S1. rewrite !(upd_other _ (S m)) by lia. rewrite !(upd_other _ m) by lia. exact S1.
  Qed.
  Lemma div_block : forall p i, (i < k)%nat -> ((p * k + i) / k)%nat = p.
  Proof. intros p i Hi. rewrite Nat.div_add_l by lia. rewrite Nat.div_small by lia. lia. Qed.
  Lemma agree_trans : forall m n Q Q' Q'' D D' D'', (m <= n)%nat -> agree m Q Q' D D' -> agree n Q' Q'' D' D'' -> agree m Q Q'' D D''.
  Proof. intros m n Q Q' Q'' D D' D'' L A B t Ht. destruct (A t Ht) as [<- <-]. apply B. lia. Qed.
  Lemma agree_refl : forall m Q D, agree m Q Q D D. Proof. intros m Q D t _. split; reflexivity. Qed.
  Lemma inner_loop_ok : forall p n, (n <= k)%nat -> forall v Q DQ DDQ v', at_step (p * k) v Q DQ DDQ ->
    foldM (fun v _ => bind (pyget contacts (S p)) (fun c => inner sq pinv rb st integ rf c v)) (seq 0 n) v = Ok v' ->
    exists Q' DQ' DDQ', agree (p * k) Q Q' DQ DQ' /\ at_step (p * k + n) v' Q' DQ' DDQ' /\ (v' = v \/ v_ddq v' <> None).
  Proof.
    intros p n. induction n as [|n IH]; intros Hn v Q DQ DDQ v' A H.
    - injection H as <-. exists Q, DQ, DDQ. rewrite Nat.add_0_r. split; [apply agree_refl|]. split; [exact A|now left].
    - rewrite seq_S, foldM_append in H. destruct (foldM _ (seq 0 n) v) as [v1| |] eqn:E; cbn [bind] in H; try discriminate. cbn [foldM] in H. destruct (IH ltac:(lia) v Q DQ DDQ v1 A E) as (Q1 & D1 & DD1 & AG & A1 & _).
      destruct (pyget contacts (S p)) as [c| |] eqn:EP; cbn [bind] in H; try discriminate. destruct (pyget_ok _ _ _ [] EP) as [_ EC].
      destruct (inner _ _ _ _ _ _ c v1) as [v2| |] eqn:EI; cbn [bind] in H; try discriminate. injection H as ->. rewrite <- EC in EI. rewrite <- (div_block p n) in EI at 1 by lia.
      destruct (inner_ok _ _ _ _ _ _ A1 EI) as (Q2 & D2 & DD2 & AG2 & A2 & NN). exists Q2, D2, DD2. split; [apply (agree_trans _ (p * k + n) Q Q1 Q2 DQ D1 D2); [lia|exact AG|exact AG2]|]. rewrite Nat.add_succ_r. split; [exact A2|now right].
  Qed.
  Lemma row_ok : forall m v Q DQ DDQ, at_step m v Q DQ DDQ -> records_all rb (so_row rb v) (Q m) (DQ m).
  Proof.
    intros m v Q DQ DDQ (_ & Eq & Ed & _ & _ & EJ & _). unfold so_row. rewrite <- Eq, <- Ed. split; [split; [reflexivity|split; [reflexivity|split; [reflexivity|split; [|reflexivity]]]]|].
    - intros i Hi. cbn [o_mom]. reflexivity.
    - intros e c He Hc. cbn [o_vel]. unfold Jdq, eff_velocity_of, dotv, entries. rewrite EJ. apply rsum_ext. intros j _. now rewrite J_eff.
  Qed.
  Definition rows_ok (rows : list kres) (Q DQ : nat -> config) : Prop := forall j r, nth_error rows j = Some r -> records_all rb r (Q (j * k)%nat) (DQ (j * k)%nat).
  Lemma outer_ok : forall n v0 rows0 Q DQ DDQ v rows, at_step 0 v0 Q DQ DDQ -> v_ddq v0 = None -> rows0 = [so_row rb v0] ->
    foldM (outer sq pinv rb st integ rf contacts k) (seq 1 n) (v0, rows0) = Ok (v, rows) ->
    length rows = S n /\ ((0 < n)%nat -> (0 < k)%nat) /\ exists Q' DQ' DDQ', at_step (n * k) v Q' DQ' DDQ' /\ rows_ok rows Q' DQ'.
  Proof.
    intros n v0 rows0 Q DQ DDQ. induction n as [|n IH]; intros v rows A ND ER H.
    - injection H as <- <-. subst rows0. split; [reflexivity|]. split; [lia|]. exists Q, DQ, DDQ. split; [exact A|]. intros [|[|]] r Hr; try discriminate. injection Hr as <-. now apply (row_ok 0 _ _ _ DDQ).
    - rewrite seq_S, foldM_append in H. destruct (foldM _ (seq 1 n) (v0, rows0)) as [[v1 rows1]| |] eqn:E; cbn [bind] in H; try discriminate. cbn [foldM Nat.add] in H.
      destruct (IH _ _ A ND ER eq_refl) as (L & K & Q1 & D1 & DD1 & A1 & RO). destruct (outer _ _ _ _ _ _ _ _ _ _) as [[v2 rows2]| |] eqn:EO; cbn [bind] in H; try discriminate. injection H as -> ->.
      unfold outer in EO. cbn [fst snd] in EO. destruct (foldM _ (seq 0 k) v1) as [v3| |] eqn:EI; cbn [bind] in EO; try discriminate. destruct (v_ddq v3) eqn:ED; [|discriminate]. injection EO as <- <-.
      destruct (inner_loop_ok n k (le_n _) v1 Q1 D1 DD1 v3 A1 EI) as (Q2 & D2 & DD2 & AG & A2 & _). split; [rewrite app_length; cbn [length]; lia|].
      split. { intros _. destruct n as [|n']; [|apply K; lia]. destruct k as [|k']; [|lia]. cbn [seq foldM] in EI, E. injection EI as <-. injection E as <- <-. congruence. }
      exists Q2, D2, DD2. replace (n * k + k)%nat with (S n * k)%nat in A2 by lia. split; [exact A2|]. intros j r Hr. destruct (Nat.lt_ge_cases j (length rows1)) as [Lj|Lj].
      + rewrite nth_error_app1 in Hr by exact Lj. specialize (RO j r Hr). destruct (AG (j * k)%nat ltac:(nia)) as [-> ->]. exact RO.
      + rewrite nth_error_app2 in Hr by exact Lj. assert (j = S n). { destruct (j - length rows1)%nat eqn:EE; [lia|]. destruct n0; discriminate. } subst j. rewrite L, Nat.sub_diag in Hr. injection Hr as <-. apply (row_ok _ _ _ _ DD2). exact A2.
  Qed.
End Motion.

Lemma solve_ok : forall sq pinv (rb : sorobot) st integ rf good s N dt contacts q0 dq0 v rows, so_inv rb s ->
  (forall s a x s', so_inv rb s -> so_step sq pinv rb st s a = Ok (x, s') -> pl x = r_nv rb /\ good a (pe x)) -> (forall a x y, (forall j, (j < r_nv rb)%nat -> x j = y j) -> good a x -> good a y) ->
  so_solve sq pinv rb st integ rf s N dt contacts q0 dq0 = Ok (v, rows) ->
  (2 <= N)%nat /\ 0 < dt /\ (0 < inner_steps dt)%nat /\ length dq0 = r_nv rb /\ length rows = N /\ exists Q DQ DDQ, so_motion rb integ good rf contacts (inner_steps dt) q0 dq0 ((N - 1) * inner_steps dt) Q DQ DDQ /\
    forall j r, nth_error rows j = Some r -> records_all rb r (Q (j * inner_steps dt)%nat) (DQ (j * inner_steps dt)%nat).
Proof.
  intros sq pinv rb st integ rf good s N dt contacts q0 dq0 v rows I Hg He H. unfold so_solve in H. destruct (Nat.ltb_spec N 2); [discriminate|]. destruct (Rle_dec dt 0); [discriminate|]. destruct (Nat.eqb_spec (length dq0) (r_nv rb)) as [L|]; [|discriminate]. cbn [negb] in H. cbv zeta in H.
  destruct (inv_kin rb s q0 dq0 I) as [I1 J1].
  destruct (outer_ok sq pinv rb st integ rf contacts (inner_steps dt) q0 dq0 good Hg He (N - 1) (SV (update_kinematics rb s q0 dq0) q0 dq0 0 None) _ (fun _ => q0) (fun _ => dq0) (fun _ => []) v rows ltac:(split; [constructor; [split; reflexivity|intros; lia]|split; [reflexivity|split; [reflexivity|split; [cbn [v_t INR]; ring|split; [exact I1|split; [exact J1|exact L]]]]]]) eq_refl eq_refl H) as (Lr & K & Q & DQ & DDQ & (A & _) & RO).
  split; [lia|]. split; [lra|]. split; [apply K; lia|]. split; [exact L|]. split; [lia|]. exists Q, DQ, DDQ. split; [exact A|exact RO].
Qed.
Lemma good_ext : forall (rb : sorobot) st a x y, (forall j, (j < r_nv rb)%nat -> x j = y j) -> best_acc rb st a x -> best_acc rb st a y.
Proof. intros rb st a x y E [_ B]. split; [exact Logic.I|]. intros z Hz. rewrite <- (acc_cost_ext rb st a x y E). now apply B. Qed.

(** ** Success *)
Record ref_shapes (rb : sorobot) (rf : sorefs) (contacts : list (list R)) (N : nat) : Prop := {
  rs_contacts : (N <= length contacts)%nat /\ forall i, (0 < i < N)%nat -> length (nth i contacts []) = r_ne rb;
  rs_refs : forall t, (r_ne rb <= length (f_pos rf t))%nat /\ (r_ne rb <= length (f_vel rf t))%nat /\ (r_ne rb <= length (f_acc rf t))%nat /\ pl (f_joint rf t) = (r_nv rb - 6)%nat }.
Definition nonneg_weights (st : soset) : Prop := 0 <= s_lin st /\ 0 <= s_ang st /\ 0 <= s_contact st /\ 0 <= s_track st /\ 0 <= s_joint st.
Section Success.
  Variables (sq : pm -> pv -> option (pm * pv) -> nat -> res pv) (pinv : pm -> pm) (rb : sorobot) (st : soset) (integ : config -> config -> config) (rf : sorefs) (contacts : list (list R)) (N : nat).
  Hypotheses (Hs : quadprog_sound sq) (Hc : quadprog_complete sq) (Hn : (6 <= r_nv rb)%nat) (W : nonneg_weights st) (SH : ref_shapes rb rf contacts N) (Hi : forall q d, length (integ q d) = length q).
  Definition fit (v : sv) : Prop := so_inv rb (v_s v) /\ length (v_q v) = (r_nv rb + 1)%nat /\ length (v_dq v) = r_nv rb.
  Lemma step_length : forall s a x s', so_inv rb s -> so_step sq pinv rb st s a = Ok (x, s') -> pl x = r_nv rb.
  Proof. intros s a x s' I H. destruct (s_hier st) eqn:E; [|now apply (step_minimises sq pinv rb st s a x s')]. unfold so_step in H. cbv zeta in H. destruct (update_des_acc _ _ _ _); cbn [bind] in H; try discriminate. rewrite E in H. injection H as <- _. reflexivity. Qed.
  Lemma inner_succeeds : forall c v, length c = r_ne rb -> fit v -> exists v', inner sq pinv rb st integ rf c v = Ok v' /\ fit v' /\ v_ddq v' <> None.
  Proof.
    intros c v Lc (I & Lq & Ld). unfold inner. destruct W as (W1 & W2 & W3 & W4 & W5). destruct (rs_refs _ _ _ _ SH (v_t v)) as (R1 & R2 & R3 & R4).
    destruct (step_succeeds sq pinv rb st (v_s v) (query_at rf (v_q v) (v_dq v) (v_t v) c) Hc Hn I) as (x & s' & E); try assumption.
    { split; [exact Ld|]. split; [exact R1|]. split; [exact R2|]. split; [exact R3|]. split; [exact Lc|]. intros r Er. injection Er as <-. split; [exact R4|exact Lq]. }
    rewrite E. cbn [bind fst snd]. pose proof (step_length _ _ _ _ I E) as Lx. unfold add_scaled. rewrite Lx, Ld, Nat.eqb_refl. cbn [bind]. eexists. split; [reflexivity|]. split; [|discriminate].
    destruct (step_state sq pinv rb st _ _ _ _ I E) as (I2 & _). split; [now apply inv_kin|]. cbn [v_q v_dq]. split; [now rewrite Hi|now rewrite map_length, seq_length].
  Qed.
  Lemma inner_loop_succeeds : forall it n v, (0 < it < N)%nat -> fit v -> exists v', foldM (fun v _ => bind (pyget contacts it) (fun c => inner sq pinv rb st integ rf c v)) (seq 0 n) v = Ok v' /\ fit v' /\ ((0 < n)%nat -> v_ddq v' <> None).
  Proof.
    intros it n v Hit F. destruct (rs_contacts _ _ _ _ SH) as [C1 C2]. induction n as [|n (v1 & E & F1 & _)]; [exists v; split; [reflexivity|split; [exact F|lia]]|]. rewrite seq_S, foldM_append, E. cbn [bind foldM]. rewrite (pyget_nth _ it []) by lia. cbn [bind].
    destruct (inner_succeeds (nth it contacts []) v1 (C2 it Hit) F1) as (v2 & -> & F2 & NN). cbn [bind]. exists v2. split; [reflexivity|]. split; [exact F2|now intros].
  Qed.
  Lemma solve_succeeds : forall s dt q0 dq0, so_inv rb s -> (2 <= N)%nat -> / 1000 <= dt -> (0 < inner_steps dt)%nat -> length q0 = (r_nv rb + 1)%nat -> length dq0 = r_nv rb ->
    exists v rows, so_solve sq pinv rb st integ rf s N dt contacts q0 dq0 = Ok (v, rows).
  Proof.
    intros s dt q0 dq0 I H2 Hdt Hk Lq Ld. unfold so_solve. rewrite (proj2 (Nat.ltb_ge N 2) H2). destruct (Rle_dec dt 0) as [|Ndt]; [lra|]. rewrite Ld, Nat.eqb_refl. cbn [negb]. cbv zeta.
    assert (X : forall n vr, (n < N)%nat -> fit (fst vr) -> exists v rows, foldM (outer sq pinv rb st integ rf contacts (inner_steps dt)) (seq 1 n) vr = Ok (v, rows) /\ fit v).
    { intros n [v0 r0] Ln F. induction n as [|n IH]; [exists v0, r0; split; [reflexivity|exact F]|]. destruct (IH ltac:(lia)) as (v & rows & E & F1). rewrite seq_S, foldM_append, E. cbn [bind foldM Nat.add]. unfold outer at 1. cbn [fst snd].
      destruct (inner_loop_succeeds (S n) (inner_steps dt) v ltac:(lia) F1) as (v2 & -> & F2 & NN). cbn [bind]. destruct (v_ddq v2) eqn:Ed; [|exfalso; now apply NN]. cbn [bind]. eexists _, _. split; [reflexivity|exact F2]. }
    destruct (X (N - 1)%nat (SV (update_kinematics rb s q0 dq0) q0 dq0 0 None, [so_row rb (SV (update_kinematics rb s q0 dq0) q0 dq0 0 None)]) ltac:(lia)) as (v & rows & -> & _).
    - split; [now apply inv_kin|]. split; [exact Lq|exact Ld].
    - exists v, rows. reflexivity.
  Qed.
End Success.

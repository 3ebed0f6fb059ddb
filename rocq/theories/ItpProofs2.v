(** * Proofs about the replay of a plan, part 2: names, time stamps, execution *)
From Coq Require Import Reals List Arith Bool Lia Lra.
Import ListNotations.
From Verif Require Import Base Vec3 MkoModel ItpModel ItpSpec ItpProofs.
Local Open Scope R_scope.

(** ** Names *)
Lemma pyget_nth {A} (l : list A) i d : (i < length l)%nat -> pyget l i = Ok (nth i l d).
Proof. intros H. unfold pyget. now rewrite (nth_error_nth' l d H). Qed.
Lemma force_gain_nth g i : (i < length g)%nat -> force_gain g i = Ok (nth i g []).
Proof. intros H. unfold force_gain. rewrite Nat.min_l by lia. now rewrite (nth_error_nth' g [] H). Qed.
Lemma fold_vadd {A} (f : A -> vec3) l : forall a, fold_left (fun a e => vadd a (f e)) l a = vadd a (fold_right vadd v0 (map f l)).
Proof.
  induction l as [|e l IH]; intros a; cbn [fold_left map fold_right].
  - destruct a. unfold vadd, v0. cbn. f_equal; ring.
  - rewrite IH. unfold vadd. cbn. f_equal; ring.
Qed.
Lemma total_scale w l : fold_right vadd v0 (map (vscale w) l) = vscale w (total l).
Proof. unfold total. induction l as [|e l IH]; cbn [map fold_right]; [unfold vscale, v0; cbn; f_equal; ring|]. rewrite IH. unfold vadd, vscale. cbn. f_equal; ring. Qed.
Lemma vadd_0 a : vadd v0 a = a. Proof. destruct a. unfold vadd, v0. cbn. f_equal; ring. Qed.
Lemma cross_scale a w b : vcross a (vscale w b) = vscale w (vcross a b). Proof. unfold vcross, vscale. cbn. f_equal; ring. Qed.
Lemma centroidal_force_total w d : centroidal_force w d = total_force w d.
Proof. unfold centroidal_force, total_force. f_equal. rewrite (fold_vadd (fun e => vscale w (fst e))), vadd_0, <- total_scale, map_map. reflexivity. Qed.
Lemma centroidal_moment_total w d : centroidal_moment w d = total_moment w d.
Proof.
  unfold centroidal_moment, total_moment. f_equal. rewrite (fold_vadd (fun e => vcross (vsub (snd e) (ds_com d)) (vscale w (fst e)))), vadd_0, <- total_scale, map_map.
  f_equal. apply map_ext. intros e. apply cross_scale.
Qed.
Lemma slice4 (l : list R) : (7 <= length l)%nat -> firstn 4 (skipn 3 l) = map (fun j => nth j l 0) [3; 4; 5; 6]%nat.
Proof. intros H. destruct l as [|a [|b [|c [|d [|e [|f [|g l]]]]]]]; cbn in H; try lia. reflexivity. Qed.
Lemma slice3 (l : list R) : (6 <= length l)%nat -> firstn 3 (skipn 3 l) = map (fun j => nth j l 0) [3; 4; 5]%nat.
Proof. intros H. destruct l as [|a [|b [|c [|d [|e [|f l]]]]]]; cbn in H; try lia. reflexivity. Qed.
Lemma forces_ok d : ds_eff d <> [] -> eff_force_vector d = Ok (forces d).
Proof. unfold eff_force_vector, forces. destruct (ds_eff d); [congruence|reflexivity]. Qed.

Lemma dselect_ok n me sq gains dy : plan n me sq gains dy -> forall sp i, (i < n)%nat -> dselect sp (Some sq) (Some gains) (Some dy) i = Ok (d_meaning sp sq gains dy i).
Proof.
  intros (H1 & H2 & H3 & H4 & H5 & H6 & H7 & H8 & H9) sp i Hi.
  destruct sp; cbn [dselect need bind d_meaning]; try (rewrite (pyget_nth sq i kdef) by lia; reflexivity).
  - rewrite (pyget_nth dy i ddef) by lia. cbn [bind]. apply forces_ok, H8, Hi.
  - apply force_gain_nth. lia.
Qed.
Lemma iselect_ok n me sq gains dy w : plan n me sq gains dy -> forall sp i, (i < n)%nat ->
  iselect sp (Some me) (Some sq) (Some gains) (Some dy) (Some w) i = Ok (i_meaning sp me sq gains dy w i).
Proof.
  intros (H1 & H2 & H3 & H4 & H5 & H6 & H7 & H8 & H9) sp i Hi.
  destruct sp; cbn [iselect need bind i_meaning]; try (apply pyget_nth; lia); try (apply force_gain_nth; lia); try (rewrite (pyget_nth sq i kdef) by lia; cbn [bind]); try (rewrite (pyget_nth dy i ddef) by lia; cbn [bind]); try reflexivity.
  - apply forces_ok, H8, Hi.
  - now rewrite centroidal_force_total.
  - now rewrite centroidal_moment_total.
  - rewrite slice4; [reflexivity|]. apply H9. exact Hi.
  - rewrite slice3; [reflexivity|]. apply H9. exact Hi.
Qed.

(** ** Consequences of lying on the curve *)
Lemma locate tv t : tv <> [] -> increasing tv -> t <= stamp tv 0 \/ stamp tv (length tv - 1) <= t \/ exists i, (S i < length tv)%nat /\ stamp tv i <= t <= stamp tv (S i).
Proof. intros H1 H2. destruct (bracket_ok tv t H1 H2) as (i1 & i2 & _ & [(_ & _ & C)|[(_ & _ & C)|(A & _ & C)]]); [left; lra|right; left; exact C|right; right; eauto]. Qed.
Lemma fraction tv i t : increasing tv -> (S i < length tv)%nat -> stamp tv i <= t <= stamp tv (S i) -> 0 <= (t - stamp tv i) / (stamp tv (S i) - stamp tv i) <= 1.
Proof.
  intros H Hi [A B]. pose proof (H i Hi). split; [apply Rmult_le_pos; [lra|left; apply Rinv_0_lt_compat; lra]|].
  apply Rmult_le_reg_r with (stamp tv (S i) - stamp tv i); [lra|]. unfold Rdiv. rewrite Rmult_assoc, Rinv_l by lra. lra.
Qed.
Lemma curve_bounds tv s t v : tv <> [] -> increasing tv -> same_size (length tv) s -> on_curve tv s t v ->
  forall j a b, (forall i, (i < length tv)%nat -> a <= nth j (s i) 0 <= b) -> a <= nth j v 0 <= b.
Proof.
  intros Hne Hinc Hsz [B A M] j a b H. assert (Hn : (0 < length tv)%nat) by (destruct tv; [congruence|cbn; lia]).
  destruct (locate tv t Hne Hinc) as [C|[C|(i & Hi & C)]].
  - rewrite (B C). apply H. lia.
  - rewrite (A C). apply H. lia.
  - rewrite (M i Hi C). set (l := (t - stamp tv i) / (stamp tv (S i) - stamp tv i)). pose proof (fraction tv i t Hinc Hi C) as L. fold l in L.
    rewrite between_nth by (rewrite (Hsz i), (Hsz (S i)) by lia; reflexivity).
    pose proof (H i ltac:(lia)) as Ha. pose proof (H (S i) Hi) as Hb. nra.
Qed.
Lemma curve_knot tv s v i : tv <> [] -> increasing tv -> same_size (length tv) s -> (i < length tv)%nat -> on_curve tv s (stamp tv i) v -> v = s i.
Proof.
  intros Hne Hinc Hsz Hi [B A M]. destruct (Nat.eq_dec (S i) (length tv)) as [E|E].
  - replace i with (length tv - 1)%nat by lia. apply A. replace (length tv - 1)%nat with i by lia. lra.
  - pose proof (Hinc i ltac:(lia)). rewrite (M i ltac:(lia) ltac:(lra)). replace (stamp tv i - stamp tv i) with 0 by ring. rewrite Rdiv_0_l. apply between_0.
    rewrite (Hsz i), (Hsz (S i)) by lia. reflexivity.
Qed.

(** ** Time stamps *)
Lemma times_length t dts : length (times_from t dts) = length dts.
Proof. revert t. induction dts; intros; cbn; auto. Qed.
Lemma times_nth dts : forall t i, (i < length dts)%nat -> nth i (times_from t dts) 0 = t + total_time i dts.
Proof.
  induction dts as [|d r IH]; intros t i Hi; cbn [length] in Hi; [lia|]. destruct i as [|i]; cbn [times_from nth total_time]; [ring|]. rewrite IH by lia. ring.
Qed.
Lemma total_S dts : forall i, (i < length dts)%nat -> total_time (S i) dts = total_time i dts + nth i dts 0.
Proof. induction dts as [|d r IH]; intros i Hi; cbn [length] in Hi; [lia|]. destruct i as [|i]; [cbn; ring|]. change (total_time (S (S i)) (d :: r)) with (d + total_time (S i) r). rewrite IH by lia. cbn [total_time nth]. ring. Qed.
Lemma time_gap dts i : (S i < length dts)%nat -> stamp (create_time_vector dts) (S i) - stamp (create_time_vector dts) i = nth i dts 0.
Proof. intros H. unfold stamp, create_time_vector. rewrite !times_nth by lia. rewrite total_S by lia. ring. Qed.

(** ** Execution *)
Lemma step_lt tv : steps_at_least_1ms tv -> forall i j, (i < j < length tv)%nat -> stamp tv i < stamp tv j.
Proof. intros [_ H]. apply increasing_lt. intros i Hi. pose proof (H i Hi). lra. Qed.
Lemma INR_S_1000 k : INR (S k) / 1000 = INR k / 1000 + / 1000. Proof. rewrite S_INR. field. Qed.
(** Invariant: before pass [S k] the index is the one in force at time k/1000. *)
Lemma pass_ok tv k id : steps_at_least_1ms tv -> in_force tv (INR k / 1000) id ->
  (INR (S k) / 1000 <= stamp tv (length tv - 1) -> exists id', pass tv (S k) id = Ok id' /\ in_force tv (INR (S k) / 1000) id') /\
  (stamp tv (length tv - 1) < INR (S k) / 1000 -> pass tv (S k) id = Throw).
Proof.
  intros Hs (Hid & Ht & Hj). pose proof (step_lt tv Hs) as Lt. destruct Hs as [_ Hs]. rewrite INR_S_1000. unfold pass. rewrite (pyget_nth tv id 0) by exact Hid. cbn [bind]. change (nth id tv 0) with (stamp tv id).
  rewrite INR_S_1000. destruct (Rlt_dec (stamp tv id) (INR k / 1000 + / 1000)) as [L|L]; split; intros G.
  - assert (Si : (S id < length tv)%nat).
    { destruct (Nat.eq_dec id (length tv - 1)) as [E|E]; [rewrite <- E in G; lra|lia]. }
    rewrite (proj2 (Nat.ltb_lt _ _) Si). eexists; split; [reflexivity|]. split; [exact Si|]. pose proof (Hs id Si). split; [lra|].
    intros j Hj'. destruct (Nat.eq_dec j id) as [->|]; [exact L|]. pose proof (Lt j id ltac:(lia)). lra.
  - destruct (Nat.ltb_spec (S id) (length tv)) as [Si|Si]; [|reflexivity]. exfalso. pose proof (Hs id Si).
    assert (stamp tv (S id) <= stamp tv (length tv - 1)) by (destruct (Nat.eq_dec (S id) (length tv - 1)) as [E|E]; [rewrite E; lra|left; apply Lt; lia]). lra.
  - rewrite (proj2 (Nat.ltb_lt _ _) Hid). eexists; split; [reflexivity|]. split; [exact Hid|]. split; [lra|]. intros j Hj'. pose proof (Hj j Hj'). lra.
  - exfalso. assert (stamp tv id <= stamp tv (length tv - 1)) by (destruct (Nat.eq_dec id (length tv - 1)) as [E|E]; [rewrite E; lra|left; apply Lt; lia]). lra.
Qed.
Lemma passes_ok tv : steps_at_least_1ms tv -> forall n k id, in_force tv (INR k / 1000) id ->
  (INR (k + n) / 1000 <= stamp tv (length tv - 1) -> exists ids, passes tv n (S k) id = Ok ids /\ length ids = n /\ forall p, (p < n)%nat -> in_force tv (INR (S k + p) / 1000) (nth p ids 0%nat)) /\
  ((0 < n)%nat -> stamp tv (length tv - 1) < INR (k + n) / 1000 -> passes tv n (S k) id = Throw).
Proof.
  intros Hs. induction n as [|n IH]; intros k id F.
  - split; [|lia]. intros _. exists []. split; [reflexivity|]. split; [reflexivity|]. intros; lia.
  - destruct (pass_ok tv k id Hs F) as [P1 P2]. replace (k + S n)%nat with (S k + n)%nat by lia.
    assert (Mono : INR (S k) / 1000 <= INR (S k + n) / 1000) by (unfold Rdiv; apply Rmult_le_compat_r; [lra|apply le_INR; lia]).
    split; [intros L|intros _ L].
    + destruct (P1 ltac:(lra)) as (id' & E & F'). cbn [passes]. rewrite E. cbn [bind]. destruct (IH (S k) id' F') as [Q _]. destruct (Q L) as (ids & Ei & Li & Fi).
      rewrite Ei. cbn [bind]. eexists; split; [reflexivity|]. split; [cbn; lia|]. intros [|p] Hp; cbn [nth]; [now rewrite Nat.add_0_r|]. replace (S k + S p)%nat with (S (S k) + p)%nat by lia. apply Fi. lia.
    + cbn [passes]. destruct (Rle_lt_dec (INR (S k) / 1000) (stamp tv (length tv - 1))) as [G|G]; [|rewrite (P2 G); reflexivity].
      destruct (P1 G) as (id' & E & F'). rewrite E. cbn [bind]. destruct (IH (S k) id' F') as [_ Q]. destruct n as [|n]; [rewrite Nat.add_0_r in L; lra|]. rewrite (Q ltac:(lia) L). reflexivity.
Qed.
Lemma first_pass tv : tv <> [] -> steps_at_least_1ms tv -> pass tv 0 0 = Ok 0%nat /\ in_force tv (INR 0 / 1000) 0.
Proof.
  intros Hne [H0 _]. assert (Hn : (0 < length tv)%nat) by (destruct tv; [congruence|cbn; lia]). unfold pass. rewrite (pyget_nth tv 0 0) by exact Hn. cbn [bind]. change (nth 0 tv 0) with (stamp tv 0).
  rewrite H0. cbn [INR]. rewrite Rdiv_0_l. destruct (Rlt_dec 0 0); [lra|]. rewrite (proj2 (Nat.ltb_lt _ _) Hn). split; [reflexivity|]. split; [exact Hn|]. split; [rewrite H0; lra|]. intros; lia.
Qed.
Lemma execution_ok tv n : tv <> [] -> steps_at_least_1ms tv ->
  (INR n / 1000 <= stamp tv (length tv - 1) -> exists ids, passes tv (S n) 0 0 = Ok ids /\ length ids = S n /\ forall k, (k <= n)%nat -> in_force tv (INR k / 1000) (nth k ids 0%nat)) /\
  (stamp tv (length tv - 1) < INR n / 1000 -> passes tv (S n) 0 0 = Throw).
Proof.
  intros Hne Hs. destruct (first_pass tv Hne Hs) as [E F]. destruct (passes_ok tv Hs n 0 0%nat F) as [P Q]. cbn [passes]. rewrite E. cbn [bind]. rewrite Nat.add_0_l in P, Q. split; intros L.
  - destruct (P L) as (ids & Ei & Li & Fi). rewrite Ei. cbn [bind]. eexists; split; [reflexivity|]. split; [cbn; lia|]. intros [|k] Hk; cbn [nth]; [exact F|]. apply (Fi k). lia.
  - destruct n as [|n].
    + exfalso. destruct F as (_ & F & _). cbn [INR] in *. rewrite Rdiv_0_l in *. assert (stamp tv 0 <= stamp tv (length tv - 1)); [|lra]. destruct (Nat.eq_dec 0 (length tv - 1)) as [G|G]; [rewrite <- G; lra|].
      left. apply (step_lt tv Hs). lia.
    + rewrite (Q ltac:(lia) L). reflexivity.
Qed.

(** * Regularisation trajectories, initial configuration *)
From Coq Require Import Reals List Arith Bool Lia Lra.
Import ListNotations.
From Verif Require Import Base BaseProofs Vec3 TrajSpec PolyModel PolySpec PolyProofs PyqpModel PyqpSpec IkModel IkSpec IkProofs IkProps MkoModel MkoSpec MkoProofs.
Local Open Scope R_scope.

Section Interp.
  Variable solve : list (list R) -> list R -> option (list R).
  Hypothesis (Hs : sound solve) (Hc : complete solve).
  Lemma piece_ok : forall a b, fst a <> fst b -> exists p, piece solve (fst a) (fst b) (snd a) (snd b) = Ok [((fst a, fst b), p)] /\ is_function p (min_jerk a b).
  Proof.
    intros a b N. destruct (points_ok solve (fst a) (fst b) (snd a) (snd b) None Hs Hc N) as (p & E & F). exists p. unfold piece. rewrite E. split; [reflexivity|].
    intros t. rewrite F. f_equal. unfold min_jerk, swing, via_of. cbv zeta. lra.
  Qed.
  Variables (N n c : nat) (via : list (list R)) (dt : R).
  Hypothesis (Hdt : dt <> 0) (Hsh : via_shape via n c) (Hn : (0 < n)%nat).
  Lemma via_get_ok : forall k i, (k < n)%nat -> (i <= c)%nat -> via_get via k i = Ok (nth i (nth k via []) 0).
  Proof. intros k i Hk Hi. destruct Hsh as [A B]. unfold via_get. rewrite (pyget_nth via k []) by lia. cbn [bind]. apply pyget_nth. specialize (B k Hk). lia. Qed.
  Lemma via_time_ok : forall k, (k < n)%nat -> via_time via dt k = Ok (nth 0 (nth k via []) 0 / dt).
  Proof. intros k Hk. unfold via_time. destruct (Req_EM_T dt 0); [easy|]. rewrite via_get_ok by lia. reflexivity. Qed.
  Section Coordinate.
    Variables (j : nat) (x0 xe : R).
    Hypothesis Hj : (j < c)%nat.
    Notation K := (knot via dt j x0 xe N n).
    Lemma knot_S : forall k, (k < n)%nat -> K (S k) = (nth 0 (nth k via []) 0 / dt, nth (j + 1) (nth k via []) 0).
    Proof. clear. intros k Hk. cbn [knot]. rewrite (proj2 (Nat.eqb_neq k n)) by lia. reflexivity. Qed.
    Lemma knot_last : K (S n) = (INR N, xe).
    Proof. clear. cbn [knot]. now rewrite Nat.eqb_refl. Qed.
    Lemma segment_is : forall i, (i <= n)%nat -> segment solve N n via dt j x0 xe i =
      if (i =? n)%nat then (if Req_EM_T (fst (K n)) (INR N) then Ok [] else piece solve (fst (K n)) (fst (K (S n))) (snd (K n)) (snd (K (S n)))) else piece solve (fst (K i)) (fst (K (S i))) (snd (K i)) (snd (K (S i))).
    Proof.
      intros i Hi. destruct i as [|k].
      - rewrite (proj2 (Nat.eqb_neq 0 n)) by lia. cbn [segment]. rewrite via_time_ok, via_get_ok by lia. cbn [bind]. rewrite knot_S by exact Hn. reflexivity.
      - cbn [segment]. destruct (Nat.eqb_spec (S k) n) as [E|E].
        + rewrite via_time_ok by lia. cbn [bind]. rewrite knot_last. assert (Kn : K n = (nth 0 (nth k via []) 0 / dt, nth (j + 1) (nth k via []) 0)) by (rewrite <- (knot_S k) by lia; now rewrite E). rewrite Kn. cbn [fst snd]. destruct (Req_EM_T _ _); [reflexivity|]. rewrite via_get_ok by lia. reflexivity.
        + rewrite !via_time_ok by lia. cbn [bind]. rewrite !via_get_ok by lia. cbn [bind]. rewrite !knot_S by lia. reflexivity.
    Qed.
    Definition pieces (m : nat) (l : plist) : Prop := length l = m /\ forall i, (i < m)%nat -> exists p, nth_error l i = Some ((fst (K i), fst (K (S i))), p) /\ is_function p (min_jerk (K i) (K (S i))).
    Hypothesis Inc : forall i, (i < n)%nat -> fst (K i) < fst (K (S i)).
    Lemma gen_prefix : forall m, (m <= n)%nat -> exists l, foldM (fun l i => bind (segment solve N n via dt j x0 xe i) (fun s => Ok (l ++ s))) (seq 0 m) [] = Ok l /\ pieces m l.
    Proof.
      induction m; intros Hm; [exists []; split; [reflexivity|]; split; [reflexivity|intros; lia]|]. destruct (IHm ltac:(lia)) as (l & E & L & P). rewrite seq_S, foldM_append, E. cbn [bind Nat.add foldM].
      rewrite segment_is by lia. rewrite (proj2 (Nat.eqb_neq m n)) by lia. destruct (piece_ok (K m) (K (S m))) as (p & -> & F). { pose proof (Inc m ltac:(lia)). lra. }
      cbn [bind]. eexists. split; [reflexivity|]. split; [rewrite app_length; cbn; lia|]. intros i Hi. destruct (Nat.eq_dec i m) as [->|].
      - exists p. split; [rewrite nth_error_app2 by lia; now rewrite L, Nat.sub_diag|exact F].
      - destruct (P i ltac:(lia)) as (p' & A & B). exists p'. split; [rewrite nth_error_app1 by lia; exact A|exact B].
    Qed.
    Lemma gen_ok : exists l m, generate_traj solve N n via dt j x0 xe = Ok l /\ pieces m l /\ ((m = S n /\ fst (K n) <> INR N) \/ (m = n /\ fst (K n) = INR N)).
    Proof.
      unfold generate_traj. destruct (gen_prefix n (le_n _)) as (l & E & L & P). rewrite seq_S, foldM_append, E. cbn [bind Nat.add foldM]. rewrite segment_is by lia. rewrite Nat.eqb_refl.
      destruct (Req_EM_T (fst (K n)) (INR N)) as [Eq|Ne].
      - cbn [bind]. exists (l ++ []), n. split; [reflexivity|]. rewrite app_nil_r. split; [split; assumption|]. now right.
      - destruct (piece_ok (K n) (K (S n))) as (p & -> & F). { rewrite knot_last. exact Ne. } cbn [bind]. exists (l ++ [((fst (K n), fst (K (S n))), p)]), (S n). split; [reflexivity|]. split; [|left; split; [reflexivity|exact Ne]].
        split; [rewrite app_length; cbn; lia|]. intros i Hi. destruct (Nat.eq_dec i n) as [->|].
        + exists p. split; [rewrite nth_error_app2 by lia; now rewrite L, Nat.sub_diag|exact F].
        + destruct (P i ltac:(lia)) as (p' & A & B). exists p'. split; [rewrite nth_error_app1 by lia; exact A|exact B].
    Qed.
    Lemma knots_mono : forall i i', (i <= i')%nat -> (i' <= n)%nat -> fst (K i) <= fst (K i').
    Proof. intros i i' H. induction H; intros; [lra|]. pose proof (Inc m ltac:(lia)). specialize (IHle ltac:(lia)). lra. Qed.
    Lemma before : forall l m i t, pieces m l -> (i < m)%nat -> (i <= n)%nat -> fst (K i) < t -> Forall (fun w => snd (fst w) < t) (firstn i l).
    Proof.
      intros l m i t [L P] Hi Hin Ht. apply Forall_forall. intros w Hw. apply (In_nth_error) in Hw. destruct Hw as (k & Hk). assert (k < i)%nat by (pose proof (proj1 (nth_error_Some (firstn i l) k) ltac:(congruence)) as HL; rewrite firstn_length in HL; lia).
      assert (nth_error l k = Some w). { rewrite <- Hk. rewrite <- (firstn_skipn i l) at 1. apply nth_error_app1. rewrite firstn_length. lia. }
      destruct (P k ltac:(lia)) as (p & Q & _). rewrite Q in H0. injection H0 as <-. apply (Rle_lt_trans _ (fst (K i))); [exact (knots_mono (S k) i ltac:(lia) Hin)|exact Ht].
    Qed.
    Lemma split_at : forall (l : plist) i w, nth_error l i = Some w -> l = firstn i l ++ w :: skipn (S i) l.
    Proof. induction l as [|a l IH]; intros [|i] w H; try discriminate; cbn in *; [now injection H as ->|]. f_equal. now apply IH. Qed.
    Lemma eval_in : forall l m i t, pieces m l -> (i < m)%nat -> (i <= n)%nat -> (fst (K i) < t \/ i = 0%nat) -> t <= fst (K (S i)) -> list_eval l t = Ok (min_jerk (K i) (K (S i)) t).
    Proof.
      intros l m i t P Hi Hin A B. pose proof P as [L P']. destruct (P' i Hi) as (p & E & F). unfold list_eval.
      rewrite (split_at l i _ E). rewrite get_poly_at; [cbn [bind]; apply F| |exact B]. destruct A as [A| ->]; [|constructor]. eapply Forall_impl; [|exact (before l m i t P Hi Hin A)]. cbn beta. intros w Hw. exact Hw.
    Qed.
    Lemma jerk_ends : forall a b, fst a <> fst b -> min_jerk a b (fst a) = snd a /\ min_jerk a b (fst b) = snd b.
    Proof. clear. intros [ta xa] [tb xb] H. cbn [fst snd] in *. unfold min_jerk. cbn [fst snd]. cbv zeta. split; [replace ((ta - ta) / (tb - ta)) with 0 by (field; lra)|replace ((tb - ta) / (tb - ta)) with 1 by (field; lra)]; ring. Qed.
    Lemma eval_ok : forall l m i t, pieces m l -> (i < m)%nat -> (i <= n)%nat -> fst (K i) < fst (K (S i)) -> fst (K i) <= t <= fst (K (S i)) -> list_eval l t = Ok (min_jerk (K i) (K (S i)) t).
    Proof.
      intros l m i t P Hi Hin I [A B]. destruct (Rlt_dec (fst (K i)) t) as [L|L]; [now apply (eval_in l m i t P Hi Hin); [left|]|]. assert (t = fst (K i)) by lra. subst t.
      destruct i as [|k]; [now apply (eval_in l m 0 _ P Hi Hin); [right|]|]. pose proof (Inc k ltac:(lia)) as I'. rewrite (eval_in l m k _ P ltac:(lia) ltac:(lia)); [|left; exact I'|lra].
      f_equal. rewrite (proj2 (jerk_ends (K k) (K (S k)) ltac:(lra))). now rewrite (proj1 (jerk_ends (K (S k)) (K (S (S k))) ltac:(lra))).
    Qed.
  End Coordinate.
End Interp.

Lemma mapM_ok {A B} : forall (f : A -> res B) (P : A -> B -> Prop) l, (forall a, In a l -> exists b, f a = Ok b /\ P a b) -> exists bs, mapM f l = Ok bs /\ Forall2 P l bs.
Proof.
  intros f P l. induction l as [|a l IH]; intros H; [exists []; split; [reflexivity|constructor]|]. destruct (H a (or_introl eq_refl)) as (b & E & Pb). destruct IH as (bs & E' & F); [intros; apply H; now right|].
  exists (b :: bs). cbn [mapM]. rewrite E. cbn [bind]. rewrite E'. split; [reflexivity|now constructor].
Qed.
Lemma Forall2_len {A B} : forall (P : A -> B -> Prop) l bs, Forall2 P l bs -> length l = length bs.
Proof. intros P l bs F. induction F; cbn; congruence. Qed.
Lemma Forall2_nth {A B} : forall (P : A -> B -> Prop) l bs, Forall2 P l bs -> forall i da db, (i < length l)%nat -> P (nth i l da) (nth i bs db).
Proof. intros P l bs F. induction F; intros i da db Hi; cbn in Hi; [lia|]. destruct i; [exact H|]. cbn. apply IHF. lia. Qed.

(** ** Initial configuration *)
Definition norm_of (n : nat) (r : config) : R := sqrt (rsum n (fun i => entries r i ^ 2)).
Lemma norm_small_iff : forall x, norm_small x = true <-> norm_of (pl x) (listing x) < / 1000.
Proof.
  intros x. unfold norm_small, norm_of. replace (rsum (pl x) (fun i => entries (listing x) i ^ 2)) with (rsum (pl x) (fun i => pe x i ^ 2)) by (apply rsum_ext; intros; now rewrite listing_entries).
  destruct (Rlt_dec _ _); split; (easy || congruence).
Qed.
Section Init.
  Variables (sq : pm -> pv -> option (pm * pv) -> nat -> res pv) (rb : robot) (integ : config -> config -> config) (olog : list R -> config -> vec3) (st : iksetting) (com : vec3) (effpos : list vec3) (dq : config).
  Hypothesis (Hs : quadprog_sound sq) (Hnv : (6 <= r_nv rb)%nat).
  Definition descends (q r : nat -> config) (k : nat) : Prop := forall i, (i < k)%nat -> let a := init_arg rb olog com effpos (q i) dq in
    length (r i) = r_nv rb /\ minimises (admissible rb a) (task_cost rb st a) (entries (r i)) /\ q (S i) = integ (q i) (r i).
  Lemma init_loop_ok : forall m k s q s' q' k', reach sq rb s -> init_loop sq rb integ olog st com effpos dq m k s q = Ok (s', q', k') ->
    reach sq rb s' /\ exists d (Q Rr : nat -> config), k' = (k + d)%nat /\ (d <= m)%nat /\ Q 0%nat = q /\ Q d = q' /\ descends Q Rr d /\ (forall i, (S i < d)%nat -> / 1000 <= norm_of (r_nv rb) (Rr i)) /\
      (d = m \/ exists p, d = S p /\ norm_of (r_nv rb) (Rr p) < / 1000) /\ ((0 < m)%nat -> (0 < d)%nat).
  Proof.
    induction m; intros k s q s' q' k' R H.
    - cbn in H. injection H as <- <- <-. split; [exact R|]. exists 0%nat, (fun _ => q), (fun _ => []). repeat split; auto; try lia; intros i Hi; lia.
    - cbn [init_loop] in H. destruct (compute sq rb st s (init_arg rb olog com effpos q dq)) as [[x s1]| |] eqn:E; cbn [bind fst snd] in H; try discriminate.
      assert (R1 : reach sq rb s1) by (eapply reach_compute; eauto). destruct (C57_minimises sq rb st s _ x s1 Hs Hnv R E) as [PL MIN].
      assert (MIN' : minimises (admissible rb (init_arg rb olog com effpos q dq)) (task_cost rb st (init_arg rb olog com effpos q dq)) (entries (listing x))).
      { eapply minimises_ext; [|exact MIN]. intros j Hj. now rewrite listing_entries by lia. }
      destruct (norm_small x) eqn:NS.
      + injection H as <- <- <-. split; [exact R1|]. exists 1%nat, (fun i => match i with O => q | _ => integ q (listing x) end), (fun _ => listing x). split; [lia|]. split; [lia|]. split; [reflexivity|]. split; [reflexivity|].
        split; [|split; [|split; [|lia]]].
        * intros i Hi. assert (i = 0%nat) by lia. subst i. cbv zeta. split; [now rewrite listing_length|]. split; [exact MIN'|reflexivity].
        * intros i Hi. lia.
        * right. exists 0%nat. split; [reflexivity|]. rewrite <- PL. now apply norm_small_iff.
      + destruct (IHm (S k) s1 _ s' q' k' R1 H) as (R2 & d & Q & Rr & -> & Hd & Q0 & Qd & D & NB & LAST & _). split; [exact R2|].
        exists (S d), (fun i => match i with O => q | S p => Q p end), (fun i => match i with O => listing x | S p => Rr p end). split; [lia|]. split; [lia|]. split; [reflexivity|]. split; [exact Qd|].
        split; [|split; [|split; [|lia]]].
        * intros i Hi. destruct i as [|p]; cbv zeta; [|apply D; lia]. split; [now rewrite listing_length|]. split; [exact MIN'|now rewrite Q0].
        * intros i Hi. destruct i as [|p]; [|apply NB; lia]. rewrite <- PL. apply Rnot_lt_le. rewrite <- norm_small_iff. congruence.
        * destruct LAST as [->|(p & -> & X)]; [now left|]. right. exists (S p). auto.
  Qed.
End Init.

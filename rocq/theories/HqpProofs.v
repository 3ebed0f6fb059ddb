(** Invariant and measure of the two-thread model. *)
From Coq Require Import List Arith Bool Lia.
Import ListNotations.
From Verif Require Import HqpModel HqpSpec.

Section P.
Variable M : Type.
Variable has_rows : M -> bool.
Variable nullmap : M -> M.
Notation st := (st M). Notation call := (call M). Notation mpc := (mpc M).
Notation main_step := (main_step M). Notation worker_step := (worker_step M has_rows nullmap).
Notation step := (step M has_rows nullmap). Notation steps := (steps M has_rows nullmap).
Notation seq_call := (seq_call M has_rows nullmap). Notation seq_run := (seq_run M has_rows nullmap).

Definition main_cs (p : mpc) : bool :=
  match p with
  | S_set _ _ | S_bcast _ _ | S_unlock _ _ | R_body _ _ _ | R_unlock _ _ _ | T_read _ _ _ | T_early _ _ _ | T_write _ _ _ | T_post _ _ _
  | T_bcast _ _ _ | T_unlock1 _ _ _ | T_check _ _ _ | T_unlock2 _ _ _ => true
  | _ => false
  end.
Definition worker_cs (w : wpc) : bool :=
  match w with W_check | W_svd | W_rank | W_flag | W_bcast | W_unlock | W_break => true | _ => false end.
Definition working (w : wpc) : bool := match w with W_svd | W_rank | W_flag => true | _ => false end.
Definition own (m : option tid) (p : mpc) (w : wpc) : bool :=
  match m with
  | None => negb (main_cs p) && negb (worker_cs w)
  | Some Main => main_cs p && negb (worker_cs w)
  | Some Worker => negb (main_cs p) && worker_cs w
  end.
Definition waiting_job (p : mpc) : bool :=
  match p with T_bcast _ _ _ | T_unlock1 _ _ _ | T_lock2 _ _ _ | T_check _ _ _ | T_wait _ _ _ | T_relock _ _ _ => true | _ => false end.
Definition posted (p : mpc) : bool := match p with T_bcast _ _ _ | T_unlock1 _ _ _ => true | _ => false end.
Definition is_wait (w : wpc) := match w with W_wait => true | _ => false end.
Definition is_none (w : wpc) := match w with W_none => true | _ => false end.
Definition is_break (w : wpc) := match w with W_break => true | _ => false end.
Definition is_end (w : wpc) := match w with W_end => true | _ => false end.
Definition is_wbcast (w : wpc) := match w with W_bcast => true | _ => false end.
Definition at_bcast (p : mpc) := match p with T_bcast _ _ _ | S_bcast _ _ => true | _ => false end.
Definition is_twait (p : mpc) := match p with T_wait _ _ _ => true | _ => false end.
Definition stopping (p : mpc) := match p with S_bcast _ _ | S_unlock _ _ | S_join _ _ | I_spawn _ | Done _ => true | _ => false end.
Definition in_stop (p : mpc) := match p with S_lock _ _ | S_set _ _ | S_bcast _ _ | S_unlock _ _ | S_join _ _ => true | _ => false end.
Definition in_task (p : mpc) := match p with
  T_lock _ _ _ | T_read _ _ _ | T_early _ _ _ | T_write _ _ _ | T_post _ _ _ | T_bcast _ _ _ | T_unlock1 _ _ _ | T_lock2 _ _ _ | T_check _ _ _
  | T_wait _ _ _ | T_relock _ _ _ | T_unlock2 _ _ _ => true | _ => false end.
Definition over (p : mpc) := match p with I_spawn _ | Done _ => true | _ => false end.
Definition ctl (m : option tid) (c s : bool) (p : mpc) (w : wpc) : bool :=
  own m p w
  && (c || waiting_job p) && (negb (posted p) || negb c)
  && (negb (working w) || negb c)
  && (negb (is_wait w) || ((c && negb s) || at_bcast p))
  && (negb (is_twait p) || (negb c || is_wbcast w))
  && (negb s || stopping p || is_none w)
  && (negb (stopping p) || s || is_none w)
  && (negb (is_break w || is_end w) || s)
  && (negb (over p) || is_none w || is_end w)
  && (negb (in_stop p) || negb (is_none w)).

Definition ctl_s (s : st) := ctl (mu _ s) (computed _ s) (stop _ s) (mp _ s) (wp _ s) = true.

Ltac unf := cbn [mu computed stop B K rank ub mp wp prog obs past set_mu set_computed set_stop set_B set_K set_rank set_ub set_mp set_wp see finish pop wake_worker wake_main] in *.

Lemma ctl_main : forall s s', ctl_s s -> main_step s = Some s' -> ctl_s s'.
Proof.
  intros [m c sp b k r u p w pr ob pa] s' Hc H. unfold ctl_s in *. unf. unfold main_step in H. unf.
  destruct p; unf;
    repeat match goal with
           | H : match ?x with _ => _ end = _ |- _ => destruct x eqn:?
           | H : Some _ = Some _ |- _ => injection H as <-
           | H : None = Some _ |- _ => discriminate H
           end; unfold wake_worker, finish, see, pop; unf; subst;
    try (destruct w; unf; destruct c, sp; try destruct m as [[|]|]; cbn in *; try discriminate; try reflexivity; fail).
  all: repeat match goal with |- context [if ?x then _ else _] => destruct x eqn:? | |- context [match ?x with _ => _ end] => destruct x eqn:? end; unf;
    destruct c, sp; try destruct m as [[|]|]; cbn in *; try discriminate; try reflexivity; destruct w; cbn in *; try discriminate; try reflexivity.
Qed.
Lemma ctl_worker : forall s s', ctl_s s -> worker_step s = Some s' -> ctl_s s'.
Proof.
  intros [m c sp b k r u p w pr ob pa] s' Hc H. unfold ctl_s in *. unf. unfold worker_step in H. unf.
  destruct w; unf;
    repeat match goal with
           | H : match ?x with _ => _ end = _ |- _ => destruct x eqn:?
           | H : Some _ = Some _ |- _ => injection H as <-
           | H : None = Some _ |- _ => discriminate H
           end; unfold wake_main; unf; subst;
    destruct c, sp; cbn [negb andb];
    repeat match goal with |- context [if ?x then _ else _] => lazymatch x with true => fail | false => fail | _ => destruct x end end;
    destruct p; unf; try destruct m as [[|]|]; cbn in *; try discriminate; try reflexivity.
Qed.
Lemma ctl_step : forall a s s', ctl_s s -> step a s s' -> ctl_s s'.
Proof.
  intros a s s' Hc H. destruct H.
  - eapply ctl_main; eassumption.
  - eapply ctl_worker; eassumption.
  - unfold ctl_s in *; unf. rewrite H0 in Hc. destruct (wp _ s), (mu _ s) as [[|]|], (computed _ s), (stop _ s); cbn in *; auto; discriminate.
  - unfold ctl_s in *; unf. rewrite H0 in Hc. destruct (mp _ s), (mu _ s) as [[|]|], (computed _ s), (stop _ s); cbn in *; auto; discriminate.
Qed.
Lemma ctl_init : forall b0 k0 g p, ctl_s (init _ b0 k0 g p).
Proof. intros; destruct g; reflexivity. Qed.

(** ** Data *)
Definition pending (s : st) (q : seqst M) (e : M -> bool) (nb : list M -> option M) : Prop :=
  let b := match nb (q_obs _ q ++ [q_K _ q]) with Some b => b | None => q_B _ q end in
  e (q_K _ q) = false /\ B _ s = b /\ obs _ s = q_obs _ q ++ [q_K _ q] /\
  (working (wp _ s) = false \/ wp _ s = W_svd -> K _ s = q_K _ q /\ rank _ s = q_rank _ q) /\
  (wp _ s = W_rank -> K _ s = (if has_rows b then nullmap b else q_K _ q) /\ rank _ s = q_rank _ q) /\
  (wp _ s = W_flag -> K _ s = (if has_rows b then nullmap b else q_K _ q) /\ rank _ s = q_rank _ q + 1).
Definition same (s : st) (q : seqst M) : Prop := B _ s = q_B _ q /\ K _ s = q_K _ q /\ rank _ s = q_rank _ q /\ obs _ s = q_obs _ q.
Definition data (s : st) (q : seqst M) : Prop :=
  match mp _ s with
  | Next _ | I_flag _ | I_prevK _ | I_spawn _ | S_lock _ _ | S_set _ _ | S_bcast _ _ | S_unlock _ _ | S_join _ _ | Done _
  | R_lock _ _ _ | R_body _ _ _ | T_lock _ _ _ | T_read _ _ _ => same s q
  | R_unlock _ b k => same s (seq_call q (ResetTo _ b k))
  | T_early _ e nb => e (q_K _ q) = true /\ same s (seq_call q (Solve _ e nb))
  | T_write _ e nb => e (q_K _ q) = false /\ B _ s = q_B _ q /\ K _ s = q_K _ q /\ rank _ s = q_rank _ q /\ obs _ s = q_obs _ q ++ [q_K _ q]
  | T_post _ e nb => pending s q e nb
  | T_bcast _ e nb | T_unlock1 _ e nb | T_lock2 _ e nb | T_check _ e nb | T_wait _ e nb | T_relock _ e nb =>
    if computed _ s then same s (seq_call q (Solve _ e nb)) else pending s q e nb
  | T_unlock2 _ e nb => same s (seq_call q (Solve _ e nb))
  end.
Definition current (p : mpc) : list call :=
  match p with
  | Next _ | Done _ | S_lock _ true | S_set _ true | S_bcast _ true | S_unlock _ true | S_join _ true => []
  | I_flag _ | I_prevK _ | I_spawn _ | S_lock _ false | S_set _ false | S_bcast _ false | S_unlock _ false | S_join _ false => [Init _]
  | R_lock _ b k | R_body _ b k | R_unlock _ b k => [ResetTo _ b k]
  | T_lock _ e nb | T_read _ e nb | T_early _ e nb | T_write _ e nb | T_post _ e nb | T_bcast _ e nb | T_unlock1 _ e nb | T_lock2 _ e nb
  | T_check _ e nb | T_wait _ e nb | T_relock _ e nb | T_unlock2 _ e nb => [Solve _ e nb]
  end.
Definition finishing (p : mpc) : bool :=
  match p with Done _ | S_lock _ true | S_set _ true | S_bcast _ true | S_unlock _ true | S_join _ true => true | _ => false end.

Variable b0 k0 : M.
Variable P : list call.
Definition Inv (s : st) : Prop :=
  ctl_s s /\ data s (seq_run b0 k0 (past _ s)) /\ past _ s ++ current (mp _ s) ++ prog _ s = P /\ (finishing (mp _ s) = true -> prog _ s = []) /\
  (ub _ s = true -> q_over _ (seq_run b0 k0 (past _ s ++ current (mp _ s))) = true).

Lemma seq_run_snoc : forall p c, seq_run b0 k0 (p ++ [c]) = seq_call (seq_run b0 k0 p) c.
Proof. intros. unfold HqpSpec.seq_run. now rewrite fold_left_app. Qed.

Lemma finish_ok : forall (s : st) c, mp _ s <> Next _ -> current (mp _ s) = [c] -> past _ s ++ current (mp _ s) ++ prog _ s = P ->
  (past _ s ++ [c]) ++ [] ++ prog _ s = P.
Proof. intros s c _ H1 H2. rewrite H1 in H2. cbn. rewrite <- app_assoc. exact H2. Qed.

Lemma data_main : forall s s', ctl_s s -> data s (seq_run b0 k0 (past _ s)) -> main_step s = Some s' -> data s' (seq_run b0 k0 (past _ s')).
Proof.
  intros [m c sp b k r u p w pr ob pa] s' Hc Hd H. unfold ctl_s, data in *. unfold main_step in H. unf.
  destruct p; unf;
    repeat match goal with
           | H : match ?x with _ => _ end = _ |- _ => destruct x eqn:?
           | H : Some _ = Some _ |- _ => injection H as <-
           | H : None = Some _ |- _ => discriminate H
           end; unfold wake_worker, finish, see, pop; unf; subst; rewrite ?seq_run_snoc; try exact Hd.
  all: try (destruct w; exact Hd).
  - (* NullDim *) unfold same in *; cbn in *; unf. intuition congruence.
  - destruct fin; exact Hd.
  - unfold same in *; cbn in *; unf. intuition congruence.
  - (* T_read *) destruct Hd as (D1 & D2 & D3 & D4). unf. destruct (e k) eqn:E; unf.
    + split; [congruence|]. unfold same; cbn. rewrite <- D2, E. cbn. repeat split; congruence.
    + rewrite <- D2. repeat split; try congruence.
  - unfold same in *; cbn in *. destruct Hd as [D0 Hd]. rewrite D0 in *. cbn in *. exact Hd.
  - (* T_write *) destruct Hd as (D0 & D1 & D2 & D3 & D4). unf. unfold pending.
    assert (Hw : working w = false) by (destruct m as [[|]|], c, w; cbn in *; auto; discriminate).
    destruct (nb ob) eqn:En; unf; rewrite D4 in En; rewrite En; cbn; repeat split; auto; intros; subst; discriminate.
  - (* T_bcast *) assert (c = false) by (destruct m as [[|]|], c, w; cbn in *; auto; discriminate). subst.
    destruct w; unf; auto; unfold pending in *; unf; destruct Hd as (D0 & D1 & D2 & D3 & D4 & D5); repeat split; auto; try (now apply D3; left); intros; try discriminate.
  - destruct c; unf; exact Hd.
Qed.

Lemma data_worker : forall s s', ctl_s s -> data s (seq_run b0 k0 (past _ s)) -> worker_step s = Some s' -> data s' (seq_run b0 k0 (past _ s')).
Proof.
  intros [m c sp b k r u p w pr ob pa] s' Hc Hd H. unfold ctl_s, data in *. unfold worker_step in H. unf.
  destruct w; unf;
    repeat match goal with
           | H : match ?x with _ => _ end = _ |- _ => destruct x eqn:?
           | H : Some _ = Some _ |- _ => injection H as <-
           | H : None = Some _ |- _ => discriminate H
           end; unfold wake_main; unf; subst.
  all: try (destruct p; unf; auto; destruct c; unf; auto; unfold pending in *; unf;
            destruct Hd as (D0 & D1 & D2 & D3 & D4 & D5); repeat split; auto; try (now apply D3; left); try discriminate; fail).
  - destruct sp; unf; destruct p; unf; auto; destruct c; unf; auto; unfold pending in *; unf;
            destruct Hd as (D0 & D1 & D2 & D3 & D4 & D5); repeat split; auto; try (now apply D3; left); try discriminate.
  - destruct sp, c; cbn [negb andb]; unf; destruct p; unf; auto; unfold pending in *; unf;
            destruct Hd as (D0 & D1 & D2 & D3 & D4 & D5); repeat split; auto; try (now apply D3; left); try discriminate.
  - assert (c = false) by (destruct m as [[|]|], c, p; cbn in *; auto; discriminate). subst c.
    destruct p; unf; try (destruct m as [[|]|], sp; discriminate);
      unfold pending in *; unf; destruct Hd as (D0 & D1 & D2 & D3 & D4 & D5);
      destruct (D3 (or_intror eq_refl)) as [K1 R1]; rewrite <- D1 in *;
      destruct (has_rows b) eqn:Hb; try destruct (r <? max_ranks); unf; rewrite <- ?D1, ?Hb; repeat split; auto; intros; try discriminate; try (destruct H; discriminate); try congruence.
  - assert (c = false) by (destruct m as [[|]|], c, p; cbn in *; auto; discriminate). subst c.
    destruct p; unf; try (destruct m as [[|]|], sp; discriminate);
      unfold pending in *; unf; destruct Hd as (D0 & D1 & D2 & D3 & D4 & D5);
      destruct (D4 eq_refl) as [K1 R1]; repeat split; auto; intros; try discriminate; try (destruct H; discriminate); try lia.
  - assert (c = false) by (destruct m as [[|]|], c, p; cbn in *; auto; discriminate). subst c.
    destruct p; unf; try (destruct m as [[|]|], sp; discriminate);
      unfold pending in *; unf; destruct Hd as (D0 & D1 & D2 & D3 & D4 & D5);
      destruct (D5 eq_refl) as [K1 R1]; unfold same; cbn; rewrite D0; cbn; repeat split; auto.
Qed.

Lemma Inv_init : forall g, Inv (init _ b0 k0 g P).
Proof.
  intros g. split; [apply ctl_init|]. cbn. repeat split; intros; discriminate.
Qed.
Lemma Inv_step : forall a s s', Inv s -> step a s s' -> Inv s'.
Proof.
  intros a s s' (I1 & I2 & I3 & I4 & I5) Hs. split; [eapply ctl_step; eassumption|].
  destruct Hs as [s s' U H|s s' U H|s e nb U H|s U H].
  - split; [eapply data_main; eassumption|].
    clear I1 I2. destruct s as [m c sp b k r u p w pr ob pa]. unfold main_step in H. unf. subst u.
    destruct p; unf;
    repeat match goal with
           | H : match ?x with _ => _ end = _ |- _ => destruct x eqn:?
           | H : Some _ = Some _ |- _ => injection H as <-
           | H : None = Some _ |- _ => discriminate H
           end; unfold wake_worker, finish, see, pop; unf; subst; cbn [current finishing app tl] in *;
    repeat match goal with |- context [match ?x with _ => _ end] => destruct x eqn:? end; unf; cbn [current finishing app tl] in *;
    repeat split; rewrite <- ?app_assoc; cbn [app]; auto; intros; try discriminate; rewrite ?app_nil_r in *; auto.
  - split; [eapply data_worker; eassumption|].
    destruct s as [m c sp b k r u p w pr ob pa]. unfold worker_step in H. unf. subst u. unfold ctl_s in I1. unf.
    destruct w; unf;
    repeat match goal with
           | H : match ?x with _ => _ end = _ |- _ => destruct x eqn:?
           | H : Some _ = Some _ |- _ => injection H as <-
           | H : None = Some _ |- _ => discriminate H
           end; unfold wake_main; unf; subst; unf.
    all: try (repeat split; auto; intros; discriminate).
    + destruct sp, c; cbn [negb andb]; unf; repeat split; auto; intros; discriminate.
    + destruct (has_rows b) eqn:Hb; [|unf; repeat split; auto; intros; discriminate].
      destruct (r <? max_ranks) eqn:Hr; unf; repeat split; auto; intros; try discriminate.
      assert (c = false) by (destruct m as [[|]|], c, p; cbn in *; auto; discriminate). subst c.
      unfold data in I2. unf. destruct p; unf; try (destruct m as [[|]|], sp; discriminate); cbn [current]; rewrite seq_run_snoc;
        unfold pending in I2; unf; destruct I2 as (D0 & D1 & D2 & D3 & D4 & D5); destruct (D3 (or_intror eq_refl)) as [K1 R1];
        cbn [seq_call HqpSpec.seq_call]; rewrite D0; cbn [q_over]; rewrite <- D1, Hb, <- R1; unfold max_ranks in Hr; rewrite Hr; apply orb_true_r.
    + destruct p; unf; repeat split; auto; intros; discriminate.
  - cbn in *. unf. rewrite H in *. cbn in *. split; [|split; [auto|split; [intros; discriminate|intros; congruence]]].
    unfold data in *; unf. rewrite H in *. destruct (computed _ s); auto.
  - unf. split; [|split; [auto|split; [auto|intros; congruence]]].
    unfold data in *; unf. destruct (mp _ s); auto; try (destruct (computed _ s)); auto; unfold pending in *; unf; rewrite H in *;
      destruct I2 as (D0 & D1 & D2 & D3 & D4 & D5); repeat split; auto; try (now apply D3; left); discriminate.
Qed.
Lemma Inv_steps : forall l g s, steps l (init _ b0 k0 g P) s -> Inv s.
Proof.
  intros l g s H. remember (init M b0 k0 g P) as s0 eqn:E. revert E. induction H; intros; subst.
  - apply Inv_init.
  - eapply Inv_step; [|eassumption]. auto.
Qed.

(** ** Measure *)
Definition ww (w : wpc) : nat :=
  match w with W_none | W_wait | W_end => 0 | W_break => 1 | W_check => 2 | W_lock | W_relock => 3 | W_head => 4 | W_unlock => 5
  | W_bcast => 10 | W_flag => 11 | W_rank => 12 | W_svd => 13 end.
Definition wm (p : mpc) : nat :=
  match p with
  | Next _ => 20 | Done _ => 0
  | S_join _ true => 4 | S_unlock _ true => 5 | S_bcast _ true => 10 | S_set _ true => 11 | S_lock _ true => 12
  | I_spawn _ => 30 | S_join _ false => 31 | S_unlock _ false => 32 | S_bcast _ false => 40 | S_set _ false => 41 | S_lock _ false => 42
  | I_prevK _ => 43 | I_flag _ => 44
  | R_unlock _ _ _ => 21 | R_body _ _ _ => 22 | R_lock _ _ _ => 23
  | T_unlock2 _ _ _ => 21 | T_early _ _ _ => 21 | T_wait _ _ _ => 22 | T_check _ _ _ => 23 | T_relock _ _ _ => 24 | T_lock2 _ _ _ => 24
  | T_unlock1 _ _ _ => 25 | T_bcast _ _ _ => 30 | T_post _ _ _ => 60 | T_write _ _ _ => 61 | T_read _ _ _ => 62 | T_lock _ _ _ => 63
  end.
Definition wc (c : bool) (w : wpc) : nat := if c then 0 else if working w then 0 else 20.
Definition weight (s : st) : nat := if ub _ s then 0 else 60 * length (prog _ s) + wm (mp _ s) + ww (wp _ s) + wc (computed _ s) (wp _ s).

Definition spurious (a : label) : bool := match a with Spurious => true | _ => false end.
Lemma weight_step : forall a s s', ctl_s s -> step a s s' -> if spurious a then weight s' <= weight s + 3 else weight s' + 1 <= weight s.
Proof.
  intros a s s' Hc Hs. destruct Hs as [s s' U H|s s' U H|s e nb U H|s U H]; cbn [spurious].
  - destruct s as [m c sp b k r u p w pr ob pa]. unfold main_step in H. unfold ctl_s, weight in *. unf. subst u.
    destruct p; unf;
    repeat match goal with
           | H : match ?x with _ => _ end = _ |- _ => destruct x eqn:?
           | H : Some _ = Some _ |- _ => injection H as <-
           | H : None = Some _ |- _ => discriminate H
           end; unfold wake_worker, finish, see, pop; unf; subst; cbn [length tl wm] in *;
    repeat match goal with |- context [match ?x with _ => _ end] => lazymatch x with _ + _ => fail | _ * _ => fail | _ => destruct x eqn:? end end; unf; cbn [length tl wm ww wc working] in *; try lia.
    all: subst; try (destruct w; cbn [ww wc working]; lia); destruct c; cbn [wc ww working]; try lia; try (destruct w; cbn [wc ww working]; lia); destruct m as [[|]|], sp, w; discriminate.
  - destruct s as [m c sp b k r u p w pr ob pa]. unfold worker_step in H. unfold ctl_s, weight in *. unf. subst u.
    destruct w; unf;
    repeat match goal with
           | H : match ?x with _ => _ end = _ |- _ => destruct x eqn:?
           | H : Some _ = Some _ |- _ => injection H as <-
           | H : None = Some _ |- _ => discriminate H
           end; unfold wake_main; unf; subst; unf.
    all: cbn [ww wc working]; try (destruct c; lia); try (destruct sp, c; cbn [negb andb]; unf; cbn [ww wc working]; lia).
    + destruct (has_rows b); try destruct (r <? max_ranks); unf; unfold wc; cbn [ww working]; destruct c; try lia.
    + destruct p; unf; unfold wc; cbn [wm ww working]; destruct c; lia.
  - unfold weight; unf. rewrite U, H. cbn [wm]. lia.
  - unfold weight; unf. rewrite U, H. unfold wc; cbn [ww working]. destruct (computed _ s); lia.
Qed.
Lemma steps_weight : forall l g s, steps l (init _ b0 k0 g P) s -> length l + weight s <= 60 * length P + 20 + 4 * length (filter spurious l).
Proof.
  intros l g s H. remember (init M b0 k0 g P) as s0 eqn:E. revert E. induction H; intros; subst.
  - cbn -[Nat.mul]. lia.
  - specialize (IHsteps eq_refl). pose proof (Inv_steps _ _ _ H) as [I1 _]. pose proof (weight_step _ _ _ I1 H0) as W.
    rewrite filter_app, !app_length. cbn [filter length]. destruct (spurious a); cbn [length]; lia.
Qed.

(** ** Progress *)
Definition no_solve_before_init := fix f (p : list call) : bool :=
  match p with [] => true | Init _ :: _ => true | Solve _ _ _ :: _ => false | _ :: t => f t end.
Definition alive (s : st) : Prop :=
  wp _ s = W_none -> in_task (mp _ s) = false /\ (match mp _ s with I_flag _ | I_prevK _ | I_spawn _ => True | _ => no_solve_before_init (prog _ s) = true end).
Lemma alive_step : forall a s s', alive s -> step a s s' -> alive s'.
Proof.
  intros a s s' Ha Hs. unfold alive in *. destruct Hs as [s s' U H|s s' U H|s e nb U H|s U H].
  - destruct s as [m c sp b k r u p w pr ob pa]. unfold main_step in H. unf. subst u.
    destruct p; unf;
    repeat match goal with
           | H : match ?x with _ => _ end = _ |- _ => destruct x eqn:?
           | H : Some _ = Some _ |- _ => injection H as <-
           | H : None = Some _ |- _ => discriminate H
           end; unfold wake_worker, finish, see, pop; unf; subst; unf;
    intros Hw; subst; unf; try discriminate; try (specialize (Ha eq_refl)); cbn in *; try tauto; try (destruct Ha; discriminate).
    all: repeat match goal with |- context [if ?x then _ else _] => destruct x | |- context [match ?f ?o with Some _ => _ | None => _ end] => destruct (f o) end; unf; destruct w; unf; try discriminate; try (specialize (Ha eq_refl)); cbn in *; try tauto; try (destruct Ha; discriminate).
  - destruct s as [m c sp b k r u p w pr ob pa]. unfold worker_step in H. unf. subst u.
    destruct w; unf;
    repeat match goal with
           | H : match ?x with _ => _ end = _ |- _ => destruct x eqn:?
           | H : Some _ = Some _ |- _ => injection H as <-
           | H : None = Some _ |- _ => discriminate H
           end; unfold wake_main; unf; subst; unf.
    all: try (intros; discriminate).
    all: try (destruct sp, c; cbn [negb andb]; unf; intros; discriminate).
    all: try (destruct (has_rows b); try destruct (r <? max_ranks); unf; intros; discriminate).
    all: try (destruct p; unf; intros; discriminate).
  - unf. intros Hw. destruct (Ha Hw) as [A _]. rewrite H in A. discriminate.
  - unf. intros; discriminate.
Qed.

Lemma alive_steps : forall l g s, no_solve_before_init P = true -> steps l (init _ b0 k0 g P) s -> alive s.
Proof.
  intros l g s Hp H. remember (init M b0 k0 g P) as s0 eqn:E. revert E. induction H; intros; subst.
  - intros _. cbn. auto.
  - eapply alive_step; [|eassumption]. auto.
Qed.
Lemma progress : forall s, ctl_s s -> alive s -> ub _ s = false -> mp _ s <> Done _ ->
  (exists s', main_step s = Some s') \/ (exists s', worker_step s = Some s').
Proof.
  intros [m c sp b k r u p w pr ob pa] Hc Ha Hu Hd. unfold ctl_s, alive in *. unf.
  destruct p; unfold HqpModel.main_step, HqpModel.worker_step; unf; try congruence;
    try (left; eexists; reflexivity); try (left; destruct pr as [|[]]; eexists; reflexivity);
    destruct m as [[|]|], w, c, sp; cbn in *; try discriminate; try (left; eexists; reflexivity); try (right; eexists; reflexivity); destruct (Ha eq_refl); discriminate.
Qed.
End P.

(** * The best iterate kept by the interior-point loop (C92)
    [step] is any behaviour of scaling update, factorisation and Newton step; [visited step o0 k o] (IpSpec): o is the iterate number k of the run. *)
From Coq Require Import Reals List Arith Bool Lia Lra.
From Verif Require Import Base BaseProofs ConicSpec ConeModel IpModel IpSpec IpProofs IpProofs2 IpProps IpBestSpec.
Import ListNotations.
Local Open Scope R_scope.

(** ** The comparison *)
Theorem C92_ordinary_comparison S f g : ordinary S f -> (isBetterThan S f g = true <-> improves f g).
Proof.
  intros H. unfold isBetterThan, pos_less, improves.
  replace (negb (eqb (f_pinf f) (t_nan S)) && ltb 1 (f_kot f))%bool with false.
  - rewrite !andb_true_iff, !ltb_true. split; intros; repeat split; try tauto; lra.
  - symmetry. apply andb_false_iff. destruct H as [H|H]; [left; apply negb_false_iff, eqb_true, H|right]. unfold ltb. destruct (Rlt_dec 1 (f_kot f)); [lra|reflexivity].
Qed.
Theorem C92_strict S f g : isBetterThan S f g = true -> f_gap f < f_gap g /\ f_merit f < f_merit g /\ isBetterThan S g f = false.
Proof.
  intros H. destruct (better_gap _ _ _ H) as [H1 H2]. split; [exact H1|]. split; [exact H2|]. destruct (isBetterThan S g f) eqn:E; [|reflexivity]. apply better_gap in E. lra.
Qed.
(** The comparison is not an order: an iterate can be better than one that is better than a third, and not be better than the third, because a sign of infeasibility changes what is compared. *)
Theorem C92_transitive_refuted S : 3 < t_nan S -> ~ (forall f g h, isBetterThan S f g = true -> isBetterThan S g h = true -> isBetterThan S f h = true).
Proof.
  intros HN H. set (f := mkInf 0 0 1 (1/2) 1 0 1 1 (t_nan S) 0). set (g := mkInf 0 0 2 2 2 0 2 2 1 0). set (h := mkInf 0 0 3 3 3 0 (1/2) 3 (t_nan S) 0).
  assert (E1 : isBetterThan S f g = true) by (apply C92_ordinary_comparison; [left; reflexivity|unfold improves, f, g; cbn; lra]).
  assert (E2 : isBetterThan S g h = true).
  { unfold isBetterThan, g, h, pos_less. cbn [f_pinf f_kot f_gap f_merit f_pres f_dres]. replace (eqb 1 (t_nan S)) with false by (unfold eqb; destruct (Req_EM_T 1 (t_nan S)); [lra|reflexivity]).
    replace (eqb (t_nan S) (t_nan S)) with true by (symmetry; now apply eqb_true). rewrite (proj2 (ltb_true 1 2)) by lra. cbn [negb andb].
    rewrite (proj2 (ltb_true 0 2)), (proj2 (ltb_true 0 3)), (proj2 (ltb_true 2 3)) by lra. reflexivity. }
  specialize (H f g h E1 E2). apply C92_ordinary_comparison in H; [|left; reflexivity]. unfold improves, f, h in H. cbn in H. lra.
Qed.

(** ** The runs *)
Lemma visited_fun step o0 k : forall o o', visited step o0 k o -> visited step o0 k o' -> o = o'.
Proof.
  induction k as [|k IH]; intros o o' H H'; inversion H; inversion H'; subst; [reflexivity|]. match goal with A : visited step o0 k ?a, B : visited step o0 k ?b |- _ => assert (a = b) by (apply IH; assumption); subst end. congruence.
Qed.
Section Loop.
Variables (S : ipset) (d : pdata) (step : nat -> itr -> stepres) (o0 : itr).
Notation stats := (statistics S d).
(** [Inv k b]: b is what is kept after the iterates below k. *)
Variable Inv : nat -> itr -> Prop.
Hypothesis Inv0 : Inv 1 o0.
Hypothesis Inv_better : forall k b o, Inv k b -> visited step o0 k o -> isBetterThan S (stats o) (stats b) = true -> Inv (Datatypes.S k) o.
Hypothesis Inv_keep : forall k b o, Inv k b -> visited step o0 k o -> isBetterThan S (stats o) (stats b) = false -> Inv (Datatypes.S k) b.
Definition result_inv (out : outc) : Prop := kept_best (o_code out) ->
  (Inv (o_steps out) (o_opt out) \/ Inv (Datatypes.S (o_steps out)) (o_opt out)) /\ (In (o_code out) [ReachMaxIters; PrSlacksLeaveCone] -> Inv (Datatypes.S (o_steps out)) (o_opt out)).
Lemma fallback_code r o f c : In (fallback S r o f c) [ReachMaxIters; PrSlacksLeaveCone] -> In c [ReachMaxIters; PrSlacksLeaveCone].
Proof. unfold fallback. pose proof (red_code S r f (i_tau o) (i_kappa o)) as H. destruct (convergenceCheck S Reduced r f (i_tau o) (i_kappa o)); cbn [In] in *; intuition discriminate. Qed.
Lemma loop_result : (1 <= t_maxiters S)%nat -> forall fuel k code last L, (fuel + k = Datatypes.S (t_maxiters S))%nat -> (1 <= fuel)%nat -> visited step o0 k (ls_opt L) ->
  (k = 0%nat \/ Inv k (ls_best L) /\ ls_binfo L = stats (ls_best L)) -> result_inv (ip_loop S d step fuel k code last L).
Proof.
  intros HM. induction fuel as [|fuel IH]; intros k code last L Hf Hf1 HV HI; [lia|]. clear Hf1.
  cbn [ip_loop]. set (o := ls_opt L) in *. change (updateStatistics S d o (computeResiduals d o)) with (stats o).
  destruct (Nat.ltb 0 k && (ltb (t_safeguard S * ls_prev L) (f_pres (stats o)) || ltb (f_gap (stats o)) 0))%bool eqn:E1.
  { apply andb_true_iff in E1 as [Hk _]. apply Nat.ltb_lt in Hk. destruct HI as [->|[HI Hb]]; [lia|]. intros _. cbn [o_code o_opt o_steps]. split; [now left|]. intros H. apply fallback_code in H. cbn in H. intuition discriminate. }
  clear E1. destruct (convergenceCheck S Full (computeResiduals d o) (stats o) (i_tau o) (i_kappa o)) eqn:EC.
  all: try (pose proof (full_code S (computeResiduals d o) (stats o) (i_tau o) (i_kappa o)) as FC; rewrite EC in FC; cbn [In] in FC; exfalso; intuition discriminate).
  1, 2, 3: intros HK; exfalso; unfold kept_best in HK; cbn [In o_code] in HK; intuition discriminate.
  destruct (Nat.ltb 0 k && eqb (ls_step L) (t_minstep S * t_scal S))%bool eqn:E2.
  { apply andb_true_iff in E2 as [Hk _]. apply Nat.ltb_lt in Hk. destruct HI as [->|[HI Hb]]; [lia|]. intros _. cbn [o_code o_opt o_steps]. split; [now left|]. intros H. apply fallback_code in H. cbn in H. intuition discriminate. }
  clear E2. destruct (Nat.eqb k (t_maxiters S)) eqn:E3.
  { apply Nat.eqb_eq in E3. destruct HI as [->|[HI Hb]]; [lia|]. rewrite Hb. intros _. cbn [o_code o_opt o_steps].
    assert (H : Inv (Datatypes.S k) (if isBetterThan S (stats o) (stats (ls_best L)) then o else ls_best L)) by (destruct (isBetterThan S (stats o) (stats (ls_best L))) eqn:EB; eauto). auto. }
  apply Nat.eqb_neq in E3.
  set (better := (Nat.eqb k 0 || isBetterThan S (stats o) (ls_binfo L))%bool). set (best := if better then o else ls_best L). set (binfo := if better then stats o else ls_binfo L).
  assert (HB : Inv (Datatypes.S k) best /\ binfo = stats best).
  { unfold best, binfo, better. destruct HI as [->|[HI Hb]].
    - cbn [Nat.eqb orb]. split; [|reflexivity]. assert (o = o0) by (inversion HV; reflexivity). subst o. congruence.
    - destruct (Nat.eqb_spec k 0) as [->|]; cbn [orb].
      + split; [|reflexivity]. assert (E : o = o0) by (inversion HV; reflexivity). now rewrite E.
      + rewrite Hb. destruct (isBetterThan S (stats o) (stats (ls_best L))) eqn:EB; split; eauto. }
  destruct HB as [HB HS]. destruct (step k o) as [| |o' a] eqn:ES.
  - assert (H : forall e, result_inv (mkOut e best false binfo k) /\ result_inv (mkOut e best true binfo k)) by (intros e; split; intros _; cbn [o_steps o_opt]; auto).
    destruct (convergenceCheck S Reduced _ _ _ _); apply H.
  - intros HK. exfalso. unfold kept_best in HK. cbn [In o_code] in HK. intuition discriminate.
  - apply IH; [lia|lia|cbn [ls_opt]; eapply visitS; eassumption|]. right. cbn [ls_best ls_binfo]. auto.
Qed.
Lemma optimize_result best0 binfo0 last0 : (1 <= t_maxiters S)%nat -> result_inv (ip_optimize S d step o0 best0 binfo0 last0).
Proof. intros HM. unfold ip_optimize. apply loop_result; [exact HM|lia|lia|constructor|now left]. Qed.
End Loop.

(** The returned iterate is a visited one that no later iterate of the run beats; the very last one is compared as well unless the run was broken off because the search direction was unreliable. *)
Theorem C92_not_beaten_later S d step o0 best0 binfo0 last0 : (1 <= t_maxiters S)%nat ->
  let out := ip_optimize S d step o0 best0 binfo0 last0 in kept_best (o_code out) ->
  exists j, (j <= o_steps out)%nat /\ visited step o0 j (o_opt out) /\
    forall i o, (j < i)%nat -> (i < o_steps out \/ i = o_steps out /\ In (o_code out) [ReachMaxIters; PrSlacksLeaveCone])%nat -> visited step o0 i o -> isBetterThan S (statistics S d o) (statistics S d (o_opt out)) = false.
Proof.
  intros HM out HK.
  pose proof (optimize_result S d step o0 (fun k b => exists j, (j < k)%nat /\ visited step o0 j b /\ forall i o, (j < i < k)%nat -> visited step o0 i o -> isBetterThan S (statistics S d o) (statistics S d b) = false)) as H.
  specialize (H ltac:(exists 0%nat; split; [lia|]; split; [constructor|lia])).
  specialize (H ltac:(intros k b o _ HV _; exists k; split; [lia|]; split; [exact HV|lia])).
  specialize (H ltac:(intros k b o (j & Hj & Vj & Hb) HV E; exists j; split; [lia|]; split; [exact Vj|]; intros i o' Hi Vi; destruct (Nat.eq_dec i k) as [->|]; [rewrite (visited_fun _ _ _ _ _ Vi HV); exact E|apply (Hb i); [lia|exact Vi]])).
  destruct (H best0 binfo0 last0 HM HK) as [H1 H2]. fold out in H1, H2.
  assert (D : In (o_code out) [ReachMaxIters; PrSlacksLeaveCone] \/ ~ In (o_code out) [ReachMaxIters; PrSlacksLeaveCone]) by (destruct (o_code out); cbn [In]; intuition discriminate).
  destruct D as [D|D].
  - destruct (H2 D) as (j & Hj & Vj & Hb). exists j. split; [lia|]. split; [exact Vj|]. intros i o Hi1 Hi2. apply Hb. lia.
  - destruct H1 as [(j & Hj & Vj & Hb)|(j & Hj & Vj & Hb)]; (exists j; split; [lia|]; split; [exact Vj|]; intros i o Hi1 [Hi2|[_ Hi2]]; [apply Hb; lia|contradiction]).
Qed.
(** If no iterate shows a sign of infeasibility, no iterate at all improves on the returned one. *)
Theorem C92_undominated S d step o0 best0 binfo0 last0 : (1 <= t_maxiters S)%nat ->
  let out := ip_optimize S d step o0 best0 binfo0 last0 in kept_best (o_code out) -> (forall i o, (i <= o_steps out)%nat -> visited step o0 i o -> ordinary S (statistics S d o)) ->
  forall i o, (i < o_steps out \/ i = o_steps out /\ In (o_code out) [ReachMaxIters; PrSlacksLeaveCone])%nat -> visited step o0 i o -> ~ improves (statistics S d o) (statistics S d (o_opt out)).
Proof.
  intros HM out HK HO.
  set (G k b := (k <= Datatypes.S (o_steps out))%nat -> forall i o, (i < k)%nat -> visited step o0 i o -> ~ improves (statistics S d o) (statistics S d b)).
  pose proof (optimize_result S d step o0 G) as H.
  specialize (H ltac:(intros _ i o Hi Vi HI; assert (i = 0%nat) by lia; subst i; inversion Vi; subst; unfold improves in HI; lra)).
  specialize (H ltac:(intros k b o Hb HV E Hk i o' Hi Vi HI; apply C92_ordinary_comparison in E; [|apply (HO k); [lia|exact HV]]; destruct (Nat.eq_dec i k) as [->|]; [rewrite (visited_fun _ _ _ _ _ Vi HV) in HI; unfold improves in HI; lra|];
    apply (Hb ltac:(lia) i o' ltac:(lia) Vi); unfold improves in *; lra)).
  specialize (H ltac:(intros k b o Hb HV E Hk i o' Hi Vi HI; destruct (Nat.eq_dec i k) as [->|]; [rewrite (visited_fun _ _ _ _ _ Vi HV) in HI; apply C92_ordinary_comparison with (S := S) in HI; [congruence|apply (HO k); [lia|exact HV]]|apply (Hb ltac:(lia) i o' ltac:(lia) Vi HI)])).
  destruct (H best0 binfo0 last0 HM HK) as [H1 H2]. fold out in H1, H2. intros i o Hi Vi.
  destruct Hi as [Hi|[-> Hi]]; [|apply (H2 Hi ltac:(lia) (o_steps out) o ltac:(lia) Vi)].
  destruct H1 as [H1|H1]; apply (H1 ltac:(lia) i o ltac:(lia) Vi).
Qed.
(** Non-vacuity: a run that makes one step and then reaches its limit; both iterates show no sign of infeasibility. *)
Example C92_applies : forall b bi li, let out := ip_optimize (ex_set 0 1 1) ex_lp (fun _ _ => Next ex_o (1/2)) ex_o b bi li in
  kept_best (o_code out) /\ o_steps out = 1%nat /\ visited (fun _ _ => Next ex_o (1/2)) ex_o 1 ex_o /\ ordinary (ex_set 0 1 1) (statistics (ex_set 0 1 1) ex_lp ex_o).
Proof.
  intros b bi li out. destruct (ex_stats 0 1 1) as (P & D & G & PI & DI).
  assert (E : out = mkOut OptimalInacc ex_o true (statistics (ex_set 0 1 1) ex_lp ex_o) 1).
  { unfold out. rewrite first_pass, ex_not_full. cbn [ex_set t_maxiters Nat.eqb]. fold (ex_set 0 1 1). cbn [ip_loop ls_opt ls_best ls_binfo ls_prev ls_step].
    fold (statistics (ex_set 0 1 1) ex_lp ex_o) in *. unfold statistics in *. rewrite P, G. rewrite (ltb_no _ 0), (ltb_no 0 0) by lra. cbn [orb andb Nat.ltb Nat.leb]. rewrite ex_not_full.
    replace (eqb (1/2) (t_minstep (ex_set 0 1 1) * t_scal (ex_set 0 1 1))) with false by (unfold eqb; destruct (Req_EM_T _ _) as [X|]; [exfalso; cbn in X; lra|reflexivity]).
    cbn [ex_set t_maxiters Nat.eqb]. fold (ex_set 0 1 1).
    destruct (isBetterThan _ _ _); unfold fallback; (rewrite check_accepts; [reflexivity|rewrite ex_byhz; cbn; lra|rewrite P; cbn; lra|rewrite D; cbn; lra|rewrite G; cbn; lra]). }
  rewrite E. split; [left; reflexivity|]. split; [reflexivity|]. split; [eapply visitS; [constructor|reflexivity]|]. left. exact PI.
Qed.
Print Assumptions C92_ordinary_comparison.
Print Assumptions C92_strict.
Print Assumptions C92_transitive_refuted.
Print Assumptions C92_not_beaten_later.
Print Assumptions C92_undominated.

(** Proofs about the expression model. *)
From Coq Require Import Reals List Arith Bool Lra Lia.
From Verif Require Import ExprsModel ExprsSpec.
Import ListNotations.
Open Scope R_scope.

Lemma is_zero_true a : is_zero a = true <-> a = 0.
Proof. unfold is_zero; destruct (Req_EM_T a 0); split; intros; auto; discriminate. Qed.

Lemma is_zero_false a : is_zero a = false <-> a <> 0.
Proof. unfold is_zero; destruct (Req_EM_T a 0); split; intros; auto; try discriminate. contradiction. Qed.

(** Sum form of the value. *)
Definition tsum (env : nat -> R) (ts : list (nat * R)) : R :=
  fold_right (fun t acc => snd t * env (fst t) + acc) 0 ts.

Lemma fold_left_tsum env ts v :
  fold_left (fun v t => v + snd t * env (fst t)) ts v = v + tsum env ts.
Proof.
  revert v; induction ts as [|t ts IH]; intros v; simpl; [lra|]. rewrite IH; lra.
Qed.

Lemma le_value_tsum env e : le_value env e = le_const e + tsum env (le_terms e).
Proof. apply fold_left_tsum. Qed.

Lemma tsum_app env l1 l2 : tsum env (l1 ++ l2) = tsum env l1 + tsum env l2.
Proof. induction l1 as [|t l1 IH]; simpl; [lra|]. rewrite IH; lra. Qed.

Lemma tsum_scale env f ts :
  tsum env (map (fun t => (fst t, snd t * f)) ts) = f * tsum env ts.
Proof. induction ts as [|t ts IH]; simpl; [lra|]. rewrite IH; lra. Qed.

Lemma tsum_ext env env' ts :
  (forall c, In c (map fst ts) -> env c = env' c) -> tsum env ts = tsum env' ts.
Proof.
  induction ts as [|t ts IH]; simpl; intros H; [reflexivity|].
  rewrite IH by (intros; apply H; auto). rewrite (H (fst t)) by auto. reflexivity.
Qed.

Lemma le_value_ext env env' e :
  (forall c, In c (map fst (le_terms e)) -> env c = env' c) -> le_value env e = le_value env' e.
Proof. intros H; rewrite !le_value_tsum, (tsum_ext env env'); auto. Qed.

Lemma clean_inner_cols c a res : map fst (clean_inner c a res) = map fst res.
Proof.
  unfold clean_inner; rewrite map_map; apply map_ext; intros [c' a']; simpl.
  destruct (Nat.eqb c c'); reflexivity.
Qed.

Lemma existsb_cols c res :
  existsb (fun u : nat * R => Nat.eqb c (fst u)) res = true <-> In c (map fst res).
Proof.
  induction res as [|[c' a'] res IH]; simpl; [split; [discriminate|tauto]|].
  rewrite orb_true_iff, IH, Nat.eqb_eq. intuition.
Qed.

Lemma clean_inner_notin c a res : ~ In c (map fst res) -> clean_inner c a res = res.
Proof.
  intros H; induction res as [|[c' a'] res IH]; simpl; [reflexivity|].
  simpl in H. destruct (Nat.eqb_spec c c'); [subst; tauto|]. f_equal. apply IH; tauto.
Qed.

Lemma clean_inner_sum env c a res :
  NoDup (map fst res) -> In c (map fst res) ->
  tsum env (clean_inner c a res) = tsum env res + a * env c.
Proof.
  induction res as [|[c' a'] res IH]; simpl; intros Hnd Hin; [tauto|].
  inversion Hnd; subst.
  destruct (Nat.eqb_spec c c').
  - subst; simpl. fold (clean_inner c' a res). rewrite clean_inner_notin by assumption. lra.
  - simpl. fold (clean_inner c a res). rewrite IH; [lra|assumption|].
    destruct Hin; [congruence|assumption].
Qed.

Lemma clean_step_nodup res t : NoDup (map fst res) -> NoDup (map fst (clean_step res t)).
Proof.
  intros H; unfold clean_step.
  destruct (existsb _ res) eqn:E; simpl.
  - rewrite clean_inner_cols; assumption.
  - destruct (is_zero (snd t)); simpl; [rewrite clean_inner_cols; assumption|].
    rewrite map_app, clean_inner_cols; simpl.
    assert (Hn : ~ In (fst t) (map fst res)).
    { intros Hc; apply existsb_cols in Hc; congruence. }
    clear E. induction (map fst res) as [|c l IH]; simpl.
    + constructor; [tauto|constructor].
    + inversion H; subst. constructor.
      * rewrite in_app_iff; simpl. intros [?|[?|[]]]; [tauto|subst; simpl in Hn; tauto].
      * apply IH; [assumption|simpl in Hn; tauto].
Qed.

Lemma clean_step_sum env res t :
  NoDup (map fst res) -> tsum env (clean_step res t) = tsum env res + snd t * env (fst t).
Proof.
  intros Hnd; unfold clean_step.
  destruct (existsb _ res) eqn:E; simpl.
  - apply existsb_cols in E. apply clean_inner_sum; assumption.
  - assert (Hn : ~ In (fst t) (map fst res)).
    { intros Hc; apply existsb_cols in Hc; congruence. }
    rewrite clean_inner_notin by assumption.
    destruct (is_zero (snd t)) eqn:Z; simpl.
    + apply is_zero_true in Z; rewrite Z; lra.
    + rewrite tsum_app; simpl; lra.
Qed.

Lemma clean_fold env ts res :
  NoDup (map fst res) ->
  NoDup (map fst (fold_left clean_step ts res)) /\
  tsum env (fold_left clean_step ts res) = tsum env res + tsum env ts.
Proof.
  revert res; induction ts as [|t ts IH]; intros res H; simpl.
  - split; [assumption|lra].
  - destruct (IH (clean_step res t)) as [H1 H2]; [apply clean_step_nodup; assumption|].
    split; [assumption|]. rewrite H2, clean_step_sum by assumption. lra.
Qed.

Lemma le_clean_value env e : le_value env (le_clean e) = le_value env e.
Proof.
  rewrite !le_value_tsum; simpl.
  destruct (clean_fold env (le_terms e) []) as [_ H]; [constructor|]. rewrite H; simpl; lra.
Qed.

Lemma le_clean_nodup e : NoDup (map fst (le_terms (le_clean e))).
Proof. simpl. apply (clean_fold (fun _ => 0)). constructor. Qed.

Lemma clean_step_incl res t c :
  In c (map fst (clean_step res t)) -> In c (map fst res) \/ c = fst t.
Proof.
  unfold clean_step. destruct (_ && _).
  - rewrite map_app, clean_inner_cols, in_app_iff; simpl. intuition.
  - rewrite clean_inner_cols; auto.
Qed.

Lemma clean_fold_incl ts res c :
  In c (map fst (fold_left clean_step ts res)) -> In c (map fst res) \/ In c (map fst ts).
Proof.
  revert res; induction ts as [|t ts IH]; intros res; simpl; [auto|].
  intros H; apply IH in H as [H|H]; [|auto].
  apply clean_step_incl in H as [H|H]; auto.
Qed.

Lemma le_clean_incl e c :
  In c (map fst (le_terms (le_clean e))) -> In c (map fst (le_terms e)).
Proof. simpl; intros H; apply clean_fold_incl in H as [[]|H]; assumption. Qed.

Lemma le_scale_value env e f : le_value env (le_scale e f) = le_value env e * f.
Proof.
  unfold le_scale. destruct (is_zero f) eqn:Z.
  - apply is_zero_true in Z; subst. rewrite !le_value_tsum; simpl; lra.
  - rewrite le_clean_value, !le_value_tsum; simpl. rewrite tsum_scale; lra.
Qed.

Lemma le_add_value env e1 e2 : le_value env (le_add e1 e2) = le_value env e1 + le_value env e2.
Proof. unfold le_add; rewrite le_clean_value, !le_value_tsum; simpl; rewrite tsum_app; lra. Qed.

Lemma le_sub_value env e1 e2 : le_value env (le_sub e1 e2) = le_value env e1 - le_value env e2.
Proof. unfold le_sub; rewrite le_add_value, le_scale_value; lra. Qed.

Lemma le_scale_incl e f c :
  In c (map fst (le_terms (le_scale e f))) -> In c (map fst (le_terms e)).
Proof.
  unfold le_scale; destruct (is_zero f); [simpl; tauto|].
  intros H; apply le_clean_incl in H; simpl in H. rewrite map_map in H; simpl in H. exact H.
Qed.

Lemma le_add_incl e1 e2 c :
  In c (map fst (le_terms (le_add e1 e2))) ->
  In c (map fst (le_terms e1)) \/ In c (map fst (le_terms e2)).
Proof.
  unfold le_add; intros H; apply le_clean_incl in H; simpl in H.
  rewrite map_app, in_app_iff in H; exact H.
Qed.

Lemma le_sub_incl e1 e2 c :
  In c (map fst (le_terms (le_sub e1 e2))) ->
  In c (map fst (le_terms e1)) \/ In c (map fst (le_terms e2)).
Proof.
  unfold le_sub; intros H; apply le_add_incl in H as [H|H]; [auto|].
  right; eapply le_scale_incl; exact H.
Qed.

Lemma le_add_nodup e1 e2 : NoDup (map fst (le_terms (le_add e1 e2))).
Proof. apply le_clean_nodup. Qed.

Lemma le_scale_nodup e f : NoDup (map fst (le_terms (le_scale e f))).
Proof. unfold le_scale; destruct (is_zero f); [constructor|apply le_clean_nodup]. Qed.

Lemma ubuild_correct u env :
  udivs_ok u -> le_value env (ubuild u) = umean env u.
Proof.
  induction u; simpl; intros Hd;
    repeat match goal with H : _ /\ _ |- _ => destruct H end;
    unfold le_neg, le_div, le_addc, le_subc, le_addv, le_subv;
    rewrite ?le_add_value, ?le_sub_value, ?le_scale_value;
    repeat match goal with
      | IH : udivs_ok ?u -> _ , H : udivs_ok ?u |- _ => specialize (IH H); rewrite ?IH
      end;
    try (rewrite !le_value_tsum; simpl; lra); try (unfold le_value; simpl; lra).
  - rewrite le_value_tsum in *; simpl. rewrite tsum_scale. rewrite <- IHu. lra.
  - rewrite le_value_tsum in *; simpl. unfold Rdiv.
    rewrite (tsum_scale env (/ a)). rewrite <- IHu. lra.
Qed.

Lemma ubuild_vars u c : In c (map fst (le_terms (ubuild u))) -> In c (uvars u).
Proof.
  induction u; cbn [ubuild uvars]; intros H; try (simpl in H; tauto);
    unfold le_neg, le_div, le_addc, le_subc, le_addv, le_subv in H;
    repeat match goal with
    | H : In _ (map fst (le_terms (le_add _ _))) |- _ => apply le_add_incl in H as [H|H]
    | H : In _ (map fst (le_terms (le_sub _ _))) |- _ => apply le_sub_incl in H as [H|H]
    | H : In _ (map fst (le_terms (le_scale _ _))) |- _ => apply le_scale_incl in H
    end; simpl in *; rewrite ?in_app_iff; simpl; try tauto;
    try (rewrite map_map in H; simpl in H; auto; fail); auto.
Qed.

Lemma ubuild_nodup u : NoDup (map fst (le_terms (ubuild u))).
Proof.
  induction u; cbn [ubuild]; unfold le_neg, le_sub, le_div, le_addc, le_subc, le_addv, le_subv;
    try apply le_add_nodup; try apply le_scale_nodup; try (repeat constructor; simpl; tauto).
  - simpl; rewrite map_map; simpl; exact IHu.
  - simpl; rewrite map_map; simpl; exact IHu.
Qed.

(** Self-aliasing [e += e]. *)
Lemma self_loop_runs fuel : forall i ts, (i < length ts)%nat -> le_self_loop fuel i ts = None.
Proof.
  induction fuel as [|k IH]; intros i ts H; simpl; [reflexivity|].
  destruct (Nat.ltb_spec i (length ts)); [|lia].
  apply IH. rewrite app_length; simpl; lia.
Qed.

(** Quadratics. *)
Lemma q_value_fold env ts v :
  fold_left (fun v t => v + fst t * (le_value env (snd t)) ^ 2) ts v =
  fold_right (fun (t : R * R) acc => fst t * (snd t * snd t) + acc) v
             (map (fun t : R * linexpr => (fst t, le_value env (snd t))) ts).
Proof.
  revert v; induction ts as [|t ts IH]; intros v; simpl; [reflexivity|].
  rewrite IH. clear IH.
  assert (G : forall l a b, fold_right (fun (t0 : R * R) acc => fst t0 * (snd t0 * snd t0) + acc) (a + b) l
             = b + fold_right (fun (t0 : R * R) acc => fst t0 * (snd t0 * snd t0) + acc) a l).
  { induction l as [|y l IHl]; intros a b; simpl; [lra|]. rewrite IHl; lra. }
  rewrite G. simpl; lra.
Qed.

Lemma q_value_meaning env q :
  q_value env q = quad_meaning (map (fun t => (fst t, le_value env (snd t))) (q_terms q)) 0.
Proof. unfold q_value, quad_meaning. apply q_value_fold. Qed.

Lemma q_addQua_value env q a l :
  q_value env (q_addQua q a l) = q_value env q + a * (le_value env l * le_value env l).
Proof.
  unfold q_addQua. destruct (is_zero a) eqn:Z.
  - apply is_zero_true in Z; subst; lra.
  - unfold q_value; simpl. rewrite fold_left_app; simpl. lra.
Qed.

Lemma isClean_clean_counter :
  le_isClean (le_clean (mkLE 0 [(0%nat, 1); (1%nat, 1); (1%nat, -1)])) = false.
Proof.
  assert (Z1 : is_zero 1 = false) by (apply is_zero_false; lra).
  assert (Z0 : is_zero (1 + -1) = true) by (apply is_zero_true; lra).
  unfold le_clean, clean_step, le_isClean, clean_inner.
  cbn -[is_zero]. rewrite Z1. cbn -[is_zero]. rewrite ?Z1, ?Z0. cbn -[is_zero]. reflexivity.
Qed.

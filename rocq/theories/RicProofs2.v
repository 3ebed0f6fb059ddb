(** * Optimality of the backward pass *)
From Coq Require Import Reals List Arith Bool Lia Lra.
Import ListNotations.
From Verif Require Import Base BaseProofs IpModel LqrModel LqrSpec LqrProofs LqrProofs2 MkoModel RicModel RicSpec RicProofs.
Local Open Scope R_scope.

Lemma foldM_app {A S} (f : S -> A -> res S) l1 l2 s : foldM f (l1 ++ l2) s = bind (foldM f l1 s) (foldM f l2).
Proof. revert s. induction l1 as [|a l1 IH]; intros s; [reflexivity|]. cbn [app foldM]. destruct (f s a); cbn [bind]; auto. Qed.
Lemma cost_ext step stage final k : forall a x p q, (forall t y, (a <= t)%nat -> p t y = q t y) -> cost_to_go step stage final k a x p = cost_to_go step stage final k a x q.
Proof. induction k as [|k IH]; intros a x p q H; cbn [cost_to_go]; [reflexivity|]. rewrite (H a x) by lia. f_equal. apply IH. intros t y Ht. apply H. lia. Qed.
Lemma feedback_shift n a K Ks t x : (S a <= t)%nat -> feedback n a (K :: Ks) t x = feedback n (S a) Ks t x.
Proof. intros H. unfold feedback. replace (t - a)%nat with (S (t - S a)) by lia. reflexivity. Qed.

Section Pass.
Variable inv : nat -> mat -> option mat.
Hypothesis Hinv : inv_correct inv.
Variables (n m : nat) (Q R_ : mat) (lin : nat -> res (mat * mat)) (A B : nat -> mat).
Hypothesis HW : weights n m Q R_.
Lemma WQ : forall x, 0 <= vdot n x (mv n Q x). Proof. intros x. rewrite <- bilin_dot. apply HW. Qed.
Lemma WR : posdef m R_. Proof. intros u Hu. rewrite <- bilin_dot. now apply HW. Qed.
(** The discretised matrices make Euler steps. *)
Lemma step_is t x u i : (i < n)%nat -> euler_lin dt n m A B x u t i = vplus (mv n (fst (descretise (A t) (B t))) x) (mv m (snd (descretise (A t) (B t))) u) i.
Proof.
  intros Hi. unfold euler_lin, vplus, descretise. cbn [fst snd]. rewrite mv_mplus, !mv_mscal, mv_ident by exact Hi. rewrite !sum_rsum. unfold mv. ring.
Qed.
Lemma step_cost P t x u : vdot n (euler_lin dt n m A B x u t) (mv n P (euler_lin dt n m A B x u t)) =
  vdot n (vplus (mv n (fst (descretise (A t) (B t))) x) (mv m (snd (descretise (A t) (B t))) u)) (mv n P (vplus (mv n (fst (descretise (A t) (B t))) x) (mv m (snd (descretise (A t) (B t))) u))).
Proof. apply dot_ext; [intros; now apply step_is|]. intros i Hi. apply mv_ext. intros; now apply step_is. Qed.

Lemma pass_ok k : forall a, (forall t, (a <= t < a + k)%nat -> lin t = Ok (A t, B t)) ->
  exists Ks P, backward_loop inv n m Q R_ lin (rev (seq a k)) = Ok (Ks, P) /\ length Ks = k /\ sym n P /\ (forall x, 0 <= vdot n x (mv n P x)) /\
  (forall x, lqr_cost dt n m A B Q R_ k a x (feedback n a Ks) = vdot n x (mv n P x)) /\
  (forall x pi, vdot n x (mv n P x) <= lqr_cost dt n m A B Q R_ k a x pi) /\
  (forall x pi, (0 < k)%nat -> lqr_cost dt n m A B Q R_ k a x pi = vdot n x (mv n P x) -> forall i, (i < m)%nat -> pi a x i = feedback n a Ks a x i).
Proof.
  induction k as [|k IH]; intros a Hl.
  - exists [], (fun _ _ => 0). split; [reflexivity|]. split; [reflexivity|]. split; [intros i j _ _; reflexivity|].
    assert (Z : forall x, vdot n x (mv n (fun _ _ => 0) x) = 0).
    { intros x. apply rsum_zero. intros i Hi. unfold mv. rewrite rsum_zero by (intros; ring). ring. }
    split; [intros x; rewrite Z; lra|]. split; [intros x; rewrite Z; reflexivity|]. split; [intros x pi; rewrite Z; cbn; lra|]. intros x pi H. lia.
  - destruct (IH (S a)) as (Ks & P & E & L & SP & PP & V & O & U). { intros t Ht. apply Hl. lia. }
    assert (WS : sym n Q /\ sym m R_) by (split; apply HW).
    destruct (gains_ok inv Hinv n m Q R_ (fst (descretise (A a) (B a))) (snd (descretise (A a) (B a))) P (proj1 WS) (proj2 WS) SP WQ WR PP) as (K & P' & EK & SP' & PP' & Sq).
    exists (K :: Ks), P'. split.
    { unfold backward_loop in *. cbn [seq rev]. rewrite foldM_app, E. cbn [bind foldM]. rewrite Hl by lia. cbn [bind fst snd]. destruct (descretise (A a) (B a)) as [A' B'] eqn:D. cbn [fst snd] in EK. rewrite EK. reflexivity. }
    split; [cbn; now rewrite L|]. split; [exact SP'|]. split; [exact PP'|].
    assert (HPD : posdef m (mplus R_ (mm n (mm n (tr (snd (descretise (A a) (B a)))) P) (snd (descretise (A a) (B a)))))) by exact (H_pd n m R_ _ P WR PP).
    assert (FB : forall x i, feedback n a (K :: Ks) a x i = mv n K x i) by (intros x i; unfold feedback; rewrite Nat.sub_diag; cbn [nth]; apply sum_rsum).
    assert (Step : forall x u, bilin n n x Q x + bilin m m u R_ u + vdot n (euler_lin dt n m A B x u a) (mv n P (euler_lin dt n m A B x u a)) =
      vdot n x (mv n P' x) + vdot m (vminus u (mv n K x)) (mv m (mplus R_ (mm n (mm n (tr (snd (descretise (A a) (B a)))) P) (snd (descretise (A a) (B a))))) (vminus u (mv n K x)))).
    { intros x u. rewrite !bilin_dot, step_cost. apply Sq. }
    assert (Hge : forall x u, 0 <= vdot m (vminus u (mv n K x)) (mv m (mplus R_ (mm n (mm n (tr (snd (descretise (A a) (B a)))) P) (snd (descretise (A a) (B a))))) (vminus u (mv n K x)))).
    { intros x u. destruct (classic_some m (vminus u (mv n K x))) as [X|X]; [now apply Rlt_le, HPD|].
      rewrite (dot_ext m _ (fun _ => 0) _ (mv m (mplus R_ (mm n (mm n (tr (snd (descretise (A a) (B a)))) P) (snd (descretise (A a) (B a))))) (vminus u (mv n K x)))) by (auto using X). rewrite dot_zero_l. lra. }
    unfold lqr_cost in *. cbn [cost_to_go]. rewrite Nat.add_1_r. split; [|split].
    + intros x. rewrite (cost_ext _ _ _ k (S a) _ (feedback n a (K :: Ks)) (feedback n (S a) Ks)) by (intros t y Ht; now apply feedback_shift). rewrite V. unfold quad_stage. rewrite Step.
      rewrite (dot_ext m _ (fun _ => 0) _ (mv m (mplus R_ (mm n (mm n (tr (snd (descretise (A a) (B a)))) P) (snd (descretise (A a) (B a))))) (vminus (feedback n a (K :: Ks) a x) (mv n K x))));
        [rewrite dot_zero_l; ring|intros i Hi; unfold vminus; rewrite FB; ring|auto].
    + intros x pi. pose proof (O (euler_lin dt n m A B x (pi a x) a) pi) as O1. pose proof (Step x (pi a x)) as S1. pose proof (Hge x (pi a x)). unfold quad_stage at 1. lra.
    + intros x pi _ Heq i Hi. rewrite FB.
      pose proof (O (euler_lin dt n m A B x (pi a x) a) pi) as O1. pose proof (Step x (pi a x)) as S1. unfold quad_stage at 1 in Heq.
      destruct (classic_some m (vminus (pi a x) (mv n K x))) as [X|X]; [pose proof (HPD _ X); exfalso; lra|]. specialize (X i Hi). unfold vminus in X. lra.
Qed.
End Pass.

(** * C91: display helpers *)
From Coq Require Import Reals List Arith Bool Lia Lra.
Import ListNotations.
From Verif Require Import Base Vec3 SimModel UtlModel.
Local Open Scope R_scope.

(** ** Showing a motion *)
Fixpoint ascending (from : R) (l : list R) : Prop := match l with [] => True | t :: r => from <= t /\ ascending t r end.
Lemma display_loop_ok : forall times clock p, ascending p times -> display_loop clock (Some p) times = Ok (map (fun t => clock + (t - p)) (removelast (p :: times)), clock + (last times p - p)).
Proof.
  intros times. induction times as [|t r IH]; intros clock p A.
  - cbn. repeat f_equal; lra.
  - destruct A as [A1 A2]. cbn [display_loop]. destruct (Rlt_dec (t - p) 0); [lra|]. rewrite IH by exact A2. cbn [bind fst snd].
    change (removelast (p :: t :: r)) with (p :: removelast (t :: r)). cbn [map].
    replace (clock + (p - p)) with clock by ring. f_equal. f_equal.
    + f_equal. apply map_ext. intros x. ring.
    + assert (E : last (t :: r) p = last r t). { clear. revert t p. induction r as [|y r IH]; intros t p; [reflexivity|]. change (last (t :: y :: r) p) with (last (y :: r) p). rewrite IH. symmetry. apply IH. }
      rewrite E. ring.
Qed.
(** The motion takes exactly its last time stamp, if the stamps ascend from zero; otherwise it raises. *)
Theorem C91_duration : forall times, (ascending 0 times -> exists shown, display_motion times = Ok (shown, last times 0) /\ length shown = length times /\
    forall i, (i < length times)%nat -> nth i shown 0 = match i with O => 0 | S j => nth j times 0 end) /\
  (~ ascending 0 times -> display_motion times = Throw).
Proof.
  intros times. split.
  - intros A. unfold display_motion. assert (E : display_loop 0 None times = display_loop 0 (Some 0) times).
    { destruct times as [|t r]; [reflexivity|]. cbn [display_loop]. replace (t - 0) with t by ring. reflexivity. }
    rewrite E, display_loop_ok by exact A. eexists. split; [f_equal; f_equal; lra|].
    assert (L : forall l : list R, length (removelast l) = (length l - 1)%nat).
    { intros l. induction l as [|x l IH]; [reflexivity|]. destruct l as [|y l]; [reflexivity|]. change (removelast (x :: y :: l)) with (x :: removelast (y :: l)). cbn [length] in *. lia. }
    split; [rewrite map_length, L; cbn [length]; lia|]. intros i Hi.
    assert (G : forall (l : list R) k d, (k < length l - 1)%nat -> nth k (removelast l) d = nth k l d).
    { intros l. induction l as [|x l IH]; intros j e Hj; [cbn in Hj; lia|]. destruct l as [|y l]; [cbn in Hj; lia|]. change (removelast (x :: y :: l)) with (x :: removelast (y :: l)). destruct j; [reflexivity|]. cbn [nth]. apply IH. cbn in *. lia. }
    rewrite (nth_indep _ 0 ((fun t => 0 + (t - 0)) 0)) by (rewrite map_length, L; cbn [length]; lia). rewrite (map_nth (fun t => 0 + (t - 0))). rewrite G by (cbn [length]; lia). destruct i; cbn [nth]; ring.
  - intros A. unfold display_motion.
    assert (N : forall r t c, ~ ascending t r -> display_loop c (Some t) r = Throw).
    { intros r. induction r as [|t r IH]; intros p c H; [cbn in H; tauto|]. cbn [display_loop]. destruct (Rlt_dec (t - p) 0); [reflexivity|]. rewrite IH; [reflexivity|]. intros K. apply H. split; [lra|exact K]. }
    destruct times as [|t r]; [cbn in A; tauto|]. cbn [display_loop]. destruct (Rlt_dec t 0); [reflexivity|]. rewrite N; [reflexivity|]. intros K. apply A. split; [lra|exact K].
Qed.
(** Refuted: a frame is shown at its time: it is shown at the time of the frame before. *)
Theorem C91_frame_time_refuted : exists shown, display_motion [1; 2; 3] = Ok (shown, 3) /\ nth 1 shown 0 <> 2 /\ nth 0 shown 0 <> 1.
Proof.
  destruct (C91_duration [1; 2; 3]) as [H _]. destruct H as [shown [E [_ N]]]; [cbn; lra|]. exists shown. split; [exact E|].
  pose proof (N 0%nat ltac:(cbn; lia)) as N0. pose proof (N 1%nat ltac:(cbn; lia)) as N1. cbn in N0, N1. rewrite N0, N1. lra.
Qed.

(** ** Norms. The specification: the Euclidean length. *)
Definition enorm (v : list R) : R := sqrt (fold_right Rplus 0 (map (fun x => x ^ 2) v)).
Lemma sumsq_enorm v : sqrt (sumsq v) = enorm v.
Proof. unfold enorm. f_equal. induction v as [|x v IH]; [reflexivity|]. cbn [map fold_right]. rewrite <- IH. unfold sumsq. cbn [fold_right]. ring. Qed.
Lemma enorm_pos v : 0 <= enorm v. Proof. apply sqrt_pos. Qed.
Lemma norm_vec_ok v : v <> [] -> norm_vec v = Ok (enorm v).
Proof. intros H. unfold norm_vec. rewrite sumsq_enorm. destruct v; [congruence|reflexivity]. Qed.
Theorem C91_norm_list : forall vs, (forall v, In v vs -> v <> []) -> norm_list vs = Ok (fold_right (fun v a => enorm v + a) 0 vs).
Proof.
  intros vs. induction vs as [|v vs IH]; intros H; [reflexivity|]. cbn [norm_list fold_right]. rewrite norm_vec_ok by (apply H; now left).
  cbn [bind]. rewrite IH by (intros w Hw; apply H; now right). reflexivity.
Qed.
(** With weights: the sum of |weight| times norm, over the weights that are not negligible; weights beyond the vectors are ignored, missing ones raise. *)
Theorem C91_norm_weights : forall vs ws, (forall v, In v vs -> v <> []) ->
  ((length vs <= length ws)%nat -> norm_weights vs ws = Ok (fold_right (fun p a => (if Rlt_dec (/ 100000) (Rabs (snd p)) then Rabs (snd p) * enorm (fst p) else 0) + a) 0 (combine vs ws))) /\
  ((length ws < length vs)%nat -> norm_weights vs ws = Throw).
Proof.
  intros vs ws H. unfold norm_weights.
  assert (N : norms vs = Ok (map enorm vs)).
  { induction vs as [|v vs IH]; [reflexivity|]. cbn [norms map]. rewrite norm_vec_ok by (apply H; now left). cbn [bind].
    rewrite IH by (intros w Hw; apply H; now right). reflexivity. }
  rewrite N. cbn [bind]. clear H N. split.
  - revert ws. induction vs as [|v vs IH]; intros ws L; [destruct ws; reflexivity|]. destruct ws as [|w ws]; [cbn in L; lia|]. cbn [map weighted combine fold_right fst snd].
    specialize (IH ws ltac:(cbn in L; lia)). destruct (weighted (map enorm vs) ws) as [l| |]; cbn [bind] in IH |- *; try discriminate. injection IH as IH. f_equal. rewrite <- IH.
    destruct (Rlt_dec (/ 100000) (Rabs w)); [|ring]. cbn [fold_right]. f_equal. unfold norm_num. change (w * enorm v * (w * enorm v)) with (Rsqr (w * enorm v)). rewrite sqrt_Rsqr_abs, Rabs_mult. f_equal. apply Rabs_pos_eq, enorm_pos.
  - revert ws. induction vs as [|v vs IH]; intros ws L; [cbn in L; lia|]. destruct ws as [|w ws]; [reflexivity|]. cbn [map weighted].
    specialize (IH ws ltac:(cbn in L; lia)). destruct (weighted (map enorm vs) ws) as [l| |]; cbn [bind] in IH |- *; try discriminate. reflexivity.
Qed.
(** An empty vector among them raises, with or without weights. *)
Theorem C91_norm_empty : forall vs ws, In [] vs -> norm_list vs = Throw /\ norm_weights vs ws = Throw.
Proof.
  intros vs ws I. assert (N : norms vs = Throw /\ norm_list vs = Throw).
  { induction vs as [|v vs IH]; [contradiction|]. cbn [norms norm_list]. destruct v as [|x v]; [split; reflexivity|]. rewrite norm_vec_ok by discriminate. cbn [bind].
    destruct I as [I|I]; [discriminate|]. destruct (IH I) as [-> ->]. split; reflexivity. }
  split; [apply N|]. unfold norm_weights. now rewrite (proj1 N).
Qed.

(** ** Rotation of a contact *)
Definition orthonormal (m : vec3 * vec3 * vec3) : Prop := let '(a, b, c) := m in
  vdot a a = 1 /\ vdot b b = 1 /\ vdot c c = 1 /\ vdot a b = 0 /\ vdot a c = 0 /\ vdot b c = 0.
(** The matrix is a rotation exactly for unit quaternions and for those without vector part (for which it is the identity). *)
Theorem C91_quat2mat : forall w x y z, orthonormal (quat2mat w x y z) <-> w * w + x * x + y * y + z * z = 1 \/ (x = 0 /\ y = 0 /\ z = 0).
Proof.
  intros w x y z. unfold orthonormal, quat2mat, vdot. cbn [vx vy vz]. set (n := w * w + x * x + y * y + z * z).
  split.
  - intros [A [B [C _]]]. assert (A' : (y * y + z * z) * (n - 1) = 0) by (unfold n; nra). assert (B' : (x * x + z * z) * (n - 1) = 0) by (unfold n; nra). assert (C' : (x * x + y * y) * (n - 1) = 0) by (unfold n; nra).
    destruct (Req_dec n 1) as [E|E]; [now left|right]. assert (E' : n - 1 <> 0) by lra.
    apply Rmult_integral in A'. apply Rmult_integral in B'. apply Rmult_integral in C'. destruct A' as [A'|]; [|tauto]. destruct B' as [B'|]; [|tauto]. destruct C' as [C'|]; [|tauto].
    repeat split; nra.
  - intros [E|[-> [-> ->]]]; [|repeat split; ring].
    assert (W : w * w = 1 - x * x - y * y - z * z) by (unfold n in E; lra). clear E n. repeat split; ring_simplify; replace (w ^ 2) with (w * w) by ring; rewrite W; ring.
Qed.
(** Refuted: quat2mat is a rotation for every non-zero quaternion (no normalisation). *)
Theorem C91_unnormalised_refuted : ~ orthonormal (quat2mat 1 1 0 0).
Proof. intros H. apply C91_quat2mat in H. destruct H as [H|[H _]]; lra. Qed.
(** The patch drawn for a contact lies in the plane through the contact with the contact's normal. *)
Theorem C91_patch : forall point n px py, vz n <> 0 -> vdot n (vsub (V3 px py (patch point n px py)) point) = 0.
Proof. intros [a b c] [x y z] px py H. cbn [vz] in H. unfold vdot, vsub, patch, vdot. cbn [vx vy vz]. field. exact H. Qed.
(** The plotted time steps add up to the time stamps. *)
Theorem C91_timesteps : forall times i, (i < length times)%nat -> length (timesteps times) = length times /\ fold_right Rplus 0 (firstn (S i) (timesteps times)) = nth i times 0.
Proof.
  assert (G : forall r p, length (steps_loop p r) = length r /\ forall i, (i < length r)%nat -> p + fold_right Rplus 0 (firstn (S i) (steps_loop p r)) = nth i r 0).
  { intros r. induction r as [|t r IH]; intros p; [split; [reflexivity|cbn; lia]|]. destruct (IH t) as [L S]. split; [cbn; lia|]. intros [|i] Hi; cbn [steps_loop].
    - cbn. lra.
    - cbn [nth]. rewrite <- (S i) by (cbn in Hi; lia). change (firstn (Datatypes.S (Datatypes.S i)) ((t - p) :: steps_loop t r)) with ((t - p) :: firstn (Datatypes.S i) (steps_loop t r)). cbn [fold_right]. ring. }
  intros times i Hi. destruct times as [|t r]; [cbn in Hi; lia|]. destruct (G r t) as [L S]. split; [cbn; lia|]. cbn [timesteps]. destruct i as [|i].
  - cbn. lra.
  - cbn [nth]. rewrite <- (S i) by (cbn in Hi; lia). reflexivity.
Qed.
Example C91_examples : ascending 0 [1 / 10; 2 / 10; 2 / 10; 5 / 10] /\ orthonormal (quat2mat 0 1 0 0).
Proof. split; [cbn; lra|]. apply C91_quat2mat. left. lra. Qed.

Print Assumptions C91_duration. Print Assumptions C91_frame_time_refuted. Print Assumptions C91_norm_list. Print Assumptions C91_norm_weights. Print Assumptions C91_norm_empty. Print Assumptions C91_quat2mat.
Print Assumptions C91_unnormalised_refuted. Print Assumptions C91_patch. Print Assumptions C91_timesteps.

(** * The LQR gain scripts (C76, C77) *)
From Coq Require Import Reals List Arith Bool Lia Lra FunctionalExtensionality.
Import ListNotations.
From Verif Require Import Base BaseProofs IpModel LqrModel LqrSpec LqrProofs LqrProofs2 MkoModel RicModel RicSpec RicProofs RicProofs2.
Local Open Scope R_scope.

(** ** C76: the backward pass over the times a+k-1, ..., a gives k gains that minimise the cost from time a on over all policies, for all dimensions; the optimal first input is unique. *)
Theorem C76_backward_pass_optimal inv n m Q R_ lin A B k a : inv_correct inv -> weights n m Q R_ -> (forall t, (a <= t < a + k)%nat -> lin t = Ok (A t, B t)) ->
  exists Ks P, backward_loop inv n m Q R_ lin (rev (seq a k)) = Ok (Ks, P) /\ length Ks = k /\ optimal_gains dt n m A B Q R_ k a Ks /\
  (forall x, lqr_cost dt n m A B Q R_ k a x (feedback n a Ks) = bilin n n x P x) /\
  (forall x pi, (0 < k)%nat -> lqr_cost dt n m A B Q R_ k a x pi = lqr_cost dt n m A B Q R_ k a x (feedback n a Ks) -> forall i, (i < m)%nat -> pi a x i = feedback n a Ks a x i).
Proof.
  intros Hi HW Hl. destruct (pass_ok inv Hi n m Q R_ lin A B HW k a Hl) as (Ks & P & E & L & SP & PP & V & O & U). exists Ks, P. split; [exact E|]. split; [exact L|]. split; [|split].
  - intros x pi. rewrite V. apply O.
  - intros x. rewrite V. symmetry. apply bilin_dot.
  - intros x pi Hk Heq. apply U; [exact Hk|]. now rewrite Heq.
Qed.
Print Assumptions C76_backward_pass_optimal.

(** The trajectories have h rows. *)
Definition rows (h : nat) (d : ldata) : Prop := length (l_pos d) = h /\ length (l_vel d) = h /\ length (l_ori d) = h /\ length (l_ang d) = h /\ length (l_input d) = h /\ length (l_feet d) = h.
Lemma pyget_ok {A} (l : list A) i d : (i < length l)%nat -> pyget l i = Ok (nth i l d).
Proof. intros H. unfold pyget. rewrite nth_error_nth' with (d := d) by exact H. reflexivity. Qed.
Definition state_of (d : ldata) (t : nat) : vec := fun i => nth i (nth t (l_pos d) [] ++ nth t (l_vel d) [] ++ nth t (l_ori d) [] ++ nth t (l_ang d) []) 0.
Definition input_of (d : ldata) (t : nat) : vec := fun i => nth i (nth t (l_input d) []) 0.
Lemma state_at_ok h d t : rows h d -> (t < h)%nat -> state_at d t = Ok (state_of d t).
Proof. intros (H1 & H2 & H3 & H4 & _) Ht. unfold state_at. now rewrite (pyget_ok _ t []), (pyget_ok (l_vel d) t []), (pyget_ok (l_ori d) t []), (pyget_ok (l_ang d) t []) by lia. Qed.
Lemma diag_inverse : inverse 3 inertia (rows_mat [[100000000 / 578574; 0; 0]; [0; 100000000 / 1938108; 0]; [0; 0; 100000000 / 2476124]]).
Proof. intros i j Hi Hj. destruct i as [|[|[|i]]]; try lia; destruct j as [|[|[|j]]]; try lia; unfold sum, inertia, rows_mat; cbn; split; lra. Qed.
Section Scripts.
Variable inv : nat -> mat -> option mat.
Hypothesis Hinv : inv_correct inv.
Lemma lin_B_ok : exists B, lin_B inv = Ok B.
Proof. unfold lin_B, need_inv. pose proof (Hinv 3%nat inertia) as H. destruct (inv 3%nat inertia) as [N|]; [eexists; reflexivity|]. exfalso. apply H. eexists. apply diag_inverse. Qed.

(** The centroidal script: from time 1 on the gains are optimal for its linearisation; *)
Theorem C76_centroidal_gains_partial h d Q R_ : rows h d -> weights 13 6 Q R_ ->
  exists A B Ks, (forall t, (t < h)%nat -> analytical_lin_dyn inv d t = Ok (A t, B t)) /\ c_backward_pass inv d Q R_ = Ok Ks /\ length Ks = (h - 2)%nat /\ optimal_gains dt 13 6 A B Q R_ (h - 2) 1 Ks.
Proof.
  intros Hd HW. destruct lin_B_ok as [B EB]. assert (E : forall t, (t < h)%nat -> analytical_lin_dyn inv d t = Ok (lin_A (state_of d t), B)).
  { intros t Ht. unfold analytical_lin_dyn. rewrite (state_at_ok h d t Hd Ht). cbn [bind]. rewrite EB. reflexivity. }
  exists (fun t => lin_A (state_of d t)), (fun _ => B).
  destruct (C76_backward_pass_optimal inv 13 6 Q R_ (analytical_lin_dyn inv d) (fun t => lin_A (state_of d t)) (fun _ => B) (h - 2) 1 Hinv HW) as (Ks & P & EK & L & O & _); [intros t Ht; apply E; lia|].
  exists Ks. split; [exact E|]. split; [|split; [exact L|exact O]]. unfold c_backward_pass, times_centroidal. replace (length (l_pos d)) with h by (symmetry; apply Hd). rewrite EK. reflexivity.
Qed.
(** the end-effector script: from time 0 on. *)
Theorem C76_end_effector_gains h d Q R_ A B : rows h d -> weights 13 12 Q R_ -> (forall t, (t + 1 < h)%nat -> compute_lin_dyn inv d t = Ok (A t, B t)) ->
  exists Ks, e_backward_pass inv d Q R_ = Ok Ks /\ length Ks = (h - 1)%nat /\ optimal_gains dt 13 12 A B Q R_ (h - 1) 0 Ks.
Proof.
  intros Hd HW E. destruct (C76_backward_pass_optimal inv 13 12 Q R_ (compute_lin_dyn inv d) A B (h - 1) 0 Hinv HW) as (Ks & P & EK & L & O & _); [intros t Ht; apply E; lia|].
  exists Ks. split; [|split; [exact L|exact O]]. unfold e_backward_pass, times_endeff. replace (length (l_pos d)) with h by (symmetry; apply Hd). rewrite EK. reflexivity.
Qed.
(** With the weights of the centroidal script (Q is set to zero before it is used) every gain is zero. *)
Lemma zero_loop n m R_ (lin : nat -> res (mat * mat)) times : forall Ks P Ks' P', (forall i j, P i j = 0) -> (forall K, In K Ks -> forall i j, K i j = 0) ->
  foldM (fun s t => let '(Ks, P) := s in bind (lin t) (fun AB => let '(A, B) := descretise (fst AB) (snd AB) in bind (compute_lqr_gains inv n m script_Q R_ A B P) (fun KP => Ok (fst KP :: Ks, snd KP)))) times (Ks, P) = Ok (Ks', P') ->
  forall K, In K Ks' -> forall i j, K i j = 0.
Proof.
  induction times as [|t times IH]; intros Ks P Ks' P' HP HK E; cbn [foldM] in E; [injection E as <- _; exact HK|].
  destruct (lin t) as [[A0 B0]| |]; cbn [bind fst snd] in E; try discriminate. destruct (descretise A0 B0) as [A B]. unfold compute_lqr_gains, need_inv in E.
  destruct (inv m _) as [Si|]; cbn [bind fst snd] in E; [|discriminate].
  assert (Z : forall i j, mscal (-1) (mm n (mm n (mm m Si (tr B)) P) A) i j = 0).
  { intros i j. unfold mscal, mm at 1. rewrite rsum_zero; [ring|]. intros k _. unfold mm at 1. rewrite rsum_zero by (intros l _; rewrite HP; ring). ring. }
  revert E. apply IH.
  - intros i j. unfold mplus, script_Q. unfold mm at 1. rewrite rsum_zero by (intros k _; rewrite Z; ring). unfold mm at 1.
    rewrite rsum_zero by (intros k _; unfold mm at 1; rewrite rsum_zero by (intros l _; rewrite HP; ring); ring). ring.
  - intros K [<-|H]; [exact Z|now apply HK].
Qed.
Theorem C76_script_weights_refuted d Ks : c_backward_pass inv d script_Q script_R = Ok Ks -> forall K, In K Ks -> forall i j, K i j = 0.
Proof.
  unfold c_backward_pass, backward_loop. destruct (foldM _ _ _) as [[Ks' P']| |] eqn:E; cbn [bind fst]; try discriminate. intros H. injection H as ->. revert E. apply zero_loop; [reflexivity|intros K []].
Qed.
End Scripts.
Print Assumptions C76_centroidal_gains_partial.
Print Assumptions C76_end_effector_gains.
Print Assumptions C76_script_weights_refuted.

(** Missing: the loop of the centroidal script stops before time 0, so there is one gain less than inputs, and gain number 0 is the one of time 1.
    For three states and unit weights, whatever the trajectory, the gains are not optimal from time 0. *)
Section First.
Variable inv : nat -> mat -> option mat.
Hypothesis Hinv : inv_correct inv.
Lemma sum_single n k f : (k < n)%nat -> (forall i, (i < n)%nat -> i <> k -> f i = 0) -> sum n f = f k.
Proof. intros. rewrite sum_rsum. now apply rsum_single. Qed.
Lemma bilin_ident n x : bilin n n x ident x = sum n (fun i => x i * x i).
Proof.
  unfold bilin. rewrite !sum_rsum. apply rsum_ext. intros i Hi. rewrite (sum_single n i); [unfold ident; rewrite Nat.eqb_refl; ring|exact Hi|].
  intros j Hj Hne. unfold ident. rewrite (proj2 (Nat.eqb_neq i j)) by congruence. ring.
Qed.
Definition e3 : vec := fun i => if (i =? 3)%nat then 1 else 0.
Definition push (c : R) : vec := fun i => if (i =? 0)%nat then c else 0.
Lemma lin_A_3 y i : (i < 13)%nat -> lin_A y i 3%nat = if (i =? 0)%nat then 1 else 0.
Proof. intros Hi. do 13 (destruct i as [|i]; [unfold lin_A, mplus, block; cbn; try ring|]). lia. Qed.
Lemma lin_B_0 B i : lin_B inv = Ok B -> (i < 13)%nat -> B i 0%nat = if (i =? 3)%nat then 1 / mass else 0.
Proof.
  unfold lin_B. destruct (need_inv inv 3 inertia) as [I| |]; cbn [bind]; try discriminate. intros H Hi. injection H as <-.
  do 13 (destruct i as [|i]; [unfold mplus, block, mscal, ident; cbn; ring|]). lia.
Qed.
Lemma first_step A B y c i : (forall j, (j < 13)%nat -> A 0%nat j 3%nat = lin_A y j 3%nat) -> lin_B inv = Ok (B 0%nat) -> (i < 13)%nat ->
  euler_lin dt 13 6 A B e3 (push c) 0 i = match i with 0%nat => dt | 3%nat => 1 + dt * (c / mass) | _ => 0 end.
Proof.
  intros HA HB Hi. unfold euler_lin. rewrite (sum_single 13 3) by (try lia; intros j Hj Hne; unfold e3; rewrite (proj2 (Nat.eqb_neq j 3) Hne); ring).
  rewrite (sum_single 6 0) by (try lia; intros j Hj Hne; unfold push; rewrite (proj2 (Nat.eqb_neq j 0) Hne); ring).
  rewrite HA, lin_A_3, (lin_B_0 _ i HB) by exact Hi. unfold e3, push. destruct i as [|[|[|[|i]]]]; cbn; unfold mass; field.
Qed.
Lemma cost_two A B y K c : (forall j, (j < 13)%nat -> A 0%nat j 3%nat = lin_A y j 3%nat) -> lin_B inv = Ok (B 0%nat) -> (forall x, K x = fun _ => 0) ->
  lqr_cost dt 13 6 A B ident ident 2 0 e3 (fun t x => match t with O => push c | S _ => K x end) = 1 + c * c + (dt * dt + (1 + dt * (c / mass)) * (1 + dt * (c / mass))).
Proof.
  intros HA HB HK. unfold lqr_cost. cbn [cost_to_go]. rewrite Nat.add_0_l. unfold quad_stage. rewrite HK, !bilin_ident. rewrite !sum_rsum.
  rewrite (rsum_ext 13 (fun i => euler_lin dt 13 6 A B e3 (push c) 0 i * euler_lin dt 13 6 A B e3 (push c) 0 i) (fun i => match i with 0%nat => dt * dt | 3%nat => (1 + dt * (c / mass)) * (1 + dt * (c / mass)) | _ => 0 end)).
  2:{ intros i Hi. rewrite (first_step A B y c i HA HB Hi). destruct i as [|[|[|[|i]]]]; ring. }
  cbn [rsum]. unfold e3, push. cbn [Nat.eqb]. ring.
Qed.
Theorem C76_first_instant_refuted d : rows 3 d -> exists A B Ks, (forall t, (t < 3)%nat -> analytical_lin_dyn inv d t = Ok (A t, B t)) /\ weights 13 6 ident ident /\
  c_backward_pass inv d ident ident = Ok Ks /\ ~ optimal_gains dt 13 6 A B ident ident 2 0 Ks.
Proof.
  intros Hd. assert (HW : weights 13 6 ident ident).
  { assert (S : forall n, symmetric n ident) by (intros n i j _ _; unfold ident; now rewrite Nat.eqb_sym). split; [apply S|]. split; [apply S|]. split.
    - intros x. rewrite bilin_ident, sum_rsum. apply rsum_nonneg. intros. nra.
    - intros u (i & Hi & Hu). rewrite bilin_ident, sum_rsum. assert (0 <= rsum 6 (fun i => u i * u i)) as [|E] by (apply rsum_nonneg; intros; nra); [assumption|].
      exfalso. apply Hu. now apply (rsum_sq_zero 6 u (eq_sym E)). }
  destruct (C76_centroidal_gains_partial inv Hinv 3 d ident ident Hd HW) as (A & B & Ks & EA & EK & L & O). exists A, B, Ks. split; [exact EA|]. split; [exact HW|]. split; [exact EK|].
  intros Opt. pose proof (EA 0%nat ltac:(lia)) as E0. unfold analytical_lin_dyn in E0. rewrite (state_at_ok 3 d 0 Hd ltac:(lia)) in E0. cbn [bind] in E0.
  destruct (lin_B inv) as [B0| |] eqn:EB; cbn [bind] in E0; try discriminate. injection E0 as EA0 EB0.
  (* the only gain is zero *)
  assert (K0 : forall i j, nth 0 Ks (fun _ _ => 0) i j = 0).
  { unfold c_backward_pass, times_centroidal in EK. replace (length (l_pos d)) with 3%nat in EK by (symmetry; apply Hd). cbn [Nat.sub seq rev app] in EK. unfold backward_loop in EK. cbn [foldM] in EK.
    rewrite (EA 1%nat) in EK by lia. cbn [bind fst snd] in EK. destruct (descretise (A 1%nat) (B 1%nat)) as [A' B']. unfold compute_lqr_gains in EK. destruct (need_inv inv 6 _) as [Si| |]; cbn [bind fst snd] in EK; try discriminate.
    injection EK as <-. cbn [nth]. intros i j. unfold mscal, mm at 1. rewrite rsum_zero; [ring|]. intros k _. unfold mm at 1. rewrite rsum_zero by (intros; ring). ring. }
  assert (KF : forall t x, feedback 13 0 Ks t x = fun _ => 0).
  { intros t x. apply functional_extensionality. intros i. unfold feedback. rewrite sum_rsum. apply rsum_zero. intros j _. destruct t as [|t]; [rewrite Nat.sub_diag, K0; ring|].
    rewrite nth_overflow by (change (@length (nat -> nat -> R) Ks = (3 - 2)%nat) in L; rewrite L; cbn; lia). ring. }
  assert (HA : forall j, (j < 13)%nat -> A 0%nat j 3%nat = lin_A (state_of d 0) j 3%nat) by (intros; now rewrite <- EA0).
  assert (HB : lin_B inv = Ok (B 0%nat)) by (rewrite EB, EB0; reflexivity).
  pose proof (Opt e3 (fun t x => match t with O => push (- (dt / mass)) | S _ => (fun _ => fun _ => 0) x end)) as C.
  assert (E2 : lqr_cost dt 13 6 A B ident ident 2 0 e3 (feedback 13 0 Ks) = lqr_cost dt 13 6 A B ident ident 2 0 e3 (fun t x => match t with O => push 0 | S _ => (fun _ => fun _ => 0) x end)).
  { unfold lqr_cost. apply cost_ext. intros t x _. rewrite KF. destruct t; [|reflexivity]. apply functional_extensionality. intros i. unfold push. now destruct (i =? 0)%nat. }
  rewrite E2, (cost_two A B (state_of d 0) (fun _ => fun _ => 0) 0 HA HB), (cost_two A B (state_of d 0) (fun _ => fun _ => 0) (- (dt / mass)) HA HB) in C by reflexivity.
  unfold dt, mass in C. lra.
Qed.
End First.
Print Assumptions C76_first_instant_refuted.

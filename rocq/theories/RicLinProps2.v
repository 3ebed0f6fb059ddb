(** * The linearisations of the LQR gain scripts, continued (C76, C77): when they exist; the order of the feet; examples *)
From Coq Require Import String Reals List Arith ZArith Bool Lia Lra.
From Coq Require Import ClassicalEpsilon.
Import ListNotations.
From Verif Require Import Base BaseProofs Vec3 IpModel LqrModel LqrSpec LqrProofs LqrProofs2 MkoModel RicModel RicSpec RicProofs RicProps RicLinProps.
Local Open Scope R_scope.

(** scipy's rotation matrices are orthogonal. *)
Lemma rotation_orthogonal q r : rotation q = Ok r -> forall i j, (i < 3)%nat -> (j < 3)%nat -> mm 3 (tr r) r i j = ident i j /\ mm 3 r (tr r) i j = ident i j.
Proof.
  unfold rotation. destruct (Req_EM_T _ 0) as [|N]; [discriminate|]. intros H. injection H as <-. intros i j Hi Hj.
  destruct i as [|[|[|i]]]; try lia; destruct j as [|[|[|j]]]; try lia; unfold mm, tr, mscal, rows_mat, ident; cbn [rsum nth Nat.eqb]; split; field; intros E; apply N; rewrite <- E; ring.
Qed.
Definition inertia_inv : mat := rows_mat [[100000000 / 578574; 0; 0]; [0; 100000000 / 1938108; 0]; [0; 0; 100000000 / 2476124]].
Lemma rotated_inverse (r : mat) : (forall i j, (i < 3)%nat -> (j < 3)%nat -> mm 3 (tr r) r i j = ident i j /\ mm 3 r (tr r) i j = ident i j) ->
  inverse 3 (mm 3 (mm 3 (tr r) inertia) r) (mm 3 (mm 3 (tr r) inertia_inv) r).
Proof.
  intros H.
  assert (G : forall M N : mat, (forall i j, (i < 3)%nat -> (j < 3)%nat -> mm 3 M N i j = ident i j) -> forall i j, (i < 3)%nat -> (j < 3)%nat -> rsum 3 (fun k => mm 3 (mm 3 (tr r) M) r i k * mm 3 (mm 3 (tr r) N) r k j) = ident i j).
  { intros M N HMN i j Hi Hj.
    transitivity (mm 3 (mm 3 (mm 3 (tr r) M) (mm 3 r (tr r))) (mm 3 N r) i j); [unfold mm, tr; cbn [rsum]; ring|].
    transitivity (mm 3 (mm 3 (mm 3 (tr r) M) ident) (mm 3 N r) i j).
    { unfold mm at 1 5. apply rsum_ext. intros k Hk. f_equal. unfold mm at 1 4. apply rsum_ext. intros l Hl. f_equal. now apply H. }
    transitivity (mm 3 (mm 3 (tr r) (mm 3 M N)) r i j).
    { unfold mm, tr, ident. cbn [rsum Nat.eqb]. destruct j as [|[|[|j]]]; try lia; ring. }
    transitivity (mm 3 (mm 3 (tr r) ident) r i j).
    { unfold mm at 1 4. apply rsum_ext. intros k Hk. f_equal. unfold mm at 1 3. apply rsum_ext. intros l Hl. f_equal. now apply HMN. }
    rewrite <- (proj1 (H i j Hi Hj)). unfold mm, tr, ident. cbn [rsum Nat.eqb]. ring. }
  assert (D : forall i j, (i < 3)%nat -> (j < 3)%nat -> mm 3 inertia inertia_inv i j = ident i j /\ mm 3 inertia_inv inertia i j = ident i j).
  { intros i j Hi Hj. pose proof (diag_inverse i j Hi Hj) as [D1 D2]. rewrite sum_rsum in D1, D2. split; [exact D1|exact D2]. }
  intros i j Hi Hj. rewrite !sum_rsum. split; apply G; trivial; intros; now apply D.
Qed.
Section Exists.
Variable inv : nat -> mat -> option mat.
Hypothesis Hinv : inv_correct inv.
Lemma rotation_ok q : (exists i, (i < 4)%nat /\ q i <> 0) -> exists r, rotation q = Ok r.
Proof.
  intros (i & Hi & Hq). unfold rotation. destruct (Req_EM_T _ 0) as [E|]; [|eexists; reflexivity]. exfalso. pose proof (pow2_ge_0 (q 0%nat)). pose proof (pow2_ge_0 (q 1%nat)). pose proof (pow2_ge_0 (q 2%nat)). pose proof (pow2_ge_0 (q 3%nat)).
  apply Hq. destruct i as [|[|[|[|i]]]]; try lia; nra.
Qed.
Lemma e_dyn_ok h d t x u : rows h d -> (t < h)%nat -> (exists i, (i < 4)%nat /\ quat_of x i <> 0) -> exists f, e_dyn inv d t x u = Ok f.
Proof.
  intros (H1 & _ & _ & _ & _ & H6) Ht Hq. destruct (rotation_ok _ Hq) as [r Er]. unfold e_dyn, e_B. rewrite Er. cbn [bind]. unfold need_inv.
  pose proof (Hinv 3%nat (mm 3 (mm 3 (tr r) inertia) r)) as H. destruct (inv 3%nat _) as [I|]; [|exfalso; apply H; eexists; apply rotated_inverse, (rotation_orthogonal _ _ Er)].
  cbn [bind]. rewrite (pyget_ok (l_feet d) t []), (pyget_ok (l_pos d) t []) by lia. cbn [bind]. eexists. reflexivity.
Qed.
(** ** What the dynamics of that script say, at every time and for every input: the position moves with the velocity, the mass times the acceleration is the sum of the four forces, and the inertia R^T I R times the angular acceleration
    is the sum of the moments of the four forces, each acting at its own foot about the center of mass, with the second half of the vertical moment of the wrong sign (C77_torque_refuted). *)
Theorem C77_end_effector_dynamics h d t x u f r : rows h d -> (t < h)%nat -> rotation (quat_of x) = Ok r -> e_dyn inv d t x u = Ok f ->
  let foot e i := nth (3 * e + i) (nth t (l_feet d) []) 0 in let com i := nth i (nth t (l_pos d) []) 0 in let force e i := u (3 * e + i)%nat in
  (forall k, (k < 3)%nat -> f k = x (3 + k)%nat /\ mass * f (3 + k)%nat = sum 4 (fun e => force e k)) /\
  (forall k, (k < 3)%nat -> sum 3 (fun j => sum 3 (fun a => sum 3 (fun b => r a k * inertia a b * r b j)) * f (10 + j)%nat) =
     sum 4 (fun e => torque (foot e) com (force e) k - (if Nat.eqb k 2 then 2 * ((foot e 0%nat - com 0%nat) * force e 1%nat) else 0))).
Proof.
  intros (H1 & _ & _ & _ & _ & H6) Ht Er E foot com force. unfold e_dyn in E. destruct (e_B inv d t x) as [B| |] eqn:EB; cbn [bind] in E; try discriminate. injection E as <-.
  assert (R : forall k, (k < 10)%nat -> vplus (mv 13 (dyn_A x) x) (mv 12 B u) k = rowA x k + (if ((3 <=? k) && (k <? 6))%nat%bool then 1 / mass * (u (k - 3)%nat + u k + u (k + 3)%nat + u (k + 6)%nat) else 0)).
  { intros k Hk. unfold vplus. rewrite rowA_is by lia. now rewrite (e_B_row _ _ _ _ _ u k EB Hk). }
  split.
  - intros k Hk. rewrite !R by lia. unfold force, mass. destruct k as [|[|[|k]]]; try lia; cbn; split; lra.
  - intros k Hk. rewrite !sum_rsum.
    set (J := fun k j => sum 3 (fun a => sum 3 (fun b => r a k * inertia a b * r b j))).
    assert (EJ : forall k j, J k j = mm 3 (mm 3 (tr r) inertia) r k j) by (intros k0 j0; unfold J, mm, tr; unfold sum; cbn [rsum seq map fold_right]; ring).
    unfold e_B in EB. rewrite Er in EB. cbn [bind] in EB. unfold need_inv in EB. pose proof (Hinv 3%nat (mm 3 (mm 3 (tr r) inertia) r)) as HI.
    destruct (inv 3%nat _) as [I|]; cbn [bind] in EB; try discriminate. rewrite (pyget_ok (l_feet d) t []), (pyget_ok (l_pos d) t []) in EB by lia. cbn [bind] in EB. injection EB as EB.
    assert (Rw : forall j, (j < 3)%nat -> vplus (mv 13 (dyn_A x) x) (mv 12 B u) (10 + j)%nat = rsum 3 (fun l => I j l * rsum 4 (fun e => mv 3 (r_cross (foot e) com) (force e) l))).
    { intros j Hj. unfold vplus. rewrite rowA_is by lia. replace (rowA x (10 + j)) with 0 by (destruct j as [|[|[|j]]]; try lia; reflexivity). rewrite <- EB. unfold mv at 1.
      destruct j as [|[|[|j]]]; try lia; unfold mplus, block, mscal, ident, mm, mv, force, foot, com; cbn [rsum Nat.leb Nat.ltb Nat.add Nat.sub Nat.mul andb Nat.eqb]; ring. }
    transitivity (rsum 3 (fun j => J k j * rsum 3 (fun l => I j l * rsum 4 (fun e => mv 3 (r_cross (foot e) com) (force e) l)))); [apply rsum_ext; intros j Hj; now rewrite Rw|].
    transitivity (rsum 3 (fun l => rsum 3 (fun j => J k j * I j l) * rsum 4 (fun e => mv 3 (r_cross (foot e) com) (force e) l))); [generalize (fun l => rsum 4 (fun e => mv 3 (r_cross (foot e) com) (force e) l)); intros g; cbn [rsum]; ring|].
    transitivity (rsum 3 (fun l => (if Nat.eqb k l then 1 else 0) * rsum 4 (fun e => mv 3 (r_cross (foot e) com) (force e) l))).
    { apply rsum_ext. intros l Hl. f_equal. rewrite <- (proj1 (HI k l Hk Hl)), sum_rsum. apply rsum_ext. intros j Hj. now rewrite EJ. }
    destruct k as [|[|[|k]]]; try lia; cbn [rsum Nat.eqb]; unfold mv, r_cross, rows_mat, torque; cbn [rsum nth]; ring.
Qed.
Lemma columns_exist n col : (forall j, (j < n)%nat -> exists v, col j = Ok v) -> exists M, columns_of n col = Ok M.
Proof.
  induction n as [|n IH]; intros H; [eexists; reflexivity|]. cbn [columns_of]. destruct IH as [M ->]; [intros; apply H; lia|]. destruct (H n) as [v ->]; [lia|]. eexists. reflexivity.
Qed.
(** ** The end-effector script finds its linearisation, and hence the optimal gains, on every trajectory of complete rows whose quaternions have a positive scalar part. *)
Theorem C76_end_effector_defined h d Q R_ : rows h d -> weights 13 12 Q R_ -> (forall t, (t < h)%nat -> 0 < state_of d t 9%nat) ->
  exists A B Ks, (forall t, (t + 1 < h)%nat -> compute_lin_dyn inv d t = Ok (A t, B t)) /\ e_backward_pass inv d Q R_ = Ok Ks /\ List.length Ks = (h - 1)%nat /\ optimal_gains dt 13 12 A B Q R_ (h - 1) 0 Ks.
Proof.
  intros Hd HW Hq.
  assert (E : forall t, exists AB, (t + 1 < h)%nat -> compute_lin_dyn inv d t = Ok AB).
  { intros t. destruct (Nat.lt_ge_cases (t + 1) h) as [Ht|Ht]; [|exists (ident, ident); lia].
    unfold compute_lin_dyn. rewrite (state_at_ok h d t Hd), (state_at_ok h d (t + 1) Hd) by lia. cbn [bind].
    assert (Hu : forall s, (s < h)%nat -> input_at d s = Ok (input_of d s)) by (intros s Hs; unfold input_at; rewrite (pyget_ok _ s []) by (replace (List.length (l_input d)) with h by (symmetry; apply Hd); lia); reflexivity).
    rewrite !Hu by lia. cbn [bind]. set (x := state_of d t). set (x1 := state_of d (t + 1)).
    assert (Hx : 0 < x 9%nat) by (apply Hq; lia). assert (Hx1 : 0 < x1 9%nat) by (apply Hq; lia).
    destruct (e_dyn_ok h d t x (input_of d t) Hd) as [f0 E0]; [lia|exists 3%nat; split; [lia|unfold quat_of; cbn [Nat.add]; lra]|]. rewrite E0. cbn [bind].
    destruct (columns_exist 13 (quotient (fun y => e_dyn inv d t y (input_of d t)) f0 x x1)) as [A EA].
    { intros j Hj. unfold quotient. destruct (e_dyn_ok h d t (bump x j (moved x x1 j)) (input_of d t) Hd) as [f Ef]; [lia| |rewrite Ef; eexists; reflexivity].
      exists 3%nat. split; [lia|]. unfold quat_of. cbn [Nat.add]. rewrite bump_moved. unfold moved_by, moved, delta. destruct (Nat.eqb_spec 9 j) as [<-|]; [|lra]. destruct (Req_EM_T _ _); lra. }
    rewrite EA. cbn [bind]. destruct (Rlt_dec _ _); [eexists; reflexivity|].
    destruct (columns_exist 12 (quotient (fun v => e_dyn inv d t x v) f0 (input_of d t) (input_of d (t + 1)))) as [B EB].
    { intros j Hj. unfold quotient. destruct (e_dyn_ok h d t x (bump (input_of d t) j (moved (input_of d t) (input_of d (t + 1)) j)) Hd) as [f Ef]; [lia| |rewrite Ef; eexists; reflexivity].
      exists 3%nat. split; [lia|unfold quat_of; cbn [Nat.add]; lra]. }
    rewrite EB. eexists. reflexivity. }
  assert (F : forall N, exists A B : nat -> mat, forall t, (t < N)%nat -> (t + 1 < h)%nat -> compute_lin_dyn inv d t = Ok (A t, B t)).
  { induction N as [|N (A & B & HN)]; [exists (fun _ => ident), (fun _ => ident); lia|]. destruct (E N) as [[a b] EN]. exists (fun t => if (t =? N)%nat then a else A t), (fun t => if (t =? N)%nat then b else B t).
    intros t Ht Hth. destruct (Nat.eqb_spec t N) as [->|]; [now apply EN|apply HN; lia]. }
  destruct (F h) as (A & B & HAB). destruct (C76_end_effector_gains inv Hinv h d Q R_ A B Hd HW) as (Ks & H1 & H2 & H3); [intros; apply HAB; lia|].
  exists A, B, Ks. split; [intros; apply HAB; lia|]. auto.
Qed.
End Exists.
Print Assumptions C77_end_effector_dynamics.
Print Assumptions C76_end_effector_defined.

(** A correct inverse routine exists, *)
Example inverse_routine : exists inv, inv_correct inv.
Proof.
  exists (fun n M => match excluded_middle_informative (exists N, inverse n M N) with left H => Some (proj1_sig (constructive_indefinite_description _ H)) | right _ => None end).
  intros n M. destruct (excluded_middle_informative _) as [H|H]; [|exact H]. now destruct (constructive_indefinite_description _ H).
Qed.
(** and a trajectory of three instants meets the conditions. *)
Definition standing : ldata := LD (repeat [0; 0; 1 / 4] 3) (repeat [0; 0; 0] 3) (repeat [0; 0; 0; 1] 3) (repeat [0; 0; 0] 3) (repeat [0; 0; 5; 0; 0; 5; 0; 0; 5; 0; 0; 5] 3) (repeat [1; 1; 0; 1; -1; 0; -1; 1; 0; -1; -1; 0] 3).
Example standing_meets : rows 3 standing /\ forall t, (t < 3)%nat -> 0 < state_of standing t 9%nat.
Proof. split; [repeat split|]. intros t Ht. destruct t as [|[|[|t]]]; try lia; unfold state_of; cbn; lra. Qed.

(** ** The files: the forces are in the order of the plan, the positions of the feet that the end-effector script loads beside them are in the reverse order, so that it applies the force of foot e at the position of foot 3 - e. *)
From Verif Require Import ItpModel ItpSpec DatModel DatSpec DatProps.
Local Open Scope string_scope.
Theorem C77_feet_mixed_refuted tv nj me sq dy weight fb fs : tv <> [] -> increasing tv -> quadruped_plan (List.length tv) nj me sq dy -> / 2000 < horizon tv ->
  exists fs1 fs2 F P N M, create_file tv sq dy weight fs = Ok fs1 /\ create_lqr_files tv me sq (Some fb) dy weight fs1 = Ok fs2 /\
  contents fs2 "quadruped_forces.dat" = Some F /\ contents fs2 "quadruped_positions_abs_with_horizon_part.dat" = Some P /\ List.length F = N /\ List.length P = M /\
  forall i, (i < N)%nat -> (i < M)%nat -> exists f p, on_curve tv (d_meaning DForces sq [] dy) (INR i / 1000) f /\ on_curve tv (i_meaning IPositionAbs me sq [] dy weight) (INR i / 1000) p /\
  forall e c, (e < 4)%nat -> (c < 3)%nat -> nth (1 + 3 * e + c) (nth i F []) 0 = weight * nth (3 * e + c) f 0 /\ nth (1 + 3 * e + c) (nth i P []) 0 = nth (3 * (3 - e) + c) p 0.
Proof.
  intros Hn Hi Hq Hh. destruct (C74_create_file tv nj me sq dy weight fs Hn Hi Hq Hh) as (fs1 & N & E1 & _ & _ & _ & T1 & _).
  destruct (T1 "quadruped_forces.dat" weight DForces) as (F & EF & SF); [right; right; left; reflexivity|].
  destruct (C75_create_lqr_files tv nj me sq dy weight Hn Hi Hq ltac:(lra) fb fs1) as (fs2 & M & P & E2 & _ & _ & EP & SP & Hrest).
  exists fs1, fs2, F, P, N, M. split; [exact E1|]. split; [exact E2|]. split; [rewrite Hrest by discriminate; exact EF|]. split; [exact EP|]. destruct SF as [LF SF], SP as [LP SP]. split; [exact LF|]. split; [exact LP|].
  intros i HiN HiM. destruct (SF i HiN) as (f & Cf & Rf). destruct (SP i HiM) as (p & Cp & _ & _ & Rp). exists f, p. split; [exact Cf|]. split; [exact Cp|].
  intros e c He Hc. split; [|exact (Rp e c He Hc)]. rewrite Rf. change (1 + 3 * e + c)%nat with (S (3 * e + c)). cbn [nth]. rewrite <- (map_nth (Rmult weight)). now rewrite Rmult_0_r.
Qed.
Print Assumptions C77_feet_mixed_refuted.

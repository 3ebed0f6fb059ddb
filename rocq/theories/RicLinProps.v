(** * The linearisations of the LQR gain scripts (C77) *)
From Coq Require Import Reals List Arith Bool Lia Lra.
Import ListNotations.
From Verif Require Import Base BaseProofs IpModel LqrModel LqrSpec LqrProofs LqrProofs2 MkoModel RicModel RicSpec RicProofs RicProps.
Local Open Scope R_scope.

(** The rows of A(x) x. *)
Definition rowA (x : vec) (r : nat) : R :=
  match r with
  | 0%nat => x 3%nat | 1%nat => x 4%nat | 2%nat => x 5%nat
  | 6%nat => / 2 * (x 12%nat * x 7%nat - x 11%nat * x 8%nat + x 10%nat * x 9%nat) | 7%nat => / 2 * (- x 12%nat * x 6%nat + x 10%nat * x 8%nat + x 11%nat * x 9%nat)
  | 8%nat => / 2 * (x 11%nat * x 6%nat - x 10%nat * x 7%nat + x 12%nat * x 9%nat) | 9%nat => / 2 * (- x 10%nat * x 6%nat - x 11%nat * x 7%nat - x 12%nat * x 8%nat)
  | _ => 0 end.
Lemma rowA_is x r : (r < 13)%nat -> mv 13 (dyn_A x) x r = rowA x r.
Proof.
  intros Hr. unfold mv. do 13 (destruct r as [|r]; [unfold dyn_A, mplus, block, mscal, omega, rows_mat, ident; cbn; field|]). lia.
Qed.
Lemma rowA_moved x i h r : (r < 13)%nat -> (i < 13)%nat -> rowA (moved_by x i h) r - rowA x r =
  h * (if ((r =? 6) && (i =? 12) || (r =? 8) && (i =? 11))%nat%bool then - lin_A x r i else lin_A x r i).
Proof.
  intros Hr Hi. do 13 (destruct i as [|i]; [do 13 (destruct r as [|r]; [unfold rowA, moved_by, lin_A, mplus, block, mscal, omega, pd_omega, rows_mat, ident; cbn; field|]); lia|]). lia.
Qed.
Lemma rotation_same x y : (forall i, (i < 4)%nat -> x i = y i) -> rotation x = rotation y.
Proof. intros H. unfold rotation. rewrite (H 0%nat), (H 1%nat), (H 2%nat), (H 3%nat) by lia. reflexivity. Qed.
Lemma rotation_moved x i h : ~ (6 <= i < 10)%nat -> rotation (quat_of (moved_by x i h)) = rotation (quat_of x).
Proof. intros H. apply rotation_same. intros k Hk. unfold quat_of, moved_by. destruct (Nat.eqb_spec (6 + k) i); [lia|reflexivity]. Qed.
(** Skew: the quaternion moves orthogonally to itself, so its norm is kept to first order. *)
Lemma rowA_skew x : x 6%nat * rowA x 6 + x 7%nat * rowA x 7 + x 8%nat * rowA x 8 + x 9%nat * rowA x 9 = 0.
Proof. unfold rowA. ring. Qed.

Section Lin.
Variable inv : nat -> mat -> option mat.
Hypothesis Hinv : inv_correct inv.
Lemma c_B_moved x i h : ~ (6 <= i < 10)%nat -> c_B inv (moved_by x i h) = c_B inv x.
Proof. intros H. unfold c_B. now rewrite rotation_moved. Qed.
Lemma c_B_row x B u r : c_B inv x = Ok B -> (r < 10)%nat -> mv 6 B u r = if ((3 <=? r) && (r <? 6))%nat%bool then 1 / mass * u (r - 3)%nat else 0.
Proof.
  unfold c_B. destruct (rotation _) as [R0| |]; cbn [bind]; try discriminate. destruct (need_inv _ _ _) as [I| |]; cbn [bind]; try discriminate. intros H Hr. injection H as <-.
  unfold mv. do 10 (destruct r as [|r]; [unfold mplus, block, mscal, ident; cbn; ring|]). lia.
Qed.

(** ** C77: the analytical Jacobian with respect to the state, times any step h of coordinate i, is the change of the dynamics: in all columns but those of the orientation (there: in all rows but the last three), except for two entries, *)
Theorem C77_state_jacobian_partial x u f0 i h f1 r : c_dyn inv x u = Ok f0 -> c_dyn inv (moved_by x i h) u = Ok f1 -> (i < 13)%nat -> (r < 13)%nat ->
  (r < 10)%nat \/ ~ (6 <= i < 10)%nat -> ~ (r = 6%nat /\ i = 12%nat) -> ~ (r = 8%nat /\ i = 11%nat) -> f1 r - f0 r = h * lin_A x r i.
Proof.
  unfold c_dyn. intros E0 E1 Hi Hr Hc N1 N2. destruct (c_B inv x) as [B0| |] eqn:EB0; cbn [bind] in E0; try discriminate. destruct (c_B inv (moved_by x i h)) as [B1| |] eqn:EB1; cbn [bind] in E1; try discriminate.
  injection E0 as <-. injection E1 as <-. unfold vplus. rewrite !rowA_is by exact Hr.
  assert (EM : mv 6 B1 u r = mv 6 B0 u r).
  { destruct Hc as [Hc|Hc]; [now rewrite (c_B_row _ _ u r EB1 Hc), (c_B_row _ _ u r EB0 Hc)|]. rewrite c_B_moved in EB1 by exact Hc. rewrite EB0 in EB1. injection EB1 as ->. reflexivity. }
  rewrite EM. transitivity (rowA (moved_by x i h) r - rowA x r); [ring|]. rewrite rowA_moved by assumption.
  destruct ((r =? 6) && (i =? 12) || (r =? 8) && (i =? 11))%nat%bool eqn:D; [|reflexivity]. exfalso.
  apply orb_true_iff in D. destruct D as [D|D]; apply andb_true_iff in D; destruct D as [D1 D2]; apply Nat.eqb_eq in D1, D2; auto.
Qed.
(** the derivatives of q_x by the third and of q_z by the second angular velocity, whose sign is wrong. *)
Theorem C77_state_jacobian_refuted x u f0 h f1 r i : c_dyn inv x u = Ok f0 -> c_dyn inv (moved_by x i h) u = Ok f1 -> (r = 6%nat /\ i = 12%nat) \/ (r = 8%nat /\ i = 11%nat) ->
  f1 r - f0 r = - (h * lin_A x r i) /\ lin_A x r i = - (/ 2) * x (if (r =? 6)%nat then 7%nat else 6%nat).
Proof.
  unfold c_dyn. intros E0 E1 Hc. assert (Hi : ~ (6 <= i < 10)%nat) by (destruct Hc as [[_ ->]|[_ ->]]; lia). rewrite c_B_moved in E1 by exact Hi.
  destruct (c_B inv x) as [B0| |] eqn:EB0; cbn [bind] in E0, E1; try discriminate. injection E0 as <-. injection E1 as <-. unfold vplus.
  split; [|destruct Hc as [[-> ->]|[-> ->]]; unfold lin_A, mplus, block, mscal, omega, pd_omega, rows_mat, ident; cbn; ring].
  rewrite !rowA_is by (destruct Hc as [[-> _]|[-> _]]; lia). transitivity (rowA (moved_by x i h) r - rowA x r); [ring|].
  rewrite rowA_moved by (destruct Hc as [[-> ->]|[-> ->]]; lia). destruct Hc as [[-> ->]|[-> ->]]; cbn [Nat.eqb andb orb]; ring.
Qed.
(** With respect to the input: exact in the first ten rows, *)
Theorem C77_input_jacobian_partial x u f0 k h f1 B r : c_dyn inv x u = Ok f0 -> c_dyn inv x (moved_by u k h) = Ok f1 -> lin_B inv = Ok B -> (k < 6)%nat -> (r < 10)%nat -> f1 r - f0 r = h * B r k.
Proof.
  unfold c_dyn. intros E0 E1 EB Hk Hr. destruct (c_B inv x) as [B0| |] eqn:EB0; cbn [bind] in E0, E1; try discriminate. injection E0 as <-. injection E1 as <-. unfold vplus.
  rewrite !(c_B_row _ _ _ r EB0 Hr). unfold lin_B in EB. destruct (need_inv _ _ _) as [I| |]; cbn [bind] in EB; try discriminate. injection EB as <-. unfold moved_by.
  do 6 (destruct k as [|k]; [do 10 (destruct r as [|r]; [unfold mplus, block, mscal, ident; cbn; ring|]); lia|]). lia.
Qed.
(** but in the angular rows the inertia is not rotated into the world frame: with the body turned by 90 degrees about the vertical the effect of a roll moment is wrong by the ratio of two moments of inertia. *)
Definition turned : vec := fun i => match i with 8%nat => 1 | 9%nat => 1 | _ => 0 end.
Theorem C77_input_jacobian_refuted : exists f0 f1 B, c_dyn inv turned (fun _ => 0) = Ok f0 /\ c_dyn inv turned (moved_by (fun _ => 0) 3 1) = Ok f1 /\ lin_B inv = Ok B /\
  f1 10%nat - f0 10%nat = 100000000 / 1938108 /\ B 10%nat 3%nat = 100000000 / 578574.
Proof.
  assert (ER : exists r, rotation (quat_of turned) = Ok r /\ forall i j, (i < 3)%nat -> (j < 3)%nat -> mm 3 (mm 3 r inertia) (tr r) i j = rows_mat [[1938108 / 100000000; 0; 0]; [0; 578574 / 100000000; 0]; [0; 0; 2476124 / 100000000]] i j).
  { unfold rotation, quat_of, turned. cbn [Nat.add]. match goal with |- context[Req_EM_T ?a 0] => destruct (Req_EM_T a 0) as [E|E]; [lra|] end. eexists. split; [reflexivity|].
    intros i j Hi Hj. do 3 (destruct i as [|i]; [do 3 (destruct j as [|j]; [unfold mm, tr, mscal, inertia, rows_mat; cbn; field; lra|]); lia|]). lia. }
  destruct ER as (r & ER & EM).
  assert (EI : exists I, need_inv inv 3 (mm 3 (mm 3 r inertia) (tr r)) = Ok I /\ I 0%nat 0%nat = 100000000 / 1938108).
  { unfold need_inv. pose proof (Hinv 3%nat (mm 3 (mm 3 r inertia) (tr r))) as H. destruct (inv 3%nat _) as [I|].
    - exists I. split; [reflexivity|]. pose proof (proj1 (H 0%nat 0%nat ltac:(lia) ltac:(lia))) as E. unfold sum in E. cbn [seq map fold_right Nat.eqb] in E. rewrite !EM in E by lia. unfold rows_mat in E. cbn [nth] in E. lra.
    - exfalso. apply H. exists (rows_mat [[100000000 / 1938108; 0; 0]; [0; 100000000 / 578574; 0]; [0; 0; 100000000 / 2476124]]). intros i j Hi Hj. rewrite !sum_rsum.
      rewrite (rsum_ext 3 _ (fun k => rows_mat [[1938108 / 100000000; 0; 0]; [0; 578574 / 100000000; 0]; [0; 0; 2476124 / 100000000]] i k * rows_mat [[100000000 / 1938108; 0; 0]; [0; 100000000 / 578574; 0]; [0; 0; 100000000 / 2476124]] k j)) by (intros k Hk; now rewrite EM).
      rewrite (rsum_ext 3 (fun k => rows_mat _ i k * mm 3 _ _ k j) (fun k => rows_mat [[100000000 / 1938108; 0; 0]; [0; 100000000 / 578574; 0]; [0; 0; 100000000 / 2476124]] i k * rows_mat [[1938108 / 100000000; 0; 0]; [0; 578574 / 100000000; 0]; [0; 0; 2476124 / 100000000]] k j)) by (intros k Hk; now rewrite EM).
      do 3 (destruct i as [|i]; [do 3 (destruct j as [|j]; [unfold rows_mat; cbn; split; lra|]); lia|]). lia. }
  destruct EI as (I & EI & E00).
  assert (EL : exists L, need_inv inv 3 inertia = Ok L /\ L 0%nat 0%nat = 100000000 / 578574).
  { unfold need_inv. pose proof (Hinv 3%nat inertia) as H. destruct (inv 3%nat _) as [L|]; [|exfalso; apply H; eexists; apply diag_inverse].
    exists L. split; [reflexivity|]. pose proof (proj1 (H 0%nat 0%nat ltac:(lia) ltac:(lia))) as E. unfold sum, inertia, rows_mat in E. cbn in E. lra. }
  destruct EL as (L & EL & L00).
  unfold c_dyn, c_B, lin_B. rewrite ER. cbn [bind]. rewrite EI. cbn [bind]. rewrite EL. cbn [bind]. do 3 eexists. split; [reflexivity|]. split; [reflexivity|]. split; [reflexivity|]. split.
  - unfold vplus. transitivity (mv 6 (mplus (block 3 0 3 3 (mscal (1 / mass) ident)) (block 10 3 3 3 I)) (moved_by (fun _ => 0) 3 1) 10%nat - mv 6 (mplus (block 3 0 3 3 (mscal (1 / mass) ident)) (block 10 3 3 3 I)) (fun _ => 0) 10%nat); [ring|].
    unfold mv, mplus, block, moved_by. cbn. rewrite E00. lra.
  - unfold mplus, block. cbn. rewrite L00. lra.
Qed.

(** ** The end-effector script: its finite differences are exact, whatever the spacing of the trajectory. *)
Lemma bump_moved x i h : bump x i h = moved_by x i h.
Proof. apply FunctionalExtensionality.functional_extensionality. intros j. unfold bump, upd, moved_by. destruct (Nat.eqb_spec j i) as [->|]; reflexivity. Qed.
Lemma moved_nonzero x x1 i : moved x x1 i <> 0.
Proof. unfold moved, delta. destruct (Req_EM_T (x1 i - x i) 0); [lra|assumption]. Qed.
Lemma columns_ok n col : forall M, columns_of n col = Ok M -> forall j, (j < n)%nat -> exists v, col j = Ok v /\ forall i, M i j = v i.
Proof.
  induction n as [|n IH]; intros M H j Hj; [lia|]. cbn [columns_of] in H. destruct (columns_of n col) as [M'| |] eqn:E; cbn [bind] in H; try discriminate. destruct (col n) as [v| |] eqn:Ev; cbn [bind] in H; try discriminate.
  injection H as <-. destruct (Nat.eqb_spec j n) as [->|Hne]; [exists v; split; [exact Ev|reflexivity]|]. apply (IH M' eq_refl). lia.
Qed.
Lemma e_B_moved d t x i h : ~ (6 <= i < 10)%nat -> e_B inv d t (moved_by x i h) = e_B inv d t x.
Proof. intros H. unfold e_B. now rewrite rotation_moved. Qed.
Lemma e_B_row d t x B u r : e_B inv d t x = Ok B -> (r < 10)%nat -> mv 12 B u r = if ((3 <=? r) && (r <? 6))%nat%bool then 1 / mass * (u (r - 3)%nat + u r + u (r + 3)%nat + u (r + 6)%nat) else 0.
Proof.
  unfold e_B. destruct (rotation _) as [R0| |]; cbn [bind]; try discriminate. destruct (need_inv _ _ _) as [I| |]; cbn [bind]; try discriminate.
  destruct (pyget (l_feet d) t) as [fl| |]; cbn [bind]; try discriminate. destruct (pyget (l_pos d) t) as [cl| |]; cbn [bind]; try discriminate. intros H Hr. injection H as <-.
  unfold mv. do 10 (destruct r as [|r]; [unfold mplus, block, mscal, ident; cbn; ring|]). lia.
Qed.
Lemma e_dyn_moved d t x u i h f0 f1 r : e_dyn inv d t x u = Ok f0 -> e_dyn inv d t (moved_by x i h) u = Ok f1 -> (i < 13)%nat -> (r < 13)%nat -> (r < 10)%nat \/ ~ (6 <= i < 10)%nat ->
  f1 r - f0 r = rowA (moved_by x i h) r - rowA x r.
Proof.
  unfold e_dyn. intros E0 E1 Hi Hr Hc. destruct (e_B inv d t x) as [B0| |] eqn:EB0; cbn [bind] in E0; try discriminate. destruct (e_B inv d t (moved_by x i h)) as [B1| |] eqn:EB1; cbn [bind] in E1; try discriminate.
  injection E0 as <-. injection E1 as <-. unfold vplus. rewrite !rowA_is by exact Hr.
  assert (EM : mv 12 B1 u r = mv 12 B0 u r).
  { destruct Hc as [Hc|Hc]; [now rewrite (e_B_row _ _ _ _ u r EB1 Hc), (e_B_row _ _ _ _ u r EB0 Hc)|]. rewrite e_B_moved in EB1 by exact Hc. rewrite EB0 in EB1. injection EB1 as ->. reflexivity. }
  rewrite EM. ring.
Qed.
Lemma mv_moved n M u k h r : (k < n)%nat -> mv n M (moved_by u k h) r - mv n M u r = h * M r k.
Proof.
  intros Hk. unfold mv. rewrite <- rsum_minus. rewrite (rsum_single n k); [unfold moved_by; rewrite Nat.eqb_refl; ring|exact Hk|].
  intros i Hi Hne. unfold moved_by. rewrite (proj2 (Nat.eqb_neq i k) Hne). ring.
Qed.
Theorem C77_finite_differences h d t x u A B f0 : rows h d -> (t + 1 < h)%nat -> compute_lin_dyn inv d t = Ok (A, B) -> state_at d t = Ok x -> input_at d t = Ok u -> e_dyn inv d t x u = Ok f0 ->
  (forall i s f1 r, (i < 13)%nat -> (r < 13)%nat -> (r < 10)%nat \/ ~ (6 <= i < 10)%nat -> e_dyn inv d t (moved_by x i s) u = Ok f1 -> f1 r - f0 r = s * A r i) /\
  (/ 1000 <= sqrt (sum 12 (fun i => input_of d (t + 1) i * input_of d (t + 1) i)) -> forall k s f1 r, (k < 12)%nat -> (r < 13)%nat -> e_dyn inv d t x (moved_by u k s) = Ok f1 -> f1 r - f0 r = s * B r k) /\
  (sqrt (sum 12 (fun i => input_of d (t + 1) i * input_of d (t + 1) i)) < / 1000 -> forall r k, B r k = 0).
Proof.
  intros Hd Ht E Ex Eu E0. unfold compute_lin_dyn in E. rewrite Ex, Eu in E. cbn [bind] in E. rewrite E0 in E. cbn [bind] in E.
  destruct (state_at d (t + 1)) as [x1| |] eqn:Ex1; cbn [bind] in E; try discriminate.
  assert (Eu1 : input_at d (t + 1) = Ok (input_of d (t + 1))) by (unfold input_at; rewrite (pyget_ok _ (t + 1) []) by (replace (length (l_input d)) with h by (symmetry; apply Hd); lia); reflexivity).
  rewrite Eu1 in E. cbn [bind] in E. destruct (columns_of 13 _) as [A'| |] eqn:EA; cbn [bind] in E; try discriminate.
  rewrite sum_rsum. fold (vdot 12 (input_of d (t + 1)) (input_of d (t + 1))). set (nu := sqrt (vdot 12 (input_of d (t + 1)) (input_of d (t + 1)))) in *.
  assert (HA : A' = A) by (destruct (Rlt_dec nu (/ 1000)); [cbn [bind] in E; congruence|]; destruct (columns_of 12 _); cbn [bind] in E; congruence). split; [|split].
  - intros i s f1 r Hi Hr Hc E1. destruct (columns_ok 13 _ A' EA i Hi) as (v & Ev & Em). unfold quotient in Ev. rewrite bump_moved in Ev.
    destruct (e_dyn inv d t (moved_by x i (moved x x1 i)) u) as [fp| |] eqn:Ep; cbn [bind] in Ev; try discriminate. injection Ev as <-. rewrite <- HA, Em.
    rewrite (e_dyn_moved d t x u i s f0 f1 r E0 E1 Hi Hr Hc), (e_dyn_moved d t x u i (moved x x1 i) f0 fp r E0 Ep Hi Hr Hc), !rowA_moved by assumption. field. apply moved_nonzero.
  - intros Hn k s f1 r Hk Hr E1. destruct (Rlt_dec nu (/ 1000)) as [L|_]; [lra|]. destruct (columns_of 12 _) as [B'| |] eqn:EB; cbn [bind] in E; try discriminate. injection E as _ <-.
    destruct (columns_ok 12 _ B' EB k Hk) as (v & Ev & Em). unfold quotient in Ev. rewrite bump_moved in Ev. rewrite Em. unfold e_dyn in *. destruct (e_B inv d t x) as [B0| |]; cbn [bind] in *; try discriminate.
    injection Ev as <-. injection E0 as <-. injection E1 as <-. unfold vplus. pose proof (moved_nonzero u (input_of d (t + 1)) k) as Hm.
    transitivity (mv 12 B0 (moved_by u k s) r - mv 12 B0 u r); [ring|]. rewrite mv_moved by exact Hk.
    replace (mv 13 (dyn_A x) x r + mv 12 B0 (moved_by u k (moved u (input_of d (t + 1)) k)) r - (mv 13 (dyn_A x) x r + mv 12 B0 u r)) with (mv 12 B0 (moved_by u k (moved u (input_of d (t + 1)) k)) r - mv 12 B0 u r) by ring.
    rewrite mv_moved by exact Hk. field. exact Hm.
  - intros Hn. destruct (Rlt_dec nu (/ 1000)) as [_|L]; [|contradiction]. cbn [bind] in E. injection E as _ <-. reflexivity.
Qed.
(** The rotational dynamics of that script do not use the torque of the contact forces: the third component has a wrong sign (right exactly if it vanishes). *)
Theorem C77_torque_refuted p c f : (forall k, (k < 2)%nat -> mv 3 (r_cross p c) f k = torque p c f k) /\ (mv 3 (r_cross p c) f 2%nat = torque p c f 2 <-> (p 0%nat - c 0%nat) * f 1%nat = 0).
Proof.
  split.
  - intros k Hk. destruct k as [|[|k]]; [..|lia]; unfold mv, r_cross, rows_mat, torque; cbn; ring.
  - unfold mv, r_cross, rows_mat, torque. cbn. split; intros H; lra.
Qed.
(** The angular velocity keeps the norm of the quaternion to first order. *)
Theorem C77_orientation_rate x u f : c_dyn inv x u = Ok f -> x 6%nat * f 6%nat + x 7%nat * f 7%nat + x 8%nat * f 8%nat + x 9%nat * f 9%nat = 0.
Proof.
  unfold c_dyn. destruct (c_B inv x) as [B| |] eqn:EB; cbn [bind]; try discriminate. intros H. injection H as <-. unfold vplus. rewrite !rowA_is by lia. rewrite !(c_B_row _ _ _ _ EB) by lia. cbn [Nat.leb Nat.ltb andb].
  pose proof (rowA_skew x). cbn. lra.
Qed.
End Lin.
Print Assumptions C77_state_jacobian_partial.
Print Assumptions C77_state_jacobian_refuted.
Print Assumptions C77_input_jacobian_partial.
Print Assumptions C77_input_jacobian_refuted.
Print Assumptions C77_finite_differences.
Print Assumptions C77_torque_refuted.
Print Assumptions C77_orientation_rate.

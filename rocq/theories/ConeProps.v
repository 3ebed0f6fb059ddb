(** * Properties C10, C11, C12, C15: cone algebra of the interior-point solver.
    Everywhere: [nl] linear entries followed by second-order blocks of sizes [q] (each at least 1), N = nl + total q entries.
    [1/10^13] is the solver's division guard. *)
From Coq Require Import Reals List Arith Bool Lia Lra Psatz.
From Verif Require Import ConicSpec ConeModel ConeSpec ConeProofs ConeProofs2 ConeProofs3.
Import ListNotations.
Open Scope R_scope.

(** ** C10 *)
(** conicProduct computes the Jordan product (exactly one vector is the product, on the N entries). *)
Theorem C10_product :
  forall nl q u v, Forall (fun n => (1 <= n)%nat) q -> is_product nl q u v (conicProduct nl q u v).
Proof.
  intros nl q u v F. split.
  - intros i Hi. unfold conicProduct. apply soc_loop_lt. exact Hi.
  - apply products_all. intros pre n post E. pose proof (size_in _ _ _ _ E F) as Hn. subst q.
    assert (B : forall j, (j < n)%nat -> shift (conicProduct nl (pre ++ n :: post) u v) (nl + total pre) j = prod_blk n (shift u (nl + total pre)) (shift v (nl + total pre)) j).
    { intros j Hj. unfold shift at 1. unfold conicProduct. rewrite soc_loop_in by exact Hj. reflexivity. }
    split; [apply B; lia|]. intros j Hj. rewrite B by lia. destruct j; [lia|reflexivity].
Qed.

(** Division undoes the product and vice versa, whenever linear entries, block heads and block determinants of u are at least
    the guard. *)
Theorem C10_division_inverse_partial :
  forall nl q u, Forall (fun n => (1 <= n)%nat) q ->
    (forall i, (i < nl)%nat -> 1 / 10 ^ 13 <= u i) -> each_block (soc_margin (1 / 10 ^ 13)) nl q u ->
    (forall v, eqN (nl + total q) (conicDivision nl q u (conicProduct nl q u v)) v) /\
    (forall w, is_product nl q u (conicDivision nl q u w) w).
Proof.
  intros nl q u F HL HB. rewrite each_block_all in HB. fold guard in *. split.
  - intros v. apply by_blocks.
    + intros i Hi. unfold conicDivision, conicProduct. rewrite !soc_loop_lt by exact Hi. specialize (HL i Hi). pose proof guard_pos.
      rewrite safe_ok by exact HL. field. lra.
    + intros pre n post E j Hj. pose proof (size_in _ _ _ _ E F) as Hn. specialize (HB pre n post E). subst q. unfold shift at 1. unfold conicDivision.
      rewrite soc_loop_in by exact Hj. rewrite <- (div_prod_blk n (shift u (nl + total pre)) (shift v (nl + total pre)) j Hn Hj HB).
      assert (EB : forall j, (j < n)%nat -> shift (conicProduct nl (pre ++ n :: post) u v) (nl + total pre) j = prod_blk n (shift u (nl + total pre)) (shift v (nl + total pre)) j).
      { intros k Hk. unfold shift at 1. unfold conicProduct. rewrite soc_loop_in by exact Hk. reflexivity. }
      unfold div_blk. rewrite (tdot_ext n (shift u (nl + total pre)) (shift (conicProduct nl (pre ++ n :: post) u v) (nl + total pre)) (shift u (nl + total pre)) (prod_blk n (shift u (nl + total pre)) (shift v (nl + total pre)))) by (intros; auto; apply EB; lia).
      rewrite (EB 0%nat) by lia. destruct j; [reflexivity|]. rewrite (EB (S j)) by exact Hj. reflexivity.
  - intros w. split.
    + intros i Hi. unfold conicDivision. rewrite soc_loop_lt by exact Hi. specialize (HL i Hi). pose proof guard_pos. rewrite safe_ok by exact HL. field. lra.
    + apply products_all. intros pre n post E. pose proof (size_in _ _ _ _ E F) as Hn. specialize (HB pre n post E). subst q.
      destruct (prod_div_blk n (shift u (nl + total pre)) (shift w (nl + total pre)) Hn HB) as [P0 P1].
      assert (EB : forall j, (j < n)%nat -> shift (conicDivision nl (pre ++ n :: post) u w) (nl + total pre) j = div_blk n (shift u (nl + total pre)) (shift w (nl + total pre)) j).
      { intros k Hk. unfold shift at 1. unfold conicDivision. rewrite soc_loop_in by exact Hk. reflexivity. }
      split.
      * rewrite P0. unfold sumR. apply sum_ext. intros j Hj. apply in_seq in Hj. rewrite EB by lia. reflexivity.
      * intros j Hj. rewrite !EB by lia. apply P1, Hj.
Qed.

(** Without the margin it fails: the guard replaces every negative or tiny divisor by 1e-13. *)
Theorem C10_negative_divisor_refuted :
  ~ (forall nl q u v, Forall (fun n => (1 <= n)%nat) q -> (forall i, (i < nl)%nat -> u i <> 0) ->
       eqN (nl + total q) (conicDivision nl q u (conicProduct nl q u v)) v).
Proof.
  intros H. specialize (H 1%nat [] (fun _ => -1) (fun _ => 1) (Forall_nil _) ltac:(intros; lra) 0%nat ltac:(simpl; lia)).
  cbn in H. unfold safeDivision, guard in H. destruct (Rlt_dec (-1) (1 / 10 ^ 13)); lra.
Qed.

(** ** C11 *)
(** The starting-point projection moves s along the identity of the cone by (a+1), where a is the smallest nonnegative move that
    brings s into the closed cone; the result is strictly inside. *)
Theorem C11_projection_interior :
  forall nl q s, Forall (fun n => (1 <= n)%nat) q ->
    exists a, 0 <= a /\
      moved nl q (a + 1) s (conicProjection nl q s) /\
      interior nl q (conicProjection nl q s) /\
      (forall v, moved nl q a s v -> in_closed_cone nl q v) /\
      (forall t v, 0 <= t -> moved nl q t s v -> in_closed_cone nl q v -> a <= t).
Proof. exact projection_spec. Qed.

(** ** C12 *)
(** For interior s, z (margin: z_i >= 1e-13, block determinants >= 1e-26) the update reports Inside and its scaling W satisfies
    W z = lambda, W lambda = s; W is linear, invertible, self-adjoint and maps the interior into itself. *)
Theorem C12_nt_scaling_partial :
  forall nl q s z, Forall (fun n => (1 <= n)%nat) q ->
    (forall i, (i < nl)%nat -> 0 < s i) -> (forall i, (i < nl)%nat -> 1 / 10 ^ 13 <= z i) ->
    each_block (soc_root_margin (1 / 10 ^ 13)) nl q s -> each_block (soc_root_margin (1 / 10 ^ 13)) nl q z ->
    let N := (nl + total q)%nat in
    exists Ws lambda, updateNTScalings nl q s z = Some (Ws, lambda) /\
      let W := conicNTScaling nl q Ws in
      eqN N (W z) lambda /\ eqN N (W lambda) s /\
      (forall a b x y, eqN N (W (fun i => a * x i + b * y i)) (fun i => a * W x i + b * W y i)) /\
      (exists W1, (forall x, eqN N (W1 (W x)) x) /\ (forall x, eqN N (W (W1 x)) x)) /\
      (forall x y, inner N (W x) y = inner N x (W y)) /\
      (forall x, interior nl q x -> interior nl q (W x)).
Proof.
  intros nl q s z F S0 Z0 HS HZ N. fold guard in *. pose proof guard_pos as GP.
  destruct (update_spec nl q s z F S0 ltac:(intros i Hi; specialize (Z0 i Hi); lra) HS HZ) as (W & lam & E & EL & G & LP & BK).
  exists W, lam. split; [exact E|]. cbn zeta. split; [rewrite EL; intros i _; reflexivity|]. split; [|split; [|split; [|split]]].
  - apply by_blocks; [|exact BK]. intros i Hi. rewrite W_lp, EL, W_lp by exact Hi. rewrite <- Rmult_assoc, LP by exact Hi.
    specialize (Z0 i Hi). rewrite safe_ok by exact Z0. field. lra.
  - intros a b x y i Hi. apply W_linear; auto.
  - exists (Winv nl q W). split; [apply Winv_W, G|apply W_Winv, G].
  - intros x y. apply W_adjoint; auto.
  - intros x [X1 X2]. rewrite each_block_all in X2. split.
    + intros i Hi. rewrite W_lp by exact Hi. apply Rmult_lt_0_compat; [apply (proj1 G), Hi|auto].
    + apply each_block_all. intros pre n post Eq. pose proof (size_in _ _ _ _ Eq F) as Hn. pose proof (proj2 G pre n post Eq) as (W0 & W1 & E0 & _).
      apply interior_ext with (fun j => nt_eta (nth (length pre) (sc_soc W) nt_dummy) * boost n (nt_wbar (nth (length pre) (sc_soc W) nt_dummy)) (shift x (nl + total pre)) j); [exact Hn| |].
      * intros j Hj. symmetry. apply (W_blk nl q W G _ pre n post j Eq Hj).
      * apply interior_scale; [exact E0|]. apply boost_interior; auto. apply (X2 pre n post Eq).
Qed.

(** The sparse extended block that goes into the KKT matrix represents W^2: if the two extra rows are satisfied (zero), the first n
    rows of eta^2 [D v u; v' 1 0; u' 0 -1] x equal W (W x) on that block. *)
Theorem C12_sparse_square :
  forall n s z, (1 <= n)%nat -> soc_root_margin (1 / 10 ^ 13) n s -> soc_root_margin (1 / 10 ^ 13) n z ->
    exists b, nt_block n s z = Some b /\
      forall x, scal2_blk b n x (fun _ => 0) n = 0 -> scal2_blk b n x (fun _ => 0) (S n) = 0 ->
        forall j, (j < n)%nat -> scal2_blk b n x (fun _ => 0) j = scal_blk b n (scal_blk b n x) j.
Proof.
  intros n s z Hn HS HZ. destruct (nt_block_spec n s z Hn HS HZ) as (b & E & G & _). exists b. split; [exact E|].
  intros x H1 H2 j Hj. rewrite (scal2_elim n b x j Hn G H1 H2 Hj). rewrite scal_blk_boost by exact G. f_equal.
  apply boost_ext; [|exact Hj]. intros i _. symmetry. apply scal_blk_boost. exact G.
Qed.

(** Below the guard the identity W lambda = s is lost. *)
Theorem C12_tiny_multiplier_refuted :
  ~ (forall nl q s z, Forall (fun n => (1 <= n)%nat) q -> interior nl q s -> interior nl q z ->
       exists Ws lambda, updateNTScalings nl q s z = Some (Ws, lambda) /\ eqN (nl + total q) (conicNTScaling nl q Ws lambda) s).
Proof.
  intros H. assert (EX : exists e, 0 < e /\ e * 10 = guard) by (exists (1 / 10 ^ 14); unfold guard; lra).
  destruct EX as (e & E0 & E1).
  destruct (H 1%nat [] (fun _ => 1) (fun _ => e) (Forall_nil _)) as (W & lam & E & K).
  - split; [intros; lra|exact I].
  - split; [intros; lra|exact I].
  - unfold updateNTScalings in E. cbn [nt_blocks] in E. injection E as <- <-. specialize (K 0%nat ltac:(simpl; lia)).
    unfold conicNTScaling in K. cbn [soc_loop sc_lp] in K. unfold safeDivision in K.
    destruct (Rlt_dec e guard) as [_|N]; [|lra].
    rewrite <- Rmult_assoc in K. rewrite sqrt_sqrt in K by (apply Rlt_le, Rdiv_lt_0_compat; [lra|apply guard_pos]).
    rewrite <- E1 in K. assert (1 / (e * 10) * e = 1 / 10) by (field; lra). lra.
Qed.

(** ** C15 *)
(** From any interior iterate and along any direction, a line search result above the configured minimum step keeps s, z strictly
    inside the cone and tau, kappa positive.  [scal]: StepLengthScaling (0.99 by default). *)
Theorem C15_step_stays_inside_partial :
  forall big smax smin scal nl q p ds dz dtau dkappa,
    Forall (fun n => (1 <= n)%nat) q -> 0 <= smin -> 0 < scal < 1 ->
    interior nl q (ip_s p) -> interior nl q (ip_z p) ->
    each_block (soc_root_margin (1 / 10 ^ 13)) nl q (ip_s p) -> each_block (soc_root_margin (1 / 10 ^ 13)) nl q (ip_z p) ->
    0 < ip_tau p -> 0 < ip_kappa p ->
    exists W lambda, updateNTScalings nl q (ip_s p) (ip_z p) = Some (W, lambda) /\
      let alpha := lineSearch big smax smin nl q lambda ds (conicNTScaling nl q W dz) (ip_tau p) dtau (ip_kappa p) dkappa in
      smin < alpha ->
      let p' := ip_update nl q W (alpha * scal) p ds dz dtau dkappa in
      interior nl q (ip_s p') /\ interior nl q (ip_z p') /\ 0 < ip_tau p' /\ 0 < ip_kappa p'.
Proof.
  intros big smax smin scal nl q p ds dz dtau dkappa F H1 H2 [S1 _] [Z1 _] HS HZ HT HK.
  exact (step_spec big smax smin scal nl q p ds dz dtau dkappa F H1 H2 S1 Z1 HS HZ HT HK).
Qed.

(** The step never exceeds the configured maximum nor falls below the minimum, for any data. *)
Theorem C15_step_bounds :
  forall big smax smin nl q lam ds dz tau dtau kappa dkappa, smin <= smax ->
    smin <= lineSearch big smax smin nl q lam ds dz tau dtau kappa dkappa <= smax.
Proof.
  intros. unfold lineSearch. split; [apply Rmax_r|]. apply Rmax_lub; [apply Rmin_r|exact H].
Qed.

(** When the minimum step is forced the iterate can leave the cone. *)
Theorem C15_minimum_step_refuted :
  ~ (forall big smax smin scal nl q p ds dz dtau dkappa W lambda,
    Forall (fun n => (1 <= n)%nat) q -> 0 <= smin -> smin < smax -> 0 < scal < 1 -> 0 < big ->
    interior nl q (ip_s p) -> interior nl q (ip_z p) -> 0 < ip_tau p -> 0 < ip_kappa p ->
    updateNTScalings nl q (ip_s p) (ip_z p) = Some (W, lambda) ->
    let alpha := lineSearch big smax smin nl q lambda ds (conicNTScaling nl q W dz) (ip_tau p) dtau (ip_kappa p) dkappa in
    interior nl q (ip_s (ip_update nl q W (alpha * scal) p ds dz dtau dkappa))).
Proof.
  intros H.
  specialize (H 1 1 (1/10^6) (99/100) 1%nat [] (mkIP (fun _ => 1) (fun _ => 1) 1 1) (fun _ => -10^7) (fun _ => 0) 0 0
     _ _ (Forall_nil _) ltac:(lra) ltac:(lra) ltac:(lra) ltac:(lra)
     ltac:(split; [intros; simpl; lra|exact I]) ltac:(split; [intros; simpl; lra|exact I]) ltac:(simpl; lra) ltac:(simpl; lra) eq_refl).
  cbn zeta in H. destruct H as [H _]. specialize (H 0%nat ltac:(lia)). cbn [ip_update ip_s ip_tau ip_kappa ip_z] in H.
  unfold conicNTScaling in H. cbn [soc_loop sc_lp] in H.
  assert (E : sqrt (safeDivision 1 1) = 1). { rewrite safe_ok by (unfold guard; lra). replace (1/1) with 1 by lra. apply sqrt_1. }
  rewrite E in H.
  match type of H with 0 < 1 + ?a * _ * _ => assert (L : 1/10^6 <= a) by (unfold lineSearch; apply Rmax_r) end.
  nra.
Qed.

(** ** Non-vacuity *)
(** An interior pair with one linear row and one block of size 3, and its projection. *)
Definition ex_v : nat -> R := fun i => match i with O => 2 | 1%nat => 5 | 2%nat => 3 | _ => 1 end.
Example C10_C12_C15_ex :
  interior 1 [3%nat] ex_v /\ each_block (soc_root_margin (1 / 10 ^ 13)) 1 [3%nat] ex_v /\ each_block (soc_margin (1 / 10 ^ 13)) 1 [3%nat] ex_v.
Proof.
  assert (T : tail_prod 3 (fun j => ex_v (1 + j)%nat) (fun j => ex_v (1 + j)%nat) = 10) by (cbn; lra).
  repeat split.
  - intros i Hi. destruct i; [cbn; lra|lia].
  - apply interior_sq. unfold conicResidual. rewrite tdot_tail, T. cbn. lra.
  - cbn. lra.
  - change (1 / 10^13 * (1 / 10^13) <= 5 * 5 - tail_prod 3 (fun j => ex_v (1 + j)%nat) (fun j => ex_v (1 + j)%nat)). rewrite T. lra.
  - cbn. lra.
  - rewrite T. cbn. lra.
Qed.
(** A direction for which the step is strictly between the bounds: s = z = 1, ds = dz = -1 gives alpha = 1/2 cut to smax. *)
Example C15_alpha_ex : 1/10^6 < lineSearch 1 (1/2) (1/10^6) 1 [] (fun _ => 1) (fun _ => -1) (fun _ => -1) 1 0 1 0.
Proof.
  unfold lineSearch, lp_alpha, lp_ratio, pos_alpha. cbn [seq Nat.sub fold_left socs_alpha].
  destruct (Req_EM_T 0 0); [|lra]. rewrite (Rmin_left (-1/1) (-1/1)) by lra. destruct (Rlt_dec (-1 / 1) 0); [|lra].
  apply Rlt_le_trans with (1/2); [lra|]. apply Rle_trans with (2 := Rmax_l _ _). apply Rmin_glb; lra.
Qed.
(** The projection is not the identity: at s = -4 (one linear row) it moves by 5. *)
Example C11_ex : conicProjection 1 [] (fun _ => -4) 0%nat = 1.
Proof.
  unfold conicProjection, add_identity, lp_residual. cbn [seq fold_left soc_loop max_soc_residual].
  destruct (Rlt_dec (-4) 0); [|lra]. rewrite Rabs_left by lra. rewrite Rmax_right by lra. lra.
Qed.

Print Assumptions C10_product.
Print Assumptions C10_division_inverse_partial.
Print Assumptions C10_negative_divisor_refuted.
Print Assumptions C11_projection_interior.
Print Assumptions C12_nt_scaling_partial.
Print Assumptions C12_sparse_square.
Print Assumptions C12_tiny_multiplier_refuted.
Print Assumptions C15_step_stays_inside_partial.
Print Assumptions C15_step_bounds.
Print Assumptions C15_minimum_step_refuted.

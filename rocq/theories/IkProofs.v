(** * Inverse kinematics: proofs *)
From Coq Require Import Reals List Arith Bool Lia Lra Psatz FunctionalExtensionality.
Import ListNotations.
From Verif Require Import Base BaseProofs Vec3 PyqpModel PyqpSpec PyqpProps IkModel IkSpec.
Local Open Scope R_scope.

(** ** Finite sums *)
Lemma rsum_blocks : forall n f, rsum (n * 3) f = rsum n (fun e => rsum 3 (fun c => f (e * 3 + c)%nat)).
Proof. induction n; intros f; [reflexivity|]. rewrite rsum_S, <- IHn. replace (S n * 3)%nat with (n * 3 + 3)%nat by lia. apply rsum_split. Qed.
Lemma nth_repeat3 : forall (l : list R) (f : R -> R) e c, (e < List.length l)%nat -> (c < 3)%nat -> nth (e * 3 + c) (flat_map (fun c => repeat (f c) 3) l) 0 = f (nth e l 0).
Proof.
  induction l as [|x l IH]; intros f e c He Hc; [cbn in He; lia|]. destruct e as [|e].
  - cbn [flat_map Nat.mul Nat.add nth]. rewrite app_nth1 by (rewrite repeat_length; lia). destruct c as [|[|[|]]]; try lia; reflexivity.
  - cbn [flat_map nth]. rewrite app_nth2 by (rewrite repeat_length; lia). rewrite repeat_length. replace (S e * 3 + c - 3)%nat with (e * 3 + c)%nat by lia. apply IH; [cbn in He; lia|exact Hc].
Qed.
Lemma flat3_length : forall (l : list R) (f : R -> R), List.length (flat_map (fun c => repeat (f c) 3) l) = (List.length l * 3)%nat.
Proof. induction l as [|x l IH]; intros f; [reflexivity|]. cbn [flat_map List.length]. rewrite app_length, repeat_length, IH. lia. Qed.
Lemma block_div : forall e c, (c < 3)%nat -> ((e * 3 + c) / 3 = e /\ (e * 3 + c) mod 3 = c)%nat.
Proof. intros e c H. split; [rewrite Nat.div_add_l by lia; rewrite Nat.div_small by lia; lia|]. rewrite Nat.add_comm, Nat.mod_add by lia. now apply Nat.mod_small. Qed.

(** ** Weighted least squares: 1/2 x'(J'wJ + eps I)x - (J'wv)'x, up to a constant half the weighted error plus regularisation *)
Lemma least_squares : forall n m (J : nat -> nat -> R) (w v : nat -> R) (ep : R) x,
  qobj n (fun i j => rsum m (fun k => J k i * w k * J k j) + (if (i =? j)%nat then ep else 0)) (fun i => - rsum m (fun k => J k i * w k * v k)) x
  = / 2 * (rsum m (fun k => w k * (dotv n (J k) x - v k) ^ 2) + ep * rsum n (fun i => x i ^ 2)) - / 2 * rsum m (fun k => w k * v k ^ 2).
Proof.
  intros. unfold qobj.
  assert (A : rsum n (fun i => rsum n (fun j => x i * (rsum m (fun k => J k i * w k * J k j) + (if (i =? j)%nat then ep else 0)) * x j)) = rsum m (fun k => w k * dotv n (J k) x ^ 2) + ep * rsum n (fun i => x i ^ 2)).
  { transitivity (rsum n (fun i => rsum m (fun k => w k * dotv n (J k) x * (J k i * x i)) + ep * x i ^ 2)).
    - apply rsum_ext. intros i Hi.
      transitivity (rsum n (fun j => x i * rsum m (fun k => J k i * w k * J k j) * x j) + rsum n (fun j => if (j =? i)%nat then ep * x i ^ 2 else 0)).
      + rewrite <- rsum_plus. apply rsum_ext. intros j Hj. rewrite Nat.eqb_sym. destruct (Nat.eqb_spec j i) as [->|]; ring.
      + rewrite rsum_delta by exact Hi. f_equal.
        transitivity (rsum n (fun j => rsum m (fun k => w k * (J k i * x i) * (J k j * x j)))).
        { apply rsum_ext. intros j _. rewrite <- rsum_scal, <- rsum_scal_r. apply rsum_ext. intros. ring. }
        rewrite rsum_swap. apply rsum_ext. intros k _. rewrite rsum_scal. unfold dotv. ring.
    - rewrite rsum_plus, rsum_scal. f_equal. rewrite rsum_swap. apply rsum_ext. intros k _. rewrite rsum_scal. unfold dotv. ring. }
  assert (B : dotv n (fun i => - rsum m (fun k => J k i * w k * v k)) x = - rsum m (fun k => w k * v k * dotv n (J k) x)).
  { rewrite dotv_opp. f_equal. unfold dotv. transitivity (rsum n (fun i => rsum m (fun k => w k * v k * (J k i * x i)))).
    - apply rsum_ext. intros i _. rewrite <- rsum_scal_r. apply rsum_ext. intros. ring.
    - rewrite rsum_swap. apply rsum_ext. intros k _. rewrite rsum_scal. reflexivity. }
  rewrite A, B.
  assert (C : rsum m (fun k => w k * (dotv n (J k) x - v k) ^ 2) = rsum m (fun k => w k * dotv n (J k) x ^ 2) - 2 * rsum m (fun k => w k * v k * dotv n (J k) x) + rsum m (fun k => w k * v k ^ 2)).
  { rewrite <- rsum_scal, <- rsum_minus, <- rsum_plus. apply rsum_ext. intros. ring. }
  rewrite C. field.
Qed.

Section Pure.
  Variable sq : pm -> pv -> option (pm * pv) -> nat -> res pv.
  Variable rb : robot.
  Notation ne := (r_ne rb). Notation nv := (r_nv rb).
  Definition J_of (q : config) : nat -> nat -> R := fun i j =>
    if (i <? 6)%nat then r_Ag rb q i j
    else if (i <? (ne + 2) * 3)%nat then r_Jf rb q ((i - 6) / 3)%nat ((i - 6) mod 3)%nat j
    else if (6 <=? j)%nat then (if (i - (ne + 2) * 3 =? j - 6)%nat then 1 else 0) else 0.
  Definition vel_of (st : iksetting) (a : ikarg) : nat -> R := fun i =>
    if (i <? 3)%nat then vget3 (a_lmom a) i + p_com st * (vget3 (a_com a) i - vget3 (r_com rb (a_q a)) i)
    else if (i <? 6)%nat then vget3 (a_amom a) (i - 3)
    else if (i <? (ne + 2) * 3)%nat then
      let e := ((i - 6) / 3)%nat in let c := ((i - 6) mod 3)%nat in
      vget3 (nth e (a_vel a) v0) c + gain st * (vget3 (nth e (a_pos a) v0) c - vget3 (r_pos rb (a_q a) e) c)
    else if (i <? nrows rb)%nat then match a_joint a with Some r => pe r (i - (ne + 2) * 3) | None => 0 end
    else 0.
  Definition mom_of (a : ikarg) : nat -> R := fun i => if (i <? 3)%nat then vget3 (a_lmom a) i else if (i <? 6)%nat then vget3 (a_amom a) (i - 3) else 0.
  Definition ik_solution (st : iksetting) (a : ikarg) : res pv :=
    if ((List.length (a_pos a) <? ne) || (List.length (a_vel a) <? ne))%nat%bool then Throw else
    bind (match a_joint a with Some r => if (pl r =? nv - 6)%nat then Ok tt else Throw | None => Ok tt end) (fun _ =>
    let wl := weight_list rb st a in
    if (List.length wl =? nrows rb)%nat then
      let w := fun k => nth k wl 0 in
      let H := hessian rb (J_of (a_q a)) w in let g := gradient rb (J_of (a_q a)) w (vel_of st a) in
      if a_flight a then quadprog_solve_qp sq H g None None (Some (PM 6 nv (J_of (a_q a)))) (Some (PV 6 (mom_of a))) else quadprog_solve_qp sq H g None None None None
    else Throw).
  Definition inv (s : ikst) : Prop :=
    k_lq s = k_data s /\ (forall i j, ((ne + 2) * 3 <= i)%nat -> (j < 6)%nat -> k_J s i j = 0) /\ (forall i, (nrows rb <= i)%nat -> k_vel s i = 0) /\ (forall i, (6 <= i)%nat -> k_mom s i = 0).
  Lemma compute_pure : forall s st a, inv s ->
    match compute sq rb st s a with
    | Ok (x, s') => ik_solution st a = Ok x /\ inv s' /\ k_data s' = Some (a_q a) /\ k_J s' = J_of (a_q a)
    | Throw => ik_solution st a = Throw
    | UB => ik_solution st a = UB
    end.
  Proof.
    intros s st a (I1 & I2 & I3 & I4). unfold compute, ik_solution.
    set (s1 := if (_ || _)%bool then _ else _).
    assert (D : k_data s1 = Some (a_q a) /\ k_lq s1 = Some (a_q a) /\ k_J s1 = k_J s /\ k_vel s1 = k_vel s /\ k_mom s1 = k_mom s).
    { unfold s1. destruct (same_as (k_lq s) (a_q a)) eqn:E; cbn [negb orb]; [|repeat split; reflexivity].
      destruct (same_as (k_ldq s) (a_dq a)); [repeat split; reflexivity|].
      assert (k_lq s = Some (a_q a)). { unfold same_as in E. destruct (k_lq s) as [l|]; [|discriminate]. unfold cfg_eqb in E. destruct (list_eq_dec Req_EM_T l (a_q a)); [congruence|discriminate]. }
      repeat split; congruence. }
    clearbody s1. destruct D as (D1 & D2 & D3 & D4 & D5).
    unfold fill_vel_des. destruct (_ || _)%bool; [reflexivity|].
    destruct (match a_joint a with Some r => _ | None => _ end) as [u| |] eqn:EJ; cbn [bind]; [|reflexivity|].
    2:{ destruct (a_joint a) as [r|]; [destruct (pl r =? nv - 6)%nat|]; discriminate. }
    destruct (List.length (weight_list rb st a) =? nrows rb)%nat; [|reflexivity]. unfold fill_jacobians, dat. cbn [k_J k_vel k_mom k_data k_lq k_ldq]. rewrite D1, D3, D4, D5, D2. cbv iota.
    match goal with |- context[hessian rb ?j _] => assert (EJ' : j = J_of (a_q a)) end.
    { apply functional_extensionality. intros i. apply functional_extensionality. intros j. unfold J_of. destruct (i <? 6)%nat; [reflexivity|]. destruct (Nat.ltb_spec i ((ne + 2) * 3)) as [|L]; [reflexivity|]. destruct (Nat.leb_spec 6 j) as [|L']; [reflexivity|]. now apply I2. }
    rewrite EJ'. clear EJ'.
    match goal with |- context[gradient rb _ _ ?v] => assert (EV : v = vel_of st a) end.
    { apply functional_extensionality. intros i. unfold vel_of. repeat match goal with |- (if ?b then _ else _) = _ => destruct b eqn:?; [reflexivity|] end. apply I3. now apply Nat.ltb_ge. }
    rewrite EV. clear EV.
    destruct (a_flight a) eqn:EF.
    - assert (EM : (fun i : nat => if (i <? 3)%nat then vget3 (a_lmom a) i else if (i <? 6)%nat then vget3 (a_amom a) (i - 3) else k_mom s i) = mom_of a).
      { apply functional_extensionality. intros i. unfold mom_of. destruct (i <? 3)%nat; [reflexivity|]. destruct (Nat.ltb_spec i 6) as [|L]; [reflexivity|]. now apply I4. }
      rewrite EM. destruct (quadprog_solve_qp _ _ _ _ _ _ _) as [x| |]; cbn [bind]; [|reflexivity|reflexivity].
      split; [reflexivity|]. split; [|split; reflexivity]. split; [reflexivity|]. cbn [k_J k_vel k_mom]. split; [|split].
      + intros i j Hi Hj. unfold J_of. rewrite (proj2 (Nat.ltb_ge i 6)) by lia. rewrite (proj2 (Nat.ltb_ge i ((ne + 2) * 3))) by lia. now rewrite (proj2 (Nat.leb_gt 6 j)) by lia.
      + intros i Hi. unfold vel_of, nrows in *. rewrite (proj2 (Nat.ltb_ge i 3)) by lia. rewrite (proj2 (Nat.ltb_ge i 6)) by lia. rewrite (proj2 (Nat.ltb_ge i ((ne + 2) * 3))) by lia. now rewrite (proj2 (Nat.ltb_ge i ((ne + 2) * 3 + (nv - 6)))) by lia.
      + intros i Hi. unfold mom_of. rewrite (proj2 (Nat.ltb_ge i 3)) by lia. now rewrite (proj2 (Nat.ltb_ge i 6)) by lia.
    - destruct (quadprog_solve_qp _ _ _ _ _ _ _) as [x| |]; cbn [bind]; [|reflexivity|reflexivity].
      split; [reflexivity|]. split; [|split; reflexivity]. split; [reflexivity|]. cbn [k_J k_vel k_mom]. split; [|split].
      + intros i j Hi Hj. unfold J_of. rewrite (proj2 (Nat.ltb_ge i 6)) by lia. rewrite (proj2 (Nat.ltb_ge i ((ne + 2) * 3))) by lia. now rewrite (proj2 (Nat.leb_gt 6 j)) by lia.
      + intros i Hi. unfold vel_of, nrows in *. rewrite (proj2 (Nat.ltb_ge i 3)) by lia. rewrite (proj2 (Nat.ltb_ge i 6)) by lia. rewrite (proj2 (Nat.ltb_ge i ((ne + 2) * 3))) by lia. now rewrite (proj2 (Nat.ltb_ge i ((ne + 2) * 3 + (nv - 6)))) by lia.
      + exact I4.
  Qed.
  Lemma reach_inv : forall s, reach sq rb s -> inv s.
  Proof.
    induction 1 as [|s q dq _ IH|s st a x s' _ IH H].
    - repeat split; reflexivity.
    - destruct IH as (_ & I2 & I3 & I4). split; [reflexivity|]. split; [exact I2|]. split; [exact I3|exact I4].
    - pose proof (compute_pure s st a IH) as P. rewrite H in P. apply P.
  Qed.

  (** ** The cost *)
  Lemma weights_length : forall st a, List.length (weight_list rb st a) = (6 + List.length (a_contact a) * 3 + (nv - 6))%nat.
  Proof. intros. unfold weight_list. rewrite !app_length, !repeat_length, (flat3_length (a_contact a) (fun c => if Req_EM_T c 1 then w_contact st else w_track st)). lia. Qed.
  Lemma weights_low : forall st a i, (i < 3)%nat -> nth i (weight_list rb st a) 0 = w_lin st /\ nth (3 + i) (weight_list rb st a) 0 = w_ang st.
  Proof. intros st a i Hi. unfold weight_list. destruct i as [|[|[|]]]; [split; reflexivity..|lia]. Qed.
  Lemma weights_eff : forall st a e c, (e < List.length (a_contact a))%nat -> (c < 3)%nat -> nth (6 + (e * 3 + c)) (weight_list rb st a) 0 = if Req_EM_T (nth e (a_contact a) 0) 1 then w_contact st else w_track st.
  Proof.
    intros st a e c He Hc. unfold weight_list. rewrite app_nth2 by (rewrite repeat_length; lia). rewrite repeat_length. rewrite app_nth2 by (rewrite repeat_length; lia). rewrite repeat_length.
    rewrite app_nth1 by (rewrite (flat3_length (a_contact a) (fun c => if Req_EM_T c 1 then w_contact st else w_track st)); nia). replace (6 + (e * 3 + c) - 3 - 3)%nat with (e * 3 + c)%nat by lia.
    now rewrite (nth_repeat3 (a_contact a) (fun c => if Req_EM_T c 1 then w_contact st else w_track st)).
  Qed.
  Lemma weights_joint : forall st a j, List.length (a_contact a) = ne -> (j < nv - 6)%nat -> nth ((ne + 2) * 3 + j) (weight_list rb st a) 0 = w_joint st.
  Proof.
    intros st a j Hl Hj. unfold weight_list. rewrite app_nth2 by (rewrite repeat_length; lia). rewrite repeat_length. rewrite app_nth2 by (rewrite repeat_length; lia). rewrite repeat_length.
    rewrite app_nth2 by (rewrite (flat3_length (a_contact a) (fun c => if Req_EM_T c 1 then w_contact st else w_track st)); lia). rewrite (flat3_length (a_contact a) (fun c => if Req_EM_T c 1 then w_contact st else w_track st)).
    replace ((ne + 2) * 3 + j - 3 - 3 - List.length (a_contact a) * 3)%nat with j by lia.
    rewrite (nth_indep _ 0 (w_joint st)) by (rewrite repeat_length; exact Hj). apply nth_repeat.
  Qed.
  Lemma cost_rows : forall st a x, List.length (a_contact a) = ne ->
    rsum (nrows rb) (fun k => nth k (weight_list rb st a) 0 * (dotv nv (J_of (a_q a) k) x - vel_of st a k) ^ 2) + / 1000000 * rsum nv (fun i => x i ^ 2) = task_cost rb st a x.
  Proof.
    intros st a x Hl. unfold task_cost. cbv zeta. f_equal. unfold nrows. rewrite rsum_split.
    replace ((ne + 2) * 3)%nat with (6 + ne * 3)%nat by lia. rewrite rsum_split. replace 6%nat with (3 + 3)%nat at 1 by lia. rewrite rsum_split. f_equal; [f_equal; [f_equal|]|].
    - rewrite <- rsum_scal. apply rsum_ext. intros i Hi. destruct (weights_low st a i Hi) as (-> & _). f_equal. f_equal. unfold momentum_of, vel_of. rewrite (proj2 (Nat.ltb_lt i 3)) by lia. f_equal.
      apply dotv_ext. intros j _. unfold J_of. now rewrite (proj2 (Nat.ltb_lt i 6)) by lia.
    - rewrite <- rsum_scal. apply rsum_ext. intros i Hi. destruct (weights_low st a i Hi) as (_ & ->). f_equal. f_equal. unfold momentum_of, vel_of. rewrite (proj2 (Nat.ltb_ge (3 + i) 3)) by lia. rewrite (proj2 (Nat.ltb_lt (3 + i) 6)) by lia.
      replace (3 + i - 3)%nat with i by lia. f_equal. apply dotv_ext. intros j _. unfold J_of. now rewrite (proj2 (Nat.ltb_lt (3 + i) 6)) by lia.
    - rewrite rsum_blocks. apply rsum_ext. intros e He. rewrite <- rsum_scal. apply rsum_ext. intros c Hc. rewrite weights_eff by lia. f_equal. f_equal. unfold eff_velocity_of, vel_of.
      destruct (block_div e c Hc) as (B1 & B2).
      rewrite (proj2 (Nat.ltb_ge (6 + (e * 3 + c)) 3)) by lia. rewrite (proj2 (Nat.ltb_ge (6 + (e * 3 + c)) 6)) by lia. rewrite (proj2 (Nat.ltb_lt (6 + (e * 3 + c)) ((ne + 2) * 3))) by nia.
      replace (6 + (e * 3 + c) - 6)%nat with (e * 3 + c)%nat by lia. rewrite B1, B2. cbv zeta. f_equal.
      apply dotv_ext. intros j _. unfold J_of. rewrite (proj2 (Nat.ltb_ge (6 + (e * 3 + c)) 6)) by lia. rewrite (proj2 (Nat.ltb_lt (6 + (e * 3 + c)) ((ne + 2) * 3))) by nia.
      replace (6 + (e * 3 + c) - 6)%nat with (e * 3 + c)%nat by lia. now rewrite B1, B2.
    - rewrite <- rsum_scal. apply rsum_ext. intros j Hj. replace (6 + ne * 3)%nat with ((ne + 2) * 3)%nat by lia. rewrite weights_joint by assumption. f_equal. f_equal. unfold vel_of, nrows.
      rewrite (proj2 (Nat.ltb_ge ((ne + 2) * 3 + j) 3)) by lia. rewrite (proj2 (Nat.ltb_ge ((ne + 2) * 3 + j) 6)) by lia. rewrite (proj2 (Nat.ltb_ge ((ne + 2) * 3 + j) ((ne + 2) * 3))) by lia. rewrite (proj2 (Nat.ltb_lt ((ne + 2) * 3 + j) ((ne + 2) * 3 + (nv - 6)))) by lia.
      replace ((ne + 2) * 3 + j - (ne + 2) * 3)%nat with j by lia. unfold joint_ref. f_equal.
      unfold dotv. rewrite (rsum_single nv (6 + j)%nat) by (lia || (intros i Hi Ni; unfold J_of; rewrite (proj2 (Nat.ltb_ge ((ne + 2) * 3 + j) 6)) by lia; rewrite (proj2 (Nat.ltb_ge ((ne + 2) * 3 + j) ((ne + 2) * 3))) by lia;
        destruct (Nat.leb_spec 6 i); [|ring]; replace ((ne + 2) * 3 + j - (ne + 2) * 3)%nat with j by lia; destruct (Nat.eqb_spec j (i - 6)); [lia|ring])).
      unfold J_of. rewrite (proj2 (Nat.ltb_ge ((ne + 2) * 3 + j) 6)) by lia. rewrite (proj2 (Nat.ltb_ge ((ne + 2) * 3 + j) ((ne + 2) * 3))) by lia. rewrite (proj2 (Nat.leb_le 6 (6 + j))) by lia.
      replace ((ne + 2) * 3 + j - (ne + 2) * 3)%nat with j by lia. replace (6 + j - 6)%nat with j by lia. rewrite Nat.eqb_refl. ring.
  Qed.
  Lemma hessian_sym : forall J w, symmetric nv (pa (hessian rb J w)).
  Proof. intros J w i j _ _. cbn. f_equal; [apply rsum_ext; intros; ring|]. now rewrite Nat.eqb_sym. Qed.
  Lemma hessian_pd : forall J w, (forall k, (k < nrows rb)%nat -> 0 <= w k) -> positive_definite nv (pa (hessian rb J w)).
  Proof.
    intros J w Hw x (i & Hi & Nz). pose proof (least_squares nv (nrows rb) J w (fun _ => 0) (/ 1000000) x) as L. unfold qobj in L.
    assert (Z : dotv nv (fun i : nat => - rsum (nrows rb) (fun k : nat => J k i * w k * 0)) x = 0).
    { unfold dotv. apply rsum_zero. intros j _. rewrite rsum_zero; [ring|]. intros. ring. }
    rewrite Z in L. assert (Z2 : rsum (nrows rb) (fun k => w k * 0 ^ 2) = 0) by (apply rsum_zero; intros; ring). rewrite Z2 in L.
    assert (P1 : 0 <= rsum (nrows rb) (fun k => w k * (dotv nv (J k) x - 0) ^ 2)) by (apply rsum_nonneg; intros k Hk; apply Rmult_le_pos; [now apply Hw|apply pow2_ge_0]).
    assert (P2 : 0 < rsum nv (fun i => x i ^ 2)).
    { destruct (Rle_lt_or_eq_dec 0 (rsum nv (fun i => x i ^ 2))) as [|E]; [apply rsum_nonneg; intros; apply pow2_ge_0|assumption|]. exfalso. apply Nz. apply (rsum_sq_zero nv x); [|exact Hi]. rewrite E. apply rsum_ext. intros. ring. }
    cbn [pa hessian]. lra.
  Qed.
  Lemma flight_feasible : forall a x, a_flight a = true -> (qp_feasible nv None None (Some (PM 6 nv (J_of (a_q a)))) (Some (PV 6 (mom_of a))) x <-> admissible rb a x).
  Proof.
    intros a x F. unfold qp_feasible, admissible. split.
    - intros (_ & H) _ i Hi. specialize (H _ _ eq_refl eq_refl). cbn [pr pa pe] in H. split.
      + specialize (H i ltac:(lia)). unfold mom_of in H. rewrite (proj2 (Nat.ltb_lt i 3)) in H by lia. rewrite <- H. unfold momentum_of. apply dotv_ext. intros j _. unfold J_of. now rewrite (proj2 (Nat.ltb_lt i 6)) by lia.
      + specialize (H (3 + i)%nat ltac:(lia)). unfold mom_of in H. rewrite (proj2 (Nat.ltb_ge (3 + i) 3)) in H by lia. rewrite (proj2 (Nat.ltb_lt (3 + i) 6)) in H by lia. replace (3 + i - 3)%nat with i in H by lia. rewrite <- H. unfold momentum_of. apply dotv_ext. intros j _. unfold J_of. now rewrite (proj2 (Nat.ltb_lt (3 + i) 6)) by lia.
    - intros H. split; [discriminate|]. intros A0 b0 E1 E2 i Hi. injection E1 as <-. injection E2 as <-. cbn [pr pa pe] in *.
      assert (X : dotv nv (J_of (a_q a) i) x = momentum_of rb (a_q a) x i) by (apply dotv_ext; intros j _; unfold J_of; now rewrite (proj2 (Nat.ltb_lt i 6)) by lia).
      rewrite X. unfold mom_of. destruct (Nat.ltb_spec i 3) as [L|L]; [now apply H|]. rewrite (proj2 (Nat.ltb_lt i 6)) by lia. destruct (H F (i - 3)%nat ltac:(lia)) as (_ & H2). rewrite <- H2. f_equal. lia.
  Qed.
End Pure.

(** The cost handed to the quadratic program is the cost of the task; runs never fail an assertion. *)
From Coq Require Import Reals List Arith Bool Lia Lra.
Import ListNotations.
From Verif Require Import Base BaseProofs RtMatModel RtMatProofs HierModel HierSpec HierProofs HierProofs2.
Local Open Scope R_scope.

Lemma block_cost : forall diag dz dw (B : option (mat * vec)) v,
  qp_cost (cost_H diag dz dw (option_map fst B) true) (cost_g dz dw B) v =
  (match B with Some (b, r) => rsum (nr b) (fun k => (rsum dz (fun j => ma b k j * va v j) + va r k) * (rsum dz (fun j => ma b k j * va v j) + va r k)) - rsum (nr b) (fun k => va r k * va r k) | None => 0 end)
  + rsum dw (fun m => va v (dz + m)%nat * va v (dz + m)%nat) + diag * (rsum dz (fun i => va v i * va v i) + rsum dw (fun m => va v (dz + m)%nat * va v (dz + m)%nat)).
Proof.
  intros diag dz dw B v. unfold qp_cost. cbn [cost_H nr ma cost_g va].
  set (q := fun i j => match option_map fst B with Some b => if ((i <? dz) && (j <? dz))%nat then rsum (nr b) (fun k => ma b k i * ma b k j) else 0 | None => 0 end).
  assert (E1 : rsum (dz + dw) (fun i => rsum (dz + dw) (fun j => va v i * (q i j + (if ((dz <=? i) && (dz <=? j) && (i =? j))%nat then 1 else 0) + (if (i =? j)%nat then diag else 0)) * va v j))
     = rsum dz (fun i => rsum dz (fun j => va v i * q i j * va v j)) + rsum dw (fun m => va v (dz + m)%nat * va v (dz + m)%nat) + diag * (rsum dz (fun i => va v i * va v i) + rsum dw (fun m => va v (dz + m)%nat * va v (dz + m)%nat))).
  { rewrite (rsum_ext (dz + dw) _ (fun i => rsum (dz + dw) (fun j => va v i * q i j * va v j) + ((if (dz <=? i)%nat then va v i * va v i else 0) + diag * (va v i * va v i)))).
    - rewrite rsum_plus, rsum_plus. rewrite rsum_scal. rewrite !(rsum_split dz dw).
      replace (rsum dz (fun i => if (dz <=? i)%nat then va v i * va v i else 0)) with 0 by (symmetry; apply rsum_zero; intros i Hi; destruct (Nat.leb_spec dz i); [lia|reflexivity]).
      rewrite (rsum_ext dw (fun i => if (dz <=? dz + i)%nat then va v (dz + i)%nat * va v (dz + i)%nat else 0) (fun i => va v (dz + i)%nat * va v (dz + i)%nat)) by (intros i Hi; destruct (Nat.leb_spec dz (dz + i)); [reflexivity|lia]).
      rewrite (rsum_zero dw (fun i => rsum (dz + dw) (fun j => va v (dz + i)%nat * q (dz + i)%nat j * va v j))).
      + rewrite (rsum_ext dz (fun i => rsum (dz + dw) (fun j => va v i * q i j * va v j)) (fun i => rsum dz (fun j => va v i * q i j * va v j))); [ring|].
        intros i Hi. rewrite rsum_split. rewrite (rsum_zero dw); [ring|]. intros j Hj. unfold q. destruct (option_map fst B); [|ring]. destruct (Nat.ltb_spec (dz + j) dz); [lia|]. rewrite andb_false_r. ring.
      + intros i Hi. apply rsum_zero. intros j Hj. unfold q. destruct (option_map fst B); [|ring]. destruct (Nat.ltb_spec (dz + i) dz); [lia|]. cbn [andb]. ring.
    - intros i Hi. rewrite (rsum_ext (dz + dw) _ (fun j => va v i * q i j * va v j + va v i * ((if ((dz <=? i) && (dz <=? j) && (i =? j))%nat then 1 else 0) + (if (i =? j)%nat then diag else 0)) * va v j)) by (intros; ring).
      rewrite rsum_plus. f_equal. rewrite (rsum_single (dz + dw) i); [|exact Hi|].
      + rewrite Nat.eqb_refl. destruct (Nat.leb_spec dz i); cbn [andb]; ring.
      + intros j Hj N. rewrite (proj2 (Nat.eqb_neq i j)) by lia. rewrite andb_false_r. ring. }
  unfold q in E1 at 1. rewrite E1. clear E1. destruct B as [[b r]|]; cbn [option_map fst] in *.
  - assert (E2 : rsum dz (fun i => rsum dz (fun j => va v i * q i j * va v j)) = rsum (nr b) (fun k => rsum dz (fun j => ma b k j * va v j) * rsum dz (fun j => ma b k j * va v j))).
    { rewrite (rsum_ext dz _ (fun i => rsum (nr b) (fun k => (ma b k i * va v i) * rsum dz (fun j => ma b k j * va v j)))).
      - rewrite rsum_swap. apply rsum_ext; intros k Hk. now rewrite rsum_scal_r.
      - intros i Hi. rewrite (rsum_ext dz _ (fun j => rsum (nr b) (fun k => (ma b k i * va v i) * (ma b k j * va v j)))).
        + rewrite rsum_swap. apply rsum_ext; intros k Hk. now rewrite rsum_scal.
        + intros j Hj. unfold q. destruct (Nat.ltb_spec i dz); [|lia]. destruct (Nat.ltb_spec j dz); [|lia]. cbn [andb].
          rewrite <- rsum_scal, <- rsum_scal_r. apply rsum_ext; intros; ring. }
    assert (E3 : rsum (dz + dw) (fun i => (if (i <? dz)%nat then rsum (nr b) (fun k => ma b k i * va r k) else 0) * va v i) = rsum (nr b) (fun k => rsum dz (fun j => ma b k j * va v j) * va r k)).
    { rewrite rsum_split. rewrite (rsum_zero dw) by (intros i Hi; destruct (Nat.ltb_spec (dz + i) dz); [lia|ring]). rewrite Rplus_0_r.
      rewrite (rsum_ext dz _ (fun i => rsum (nr b) (fun k => ma b k i * va v i * va r k))).
      - rewrite rsum_swap. apply rsum_ext; intros k Hk. now rewrite rsum_scal_r.
      - intros i Hi. destruct (Nat.ltb_spec i dz); [|lia]. rewrite <- rsum_scal_r. apply rsum_ext; intros; ring. }
    rewrite E2, E3.
    rewrite (rsum_ext (nr b) (fun k => (rsum dz (fun j => ma b k j * va v j) + va r k) * (rsum dz (fun j => ma b k j * va v j) + va r k))
      (fun k => (rsum dz (fun j => ma b k j * va v j) * rsum dz (fun j => ma b k j * va v j) + 2 * (rsum dz (fun j => ma b k j * va v j) * va r k)) + va r k * va r k)) by (intros; ring).
    rewrite !rsum_plus, rsum_scal. ring.
  - rewrite (rsum_zero dz (fun i => rsum dz (fun j => va v i * q i j * va v j))) by (intros; apply rsum_zero; intros; unfold q; ring).
    rewrite (rsum_zero (dz + dw)) by (intros; ring). ring.
Qed.

Section HP3.
Variable nullmap : mat -> mat.
Variable qp : mat -> vec -> mat -> vec -> option vec.
Variable least_norm : mat -> vec -> vec.
Variable relax diag : R.
Variable capA capB : nat.
Notation h_task := (h_task nullmap qp least_norm relax diag capA capB).
Notation h_run := (h_run nullmap qp least_norm relax diag capA capB).
Notation after := (after nullmap qp least_norm relax diag).
Notation newz := (newz qp least_norm relax diag).
Notation newa := (newa relax).
Notation sol := (sol qp relax diag).
Notation dims := (dims nullmap).
Notation ok_task := (ok_task capA capB).
Hypothesis null_rows : forall B, nr (nullmap B) = nc B.

(** What a QP answer for the task means in the original variables. *)
Definition as_qp_vec (dz : nat) (z w : vec) : vec := Vec (dz + vn w) (fun i => if (i <? dz)%nat then va z i else va w (i - dz)%nat).
Lemma newA_new_row : forall n s t i j, dims n s -> ok_task n s t -> (i < nr (t_C t))%nat -> (j < nc (Neff s))%nat ->
  ma (newA s t) (nr (Aeff s) + i) j = rsum n (fun l => ma (t_C t) i l * ma (Neff s) l j).
Proof.
  intros n s t i j D O Hi Hj. destruct O as (_ & _ & O3 & _). destruct O3 as [O3|[O3 _]]; [lia|].
  unfold newA. destruct (Nat.eqb_spec (nr (t_C t)) 0); [lia|]. cbn [ma]. destruct (Nat.ltb_spec (nr (Aeff s) + i) (nr (Aeff s))); [lia|].
  replace (nr (Aeff s) + i - nr (Aeff s))%nat with i by lia. now rewrite O3.
Qed.
Lemma newa_new_row : forall n s t i, dims n s -> ok_task n s t -> (i < nr (t_C t))%nat ->
  va (newa s t) (nr (Aeff s) + i) = rowval (t_C t) (t_c t) i n (h_x s).
Proof.
  intros n s t i D O Hi. destruct (Neff_cols nullmap n s D) as (C1 & C2 & C3 & C4). pose proof D as (D1 & D2 & D3 & D4 & _). destruct O as (_ & _ & O3 & _). destruct O3 as [O3|[O3 _]]; [lia|].
  rewrite C4, D4. unfold HierProofs.newa. destruct (Nat.eqb_spec (nr (t_C t)) 0); [lia|]. cbn [va]. rewrite aclip_len. destruct (Nat.ltb_spec (vn (h_a s) + i) (vn (h_a s))); [lia|].
  replace (vn (h_a s) + i - vn (h_a s))%nat with i by lia. unfold rowval. now rewrite O3.
Qed.
Lemma feasible_iff : forall n s t z w, dims n s -> ok_task n s t -> vn w = nr (t_C t) ->
  (qp_feasible (con_A (newA s t) (nc (Neff s)) (nr (t_C t))) (newa s t) (as_qp_vec (nc (Neff s)) z w) <->
   (forall i, (i < nr (h_A s))%nat -> row_value (newA s t) (newa s t) i z <= 0) /\
   (forall i, (i < nr (t_C t))%nat -> rowval (t_C t) (t_c t) i n (move (h_x s) (Neff s) z) + va w i <= 0)).
Proof.
  intros n s t z w D O Hw. destruct (Neff_cols nullmap n s D) as (C1 & C2 & C3 & C4).
  assert (K : forall i, (i < nr (newA s t))%nat -> row_value (con_A (newA s t) (nc (Neff s)) (nr (t_C t))) (newa s t) i (as_qp_vec (nc (Neff s)) z w) =
     rsum (nc (Neff s)) (fun j => ma (newA s t) i j * va z j) + (if (nr (Aeff s) <=? i)%nat then va w (i - nr (Aeff s))%nat else 0) + va (newa s t) i).
  { intros i Hi. unfold row_value. cbn [con_A nc]. rewrite con_row by (rewrite ?newA_rows in *; lia). rewrite newA_rows. replace (nr (Aeff s) + nr (t_C t) - nr (t_C t))%nat with (nr (Aeff s)) by lia.
    f_equal. f_equal.
    - apply rsum_ext; intros j Hj. cbn [as_qp_vec va]. destruct (Nat.ltb_spec j (nc (Neff s))); [reflexivity|lia].
    - destruct (Nat.leb_spec (nr (Aeff s)) i); [|reflexivity]. cbn [as_qp_vec va]. destruct (Nat.ltb_spec (nc (Neff s) + (i - nr (Aeff s))) (nc (Neff s))); [lia|]. f_equal. lia. }
  assert (R : forall i, (i < nr (t_C t))%nat -> row_value (con_A (newA s t) (nc (Neff s)) (nr (t_C t))) (newa s t) (nr (Aeff s) + i) (as_qp_vec (nc (Neff s)) z w) = rowval (t_C t) (t_c t) i n (move (h_x s) (Neff s) z) + va w i).
  { intros i Hi. rewrite K by (rewrite newA_rows; lia). destruct (Nat.leb_spec (nr (Aeff s)) (nr (Aeff s) + i)); [|lia]. replace (nr (Aeff s) + i - nr (Aeff s))%nat with i by lia.
    rewrite (newa_new_row n) by assumption. unfold move. rewrite (move_val n (t_C t) (t_c t) i s (ma (newA s t) (nr (Aeff s) + i)) z) by (intros; now apply newA_new_row). ring. }
  split.
  - intros F. split; intros i Hi.
    + specialize (F i ltac:(cbn [con_A nr]; rewrite newA_rows; lia)). rewrite K in F by (rewrite newA_rows; lia). destruct (Nat.leb_spec (nr (Aeff s)) i); [lia|]. unfold row_value. rewrite newA_cols, C3. lra.
    + specialize (F (nr (Aeff s) + i)%nat ltac:(cbn [con_A nr]; rewrite newA_rows; lia)). now rewrite R in F.
  - intros [F1 F2] i Hi. cbn [con_A nr] in Hi. rewrite newA_rows in Hi. destruct (Nat.lt_ge_cases i (nr (Aeff s))) as [L|L].
    + rewrite K by (rewrite newA_rows; lia). destruct (Nat.leb_spec (nr (Aeff s)) i); [lia|]. specialize (F1 i ltac:(lia)). unfold row_value in F1. rewrite newA_cols, C3 in F1. lra.
    + replace i with (nr (Aeff s) + (i - nr (Aeff s)))%nat by lia. rewrite R by lia. apply F2. lia.
Qed.
Lemma cost_is_task_cost : forall n s t z w, dims n s -> ok_task n s t -> vn w = nr (t_C t) -> vn z = nc (Neff s) ->
  qp_cost (cost_H diag (nc (Neff s)) (nr (t_C t)) (option_map fst (resid s t)) true) (cost_g (nc (Neff s)) (nr (t_C t)) (resid s t)) (as_qp_vec (nc (Neff s)) z w) =
  task_cost diag t (move (h_x s) (Neff s) z) z w - rsum (nr (t_E t)) (fun i => equality_residual t i (h_x s) * equality_residual t i (h_x s)).
Proof.
  intros n s t z w D O Hw Hz. rewrite block_cost. unfold task_cost, sq_norm. rewrite Hw, Hz. set (dz := nc (Neff s)) in *.
  rewrite !(rsum_ext (nr (t_C t)) (fun m => va (as_qp_vec dz z w) (dz + m) * va (as_qp_vec dz z w) (dz + m)) (fun i => va w i * va w i)).
  2: { intros m Hm. cbn [as_qp_vec va]. destruct (Nat.ltb_spec (dz + m) dz); [lia|]. now replace (dz + m - dz)%nat with m by lia. }
  rewrite !(rsum_ext dz (fun m => va (as_qp_vec dz z w) m * va (as_qp_vec dz z w) m) (fun i => va z i * va z i)).
  2: { intros m Hm. cbn [as_qp_vec va]. destruct (Nat.ltb_spec m dz); [reflexivity|lia]. }
  match goal with |- ?a + ?b + ?c = ?d + ?b + ?c - ?e => assert (X : a = d - e); [|rewrite X; ring] end.
  destruct O as (_ & O2 & _). unfold resid. destruct (Nat.eqb_spec (nr (t_E t)) 0) as [E0|E0]; [rewrite E0; cbn; ring|]. destruct O2 as [O2|[O2 O2b]]; [congruence|].
  assert (RB : nr (newB s t) = nr (t_E t)) by (unfold newB; destruct (Nat.eqb_spec (nr (t_E t)) 0); [congruence|reflexivity]).
  rewrite RB. f_equal.
  - apply rsum_ext; intros k Hk. assert (V : rsum dz (fun j => ma (newB s t) k j * va (as_qp_vec dz z w) j) + va {| vn := vn (t_e t); va := fun i => va (t_e t) i + rsum (nc (t_E t)) (fun k0 => ma (t_E t) i k0 * va (h_x s) k0) |} k
        = equality_residual t k (move (h_x s) (Neff s) z)).
    { unfold equality_residual, row_value. rewrite O2. pose proof (move_val n (t_E t) (t_e t) k s (ma (newB s t) k) z) as M. unfold rowval in M. unfold move. rewrite M.
      - cbn [va]. rewrite (rsum_ext dz (fun j => ma (newB s t) k j * va (as_qp_vec dz z w) j) (fun j => ma (newB s t) k j * va z j)); [fold dz; ring|]. intros j Hj. cbn [as_qp_vec va]. destruct (Nat.ltb_spec j dz); [reflexivity|lia].
      - intros j Hj. unfold newB. destruct (Nat.eqb_spec (nr (t_E t)) 0); [congruence|]. cbn [ma]. now rewrite O2. }
    now rewrite V.
  - apply rsum_ext; intros k Hk. unfold equality_residual, row_value. cbn [va]. ring.
Qed.
Lemma qp_vec_split : forall dz dw v i, (i < dz + dw)%nat -> va (as_qp_vec dz (Vec dz (va v)) (Vec dw (fun i => va v (dz + i)%nat))) i = va v i.
Proof. intros. cbn [as_qp_vec va]. destruct (Nat.ltb_spec i dz); [reflexivity|]. f_equal. lia. Qed.
Lemma qp_cost_ext : forall H g v v', (forall i, (i < nr H)%nat -> va v i = va v' i) -> qp_cost H g v = qp_cost H g v'.
Proof.
  intros H g v v' E. unfold qp_cost. f_equal; [|f_equal]; apply rsum_ext; intros i Hi; [apply rsum_ext; intros j Hj; now rewrite !E by assumption|now rewrite E by assumption].
Qed.
Lemma qp_feas_ext : forall A a v v', (forall i, (i < nc A)%nat -> va v i = va v' i) -> qp_feasible A a v -> qp_feasible A a v'.
Proof. intros A a v v' E F i Hi. specialize (F i Hi). unfold row_value in *. rewrite (rsum_ext _ _ (fun k => ma A i k * va v k)); [exact F|]. intros; now rewrite E by assumption. Qed.

Lemma task_optimal : forall n s0 t s1, exact_qp qp -> dims n s0 -> h_task s0 t = Ok (s1, true) -> t_slack t = true -> early s0 t = false ->
  exists z w, vn z = nc (h_N s1) /\ vn w = nr (t_C t) /\ h_x s1 = move (h_x s0) (h_N s1) z /\
    (forall i, (i < nr (h_A s0))%nat -> row_value (h_A s1) (h_a s1) i z <= 0) /\ (forall i, (i < nr (t_C t))%nat -> rowval (t_C t) (t_c t) i n (h_x s1) + va w i <= 0) /\
    forall z' w', vn z' = nc (h_N s1) -> vn w' = nr (t_C t) ->
      (forall i, (i < nr (h_A s0))%nat -> row_value (h_A s1) (h_a s1) i z' <= 0) -> (forall i, (i < nr (t_C t))%nat -> rowval (t_C t) (t_c t) i n (move (h_x s0) (h_N s1) z') + va w' i <= 0) ->
      task_cost diag t (h_x s1) z w <= task_cost diag t (move (h_x s0) (h_N s1) z') z' w'.
Proof.
  intros n s t s1 Q D H Hs He. destruct (h_task_cases nullmap qp least_norm relax diag capA capB n s t s1 true D H) as [(E & _)|(_ & O & Hz & -> & Hb)]; [congruence|].
  rewrite Hs in Hb. destruct (sol s t) as [v|] eqn:E; [|discriminate]. clear Hb.
  assert (Zv : newz s t = Vec (nc (Neff s)) (va v)) by (unfold HierProofs.newz; now rewrite Hs, E).
  unfold HierProofs.sol in E. rewrite Hs in E. destruct (Q _ _ _ _ _ E) as [F Op]. set (dz := nc (Neff s)) in *. set (dw := nr (t_C t)) in *.
  set (z := Vec dz (va v)). set (w := Vec dw (fun i => va v (dz + i)%nat)).
  assert (Ev : forall i, (i < dz + dw)%nat -> va v i = va (as_qp_vec dz z w) i) by (intros; symmetry; now apply qp_vec_split).
  apply (qp_feas_ext _ _ v (as_qp_vec dz z w)) in F; [|intros i Hi; apply Ev; exact Hi].
  apply (feasible_iff n s t z w D O eq_refl) in F. destruct F as [F1 F2].
  assert (X : h_x (after s t) = move (h_x s) (Neff s) z) by (cbn [HierProofs.after h_x]; rewrite Zv; reflexivity).
  exists z, w. cbn [HierProofs.after h_N h_A h_a]. fold (after s t). repeat split; auto.
  - intros i Hi. specialize (F2 i Hi). cbn [HierProofs.after h_x]. rewrite Zv. exact F2.
  - intros z' w' Hz' Hw' G1 G2. cbn [HierProofs.after h_x]. rewrite Zv.
    assert (G : qp_feasible (con_A (newA s t) dz dw) (newa s t) (as_qp_vec dz z' w')) by (apply (feasible_iff n s t z' w' D O Hw'); auto).
    apply Op in G. rewrite (qp_cost_ext _ _ v (as_qp_vec dz z w)) in G by (intros i Hi; apply Ev; exact Hi).
    unfold dz, dw in G. rewrite (cost_is_task_cost n s t z w D O eq_refl eq_refl), (cost_is_task_cost n s t z' w' D O Hw' Hz') in G. fold (move (h_x s) (Neff s) z). unfold move in *. fold z. lra.
Qed.

Lemma task_rows : forall n s t s' b, dims n s -> h_task s t = Ok (s', b) -> (nr (h_A s') <= nr (h_A s) + nr (t_C t))%nat.
Proof.
  intros n s t s' b D H. destruct (h_task_cases nullmap qp least_norm relax diag capA capB n s t s' b D H) as [(_ & -> & _)|(_ & O & Hz & -> & _)]; [lia|].
  cbn [HierProofs.after h_A]. rewrite newA_rows. destruct (Neff_cols nullmap n s D) as (_ & _ & _ & ->). lia.
Qed.
Lemma wf_ok : forall n s t, well_formed n capB t -> (nr (h_A s) + nr (t_C t) <= capA)%nat -> ok_task n s t.
Proof. intros n s t (A & B & C & E & F) H. unfold HierProofs.ok_task. repeat split; auto; right; auto. Qed.
Lemma run_ok : forall n ts s, dims n s -> Forall (well_formed n capB) ts -> (forall t, In t ts -> t_slack t = true) -> (nr (h_A s) + inequality_rows ts <= capA)%nat ->
  exists s', h_run ts s = Ok s'.
Proof.
  intros n ts. induction ts as [|t ts IH]; intros s D W Hs Hc; [exists s; reflexivity|].
  inversion W as [|? ? W1 W2]; subst. cbn [inequality_rows fold_right] in Hc. fold (inequality_rows ts) in Hc.
  assert (O : ok_task n s t) by (apply wf_ok; [exact W1|lia]).
  assert (X : exists s1 b, h_task s t = Ok (s1, b)).
  { rewrite (h_task_eq nullmap qp least_norm relax diag capA capB n s t D O). destruct (early s t); [eauto|]. unfold HierProofs.newz. rewrite (Hs t (or_introl eq_refl)).
    destruct (sol s t); cbn [vn v_zero]; rewrite Nat.eqb_refl; cbn; eauto. }
  destruct X as (s1 & b & X). pose proof (task_rows n s t s1 b D X).
  destruct (IH s1) as [s' Hs']; [eapply dims_task; eassumption|exact W2|intros; apply Hs; now right|lia|].
  exists s'. unfold HierModel.h_run in *. cbn [foldM]. rewrite X. cbn. exact Hs'.
Qed.
End HP3.

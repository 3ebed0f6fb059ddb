(** * Proofs for C09 *)
From Coq Require Import Reals List Arith Bool Lia Lra.
From Verif Require Import ConicModel ConicSpec EqModel EqSpec.
Import ListNotations.
Open Scope R_scope.

Definition epos (E : evec) : Prop := (forall i, 0 < e_x E i) /\ (forall i, 0 < e_y E i) /\ (forall i, 0 < e_z E i).
(** Constant on the second-order cone blocks. *)
Fixpoint blockconst (z : nat -> R) (start : nat) (q : list nat) : Prop :=
  match q with
  | [] => True
  | n :: q' => (forall j, (j < n)%nat -> z (start + j)%nat = z start) /\ blockconst z (start + n) q'
  end.

Lemma eq_factor_pos e : 0 <= e -> 0 < eq_factor e.
Proof.
  intros H. unfold eq_factor. destruct (Rlt_dec (Rabs e) (1/1000000)); [lra|].
  apply sqrt_lt_R0. rewrite Rabs_right in n by lra. lra.
Qed.
Lemma max_row_nonneg m row r : (forall i, 0 <= row i) -> 0 <= max_row m row r.
Proof.
  intros H. unfold max_row. induction m as [|[[r' c'] v] m IH]; simpl; [apply H|].
  destruct (Nat.eqb r' r); [|exact IH]. eapply Rle_trans; [apply Rabs_pos|apply Rmax_l].
Qed.
Lemma max_col_nonneg m col c : (forall i, 0 <= col i) -> 0 <= max_col m col c.
Proof.
  intros H. unfold max_col. destruct (existsb _ m); [|apply H].
  induction m as [|[[r' c'] v] m IH]; simpl; [lra|].
  destruct (Nat.eqb c' c); [|exact IH]. eapply Rle_trans; [apply Rabs_pos|apply Rmax_l].
Qed.
Lemma sum_block_nonneg z st n : (forall i, 0 <= z i) -> 0 <= sum_block z st n.
Proof. intros H. unfold sum_block. induction (seq 0 n); simpl; [lra|]. specialize (H (st + a)%nat). lra. Qed.
Lemma soc_sum_nonneg q : forall st z, (forall i, 0 <= z i) -> forall i, 0 <= soc_sum st q z i.
Proof.
  induction q as [|n q IH]; intros st z H i; simpl; [apply H|]. apply IH. intros j.
  destruct (_ && _); [apply sum_block_nonneg; exact H|apply H].
Qed.
Lemma soc_sum_before q : forall st z j, (j < st)%nat -> soc_sum st q z j = z j.
Proof.
  induction q as [|n q IH]; intros st z j Hj; simpl; [reflexivity|]. rewrite IH by lia.
  destruct (Nat.leb_spec st j); [lia|reflexivity].
Qed.
Lemma soc_sum_blockconst q : forall st z, Forall (fun n => (1 <= n)%nat) q -> blockconst (soc_sum st q z) st q.
Proof.
  induction q as [|n q IH]; intros st z HF; simpl; [exact I|]. inversion HF; subst. split; [|apply IH; assumption].
  intros j Hj. rewrite !soc_sum_before by lia.
  destruct (Nat.leb_spec st (st + j)), (Nat.ltb_spec (st + j) (st + n)), (Nat.leb_spec st st), (Nat.ltb_spec st (st + n)); simpl; try lia; reflexivity.
Qed.
Lemma blockconst_map f z st q : blockconst z st q -> blockconst (fun i => f (z i)) st q.
Proof. revert st; induction q as [|n q IH]; intros st; simpl; [auto|]. intros [A B]. split; [intros j Hj; now rewrite A|apply IH, B]. Qed.
Lemma blockconst_mul z w st q : blockconst z st q -> blockconst w st q -> blockconst (fun i => z i * w i) st q.
Proof. revert st; induction q as [|n q IH]; intros st; simpl; [auto|]. intros [A B] [C D]. split; [intros j Hj; now rewrite A, C|apply IH; assumption]. Qed.
Lemma blockconst_const k st q : blockconst (fun _ => k) st q.
Proof. revert st; induction q as [|n q IH]; intros st; simpl; auto. Qed.

Lemma ruiz_step_spec nl q A G E : Forall (fun n => (1 <= n)%nat) q -> epos E -> blockconst (e_z E) nl q ->
  exists F, ruiz_step nl q (A, G, E) =
     (equilibrateRowsCols (e_y F) (e_x F) A, equilibrateRowsCols (e_z F) (e_x F) G,
      mkE (fun i => e_x E i * e_x F i) (fun i => e_y E i * e_y F i) (fun i => e_z E i * e_z F i)) /\
     epos F /\ blockconst (e_z F) nl q.
Proof.
  intros HQ HE HB. unfold ruiz_step.
  set (z0 := fun _ : nat => 0).
  assert (P : exists ty tx, match A with [] => (z0, z0) | _ => maxRowsCols A (z0, z0) end = (ty, tx) /\ (forall i, 0 <= ty i) /\ (forall i, 0 <= tx i)).
  { destruct A as [|a A]; [exists z0, z0; repeat split; intros; unfold z0; lra|].
    exists (max_row (a :: A) z0), (max_col (a :: A) z0). split; [reflexivity|].
    split; intros i; [apply max_row_nonneg|apply max_col_nonneg]; intros; unfold z0; lra. }
  destruct P as (ty & tx & -> & P1 & P2).
  assert (Q : exists tz tx', match G with [] => (z0, tx) | _ => maxRowsCols G (z0, tx) end = (tz, tx') /\ (forall i, 0 <= tz i) /\ (forall i, 0 <= tx' i)).
  { destruct G as [|g G]; [exists z0, tx; repeat split; auto; intros; unfold z0; lra|].
    exists (max_row (g :: G) z0), (max_col (g :: G) tx). split; [reflexivity|].
    split; intros i; [apply max_row_nonneg; intros; unfold z0; lra|apply max_col_nonneg; auto]. }
  destruct Q as (tz & tx' & -> & Q1 & Q2).
  exists (mkE (fun i => eq_factor (tx' i)) (fun i => eq_factor (ty i)) (fun i => eq_factor (soc_sum nl q tz i))).
  split; [reflexivity|]. split.
  - repeat split; intros i; simpl; apply eq_factor_pos; auto. apply soc_sum_nonneg; auto.
  - cbn [e_z]. apply (blockconst_map eq_factor), soc_sum_blockconst, HQ.
Qed.

(** The accumulated effect of the loop. *)
Definition scaled_by (E : evec) (A0 G0 A G : mat) : Prop :=
  A = equilibrateRowsCols (e_y E) (e_x E) A0 /\ G = equilibrateRowsCols (e_z E) (e_x E) G0.

Lemma equilibrate_twice r1 c1 r2 c2 m : (forall i, 0 < r1 i) -> (forall i, 0 < c1 i) -> (forall i, 0 < r2 i) -> (forall i, 0 < c2 i) ->
  equilibrateRowsCols r2 c2 (equilibrateRowsCols r1 c1 m) = equilibrateRowsCols (fun i => r1 i * r2 i) (fun i => c1 i * c2 i) m.
Proof.
  intros H1 H2 H3 H4. unfold equilibrateRowsCols. rewrite map_map. apply map_ext. intros [[r c] v]. f_equal.
  field. specialize (H1 r). specialize (H2 c). specialize (H3 r). specialize (H4 c). repeat split; lra.
Qed.

Lemma ruiz_loop_spec iters nl q : Forall (fun n => (1 <= n)%nat) q -> forall A0 G0 A G E,
  epos E -> blockconst (e_z E) nl q -> scaled_by E A0 G0 A G ->
  exists A' G' E', ruiz_loop iters nl q (A, G, E) = (A', G', E') /\ epos E' /\ blockconst (e_z E') nl q /\ scaled_by E' A0 G0 A' G'.
Proof.
  intros HQ. induction iters as [|k IH]; intros A0 G0 A G E HE HB HS.
  - exists A, G, E. simpl. auto.
  - cbn [ruiz_loop]. destruct (ruiz_step_spec nl q A G E HQ HE HB) as (F & -> & (F1 & F2 & F3) & FB).
    destruct HE as (E1 & E2 & E3). destruct HS as [-> ->].
    apply IH.
    + repeat split; intros i; simpl; apply Rmult_lt_0_compat; auto.
    + simpl. apply blockconst_mul; assumption.
    + split; cbn [e_x e_y e_z]; rewrite equilibrate_twice by auto; reflexivity.
Qed.

Lemma equilibrate_id m : equilibrateRowsCols (fun _ => 1) (fun _ => 1) m = m.
Proof. unfold equilibrateRowsCols. rewrite <- map_id. apply map_ext. intros [[r c] v]. f_equal. field. Qed.

Lemma set_equilibration_spec iters nl q s : Forall (fun n => (1 <= n)%nat) q ->
  exists E, set_equilibration iters nl q s =
     (mkS (s_n s) (s_me s) (s_m s) (equilibrateRowsCols (e_y E) (e_x E) (s_A s)) (fun i => s_b s i / e_y E i)
          (equilibrateRowsCols (e_z E) (e_x E) (s_G s)) (fun i => s_h s i / e_z E i) (fun i => s_c s i / e_x E i) (s_ok s), E) /\
    epos E /\ blockconst (e_z E) nl q.
Proof.
  intros HQ. unfold set_equilibration.
  destruct (ruiz_loop_spec iters nl q HQ (s_A s) (s_G s) (s_A s) (s_G s) (mkE (fun _ => 1) (fun _ => 1) (fun _ => 1))) as (A' & G' & E' & H & P & B & [-> ->]).
  - repeat split; intros; simpl; lra.
  - apply (blockconst_const 1).
  - split; cbn [e_x e_y e_z]; now rewrite equilibrate_id.
  - unfold mat in *. rewrite H. exists E'. repeat split; auto; apply P.
Qed.

(** ** Products *)
Lemma matvec_equil row col m x r : (forall i, 0 < row i) -> (forall i, 0 < col i) ->
  matvec (equilibrateRowsCols row col m) x r = matvec m (fun c => x c / col c) r / row r.
Proof.
  intros Hr Hc. unfold matvec, equilibrateRowsCols. rewrite map_map. unfold sumR.
  induction m as [|[[r' c'] v] m IH]; simpl; [field; specialize (Hr r); lra|].
  rewrite IH. destruct (Nat.eqb_spec r' r) as [->|].
  - field. specialize (Hr r). specialize (Hc c'). lra.
  - field. specialize (Hr r). lra.
Qed.
Lemma tmatvec_equil row col m y c : (forall i, 0 < row i) -> (forall i, 0 < col i) ->
  tmatvec (equilibrateRowsCols row col m) y c = tmatvec m (fun r => y r / row r) c / col c.
Proof.
  intros Hr Hc. unfold tmatvec, equilibrateRowsCols. rewrite map_map. unfold sumR.
  induction m as [|[[r' c'] v] m IH]; simpl; [field; specialize (Hc c); lra|].
  rewrite IH. destruct (Nat.eqb_spec c' c) as [->|].
  - field. specialize (Hr r'). specialize (Hc c). lra.
  - field. specialize (Hc c). lra.
Qed.
Lemma matvec_scal m x r k : matvec m (fun c => x c * k) r = matvec m x r * k.
Proof. unfold matvec, sumR. induction m as [|[[r' c'] v] m IH]; simpl; [ring|]. rewrite IH. destruct (Nat.eqb r' r); ring. Qed.
Lemma tmatvec_scal m x r k : tmatvec m (fun c => x c * k) r = tmatvec m x r * k.
Proof. unfold tmatvec, sumR. induction m as [|[[r' c'] v] m IH]; simpl; [ring|]. rewrite IH. destruct (Nat.eqb c' r); ring. Qed.
Lemma matvec_ext m x y r : (forall i, x i = y i) -> matvec m x r = matvec m y r.
Proof. intros H. unfold matvec, sumR. induction m as [|[[r' c'] v] m IH]; simpl; [reflexivity|]. rewrite IH. destruct (Nat.eqb r' r); [rewrite H|]; reflexivity. Qed.
Lemma tmatvec_ext m x y r : (forall i, x i = y i) -> tmatvec m x r = tmatvec m y r.
Proof. intros H. unfold tmatvec, sumR. induction m as [|[[r' c'] v] m IH]; simpl; [reflexivity|]. rewrite IH. destruct (Nat.eqb c' r); [rewrite H|]; reflexivity. Qed.

(** ** Cones *)
Lemma in_soc_scal v k n : 0 < k -> in_soc (fun j => v j * k) n <-> in_soc v n.
Proof.
  intros Hk. unfold in_soc.
  assert (E : sqrt (sumR (map (fun j => v j * k * (v j * k)) (seq 1 (n - 1)))) = sqrt (sumR (map (fun j => v j * v j) (seq 1 (n - 1)))) * k).
  { replace (sumR (map (fun j => v j * k * (v j * k)) (seq 1 (n - 1)))) with (sumR (map (fun j => v j * v j) (seq 1 (n - 1))) * (k * k)).
    - rewrite sqrt_mult_alt.
      + rewrite sqrt_square by lra. reflexivity.
      + unfold sumR. induction (seq 1 (n - 1)); simpl; [lra|]. nra.
    - unfold sumR. induction (seq 1 (n - 1)); simpl; [ring|]. rewrite <- IHl. ring. }
  rewrite E. split; intros H.
  - apply Rmult_le_reg_r with k; auto.
  - apply Rmult_le_compat_r; lra.
Qed.
Lemma in_soc_ext v w n : (1 <= n)%nat -> (forall j, (j < n)%nat -> v j = w j) -> in_soc v n <-> in_soc w n.
Proof.
  intros Hn H. unfold in_soc. rewrite (H 0%nat) by lia.
  replace (map (fun j => v j * v j) (seq 1 (n - 1))) with (map (fun j => w j * w j) (seq 1 (n - 1))); [reflexivity|].
  apply map_ext_in. intros j Hj. apply in_seq in Hj. rewrite H by lia. reflexivity.
Qed.
Lemma in_socs_scal q : forall st (v e : nat -> R), Forall (fun n => (1 <= n)%nat) q -> (forall i, 0 < e i) -> blockconst e st q ->
  in_socs (fun j => v j * e j) st q <-> in_socs v st q.
Proof.
  induction q as [|n q IH]; intros st v e HQ HE HB; simpl; [tauto|].
  inversion HQ; subst. destruct HB as [HB1 HB2]. rewrite (IH (st + n)%nat v e) by assumption.
  assert (E : in_soc (fun j => v (st + j)%nat * e (st + j)%nat) n <-> in_soc (fun j => v (st + j)%nat) n).
  { rewrite (in_soc_ext _ (fun j => v (st + j)%nat * e st) n) by (auto; intros j Hj; rewrite HB1; auto).
    apply (in_soc_scal (fun j => v (st + j)%nat) (e st)). apply HE. }
  rewrite E. tauto.
Qed.
Lemma in_socs_ext q : forall st (v w : nat -> R), Forall (fun n => (1 <= n)%nat) q ->
  (forall j, (st <= j < st + sumn q)%nat -> v j = w j) -> in_socs v st q <-> in_socs w st q.
Proof.
  induction q as [|n q IH]; intros st v w HQ H; simpl; [tauto|]. inversion HQ; subst. simpl in H.
  rewrite (IH (st + n)%nat v w) by (auto; intros j Hj; apply H; lia).
  rewrite (in_soc_ext (fun j => v (st + j)%nat) (fun j => w (st + j)%nat) n) by (auto; intros j Hj; apply H; lia). tauto.
Qed.
Lemma in_cone_scal nl q v e : Forall (fun n => (1 <= n)%nat) q -> (forall i, 0 < e i) -> blockconst e nl q ->
  in_cone nl q (fun j => v j * e j) <-> in_cone nl q v.
Proof.
  intros HQ HE HB. unfold in_cone. rewrite in_socs_scal by assumption.
  assert (E : (forall r, (r < nl)%nat -> 0 <= v r * e r) <-> (forall r, (r < nl)%nat -> 0 <= v r)).
  { split; intros H r Hr; specialize (H r Hr); specialize (HE r); [|nra].
    apply Rmult_le_reg_r with (e r); lra. }
  rewrite E. tauto.
Qed.
Lemma in_cone_ext nl q v w : Forall (fun n => (1 <= n)%nat) q -> (forall j, (j < nl + sumn q)%nat -> v j = w j) -> in_cone nl q v <-> in_cone nl q w.
Proof.
  intros HQ H. unfold in_cone. rewrite (in_socs_ext q nl v w) by (auto; intros; apply H; lia).
  assert (E : (forall r, (r < nl)%nat -> 0 <= v r) <-> (forall r, (r < nl)%nat -> 0 <= w r)).
  { split; intros K r Hr; specialize (K r Hr); rewrite H in * by lia; assumption. }
  rewrite E. tauto.
Qed.

Lemma sumR_ext {A} (f g : A -> R) l : (forall a, In a l -> f a = g a) -> sumR (map f l) = sumR (map g l).
Proof. intros H. unfold sumR. induction l as [|a l IH]; simpl; [reflexivity|]. rewrite H, IH; simpl; auto. intros; apply H; simpl; auto. Qed.
Lemma dot_ext n a b c d : (forall i, a i * b i = c i * d i) -> dot n a b = dot n c d.
Proof. intros H. unfold dot. apply sumR_ext. intros i _. apply H. Qed.
Lemma dot_scal n a b k : dot n a b * k = dot n a (fun i => b i * k).
Proof. unfold dot, sumR. induction (seq 0 n); simpl; [ring|]. rewrite <- IHl. ring. Qed.

Section eqv.
  Variables (iters nl : nat) (q : list nat) (s : storage).
  Hypothesis HQ : Forall (fun n => (1 <= n)%nat) q.
  Let s' := fst (set_equilibration iters nl q s).
  Let E := snd (set_equilibration iters nl q s).

  Lemma E_spec : epos E /\ blockconst (e_z E) nl q.
  Proof. destruct (set_equilibration_spec iters nl q s HQ) as (E0 & H & P & B). unfold E. rewrite H. simpl. auto. Qed.
  Lemma s'_spec : s' = mkS (s_n s) (s_me s) (s_m s) (equilibrateRowsCols (e_y E) (e_x E) (s_A s)) (fun i => s_b s i / e_y E i)
          (equilibrateRowsCols (e_z E) (e_x E) (s_G s)) (fun i => s_h s i / e_z E i) (fun i => s_c s i / e_x E i) (s_ok s).
  Proof. destruct (set_equilibration_spec iters nl q s HQ) as (E0 & H & P & B). unfold s', E. rewrite H. reflexivity. Qed.

  Lemma equil_feasible x : s_m s = (nl + sumn q)%nat ->
    std_feasible nl q s' x <-> std_feasible nl q s (fun i => x i / e_x E i).
  Proof.
    intros HM. destruct E_spec as ((P1 & P2 & P3) & B). unfold std_feasible.
    assert (M1 : s_me s' = s_me s) by (rewrite s'_spec; reflexivity).
    assert (M2 : s_A s' = equilibrateRowsCols (e_y E) (e_x E) (s_A s)) by (rewrite s'_spec; reflexivity).
    assert (M3 : s_b s' = (fun i => s_b s i / e_y E i)) by (rewrite s'_spec; reflexivity).
    rewrite M1, M2, M3.
    assert (S : forall r, slack s' x r = slack s (fun i => x i / e_x E i) r * (1 / e_z E r)).
    { intros r. unfold slack. rewrite s'_spec. cbn [s_h s_G]. rewrite matvec_equil by auto. field. specialize (P3 r). lra. }
    assert (C : ((forall r, (r < nl)%nat -> 0 <= slack s' x r) /\ in_socs (slack s' x) nl q) <->
                ((forall r, (r < nl)%nat -> 0 <= slack s (fun i => x i / e_x E i) r) /\ in_socs (slack s (fun i => x i / e_x E i)) nl q)).
    { change (in_cone nl q (slack s' x) <-> in_cone nl q (slack s (fun i => x i / e_x E i))).
      rewrite (in_cone_ext nl q (slack s' x) (fun r => slack s (fun i => x i / e_x E i) r * (1 / e_z E r)) HQ) by (intros; apply S).
      apply in_cone_scal; auto.
      - intros i. specialize (P3 i). apply Rdiv_lt_0_compat; lra.
      - apply (blockconst_map (fun v => 1 / v)), B. }
    rewrite C.
    assert (Q : (forall r, (r < s_me s)%nat -> matvec (equilibrateRowsCols (e_y E) (e_x E) (s_A s)) x r = s_b s r / e_y E r) <->
                (forall r, (r < s_me s)%nat -> matvec (s_A s) (fun i => x i / e_x E i) r = s_b s r)).
    { split; intros H r Hr; specialize (H r Hr); pose proof (P2 r) as P2v.
      - rewrite matvec_equil in H by auto. apply Rmult_eq_reg_r with (/ e_y E r); [exact H|]. apply Rinv_neq_0_compat. lra.
      - rewrite matvec_equil by auto. rewrite H. reflexivity. }
    rewrite Q. tauto.
  Qed.

  Lemma equil_objective x : std_objective s' x = std_objective s (fun i => x i / e_x E i).
  Proof.
    destruct E_spec as ((P1 & P2 & P3) & B). unfold std_objective. rewrite s'_spec. cbn [s_c s_n]. apply sumR_ext. intros i _.
    field. pose proof (P1 i) as P1v. lra.
  Qed.

  Lemma unset_set : same_data (unset_equilibration E s') s.
  Proof.
    destruct E_spec as ((P1 & P2 & P3) & B). rewrite s'_spec. unfold unset_equilibration, same_data. cbn [s_n s_me s_m s_A s_G s_b s_h s_c].
    repeat split.
    - unfold unequilibrateRowsCols, equilibrateRowsCols. rewrite map_map. rewrite <- map_id. apply map_ext. intros [[r c] v]. f_equal.
      field. pose proof (P1 c) as P1v. pose proof (P2 r) as P2v. lra.
    - unfold unequilibrateRowsCols, equilibrateRowsCols. rewrite map_map. rewrite <- map_id. apply map_ext. intros [[r c] v]. f_equal.
      field. pose proof (P1 c) as P1v. pose proof (P3 r) as P3v. lra.
    - intros i. field. pose proof (P2 i) as P2v. lra.
    - intros i. field. pose proof (P3 i) as P3v. lra.
    - intros i. field. pose proof (P1 i) as P1v. lra.
  Qed.

  Lemma scale_primal o : s_m s = (nl + sumn q)%nat -> 0 < o_tau o ->
    primal_ok nl q s' (o_tau o) (o_x o) (o_s o) <-> primal_ok nl q s 1 (o_x (scale_variables E o)) (o_s (scale_variables E o)).
  Proof.
    intros HM HT. destruct E_spec as ((P1 & P2 & P3) & B). unfold primal_ok. rewrite s'_spec. cbn [s_me s_m s_A s_b s_G s_h scale_variables o_x o_s].
    assert (X : forall m r, matvec m (fun i => o_x o i / (e_x E i * o_tau o)) r = matvec m (fun i => o_x o i / e_x E i) r * (/ o_tau o)).
    { intros m r. rewrite <- matvec_scal. apply matvec_ext. intros i. field. pose proof (P1 i) as P1v. lra. }
    assert (Q1 : (forall r, (r < s_me s)%nat -> matvec (equilibrateRowsCols (e_y E) (e_x E) (s_A s)) (o_x o) r = o_tau o * (s_b s r / e_y E r)) <->
                 (forall r, (r < s_me s)%nat -> matvec (s_A s) (fun i => o_x o i / (e_x E i * o_tau o)) r = 1 * s_b s r)).
    { split; intros H r Hr; specialize (H r Hr); pose proof (P2 r) as P2v; rewrite X in *; rewrite matvec_equil in * by auto.
      - assert (K : matvec (s_A s) (fun i => o_x o i / e_x E i) r = o_tau o * s_b s r).
        { replace (matvec (s_A s) (fun i => o_x o i / e_x E i) r) with (matvec (s_A s) (fun i => o_x o i / e_x E i) r / e_y E r * e_y E r) by (field; lra). rewrite H. field. lra. }
        rewrite K. field. lra.
      - assert (K : matvec (s_A s) (fun i => o_x o i / e_x E i) r = o_tau o * s_b s r).
        { replace (matvec (s_A s) (fun i => o_x o i / e_x E i) r) with (matvec (s_A s) (fun i => o_x o i / e_x E i) r * / o_tau o * o_tau o) by (field; lra). rewrite H. ring. }
        rewrite K. field. lra. }
    assert (Q2 : (forall r, (r < s_m s)%nat -> matvec (equilibrateRowsCols (e_z E) (e_x E) (s_G s)) (o_x o) r + o_s o r = o_tau o * (s_h s r / e_z E r)) <->
                 (forall r, (r < s_m s)%nat -> matvec (s_G s) (fun i => o_x o i / (e_x E i * o_tau o)) r + o_s o r * (e_z E r / o_tau o) = 1 * s_h s r)).
    { split; intros H r Hr; specialize (H r Hr); pose proof (P3 r) as P3v; rewrite X in *; rewrite matvec_equil in * by auto;
      set (g := matvec (s_G s) (fun i => o_x o i / e_x E i) r) in *.
      - replace (g * / o_tau o + o_s o r * (e_z E r / o_tau o)) with ((g / e_z E r + o_s o r) * (e_z E r / o_tau o)) by (field; lra).
        rewrite H. field. lra.
      - replace (g / e_z E r + o_s o r) with ((g * / o_tau o + o_s o r * (e_z E r / o_tau o)) * (o_tau o / e_z E r)) by (field; lra).
        rewrite H. field. lra. }
    rewrite Q1, Q2.
    assert (C : in_cone nl q (o_s o) <-> in_cone nl q (fun i => o_s o i * (e_z E i / o_tau o))).
    { symmetry. apply in_cone_scal; auto.
      - intros i. pose proof (P3 i) as P3v. apply Rdiv_lt_0_compat; lra.
      - apply (blockconst_map (fun v => v / o_tau o)), B. }
    rewrite C. tauto.
  Qed.

  Lemma scale_dual o : 0 < o_tau o ->
    dual_ok nl q s' (o_tau o) (o_y o) (o_z o) <-> dual_ok nl q s 1 (o_y (scale_variables E o)) (o_z (scale_variables E o)).
  Proof.
    intros HT. destruct E_spec as ((P1 & P2 & P3) & B). unfold dual_ok. rewrite s'_spec. cbn [s_n s_A s_c s_G scale_variables o_y o_z].
    assert (X : forall m (f : nat -> R) (e : nat -> R) c, (forall i, 0 < e i) -> tmatvec m (fun i => f i / (e i * o_tau o)) c = tmatvec m (fun i => f i / e i) c * (/ o_tau o)).
    { intros m f e c He. rewrite <- tmatvec_scal. apply tmatvec_ext. intros i. field. specialize (He i). lra. }
    assert (Q : (forall c, (c < s_n s)%nat -> tmatvec (equilibrateRowsCols (e_y E) (e_x E) (s_A s)) (o_y o) c + tmatvec (equilibrateRowsCols (e_z E) (e_x E) (s_G s)) (o_z o) c + o_tau o * (s_c s c / e_x E c) = 0) <->
      (forall c, (c < s_n s)%nat -> tmatvec (s_A s) (fun i => o_y o i / (e_y E i * o_tau o)) c + tmatvec (s_G s) (fun i => o_z o i / (e_z E i * o_tau o)) c + 1 * s_c s c = 0)).
    { split; intros H c Hc; specialize (H c Hc); pose proof (P1 c) as P1v; rewrite !X in * by auto; rewrite !tmatvec_equil in * by auto;
      set (a := tmatvec (s_A s) (fun i => o_y o i / e_y E i) c) in *; set (g := tmatvec (s_G s) (fun i => o_z o i / e_z E i) c) in *.
      - replace (a * / o_tau o + g * / o_tau o + 1 * s_c s c) with ((a / e_x E c + g / e_x E c + o_tau o * (s_c s c / e_x E c)) * (e_x E c / o_tau o)) by (field; lra).
        rewrite H. ring.
      - replace (a / e_x E c + g / e_x E c + o_tau o * (s_c s c / e_x E c)) with ((a * / o_tau o + g * / o_tau o + 1 * s_c s c) * (o_tau o / e_x E c)) by (field; lra).
        rewrite H. ring. }
    rewrite Q.
    assert (C : in_cone nl q (o_z o) <-> in_cone nl q (fun i => o_z o i / (e_z E i * o_tau o))).
    { symmetry. apply (in_cone_scal nl q (o_z o) (fun i => / (e_z E i * o_tau o))); auto.
      - intros i. pose proof (P3 i) as P3v. apply Rinv_0_lt_compat. apply Rmult_lt_0_compat; lra.
      - apply (blockconst_map (fun v => / (v * o_tau o))), B. }
    rewrite C. tauto.
  Qed.

  Lemma scale_gap o : 0 < o_tau o -> let o' := scale_variables E o in
    dot (s_n s) (s_c s') (o_x o) / o_tau o = dot (s_n s) (s_c s) (o_x o') /\
    dot (s_me s) (s_b s') (o_y o) / o_tau o = dot (s_me s) (s_b s) (o_y o') /\
    dot (s_m s) (s_h s') (o_z o) / o_tau o = dot (s_m s) (s_h s) (o_z o') /\
    dot (s_m s) (o_s o) (o_z o) / (o_tau o * o_tau o) = dot (s_m s) (o_s o') (o_z o').
  Proof.
    intros HT o'. destruct E_spec as ((P1 & P2 & P3) & B). rewrite s'_spec. unfold o', Rdiv.
    cbn [s_c s_b s_h scale_variables o_x o_y o_z o_s]. rewrite !dot_scal. repeat split; apply dot_ext; intros i;
      pose proof (P1 i) as P1v; pose proof (P2 i) as P2v; pose proof (P3 i) as P3v; field; lra.
  Qed.
End eqv.

Lemma blockconst_nth e pre : forall nl n post, blockconst e nl (pre ++ n :: post) ->
  forall j, (j < n)%nat -> e (nl + sumn pre + j)%nat = e (nl + sumn pre)%nat.
Proof.
  induction pre as [|p pre IH]; intros nl n post B j Hj; simpl in *.
  - rewrite Nat.add_0_r. apply B, Hj.
  - replace (nl + (p + sumn pre))%nat with (nl + p + sumn pre)%nat by lia. apply (IH _ n post); [apply B|exact Hj].
Qed.

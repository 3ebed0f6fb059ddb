(** Inequalities in the hierarchical solver. *)
From Coq Require Import Reals List Arith Bool Lia Lra.
Import ListNotations.
From Verif Require Import Base BaseProofs RtMatModel RtMatProofs HierModel HierProofs.
Local Open Scope R_scope.

Section HP2.
Variable nullmap : mat -> mat.
Variable qp : mat -> vec -> mat -> vec -> option vec.
Variable least_norm : mat -> vec -> vec.
Variable relax diag : R.
Variable capA capB : nat.
Notation h_task := (h_task nullmap qp least_norm relax diag capA capB).
Notation h_run := (h_run nullmap qp least_norm relax diag capA capB).
Notation after := (after nullmap qp least_norm relax diag).
Notation newz := (newz qp least_norm relax diag).
Notation neww := (neww qp relax diag).
Notation newa := (newa relax).
Notation aclip := (aclip relax).
Notation sol := (sol qp relax diag).
Notation dims := (dims nullmap).
Notation ok_task := (ok_task capA capB).
Hypothesis null_rows : forall B, nr (nullmap B) = nc B.
Hypothesis relax_pos : 0 <= relax.
Definition feas (A : mat) (a v : vec) : Prop := forall i, (i < nr A)%nat -> rsum (nc A) (fun j => ma A i j * va v j) + va a i <= 0.
Hypothesis qp_feas : forall H g A a v, qp H g A a = Some v -> feas A a v.

Definition rowval (C : mat) (c : vec) (m n : nat) (x : vec) : R := rsum n (fun k => ma C m k * va x k) + va c m.
Definition pend (s : hst) (i : nat) : R := va (h_a s) i + rsum (nc (h_A s)) (fun j => ma (h_A s) i j * va (h_z s) j).
Definition row_inv (n : nat) (C : mat) (c : vec) (m idx : nat) (k : R) (s : hst) : Prop :=
  (idx < vn (h_a s))%nat /\
  (forall j, (j < nc (h_N s))%nat -> ma (h_A s) idx j = rsum n (fun l => ma C m l * ma (h_N s) l j)) /\
  ((vn (h_a s) - vn (h_w s) <= idx)%nat -> va (h_w s) (idx - (vn (h_a s) - vn (h_w s)))%nat = 0 \/ vn (h_w s) = 0%nat) /\
  pend s idx <= 0 /\ rowval C c m n (h_x s) - pend s idx <= k * relax.

Lemma clip_bounds : forall p, clip relax p <= - relax /\ clip relax p <= p /\ (p <= 0 -> p - clip relax p <= relax).
Proof. intros p. unfold clip. destruct (Rle_dec (- relax) p); lra. Qed.

Lemma con_row : forall A dz dw i (v : nat -> R), (i < nr A)%nat -> (dw <= nr A)%nat ->
  rsum (dz + dw) (fun j => ma (con_A A dz dw) i j * v j) = rsum dz (fun j => ma A i j * v j) + (if (nr A - dw <=? i)%nat then v (dz + (i - (nr A - dw)))%nat else 0).
Proof.
  intros A dz dw i v Hi Hd. rewrite rsum_split. f_equal.
  - apply rsum_ext; intros j Hj. cbn [con_A ma]. destruct (Nat.ltb_spec j dz); [reflexivity|lia].
  - cbn [con_A ma]. destruct (Nat.leb_spec (nr A - dw) i) as [Hb|Hb].
    + rewrite (rsum_single dw (i - (nr A - dw))) by first [lia | intros j Hj Ne; destruct (Nat.ltb_spec (dz + j) dz); [lia|]; destruct (Nat.eqb_spec (i - (nr A - dw)) (dz + j - dz)); [lia|]; cbn [andb]; ring].
      destruct (Nat.ltb_spec (dz + (i - (nr A - dw))) dz); [lia|]. replace (dz + (i - (nr A - dw)) - dz)%nat with (i - (nr A - dw))%nat by lia. rewrite Nat.eqb_refl. cbn. ring.
    + apply rsum_zero. intros j Hj. destruct (Nat.ltb_spec (dz + j) dz); [lia|]. cbn. ring.
Qed.
Lemma row_Aeff : forall n C m idx s, dims n s -> (forall j, (j < nc (h_N s))%nat -> ma (h_A s) idx j = rsum n (fun l => ma C m l * ma (h_N s) l j)) ->
  forall j, (j < nc (Neff s))%nat -> ma (Aeff s) idx j = rsum n (fun l => ma C m l * ma (Neff s) l j).
Proof.
  intros n C m idx s D H j. destruct D as (_ & _ & D3 & _). unfold Neff, Aeff. rewrite D3.
  destruct (Nat.eqb_spec (nc (h_N s)) (nr (h_K s))); cbn [nc ma]; [|intros Hj; apply H; exact Hj]. intros _.
  rewrite (rsum_ext (nc (h_N s)) _ (fun k => rsum n (fun l => ma C m l * ma (h_N s) l k) * ma (h_K s) k j)) by (intros; rewrite H by assumption; reflexivity).
  transitivity (rsum (nc (h_N s)) (fun k => rsum n (fun l => ma C m l * ma (h_N s) l k * ma (h_K s) k j))); [apply rsum_ext; intros; now rewrite rsum_scal_r|].
  rewrite rsum_swap. apply rsum_ext; intros l Hl. rewrite <- rsum_scal. apply rsum_ext; intros; ring.
Qed.
Lemma move_val : forall n C c m s (A : nat -> R) z, (forall j, (j < nc (Neff s))%nat -> A j = rsum n (fun l => ma C m l * ma (Neff s) l j)) ->
  rowval C c m n (Vec (vn (h_x s)) (fun i => va (h_x s) i + rsum (nc (Neff s)) (fun k => ma (Neff s) i k * va z k))) = rowval C c m n (h_x s) + rsum (nc (Neff s)) (fun j => A j * va z j).
Proof.
  intros n C c m s A z HA. unfold rowval. cbn [va].
  rewrite (rsum_ext n _ (fun k => ma C m k * va (h_x s) k + ma C m k * rsum (nc (Neff s)) (fun l => ma (Neff s) k l * va z l))) by (intros; ring).
  rewrite rsum_plus. replace (rsum n (fun k => ma C m k * rsum (nc (Neff s)) (fun l => ma (Neff s) k l * va z l))) with (rsum (nc (Neff s)) (fun j => A j * va z j)); [ring|].
  rewrite (rsum_ext _ _ (fun j => rsum n (fun l => ma C m l * ma (Neff s) l j) * va z j)) by (intros; rewrite HA by assumption; reflexivity).
  transitivity (rsum (nc (Neff s)) (fun j => rsum n (fun l => ma C m l * ma (Neff s) l j * va z j))); [apply rsum_ext; intros; now rewrite rsum_scal_r|].
  rewrite rsum_swap. apply rsum_ext; intros l Hl. rewrite <- rsum_scal. apply rsum_ext; intros; ring.
Qed.
Lemma newA_old : forall s t i j, (i < nr (Aeff s))%nat -> ma (newA s t) i j = ma (Aeff s) i j.
Proof. intros. unfold newA. destruct (nr (t_C t) =? 0)%nat; [reflexivity|]. cbn [ma]. destruct (Nat.ltb_spec i (nr (Aeff s))); [reflexivity|lia]. Qed.
Lemma newa_old : forall s t i, (i < vn (aclip s))%nat -> va (newa s t) i = va (aclip s) i.
Proof. intros. unfold HierProofs.newa. destruct (nr (t_C t) =? 0)%nat; [reflexivity|]. cbn [va]. destruct (Nat.ltb_spec i (vn (aclip s))); [reflexivity|lia]. Qed.
Lemma newA_rows : forall s t, nr (newA s t) = (nr (Aeff s) + nr (t_C t))%nat.
Proof. intros. unfold newA. destruct (Nat.eqb_spec (nr (t_C t)) 0) as [->|]; [lia|reflexivity]. Qed.
Lemma newA_cols : forall s t, nc (newA s t) = nc (Aeff s).
Proof. intros. unfold newA. destruct (nr (t_C t) =? 0)%nat; reflexivity. Qed.
Lemma newa_rows : forall s t, vn (newa s t) = (vn (h_a s) + nr (t_C t))%nat.
Proof. intros. unfold HierProofs.newa. destruct (Nat.eqb_spec (nr (t_C t)) 0) as [->|]; [rewrite aclip_len; lia|cbn; now rewrite aclip_len]. Qed.
Lemma sol_feas : forall n s t v, dims n s -> sol s t = Some v ->
  forall i, (i < nr (newA s t))%nat -> rsum (nc (Neff s)) (fun j => ma (newA s t) i j * va v j) + (if (nr (Aeff s) <=? i)%nat then va v (nc (Neff s) + (i - nr (Aeff s)))%nat else 0) + va (newa s t) i <= 0.
Proof.
  intros n s t v D H i Hi. unfold HierProofs.sol in H. destruct (t_slack t); [|discriminate]. apply qp_feas in H. specialize (H i Hi).
  cbn [con_A nc] in H. rewrite con_row in H by (rewrite ?newA_rows in *; lia). rewrite newA_rows in H.
  replace (nr (Aeff s) + nr (t_C t) - nr (t_C t))%nat with (nr (Aeff s)) in H by lia. exact H.
Qed.
Lemma row_step : forall n C c m idx k s t s' b, dims n s -> t_slack t = true -> h_task s t = Ok (s', b) -> 0 <= k -> row_inv n C c m idx k s -> row_inv n C c m idx (k + 1) s'.
Proof.
  intros n C c m idx k s t s' b D Hs H Hk (R1 & R2 & R3 & R4 & R5).
  destruct (h_task_cases nullmap qp least_norm relax diag capA capB n s t s' b D H) as [(_ & -> & _)|(_ & O & Hz & -> & _)].
  { repeat split; auto. lra. }
  destruct (Neff_cols nullmap n s D) as (C1 & C2 & C3 & C4). pose proof D as (D1 & D2 & D3 & D4 & D5 & D6 & D7 & D8).
  assert (Rn : (idx < nr (Aeff s))%nat) by (rewrite C4, D4; exact R1).
  assert (Ac : va (aclip s) idx = clip relax (pend s idx)).
  { unfold HierProofs.aclip, pend. destruct (Nat.eqb_spec (vn (h_a s)) 0); [lia|]. destruct (Nat.eqb_spec (vn (h_w s)) 0); [reflexivity|]. cbn [va vn].
    destruct (Nat.ltb_spec idx (vn (h_a s) - vn (h_w s))); [reflexivity|]. destruct (R3 ltac:(lia)) as [->|]; [ring|congruence]. }
  pose proof (clip_bounds (pend s idx)) as (B1 & B2 & B3). specialize (B3 R4).
  assert (RA : forall j, (j < nc (Neff s))%nat -> ma (newA s t) idx j = rsum n (fun l => ma C m l * ma (Neff s) l j)).
  { intros j Hj. rewrite newA_old by exact Rn. now apply (row_Aeff n C m idx s D R2). }
  assert (Ra : va (newa s t) idx = clip relax (pend s idx)) by (rewrite newa_old by (rewrite aclip_len; exact R1); exact Ac).
  assert (P' : pend (after s t) idx = clip relax (pend s idx) + rsum (nc (Neff s)) (fun j => ma (newA s t) idx j * va (newz s t) j)).
  { unfold pend at 1. cbn [HierProofs.after h_a h_A h_z]. rewrite Ra, newA_cols, C3. reflexivity. }
  unfold row_inv. split; [cbn; rewrite newa_rows; lia|]. split; [exact RA|].
  split. { cbn [HierProofs.after h_a h_w]. rewrite newa_rows. unfold HierProofs.neww. destruct (Nat.eqb_spec (nr (t_C t)) 0) as [E|E].
    - rewrite E, Nat.add_0_r. exact R3.
    - intros Hb. exfalso. destruct (sol s t); cbn [vn v_zero] in Hb; lia. }
  split.
  - rewrite P'. unfold HierProofs.newz. rewrite Hs. destruct (sol s t) as [v|] eqn:E.
    + pose proof (sol_feas n s t v D E idx ltac:(rewrite newA_rows; lia)) as F. destruct (Nat.leb_spec (nr (Aeff s)) idx); [lia|]. rewrite Ra in F. cbn [va]. lra.
    + cbn [v_zero va]. rewrite rsum_zero by (intros; ring). lra.
  - rewrite P'. cbn [HierProofs.after h_x]. rewrite (move_val n C c m s (ma (newA s t) idx) (newz s t) RA). lra.
Qed.
Lemma row_run : forall n C c m idx ts k s s', dims n s -> (forall t, In t ts -> t_slack t = true) -> h_run ts s = Ok s' -> 0 <= k -> row_inv n C c m idx k s ->
  row_inv n C c m idx (k + INR (length ts)) s'.
Proof.
  intros n C c m idx ts. induction ts as [|t ts IH]; intros k s s' D Hs H Hk R.
  - cbn in H. injection H as <-. cbn. now rewrite Rplus_0_r.
  - destruct (h_run_cons _ _ _ _ _ _ _ _ _ _ _ H) as (s1 & b & H1 & H2).
    cbn [length]. rewrite S_INR. replace (k + (INR (length ts) + 1)) with (k + 1 + INR (length ts)) by ring.
    apply (IH (k + 1) s1 s'); [eapply dims_task; eassumption|intros; apply Hs; now right|exact H2|lra|].
    eapply row_step; try eassumption. apply Hs; now left.
Qed.
Lemma row_start : forall n s t s' v m, dims n s -> ok_task n s t -> early s t = false -> s' = after s t -> sol s t = Some v -> t_slack t = true -> (m < nr (t_C t))%nat -> va v (nc (Neff s) + m)%nat = 0 ->
  row_inv n (t_C t) (t_c t) m (vn (h_a s) + m) 0 s'.
Proof.
  intros n s t s' v m D O He -> E Hs Hm Hw. destruct (Neff_cols nullmap n s D) as (C1 & C2 & C3 & C4). pose proof D as (D1 & D2 & D3 & D4 & D5 & D6 & D7 & D8).
  destruct O as (_ & _ & O3 & _). destruct O3 as [O3|[O3 O3b]]; [lia|].
  assert (Nz : nr (t_C t) <> 0%nat) by lia.
  assert (RA : forall j, (j < nc (Neff s))%nat -> ma (newA s t) (vn (h_a s) + m) j = rsum n (fun l => ma (t_C t) m l * ma (Neff s) l j)).
  { intros j Hj. unfold newA. destruct (Nat.eqb_spec (nr (t_C t)) 0); [congruence|]. cbn [ma]. rewrite C4, D4. destruct (Nat.ltb_spec (vn (h_a s) + m) (vn (h_a s))); [lia|].
    replace (vn (h_a s) + m - vn (h_a s))%nat with m by lia. now rewrite O3. }
  assert (Ra : va (newa s t) (vn (h_a s) + m) = rowval (t_C t) (t_c t) m n (h_x s)).
  { unfold HierProofs.newa. destruct (Nat.eqb_spec (nr (t_C t)) 0); [congruence|]. cbn [va]. rewrite aclip_len. destruct (Nat.ltb_spec (vn (h_a s) + m) (vn (h_a s))); [lia|].
    replace (vn (h_a s) + m - vn (h_a s))%nat with m by lia. unfold rowval. now rewrite O3. }
  assert (Zv : newz s t = Vec (nc (Neff s)) (va v)) by (unfold HierProofs.newz; now rewrite Hs, E).
  assert (P' : pend (after s t) (vn (h_a s) + m) = rowval (t_C t) (t_c t) m n (h_x s) + rsum (nc (Neff s)) (fun j => ma (newA s t) (vn (h_a s) + m) j * va v j)).
  { unfold pend. cbn [HierProofs.after h_a h_A h_z]. rewrite Ra, newA_cols, C3, Zv. reflexivity. }
  unfold row_inv. split; [cbn; rewrite newa_rows; lia|]. split; [exact RA|].
  split. { cbn [HierProofs.after h_a h_w]. rewrite newa_rows. intros _. left. unfold HierProofs.neww. destruct (Nat.eqb_spec (nr (t_C t)) 0); [congruence|]. rewrite E. cbn [va vn].
    replace (vn (h_a s) + m - (vn (h_a s) + nr (t_C t) - nr (t_C t)))%nat with m by lia. exact Hw. }
  split.
  - rewrite P'. pose proof (sol_feas n s t v D E (vn (h_a s) + m)%nat ltac:(rewrite newA_rows, C4, D4; lia)) as F.
    destruct (Nat.leb_spec (nr (Aeff s)) (vn (h_a s) + m)); [|rewrite C4, D4 in *; lia]. replace (vn (h_a s) + m - nr (Aeff s))%nat with m in F by (rewrite C4, D4; lia). rewrite Hw, Ra in F. lra.
  - rewrite P'. cbn [HierProofs.after h_x]. rewrite (move_val n _ _ m s (ma (newA s t) (vn (h_a s) + m)) (newz s t) RA), Zv. cbn [va]. lra.
Qed.
Lemma row_final : forall n C c m idx k s, row_inv n C c m idx k s -> rowval C c m n (h_x s) <= k * relax.
Proof. intros n C c m idx k s (_ & _ & _ & R4 & R5). lra. Qed.

(** An exact solver gives a satisfied row no slack. *)
Definition objective (H : mat) (g v : vec) : R := rsum (nr H) (fun i => rsum (nr H) (fun j => va v i * ma H i j * va v j)) + 2 * rsum (nr H) (fun i => va g i * va v i).
Hypothesis diag_pos : 0 <= diag.
Hypothesis qp_opt : forall H g A a v, qp H g A a = Some v -> forall y, feas A a y -> objective H g v <= objective H g y.
Lemma objective_drop : forall H g v q, (q < nr H)%nat -> (forall j, (j < nr H)%nat -> j <> q -> ma H q j = 0 /\ ma H j q = 0) -> va g q = 0 ->
  objective H g v - objective H g (Vec (vn v) (upd (va v) q 0)) = ma H q q * (va v q * va v q).
Proof.
  intros H g v q Hq Hz Hg. unfold objective. cbn [va].
  assert (G : rsum (nr H) (fun i => va g i * va v i) = rsum (nr H) (fun i => va g i * upd (va v) q 0 i)).
  { apply rsum_ext; intros i Hi. destruct (Nat.eq_dec i q) as [->|N]; [rewrite Hg; ring|now rewrite upd_other]. }
  rewrite G. match goal with |- ?a + ?c - (?b + ?c) = _ => replace (a + c - (b + c)) with (a - b) by ring end.
  rewrite <- rsum_minus. rewrite (rsum_single (nr H) q); auto.
  - rewrite <- rsum_minus. rewrite (rsum_single (nr H) q); auto; [rewrite upd_same; ring|].
    intros j Hj N. rewrite (proj1 (Hz j Hj N)). ring.
  - intros i Hi N. rewrite <- rsum_minus. apply rsum_zero. intros j Hj. rewrite (upd_other _ q 0 i N). destruct (Nat.eq_dec j q) as [->|N2]; [rewrite (proj2 (Hz i Hi N)); ring|now rewrite upd_other; [ring|]].
Qed.
Lemma zero_slack : forall n s t v m, dims n s -> ok_task n s t -> sol s t = Some v -> t_slack t = true -> (m < nr (t_C t))%nat ->
  rowval (t_C t) (t_c t) m n (h_x (after s t)) <= 0 -> va v (nc (Neff s) + m)%nat = 0.
Proof.
  intros n s t v m D O E Hs Hm Hr. destruct (Neff_cols nullmap n s D) as (C1 & C2 & C3 & C4). pose proof D as (D1 & D2 & D3 & D4 & D5 & D6 & D7 & D8).
  destruct O as (_ & _ & O3 & _). destruct O3 as [O3|[O3 O3b]]; [lia|]. assert (Nz : nr (t_C t) <> 0%nat) by lia.
  assert (RA : forall j, (j < nc (Neff s))%nat -> ma (newA s t) (vn (h_a s) + m) j = rsum n (fun l => ma (t_C t) m l * ma (Neff s) l j)).
  { intros j Hj. unfold newA. destruct (Nat.eqb_spec (nr (t_C t)) 0); [congruence|]. cbn [ma]. rewrite C4, D4. destruct (Nat.ltb_spec (vn (h_a s) + m) (vn (h_a s))); [lia|].
    replace (vn (h_a s) + m - vn (h_a s))%nat with m by lia. now rewrite O3. }
  assert (Ra : va (newa s t) (vn (h_a s) + m) = rowval (t_C t) (t_c t) m n (h_x s)).
  { unfold HierProofs.newa. destruct (Nat.eqb_spec (nr (t_C t)) 0); [congruence|]. cbn [va]. rewrite aclip_len. destruct (Nat.ltb_spec (vn (h_a s) + m) (vn (h_a s))); [lia|].
    replace (vn (h_a s) + m - vn (h_a s))%nat with m by lia. unfold rowval. now rewrite O3. }
  assert (Zv : newz s t = Vec (nc (Neff s)) (va v)) by (unfold HierProofs.newz; now rewrite Hs, E).
  cbn [HierProofs.after h_x] in Hr. rewrite (move_val n _ _ m s (ma (newA s t) (vn (h_a s) + m)) (newz s t) RA), Zv in Hr. cbn [va] in Hr.
  set (dz := nc (Neff s)) in *. set (y := Vec (vn v) (upd (va v) (dz + m) 0)).
  pose proof E as E2. unfold HierProofs.sol in E2. rewrite Hs in E2. fold dz in E2.
  assert (Fy : feas (con_A (newA s t) dz (nr (t_C t))) (newa s t) y).
  { intros i Hi. cbn [con_A nr nc] in Hi |- *. rewrite con_row by (rewrite ?newA_rows in *; lia). rewrite newA_rows in *.
    replace (nr (Aeff s) + nr (t_C t) - nr (t_C t))%nat with (nr (Aeff s)) by lia.
    assert (Same : rsum dz (fun j => ma (newA s t) i j * va y j) = rsum dz (fun j => ma (newA s t) i j * va v j)).
    { apply rsum_ext; intros j Hj. cbn [y va]. rewrite upd_other by lia. reflexivity. }
    rewrite Same. pose proof (sol_feas n s t v D E i ltac:(rewrite newA_rows; exact Hi)) as F. fold dz in F.
    destruct (Nat.leb_spec (nr (Aeff s)) i) as [Hb|Hb]; [|exact F]. destruct (Nat.eq_dec (i - nr (Aeff s)) m) as [Em|Nm].
    - cbn [y va]. rewrite Em, upd_same. assert (Ei : i = (vn (h_a s) + m)%nat) by (rewrite C4, D4 in *; lia). subst i. rewrite Ra. lra.
    - cbn [y va]. rewrite upd_other by lia. exact F. }
  pose proof (qp_opt _ _ _ _ _ E2 y Fy) as Op. unfold y in Op.
  pose proof (objective_drop (cost_H diag dz (nr (t_C t)) (option_map fst (resid s t)) true) (cost_g dz (nr (t_C t)) (resid s t)) v (dz + m)%nat) as Dr.
  assert (Hqq : ma (cost_H diag dz (nr (t_C t)) (option_map fst (resid s t)) true) (dz + m) (dz + m) = 1 + diag).
  { cbn [cost_H ma]. rewrite Nat.eqb_refl. destruct (Nat.leb_spec dz (dz + m)); [|lia]. destruct (Nat.ltb_spec (dz + m) dz); [lia|]. cbn. destruct (option_map fst (resid s t)); ring. }
  rewrite Hqq in Dr.
  assert (Pos : (1 + diag) * (va v (dz + m) * va v (dz + m)) <= 0).
  { rewrite <- Dr; [lra| | |].
    - cbn [cost_H nr]. lia.
    - intros j Hj Ne. cbn [cost_H ma].
      destruct (Nat.ltb_spec (dz + m) dz); [lia|]. rewrite !(proj2 (Nat.eqb_neq _ _)) by lia. rewrite !andb_false_r. cbn [andb].
      destruct (option_map fst (resid s t)); split; ring.
    - cbn [cost_g va]. destruct (resid s t) as [[b r]|]; [|reflexivity]. destruct (Nat.ltb_spec (dz + m) dz); [lia|reflexivity]. }
  assert (0 <= va v (dz + m) * va v (dz + m)) by apply Rle_0_sqr.
  assert (va v (dz + m)%nat * va v (dz + m)%nat = 0) by nra.
  now apply Rsqr_0_uniq.
Qed.
End HP2.

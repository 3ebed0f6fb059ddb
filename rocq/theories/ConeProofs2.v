From Coq Require Import Reals List Arith Bool Lia Lra Psatz.
From Verif Require Import ConicSpec ConeModel ConeSpec ConeProofs.
Import ListNotations.
Open Scope R_scope.

(** ** C11: projection *)
Lemma head_pos_ge q : forall st i, head_pos st q i -> (st <= i)%nat.
Proof. induction q as [|n q IH]; intros st i H; cbn in H; [tauto|]. destruct H as [->|H]; [lia|]. apply IH in H. lia. Qed.
Lemma head_pos_in pre : forall st n post j, Forall (fun n => (1 <= n)%nat) (pre ++ n :: post) -> (j < n)%nat ->
  (head_pos st (pre ++ n :: post) (st + total pre + j) <-> j = O).
Proof.
  induction pre as [|p pre IH]; intros st n post j F Hj; cbn [app head_pos total].
  - split; [|intros ->; left; lia]. intros [H|H]; [lia|]. apply head_pos_ge in H. lia.
  - cbn in F. inversion F; subst. rewrite <- (IH (st + p)%nat n post j) by auto.
    replace (st + (p + total pre) + j)%nat with (st + p + total pre + j)%nat by lia. split; [|auto]. intros [H|H]; [lia|exact H].
Qed.

Lemma add_identity_moved nl q a s : Forall (fun n => (1 <= n)%nat) q -> moved nl q a s (add_identity nl q a s).
Proof.
  intros F i Hi. unfold add_identity. destruct (Nat.lt_ge_cases i nl) as [H|H].
  - rewrite soc_loop_lt by exact H. split; [auto|]. intros K. destruct K. auto.
  - destruct (index_split q nl i ltac:(lia)) as (pre & n & post & j & -> & -> & Hj). rewrite soc_loop_in by exact Hj.
    rewrite (head_pos_in pre nl n post j F Hj). split.
    + intros [K| ->]; [lia|]. rewrite Nat.add_0_r. reflexivity.
    + intros K. destruct j; [exfalso; auto|reflexivity].
Qed.

Lemma moved_closed nl q t s v : Forall (fun n => (1 <= n)%nat) q -> moved nl q t s v ->
  (in_closed_cone nl q v <-> (forall i, (i < nl)%nat -> - s i <= t) /\
     (forall pre n post, q = pre ++ n :: post -> sqrt (tdot n (shift s (nl + total pre)) (shift s (nl + total pre))) - shift s (nl + total pre) 0%nat <= t)).
Proof.
  intros F M. unfold in_closed_cone. rewrite each_block_all.
  assert (L : forall i, (i < nl)%nat -> v i = s i + t) by (intros i Hi; apply (M i); [lia|auto]).
  assert (B : forall pre n post, q = pre ++ n :: post -> (sqrt (tail_prod n (shift v (nl + total pre)) (shift v (nl + total pre))) <= shift v (nl + total pre) 0%nat <->
              sqrt (tdot n (shift s (nl + total pre)) (shift s (nl + total pre))) - shift s (nl + total pre) 0%nat <= t)).
  { intros pre n post E. pose proof (size_in _ _ _ _ E F) as Hn. subst q.
    assert (K : forall j, (1 <= j < n)%nat -> shift v (nl + total pre) j = shift s (nl + total pre) j).
    { intros j Hj. unfold shift. apply (M (nl + total pre + j)%nat); [rewrite total_split; lia|]. rewrite head_pos_in by (auto; lia). lia. }
    rewrite <- tdot_tail. rewrite (tdot_ext n _ _ _ _ K K).
    assert (K0 : shift v (nl + total pre) 0%nat = shift s (nl + total pre) 0%nat + t).
    { unfold shift. rewrite Nat.add_0_r. apply M; [rewrite total_split; lia|]. right.
      pose proof (head_pos_in pre nl n post 0 F ltac:(lia)) as HP. rewrite Nat.add_0_r in HP. apply HP. reflexivity. }
    rewrite K0. split; lra. }
  split; intros [H1 H2]; split.
  - intros i Hi. specialize (H1 i Hi). rewrite L in H1 by exact Hi. lra.
  - intros. apply (B pre n post); auto. apply H2 with (post := post); auto.
  - intros i Hi. specialize (H1 i Hi). rewrite L by exact Hi. lra.
  - intros. apply (B pre n post); auto. apply H2 with (post := post); auto.
Qed.
Lemma moved_interior nl q t s v : Forall (fun n => (1 <= n)%nat) q -> moved nl q t s v ->
  (interior nl q v <-> (forall i, (i < nl)%nat -> - s i < t) /\
     (forall pre n post, q = pre ++ n :: post -> sqrt (tdot n (shift s (nl + total pre)) (shift s (nl + total pre))) - shift s (nl + total pre) 0%nat < t)).
Proof.
  intros F M. unfold interior. rewrite each_block_all.
  assert (L : forall i, (i < nl)%nat -> v i = s i + t) by (intros i Hi; apply (M i); [lia|auto]).
  assert (B : forall pre n post, q = pre ++ n :: post -> (soc_interior n (shift v (nl + total pre)) <->
              sqrt (tdot n (shift s (nl + total pre)) (shift s (nl + total pre))) - shift s (nl + total pre) 0%nat < t)).
  { intros pre n post E. pose proof (size_in _ _ _ _ E F) as Hn. subst q. unfold soc_interior.
    assert (K : forall j, (1 <= j < n)%nat -> shift v (nl + total pre) j = shift s (nl + total pre) j).
    { intros j Hj. unfold shift. apply (M (nl + total pre + j)%nat); [rewrite total_split; lia|]. rewrite head_pos_in by (auto; lia). lia. }
    rewrite <- tdot_tail. rewrite (tdot_ext n _ _ _ _ K K).
    assert (K0 : shift v (nl + total pre) 0%nat = shift s (nl + total pre) 0%nat + t).
    { unfold shift. rewrite Nat.add_0_r. apply M; [rewrite total_split; lia|]. right.
      pose proof (head_pos_in pre nl n post 0 F ltac:(lia)) as HP. rewrite Nat.add_0_r in HP. apply HP. reflexivity. }
    rewrite K0. split; lra. }
  split; intros [H1 H2]; split.
  - intros i Hi. specialize (H1 i Hi). rewrite L in H1 by exact Hi. lra.
  - intros. apply (B pre n post); auto. apply H2 with (post := post); auto.
  - intros i Hi. specialize (H1 i Hi). rewrite L by exact Hi. lra.
  - intros. apply (B pre n post); auto. apply H2 with (post := post); auto.
Qed.

Lemma lp_residual_spec nl s : 0 <= lp_residual nl s /\ (forall i, (i < nl)%nat -> - s i <= lp_residual nl s) /\
  (forall t, 0 <= t -> (forall i, (i < nl)%nat -> - s i <= t) -> lp_residual nl s <= t).
Proof.
  unfold lp_residual.
  assert (G : forall l m, let r := fold_left (fun m i => if Rlt_dec (s i) 0 then Rmax m (Rabs (s i)) else m) l m in
     m <= r /\ (0 <= m -> forall i, In i l -> - s i <= r) /\ (forall t, m <= t -> (forall i, In i l -> - s i <= t) -> r <= t)).
  { induction l as [|i l IH]; intros m; cbn [fold_left].
    - repeat split; [lra|intros _ i []|auto].
    - set (m' := if Rlt_dec (s i) 0 then Rmax m (Rabs (s i)) else m). destruct (IH m') as (A & B & C).
      assert (M : m <= m' /\ (0 <= m -> - s i <= m') /\ (forall t, m <= t -> - s i <= t -> m' <= t)).
      { unfold m'. destruct (Rlt_dec (s i) 0) as [H|H].
        - rewrite Rabs_left by lra. pose proof (Rmax_l m (- s i)). pose proof (Rmax_r m (- s i)). repeat split; auto; intros; apply Rmax_lub; auto.
        - repeat split; intros; lra. }
      destruct M as (M1 & M2 & M3). cbn zeta in *. split; [lra|]. split.
      + intros H0 k [<-|Hk]; [specialize (M2 H0); lra|]. apply B; auto; lra.
      + intros t Ht Hk. apply C; [apply M3; auto; apply Hk; simpl; auto|]. intros; apply Hk; simpl; auto. }
  destruct (G (seq 0 nl) 0) as (A & B & C). cbn zeta in *. repeat split; [exact A| |].
  - intros i Hi. apply B; [lra|]. apply in_seq. lia.
  - intros t Ht H. apply C; [exact Ht|]. intros i Hi. apply H. apply in_seq in Hi. lia.
Qed.
Lemma soc_residual_max s q : forall st m, 
  let r := max_soc_residual st q s m in
  m <= r /\ (forall pre n post, q = pre ++ n :: post -> soc_residual n (shift s (st + total pre)) <= r) /\
  (forall t, m <= t -> (forall pre n post, q = pre ++ n :: post -> soc_residual n (shift s (st + total pre)) <= t) -> r <= t).
Proof.
  induction q as [|n q IH]; intros st m; cbn [max_soc_residual].
  - repeat split; [lra|intros [|] ? ? E; discriminate|auto].
  - cbn zeta. set (m' := if Rlt_dec m (soc_residual n (shift s st)) then soc_residual n (shift s st) else m).
    destruct (IH (st + n)%nat m') as (A & B & C). cbn zeta in *.
    assert (M : m <= m' /\ soc_residual n (shift s st) <= m' /\ (forall t, m <= t -> soc_residual n (shift s st) <= t -> m' <= t)).
    { unfold m'. destruct (Rlt_dec m (soc_residual n (shift s st))); repeat split; intros; lra. }
    destruct M as (M1 & M2 & M3). repeat split; [lra| |].
    + intros [|p pre] k post E; cbn [app] in E; injection E as -> ->; cbn [total].
      * rewrite Nat.add_0_r. lra.
      * rewrite Nat.add_assoc. apply B with (post := post). reflexivity.
    + intros t Ht H. apply C.
      * apply M3; [exact Ht|]. specialize (H [] n q eq_refl). cbn [total] in H. rewrite Nat.add_0_r in H. exact H.
      * intros pre k post E. specialize (H (n :: pre) k post). cbn [total] in H. rewrite Nat.add_assoc in H. apply H. subst q. reflexivity.
Qed.

Lemma projection_spec nl q s : Forall (fun n => (1 <= n)%nat) q ->
  exists a, 0 <= a /\ moved nl q (a + 1) s (conicProjection nl q s) /\ interior nl q (conicProjection nl q s) /\
    (forall v, moved nl q a s v -> in_closed_cone nl q v) /\
    (forall t v, 0 <= t -> moved nl q t s v -> in_closed_cone nl q v -> a <= t).
Proof.
  intros F. exists (max_soc_residual nl q s (lp_residual nl s)).
  destruct (lp_residual_spec nl s) as (L1 & L2 & L3). destruct (soc_residual_max s q nl (lp_residual nl s)) as (S1 & S2 & S3). cbn zeta in *.
  set (a := max_soc_residual nl q s (lp_residual nl s)) in *.
  assert (M := add_identity_moved nl q (a + 1) s F).
  assert (R1 : forall i, (i < nl)%nat -> - s i <= a) by (intros i Hi; specialize (L2 i Hi); lra).
  assert (R2 : forall pre n post, q = pre ++ n :: post -> sqrt (tdot n (shift s (nl + total pre)) (shift s (nl + total pre))) - shift s (nl + total pre) 0%nat <= a).
  { intros pre n post E. specialize (S2 pre n post E). unfold soc_residual in S2.
    pose proof (Rmax_l (sqrt (tdot n (shift s (nl + total pre)) (shift s (nl + total pre))) - shift s (nl + total pre) 0%nat) 0). lra. }
  split; [lra|]. split; [exact M|]. split; [|split].
  - apply (moved_interior nl q (a+1) s _ F M). split.
    + intros i Hi. specialize (R1 i Hi). lra.
    + intros pre n post E. specialize (R2 pre n post E). lra.
  - intros v Mv. apply (moved_closed nl q a s v F Mv). auto.
  - intros t v Ht Mv Cv. apply (moved_closed nl q t s v F Mv) in Cv. destruct Cv as [C1 C2].
    apply S3; [apply L3; auto|]. intros pre n post E. unfold soc_residual. apply Rmax_lub; [apply C2 with (post := post); auto|exact Ht].
Qed.

(** ** C12: one block *)
Lemma residual_scale n s k : conicResidual n (fun i => s i * k) = conicResidual n s * (k * k).
Proof.
  unfold conicResidual. assert (E : tdot n (fun i => s i * k) (fun i => s i * k) = tdot n s s * (k * k)).
  { unfold tdot. induction (seq 1 (n-1)); simpl; [ring|]. rewrite IHl. ring. }
  rewrite E. ring.
Qed.
Lemma boost_scale n w z k j : boost n w (fun i => z i * k) j = boost n w z j * k.
Proof.
  assert (E : tdot n w (fun i => z i * k) = tdot n w z * k).
  { rewrite (tdot_lin' n w z z (fun i => z i * k) k 0); [ring|intros; ring]. }
  destruct j; cbn [boost]; rewrite E; [ring|]. unfold Rdiv. ring.
Qed.
Lemma boost_ext n w z z' j : (forall i, (i < n)%nat -> z i = z' i) -> (j < n)%nat -> boost n w z j = boost n w z' j.
Proof.
  intros H Hj. assert (T : tdot n w z = tdot n w z') by (apply tdot_ext; intros; auto; apply H; lia).
  destruct j; cbn [boost]; rewrite T, ?(H 0%nat), ?(H (S j)) by lia; reflexivity.
Qed.
Lemma sq_div_le a b : 0 < b -> a * a <= b -> 0 < a -> a <= sqrt b.
Proof. intros Hb H Ha. rewrite <- (sqrt_square a) by lra. apply sqrt_le_1_alt. exact H. Qed.

Definition nt_good (n : nat) (b : ntsoc) : Prop :=
  0 < nt_wbar b 0%nat /\ conicResidual n (nt_wbar b) = 1 /\ 0 < nt_eta b /\ nt_eta2 b = nt_eta b * nt_eta b /\
  nt_d1 b + nt_u0 b * nt_u0 b = 2 * nt_wbar b 0%nat * nt_wbar b 0%nat - 1 /\ nt_u0 b * nt_u1 b = 2 * nt_wbar b 0%nat /\
  nt_u1 b * nt_u1 b - nt_v1 b * nt_v1 b = 2 /\ 0 < nt_v1 b.

Lemma nt_block_spec n s z : (1 <= n)%nat -> soc_root_margin guard n s -> soc_root_margin guard n z ->
  exists b, nt_block n s z = Some b /\ nt_good n b /\
    (forall j, (j < n)%nat -> nt_eta b * boost n (nt_wbar b) (fun i => nt_eta b * boost n (nt_wbar b) z i) j = s j).
Proof.
  intros Hn [S0 SM] [Z0 ZM]. fold (conicResidual n s) in SM. 
  assert (SM' : guard * guard <= conicResidual n s) by exact SM. assert (ZM' : guard * guard <= conicResidual n z) by exact ZM. clear SM ZM.
  pose proof guard_pos as GP. pose proof guard_small as GS.
  assert (SR : 0 < conicResidual n s) by nra. assert (ZR : 0 < conicResidual n z) by nra.
  unfold nt_block. cbv zeta. destruct (Rle_dec (conicResidual n s) 0); [lra|]. destruct (Rle_dec (conicResidual n z) 0); [lra|].
  pose proof (sq_div_le _ _ SR SM' GP) as A1. pose proof (sq_div_le _ _ ZR ZM' GP) as B1.
  pose proof (sqrt_sqrt (conicResidual n s) (Rlt_le _ _ SR)) as A2. pose proof (sqrt_sqrt (conicResidual n z) (Rlt_le _ _ ZR)) as B2.
  set (a := sqrt (conicResidual n s)) in *. set (b := sqrt (conicResidual n z)) in *.
  rewrite (safe_ok 1 a), (safe_ok 1 b), (safe_ok a b) by assumption.
  set (sk := fun i => s i * (1 / a)). set (zk := fun i => z i * (1 / b)).
  assert (SU : conicResidual n sk = 1). { unfold sk. rewrite residual_scale, <- A2. field. lra. }
  assert (ZU : conicResidual n zk = 1). { unfold zk. rewrite residual_scale, <- B2. field. lra. }
  assert (SK0 : 0 < sk 0%nat). { unfold sk. apply Rmult_lt_0_compat; [lra|]. apply Rdiv_lt_0_compat; lra. }
  assert (ZK0 : 0 < zk 0%nat). { unfold zk. apply Rmult_lt_0_compat; [lra|]. apply Rdiv_lt_0_compat; lra. }
  pose proof (int_dot_unit n sk zk SK0 SU ZK0 ZU) as D1.
  set (D := sk 0%nat * zk 0%nat + tdot n sk zk) in *.
  assert (G2 : sqrt (1/2 + 1/2 * D) * sqrt (1/2 + 1/2 * D) = 1/2 + 1/2 * D) by (apply sqrt_sqrt; lra).
  assert (G1 : 1 <= sqrt (1/2 + 1/2 * D)) by (apply sq_div_le; lra).
  set (g := sqrt (1/2 + 1/2 * D)) in *.
  set (wbar := nt_point n sk zk).
  assert (WB : forall i, wbar i = match i with O => 1/2/g * (sk 0%nat + zk 0%nat) | S _ => 1/2/g * (sk i - zk i) end).
  { intros i. unfold wbar, nt_point. rewrite full_dot by exact Hn. fold D. fold g. rewrite (safe_ok (1/2) g) by lra. reflexivity. }
  clearbody wbar.
  assert (W0 : 0 < wbar 0%nat). { rewrite WB. apply Rmult_lt_0_compat; [|lra]. apply Rdiv_lt_0_compat; lra. }
  assert (TWv : forall v, tdot n v wbar = 1/2/g * (tdot n v sk - tdot n v zk)).
  { intros v. rewrite (tdot_lin' n v sk zk wbar (1/2/g) (- (1/2/g))); [ring|]. intros j Hj. destruct j; [lia|]. rewrite WB. ring. }
  assert (WR : conicResidual n wbar = 1).
  { unfold conicResidual. rewrite TWv. rewrite (tdot_sym n wbar sk), (tdot_sym n wbar zk), !TWv.
    unfold conicResidual in SU, ZU. rewrite (tdot_sym n zk sk). rewrite !WB.
    assert (T1 : tdot n sk sk = sk 0%nat * sk 0%nat - 1) by lra. assert (T2 : tdot n zk zk = zk 0%nat * zk 0%nat - 1) by lra.
    assert (T3 : tdot n sk zk = D - sk 0%nat * zk 0%nat) by (unfold D; ring). rewrite T1, T2, T3.
    replace (1 / 2 / g * (sk 0%nat + zk 0%nat) * (1 / 2 / g * (sk 0%nat + zk 0%nat)) - 1 / 2 / g * (1 / 2 / g * (sk 0%nat * sk 0%nat - 1 - (D - sk 0%nat * zk 0%nat)) - 1 / 2 / g * (D - sk 0%nat * zk 0%nat - (zk 0%nat * zk 0%nat - 1))))
      with ((2 + 2 * D) / (4 * (g * g))) by (field; lra).
    rewrite G2. field. lra. }
  pose proof (w_ge1 n wbar W0 WR) as W1.
  assert (TW : tdot n wbar wbar = wbar 0%nat * wbar 0%nat - 1) by (unfold conicResidual in WR; lra).
  unfold nt_coeffs. cbv zeta. rewrite TW.
  set (w := wbar 0%nat) in *.
  assert (K1 : guard <= 1 + w) by lra. assert (K2 : guard <= (1 + w) ^ 2) by (simpl; nra).
  rewrite (safe_ok (w*w-1) (1+w)), (safe_ok 2 (1+w)), (safe_ok (w*w-1) ((1+w)^2)) by assumption.
  replace (1 + w + (w * w - 1) / (1 + w)) with (2 * w) by (field; lra).
  replace (1 + 2 / (1 + w) + (w * w - 1) / (1 + w) ^ 2) with 2 by (field; lra).
  set (c := 2 * w * w - 1). assert (C1 : 1 <= c) by (unfold c; nra).
  assert (K3 : guard <= 1 + (w * w - 1) * 2) by (unfold c in C1; lra).
  rewrite (safe_ok (2*w*(2*w)) (1 + (w*w-1)*2)) by assumption.
  replace (1 / 2 * (w * w + (w * w - 1) * (1 - 2 * w * (2 * w) / (1 + (w * w - 1) * 2)))) with (1 / (2 * c)).
  2:{ unfold c. field. unfold c in C1. lra. }
  assert (DP : 0 < 1 / (2 * c)) by (apply Rdiv_lt_0_compat; lra).
  assert (DL : 1 / (2 * c) <= 1/2). { unfold Rdiv. rewrite !Rmult_1_l. apply Rinv_le_contravar; lra. }
  rewrite (Rmax_left (1 / (2*c)) 0) by lra.
  replace (w * w + (w * w - 1) - 1 / (2 * c)) with (c - 1 / (2 * c)) by (unfold c; ring).
  assert (U2 : sqrt (c - 1 / (2 * c)) * sqrt (c - 1 / (2*c)) = c - 1 / (2*c)) by (apply sqrt_sqrt; lra).
  assert (U1 : 1/2 <= sqrt (c - 1 / (2*c))). { apply sq_div_le; lra. }
  set (u := sqrt (c - 1 / (2*c))) in *. rewrite (safe_ok (2*w) u) by lra.
  assert (V : 0 < (2 * w / u) ^ 2 - 2).
  { replace ((2 * w / u) ^ 2 - 2) with (2 * (2 * (w * w) - u * u) / (u * u)) by (field; lra). rewrite U2.
    apply Rdiv_lt_0_compat; [|lra]. unfold c. unfold c in DP. lra. }
  destruct (Rle_dec ((2 * w / u) ^ 2 - 2) 0); [lra|].
  assert (E2 : 0 < a / b) by (apply Rdiv_lt_0_compat; lra).
  assert (EE : sqrt (a / b) * sqrt (a / b) = a / b) by (apply sqrt_sqrt; lra).
  assert (EP : 0 < sqrt (a / b)) by (apply sqrt_lt_R0; exact E2).
  eexists. split; [reflexivity|]. unfold nt_good. cbn [nt_wbar nt_eta nt_eta2 nt_d1 nt_u0 nt_u1 nt_v1]. fold w.
  split.
  - repeat split; auto.
    + unfold c in *. lra.
    + field. lra.
    + pose proof (sqrt_sqrt _ (Rlt_le _ _ V)) as VV. rewrite VV. simpl. ring.
    + apply sqrt_lt_R0, V.
  - intros j Hj.
    set (e := sqrt (a / b)) in *.
    rewrite (boost_ext n wbar (fun i => e * boost n wbar z i) (fun i => boost n wbar z i * e) j) by (auto; intros; ring).
    rewrite boost_scale. rewrite (boost_sq n wbar W0 WR) by exact Hj. fold w.
    assert (TZ : w * z 0%nat + tdot n wbar z = g * b).
    { rewrite (tdot_sym n wbar z), TWv. 
      assert (Q1 : tdot n z sk = b * tdot n sk zk). { rewrite (tdot_sym n sk zk), (tdot_sym n zk sk). rewrite (tdot_sym n z sk). rewrite (tdot_lin' n sk z z zk (1/b) 0); [field; lra|]. intros; unfold zk; ring. }
      assert (Q2 : tdot n z zk = b * tdot n zk zk). { rewrite (tdot_sym n z zk). rewrite (tdot_lin' n zk z z zk (1/b) 0) ; [field; lra|]. intros; unfold zk; ring. }
      assert (Q3 : z 0%nat = b * zk 0%nat) by (unfold zk; field; lra).
      rewrite Q1, Q2, Q3. unfold conicResidual in ZU. replace (tdot n zk zk) with (zk 0%nat * zk 0%nat - 1) by lra.
      replace (tdot n sk zk) with (D - sk 0%nat * zk 0%nat) by (unfold D; ring).
      assert (Wd : w = 1/2/g * (sk 0%nat + zk 0%nat)) by apply WB. rewrite Wd.
      replace (1 / 2 / g * (sk 0%nat + zk 0%nat) * (b * zk 0%nat) + 1 / 2 / g * (b * (D - sk 0%nat * zk 0%nat) - b * (zk 0%nat * zk 0%nat - 1)))
        with (b / g * (1/2 + 1/2 * D)) by (field; lra).
      rewrite <- G2. field. lra. }
    rewrite TZ.
    assert (SJ : s j = a * sk j) by (unfold sk; field; lra). assert (ZJ : z j = b * zk j) by (unfold zk; field; lra). rewrite SJ.
    replace (e * ((2 * wbar j * (g * b) - match j with 0%nat => z 0%nat | S _ => - z j end) * e)) with (e * e * (2 * wbar j * (g * b) - match j with 0%nat => z 0%nat | S _ => - z j end)) by ring.
    rewrite EE. destruct j; rewrite ZJ, WB; field; lra.
Qed.

Lemma scal_blk_boost n b z j : nt_good n b -> scal_blk b n z j = nt_eta b * boost n (nt_wbar b) z j.
Proof.
  intros (W0 & W1 & _). pose proof (w_ge1 n _ W0 W1). pose proof guard_small. unfold scal_blk. rewrite safe_ok by lra. destruct j; reflexivity.
Qed.

(** Sparse form: eliminating the two extra rows gives the squared scaling. *)
Lemma scal2_elim n b x j : (1 <= n)%nat -> nt_good n b -> 
  scal2_blk b n x (fun _ => 0) n = 0 -> scal2_blk b n x (fun _ => 0) (S n) = 0 -> (j < n)%nat ->
  scal2_blk b n x (fun _ => 0) j = nt_eta b * boost n (nt_wbar b) (fun i => nt_eta b * boost n (nt_wbar b) x i) j.
Proof.
  intros Hn (W0 & W1 & E0 & E2 & I1 & I2 & I3 & V0) H1 H2 Hj.
  unfold scal2_blk in *. rewrite Nat.eqb_refl, Nat.ltb_irrefl in H1. replace (Nat.eqb n 0) with false in H1 by (symmetry; apply Nat.eqb_neq; lia).
  replace (Nat.eqb (S n) 0) with false in H2 by reflexivity. replace (Nat.ltb (S n) n) with false in H2 by (symmetry; apply Nat.ltb_ge; lia).
  replace (Nat.eqb (S n) n) with false in H2 by (symmetry; apply Nat.eqb_neq; lia).
  rewrite (boost_ext n _ (fun i => nt_eta b * boost n (nt_wbar b) x i) (fun i => boost n (nt_wbar b) x i * nt_eta b) j) by (auto; intros; ring).
  rewrite boost_scale, (boost_sq n _ W0 W1) by exact Hj.
  set (w := nt_wbar b) in *. set (T := tdot n w x) in *. set (e := nt_eta b) in *.
  assert (EP : nt_eta2 b <> 0) by (rewrite E2; nra).
  assert (X1 : x n = - (nt_v1 b * T)). { rewrite Rplus_0_l in H1. apply Rmult_integral in H1. destruct H1; [contradiction|lra]. }
  assert (X2 : x (S n) = nt_u0 b * x 0%nat + nt_u1 b * T). { rewrite Rplus_0_l in H2. apply Rmult_integral in H2. destruct H2; [contradiction|lra]. }
  rewrite E2. destruct j.
  - simpl. rewrite X2. replace (nt_d1 b * x 0%nat + nt_u0 b * (nt_u0 b * x 0%nat + nt_u1 b * T)) with ((nt_d1 b + nt_u0 b * nt_u0 b) * x 0%nat + (nt_u0 b * nt_u1 b) * T) by ring.
    rewrite I1, I2. fold w. ring.
  - replace (Nat.eqb (S j) 0) with false by reflexivity. destruct (Nat.ltb_spec (S j) n); [|lia]. rewrite X1, X2.
    replace (nt_v1 b * - (nt_v1 b * T) + nt_u1 b * (nt_u0 b * x 0%nat + nt_u1 b * T)) with ((nt_u0 b * nt_u1 b) * x 0%nat + (nt_u1 b * nt_u1 b - nt_v1 b * nt_v1 b) * T) by ring.
    rewrite I2, I3. fold w. ring.
Qed.

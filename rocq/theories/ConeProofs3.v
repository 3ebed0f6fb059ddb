From Coq Require Import Reals List Arith Bool Lia Lra Psatz.
From Verif Require Import ConicSpec ConeModel ConeSpec ConeProofs ConeProofs2.
Import ListNotations.
Open Scope R_scope.

Lemma nt_blocks_spec s z q : forall st, Forall (fun n => (1 <= n)%nat) q ->
  each_block (soc_root_margin guard) st q s -> each_block (soc_root_margin guard) st q z ->
  exists bs, nt_blocks st q s z = Some bs /\
    forall pre n post, q = pre ++ n :: post -> let b := nth (length pre) bs nt_dummy in
      nt_good n b /\
      forall j, (j < n)%nat -> nt_eta b * boost n (nt_wbar b) (fun i => nt_eta b * boost n (nt_wbar b) (shift z (st + total pre)) i) j = shift s (st + total pre) j.
Proof.
  induction q as [|m q IH]; intros st F HS HZ.
  - exists []. split; [reflexivity|]. intros [|] ? ? E; discriminate.
  - inversion F as [|? ? F1 F2]; subst. cbn [each_block] in HS, HZ. destruct HS as [HS1 HS2], HZ as [HZ1 HZ2].
    destruct (nt_block_spec m (shift s st) (shift z st) F1 HS1 HZ1) as (b & Eb & Gb & Hb).
    destruct (IH (st + m)%nat F2 HS2 HZ2) as (bs & Ebs & Hbs).
    exists (b :: bs). cbn [nt_blocks]. rewrite Eb, Ebs. split; [reflexivity|].
    intros [|p pre] n post E; cbn [app] in E; injection E as -> ->; cbn [length nth total].
    + rewrite Nat.add_0_r. split; [exact Gb|exact Hb].
    + rewrite Nat.add_assoc. apply Hbs with (post := post). reflexivity.
Qed.

(** A scaling whose entries and blocks are good. *)
Definition Wgood (nl : nat) (q : list nat) (W : scaling) : Prop :=
  (forall i, (i < nl)%nat -> 0 < sc_lp W i) /\
  (forall pre n post, q = pre ++ n :: post -> nt_good n (nth (length pre) (sc_soc W) nt_dummy)).
Definition Winv (nl : nat) (q : list nat) (W : scaling) (x : nat -> R) : nat -> R :=
  soc_loop (fun l st n j => boost n (conj (nt_wbar (nth l (sc_soc W) nt_dummy))) (shift x st) j / nt_eta (nth l (sc_soc W) nt_dummy)) 0 nl q (fun i => x i / sc_lp W i).

Section W.
  Variables (nl : nat) (q : list nat) (W : scaling).
  Hypothesis HW : Wgood nl q W.

  Lemma W_lp x i : (i < nl)%nat -> conicNTScaling nl q W x i = sc_lp W i * x i.
  Proof. intros H. unfold conicNTScaling. rewrite soc_loop_lt by exact H. reflexivity. Qed.
  Lemma W_blk x pre n post j : q = pre ++ n :: post -> (j < n)%nat ->
    shift (conicNTScaling nl q W x) (nl + total pre) j =
    nt_eta (nth (length pre) (sc_soc W) nt_dummy) * boost n (nt_wbar (nth (length pre) (sc_soc W) nt_dummy)) (shift x (nl + total pre)) j.
  Proof.
    intros E Hj. pose proof (proj2 HW pre n post E) as G. unfold shift at 1. unfold conicNTScaling. subst q. rewrite soc_loop_in by exact Hj.
    cbn [Nat.add]. apply scal_blk_boost. exact G.
  Qed.
  Lemma Winv_lp x i : (i < nl)%nat -> Winv nl q W x i = x i / sc_lp W i.
  Proof. intros H. unfold Winv. rewrite soc_loop_lt by exact H. reflexivity. Qed.
  Lemma Winv_blk x pre n post j : q = pre ++ n :: post -> (j < n)%nat ->
    shift (Winv nl q W x) (nl + total pre) j = boost n (conj (nt_wbar (nth (length pre) (sc_soc W) nt_dummy))) (shift x (nl + total pre)) j / nt_eta (nth (length pre) (sc_soc W) nt_dummy).
  Proof. intros E Hj. unfold shift at 1. unfold Winv. subst q. rewrite soc_loop_in by exact Hj. reflexivity. Qed.

  Lemma by_blocks (a b : nat -> R) :
    (forall i, (i < nl)%nat -> a i = b i) ->
    (forall pre n post, q = pre ++ n :: post -> forall j, (j < n)%nat -> shift a (nl + total pre) j = shift b (nl + total pre) j) ->
    eqN (nl + total q) a b.
  Proof.
    intros H1 H2 i Hi. destruct (Nat.lt_ge_cases i nl) as [H|H]; [auto|].
    destruct (index_split q nl i ltac:(lia)) as (pre & n & post & j & E & -> & Hj). apply (H2 pre n post E j Hj).
  Qed.

  Lemma W_linear a b x y i : (i < nl + total q)%nat -> conicNTScaling nl q W (fun k => a * x k + b * y k) i = a * conicNTScaling nl q W x i + b * conicNTScaling nl q W y i.
  Proof.
    revert i. apply by_blocks.
    - intros i Hi. rewrite !W_lp by exact Hi. ring.
    - intros pre n post E j Hj. transitivity (a * shift (conicNTScaling nl q W x) (nl + total pre) j + b * shift (conicNTScaling nl q W y) (nl + total pre) j); [|reflexivity].
      rewrite !(W_blk _ pre n post j E Hj). set (c := nth (length pre) (sc_soc W) nt_dummy).
      assert (T : tdot n (nt_wbar c) (shift (fun k => a * x k + b * y k) (nl + total pre)) = a * tdot n (nt_wbar c) (shift x (nl + total pre)) + b * tdot n (nt_wbar c) (shift y (nl + total pre))).
      { apply tdot_lin'. intros; reflexivity. }
      destruct j; cbn [boost]; rewrite T; unfold shift; unfold Rdiv; ring.
  Qed.
  Lemma Winv_W x : eqN (nl + total q) (Winv nl q W (conicNTScaling nl q W x)) x.
  Proof.
    apply by_blocks.
    - intros i Hi. rewrite Winv_lp, W_lp by exact Hi. pose proof (proj1 HW i Hi). field. lra.
    - intros pre n post E j Hj. rewrite (Winv_blk _ pre n post j E Hj). pose proof (proj2 HW pre n post E) as (W0 & W1 & E0 & _).
      set (c := nth (length pre) (sc_soc W) nt_dummy) in *.
      rewrite (boost_ext n _ _ (fun j => boost n (nt_wbar c) (shift x (nl + total pre)) j * nt_eta c) j).
      + rewrite boost_scale, (boost_conj n _ W0 W1) by exact Hj. field. lra.
      + intros i Hi. rewrite (W_blk _ pre n post i E Hi). fold c. ring.
      + exact Hj.
  Qed.
  Lemma W_Winv x : eqN (nl + total q) (conicNTScaling nl q W (Winv nl q W x)) x.
  Proof.
    apply by_blocks.
    - intros i Hi. rewrite W_lp, Winv_lp by exact Hi. pose proof (proj1 HW i Hi). field. lra.
    - intros pre n post E j Hj. rewrite (W_blk _ pre n post j E Hj). pose proof (proj2 HW pre n post E) as (W0 & W1 & E0 & _).
      set (c := nth (length pre) (sc_soc W) nt_dummy) in *.
      rewrite (boost_ext n _ _ (fun j => boost n (conj (nt_wbar c)) (shift x (nl + total pre)) j * (/ nt_eta c)) j).
      + rewrite boost_scale, (conj_boost n _ W0 W1) by exact Hj. field. lra.
      + intros i Hi. rewrite (Winv_blk _ pre n post i E Hi). reflexivity.
      + exact Hj.
  Qed.
End W.

(** Inner products split into the linear part and the blocks. *)
Lemma inner_app st n a b : inner (st + n) a b = inner st a b + inner n (shift a st) (shift b st).
Proof.
  induction n as [|n IH].
  - rewrite Nat.add_0_r. unfold inner at 3. simpl. ring.
  - rewrite Nat.add_succ_r. unfold inner in *. rewrite !seq_S, !map_app. unfold sumR in *. rewrite !fold_right_app.
    assert (K : forall (l : list R) x, fold_right Rplus x l = fold_right Rplus 0 l + x) by (induction l; intros; simpl; [ring|rewrite IHl; ring]).
    rewrite (K _ (fold_right Rplus 0 (map (fun i => a i * b i) [(0 + (st + n))%nat]))).
    rewrite (K _ (fold_right Rplus 0 (map (fun i => shift a st i * shift b st i) [(0 + n)%nat]))). rewrite IH. simpl. unfold shift. ring.
Qed.
Lemma total_app p q : total (p ++ q) = (total p + total q)%nat.
Proof. induction p; cbn [app total]; [reflexivity|]. rewrite IHp. lia. Qed.
Lemma inner_blocks nl a b c d q :
  (forall i, (i < nl)%nat -> a i * b i = c i * d i) ->
  (forall pre n post, q = pre ++ n :: post -> inner n (shift a (nl + total pre)) (shift b (nl + total pre)) = inner n (shift c (nl + total pre)) (shift d (nl + total pre))) ->
  inner (nl + total q) a b = inner (nl + total q) c d.
Proof.
  intros H1. induction q as [|n q IH] using rev_ind; intros H2.
  - cbn [total]. rewrite Nat.add_0_r. unfold inner. apply sum_ext. intros i Hi. apply in_seq in Hi. apply H1. lia.
  - rewrite total_app. cbn [total]. rewrite Nat.add_0_r, Nat.add_assoc.
    rewrite (inner_app (nl + total q) n a b), (inner_app (nl + total q) n c d). f_equal.
    + apply IH. intros pre m post E. apply (H2 pre m (post ++ [n])). rewrite E, <- app_assoc. reflexivity.
    + apply (H2 q n []). reflexivity.
Qed.
Lemma inner_block_dot n a b : (1 <= n)%nat -> inner n a b = a 0%nat * b 0%nat + tdot n a b.
Proof. intros H. apply full_dot. exact H. Qed.

Lemma W_adjoint nl q W x y : Forall (fun n => (1 <= n)%nat) q -> Wgood nl q W ->
  inner (nl + total q) (conicNTScaling nl q W x) y = inner (nl + total q) x (conicNTScaling nl q W y).
Proof.
  intros F HW. apply inner_blocks.
  - intros i Hi. rewrite !W_lp by exact Hi. ring.
  - intros pre n post E. pose proof (size_in _ _ _ _ E F) as Hn. pose proof (proj2 HW pre n post E) as (W0 & W1 & E0 & _).
    rewrite !inner_block_dot by exact Hn. set (c := nth (length pre) (sc_soc W) nt_dummy) in *.
    set (X := shift x (nl + total pre)). set (Y := shift y (nl + total pre)).
    assert (EX : forall j, (j < n)%nat -> shift (conicNTScaling nl q W x) (nl + total pre) j = nt_eta c * boost n (nt_wbar c) X j) by (intros j Hj; apply (W_blk nl q W HW x pre n post j E Hj)).
    assert (EY : forall j, (j < n)%nat -> shift (conicNTScaling nl q W y) (nl + total pre) j = nt_eta c * boost n (nt_wbar c) Y j) by (intros j Hj; apply (W_blk nl q W HW y pre n post j E Hj)).
    rewrite EX, EY by lia.
    rewrite (tdot_sym n (shift (conicNTScaling nl q W x) (nl + total pre)) Y).
    rewrite (tdot_lin' n Y (boost n (nt_wbar c) X) (boost n (nt_wbar c) X) _ (nt_eta c) 0) by (intros j Hj; rewrite EX by lia; ring).
    rewrite (tdot_lin' n X (boost n (nt_wbar c) Y) (boost n (nt_wbar c) Y) _ (nt_eta c) 0) by (intros j Hj; rewrite EY by lia; ring).
    pose proof (boost_adj n (nt_wbar c) W0 W1 X Y) as A. rewrite (tdot_sym n (boost n (nt_wbar c) X) Y) in A.
    transitivity (nt_eta c * (boost n (nt_wbar c) X 0%nat * Y 0%nat + tdot n Y (boost n (nt_wbar c) X))); [ring|]. rewrite A. ring.
Qed.

Lemma interior_ext n v v' : (1 <= n)%nat -> (forall j, (j < n)%nat -> v j = v' j) -> soc_interior n v -> soc_interior n v'.
Proof.
  intros Hn H. rewrite !interior_sq. unfold conicResidual. rewrite (tdot_ext n v v v' v') by (intros; apply H; lia). rewrite (H 0%nat) by lia. auto.
Qed.
Lemma interior_scale n v k : 0 < k -> soc_interior n v -> soc_interior n (fun j => k * v j).
Proof.
  intros Hk. rewrite !interior_sq. intros [H1 H2]. split; [nra|].
  assert (E : conicResidual n (fun j => k * v j) = conicResidual n v * (k * k)).
  { rewrite <- residual_scale. unfold conicResidual. rewrite (tdot_ext n (fun j => k * v j) (fun j => k * v j) (fun j => v j * k) (fun j => v j * k)) by (intros; ring). ring. }
  rewrite E. apply Rmult_lt_0_compat; [exact H2|nra].
Qed.

Lemma update_spec nl q s z : Forall (fun n => (1 <= n)%nat) q ->
  (forall i, (i < nl)%nat -> 0 < s i) -> (forall i, (i < nl)%nat -> 0 < z i) ->
  each_block (soc_root_margin guard) nl q s -> each_block (soc_root_margin guard) nl q z ->
  exists W lam, updateNTScalings nl q s z = Some (W, lam) /\ lam = conicNTScaling nl q W z /\ Wgood nl q W /\
    (forall i, (i < nl)%nat -> sc_lp W i * sc_lp W i = safeDivision (s i) (z i)) /\
    (forall pre n post, q = pre ++ n :: post -> forall j, (j < n)%nat -> shift (conicNTScaling nl q W lam) (nl + total pre) j = shift s (nl + total pre) j).
Proof.
  intros F S0 Z0 HS HZ. destruct (nt_blocks_spec s z q nl F HS HZ) as (bs & Eb & Hb).
  unfold updateNTScalings. rewrite Eb. do 2 eexists. split; [reflexivity|]. split; [reflexivity|].
  pose proof guard_pos as GP.
  assert (P : forall i, (i < nl)%nat -> 0 < safeDivision (s i) (z i)).
  { intros i Hi. unfold safeDivision. specialize (S0 i Hi). specialize (Z0 i Hi). destruct (Rlt_dec (z i) guard); apply Rdiv_lt_0_compat; lra. }
  set (W := mkSc _ _ bs).
  assert (G : Wgood nl q W).
  { split; [|intros pre n post E; apply (Hb pre n post E)]. intros i Hi. apply sqrt_lt_R0, P, Hi. }
  split; [exact G|]. split.
  - intros i Hi. apply sqrt_sqrt, Rlt_le, P, Hi.
  - intros pre n post E j Hj. rewrite (W_blk nl q W G _ pre n post j E Hj). destruct (Hb pre n post E) as [_ HB].
    rewrite <- (HB j Hj). cbn [sc_soc W]. f_equal. apply boost_ext; [|exact Hj]. intros i Hi. apply (W_blk nl q W G z pre n post i E Hi).
Qed.

(** ** Line search *)
Lemma pos_alpha_spec t dt a : 0 < t -> pos_alpha t dt a <= a /\ (forall b k, 0 < b -> b <= pos_alpha t dt a -> 0 < k < 1 -> 0 < t + b * k * dt).
Proof.
  intros Ht. unfold pos_alpha. destruct (Req_EM_T dt 0) as [->|D]; [split; [lra|intros; nra]|].
  destruct (Rlt_dec 0 dt) as [P|P].
  - split; [destruct (Rlt_dec 0 (- t / dt)); [destruct (Rlt_dec (- t / dt) a)|]; lra|]. intros b k Hb _ Hk. assert (0 < b * k) by nra. nra.
  - assert (N : dt < 0) by lra. assert (R0 : 0 < - t / dt) by (replace (- t / dt) with (t / - dt) by (field; lra); apply Rdiv_lt_0_compat; lra).
    destruct (Rlt_dec 0 (- t / dt)); [|lra].
    assert (K : forall b k, 0 < b -> b <= - t / dt -> 0 < k < 1 -> 0 < t + b * k * dt).
    { intros b k Hb H Hk. assert (b * - dt <= t). { apply Rmult_le_reg_r with (/ - dt); [apply Rinv_0_lt_compat; lra|]. replace (b * - dt * / - dt) with b by (field; lra). replace (t * / - dt) with (- t / dt) by (field; lra). exact H. }
      nra. }
    destruct (Rlt_dec (- t / dt) a); (split; [lra|]); intros b k Hb H Hk; apply K; lra.
Qed.

Lemma lp_ratio_spec nl d lam : forall i, (i < nl)%nat -> lp_ratio nl d lam <= d i / lam i.
Proof.
  intros i Hi. unfold lp_ratio.
  assert (G : forall l m, let r := fold_left (fun m i => if Rlt_dec (d i / lam i) m then d i / lam i else m) l m in r <= m /\ forall k, In k l -> r <= d k / lam k).
  { induction l as [|k l IH]; intros m; cbn [fold_left]; [split; [lra|intros k []]|].
    destruct (IH (if Rlt_dec (d k / lam k) m then d k / lam k else m)) as [A B]. cbn zeta in *.
    destruct (Rlt_dec (d k / lam k) m); (split; [lra|]); intros k' [<-|Hk']; auto; lra. }
  destruct (G (seq 1 (nl - 1)) (d 0%nat / lam 0%nat)) as [A B]. cbn zeta in *.
  destruct i; [exact A|]. apply B. apply in_seq. lia.
Qed.
Lemma lp_alpha_spec big nl ds dz lam : forall i, (i < nl)%nat -> 0 < lam i ->
  forall b k, 0 < b -> b <= lp_alpha big nl ds dz lam -> 0 < k < 1 -> 0 < lam i + b * k * ds i /\ 0 < lam i + b * k * dz i.
Proof.
  intros i Hi Hl b k Hb H Hk. unfold lp_alpha in H. pose proof (lp_ratio_spec nl ds lam i Hi) as R1. pose proof (lp_ratio_spec nl dz lam i Hi) as R2.
  set (m := Rmin (lp_ratio nl dz lam) (lp_ratio nl ds lam)) in *.
  assert (M1 : m <= ds i / lam i) by (pose proof (Rmin_r (lp_ratio nl dz lam) (lp_ratio nl ds lam)); unfold m; lra).
  assert (M2 : m <= dz i / lam i) by (pose proof (Rmin_l (lp_ratio nl dz lam) (lp_ratio nl ds lam)); unfold m; lra).
  assert (BM : -1 <= b * m).
  { destruct (Rlt_dec m 0) as [N|N]; [|nra]. assert (b * - m <= 1). { apply Rmult_le_reg_r with (/ - m); [apply Rinv_0_lt_compat; lra|]. replace (b * - m * / - m) with b by (field; lra). replace (1 * / - m) with (-1 / m) by (field; lra). exact H. } lra. }
  assert (K : forall d, m <= d / lam i -> 0 < lam i + b * k * d).
  { intros d Hd. assert (E : lam i + b * k * d = lam i * (1 + k * (b * (d / lam i)))) by (field; lra). rewrite E. apply Rmult_lt_0_compat; [lra|].
    assert (b * m <= b * (d / lam i)) by (apply Rmult_le_compat_l; lra). nra. }
  split; apply K; assumption.
Qed.

Lemma boost_lin n w x y a b j : boost n w (fun i => a * x i + b * y i) j = a * boost n w x j + b * boost n w y j.
Proof.
  assert (T : tdot n w (fun i => a * x i + b * y i) = a * tdot n w x + b * tdot n w y) by apply tdot_lin.
  destruct j; cbn [boost]; rewrite T; unfold Rdiv; ring.
Qed.

Section blk.
  Variables (n : nat) (lk : nat -> R).
  Hypothesis Hn : (1 <= n)%nat.
  Hypothesis L0 : 0 < lk 0%nat.
  Hypothesis LR : 0 < conicResidual n lk.
  Let r := sqrt (conicResidual n lk).
  Let lb := fun j => lk j / r.
  Lemma r_pos : 0 < r. Proof. apply sqrt_lt_R0, LR. Qed.
  Lemma lb_unit : 0 < lb 0%nat /\ conicResidual n lb = 1.
  Proof.
    pose proof r_pos. split; [apply Rdiv_lt_0_compat; lra|]. unfold lb, Rdiv. rewrite residual_scale.
    assert (E : r * r = conicResidual n lk) by (apply sqrt_sqrt; lra). rewrite <- E. field. lra.
  Qed.
  Lemma rho_boost d j : rho_blk n lk d j = 1 / r * boost n (conj lb) d j.
  Proof.
    destruct lb_unit as [B0 B1]. pose proof (w_ge1 n lb B0 B1) as G. pose proof r_pos.
    unfold rho_blk. cbv zeta. fold r.
    destruct j; cbn [boost conj]; rewrite conj_tdot; unfold lb in *; cbv beta in *; [ring|]. field. split; [lra|].
    intros K. assert (N : lk 0%nat / r + 1 <> 0) by lra. apply N. replace (lk 0%nat / r + 1) with ((r + lk 0%nat) / r) by (field; lra).
    replace (r + lk 0%nat) with 0 by lra. unfold Rdiv. ring.
  Qed.
  Lemma step_back d t j : (j < n)%nat ->
    lk j + t * d j = r * boost n lb (fun j => 1 * (match j with O => 1 | _ => 0 end) + t * rho_blk n lk d j) j.
  Proof.
    intros Hj. destruct lb_unit as [B0 B1]. pose proof (w_ge1 n lb B0 B1) as G. pose proof r_pos.
    rewrite boost_lin.
    rewrite (boost_ext n lb (rho_blk n lk d) (fun i => boost n (conj lb) d i * (1 / r)) j) by (auto; intros; rewrite rho_boost; ring).
    rewrite boost_scale, (conj_boost n lb B0 B1) by exact Hj.
    assert (E : boost n lb (fun j => match j with O => 1 | _ => 0 end) j = lb j).
    { assert (T : tdot n lb (fun j => match j with O => 1 | _ => 0 end) = 0).
      { rewrite (tdot_lin' n lb lb lb _ 0 0); [ring|]. intros i Hi. destruct i; [lia|ring]. }
      destruct j; cbn [boost]; rewrite T; field; lra. }
    rewrite E. unfold lb. field. lra.
  Qed.
  Lemma step_interior d t : 0 < t -> t * (sqrt (tdot n (rho_blk n lk d) (rho_blk n lk d)) - rho_blk n lk d 0%nat) < 1 ->
    soc_interior n (fun j => lk j + t * d j).
  Proof.
    intros Ht H. destruct lb_unit as [B0 B1]. pose proof r_pos.
    apply interior_ext with (fun j => r * boost n lb (fun j => 1 * (match j with O => 1 | _ => 0 end) + t * rho_blk n lk d j) j); [exact Hn| |].
    { intros j Hj. symmetry. apply step_back. exact Hj. }
    apply interior_scale; [lra|]. apply boost_interior; auto.
    unfold soc_interior. rewrite <- tdot_tail.
    set (rho := rho_blk n lk d) in *.
    assert (E : tdot n (fun j => 1 * match j with 0%nat => 1 | S _ => 0 end + t * rho j) (fun j => 1 * match j with 0%nat => 1 | S _ => 0 end + t * rho j) = t * t * tdot n rho rho).
    { rewrite (tdot_ext n _ _ (fun j => t * rho j) (fun j => t * rho j)) by (intros j Hj; destruct j; [lia|ring]).
      unfold tdot. induction (seq 1 (n-1)); simpl; [ring|]. rewrite IHl. ring. }
    rewrite E. rewrite sqrt_mult by (try nra; apply tdot_pos). rewrite sqrt_square by lra. lra.
  Qed.
End blk.

Lemma soc_alpha_spec n lk ds dz a : (1 <= n)%nat -> 0 < lk 0%nat -> 0 < conicResidual n lk ->
  soc_alpha n lk ds dz a <= a /\
  forall b k, 0 < b -> b <= soc_alpha n lk ds dz a -> 0 < k < 1 ->
    soc_interior n (fun j => lk j + b * k * ds j) /\ soc_interior n (fun j => lk j + b * k * dz j).
Proof.
  intros Hn L0 LR. unfold soc_alpha. cbv zeta. destruct (Rle_dec (conicResidual n lk) 0); [lra|].
  set (m1 := sqrt (tdot n (rho_blk n lk ds) (rho_blk n lk ds)) - rho_blk n lk ds 0%nat).
  set (m2 := sqrt (tdot n (rho_blk n lk dz) (rho_blk n lk dz)) - rho_blk n lk dz 0%nat).
  pose proof (Rmax_l m1 m2). pose proof (Rmax_r m1 m2). pose proof (Rmax_l (Rmax m1 m2) 0). pose proof (Rmax_r (Rmax m1 m2) 0).
  set (m := Rmax (Rmax m1 m2) 0) in *.
  split; [destruct (Rlt_dec 0 m); [apply Rmin_l|lra]|].
  intros b k Hb Hle Hk.
  assert (BM : b * m <= 1).
  { destruct (Rlt_dec 0 m) as [P|P].
    - pose proof (Rmin_r a (1 / m)). assert (b <= 1 / m) by lra. apply Rmult_le_reg_r with (/ m); [apply Rinv_0_lt_compat; lra|]. replace (b * m * / m) with b by (field; lra). lra.
    - assert (m = 0) by lra. nra. }
  assert (KM : b * k * m < 1). { assert (0 <= b * m) by nra. nra. }
  assert (0 < b * k) by nra.
  split; apply step_interior; auto; (apply Rle_lt_trans with (b * k * m); [apply Rmult_le_compat_l; [lra|]|exact KM]); unfold m1, m2 in *; lra.
Qed.
Lemma socs_alpha_spec lam ds dz q : forall st a, Forall (fun n => (1 <= n)%nat) q -> each_block soc_interior st q lam ->
  socs_alpha st q lam ds dz a <= a /\
  forall b k, 0 < b -> b <= socs_alpha st q lam ds dz a -> 0 < k < 1 ->
    each_block soc_interior st q (fun j => lam j + b * k * ds j) /\ each_block soc_interior st q (fun j => lam j + b * k * dz j).
Proof.
  induction q as [|n q IH]; intros st a F H; cbn [socs_alpha each_block]; [split; [lra|auto]|].
  inversion F as [|? ? F1 F2]; subst. destruct H as [H1 H2]. apply interior_sq in H1. destruct H1 as [H10 H11].
  destruct (soc_alpha_spec n (shift lam st) (shift ds st) (shift dz st) a F1 H10 H11) as [A1 A2].
  destruct (IH (st + n)%nat (soc_alpha n (shift lam st) (shift ds st) (shift dz st) a) F2 H2) as [B1 B2].
  split; [lra|]. intros b k Hb Hle Hk. destruct (B2 b k Hb Hle Hk) as [C1 C2]. destruct (A2 b k Hb ltac:(lra) Hk) as [D1 D2].
  repeat split; assumption.
Qed.

(** The whole step. *)
Lemma step_spec big smax smin scal nl q p ds dz dtau dkappa :
  Forall (fun n => (1 <= n)%nat) q -> 0 <= smin -> 0 < scal < 1 ->
  (forall i, (i < nl)%nat -> 0 < ip_s p i) -> (forall i, (i < nl)%nat -> 0 < ip_z p i) ->
  each_block (soc_root_margin guard) nl q (ip_s p) -> each_block (soc_root_margin guard) nl q (ip_z p) ->
  0 < ip_tau p -> 0 < ip_kappa p ->
  exists W lam, updateNTScalings nl q (ip_s p) (ip_z p) = Some (W, lam) /\
    let alpha := lineSearch big smax smin nl q lam ds (conicNTScaling nl q W dz) (ip_tau p) dtau (ip_kappa p) dkappa in
    smin < alpha ->
    let p' := ip_update nl q W (alpha * scal) p ds dz dtau dkappa in
    interior nl q (ip_s p') /\ interior nl q (ip_z p') /\ 0 < ip_tau p' /\ 0 < ip_kappa p'.
Proof.
  intros F Hmin Hsc S0 Z0 HS HZ HT HK.
  destruct (update_spec nl q (ip_s p) (ip_z p) F S0 Z0 HS HZ) as (W & lam & E & EL & G & LP & BK).
  exists W, lam. split; [exact E|]. intros alpha Ha p'.
  assert (Lpos : forall i, (i < nl)%nat -> 0 < lam i).
  { intros i Hi. rewrite EL, W_lp by exact Hi. apply Rmult_lt_0_compat; [apply (proj1 G i Hi)|apply Z0, Hi]. }
  assert (HZI : forall pre n post, q = pre ++ n :: post -> soc_interior n (shift (ip_z p) (nl + total pre))).
  { intros pre n post Eq. rewrite each_block_all in HZ. destruct (HZ pre n post Eq) as [Q1 Q2]. apply interior_sq. split; [exact Q1|]. pose proof guard_pos.
    unfold conicResidual. rewrite tdot_tail. nra. }
  assert (LI : each_block soc_interior nl q lam).
  { apply each_block_all. intros pre n post Eq. pose proof (size_in _ _ _ _ Eq F) as Hn. pose proof (proj2 G pre n post Eq) as (W0 & W1 & E0 & _).
    apply interior_ext with (fun j => nt_eta (nth (length pre) (sc_soc W) nt_dummy) * boost n (nt_wbar (nth (length pre) (sc_soc W) nt_dummy)) (shift (ip_z p) (nl + total pre)) j); [exact Hn| |].
    - intros j Hj. rewrite EL. symmetry. apply (W_blk nl q W G _ pre n post j Eq Hj).
    - apply interior_scale; [exact E0|]. apply boost_interior; auto. apply (HZI pre n post Eq). }
  set (Wdz := conicNTScaling nl q W dz) in *.
  unfold alpha, lineSearch in Ha, p'. 
  set (a1 := lp_alpha big nl ds Wdz lam) in *. set (a2 := pos_alpha (ip_tau p) dtau a1) in *. set (a3 := pos_alpha (ip_kappa p) dkappa a2) in *.
  set (a4 := socs_alpha nl q lam ds Wdz a3) in *.
  assert (EA : Rmax (Rmin a4 smax) smin = Rmin a4 smax) by (unfold Rmax in *; destruct (Rle_dec (Rmin a4 smax) smin); lra).
  assert (EP : p' = ip_update nl q W (Rmin a4 smax * scal) p ds dz dtau dkappa) by (unfold p'; rewrite EA; reflexivity).
  clearbody p'. subst p'. rewrite EA in Ha. clear EA. set (b := Rmin a4 smax) in *.
  assert (B4 : b <= a4) by apply Rmin_l. assert (BP : 0 < b) by lra.
  destruct (socs_alpha_spec lam ds Wdz q nl a3 F LI) as [A4 C4]. fold a4 in A4, C4. destruct (C4 b scal BP B4 Hsc) as [I1 I2].
  destruct (pos_alpha_spec (ip_kappa p) dkappa a2 HK) as [A3 C3]. fold a3 in A3, C3.
  destruct (pos_alpha_spec (ip_tau p) dtau a1 HT) as [A2 C2]. fold a2 in A2, C2.
  assert (C1 := lp_alpha_spec big nl ds Wdz lam). fold a1 in C1.
  set (t := b * scal) in *. assert (TP : 0 < t) by (unfold t; nra).
  split; [|split; [|split]].
  - unfold interior. rewrite each_block_all. cbn [ip_update ip_s]. split.
    + intros i Hi. destruct (C1 i Hi (Lpos i Hi) b scal BP ltac:(lra) Hsc) as [Q _]. fold t in Q. rewrite W_lp by exact Hi.
      pose proof (proj1 G i Hi) as GW. rewrite EL, W_lp in Q by exact Hi.
      assert (sc_lp W i * (sc_lp W i * ip_z p i) <= ip_s p i).
      { rewrite <- Rmult_assoc, LP by exact Hi. unfold safeDivision. pose proof guard_pos. specialize (S0 i Hi). specialize (Z0 i Hi). destruct (Rlt_dec (ip_z p i) guard).
        - replace (ip_s p i / guard * ip_z p i) with (ip_s p i * (ip_z p i / guard)) by (field; lra). rewrite <- (Rmult_1_r (ip_s p i)) at 2. apply Rmult_le_compat_l; [lra|].
          apply Rmult_le_reg_r with guard; [lra|]. replace (ip_z p i / guard * guard) with (ip_z p i) by (field; lra). lra.
        - right. field. lra. }
      assert (0 < sc_lp W i * (sc_lp W i * ip_z p i + t * ds i)) by (apply Rmult_lt_0_compat; assumption). lra.
    + intros pre n post Eq. pose proof (size_in _ _ _ _ Eq F) as Hn. pose proof (proj2 G pre n post Eq) as (W0 & W1 & E0 & _).
      set (c := nth (length pre) (sc_soc W) nt_dummy) in *.
      rewrite each_block_all in I1. specialize (I1 pre n post Eq).
      apply interior_ext with (fun j => nt_eta c * boost n (nt_wbar c) (shift (fun j => lam j + t * ds j) (nl + total pre)) j); [exact Hn| |].
      * intros j Hj. rewrite (boost_ext n _ _ (fun i => 1 * shift lam (nl + total pre) i + t * shift ds (nl + total pre) i) j) by (auto; intros; unfold shift; ring).
        rewrite boost_lin. unfold shift at 3. 
        change (conicNTScaling nl q W ds (nl + total pre + j)%nat) with (shift (conicNTScaling nl q W ds) (nl + total pre) j).
        rewrite (W_blk nl q W G ds pre n post j Eq Hj). fold c.
        change (ip_s p (nl + total pre + j)%nat) with (shift (ip_s p) (nl + total pre) j). rewrite <- (BK pre n post Eq j Hj), (W_blk nl q W G lam pre n post j Eq Hj). fold c. ring.
      * apply interior_scale; [exact E0|]. apply boost_interior; auto.
  - unfold interior. rewrite each_block_all. cbn [ip_update ip_z]. split.
    + intros i Hi. destruct (C1 i Hi (Lpos i Hi) b scal BP ltac:(lra) Hsc) as [_ Q]. fold t in Q. 
      pose proof (proj1 G i Hi) as GW. unfold Wdz in Q. rewrite EL, !W_lp in Q by exact Hi. 
      apply Rmult_lt_reg_l with (sc_lp W i); [exact GW|]. lra.
    + intros pre n post Eq. pose proof (size_in _ _ _ _ Eq F) as Hn. pose proof (proj2 G pre n post Eq) as (W0 & W1 & E0 & _).
      set (c := nth (length pre) (sc_soc W) nt_dummy) in *.
      rewrite each_block_all in I2. specialize (I2 pre n post Eq).
      assert (J0 : 0 < conj (nt_wbar c) 0%nat) by exact W0. pose proof (conj_residual n _ W1) as J1.
      apply interior_ext with (fun j => / nt_eta c * boost n (conj (nt_wbar c)) (shift (fun j => lam j + t * Wdz j) (nl + total pre)) j); [exact Hn| |].
      * intros j Hj. 
        rewrite (boost_ext n _ _ (fun i => nt_eta c * boost n (nt_wbar c) (fun i => 1 * shift (ip_z p) (nl + total pre) i + t * shift dz (nl + total pre) i) i) j); [| |exact Hj].
        -- rewrite (boost_ext n _ _ (fun i => boost n (nt_wbar c) (fun i => 1 * shift (ip_z p) (nl + total pre) i + t * shift dz (nl + total pre) i) i * nt_eta c) j) by (auto; intros; ring).
           rewrite boost_scale, (boost_conj n _ W0 W1) by exact Hj. unfold shift. field. lra.
        -- intros i Hi. rewrite boost_lin. rewrite EL. unfold shift at 1. 
           change (conicNTScaling nl q W (ip_z p) (nl + total pre + i)%nat) with (shift (conicNTScaling nl q W (ip_z p)) (nl + total pre) i).
           change (Wdz (nl + total pre + i)%nat) with (shift (conicNTScaling nl q W dz) (nl + total pre) i).
           rewrite !(W_blk nl q W G _ pre n post i Eq Hi). fold c. ring.
      * apply interior_scale; [apply Rinv_0_lt_compat, E0|]. apply boost_interior; auto.
  - cbn [ip_update ip_tau]. unfold t. apply C2; auto; lra.
  - cbn [ip_update ip_kappa]. unfold t. apply C3; auto; lra.
Qed.

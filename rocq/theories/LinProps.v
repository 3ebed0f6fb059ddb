(** * C13, C17, C53: the KKT system, its permuted solve and the iterative refinement *)
From Coq Require Import Reals List Arith Bool Lia Lra FunctionalExtensionality.
From Verif Require Import Base BaseProofs ConeModel LdlModel LdlSpec LdlProofs LdlProofs3 LdlProps LinModel LinSpec LinProofs LinProofs2 LinProofs3 LinProofs4 LinProofs5 LinProofs6 LinProofs7.
Import ListNotations.
Open Scope R_scope.

(** Valid problem data: every block has a row; no duplicate or out-of-range entries in the stored columns. *)
Definition valid (d : ldata) : Prop :=
  (forall m, In m (d_q d) -> (1 <= m)%nat) /\ (forall r, (r < d_p d)%nat -> col_ok (d_n d) (d_At d r)) /\
  (forall r, (r < d_nl d + fold_right Nat.add 0%nat (d_q d))%nat -> col_ok (d_n d) (d_Gt d r)).
Lemma valid_wf d : valid d -> wfdata d.
Proof. intros (H1 & H2 & H3). split; auto. now apply Forall_forall. Qed.

(** The stored permuted matrix after the build, any history of updates, and a last update with scaling W. *)
Definition stored0 (d : ldata) (reg : R) (inv : nat -> nat) : smatrix := perm_matrix inv (kkt_triplets d reg) (perm_value inv (kkt_triplets d reg)).
Definition stored (d : ldata) (reg : R) (inv : nat -> nat) (hist : list (option scaling)) (W : scaling) : smatrix :=
  let T := kkt_triplets d reg in
  perm_matrix inv T (updateMatrix d reg (permK inv T) W (run_updates d reg (permK inv T) hist (perm_value inv T))).
(** The stored matrix as an operator on vectors in the user's order. *)
Definition stored_op (d : ldata) (M : smatrix) (perm inv : nat -> nat) (X : nat -> R) (i : nat) : R :=
  mulv (extSizeProb d) (symm M) (fun k => X (perm k)) (inv i).

Lemma stored_holds d reg inv hist W : wfdata d -> (forall W', In (Some W') hist -> length (sc_soc W') = length (d_q d)) -> length (sc_soc W) = length (d_q d) ->
  holds inv (kkt_triplets d reg) (gen_T d reg (fun i => - sc_lp2 W i - reg) (upd_slots reg (d_q d) (sc_soc W)))
    (updateMatrix d reg (permK inv (kkt_triplets d reg)) W (run_updates d reg (permK inv (kkt_triplets d reg)) hist (perm_value inv (kkt_triplets d reg)))).
Proof.
  intros WD Hh HW. destruct (run_updates_holds d reg inv (kkt_triplets d reg) (wd_q d WD) hist (perm_value inv (kkt_triplets d reg)) (fun _ => -1) (map init_slot (d_q d)) Hh ltac:(apply map_length)) as (lpv & fs & Hf & HH).
  { rewrite <- kkt_triplets_gen by apply (wd_q d WD). apply holds_init. }
  eapply updateMatrix_holds; eauto. apply (wd_q d WD).
Qed.

(** C53.  For every valid problem (any numbers of variables, equalities, linear rows and blocks of any sizes), every fill-reducing
    permutation, every history of scaling updates and re-initialisations and every last scaling W: the stored permuted upper triangle is
    well formed and, read back in the user's order, is the regularised KKT matrix [reg A' G'; A -reg 0; G 0 -(W^2+reg)] with the scalings of
    the last update only (in the extended form with two extra rows per block); no scaling is written to a wrong entry. *)
Theorem C53_stored_matrix_is_kkt : forall d reg perm inv hist W,
  valid d -> is_perm (extSizeProb d) perm inv ->
  (forall W', In (Some W') hist -> length (sc_soc W') = length (d_q d)) -> length (sc_soc W) = length (d_q d) ->
  upper (extSizeProb d) (stored d reg inv hist W) /\
  is_kkt (d_n d) (d_p d) (d_nl d) (d_q d) (fun r i => entry (d_At d r) i) (fun r i => entry (d_Gt d r) i) reg (sc_lp2 W) (sc_soc W)
    (stored_op d (stored d reg inv hist W) perm inv).
Proof.
  intros d reg perm inv hist W HV HP Hh HW. pose proof (valid_wf d HV) as WD. pose proof (stored_holds d reg inv hist W WD Hh HW) as HH.
  assert (Hf : length (upd_slots reg (d_q d) (sc_soc W)) = length (d_q d)) by now apply upd_slots_length.
  pose proof (WFT_gen d reg (fun i => - sc_lp2 W i - reg) _ WD Hf) as HWF. split.
  - eapply perm_matrix_upper; eauto. now apply (perm_inj _ perm).
  - assert (E : forall X i, (i < extSizeProb d)%nat -> stored_op d (stored d reg inv hist W) perm inv X i = symv (gen_T d reg (fun i => - sc_lp2 W i - reg) (upd_slots reg (d_q d) (sc_soc W))) X i).
    { intros X i Hi. unfold stored_op, stored. rewrite (kkt_product d reg perm inv _ _ _ _ (fun k => X (perm k)) i WD Hf HP HH Hi).
      eapply symv_ext; [exact HWF|]. intros k Hk. now rewrite (proj2 (proj1 HP k Hk)). }
    destruct (symv_kkt d reg W WD HW) as [K1 K2 K3 K4]. unfold extSizeProb, extSizeCone in E. split.
    + intros X i Hi. rewrite E by lia. now apply K1.
    + intros X r Hr. rewrite E by lia. now apply K2.
    + intros X r Hr. rewrite E by lia. now apply K3.
    + intros X k m b Hk Hb. specialize (K4 X k m b Hk Hb). cbv zeta in K4 |- *. pose proof (blk_range _ _ _ (d_nl d) Hk) as Hr.
      assert (Hk' : (k < length (d_q d))%nat) by (apply nth_error_Some; congruence).
      assert (He : (ext_start (d_nl d) (d_q d) k + m + 2 <= d_nl d + total (d_q d) + 2 * length (d_q d))%nat) by (unfold ext_start; lia).
      destruct K4 as (A1 & A2 & A3). split; [|split].
      * intros j Hj. rewrite E by lia. now apply A1.
      * rewrite E by lia. exact A2.
      * rewrite E by lia. rewrite A3. do 2 f_equal; lia.
Qed.
Print Assumptions C53_stored_matrix_is_kkt.

(** C53, signs.  With a positive static regularisation, nonnegative linear scalings and positive block scalings, the sign handed to the
    factorisation for each row is the sign of that row's own diagonal entry in the stored matrix (+ for variables and for the second extra row
    of each block, - for all other rows), so the dynamic regularisation never pushes a pivot to the wrong side of zero. *)
Theorem C53_signs_match_diagonal : forall d reg perm inv hist W,
  valid d -> is_perm (extSizeProb d) perm inv ->
  (forall W', In (Some W') hist -> length (sc_soc W') = length (d_q d)) -> length (sc_soc W) = length (d_q d) ->
  0 < reg -> (forall r, (r < d_nl d)%nat -> 0 <= sc_lp2 W r) -> (forall b, In b (sc_soc W) -> 0 < nt_eta2 b /\ 0 <= nt_d1 b) ->
  forall i, (i < extSizeProb d)%nat ->
    (sign d i = 1 \/ sign d i = -1) /\
    0 < sign d i * stored_op d (stored d reg inv hist W) perm inv (fun k => if Nat.eqb k i then 1 else 0) i.
Proof.
  intros d reg perm inv hist W HV HP Hh HW Hr Hw Hb i Hi. split; [apply sign_pm|].
  destruct (C53_stored_matrix_is_kkt d reg perm inv hist W HV HP Hh HW) as [_ HK].
  exact (diag_signs d reg (sc_lp2 W) (sc_soc W) _ HK Hr Hw HW (proj1 HV) Hb i Hi).
Qed.
Print Assumptions C53_signs_match_diagonal.

(** C13.  Same quantification, plus every right-hand side (given, as all callers do, with the user's entry i at position inv i), dynamic
    regularisation eps >= 0, delta > 0 and content of the work arrays: factorisation and solve succeed; the solution read in the user's order is
    the one and only solution of (K + diag(E)) X = b with K the KKT matrix and E zero except where a pivot had to be regularised; and the
    unpermuted search direction has the x, y and z parts of X in the user's order, without the extra rows. *)
Theorem C13_permutation_undone : forall d reg perm inv hist W eps delta y0 s0 permB,
  valid d -> is_perm (extSizeProb d) perm inv ->
  (forall W', In (Some W') hist -> length (sc_soc W') = length (d_q d)) -> length (sc_soc W) = length (d_q d) -> 0 <= eps -> 0 < delta ->
  let N := extSizeProb d in
  let K := stored_op d (stored d reg inv hist W) perm inv in
  exists x s E,
    ldl_run N (stored0 d reg inv) (stored d reg inv hist W) (fun i => sign d (perm i)) eps delta y0 s0 permB = Ok (x, s) /\
    is_kkt (d_n d) (d_p d) (d_nl d) (d_q d) (fun r i => entry (d_At d r) i) (fun r i => entry (d_Gt d r) i) reg (sc_lp2 W) (sc_soc W) K /\
    (forall i, (i < N)%nat -> regularised (sign d i) eps delta (m_D s (inv i) - E i) (m_D s (inv i))) /\
    let X := fun i => x (inv i) in
    (forall i, (i < N)%nat -> K X i + E i * X i = permB (inv i)) /\
    (forall X', (forall i, (i < N)%nat -> K X' i + E i * X' i = permB (inv i)) -> forall i, (i < N)%nat -> X' i = X i) /\
    let D := unpermute d inv x in
    (forall i, dx D i = X i) /\ (forall r, dy D r = X (d_n d + r)%nat) /\
    (forall r, (r < d_nl d + fold_right Nat.add 0%nat (d_q d))%nat -> dz D r = X (d_n d + d_p d + ext_row (d_nl d) (d_q d) r)%nat).
Proof.
  intros d reg perm inv hist W eps delta y0 s0 permB HV HP Hh HW He Hd N K.
  destruct (C53_stored_matrix_is_kkt d reg perm inv hist W HV HP Hh HW) as [HU HK].
  assert (Hpat : forall k, (k < N)%nat -> map fst (stored d reg inv hist W k) = map fst (stored0 d reg inv k)).
  { intros k _. unfold stored, stored0, perm_matrix. rewrite !map_map. reflexivity. }
  destruct (C16_factorise_and_solve N (stored0 d reg inv) (stored d reg inv hist W) (fun i => sign d (perm i)) eps delta y0 s0 permB HU Hpat He Hd ltac:(intros; apply sign_pm)) as (x & s & L & E & HR & _ & _ & HD & HS & HUq).
  exists x, s, (fun i => E (inv i)). split; [exact HR|]. split; [exact HK|]. split.
  { intros i Hi. destruct (proj1 HP i Hi) as [Hii Hpi]. destruct (HD (inv i) Hii) as [_ Q]. cbv beta in Q. rewrite Hpi in Q. exact Q. }
  assert (Hsum : forall v i, (i < N)%nat -> mulv N (fun i j => symm (stored d reg inv hist W) i j + (if Nat.eqb i j then E i else 0)) v i = mulv N (symm (stored d reg inv hist W)) v i + E i * v i).
  { intros v i Hi. unfold mulv. rewrite (rsum_ext N _ (fun j => symm (stored d reg inv hist W) i j * v j + (if Nat.eqb j i then E i * v i else 0))).
    - rewrite rsum_plus, rsum_delta by assumption. reflexivity.
    - intros j Hj. rewrite (Nat.eqb_sym i j). destruct (Nat.eqb_spec j i) as [->|]; lra. }
  assert (Hperm : forall v i, mulv N (symm (stored d reg inv hist W)) (fun k => v (inv (perm k))) i = mulv N (symm (stored d reg inv hist W)) v i).
  { intros v i. unfold mulv. apply rsum_ext. intros k Hk. now rewrite (proj2 (proj2 HP k Hk)). }
  split; [|split].
  - intros i Hi. destruct (proj1 HP i Hi) as [Hii Hpi]. unfold K, stored_op. fold N. rewrite Hperm. rewrite <- Hsum by assumption. now apply HS.
  - intros X' HX' i Hi. destruct (proj1 HP i Hi) as [Hii Hpi]. rewrite <- (HUq (fun k => X' (perm k))); [now rewrite Hpi| |assumption].
    intros k Hk. rewrite Hsum by assumption. destruct (proj2 HP k Hk) as [A B]. specialize (HX' (perm k) A). rewrite B in HX'. rewrite <- HX'. unfold K, stored_op. rewrite B. reflexivity.
  - apply unpermute_order.
Qed.
Print Assumptions C13_permutation_undone.

Lemma norm_inf_attained N v : (0 < N)%nat -> exists j, (j < N)%nat /\ norm_inf N v = Rabs (v j).
Proof.
  intros HN. unfold norm_inf. assert (G : forall l m, (exists j, In j l /\ fold_left (fun m i => Rmax m (Rabs (v i))) l m = Rabs (v j)) \/ fold_left (fun m i => Rmax m (Rabs (v i))) l m = m).
  { induction l as [|a l IH]; intros m; cbn [fold_left]; [now right|]. destruct (IH (Rmax m (Rabs (v a)))) as [(j & A & B)|B].
    - left. exists j. split; [now right|exact B].
    - rewrite B. unfold Rmax. destruct (Rle_dec m (Rabs (v a))); [left; exists a; split; [now left|reflexivity]|now right]. }
  destruct (G (seq 0 N) 0) as [(j & A & B)|B].
  - exists j. apply in_seq in A. split; [lia|exact B].
  - exists 0%nat. split; [assumption|]. pose proof (norm_inf_ge N v 0%nat HN) as H. unfold norm_inf in H. rewrite B in *. pose proof (Rabs_pos (v 0%nat)). lra.
Qed.

(** C17, loop.  For every problem layout, permutation, factorisation routine [chol], error function history, limits and thresholds: solve terminates,
    uses at most [limit] corrections, and returns the unpermuted last iterate of a sequence that starts with the plain solution,
    adds at every step the solve of the permuted error, and whose error (largest absolute entry) never increases: each entry of the
    error after a kept correction is bounded by some entry of the error before it. *)
Theorem C17_refinement_monotone : forall d reg W annz perm inv chol limit acc factor Pe0 dX0 permB,
  is_perm (extSizeProb d) perm inv ->
  let N := extSizeProb d in
  let err := lin_error d reg W annz inv permB in
  exists D r Xs, lin_solve d reg W annz inv chol limit acc factor Pe0 dX0 permB = Ok (D, r) /\ (r <= limit)%nat /\
    Xs 0%nat = chol permB /\ D = unpermute d inv (Xs r) /\
    (forall k, (k < r)%nat -> exists P, (forall i, (i < N)%nat -> P (inv i) = err (Xs k) i) /\ forall i, Xs (S k) i = Xs k i + chol P i) /\
    (forall k i, (k < r)%nat -> (i < N)%nat -> exists j, (j < N)%nat /\ Rabs (err (Xs (S k)) i) <= Rabs (err (Xs k) j)).
Proof.
  intros d reg W annz perm inv chol limit acc factor Pe0 dX0 permB HP N err.
  destruct (refine_spec N err chol perm inv limit ((1 + norm_inf N permB) * acc) factor HP (limit + 2) Pe0 0 (chol permB) dX0 nan (fun _ => chol permB)) as (Xr & r & Ys & R1 & R2 & R3 & R4 & R5 & R6); try (intros; lia); try reflexivity.
  exists (unpermute d inv Xr), r, Ys. split; [|split; [|split; [|split; [|split]]]]; auto.
  - unfold lin_solve. fold N err. rewrite R1. reflexivity.
  - apply functional_extensionality. exact R3.
  - f_equal. apply functional_extensionality. exact R4.
  - intros k i Hk Hi. destruct (norm_inf_attained N (err (Ys k)) ltac:(lia)) as (j & Hj & E). exists j. split; [assumption|].
    eapply Rle_trans; [apply norm_inf_ge; eassumption|]. rewrite <- E. now apply R6.
Qed.
Print Assumptions C17_refinement_monotone.

(** C17, meaning of the error vector.  After an update with scaling W, the error of an iterate is exactly b - K X in the rows of x, y (when A has
    stored entries), the linear cone, and all rows of a block except its last cone row (off by -2 reg z) and its second extra row
    (off by +reg): what is proved is the exact value in every row. *)
Theorem C17_error_is_residual_partial : forall d reg perm inv hist W permB Px,
  valid d -> is_perm (extSizeProb d) perm inv ->
  (forall W', In (Some W') hist -> length (sc_soc W') = length (d_q d)) -> length (sc_soc W) = length (d_q d) -> transposed d ->
  let K := stored_op d (stored d reg inv hist W) perm inv in
  let X := fun i => Px (inv i) in let b := fun i => permB (inv i) in
  let err := lin_error d reg (Some W) true inv permB Px in
  (forall i, (i < d_n d + d_p d + d_nl d)%nat -> err i = b i - K X i) /\
  (forall k m j, nth_error (d_q d) k = Some m -> (j < m + 2)%nat ->
     let i := (d_n d + d_p d + ext_start (d_nl d) (d_q d) k + j)%nat in
     err i = b i - K X i + (if Nat.eqb j (m - 1) then - (2 * reg * X i) else if Nat.eqb j (m + 1) then reg * X i else 0)).
Proof.
  intros d reg perm inv hist W permB Px HV HP Hh HW HT K X b err. destruct (C53_stored_matrix_is_kkt d reg perm inv hist W HV HP Hh HW) as [_ HK].
  pose proof (valid_wf d HV) as WD. split.
  - intros i Hi. destruct (Nat.lt_ge_cases i (d_n d)); [eapply (err_x d reg W inv permB Px K); eassumption|]. destruct (Nat.lt_ge_cases i (d_n d + d_p d)).
    + replace i with (d_n d + (i - d_n d))%nat by lia. eapply (err_y d reg W inv permB Px K) with (annz := true); try eassumption; lia.
    + replace i with (d_n d + d_p d + (i - d_n d - d_p d))%nat by lia. eapply (err_lp d reg W inv permB Px K); try eassumption; lia.
  - intros k m j Hk Hj. assert (Hk' : (k < length (sc_soc W))%nat) by (rewrite HW; apply nth_error_Some; congruence).
    destruct (nth_error (sc_soc W) k) as [bb|] eqn:Hb; [|apply nth_error_None in Hb; lia].
    eapply (err_soc d reg W inv permB Px K); eassumption.
Qed.
Print Assumptions C17_error_is_residual_partial.

(** C17, failure: the exact solution of the stored system is not recognised as one when a block multiplier's last entry is nonzero. *)
Definition ex_blk : ntsoc := mkNT (fun _ => 1) 1 1 (1/2) 1 1 1.
Definition ex_d : ldata := mkLD 1 1 1 [2%nat; 1%nat] (fun _ => [(0%nat, 3)]) (fun r => match r with 0%nat => [] | _ => [(0%nat, INR r)] end)
  (fun _ => [(0%nat, 3)]) (fun _ => [(1%nat, 1); (2%nat, 2); (3%nat, 3)]).
Definition ex_W : scaling := mkSc (fun _ => 1) (fun _ => 1) [ex_blk; ex_blk].
(** The reversal permutation of the 10 rows. *)
Definition ex_rev (i : nat) : nat := (9 - i)%nat.
Example ex_valid : valid ex_d /\ is_perm (extSizeProb ex_d) ex_rev ex_rev /\ length (sc_soc ex_W) = length (d_q ex_d).
Proof.
  split; [|split; [|reflexivity]].
  - split; [|split].
    + intros m [<-|[<-|[]]]; lia.
    + intros r _. split; [repeat constructor; simpl; tauto|]. intros e [<-|[]]. simpl. lia.
    + intros r Hr. destruct r; [split; [constructor|intros e []]|]. split; [repeat constructor; simpl; tauto|]. intros e [<-|[]]. simpl. lia.
  - split; intros i Hi; change (extSizeProb ex_d) with 10%nat in *; unfold ex_rev; lia.
Qed.
Example ex_transposed : transposed ex_d.
Proof.
  split; intros i v Hi; assert (i = 0)%nat by (simpl in Hi; lia); subst i; unfold col_dot, entry; simpl; lra.
Qed.
Theorem C17_exact_solution_refuted : forall reg hist, reg <> 0 -> (forall W', In (Some W') hist -> length (sc_soc W') = 2%nat) ->
  let K := stored_op ex_d (stored ex_d reg ex_rev hist ex_W) ex_rev ex_rev in
  exists permB Px, (forall i, (i < 10)%nat -> K (fun i => Px (ex_rev i)) i = permB (ex_rev i)) /\
    exists i, (i < 10)%nat /\ lin_error ex_d reg (Some ex_W) true ex_rev permB Px i <> 0.
Proof.
  intros reg hist Hr Hh K. destruct ex_valid as (HV & HP & HW). exists (fun j => K (fun _ => 1) (ex_rev j)), (fun _ => 1). split.
  - intros i Hi. do 2 f_equal. unfold ex_rev. lia.
  - exists 4%nat. split; [lia|].
    destruct (C17_error_is_residual_partial ex_d reg ex_rev ex_rev hist ex_W (fun j => K (fun _ => 1) (ex_rev j)) (fun _ => 1) HV HP Hh HW ex_transposed) as [_ H].
    specialize (H 0%nat 2%nat 1%nat eq_refl ltac:(lia)). cbn [ex_d d_n d_p d_nl d_q ext_start blk_start firstn fold_right Nat.add Nat.mul Nat.sub Nat.eqb] in H.
    change (mkLD 1 1 1 [2%nat; 1%nat] _ _ _ _) with ex_d in H. fold K in H. change (ex_rev (ex_rev 4)) with 4%nat in H.
    intros Z. rewrite Z in H. apply Hr. lra.
Qed.
Print Assumptions C17_exact_solution_refuted.

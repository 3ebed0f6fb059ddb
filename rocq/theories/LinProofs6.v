(** Proofs for the KKT layer, part 6: the error vector of the refinement loop. *)
From Coq Require Import Reals List Arith Bool Lia Lra FunctionalExtensionality.
From Verif Require Import Base BaseProofs ConeModel LdlModel LdlSpec LdlProofs LdlProofs2 LdlProofs3 LinModel LinSpec LinProofs LinProofs2 LinProofs3 LinProofs4 LinProofs5.
Import ListNotations.
Open Scope R_scope.

Lemma tdot_rsum m u v : tdot m u v = rsum m (fun i => if Nat.eqb i 0 then 0 else u i * v i).
Proof.
  unfold tdot. change (fold_right Rplus 0 (map (fun j => u j * v j) (seq 1 (m - 1)))) with (lsum (fun j => u j * v j) (seq 1 (m - 1))).
  rewrite lsum_seq. destruct m as [|k]; [reflexivity|]. rewrite rsum_S_first. cbn [Nat.eqb]. replace (S k - 1)%nat with k by lia. rewrite Rplus_0_l. reflexivity.
Qed.
Lemma scal2_arrow b m x y j : (1 <= m)%nat -> (j < m + 2)%nat -> scal2_blk b m x y j = y j + block_arrow m b x j.
Proof.
  intros Hm Hj. unfold scal2_blk, block_arrow, arrow. rewrite tdot_rsum. destruct (Nat.eqb_spec j 0) as [->|]; [reflexivity|].
  destruct (Nat.ltb_spec j m); [reflexivity|]. destruct (Nat.eqb_spec j m) as [->|]; [reflexivity|]. replace j with (S m) by lia. reflexivity.
Qed.
Lemma scaling2_low x : forall q bs e y i, (i < e)%nat -> scaling2_soc x e q bs y i = y i.
Proof.
  induction q as [|m q IH]; intros [|b bs] e y i Hi; try reflexivity. cbn [scaling2_soc]. rewrite IH by lia.
  destruct (Nat.leb_spec e i); [lia|reflexivity].
Qed.
Lemma scaling2_row x : forall q bs e y k m b j, nth_error q k = Some m -> nth_error bs k = Some b -> (j < m + 2)%nat ->
  let e' := (e + total (firstn k q) + 2 * k)%nat in
  scaling2_soc x e q bs y (e' + j)%nat = scal2_blk b m (shift x e') (shift y e') j.
Proof.
  induction q as [|m0 q IH]; intros [|b0 bs] e y [|k] m b j Hk Hb Hj; cbn [nth_error] in *; try discriminate.
  - injection Hk as ->. injection Hb as ->. cbv zeta. cbn [firstn total fold_right scaling2_soc]. replace (e + 0 + 2 * 0)%nat with e by lia.
    rewrite scaling2_low by lia. destruct (Nat.leb_spec e (e + j)), (Nat.ltb_spec (e + j) (e + m + 2)); try lia. cbn [andb]. replace (e + j - e)%nat with j by lia. reflexivity.
  - cbv zeta. cbn [firstn total fold_right scaling2_soc]. fold (total (firstn k q)).
    pose proof (IH bs (e + m0 + 2)%nat (fun i => if (Nat.leb e i && Nat.ltb i (e + m0 + 2))%bool then scal2_blk b0 m0 (shift x e) (shift y e) (i - e) else y i) k m b j Hk Hb Hj) as E. cbv zeta in E.
    replace (e + m0 + 2 + total (firstn k q) + 2 * k)%nat with (e + (m0 + total (firstn k q)) + 2 * S k)%nat in E by lia. rewrite E.
    f_equal. apply functional_extensionality. intros t. unfold shift at 1.
    destruct (Nat.ltb_spec (e + (m0 + total (firstn k q)) + 2 * S k + t) (e + m0 + 2)); [lia|]. rewrite andb_false_r. reflexivity.
Qed.
Lemma errz_low Gdx z reg : forall q e st ez i, (i < e)%nat -> Forall (fun m => (1 <= m)%nat) q -> errz_soc Gdx z reg e st q ez i = ez i.
Proof.
  induction q as [|m q IH]; intros e st ez i Hi Hq; [reflexivity|]. inversion Hq; subst. cbn [errz_soc]. rewrite IH by (auto; lia).
  destruct (Nat.leb_spec e i); [lia|]. cbn [andb]. destruct (Nat.eqb_spec i (e + m - 1)); [lia|reflexivity].
Qed.
Lemma errz_row Gdx z reg : forall q e st ez k m j, Forall (fun m => (1 <= m)%nat) q -> nth_error q k = Some m -> (j < m + 2)%nat ->
  let e' := (e + total (firstn k q) + 2 * k)%nat in let s := (st + total (firstn k q))%nat in
  errz_soc Gdx z reg e st q ez (e' + j)%nat =
    if Nat.ltb j (m - 1) then ez (e' + j)%nat + (- Gdx (s + j)%nat + reg * z (s + j)%nat)
    else if Nat.eqb j (m - 1) then ez (e' + j)%nat - (Gdx (s + j)%nat + reg * z (s + j)%nat) else ez (e' + j)%nat.
Proof.
  induction q as [|m0 q IH]; intros e st ez [|k] m j Hq Hk Hj; cbn [nth_error] in *; try discriminate; inversion Hq; subst; cbv zeta; cbn [firstn total fold_right errz_soc].
  - injection Hk as ->. replace (e + 0 + 2 * 0)%nat with e by lia. rewrite Nat.add_0_r. rewrite errz_low by (auto; lia).
    destruct (Nat.leb_spec e (e + j)); [|lia]. cbn [andb]. replace (e + j - e)%nat with j by lia.
    destruct (Nat.ltb_spec (e + j) (e + (m - 1))), (Nat.ltb_spec j (m - 1)); try lia; [reflexivity|].
    destruct (Nat.eqb_spec (e + j) (e + m - 1)), (Nat.eqb_spec j (m - 1)); try lia; [|reflexivity]. replace (st + m - 1)%nat with (st + j)%nat by lia. reflexivity.
  - fold (total (firstn k q)).
    match goal with |- errz_soc _ _ _ _ _ _ ?y _ = _ => pose proof (IH (e + m0 + 2)%nat (st + m0)%nat y k m j H2 Hk Hj) as E end. cbv zeta in E.
    replace (e + m0 + 2 + total (firstn k q) + 2 * k)%nat with (e + (m0 + total (firstn k q)) + 2 * S k)%nat in E by lia.
    replace (st + m0 + total (firstn k q))%nat with (st + (m0 + total (firstn k q)))%nat in E by lia. rewrite E.
    set (I := (e + (m0 + total (firstn k q)) + 2 * S k + j)%nat).
    assert (F : (if (Nat.leb e I && Nat.ltb I (e + (m0 - 1)))%bool then ez I + (- Gdx (st + (I - e))%nat + reg * z (st + (I - e))%nat)
                 else if Nat.eqb I (e + m0 - 1) then ez I - (Gdx (st + m0 - 1)%nat + reg * z (st + m0 - 1)%nat) else ez I) = ez I).
    { destruct (Nat.ltb_spec I (e + (m0 - 1))); [unfold I in *; lia|]. rewrite andb_false_r. destruct (Nat.eqb_spec I (e + m0 - 1)); [unfold I in *; lia|reflexivity]. }
    rewrite F. reflexivity.
Qed.

(** Am and Gm are the transposes of At and Gt. *)
Definition transposed (d : ldata) : Prop :=
  (forall i v, (i < d_n d)%nat -> col_dot (d_Am d i) v = rsum (d_p d) (fun r => entry (d_At d r) i * v r)) /\
  (forall i v, (i < d_n d)%nat -> col_dot (d_Gm d i) v = rsum (d_nl d + total (d_q d)) (fun r => entry (d_Gt d r) i * v r)).

Lemma extra_in : forall q k m j, nth_error q k = Some m -> (j < m)%nat -> extra q (total (firstn k q) + j) = (2 * k)%nat.
Proof.
  induction q as [|m0 q IH]; intros [|k] m j H Hj; cbn [nth_error] in *; try discriminate; cbn [firstn total fold_right extra].
  - injection H as ->. destruct (Nat.ltb_spec (0 + j) m); [reflexivity|lia].
  - fold (total (firstn k q)). destruct (Nat.ltb_spec (m0 + total (firstn k q) + j) m0); [lia|]. replace (m0 + total (firstn k q) + j - m0)%nat with (total (firstn k q) + j)%nat by lia. rewrite (IH k m j) by assumption. lia.
Qed.
Section Error.
Context (d : ldata) (reg : R) (W : scaling) (inv : nat -> nat) (permB Px : nat -> R) (K : (nat -> R) -> nat -> R).
Hypothesis WD : wfdata d.
Hypothesis HT : transposed d.
Hypothesis HW : length (sc_soc W) = length (d_q d).
Hypothesis HK : is_kkt (d_n d) (d_p d) (d_nl d) (d_q d) (fun r i => entry (d_At d r) i) (fun r i => entry (d_Gt d r) i) reg (sc_lp2 W) (sc_soc W) K.
Let X := fun i => Px (inv i).
Let b := fun i => permB (inv i).
Let n := d_n d. Let p := d_p d. Let nl := d_nl d. Let q := d_q d.
Lemma err_x annz i : (i < n)%nat -> lin_error d reg (Some W) annz inv permB Px i = b i - K X i.
Proof.
  intros Hi. unfold lin_error. fold n. destruct (Nat.ltb_spec i n); [|lia]. destruct (unpermute_order d inv Px) as (Ux & Uy & Uz).
  rewrite (proj1 HT) by assumption. rewrite (proj2 HT) by assumption. rewrite (kkt_x _ _ _ _ _ _ _ _ _ _ HK) by assumption.
  rewrite Ux. unfold X, b.
  rewrite (rsum_ext (d_p d) _ (fun r => entry (d_At d r) i * Px (inv (d_n d + r)%nat))) by (intros; now rewrite Uy).
  rewrite (rsum_ext (d_nl d + total (d_q d)) _ (fun r => entry (d_Gt d r) i * Px (inv (d_n d + d_p d + ext_row (d_nl d) (d_q d) r)%nat))) by (intros; now rewrite Uz).
  unfold total. lra.
Qed.
Lemma Gdx_eq r : (r < nl + total q)%nat -> col_dot (d_Gt d r) (dx (unpermute d inv Px)) = rsum n (fun i => entry (d_Gt d r) i * X i).
Proof. intros Hr. rewrite (col_dot_entry n) by now apply (wd_G d WD). apply rsum_ext. intros. now rewrite (proj1 (unpermute_order d inv Px)). Qed.
Lemma err_y annz r : (r < p)%nat -> lin_error d reg (Some W) annz inv permB Px (n + r)%nat = if annz then b (n + r)%nat - K X (n + r)%nat else b (n + r)%nat.
Proof.
  intros Hr. unfold lin_error. fold n p. destruct (Nat.ltb_spec (n + r) n); [lia|]. destruct (Nat.ltb_spec (n + r) (n + p)); [|lia]. destruct annz; [|reflexivity].
  destruct (unpermute_order d inv Px) as (Ux & Uy & Uz). replace (n + r - n)%nat with r by lia. rewrite (col_dot_entry n) by now apply (wd_A d WD).
  rewrite (kkt_y _ _ _ _ _ _ _ _ _ _ HK) by assumption. rewrite Uy. unfold X, b. fold n.
  rewrite (rsum_ext n _ (fun i => entry (d_At d r) i * Px (inv i))) by (intros; now rewrite Ux). lra.
Qed.
Lemma err_lp annz r : (r < nl)%nat -> lin_error d reg (Some W) annz inv permB Px (n + p + r)%nat = b (n + p + r)%nat - K X (n + p + r)%nat.
Proof.
  intros Hr. unfold lin_error. fold n p nl q. destruct (Nat.ltb_spec (n + p + r) n); [lia|]. destruct (Nat.ltb_spec (n + p + r) (n + p)); [lia|].
  replace (n + p + r - (n + p))%nat with r by lia. unfold conicNTScaling2. rewrite scaling2_low by assumption. destruct (Nat.ltb_spec r nl); [|lia].
  rewrite errz_low by (try assumption; apply (wd_q d WD)). rewrite (proj2 (Nat.ltb_lt r nl)) by assumption.
  rewrite Gdx_eq by lia. rewrite (kkt_lp _ _ _ _ _ _ _ _ _ _ HK) by assumption.
  destruct (unpermute_order d inv Px) as (Ux & Uy & Uz). rewrite Uz by (fold nl; lia). unfold permdZ, ext_row. fold nl n p. destruct (Nat.ltb_spec r nl); [|lia].
  unfold X, b. replace (r + (n + p))%nat with (n + p + r)%nat by lia. lra.
Qed.
Lemma err_soc annz k m bb j : nth_error q k = Some m -> nth_error (sc_soc W) k = Some bb -> (j < m + 2)%nat ->
  let i := (n + p + ext_start nl q k + j)%nat in
  lin_error d reg (Some W) annz inv permB Px i = b i - K X i + (if Nat.eqb j (m - 1) then - (2 * reg * X i) else if Nat.eqb j (m + 1) then reg * X i else 0).
Proof.
  intros Hk Hb Hj i. unfold lin_error. fold n p nl q. unfold ext_start, blk_start in *. change (fold_right Nat.add 0%nat (firstn k q)) with (total (firstn k q)) in *.
  destruct (Nat.ltb_spec i n); [subst i; lia|]. destruct (Nat.ltb_spec i (n + p)); [subst i; lia|].
  set (e := (nl + total (firstn k q) + 2 * k)%nat) in *. replace (i - (n + p))%nat with (e + j)%nat by (subst i; lia).
  unfold conicNTScaling2. pose proof (sizes_nth _ _ _ (wd_q d WD) Hk) as Hm. pose proof (blk_range _ _ _ nl Hk) as Hr. unfold blk_start in Hr. change (fold_right Nat.add 0%nat (firstn k q)) with (total (firstn k q)) in Hr.
  pose proof (scaling2_row (permdZ d inv Px) q (sc_soc W) nl) as E. specialize (E (fun i => if Nat.ltb i nl then
     errz_soc (fun r => col_dot (d_Gt d r) (dx (unpermute d inv Px))) (dz (unpermute d inv Px)) reg nl nl q (fun i => if Nat.ltb i nl then permB (inv (n + p + i)%nat) + (- col_dot (d_Gt d i) (dx (unpermute d inv Px)) + reg * dz (unpermute d inv Px) i) else permB (inv (n + p + i)%nat)) i + sc_lp2 W i * permdZ d inv Px i
     else errz_soc (fun r => col_dot (d_Gt d r) (dx (unpermute d inv Px))) (dz (unpermute d inv Px)) reg nl nl q (fun i => if Nat.ltb i nl then permB (inv (n + p + i)%nat) + (- col_dot (d_Gt d i) (dx (unpermute d inv Px)) + reg * dz (unpermute d inv Px) i) else permB (inv (n + p + i)%nat)) i) k m bb j Hk Hb Hj).
  cbv zeta in E. fold e in E. rewrite E. clear E. rewrite scal2_arrow by assumption. unfold shift at 1. rewrite (proj2 (Nat.ltb_ge (e + j) nl)) by (subst e; lia).
  pose proof (errz_row (fun r => col_dot (d_Gt d r) (dx (unpermute d inv Px))) (dz (unpermute d inv Px)) reg q nl nl) as E. cbv zeta in E.
  unfold e at 1. rewrite (E _ k m j (wd_q d WD) Hk Hj). clear E. fold e. rewrite (proj2 (Nat.ltb_ge (e + j) nl)) by (subst e; lia).
  assert (EA : block_arrow m bb (shift (permdZ d inv Px) e) j = block_arrow m bb (fun t => X (n + p + e + t)%nat) j).
  { unfold block_arrow, arrow, shift, permdZ. fold n p. unfold X.
    replace (rsum m (fun i0 => if Nat.eqb i0 0 then 0 else nt_wbar bb i0 * Px (inv (e + i0 + (n + p))%nat))) with (rsum m (fun i0 => if Nat.eqb i0 0 then 0 else nt_wbar bb i0 * Px (inv (n + p + e + i0)%nat))).
    2:{ apply rsum_ext. intros t _. replace (e + t + (n + p))%nat with (n + p + e + t)%nat by lia. reflexivity. }
    replace (e + 0 + (n + p))%nat with (n + p + e + 0)%nat by lia. replace (e + S m + (n + p))%nat with (n + p + e + S m)%nat by lia.
    replace (e + m + (n + p))%nat with (n + p + e + m)%nat by lia. replace (e + j + (n + p))%nat with (n + p + e + j)%nat by lia. reflexivity. }
  rewrite EA. clear EA. unfold b, X. replace (n + p + (e + j))%nat with i by (subst i; lia).
  destruct (kkt_soc _ _ _ _ _ _ _ _ _ _ HK (fun i0 => Px (inv i0)) k m bb Hk Hb) as (K1 & K2 & K3).
  unfold ext_start, blk_start in K1, K2, K3. change (fold_right Nat.add 0%nat (firstn k (d_q d))) with (total (firstn k q)) in K1, K2, K3. fold n p nl in K1, K2, K3. fold e in K1, K2, K3.
  destruct (Nat.lt_ge_cases j m) as [L|L].
  - assert (Ei : i = (n + p + e + j)%nat) by (subst i; lia). specialize (K1 j L). rewrite <- Ei in K1. rewrite K1.
    rewrite Gdx_eq by (unfold nl, q in *; lia). destruct (unpermute_order d inv Px) as (Ux & Uy & Uz). rewrite Uz by (fold nl q; lia). unfold ext_row. fold n p nl q.
    rewrite (proj2 (Nat.ltb_ge (nl + total (firstn k q) + j) nl)) by lia. replace (nl + total (firstn k q) + j - nl)%nat with (total (firstn k q) + j)%nat by lia.
    rewrite (extra_in q k m j Hk L). replace (n + p + (nl + total (firstn k q) + j + 2 * k))%nat with i by (subst i e; lia). unfold X.
    destruct (Nat.ltb_spec j (m - 1)), (Nat.eqb_spec j (m - 1)), (Nat.eqb_spec j (m + 1)); try lia; lra.
  - destruct (Nat.ltb_spec j (m - 1)); [lia|]. destruct (Nat.eqb_spec j (m - 1)); [lia|]. destruct (Nat.eq_dec j m) as [->|Hne].
    + destruct (Nat.eqb_spec m (m + 1)); [lia|]. replace i with (n + p + e + m)%nat by (subst i; lia). rewrite K2. lra.
    + assert (j = m + 1)%nat by lia. subst j. rewrite Nat.eqb_refl. replace i with (n + p + e + m + 1)%nat by (subst i; lia). rewrite K3. rewrite Nat.add_assoc. lra.
Qed.
End Error.

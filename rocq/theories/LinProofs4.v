(** Proofs for the KKT layer, part 4: all rows of the KKT matrix. *)
From Coq Require Import Reals List Arith Bool Lia Lra FinFun.
From Verif Require Import Base BaseProofs ConeModel LdlModel LdlSpec LdlProofs LdlProofs2 LdlProofs3 LinModel LinSpec LinProofs LinProofs2 LinProofs3.
Import ListNotations.
Open Scope R_scope.

Lemma symv_app a b X i : symv (a ++ b) X i = symv a X i + symv b X i.
Proof. apply lsum_app. Qed.

Section Socs.
Context (X : nat -> R) (Gt : smatrix) (n b : nat).
Hypothesis Hnb : (n <= b)%nat.
Definition cols_ok (st k : nat) : Prop := forall r, (st <= r < st + k)%nat -> col_ok n (Gt r).

Lemma gen_socs_low i : (i < n)%nat -> forall q fs st l, sizes_ok q -> length fs = length q -> cols_ok st (total q) ->
  symv (gen_socs Gt b st l q fs) X i = rsum (total q) (fun r => entry (Gt (st + r)%nat) i * X (b + (st + r) + 2 * l + extra q r)%nat).
Proof.
  intros Hi. induction q as [|m q IH]; intros [|f fs] st l Hq Hl Hc; cbn [length] in *; try lia; [reflexivity|].
  inversion Hq; subst. rewrite gen_socs_cons, symv_app. cbn [total fold_right] in *. fold (total q) in *.
  rewrite (blk_low X Gt n) by (try lia; try assumption; intros; apply Hc; lia).
  rewrite rsum_split. f_equal.
  - apply rsum_ext. intros r Hr. cbn [extra]. destruct (Nat.ltb_spec r m); [|lia]. do 2 f_equal. lia.
  - rewrite IH by (auto; try lia; intros r Hr; apply Hc; lia). apply rsum_ext. intros r Hr. cbn [extra]. destruct (Nat.ltb_spec (m + r) m); [lia|].
    replace (m + r - m)%nat with r by lia. replace (st + m + r)%nat with (st + (m + r))%nat by lia. do 2 f_equal. lia.
Qed.
Lemma gen_socs_out i : (n <= i)%nat -> forall q fs st l, sizes_ok q -> length fs = length q -> cols_ok st (total q) -> (i < b + st + 2 * l)%nat ->
  symv (gen_socs Gt b st l q fs) X i = 0.
Proof.
  intros Hi. induction q as [|m q IH]; intros [|f fs] st l Hq Hl Hc Ho; cbn [length] in *; try lia; [reflexivity|].
  inversion Hq; subst. rewrite gen_socs_cons, symv_app. cbn [total fold_right] in *. fold (total q) in *.
  rewrite (blk_out X Gt n) by (try lia; try assumption; intros; apply Hc; lia).
  rewrite IH by (auto; try lia; intros r Hr; apply Hc; lia). lra.
Qed.
Lemma gen_socs_row : forall q fs st l k m f, sizes_ok q -> length fs = length q -> cols_ok st (total q) -> nth_error q k = Some m -> nth_error fs k = Some f ->
  let s := (st + total (firstn k q))%nat in let e := (b + s + 2 * (l + k))%nat in
  forall i, (e <= i < e + m + 2)%nat -> symv (gen_socs Gt b st l q fs) X i = symv (blk Gt e s m f) X i.
Proof.
  induction q as [|m0 q IH]; intros [|f0 fs] st l k m f Hq Hl Hc Hk Hf s e i Hi; cbn [length] in *; try lia; [destruct k; discriminate|].
  inversion Hq; subst. rewrite gen_socs_cons, symv_app. cbn [total fold_right] in *. fold (total q) in *. destruct k as [|k]; cbn [nth_error firstn] in *.
  - injection Hk as ->. injection Hf as ->. subst e s. cbn [total fold_right] in *.
    rewrite gen_socs_out with (i := i); try assumption; try lia; [|intros r Hr; apply Hc; lia].
    rewrite !Nat.add_0_r in *. lra.
  - pose proof (IH fs (st + m0)%nat (S l) k m f H2 ltac:(lia) ltac:(intros r Hr; apply Hc; lia) Hk Hf) as E. cbv zeta in E.
    cbn [total fold_right] in s. fold (total (firstn k q)) in s.
    replace (st + m0 + total (firstn k q))%nat with s in E by (subst s; lia). replace (b + s + 2 * (S l + k))%nat with e in E by (subst e; lia).
    rewrite E by assumption. rewrite (blk_out X Gt n) by (try lia; try assumption; intros; apply Hc; lia). lra.
Qed.
End Socs.

Record wfdata (d : ldata) : Prop := {
  wd_q : sizes_ok (d_q d);
  wd_A : forall r, (r < d_p d)%nat -> col_ok (d_n d) (d_At d r);
  wd_G : forall r, (r < d_nl d + total (d_q d))%nat -> col_ok (d_n d) (d_Gt d r) }.

Lemma symv_xdiag X i reg n : symv (map (fun id => (id, id, reg)) (seq 0 n)) X i = if Nat.ltb i n then reg * X i else 0.
Proof.
  unfold symv. rewrite lsum_map, lsum_seq. cbn [Nat.add].
  rewrite (rsum_ext n _ (fun t => if Nat.eqb t i then reg * X i else 0)).
  2:{ intros t _. pose proof (symv_diag X i t reg) as E. rewrite lsum_cons, lsum_nil, Rplus_0_r in E. exact E. }
  destruct (Nat.ltb_spec i n); [now apply rsum_delta|]. apply rsum_zero. intros t Ht. destruct (Nat.eqb_spec t i); [lia|reflexivity].
Qed.

Lemma extra_0 r : extra [] r = 0%nat. Proof. reflexivity. Qed.

Section All.
Context (d : ldata) (reg : R) (lpv : nat -> R) (fs : list (nat -> R)) (X : nat -> R).
Hypothesis WD : wfdata d.
Hypothesis Hf : length fs = length (d_q d).
Let n := d_n d. Let p := d_p d. Let nl := d_nl d. Let q := d_q d.
Let T := gen_T d reg lpv fs.
Lemma T_split i : symv T X i = (if Nat.ltb i n then reg * X i else 0)
  + symv (flat_map (fun id => push_col (n + id) (d_At d id) ++ [((n + id)%nat, (n + id)%nat, - reg)]) (seq 0 p)) X i
  + symv (flat_map (fun id => push_col (n + p + id) (d_Gt d id) ++ [((n + p + id)%nat, (n + p + id)%nat, lpv id)]) (seq 0 nl)) X i
  + symv (gen_socs (d_Gt d) (n + p) nl 0 q fs) X i.
Proof. unfold T, gen_T. fold n p nl q. rewrite !symv_app, symv_xdiag. lra. Qed.
Lemma okA : forall id, (id < p)%nat -> col_ok n (d_At d id). Proof. apply (wd_A d WD). Qed.
Lemma okG : forall id, (id < nl)%nat -> col_ok n (d_Gt d id). Proof. intros. apply (wd_G d WD). unfold nl in *. lia. Qed.
Lemma okS : cols_ok (d_Gt d) n nl (total q). Proof. intros r Hr. apply (wd_G d WD). unfold nl, q in *. lia. Qed.
Lemma row_x i : (i < n)%nat -> symv T X i = reg * X i + rsum p (fun r => entry (d_At d r) i * X (n + r)%nat)
  + rsum (nl + total q) (fun r => entry (d_Gt d r) i * X (n + p + ext_row nl q r)%nat).
Proof.
  intros Hi. rewrite T_split. destruct (Nat.ltb_spec i n); [|lia]. unfold symv at 1 2. rewrite (cols_low X i n) by (auto using okA).
  rewrite (cols_low X i n) by (auto using okG; lia). rewrite (gen_socs_low X (d_Gt d) n (n + p)) by first [assumption | lia | exact (wd_q d WD) | exact okS].
  rewrite rsum_split.
  rewrite (rsum_ext nl (fun r => _ * X (n + p + ext_row nl q r)%nat) (fun r => entry (d_Gt d r) i * X (n + p + r)%nat)).
  2:{ intros r Hr. unfold ext_row. destruct (Nat.ltb_spec r nl); [reflexivity|lia]. }
  rewrite (rsum_ext (total q) (fun r => _ * X (n + p + ext_row nl q (nl + r))%nat) (fun r => entry (d_Gt d (nl + r)%nat) i * X (n + p + (nl + r) + 2 * 0 + extra q r)%nat)).
  2:{ intros r Hr. unfold ext_row. destruct (Nat.ltb_spec (nl + r) nl); [lia|]. do 2 f_equal. replace (nl + r - nl)%nat with r by lia. lia. }
  lra.
Qed.
Lemma row_y r : (r < p)%nat -> symv T X (n + r)%nat = rsum n (fun i => entry (d_At d r) i * X i) - reg * X (n + r)%nat.
Proof.
  intros Hr. rewrite T_split. destruct (Nat.ltb_spec (n + r) n); [lia|]. unfold symv at 1 2. rewrite (cols_own X n) by (auto using okA).
  rewrite (cols_out X _ n) by (auto using okG; lia). rewrite (gen_socs_out X (d_Gt d) n (n + p)) by first [assumption | lia | exact (wd_q d WD) | exact okS].
  rewrite (col_dot_entry n) by now apply okA. lra.
Qed.
Lemma row_lp r : (r < nl)%nat -> symv T X (n + p + r)%nat = rsum n (fun i => entry (d_Gt d r) i * X i) + lpv r * X (n + p + r)%nat.
Proof.
  intros Hr. rewrite T_split. destruct (Nat.ltb_spec (n + p + r) n); [lia|]. unfold symv at 1 2. rewrite (cols_out X _ n) by (auto using okA; lia).
  rewrite (cols_own X n) by (auto using okG; lia). rewrite (gen_socs_out X (d_Gt d) n (n + p)) by first [assumption | lia | exact (wd_q d WD) | exact okS].
  rewrite (col_dot_entry n) by now apply okG. lra.
Qed.
Lemma row_soc k m f : nth_error q k = Some m -> nth_error fs k = Some f -> forall j, (j < m + 2)%nat ->
  symv T X (n + p + ext_start nl q k + j)%nat = symv (blk (d_Gt d) (n + p + ext_start nl q k) (blk_start nl q k) m f) X (n + p + ext_start nl q k + j)%nat.
Proof.
  intros Hk Hfk j Hj. rewrite T_split. unfold ext_start, blk_start in *. change (fold_right Nat.add 0%nat (firstn k q)) with (total (firstn k q)).
  destruct (Nat.ltb_spec (n + p + (nl + total (firstn k q) + 2 * k) + j) n); [lia|]. unfold symv at 1 2.
  rewrite (cols_out X _ n) by (auto using okA; lia). rewrite (cols_out X _ n) by (auto using okG; lia).
  pose proof (gen_socs_row X (d_Gt d) n (n + p) ltac:(lia) q fs nl 0 k m f (wd_q d WD) Hf okS Hk Hfk) as E. cbv zeta in E. cbn [Nat.add] in E.
  replace (n + p + (nl + total (firstn k q)) + 2 * k)%nat with (n + p + (nl + total (firstn k q) + 2 * k))%nat in E by lia.
  rewrite E by lia. lra.
Qed.
End All.

Lemma upd_slots_nth reg : forall q bs k m b, nth_error q k = Some m -> nth_error bs k = Some b -> nth_error (upd_slots reg q bs) k = Some (upd_slot reg m b).
Proof.
  induction q as [|m0 q IH]; intros [|b0 bs] [|k] m b H H'; cbn [nth_error upd_slots] in *; try discriminate; [congruence|]. now apply IH.
Qed.
Lemma blk_range q : forall k m nl, nth_error q k = Some m -> (blk_start nl q k + m <= nl + total q)%nat.
Proof.
  unfold blk_start. induction q as [|a q IH]; intros [|k] m nl H; cbn [nth_error firstn fold_right total] in *; try discriminate.
  - injection H as ->. lia.
  - specialize (IH k m nl H). fold (total q). lia.
Qed.
Lemma sizes_nth q k m : sizes_ok q -> nth_error q k = Some m -> (1 <= m)%nat.
Proof. intros H E. unfold sizes_ok in H. rewrite Forall_forall in H. apply H. eapply nth_error_In. eassumption. Qed.

(** ** Well-formedness of the entry list *)
Lemma WFT_nil lo hi : WFT lo hi []. Proof. split; [intros t []|intros t []|constructor]. Qed.
Lemma WFT_app lo mid hi a b : (lo <= mid <= hi)%nat -> WFT lo mid a -> WFT mid hi b -> WFT lo hi (a ++ b).
Proof.
  intros Hm [a1 a2 a3] [b1 b2 b3]. split.
  - intros t Ht. apply in_app_iff in Ht. destruct Ht as [Ht|Ht]; [apply a1 in Ht|apply b1 in Ht]; lia.
  - intros t Ht. apply in_app_iff in Ht. destruct Ht; auto.
  - rewrite map_app. clear a2 b2. induction a as [|t a IH]; [exact b3|]. cbn [map app] in *. inversion a3; subst. constructor.
    + intros Hin. apply in_app_iff in Hin. destruct Hin as [Hin|Hin]; [tauto|]. apply in_map_iff in Hin. destruct Hin as (t' & E & Ht').
      apply b1 in Ht'. pose proof (a1 t (or_introl eq_refl)). unfold t_col in *. rewrite E in Ht'. lia.
    + apply IH; [intros t' Ht'; apply a1; now right|assumption].
Qed.
Lemma WFT_flat (F : nat -> list triplet) c0 : forall k, (forall id, (id < k)%nat -> WFT (c0 + id) (S (c0 + id)) (F id)) -> WFT c0 (c0 + k) (flat_map F (seq 0 k)).
Proof.
  induction k as [|k IH]; intros H; [apply WFT_nil|]. rewrite seq_S, flat_map_app. apply WFT_app with (c0 + k)%nat; [lia|apply IH; auto|].
  cbn [flat_map Nat.add]. rewrite app_nil_r. replace (c0 + S k)%nat with (S (c0 + k)) by lia. apply H. lia.
Qed.
Lemma NoDup_app_last {A} (l : list A) a : NoDup l -> ~ In a l -> NoDup (l ++ [a]).
Proof.
  induction l as [|x l IH]; intros H Hn; cbn [app]; [constructor; auto; constructor|]. inversion H; subst. constructor.
  - intros Hin. apply in_app_iff in Hin. destruct Hin as [|[|[]]]; [tauto|]. subst. apply Hn. now left.
  - apply IH; auto. intros Hin. apply Hn. now right.
Qed.
Lemma WFT_col c (l : list triplet) v : NoDup (map fst l) -> (forall t, In t l -> t_col t = c /\ (t_row t < c)%nat) -> WFT c (S c) (l ++ [(c, c, v)]).
Proof.
  intros Hnd Hl. split.
  - intros t Ht. apply in_app_iff in Ht. destruct Ht as [Ht|[<-|[]]]; [destruct (Hl t Ht) as [-> _]; lia|]. unfold t_col. cbn. lia.
  - intros t Ht. apply in_app_iff in Ht. destruct Ht as [Ht|[<-|[]]]; [destruct (Hl t Ht) as [-> ?]; lia|]. unfold t_col, t_row. cbn. lia.
  - rewrite map_app. cbn [map]. apply NoDup_app_last; [assumption|]. intros Hin. apply in_map_iff in Hin. destruct Hin as (t & E & Ht). apply Hl in Ht. unfold t_row, t_col in Ht. rewrite E in Ht. cbn in Ht. lia.
Qed.
Lemma push_col_nd c l : NoDup (map fst l) -> NoDup (map fst (push_col c l)).
Proof.
  intros H. unfold push_col. rewrite map_map. cbn [fst]. rewrite <- (map_map fst (fun r => (r, c))). apply Injective_map_NoDup; [|assumption]. intros x y E. now injection E.
Qed.
Lemma WFT_push n c l v : col_ok n l -> (n <= c)%nat -> WFT c (S c) (push_col c l ++ [(c, c, v)]).
Proof.
  intros [Hnd Hr] Hc. apply WFT_col; [now apply push_col_nd|]. intros t Ht. apply in_map_iff in Ht. destruct Ht as (e & <- & He). unfold t_row, t_col. cbn. apply Hr in He. lia.
Qed.
Lemma WFT_arrow e c s k (g : nat -> R) v : (forall id, (s <= id < s + k)%nat -> (e + id < c)%nat) -> WFT c (S c) (map (fun id => ((e + id)%nat, c, g id)) (seq s k) ++ [(c, c, v)]).
Proof.
  intros H. apply WFT_col.
  - rewrite map_map. cbn [fst]. apply Injective_map_NoDup; [|apply seq_NoDup]. intros x y E. injection E. lia.
  - intros t Ht. apply in_map_iff in Ht. destruct Ht as (id & <- & Hid). apply in_seq in Hid. unfold t_row, t_col. cbn. split; auto.
Qed.
Lemma WFT_blk Gt n e st m f : (n <= e)%nat -> (forall id, (id < m)%nat -> col_ok n (Gt (st + id)%nat)) -> WFT e (e + m + 2) (blk Gt e st m f).
Proof.
  intros Hn Hc. unfold blk. apply WFT_app with (e + m)%nat; [lia| |].
  - apply WFT_flat. intros id Hid. apply WFT_push with n; [auto|lia].
  - rewrite app_assoc. apply WFT_app with (S (e + m)); [lia| |].
    + apply WFT_arrow. intros; lia.
    + replace (e + m + 2)%nat with (S (e + m + 1)) by lia. replace (S (e + m)) with (e + m + 1)%nat by lia. apply WFT_arrow. intros; lia.
Qed.
Lemma WFT_socs Gt n b : (n <= b)%nat -> forall q fs st l, length fs = length q -> (forall r, (st <= r < st + total q)%nat -> col_ok n (Gt r)) ->
  WFT (b + st + 2 * l) (b + st + 2 * l + (total q + 2 * length q)) (gen_socs Gt b st l q fs).
Proof.
  intros Hb. induction q as [|m q IH]; intros [|f fs] st l Hl Hc; cbn [length] in *; try lia; [cbn [gen_socs]; apply WFT_nil|].
  rewrite gen_socs_cons. cbn [total fold_right] in *. fold (total q) in *. apply WFT_app with (b + st + 2 * l + m + 2)%nat; [lia| |].
  - apply WFT_blk with n; [lia|]. intros; apply Hc; lia.
  - pose proof (IH fs (st + m)%nat (S l) ltac:(lia) ltac:(intros r Hr; apply Hc; lia)) as H.
    replace (b + (st + m) + 2 * S l)%nat with (b + st + 2 * l + m + 2)%nat in H by lia.
    replace (b + st + 2 * l + (m + total q + 2 * S (length q)))%nat with (b + st + 2 * l + m + 2 + (total q + 2 * length q))%nat by lia. exact H.
Qed.
Lemma WFT_gen d reg lpv fs : wfdata d -> length fs = length (d_q d) -> WFT 0 (extSizeProb d) (gen_T d reg lpv fs).
Proof.
  intros WD Hf. unfold gen_T, extSizeProb, extSizeCone. apply WFT_app with (d_n d + d_p d)%nat; [lia| |].
  - apply WFT_app with (d_n d); [lia| |].
    + assert (E : map (fun id => (id, id, reg)) (seq 0 (d_n d)) = flat_map (fun id => [(id, id, reg)]) (seq 0 (d_n d))).
      { generalize (seq 0 (d_n d)). induction l; [reflexivity|]. cbn [map flat_map app]. now rewrite IHl. }
      rewrite E. change (d_n d) with (0 + d_n d)%nat at 1. apply WFT_flat. intros id Hid. apply (WFT_col id [] reg); [constructor|intros t []].
    + apply WFT_flat. intros id Hid. apply WFT_push with (d_n d); [now apply (wd_A d WD)|lia].
  - apply WFT_app with (d_n d + d_p d + d_nl d)%nat; [lia| |].
    + apply WFT_flat. intros id Hid. apply WFT_push with (d_n d); [apply (wd_G d WD); lia|lia].
    + pose proof (WFT_socs (d_Gt d) (d_n d) (d_n d + d_p d) ltac:(lia) (d_q d) fs (d_nl d) 0 Hf ltac:(intros r Hr; apply (wd_G d WD); lia)) as H.
      replace (d_n d + d_p d + d_nl d + 2 * 0)%nat with (d_n d + d_p d + d_nl d)%nat in H by lia.
      replace (d_n d + d_p d + (d_nl d + total (d_q d) + 2 * length (d_q d)))%nat with (d_n d + d_p d + d_nl d + (total (d_q d) + 2 * length (d_q d)))%nat by lia. exact H.
Qed.

From Coq Require Import Reals List Arith ZArith Bool String Ascii Lra Lia.
Import ListNotations.
From Verif Require Import Base BaseProofs Vec3 ExprsModel ExprsProofs ConicModel ConicSpec ConicProofs ConicProofs4 ConicProofs5 ConicProofs6 OptVarModel OptVarSpec OptVarProofs CntModel CntSpec CntProofs DynModel DynSpec.
Local Open Scope R_scope.

(** ** Lists *)
Lemma foldM_flat {A B} : forall (f : A -> res (list B)) (h : A -> list B) l acc, (forall a, In a l -> f a = Ok (h a)) ->
  foldM (fun acc a => bind (f a) (fun r => Ok (acc ++ r))) l acc = Ok (acc ++ flat_map h l).
Proof.
  intros f h. induction l as [|a l IH]; intros acc H; cbn [foldM flat_map]; [now rewrite app_nil_r|]. rewrite (H a) by now left. cbn [bind].
  rewrite IH by (intros; apply H; now right). now rewrite app_assoc.
Qed.
Lemma flatM_ok {A B} : forall (f : A -> res (list B)) (h : A -> list B) l, (forall a, In a l -> f a = Ok (h a)) -> flatM f l = Ok (flat_map h l).
Proof. intros. unfold flatM. now rewrite (foldM_flat f h). Qed.
Lemma all_app {A} : forall (P : A -> Prop) l1 l2, (forall a, In a (l1 ++ l2) -> P a) <-> (forall a, In a l1 -> P a) /\ (forall a, In a l2 -> P a).
Proof. intros. split; [intros H; split; intros; apply H, in_or_app; tauto|intros (H1 & H2) a H; apply in_app_or in H; destruct H; auto]. Qed.
Lemma all_flat {A B} : forall (P : B -> Prop) (f : A -> list B) l, (forall b, In b (flat_map f l) -> P b) <-> (forall a, In a l -> forall b, In b (f a) -> P b).
Proof. intros. split; [intros H a Ha b Hb; apply H, in_flat_map; eauto|intros H b Hb; apply in_flat_map in Hb; destruct Hb as (a & H1 & H2); eauto]. Qed.
Lemma all_map {A B} : forall (P : B -> Prop) (f : A -> B) l, (forall b, In b (map f l) -> P b) <-> (forall a, In a l -> P (f a)).
Proof. intros. split; [intros H a Ha; apply H, in_map; auto|intros H b Hb; apply in_map_iff in Hb; destruct Hb as (a & <- & H2); eauto]. Qed.
Lemma all_cons {A} : forall (P : A -> Prop) a l, (forall b, In b (a :: l) -> P b) <-> P a /\ (forall b, In b l -> P b).
Proof. intros. split; [intros H; split; [apply H; now left|intros; apply H; now right]|intros (H1 & H2) b [<-|H]; auto]. Qed.
Lemma all_nil {A} : forall (P : A -> Prop), (forall b, In b [] -> P b) <-> True.
Proof. intros. split; auto. intros _ b []. Qed.
Lemma all_seq : forall (P : nat -> Prop) n, (forall t, In t (seq 0 n) -> P t) <-> (forall t, (t < n)%nat -> P t).
Proof. intros. split; intros H t Ht; apply H; [apply in_seq; lia|apply in_seq in Ht; lia]. Qed.
Lemma all_axes : forall (P : nat -> Prop), (forall i, In i axes -> P i) <-> P 0%nat /\ P 1%nat /\ P 2%nat.
Proof. intros. unfold axes. rewrite !all_cons, all_nil. tauto. Qed.
Lemma in_axes : forall i, In i axes -> (i < 3)%nat.
Proof. intros i [<-|[<-|[<-|[]]]]; lia. Qed.

(** ** Values of expressions *)
Lemma aval_const : forall x a, aval x (le_of_const a) = a.
Proof. intros. unfold aval. cbn. ring. Qed.
Lemma aval_var : forall x c, aval x (le_of_var c 1) = x c.
Proof. intros. unfold aval. cbn. ring. Qed.
Lemma aval_scale : forall x e a, aval x (le_scale e a) = aval x e * a.
Proof. intros. rewrite <- !aval_le_value. apply le_scale_value. Qed.
Lemma aval_subc : forall x e a, aval x (le_subc e a) = aval x e - a.
Proof. intros. unfold le_subc. rewrite aval_add, aval_const. ring. Qed.
Lemma uses_scale : forall U a k, uses U a -> uses U (le_scale a k).
Proof. intros U a k H c Hc. apply H. eapply le_scale_incl; eauto. Qed.
Lemma uses_const : forall U a, uses U (le_of_const a).
Proof. intros U a c []. Qed.
Lemma uses_var : forall U c a, In c U -> uses U (le_of_var c a).
Proof. intros U c a H d [<-|[]]. exact H. Qed.
Lemma uses_subc : forall U a k, uses U a -> uses U (le_subc a k).
Proof. intros. unfold le_subc. apply uses_add; [assumption|apply uses_const]. Qed.

Lemma holds_eq : forall x a b, call_holds x (CAddLin a "=" b) <-> aval x a = aval x b.
Proof. intros. cbn [call_holds]. split; [tauto|]. intros H. repeat split; auto; discriminate. Qed.
Lemma holds_lt : forall x a b, call_holds x (CAddLin a "<" b) <-> aval x a <= aval x b.
Proof. intros. cbn [call_holds]. split; [tauto|]. intros H. repeat split; auto; discriminate. Qed.
Lemma holds_gt : forall x a b, call_holds x (CAddLin a ">" b) <-> aval x a >= aval x b.
Proof. intros. cbn [call_holds]. split; [tauto|]. intros H. repeat split; auto; discriminate. Qed.
Lemma holds_qua : forall x q l ap, call_holds x (CAddQua q "<" l ap) <-> wsq x (q_terms q) + aval x (q_lexpr q) <= aval x l.
Proof. intros. cbn [call_holds]. split; [auto|]. intros H _. exact H. Qed.
Lemma holds_soc : forall x q l, call_holds x (CAddSoc q "<" l) <-> sqrt (sq x (q_terms q)) + aval x (q_lexpr q) <= aval x l.
Proof. intros. cbn [call_holds]. split; [auto|]. intros H _. exact H. Qed.

Lemma q_of_props : forall ts, let q := q_of ts in q_lexpr q = le_of_const 0 /\ fresh_q q /\ (forall t, In t (q_terms q) -> In t ts) /\
  forall x, wsq x (q_terms q) = sumR (map (fun t => fst t * (aval x (snd t) * aval x (snd t))) ts).
Proof.
  intros ts. unfold q_of.
  assert (G : forall ts q0, q_lexpr q0 = le_of_const 0 -> fresh_q q0 ->
    let q := fold_left (fun o x => q_addQua o (fst x) (snd x)) ts q0 in
    q_lexpr q = le_of_const 0 /\ fresh_q q /\ (forall t, In t (q_terms q) -> In t (q_terms q0) \/ In t ts) /\
    forall x, wsq x (q_terms q) = wsq x (q_terms q0) + sumR (map (fun t => fst t * (aval x (snd t) * aval x (snd t))) ts)).
  { clear. induction ts as [|[a e] ts IH]; intros q0 H1 H2; cbn [fold_left].
    - split; [exact H1|]. split; [exact H2|]. split; [tauto|]. intros. cbn. ring.
    - destruct (IH (q_addQua q0 a e)) as (I1 & I2 & I3 & I4).
      + unfold q_addQua. destruct (is_zero a); exact H1.
      + unfold q_addQua, fresh_q in *. destruct (is_zero a); exact H2.
      + split; [exact I1|]. split; [exact I2|]. split.
        * intros t Ht. apply I3 in Ht. destruct Ht as [Ht|Ht]; [|right; now right]. unfold q_addQua in Ht.
          destruct (is_zero a); [now left|]. cbn [q_terms] in Ht. apply in_app_or in Ht. destruct Ht as [Ht|[<-|[]]]; [now left|right; now left].
        * intros x. rewrite I4. cbn [map fst snd]. rewrite sumR_cons. unfold q_addQua. destruct (is_zero a) eqn:Z.
          -- apply is_zero_true in Z. rewrite Z. ring.
          -- cbn [q_terms]. unfold wsq. rewrite map_app, sumR_app. cbn [map fst snd]. rewrite sumR_cons. cbn. ring. }
  destruct (G ts q_empty) as (A & B & C & D); [reflexivity|now repeat split|]. split; [exact A|]. split; [exact B|]. split.
  - intros t Ht. destruct (C t Ht) as [[]|H]; exact H.
  - intros x. rewrite D. cbn. ring.
Qed.
(** With coefficients 1 all terms are kept. *)
Lemma is_zero_1 : is_zero 1 = false.
Proof. apply is_zero_false. lra. Qed.
Lemma q_of_ones : forall es, q_terms (q_of (map (fun e => (1, e)) es)) = map (fun e => (1, e)) es.
Proof.
  intros es. unfold q_of. assert (G : forall es q0, q_terms (fold_left (fun o x => q_addQua o (fst x) (snd x)) (map (fun e => (1, e)) es) q0) = q_terms q0 ++ map (fun e => (1, e)) es).
  { induction es0 as [|e es0 IH]; intros q0; cbn [map fold_left]; [now rewrite app_nil_r|]. rewrite IH. unfold q_addQua. cbn [fst snd]. rewrite is_zero_1. cbn [q_terms]. now rewrite <- app_assoc. }
  apply G.
Qed.

(** ** Vectors *)
Lemma veq_axes : forall a b, a = b <-> (forall i, In i axes -> vget3 a i = vget3 b i).
Proof. intros [a1 a2 a3] [b1 b2 b3]. rewrite all_axes. cbn. split; [intros H; injection H; auto|intros (-> & -> & ->); reflexivity]. Qed.
Lemma vget3_add : forall a b i, vget3 (vadd a b) i = vget3 a i + vget3 b i.
Proof. intros a b [|[|i]]; reflexivity. Qed.
Lemma vget3_sub : forall a b i, vget3 (vsub a b) i = vget3 a i - vget3 b i.
Proof. intros a b [|[|i]]; reflexivity. Qed.
Lemma vget3_scale : forall k a i, vget3 (vscale k a) i = k * vget3 a i.
Proof. intros k a [|[|i]]; reflexivity. Qed.
Lemma vget3_0 : forall i, vget3 v0 i = 0.
Proof. intros [|[|i]]; reflexivity. Qed.
Lemma vget3_prev : forall a a0 t i, vget3 (prev a a0 t) i = match t with O => vget3 a0 i | S t' => vget3 (a t') i end.
Proof. intros. now destruct t. Qed.
Lemma vget3_V3 : forall f i, In i axes -> vget3 (V3 (f 0%nat) (f 1%nat) (f 2%nat)) i = f i.
Proof. intros f i [<-|[<-|[<-|[]]]]; reflexivity. Qed.

(** ** Columns *)
Definition bnone : blockspec := mkB "C"%char 0 0 (fun _ _ => 0) (fun _ _ => 0) (fun _ _ => 0).
Section Cols.
  Variables (g : dset) (q : dseq).
  Let bs := dblocks g q.
  Let N := g_N g.
  Lemma dblocks_len : List.length bs = ((if timeopt g then 6 else 3) + 5 * g_neff g)%nat.
  Proof.
    unfold bs, dblocks, dyn_blocks. rewrite !app_length. cbn [List.length].
    assert (H : forall l, List.length (flat_map (fun n => [free_block 3 n (g_inf g); free_block 3 n (g_inf g); free_block 3 n (g_inf g); free_block 2 n (g_inf g); free_block 1 n (g_inf g)]) l) = (5 * List.length l)%nat).
    { induction l; cbn [flat_map List.length app]; lia. }
    rewrite H. unfold act_counts, effs. rewrite map_length, seq_length. destruct (timeopt g); cbn [List.length]; lia.
  Qed.
  Lemma nth_eff : forall (l : list nat) inf e k, (e < List.length l)%nat -> (k < 5)%nat ->
    nth_error (flat_map (fun n => [free_block 3 n inf; free_block 3 n inf; free_block 3 n inf; free_block 2 n inf; free_block 1 n inf]) l) (5 * e + k) =
    Some (free_block (match k with 3%nat => 2 | 4%nat => 1 | _ => 3 end) (nth e l 0%nat) inf).
  Proof.
    induction l as [|n l IH]; intros inf e k He Hk; cbn [List.length] in He; [lia|]. cbn [flat_map app]. destruct e as [|e].
    - cbn [Nat.mul Nat.add nth]. do 5 (destruct k as [|k]; [reflexivity|]). lia.
    - replace (5 * S e + k)%nat with (S (S (S (S (S (5 * e + k)))))) by lia. cbn [nth_error nth]. apply IH; lia.
  Qed.
  Definition in_block (b : nat) (rows cols : nat) : Prop := nth_error bs b = Some (free_block rows cols (g_inf g)).
  Lemma blk_com : in_block bCOM 3 N. Proof. reflexivity. Qed.
  Lemma blk_lm : in_block bLM 3 N. Proof. reflexivity. Qed.
  Lemma blk_am : in_block bAM 3 N. Proof. reflexivity. Qed.
  Lemma blk_dt : timeopt g = true -> in_block bDT 1 N. Proof. intros H. unfold in_block, bs, dblocks. rewrite H. reflexivity. Qed.
  Lemma blk_lmd : timeopt g = true -> in_block bLMD 3 N. Proof. intros H. unfold in_block, bs, dblocks. rewrite H. reflexivity. Qed.
  Lemma blk_amd : timeopt g = true -> in_block bAMD 3 N. Proof. intros H. unfold in_block, bs, dblocks. rewrite H. reflexivity. Qed.
  Lemma blk_eff : forall e k, (e < g_neff g)%nat -> (k < 5)%nat ->
    in_block (bEff g e k) (match k with 3%nat => 2 | 4%nat => 1 | _ => 3 end) (Z.to_nat (act_steps q e)).
  Proof.
    intros e k He Hk. unfold in_block, bs, dblocks, dyn_blocks, bEff.
    assert (Ha : nth e (act_counts g q) 0%nat = Z.to_nat (act_steps q e)).
    { unfold act_counts, effs. rewrite (nth_indep _ 0%nat (Z.to_nat (act_steps q 0))) by (rewrite map_length, seq_length; lia).
      rewrite (map_nth (fun e => Z.to_nat (act_steps q e))). now rewrite seq_nth by lia. }
    assert (Hl : (e < List.length (act_counts g q))%nat) by (unfold act_counts, effs; rewrite map_length, seq_length; lia).
    destruct (timeopt g); cbn [app]; cbn [Nat.add nth_error]; rewrite <- Ha; now apply nth_eff.
  Qed.
  Lemma colseq : forall (l : list blockspec) k r c, (k < List.length l)%nat ->
    column_of l (seq 0 (List.length l)) k r c = (block_start l k + (c * b_rows (nth k l bnone) + r))%nat.
  Proof.
    intros l k r c Hk. unfold block_start.
    assert (G : forall n j, (j <= k)%nat -> (k < j + n)%nat -> (j + n = List.length l)%nat ->
      (sumn (map bsize (firstn j l)) + column_of l (seq j n) k r c)%nat = (sumn (map bsize (firstn k l)) + (c * b_rows (nth k l bnone) + r))%nat).
    { induction n as [|n IH]; intros j H1 H2 H3; [lia|]. cbn [seq column_of]. destruct (Nat.eqb_spec j k) as [->|Hj]; [reflexivity|].
      rewrite <- (IH (S j)) by lia. set (d := bnone). change (mkB _ _ _ _ _ _) with bnone. fold d.
      assert (Hf : firstn (S j) l = firstn j l ++ [nth j l d]).
      { clear -H1 H3 Hj H2. assert (j < List.length l)%nat by lia. clear -H. revert j H. induction l as [|a l IH]; intros j H; cbn in H; [lia|]. destruct j; [reflexivity|]. cbn [firstn nth app]. f_equal. apply IH. lia. }
      rewrite Hf, map_app. assert (Hs : forall a b, sumn (a ++ b) = (sumn a + sumn b)%nat) by (induction a; intros; cbn [app sumn fold_right] in *; [reflexivity|unfold sumn in *; rewrite IHa; lia]).
      rewrite Hs. cbn [map sumn fold_right]. lia. }
    specialize (G (List.length l) 0%nat). cbn [firstn map sumn fold_right Nat.add] in G. apply G; lia.
  Qed.
  (** The column of entry (r,c), and where it lies. *)
  Lemma col_is : forall b rows cols r c, in_block b rows cols -> (r < rows)%nat -> (c < cols)%nat ->
    col g q b r (Z.of_nat c) = (block_start bs b + (c * rows + r))%nat.
  Proof.
    intros b rows cols r c Hb Hr Hc. unfold col, dovs. destruct (init_blocks_spec bs 0%nat) as (ovs & E & L & H). change (Z.of_nat 0) with 0%Z in E. fold bs. rewrite E. cbn [fst].
    destruct (H b _ Hb) as (ov & Eo & S). rewrite (nth_error_nth _ _ _ Eo). rewrite (id_in_range _ _ _ _ _ S) by (cbn; assumption). cbn [Nat.add b_rows free_block]. apply Nat2Z.id.
  Qed.
  Lemma planned_is : forall x b rows cols r c, in_block b rows cols -> (r < rows)%nat -> (c < cols)%nat ->
    planned bs x b r c = x (col g q b r (Z.of_nat c)).
  Proof.
    intros x b rows cols r c Hb Hr Hc. unfold planned. rewrite colseq by (apply nth_error_Some; rewrite Hb; discriminate).
    rewrite (nth_error_nth _ _ _ Hb). rewrite (col_is b rows cols) by assumption. reflexivity.
  Qed.
  Definition nvars : nat := sumn (map bsize bs).
  Lemma block_end : forall (l : list blockspec) k b, nth_error l k = Some b -> (block_start l k + bsize b <= sumn (map bsize l))%nat.
  Proof.
    unfold block_start. induction l as [|a l IH]; intros k b H; [destruct k; discriminate|]. destruct k as [|k]; cbn [firstn map sumn fold_right] in *.
    - injection H as ->. unfold sumn. cbn. lia.
    - specialize (IH k b H). unfold sumn in *. cbn [fold_right] in *. lia.
  Qed.
  Lemma col_lt : forall b rows cols r c, in_block b rows cols -> (r < rows)%nat -> (c < cols)%nat -> (col g q b r (Z.of_nat c) < nvars)%nat.
  Proof.
    intros b rows cols r c Hb Hr Hc. rewrite (col_is b rows cols) by assumption. pose proof (block_end bs b _ Hb) as H. change (bsize (free_block rows cols (g_inf g))) with (rows * cols)%nat in H. unfold nvars.
    assert (c * rows + r < rows * cols)%nat by nia. lia.
  Qed.
  Lemma block_mono : forall (l : list blockspec) j k b, (j < k)%nat -> nth_error l j = Some b -> (k <= List.length l)%nat -> (block_start l j + bsize b <= block_start l k)%nat.
  Proof.
    unfold block_start. induction l as [|a l IH]; intros j k b Hjk H Hk; [destruct j; discriminate|]. destruct k as [|k]; [lia|]. destruct j as [|j]; cbn [firstn map sumn fold_right nth_error] in *.
    - injection H as ->. unfold sumn. cbn. lia.
    - cbn [List.length] in Hk. assert (A1 : (j < k)%nat) by lia. assert (A2 : (k <= List.length l)%nat) by lia. specialize (IH j k b A1 H A2). unfold sumn in *. cbn [fold_right] in *. lia.
  Qed.
  Lemma col_inj : forall b b' rows rows' cols cols' r r' c c', in_block b rows cols -> in_block b' rows' cols' -> (r < rows)%nat -> (c < cols)%nat -> (r' < rows')%nat -> (c' < cols')%nat ->
    col g q b r (Z.of_nat c) = col g q b' r' (Z.of_nat c') -> b = b' /\ r = r' /\ c = c'.
  Proof.
    intros b b' rows rows' cols cols' r r' c c' Hb Hb' Hr Hc Hr' Hc' E. rewrite (col_is b rows cols), (col_is b' rows' cols') in E by assumption.
    assert (L : (b < List.length bs)%nat) by (apply nth_error_Some; rewrite Hb; discriminate). assert (L' : (b' < List.length bs)%nat) by (apply nth_error_Some; rewrite Hb'; discriminate).
    assert (c * rows + r < rows * cols)%nat by nia. assert (c' * rows' + r' < rows' * cols')%nat by nia.
    destruct (Nat.lt_trichotomy b b') as [H1|[H1|H1]].
    - pose proof (block_mono bs b b' _ H1 Hb (Nat.lt_le_incl _ _ L')) as M. change (bsize (free_block rows cols (g_inf g))) with (rows * cols)%nat in M. lia.
    - subst b'. unfold in_block in *. rewrite Hb in Hb'. assert (rows = rows') by (apply (f_equal (option_map b_rows)) in Hb'; cbn in Hb'; congruence). subst rows'. split; [reflexivity|].
      assert (c = c') by (destruct (Nat.lt_trichotomy c c') as [T|[T|T]]; [exfalso; nia|exact T|exfalso; nia]). subst c'. split; [lia|reflexivity].
    - pose proof (block_mono bs b' b _ H1 Hb' (Nat.lt_le_incl _ _ L)) as M. change (bsize (free_block rows' cols' (g_inf g))) with (rows' * cols')%nat in M. lia.
  Qed.
End Cols.

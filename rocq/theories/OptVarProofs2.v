(** * Proofs for C07/C08: whole planner pass *)
From Coq Require Import Reals List Arith ZArith Bool Ascii Lia Lra Permutation.
From Verif Require Import ExprsModel ConicModel OptVarModel OptVarSpec OptVarProofs.
Import ListNotations.
Open Scope R_scope.

Definition b0 : blockspec := mkB "C"%char 0 0 (fun _ _ => 0) (fun _ _ => 0) (fun _ _ => 0).

Lemma block_start_disjoint bs j k b b' : (j < k)%nat -> nth_error bs j = Some b -> nth_error bs k = Some b' ->
  (block_start bs j + bsize b <= block_start bs k)%nat.
Proof.
  revert j k; induction bs as [|x bs IH]; intros [|j] [|k] H Hj Hk; try discriminate; try lia; simpl in *.
  - injection Hj as ->. rewrite block_start_S. unfold block_start at 1. simpl. lia.
  - rewrite !block_start_S. specialize (IH j k ltac:(lia) Hj Hk). lia.
Qed.
Lemma block_start_total bs k b : nth_error bs k = Some b -> (block_start bs k + bsize b <= sumn (map bsize bs))%nat.
Proof.
  revert k; induction bs as [|x bs IH]; intros [|k] Hk; try discriminate; simpl in *.
  - injection Hk as ->. unfold block_start. simpl. lia.
  - rewrite block_start_S. specialize (IH k Hk). lia.
Qed.
Lemma block_start_cover bs i : (i < sumn (map bsize bs))%nat ->
  exists k b j, nth_error bs k = Some b /\ (j < bsize b)%nat /\ i = (block_start bs k + j)%nat.
Proof.
  revert i; induction bs as [|x bs IH]; intros i Hi; simpl in *; [lia|].
  destruct (Nat.ltb_spec i (bsize x)).
  - exists 0%nat, x, i. repeat split; auto.
  - destruct (IH (i - bsize x)%nat ltac:(lia)) as (k & b & j & H1 & H2 & H3).
    exists (S k), b, j. split; [exact H1|]. split; [exact H2|]. rewrite block_start_S. lia.
Qed.

Definition ovs_ok (bs : list blockspec) (ovs : list optvar) : Prop :=
  forall k b, nth_error bs k = Some b -> exists ov, nth_error ovs k = Some ov /\ shaped b (block_start bs k) ov.

Lemma add_all_spec bo bs ovs : ovs_ok bs ovs -> (forall b, In b bs -> block_ok bo b) ->
  forall ord p vars, NoDup ord -> (forall k, In k ord -> (k < List.length bs)%nat) ->
  (sumn (map bsize bs) <= List.length vars)%nat ->
  exists p' vars',
    foldM (fun s k => match nth_error ovs k with Some ov => add_block bo s ov | None => UB end) ord (p, vars) = Ok (p', vars') /\
    (exists l, p_vars p' = p_vars p ++ l) /\
    List.length vars' = List.length vars /\
    (forall k b j, In k ord -> nth_error bs k = Some b -> (j < bsize b)%nat ->
       let col := (List.length (p_vars p) + column_of bs ord k (j mod b_rows b) (j / b_rows b))%nat in
       nth_error vars' (block_start bs k + j) = Some (Some col) /\ nth_error (p_vars p') col = Some (entry_var b j)) /\
    (forall i, (forall k b, In k ord -> nth_error bs k = Some b -> ~ (block_start bs k <= i < block_start bs k + bsize b)%nat) ->
       nth_error vars' i = nth_error vars i).
Proof.
  intros HO HB. induction ord as [|k ord IH]; intros p vars ND HK HL.
  - simpl. exists p, vars. split; [reflexivity|]. split; [exists []; now rewrite app_nil_r|]. split; [reflexivity|].
    split; [intros ? ? ? []|reflexivity].
  - inversion ND as [|? ? NI ND']; subst. cbn [foldM].
    assert (Hk : (k < List.length bs)%nat) by (apply HK; simpl; auto).
    destruct (nth_error bs k) as [b|] eqn:Eb; [|apply nth_error_None in Eb; lia].
    destruct (HO k b Eb) as (ov & Eo & S). rewrite Eo.
    assert (OK : block_ok bo b) by (apply HB; eapply nth_error_In; eauto).
    pose proof (block_start_total bs k b Eb) as T.
    destruct (add_block_spec bo b (block_start bs k) ov p vars S OK ltac:(lia)) as (p1 & vars1 & F1 & V1 & L1 & N1).
    rewrite F1. cbn [bind].
    destruct (IH p1 vars1 ND' (fun j Hj => HK j (or_intror Hj)) ltac:(lia)) as (p2 & vars2 & F2 & (l2 & V2) & L2 & C2 & N2).
    exists p2, vars2. split; [exact F2|]. split; [exists (map (entry_var b) (seq 0 (bsize b)) ++ l2); rewrite V2, V1, <- app_assoc; reflexivity|].
    split; [lia|]. split.
    + intros k' b' j [<-|Hk'] Eb' Hj; cbv zeta.
      * rewrite Eb in Eb'. injection Eb' as <-. cbn [column_of].
        rewrite (nth_error_nth bs k (mkB "C"%char 0 0 (fun _ _ => 0) (fun _ _ => 0) (fun _ _ => 0)) Eb). rewrite Nat.eqb_refl.
        destruct (cell_range b j Hj) as (_ & _ & CR). rewrite CR.
        split.
        -- rewrite N2.
           ++ rewrite N1. destruct (Nat.leb_spec (block_start bs k) (block_start bs k + j)), (Nat.ltb_spec (block_start bs k + j) (block_start bs k + bsize b)); simpl; try lia.
              do 2 f_equal. lia.
           ++ intros k2 b2 Hk2 Eb2 [A1 A2]. assert (k2 <> k) by (intros ->; contradiction).
              destruct (Nat.lt_total k2 k) as [Hlt|[Heq|Hlt]]; [|lia|].
              ** pose proof (block_start_disjoint bs k2 k b2 b Hlt Eb2 Eb). lia.
              ** pose proof (block_start_disjoint bs k k2 b b2 Hlt Eb Eb2). lia.
        -- rewrite V2, V1, <- app_assoc. rewrite nth_error_app2 by lia.
           replace (List.length (p_vars p) + j - List.length (p_vars p))%nat with j by lia.
           rewrite nth_error_app1 by (rewrite map_length, seq_length; lia).
           rewrite nth_error_map. rewrite (nth_error_nth' _ 0%nat) by (rewrite seq_length; lia). rewrite seq_nth by lia. reflexivity.
      * destruct (C2 k' b' j Hk' Eb' Hj) as [D1 D2]. cbn [column_of].
        rewrite (nth_error_nth bs k (mkB "C"%char 0 0 (fun _ _ => 0) (fun _ _ => 0) (fun _ _ => 0)) Eb).
        destruct (Nat.eqb_spec k k') as [->|NE]; [contradiction|].
        assert (LP : List.length (p_vars p1) = (List.length (p_vars p) + bsize b)%nat) by (rewrite V1, app_length, map_length, seq_length; lia).
        rewrite LP in D1, D2.
        replace (List.length (p_vars p) + (bsize b + column_of bs ord k' (j mod b_rows b') (j / b_rows b')))%nat
          with (List.length (p_vars p) + bsize b + column_of bs ord k' (j mod b_rows b') (j / b_rows b'))%nat by lia.
        split; assumption.
    + intros i Hi. rewrite N2; [|intros k2 b2 Hk2; apply Hi; simpl; auto]. rewrite N1.
      destruct (Nat.leb_spec (block_start bs k) i), (Nat.ltb_spec i (block_start bs k + bsize b)); simpl; try reflexivity.
      exfalso. apply (Hi k b (or_introl eq_refl) Eb). lia.
Qed.

Lemma extract_spec p vars n (f : nat -> nat) : (forall i, (i < n)%nat -> nth_error vars i = Some (Some (f i)) /\ (f i < List.length (p_vars p))%nat) ->
  extract p vars (Z.of_nat n) = Ok (map (fun i => v_val (nth (f i) (p_vars p) (mkVar Continuous 0 0 0 0))) (seq 0 n)).
Proof.
  intros H. unfold extract. rewrite zseq_of_nat.
  assert (G : forall m j acc, (j + m <= n)%nat ->
    foldM (fun acc i => bind (vget vars i) (fun o =>
           match o with
           | None => Throw
           | Some c => match nth_error (p_vars p) c with Some v => Ok (acc ++ [v_val v]) | None => UB end
           end)) (map Z.of_nat (seq j m)) acc
    = Ok (acc ++ map (fun i => v_val (nth (f i) (p_vars p) (mkVar Continuous 0 0 0 0))) (seq j m))).
  { induction m as [|m IH]; intros j acc Hm; cbn [seq map foldM].
    - now rewrite app_nil_r.
    - destruct (H j ltac:(lia)) as [E1 E2]. rewrite (vget_ok _ _ _ E1). cbn [bind].
      rewrite (nth_error_nth' _ (mkVar Continuous 0 0 0 0) E2). cbn [bind]. rewrite IH by lia. rewrite <- app_assoc. reflexivity. }
  apply (G n 0%nat []). lia.
Qed.

Lemma save_spec b st ov sol : shaped b st ov -> (st + bsize b <= List.length sol)%nat ->
  exists g, save_solution sol ov = Ok (mkOV (b_type b) (Z.of_nat st) (Z.of_nat (b_rows b)) (Z.of_nat (b_cols b)) (b_lb b) (b_ub b) g) /\
    forall r c, (r < b_rows b)%nat -> (c < b_cols b)%nat -> g (Z.of_nat r) (Z.of_nat c) = nth (st + (c * b_rows b + r)) sol 0.
Proof.
  intros S HL. unfold save_solution. rewrite (cells_spec b st ov S).
  set (step := fun (g : Z -> Z -> R) rc => _).
  assert (G : forall m j g, (j + m <= bsize b)%nat -> exists g',
     foldM step (map (cell b) (seq j m)) g = Ok g' /\
     forall i, (i < bsize b)%nat -> g' (fst (cell b i)) (snd (cell b i)) =
        if ((j <=? i) && (i <? j + m))%nat then nth (st + i) sol 0 else g (fst (cell b i)) (snd (cell b i))).
  { induction m as [|m IH]; intros j g Hm; cbn [seq map foldM].
    - exists g. split; [reflexivity|]. intros i Hi. destruct (Nat.leb_spec j i), (Nat.ltb_spec i (j + 0)); simpl; try reflexivity; lia.
    - assert (Hj : (j < bsize b)%nat) by lia.
      unfold step at 1. cbv beta. rewrite (id_cell b st ov j S Hj).
      assert (Hs : (st + j < List.length sol)%nat) by lia.
      rewrite (vget_ok _ _ _ (nth_error_nth' _ 0 Hs)). cbn [bind].
      destruct (IH (Datatypes.S j) (fun r c => if (Z.eqb r (fst (cell b j)) && Z.eqb c (snd (cell b j)))%bool then nth (st + j) sol 0 else g r c) ltac:(lia)) as (g' & F & N).
      exists g'. split; [exact F|]. intros i Hi. rewrite N by auto.
      destruct (cell_range b i Hi) as (A1 & A2 & A3). destruct (cell_range b j Hj) as (B1 & B2 & B3).
      destruct (Nat.eq_dec i j) as [->|NE].
      + destruct (Nat.leb_spec (Datatypes.S j) j); [lia|]. cbn [andb]. rewrite !Z.eqb_refl. cbn [andb].
        destruct (Nat.leb_spec j j), (Nat.ltb_spec j (j + Datatypes.S m)); simpl; try lia. reflexivity.
      + assert (HN : (Z.eqb (fst (cell b i)) (fst (cell b j)) && Z.eqb (snd (cell b i)) (snd (cell b j)))%bool = false).
        { apply not_true_iff_false. intros HT. apply andb_prop in HT as [T1 T2]. apply Z.eqb_eq in T1, T2. unfold cell in T1, T2. simpl in T1, T2.
          apply NE. rewrite <- A3, <- B3. apply Nat2Z.inj in T1, T2. rewrite T1, T2. reflexivity. }
        rewrite HN. destruct (Nat.leb_spec (Datatypes.S j) i), (Nat.ltb_spec i (Datatypes.S j + m)), (Nat.leb_spec j i), (Nat.ltb_spec i (j + Datatypes.S m)); simpl; try lia; reflexivity. }
  destruct (G (bsize b) 0%nat (fun _ _ => 0) ltac:(lia)) as (g & F & N). rewrite F. cbn [bind]. exists g.
  split; [rewrite S; reflexivity|].
  intros r c Hr Hc. set (j := (c * b_rows b + r)%nat).
  assert (Hj : (j < bsize b)%nat) by (unfold j, bsize; nia).
  specialize (N j Hj). destruct (Nat.leb_spec 0 j), (Nat.ltb_spec j (0 + bsize b)); try lia. cbn [andb] in N. rewrite <- N.
  unfold cell, j. cbn [fst snd].
  replace (c * b_rows b + r)%nat with (r + c * b_rows b)%nat by lia.
  rewrite Nat.mod_add, Nat.div_add by lia. rewrite Nat.mod_small, Nat.div_small by lia. reflexivity.
Qed.

Lemma write_back_spec x p i : (i < List.length (p_vars p))%nat ->
  List.length (p_vars (write_back x p)) = List.length (p_vars p) /\
  v_val (nth i (p_vars (write_back x p)) (mkVar Continuous 0 0 0 0)) = x i.
Proof.
  intros Hi. unfold write_back, set_vars. cbn [p_vars]. split.
  - rewrite map_length, combine_length, seq_length. lia.
  - set (f := fun ic : nat * cvar => _).
    rewrite (nth_indep _ _ (f (0%nat, mkVar Continuous 0 0 0 0))) by (rewrite map_length, combine_length, seq_length; lia).
    rewrite map_nth. rewrite combine_nth by now rewrite seq_length. rewrite seq_nth by auto. reflexivity.
Qed.

Lemma write_back_length x p : List.length (p_vars (write_back x p)) = List.length (p_vars p).
Proof. unfold write_back, set_vars. cbn [p_vars]. rewrite map_length, combine_length, seq_length. lia. Qed.

Lemma column_of_div bs ord k b r c : nth_error bs k = Some b -> In k ord -> (r < b_rows b)%nat ->
  column_of bs ord k ((r + c * b_rows b) mod b_rows b) ((r + c * b_rows b) / b_rows b) = column_of bs ord k r c.
Proof. intros E Hin Hr. rewrite Nat.mod_add, Nat.div_add by lia. rewrite Nat.mod_small, Nat.div_small by lia. reflexivity. Qed.

Theorem planner_pass_spec bo bs ord setup x p0 k b :
  Permutation ord (seq 0 (List.length bs)) -> (forall b', In b' bs -> block_ok bo b') -> appends_vars setup ->
  nth_error bs k = Some b ->
  exists ov, planner_pass bo bs ord setup x p0 k = Ok ov /\
    forall r c, (r < b_rows b)%nat -> (c < b_cols b)%nat ->
      ov_guess ov (Z.of_nat r) (Z.of_nat c) = x (column_of bs ord k r c).
Proof.
  intros HP HB HS Ek. unfold planner_pass.
  destruct (init_blocks_spec bs 0%nat) as (ovs & E & L & H). change (Z.of_nat 0) with 0%Z in E. rewrite E. cbv zeta.
  simpl Nat.add in *. set (T := sumn (map bsize bs)) in *.
  assert (HO : ovs_ok bs ovs) by (intros k' b' E'; destruct (H k' b' E') as (ov & O1 & O2); eauto).
  assert (IN : forall j, (j < List.length bs)%nat <-> In j ord).
  { intros j. split; intros Hj.
    - apply (Permutation_in _ (Permutation_sym HP)), in_seq. lia.
    - apply (Permutation_in _ HP), in_seq in Hj. lia. }
  unfold add_all. rewrite Nat2Z.id.
  destruct (add_all_spec bo bs ovs HO HB ord (cp_clean p0) (repeat None T)) as (p & vars & F & _ & LV & C & _).
  - apply (Permutation_NoDup (Permutation_sym HP)), seq_NoDup.
  - intros j Hj. now apply IN.
  - rewrite repeat_length. unfold T. lia.
  - rewrite F. cbn [bind]. change (List.length (p_vars (cp_clean p0))) with 0%nat in C. simpl Nat.add in C.
    destruct (HS p) as (aux & HA).
    assert (Hcol : forall i, (i < T)%nat -> exists k' b' j, nth_error bs k' = Some b' /\ (j < bsize b')%nat /\ i = (block_start bs k' + j)%nat /\
               nth_error vars i = Some (Some (column_of bs ord k' (j mod b_rows b') (j / b_rows b'))) /\
               (column_of bs ord k' (j mod b_rows b') (j / b_rows b') < List.length (p_vars (write_back x (setup p))))%nat).
    { intros i Hi. destruct (block_start_cover bs i Hi) as (k' & b' & j & E1 & E2 & ->).
      assert (Ik' : In k' ord) by (apply IN, nth_error_Some; rewrite E1; discriminate).
      destruct (C k' b' j Ik' E1 E2) as [D1 D2]. exists k', b', j. repeat split; auto.
      rewrite write_back_length, HA, app_length.
      assert (column_of bs ord k' (j mod b_rows b') (j / b_rows b') < List.length (p_vars p))%nat by (apply nth_error_Some; rewrite D2; discriminate). lia. }
    set (f := fun i => match nth_error vars i with Some (Some c) => c | _ => 0%nat end).
    rewrite (extract_spec _ _ T f).
    2:{ intros i Hi. destruct (Hcol i Hi) as (k' & b' & j & _ & _ & _ & D1 & D2). unfold f. rewrite D1. auto. }
    cbn [bind]. destruct (HO k b Ek) as (ov & Eo & S). rewrite Eo.
    pose proof (block_start_total bs k b Ek) as TT.
    destruct (save_spec b (block_start bs k) ov (map (fun i => v_val (nth (f i) (p_vars (write_back x (setup p))) (mkVar Continuous 0 0 0 0))) (seq 0 T)) S) as (g & G1 & G2).
    { rewrite map_length, seq_length. exact TT. }
    rewrite G1. eexists. split; [reflexivity|]. intros r c Hr Hc. cbn [ov_guess]. rewrite G2 by auto.
    set (j := (c * b_rows b + r)%nat). assert (Hj : (j < bsize b)%nat) by (unfold j, bsize; nia).
    rewrite (nth_indep _ 0 (v_val (nth (f 0%nat) (p_vars (write_back x (setup p))) (mkVar Continuous 0 0 0 0)))) by (rewrite map_length, seq_length; unfold T; lia).
    rewrite map_nth with (d := 0%nat) (f := fun i => v_val (nth (f i) (p_vars (write_back x (setup p))) (mkVar Continuous 0 0 0 0))).
    rewrite seq_nth by (unfold T; lia). simpl Nat.add.
    assert (Ik : In k ord) by (apply IN, nth_error_Some; rewrite Ek; discriminate).
    destruct (C k b j Ik Ek Hj) as [D1 D2]. unfold f at 1. rewrite D1.
    assert (CE : column_of bs ord k (j mod b_rows b) (j / b_rows b) = column_of bs ord k r c).
    { unfold j. replace (c * b_rows b + r)%nat with (r + c * b_rows b)%nat by lia. apply column_of_div with (b := b); auto. }
    rewrite CE in *. apply write_back_spec. rewrite HA, app_length.
    assert (column_of bs ord k r c < List.length (p_vars p))%nat by (apply nth_error_Some; rewrite D2; discriminate). lia.
Qed.

(** Each entry gets its own model variable with the declared bounds and the declared guess as value. *)
Theorem added_variables bo bs ord p0 :
  Permutation ord (seq 0 (List.length bs)) -> (forall b', In b' bs -> block_ok bo b') ->
  exists p vars, (let '(ovs, nv) := init_blocks bs 0 in add_all bo ovs nv ord p0) = Ok (p, vars) /\
   forall k b r c, nth_error bs k = Some b -> (r < b_rows b)%nat -> (c < b_cols b)%nat ->
     exists v, nth_error (p_vars p) (column_of bs ord k r c) = Some v /\
       v_lb v = b_lb b (Z.of_nat r) (Z.of_nat c) /\ v_ub v = b_ub b (Z.of_nat r) (Z.of_nat c) /\
       v_val v = b_guess b (Z.of_nat r) (Z.of_nat c) /\ (v_type v = Binary <-> b_type b = "B"%char) /\
       nth_error vars (block_start bs k + (c * b_rows b + r)) = Some (Some (column_of bs ord k r c)).
Proof.
  intros HP HB. destruct (init_blocks_spec bs 0%nat) as (ovs & E & L & H). change (Z.of_nat 0) with 0%Z in E. rewrite E. cbv zeta.
  simpl Nat.add in *. set (T := sumn (map bsize bs)) in *.
  assert (HO : ovs_ok bs ovs) by (intros k' b' E'; destruct (H k' b' E') as (ov & O1 & O2); eauto).
  unfold add_all. rewrite Nat2Z.id.
  destruct (add_all_spec bo bs ovs HO HB ord (cp_clean p0) (repeat None T)) as (p & vars & F & _ & LV & C & _).
  - apply (Permutation_NoDup (Permutation_sym HP)), seq_NoDup.
  - intros j Hj. apply (Permutation_in _ HP), in_seq in Hj. lia.
  - rewrite repeat_length. unfold T. lia.
  - rewrite F. exists p, vars. split; [reflexivity|]. intros k b r c Ek Hr Hc.
    assert (Ik : In k ord).
    { apply (Permutation_in _ (Permutation_sym HP)), in_seq. assert (k < List.length bs)%nat by (apply nth_error_Some; rewrite Ek; discriminate). lia. }
    set (j := (c * b_rows b + r)%nat). assert (Hj : (j < bsize b)%nat) by (unfold j, bsize; nia).
    destruct (C k b j Ik Ek Hj) as [D1 D2]. change (List.length (p_vars (cp_clean p0))) with 0%nat in D1, D2. simpl Nat.add in D1, D2.
    assert (CE : column_of bs ord k (j mod b_rows b) (j / b_rows b) = column_of bs ord k r c).
    { unfold j. replace (c * b_rows b + r)%nat with (r + c * b_rows b)%nat by lia. apply column_of_div with (b := b); auto. }
    rewrite CE in *. eexists. split; [exact D2|]. unfold entry_var, revalued, new_var, cell. cbn [v_lb v_ub v_val v_type fst snd].
    assert (M1 : (j mod b_rows b)%nat = r /\ (j / b_rows b)%nat = c).
    { unfold j. replace (c * b_rows b + r)%nat with (r + c * b_rows b)%nat by lia. rewrite Nat.mod_add, Nat.div_add by lia.
      rewrite Nat.mod_small, Nat.div_small by lia. auto. }
    destruct M1 as [-> ->]. repeat split; auto.
    + intros Hty. destruct (Ascii.eqb_spec (b_type b) "C"%char); [discriminate|].
      destruct (HB b (nth_error_In _ _ Ek)) as [[OT|[OT _]] _]; [contradiction|exact OT].
    + intros Hty. rewrite Hty. reflexivity.
Qed.

(** Adding constraints and objective through the modelling layer appends variables only. *)
Lemma addAuxs_appends n : forall p, exists l, p_vars (fst (cp_addAuxs n p)) = p_vars p ++ l.
Proof.
  induction n as [|n IH]; intros p; simpl; [exists []; now rewrite app_nil_r|].
  destruct (cp_addAuxs n (cp_addAux p)) as [p' cs] eqn:E. simpl.
  destruct (IH (cp_addAux p)) as (l & Hl). rewrite E in Hl. simpl in Hl. rewrite Hl.
  unfold cp_addAux, cp_addVar. destruct (Rlt_dec 1 0); [lra|]. simpl. rewrite <- app_assoc. eexists; reflexivity.
Qed.
Lemma run_calls_appends cs : appends_vars (run_calls cs).
Proof.
  assert (D : forall c p, exists l, p_vars (out_state (do_call c p)) = p_vars p ++ l).
  { intros c p. destruct c; cbn [do_call].
    - unfold cp_addVar. destruct (Rlt_dec ub lb); simpl; [exists []; now rewrite app_nil_r|].
      destruct ty; simpl; eexists; reflexivity.
    - unfold cp_addLin. exists []. rewrite app_nil_r. repeat destruct (String.eqb _ _); reflexivity.
    - unfold cp_addQua. match goal with |- context [cp_addAuxs ?n p] => destruct (addAuxs_appends n p) as (l0 & Hl); destruct (cp_addAuxs n p) end.
      simpl in Hl. exists l0. destruct (String.eqb _ _); simpl; exact Hl.
    - unfold cp_addSoc. destruct (addAuxs_appends 1 p) as (l0 & Hl); destruct (cp_addAuxs 1 p).
      simpl in Hl. exists l0. destruct (String.eqb _ _); simpl; exact Hl.
    - unfold cp_setObj. match goal with |- context [cp_addAuxs ?n p] => destruct (addAuxs_appends n p) as (l0 & Hl); destruct (cp_addAuxs n p) end.
      simpl in Hl. exists l0. simpl; exact Hl. }
  unfold appends_vars, run_calls. induction cs as [|c cs IH]; intros p; simpl; [exists []; now rewrite app_nil_r|].
  destruct (IH (out_state (do_call c p))) as (l & Hl). destruct (D c p) as (l' & Hl'). rewrite Hl, Hl', <- app_assoc. eexists; reflexivity.
Qed.

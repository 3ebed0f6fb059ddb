(** * Proofs for C07/C08 *)
From Coq Require Import Reals List Arith ZArith Bool Ascii Lia Lra Permutation.
From Verif Require Import ExprsModel ConicModel OptVarModel OptVarSpec.
Import ListNotations.
Open Scope R_scope.

(** ** Lists *)
Lemma nth_error_ext' {A} (l l' : list A) : (forall i, nth_error l i = nth_error l' i) -> l = l'.
Proof.
  revert l'; induction l as [|x l IH]; intros [|y l'] H; auto.
  - specialize (H 0%nat); discriminate.
  - specialize (H 0%nat); discriminate.
  - f_equal; [specialize (H 0%nat); now injection H|]. apply IH. intros i. apply (H (S i)).
Qed.
Lemma set_nth_length {A} (l : list A) i a : List.length (set_nth l i a) = List.length l.
Proof. revert i; induction l as [|x l IH]; intros [|i]; simpl; auto. Qed.
Lemma nth_error_set_nth {A} (l : list A) i a j :
  nth_error (set_nth l i a) j = if Nat.eqb j i then (if Nat.ltb j (List.length l) then Some a else None) else nth_error l j.
Proof.
  revert i j; induction l as [|x l IH]; intros i j.
  - simpl. assert (nth_error (@nil A) j = None) as -> by (destruct j; reflexivity). destruct (Nat.eqb j i); reflexivity.
  - destruct i as [|i], j as [|j]; simpl; try reflexivity.
    rewrite IH. destruct (Nat.eqb j i); [|reflexivity].
    change (S j <? S (List.length l))%nat with (j <? List.length l)%nat. reflexivity.
Qed.
Lemma zseq_of_nat n : zseq (Z.of_nat n) = map Z.of_nat (seq 0 n).
Proof. unfold zseq. now rewrite Nat2Z.id. Qed.
Lemma sumn_app a b : sumn (a ++ b) = (sumn a + sumn b)%nat.
Proof. induction a; simpl; lia. Qed.
Lemma foldM_app {A S} (f : S -> A -> res S) a b s : foldM f (a ++ b) s = bind (foldM f a s) (foldM f b).
Proof. revert s; induction a as [|x a IH]; intros s; simpl; [reflexivity|]. destruct (f s x); simpl; auto. Qed.

(** ** Shape of initialised blocks *)
Definition shaped (b : blockspec) (st : nat) (ov : optvar) : Prop :=
  ov = mkOV (b_type b) (Z.of_nat st) (Z.of_nat (b_rows b)) (Z.of_nat (b_cols b)) (b_lb b) (b_ub b) (b_guess b).

Lemma block_start_S bs b k : block_start (b :: bs) (S k) = (bsize b + block_start bs k)%nat.
Proof. reflexivity. Qed.

Lemma init_blocks_spec bs : forall st, exists ovs,
  init_blocks bs (Z.of_nat st) = (ovs, Z.of_nat (st + sumn (map bsize bs))) /\
  List.length ovs = List.length bs /\
  forall k b, nth_error bs k = Some b -> exists ov, nth_error ovs k = Some ov /\ shaped b (st + block_start bs k) ov.
Proof.
  induction bs as [|b bs IH]; intros st.
  - exists []. simpl. rewrite Nat.add_0_r. repeat split; auto. intros [|k] b H; discriminate.
  - simpl. unfold ov_initialize.
    replace (Z.of_nat st + Z.of_nat (b_rows b) * Z.of_nat (b_cols b))%Z with (Z.of_nat (st + bsize b)) by (unfold bsize; lia).
    destruct (IH (st + bsize b)%nat) as (ovs & E & L & H). rewrite E. eexists. split.
    + replace (st + (bsize b + sumn (map bsize bs)))%nat with (st + bsize b + sumn (map bsize bs))%nat by lia. reflexivity.
    + split; [simpl; lia|]. intros [|k] b' Hk; simpl in *.
      * injection Hk as <-. eexists; split; [reflexivity|]. unfold shaped, block_start. simpl. now rewrite Nat.add_0_r.
      * destruct (H k b' Hk) as (ov & O1 & O2). exists ov. split; [exact O1|].
        rewrite block_start_S. now replace (st + (bsize b + block_start bs k))%nat with (st + bsize b + block_start bs k)%nat by lia.
Qed.

Lemma id_in_range b st ov r c : shaped b st ov -> (r < b_rows b)%nat -> (c < b_cols b)%nat ->
  ov_id ov (Z.of_nat r) (Z.of_nat c) = Z.of_nat (st + (c * b_rows b + r)).
Proof.
  intros -> Hr Hc. unfold ov_id, row_bnd_ind, col_bnd_ind. simpl.
  destruct (Z.leb_spec (Z.of_nat (b_rows b)) (Z.of_nat r)); [lia|].
  destruct (Z.leb_spec (Z.of_nat (b_cols b)) (Z.of_nat c)); [lia|].
  assert (E1 : (if (Z.of_nat r <=? 0)%Z then 0%Z else Z.of_nat r) = Z.of_nat r) by (destruct (Z.leb_spec (Z.of_nat r) 0); lia).
  assert (E2 : (if (Z.of_nat c <=? 0)%Z then 0%Z else Z.of_nat c) = Z.of_nat c) by (destruct (Z.leb_spec (Z.of_nat c) 0); lia).
  rewrite E1, E2. lia.
Qed.

Lemma id_clamped b st ov r c : shaped b st ov -> (0 < b_rows b)%nat -> (0 < b_cols b)%nat ->
  exists r' c', (r' < b_rows b)%nat /\ (c' < b_cols b)%nat /\ ov_id ov r c = ov_id ov (Z.of_nat r') (Z.of_nat c') /\
   ((0 <= r < Z.of_nat (b_rows b))%Z -> r = Z.of_nat r') /\ ((0 <= c < Z.of_nat (b_cols b))%Z -> c = Z.of_nat c').
Proof.
  intros S Hr Hc.
  set (r' := Z.to_nat (if (Z.of_nat (b_rows b) <=? r)%Z then Z.of_nat (b_rows b) - 1 else if (r <=? 0)%Z then 0 else r)).
  set (c' := Z.to_nat (if (Z.of_nat (b_cols b) <=? c)%Z then Z.of_nat (b_cols b) - 1 else if (c <=? 0)%Z then 0 else c)).
  assert (R1 : (r' < b_rows b)%nat /\ Z.of_nat r' = (if (Z.of_nat (b_rows b) <=? r) then Z.of_nat (b_rows b) - 1 else if (r <=? 0) then 0 else r)%Z).
  { unfold r'. destruct (Z.leb_spec (Z.of_nat (b_rows b)) r); [lia|]. destruct (Z.leb_spec r 0); lia. }
  assert (C1 : (c' < b_cols b)%nat /\ Z.of_nat c' = (if (Z.of_nat (b_cols b) <=? c) then Z.of_nat (b_cols b) - 1 else if (c <=? 0) then 0 else c)%Z).
  { unfold c'. destruct (Z.leb_spec (Z.of_nat (b_cols b)) c); [lia|]. destruct (Z.leb_spec c 0); lia. }
  exists r', c'. destruct R1 as [R1 R2], C1 as [C1 C2]. split; [exact R1|]. split; [exact C1|].
  rewrite (id_in_range b st ov r' c' S R1 C1). split; [|split].
  - rewrite S. unfold ov_id, row_bnd_ind, col_bnd_ind. simpl. rewrite <- R2, <- C2. lia.
  - intros H. rewrite R2. destruct (Z.leb_spec (Z.of_nat (b_rows b)) r); [lia|]. destruct (Z.leb_spec r 0); lia.
  - intros H. rewrite C2. destruct (Z.leb_spec (Z.of_nat (b_cols b)) c); [lia|]. destruct (Z.leb_spec c 0); lia.
Qed.

(** ** Cells in loop order *)
Definition cell (b : blockspec) (j : nat) : Z * Z := (Z.of_nat (j mod b_rows b), Z.of_nat (j / b_rows b)).

Lemma cells_spec b st ov : shaped b st ov -> cells ov = map (cell b) (seq 0 (bsize b)).
Proof.
  intros ->. unfold cells, bsize. simpl. rewrite !zseq_of_nat.
  destruct (Nat.eq_dec (b_rows b) 0) as [E|NE].
  - rewrite E. simpl. induction (map Z.of_nat (seq 0 (b_cols b))); simpl; auto.
  - induction (b_cols b) as [|n IH].
    + rewrite Nat.mul_0_r. reflexivity.
    + rewrite seq_S, map_app, flat_map_app, IH.
      replace (b_rows b * S n)%nat with (b_rows b * n + b_rows b)%nat by lia.
      rewrite seq_app, map_app. f_equal. simpl. rewrite app_nil_r, map_map.
      assert (G : forall m k, (k + m <= b_rows b)%nat ->
         map (fun x => (Z.of_nat x, Z.of_nat n)) (seq k m) = map (cell b) (seq (b_rows b * n + k) m)).
      { induction m as [|m IHm]; intros k Hk; simpl; [reflexivity|]. f_equal.
        - unfold cell. replace (b_rows b * n + k)%nat with (k + n * b_rows b)%nat by lia.
          rewrite Nat.mod_add, Nat.div_add by exact NE. rewrite Nat.mod_small, Nat.div_small by lia. reflexivity.
        - rewrite IHm by lia. f_equal. f_equal. lia. }
      rewrite (G (b_rows b) 0%nat) by lia. f_equal. f_equal. lia.
Qed.

Lemma cell_range b j : (j < bsize b)%nat -> (j mod b_rows b < b_rows b)%nat /\ (j / b_rows b < b_cols b)%nat /\
  (j / b_rows b * b_rows b + j mod b_rows b)%nat = j.
Proof.
  unfold bsize. intros H. assert (b_rows b <> 0)%nat by (intros E; rewrite E in H; simpl in H; lia).
  split; [apply Nat.mod_upper_bound; auto|]. split; [apply Nat.div_lt_upper_bound; auto|].
  rewrite (Nat.mul_comm (j / b_rows b)). symmetry. apply Nat.div_mod; auto.
Qed.
Lemma id_cell b st ov j : shaped b st ov -> (j < bsize b)%nat -> ov_id ov (fst (cell b j)) (snd (cell b j)) = Z.of_nat (st + j).
Proof. intros S H. destruct (cell_range b j H) as (A & B & C). unfold cell. simpl. rewrite (id_in_range b st ov) by auto. now rewrite C. Qed.

(** ** Adding one block *)
Definition new_var (b : blockspec) (j : nat) : cvar :=
  let '(r, c) := cell b j in
  let g := clamp_guess (b_lb b r c) (b_ub b r c) (b_guess b r c) in
  mkVar (if Ascii.eqb (b_type b) "C"%char then Continuous else Binary) (b_lb b r c) (b_ub b r c) g g.

Lemma vset_ok {A} (l : list A) i a : (i < List.length l)%nat -> vset l (Z.of_nat i) a = Ok (set_nth l i a).
Proof. intros H. unfold vset. destruct (Z.leb_spec 0 (Z.of_nat i)), (Z.ltb_spec (Z.of_nat i) (Z.of_nat (List.length l))); try lia. simpl. now rewrite Nat2Z.id. Qed.
Lemma vget_ok {A} (l : list A) i a : nth_error l i = Some a -> vget l (Z.of_nat i) = Ok a.
Proof. intros H. unfold vget. destruct (Z.leb_spec 0 (Z.of_nat i)); [|lia]. rewrite Nat2Z.id, H. reflexivity. Qed.

Lemma add_cells bo b st ov : shaped b st ov -> block_ok bo b ->
  forall m j0 p vars, (j0 + m <= bsize b)%nat -> (st + bsize b <= List.length vars)%nat ->
  exists p' vars', foldM (add_cell bo ov) (map (cell b) (seq j0 m)) (p, vars) = Ok (p', vars') /\
    p_vars p' = p_vars p ++ map (new_var b) (seq j0 m) /\
    List.length vars' = List.length vars /\
    forall i, nth_error vars' i = if ((st + j0 <=? i) && (i <? st + j0 + m))%nat
                                  then Some (Some (List.length (p_vars p) + (i - (st + j0)))%nat) else nth_error vars i.
Proof.
  intros S [OT OB]. induction m as [|m IH]; intros j0 p vars Hj HL.
  - simpl. exists p, vars. rewrite app_nil_r. repeat split. intros i.
    destruct (Nat.leb_spec (st + j0) i), (Nat.ltb_spec i (st + j0 + 0)); simpl; try reflexivity; lia.
  - cbn [seq map foldM]. assert (Hj0 : (j0 < bsize b)%nat) by lia. destruct (cell_range b j0 Hj0) as (A1 & A2 & A3).
    assert (E : exists p1, add_cell bo ov (p, vars) (cell b j0) = Ok (p1, set_nth vars (st + j0) (Some (List.length (p_vars p)))) /\
        p_vars p1 = p_vars p ++ [new_var b j0]).
    { unfold add_cell. pose proof (id_cell b st ov j0 S Hj0) as ID. unfold cell in *. simpl fst in ID; simpl snd in ID.
      rewrite ID, vset_ok by lia. rewrite S. cbn [ov_type ov_lb ov_ub ov_guess]. unfold new_var, cell.
      set (r := Z.of_nat (j0 mod b_rows b)). set (c := Z.of_nat (j0 / b_rows b)).
      assert (B : b_lb b r c <= b_ub b r c) by (apply OB; auto).
      destruct OT as [T|[T BO]]; rewrite T; simpl.
      - unfold cp_addVar. destruct (Rlt_dec (b_ub b r c) (b_lb b r c)); [lra|]. simpl. eexists; split; [reflexivity|]. reflexivity.
      - rewrite BO. unfold cp_addVar. destruct (Rlt_dec (b_ub b r c) (b_lb b r c)); [lra|]. simpl. eexists; split; [reflexivity|]. reflexivity. }
    destruct E as (p1 & E1 & E2). rewrite E1. cbn [bind].
    destruct (IH (Datatypes.S j0) p1 (set_nth vars (st + j0) (Some (List.length (p_vars p))))) as (p' & vars' & F & V & L & N).
    { lia. } { rewrite set_nth_length. lia. }
    exists p', vars'. split; [exact F|]. split; [rewrite V, E2, <- app_assoc; reflexivity|]. split; [rewrite L, set_nth_length; reflexivity|].
    intros i. rewrite N, E2, app_length. simpl List.length. rewrite nth_error_set_nth.
    destruct (Nat.leb_spec (st + Datatypes.S j0) i), (Nat.ltb_spec i (st + Datatypes.S j0 + m)), (Nat.leb_spec (st + j0) i), (Nat.ltb_spec i (st + j0 + Datatypes.S m)), (Nat.eqb_spec i (st + j0)); simpl; try lia; try reflexivity.
    + do 2 f_equal. lia.
    + destruct (Nat.ltb_spec i (List.length vars)); [|lia]. do 2 f_equal. lia.
Qed.

(** After the second loop: values are the raw guesses, everything else as before. *)
Definition revalued (v : R) (x : cvar) : cvar := mkVar (v_type x) (v_lb x) (v_ub x) v (v_guess x).
Lemma set_val_vars p c v : p_vars (set_val p c v) = match nth_error (p_vars p) c with Some x => set_nth (p_vars p) c (revalued v x) | None => p_vars p end.
Proof. unfold set_val. destruct (nth_error (p_vars p) c); reflexivity. Qed.

Lemma set_cells b st ov n : shaped b st ov ->
  forall m j0 p vars, (j0 + m <= bsize b)%nat ->
  (forall j, (j < bsize b)%nat -> nth_error vars (st + j) = Some (Some (n + j)%nat)) ->
  (n + bsize b <= List.length (p_vars p))%nat ->
  exists p', foldM (set_cell ov) (map (cell b) (seq j0 m)) (p, vars) = Ok (p', vars) /\
    List.length (p_vars p') = List.length (p_vars p) /\
    forall i, nth_error (p_vars p') i =
      if ((n + j0 <=? i) && (i <? n + j0 + m))%nat
      then option_map (revalued (b_guess b (fst (cell b (i - n))) (snd (cell b (i - n))))) (nth_error (p_vars p) i) else nth_error (p_vars p) i.
Proof.
  intros S. induction m as [|m IH]; intros j0 p vars Hj HV HL.
  - simpl. exists p. repeat split. intros i. destruct (Nat.leb_spec (n + j0) i), (Nat.ltb_spec i (n + j0 + 0)); simpl; try reflexivity; lia.
  - cbn [seq map foldM]. assert (Hj0 : (j0 < bsize b)%nat) by lia.
    assert (E : set_cell ov (p, vars) (cell b j0) = Ok (set_val p (n + j0) (b_guess b (fst (cell b j0)) (snd (cell b j0))), vars)).
    { unfold set_cell. pose proof (id_cell b st ov j0 S Hj0) as ID. unfold cell in *. simpl fst in *; simpl snd in *.
      rewrite ID, (vget_ok _ _ _ (HV j0 Hj0)). simpl. rewrite S at 1. reflexivity. }
    rewrite E. cbn [bind]. set (p1 := set_val _ _ _).
    assert (L1 : List.length (p_vars p1) = List.length (p_vars p)).
    { unfold p1. rewrite set_val_vars. destruct (nth_error (p_vars p) (n + j0)); [apply set_nth_length|reflexivity]. }
    destruct (IH (Datatypes.S j0) p1 vars) as (p' & F & L & N); [lia|exact HV|lia|].
    exists p'. split; [exact F|]. split; [lia|]. intros i. rewrite N. unfold p1. rewrite set_val_vars.
    destruct (nth_error (p_vars p) (n + j0)) as [x|] eqn:Ex.
    2:{ apply nth_error_None in Ex. lia. }
    rewrite nth_error_set_nth.
    destruct (Nat.leb_spec (n + Datatypes.S j0) i), (Nat.ltb_spec i (n + Datatypes.S j0 + m)), (Nat.leb_spec (n + j0) i), (Nat.ltb_spec i (n + j0 + Datatypes.S m)), (Nat.eqb_spec i (n + j0)); simpl; try lia; try reflexivity.
    subst i. rewrite Ex. simpl. destruct (Nat.ltb_spec (n + j0) (List.length (p_vars p))); [|lia].
    replace (n + j0 - n)%nat with j0 by lia. reflexivity.
Qed.

(** The model variable created for entry (r,c). *)
Definition entry_var (b : blockspec) (j : nat) : cvar := revalued (b_guess b (fst (cell b j)) (snd (cell b j))) (new_var b j).

Lemma add_block_spec bo b st ov p vars : shaped b st ov -> block_ok bo b -> (st + bsize b <= List.length vars)%nat ->
  exists p' vars', add_block bo (p, vars) ov = Ok (p', vars') /\
    p_vars p' = p_vars p ++ map (entry_var b) (seq 0 (bsize b)) /\
    List.length vars' = List.length vars /\
    forall i, nth_error vars' i = if ((st <=? i) && (i <? st + bsize b))%nat
                                  then Some (Some (List.length (p_vars p) + (i - st))%nat) else nth_error vars i.
Proof.
  intros S O HL. unfold add_block. rewrite (cells_spec b st ov S).
  destruct (add_cells bo b st ov S O (bsize b) 0 p vars) as (p1 & vars1 & F & V & L & N); [lia|lia|].
  rewrite F. simpl.
  destruct (set_cells b st ov (List.length (p_vars p)) S (bsize b) 0 p1 vars1) as (p2 & F2 & L2 & N2).
  - lia.
  - intros j Hj. rewrite N. destruct (Nat.leb_spec (st + 0) (st + j)), (Nat.ltb_spec (st + j) (st + 0 + bsize b)); simpl; try lia. do 2 f_equal. lia.
  - rewrite V, app_length, map_length, seq_length. lia.
  - exists p2, vars1. split; [exact F2|]. split; [|split; [exact L|]].
    + apply nth_error_ext'. intros i. rewrite N2, V.
      destruct (Nat.ltb_spec i (List.length (p_vars p))) as [Hi|Hi].
      * rewrite !nth_error_app1 by auto. destruct (Nat.leb_spec (List.length (p_vars p) + 0) i); [lia|]. reflexivity.
      * rewrite !nth_error_app2 by lia. rewrite !nth_error_map.
        destruct (Nat.ltb_spec (i - List.length (p_vars p)) (bsize b)) as [Hb|Hb].
        -- destruct (Nat.leb_spec (List.length (p_vars p) + 0) i), (Nat.ltb_spec i (List.length (p_vars p) + 0 + bsize b)); simpl; try lia.
           rewrite (nth_error_nth' _ 0%nat) by (rewrite seq_length; lia). rewrite seq_nth by lia. simpl. reflexivity.
        -- rewrite (proj2 (nth_error_None (seq 0 (bsize b)) (i - List.length (p_vars p)))) by (rewrite seq_length; lia). simpl.
           destruct (_ && _); reflexivity.
    + intros i. rewrite N. rewrite Nat.add_0_r. reflexivity.
Qed.

From Coq Require Import Reals List Arith ZArith Bool String Ascii Lra Lia Permutation.
Import ListNotations.
From Verif Require Import Base BaseProofs Vec3 ExprsModel ExprsProofs ConicModel ConicSpec ConicProofs ConicProofs4 ConicProofs5 ConicProofs6
  OptVarModel OptVarSpec OptVarProofs OptVarProofs2 OptVarProps CntModel DynModel DynSpec DynProofs DynProofs2 DynProofs3 DynProofs4 KinModel KinSpec.
Local Open Scope R_scope.

Lemma len_cells : forall r c, List.length (flat_map (fun c => map (fun r => (r, c)) (zseq (Z.of_nat r))) (zseq (Z.of_nat c))) = (r * c)%nat.
Proof.
  intros r c. unfold zseq. rewrite !Nat2Z.id. generalize (seq 0 c) as l, (seq_length c 0). intros l <-. induction l as [|a l IH]; cbn [map flat_map List.length]; [lia|]. rewrite app_length, IH, !map_length, seq_length. lia.
Qed.
(** ** Columns of blocks added in an arbitrary order *)
Section Cols.
  Variables (bs : list blockspec) (ord : list nat).
  Let B k := nth k bs (mkB "C"%char 0 0 (fun _ _ => 0) (fun _ _ => 0) (fun _ _ => 0)).
  Definition total (o : list nat) : nat := sumn (map (fun k => bsize (nth k bs (mkB "C"%char 0 0 (fun _ _ => 0) (fun _ _ => 0) (fun _ _ => 0)))) o).
  Lemma cell_lt : forall rows cols r c, (r < rows)%nat -> (c < cols)%nat -> (c * rows + r < rows * cols)%nat.
  Proof. intros. nia. Qed.
  Lemma column_lt : forall o k r c, In k o -> (r < b_rows (B k))%nat -> (c < b_cols (B k))%nat -> (column_of bs o k r c < total o)%nat.
  Proof.
    induction o as [|j o IH]; intros k r c Hin Hr Hc; [destruct Hin|]. cbn [column_of]. unfold total. cbn [map sumn fold_right].
    destruct (Nat.eqb_spec j k) as [->|Hj].
    - pose proof (cell_lt _ _ _ _ Hr Hc). unfold bsize. unfold B in *. lia.
    - destruct Hin as [->|Hin]; [easy|]. specialize (IH k r c Hin Hr Hc). unfold total, sumn in *. lia.
  Qed.
  Lemma column_inj : forall o k r c k' r' c', NoDup o -> In k o -> In k' o -> (r < b_rows (B k))%nat -> (c < b_cols (B k))%nat -> (r' < b_rows (B k'))%nat -> (c' < b_cols (B k'))%nat ->
    column_of bs o k r c = column_of bs o k' r' c' -> k = k' /\ r = r' /\ c = c'.
  Proof.
    induction o as [|j o IH]; intros k r c k' r' c' ND Hk Hk' Hr Hc Hr' Hc' E; [destruct Hk|]. apply NoDup_cons_iff in ND; destruct ND as (N1 & N2). cbn [column_of] in E.
    destruct (Nat.eqb_spec j k) as [K1|Hj], (Nat.eqb_spec j k') as [K2|Hj'].
    - subst k k'. split; [reflexivity|]. unfold B in *. assert (c = c') by (destruct (Nat.lt_trichotomy c c') as [T|[T|T]]; [exfalso; nia|exact T|exfalso; nia]). subst. split; [lia|reflexivity].
    - exfalso. subst k. pose proof (cell_lt _ _ _ _ Hr Hc). unfold bsize, B in *. lia.
    - exfalso. subst k'. pose proof (cell_lt _ _ _ _ Hr' Hc'). unfold bsize, B in *. lia.
    - destruct Hk as [?|Hk]; [easy|]. destruct Hk' as [?|Hk']; [easy|]. eapply IH; eauto. lia.
  Qed.

  Hypothesis HP : Permutation ord (seq 0 (List.length bs)).
  Hypothesis HB : forall b, In b bs -> exists r c inf, b = free_block r c inf /\ 0 <= inf.
  Lemma blocks_ok : forall b, In b bs -> block_ok false b.
  Proof. intros b Hb. destruct (HB b Hb) as (r & c & inf & -> & H). now apply free_block_ok. Qed.
  Definition blk (k rows cols : nat) : Prop := exists b, nth_error bs k = Some b /\ b_rows b = rows /\ b_cols b = cols.
  Lemma blk_B : forall k rows cols, blk k rows cols -> b_rows (B k) = rows /\ b_cols (B k) = cols /\ In k ord.
  Proof.
    intros k rows cols (b & E & R1 & R2). unfold B. rewrite (nth_error_nth _ _ _ E). split; [exact R1|]. split; [exact R2|].
    apply (Permutation_in k (Permutation_sym HP)). apply in_seq. assert (k < List.length bs)%nat by (apply nth_error_Some; rewrite E; discriminate). lia.
  Qed.
  Lemma k_col_is : forall k rows cols r c, blk k rows cols -> (r < rows)%nat -> (c < cols)%nat -> k_col bs ord k r c = column_of bs ord k r c.
  Proof.
    intros k rows cols r c (b & E & R1 & R2) Hr Hc. subst. unfold k_col, k_vars, k_ovs. destruct (added_variables false bs ord cp_init HP blocks_ok) as (p & vars & EA & H).
    destruct (init_blocks_spec bs 0%nat) as (ovs & EI & L & HI). change (Z.of_nat 0) with 0%Z in EI. rewrite EI in *. cbn [fst]. rewrite EA.
    destruct (HI k _ E) as (ov & Eo & S). rewrite (nth_error_nth _ _ _ Eo). rewrite (id_in_range _ _ _ _ _ S) by assumption. rewrite Nat2Z.id. cbn [Nat.add].
    destruct (H k b r c E Hr Hc) as (v & _ & _ & _ & _ & _ & V). change (fold_right Nat.add 0%nat) with sumn in *; fold (block_start bs k); rewrite V; reflexivity.
  Qed.
  Lemma k_vars_ok : exists p vars, k_vars bs ord = Ok (p, vars) /\ forall k b r c, nth_error bs k = Some b -> (r < b_rows b)%nat -> (c < b_cols b)%nat ->
      nth_error vars (Z.to_nat (ov_id (nth k (k_ovs bs) ov_none) (Z.of_nat r) (Z.of_nat c))) = Some (Some (column_of bs ord k r c)).
  Proof.
    destruct (added_variables false bs ord cp_init HP blocks_ok) as (p & vars & EA & H). exists p, vars. unfold k_vars. split; [exact EA|]. intros k b r c E Hr Hc.
    destruct (init_blocks_spec bs 0%nat) as (ovs & EI & L & HI). change (Z.of_nat 0) with 0%Z in EI. unfold k_ovs. rewrite EI in *. cbn [fst].
    destruct (HI k _ E) as (ov & Eo & S). rewrite (nth_error_nth _ _ _ Eo). rewrite (id_in_range _ _ _ _ _ S) by assumption. rewrite Nat2Z.id. cbn [Nat.add].
    destruct (H k b r c E Hr Hc) as (v & _ & _ & _ & _ & _ & V). exact V.
  Qed.
  Definition knv : nat := total ord.
  Lemma k_col_lt : forall k rows cols r c, blk k rows cols -> (r < rows)%nat -> (c < cols)%nat -> (k_col bs ord k r c < knv)%nat.
  Proof. intros k rows cols r c Hk Hr Hc. rewrite (k_col_is k rows cols) by assumption. destruct (blk_B k rows cols Hk) as (E1 & E2 & E3). apply column_lt; [exact E3|rewrite E1; exact Hr|rewrite E2; exact Hc]. Qed.
  Lemma k_col_inj : forall k k' rows rows' cols cols' r r' c c', blk k rows cols -> blk k' rows' cols' -> (r < rows)%nat -> (c < cols)%nat -> (r' < rows')%nat -> (c' < cols')%nat ->
    k_col bs ord k r c = k_col bs ord k' r' c' -> k = k' /\ r = r' /\ c = c'.
  Proof.
    intros k k' rows rows' cols cols' r r' c c' Hk Hk' Hr Hc Hr' Hc' E. rewrite (k_col_is k rows cols), (k_col_is k' rows' cols') in E by assumption.
    destruct (blk_B k rows cols Hk) as (E1 & E2 & E3). destruct (blk_B k' rows' cols' Hk') as (F1 & F2 & F3).
    apply (column_inj ord); [|assumption|assumption| | | | |assumption]; try (rewrite ?E1, ?E2, ?F1, ?F2; assumption).
    eapply Permutation_NoDup; [apply Permutation_sym, HP|apply seq_NoDup].
  Qed.
  Lemma k_vars_len : List.length (k_var_calls bs ord) = knv.
  Proof.
    unfold k_var_calls, knv, total. clear HP. induction ord as [|k o IH]; cbn [flat_map map sumn fold_right]; [reflexivity|]. rewrite app_length, map_length, IH.
    rewrite len_cells. reflexivity.
  Qed.
  Lemma k_vars_are : forall c, In c (k_var_calls bs ord) -> is_var c.
  Proof.
    intros c Hc. unfold k_var_calls in Hc. apply in_flat_map in Hc. destruct Hc as (k & Hk & Hc). apply in_map_iff in Hc. destruct Hc as (rc & <- & _).
    apply (Permutation_in k HP) in Hk. apply in_seq in Hk. assert (Hb : In (B k) bs) by (apply nth_In; lia). destruct (HB _ Hb) as (r & n & inf & E & H). fold (B k). rewrite E. unfold is_var. eexists _, _, _. split; [reflexivity|]. cbn. lra.
  Qed.
  (** Row loops use declared variables. *)
  Lemma k_loop_uses : forall U n coeff col l0, uses U l0 -> (forall d, (d < n)%nat -> In (col d) U) -> uses U (k_acc_loop n coeff col l0).
  Proof.
    intros U n coeff col l0 H0 H. unfold k_acc_loop. assert (G : forall l l0, uses U l0 -> (forall d, In d l -> In (col d) U) -> uses U (fold_left (fun l d => le_add l (le_of_var (col d) (coeff d))) l l0)).
    { induction l as [|a l IH]; intros l1 H1 H2; cbn [fold_left]; [exact H1|]. apply IH; [apply uses_add; [exact H1|apply uses_var, H2; now left]|intros; apply H2; now right]. }
    apply G; [exact H0|]. intros d Hd. apply H. apply in_seq in Hd. lia.
  Qed.
End Cols.
Lemma aval_v : forall x c a, aval x (le_of_var c a) = a * x c.
Proof. intros. unfold aval. cbn. ring. Qed.
Lemma aval_loop : forall x n coeff col l0, aval x (k_acc_loop n coeff col l0) = aval x l0 + rsum n (fun d => coeff d * x (col d)).
Proof.
  intros x n coeff col l0. unfold k_acc_loop. induction n as [|n IH]; [cbn; ring|]. rewrite seq_S, fold_left_app. cbn [fold_left Nat.add rsum]. rewrite aval_add, aval_v, IH. ring.
Qed.
Lemma aval_addc : forall x e a, aval x (le_addc e a) = aval x e + a.
Proof. intros. unfold le_addc. rewrite aval_add, aval_const. ring. Qed.
Lemma aval_div : forall x e a, aval x (le_div e a) = aval x e * (1 / a).
Proof. intros. unfold le_div. apply aval_scale. Qed.

(** ** Planners whose constraints are all linear *)
Definition is_lin (c : call) : Prop := match c with CAddLin _ _ _ => True | _ => False end.
Section LinPlanner.
  Variables (vs : list call) (ts : list (R * linexpr)) (cs : list call).
  Let nv := List.length vs.
  Let whole := vs ++ CSetObj (q_of ts) (le_of_const 0) :: cs.
  Hypothesis HV : forall c, In c vs -> is_var c.
  Hypothesis HT : forall t, In t ts -> 0 <= fst t /\ uses (seq 0 nv) (snd t).
  Hypothesis HC : forall c, In c cs -> is_lin c /\ call_scoped (seq 0 nv) c /\ call_not_absurd c.
  Definition cost_of (x : nat -> R) : R := sumR (map (fun t => fst t * (aval x (snd t) * aval x (snd t))) ts).
  Lemma lp_scoped : scoped whole.
  Proof.
    destruct (q_of_props ts) as (Q1 & Q2 & Q3 & Q4). apply scoped_planner; auto.
    - intros c Hc. destruct (HC c Hc) as (A & B & _). now destruct c.
    - split; [rewrite Q1; apply uses_const|]. intros t Ht. apply HT. now apply Q3.
  Qed.
  Lemma lp_convex : forall c, In c whole -> call_convex c.
  Proof.
    unfold whole. rewrite all_app, all_cons. split; [|split].
    - intros c Hc. destruct (HV c Hc) as (? & ? & ? & -> & _). exact I.
    - intros t Ht. destruct (q_of_props ts) as (_ & _ & Q3 & _). apply HT. now apply Q3.
    - intros c Hc. destruct (HC c Hc) as (A & _). now destruct c.
  Qed.
  Lemma lp_na : forall c, In c whole -> call_not_absurd c.
  Proof.
    unfold whole. rewrite all_app, all_cons. split; [|split; [exact I|]].
    - intros c Hc. destruct (HV c Hc) as (? & ? & ? & -> & _). exact I.
    - intros c Hc. now apply HC.
  Qed.
  Lemma lp_holds : forall x, (forall c, In c whole -> call_holds x c) <-> (forall c, In c cs -> call_holds x c).
  Proof.
    intros x. unfold whole. rewrite all_app, all_cons. split; [tauto|]. intros H. split; [|split; [exact I|exact H]].
    intros c Hc. destruct (HV c Hc) as (? & ? & ? & -> & _). exact I.
  Qed.
  Lemma lp_cols : user_cols whole = seq 0 nv /\ forall x, binaries_ok whole x.
  Proof.
    assert (NV : forall c, In c (CSetObj (q_of ts) (le_of_const 0) :: cs) -> no_var c).
    { intros c [<-|Hc]; [exact I|]. destruct (HC c Hc) as (A & _). now destruct c. }
    destruct (vars_history vs HV) as (I1 & _).
    assert (E : issued whole cp_init = map (fun k => (k, Continuous)) (seq 0 nv)) by (unfold whole; rewrite issued_rest by exact NV; exact I1).
    split; [unfold user_cols; rewrite E, map_map; apply map_id|]. intros x c. rewrite E, in_map_iff. intros (k & X & _). discriminate.
  Qed.
  Lemma lp_trust : forall env thr iter x c, In c whole -> trust_holds env thr iter x c.
  Proof.
    intros env thr iter x c Hc. unfold whole in Hc. apply in_app_or in Hc. destruct Hc as [Hc|[<-|Hc]]; [|exact I|].
    - destruct (HV c Hc) as (? & ? & ? & -> & _). exact I.
    - destruct (HC c Hc) as (A & _). now destruct c.
  Qed.
  Lemma lp_soft : forall env w x, sumR (map (soft_penalty env w x) whole) = 0.
  Proof.
    intros env w x. assert (G : forall l, (forall c, In c l -> soft_penalty env w x c = 0) -> sumR (map (soft_penalty env w x) l) = 0).
    { induction l as [|c l IH]; intros H; [reflexivity|]. cbn [map]. rewrite sumR_cons, H, IH by first [now left|intros; apply H; now right]. ring. }
    apply G. unfold whole. rewrite all_app, all_cons. split; [|split; [reflexivity|]].
    - intros c Hc. destruct (HV c Hc) as (? & ? & ? & -> & _). reflexivity.
    - intros c Hc. destruct (HC c Hc) as (A & _). now destruct c.
  Qed.
  Lemma lp_obj : forall x, user_obj whole x = cost_of x.
  Proof.
    intros x. unfold user_obj, whole. rewrite fold_left_app. cbn [fold_left].
    assert (G : forall l v, (forall c, In c l -> is_lin c) -> fold_left (fun v c => match c with CSetObj q l => obj_value x q l | _ => v end) l v = v).
    { induction l as [|c l IH]; intros v H; cbn [fold_left]; [reflexivity|]. rewrite IH by (intros; apply H; now right). specialize (H c (or_introl eq_refl)). now destruct c. }
    rewrite G by (intros c Hc; apply HC, Hc). unfold obj_value. destruct (q_of_props ts) as (Q1 & _ & _ & Q4). rewrite Q4, Q1, aval_const. unfold cost_of. ring.
  Qed.
  Lemma lp_sound : forall thr w iter warm x, 0 <= w -> compiled_feasible thr w iter warm whole x -> forall c, In c cs -> call_holds x c.
  Proof.
    intros thr w iter warm x Hw HF. apply lp_holds. destruct (compiled_sound thr w iter warm whole x lp_scoped lp_convex lp_na Hw HF) as (H & _). exact H.
  Qed.
  Lemma lp_complete : forall thr w iter warm x, (forall c, In c cs -> call_holds x c) ->
    exists x', (forall c, (c < nv)%nat -> x' c = x c) /\ compiled_feasible thr w iter warm whole x'.
  Proof.
    intros thr w iter warm x HF. destruct lp_cols as (UC & BO). destruct (compiled_complete thr w iter warm whole x lp_scoped) as (x' & A & F & _).
    - now apply lp_holds.
    - apply BO.
    - intros _ c Hc. now apply lp_trust.
    - exists x'. split; [|exact F]. intros c Hc. apply A. rewrite UC. apply in_seq. lia.
  Qed.
  Lemma lp_optimal : forall thr w iter warm x, 0 <= w -> compiled_feasible thr w iter warm whole x ->
    (forall y, compiled_feasible thr w iter warm whole y -> compiled_objective thr w iter warm whole x <= compiled_objective thr w iter warm whole y) ->
    forall y, (forall c, In c cs -> call_holds y c) -> cost_of x <= cost_of y.
  Proof.
    intros thr w iter warm x Hw HF HO y Hy. destruct (optimum thr w iter warm whole x lp_scoped lp_convex lp_na Hw HF HO) as (_ & H & _).
    specialize (H y). cbv zeta in H. rewrite !lp_obj, !lp_soft in H. assert (E : (if warm then 0 else 0) = 0) by now destruct warm. rewrite E in H. enough (cost_of x + 0 <= cost_of y + 0) by lra. apply H.
    split; [now apply lp_holds|]. split; [apply lp_cols|]. intros _ c Hc. now apply lp_trust.
  Qed.
End LinPlanner.

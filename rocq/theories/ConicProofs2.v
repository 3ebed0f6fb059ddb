(** Proofs about the modelling layer, part 2: the whole compiled problem. *)
From Coq Require Import String Reals List Arith Bool Lra Lia.
From Verif Require Import ExprsModel ExprsProofs ConicModel ConicSpec ConicProofs.
Import ListNotations.
Open Scope R_scope.

Fixpoint mapi {A B} (f : nat -> A -> B) (i : nat) (l : list A) : list B :=
  match l with [] => [] | a :: l' => f i a :: mapi f (S i) l' end.

Lemma flat_mapi_concat {A B} (f : nat -> A -> list B) i l : flat_mapi f i l = concat (mapi f i l).
Proof. revert i; induction l as [|a l IH]; intros i; simpl; [|rewrite IH]; reflexivity. Qed.

Lemma mapi_const {A B} (f : A -> B) i l : mapi (fun _ a => f a) i l = map f l.
Proof. revert i; induction l as [|a l IH]; intros i; simpl; [|rewrite IH]; reflexivity. Qed.

Lemma mapi_length {A B} (f : nat -> A -> B) i l : List.length (mapi f i l) = List.length l.
Proof. revert i; induction l as [|a l IH]; intros i; simpl; [|rewrite IH]; reflexivity. Qed.

Lemma mapi_nth_error {A B} (f : nat -> A -> B) l : forall i k,
  nth_error (mapi f i l) k = option_map (f (i + k)%nat) (nth_error l k).
Proof.
  induction l as [|a l IH]; intros i [|k]; simpl; try reflexivity.
  - rewrite Nat.add_0_r; reflexivity.
  - rewrite IH. f_equal. f_equal. lia.
Qed.

Lemma concat_singletons {A B} (f : A -> B) l : concat (map (fun a => [f a]) l) = map f l.
Proof. induction l as [|a l IH]; simpl; [|rewrite IH]; reflexivity. Qed.

(** quadratic constraint blocks *)
Definition blocks_qquad (q : quadexpr) : list (list rowfn) :=
  mapi (fun k t => rows_rot (nth k (q_extra q) 0%nat) (snd t)) 0 (q_terms q).

Lemma rows_rot_len c l : List.length (rows_rot c l) = 3%nat. Proof. reflexivity. Qed.

Lemma concat_mapi_rot_len {A} (f : nat -> A -> list rowfn) l i :
  (forall i a, List.length (f i a) = 3%nat) -> List.length (concat (mapi f i l)) = (3 * List.length l)%nat.
Proof.
  intros H. rewrite <- flat_mapi_concat. apply flat_mapi_const_len; assumption.
Qed.

Record wf_q (n : nat) (q : quadexpr) : Prop := {
  wq_l : cols_ok n (q_lexpr q);
  wq_t : forall t, In t (q_terms q) -> cols_ok n (snd t);
  wq_e : forall c, In c (q_extra q) -> (c < n)%nat }.

Lemma does_qquad n m row q :
  wf_q n q -> (List.length (q_terms q) <= List.length (q_extra q))%nat ->
  does n m row (concat (blocks_qquad q)) (b_qquad row q).
Proof.
  intros [W1 W2 W3] Hlen. unfold blocks_qquad, b_qquad. rewrite <- flat_mapi_concat.
  replace row with (row + 3 * 0)%nat at 1 by lia.
  apply does_loopi; [intros; apply rows_rot_len|].
  intros k t Hk. simpl Nat.add.
  assert (Hkl : (k < List.length (q_terms q))%nat) by (apply nth_error_Some; congruence).
  destruct (nth_error (q_extra q) k) as [c|] eqn:E; [|apply nth_error_None in E; lia].
  rewrite (nth_error_nth _ _ _ E). apply does_rot.
  - apply W3. eapply nth_error_In; eassumption.
  - apply W2. eapply nth_error_In; eassumption.
Qed.

Lemma does_qquads n m qs : forall row,
  (forall q, In q qs -> wf_q n q /\ (List.length (q_terms q) <= List.length (q_extra q))%nat) ->
  does n m row (concat (flat_map blocks_qquad qs)) (b_qquads row qs).
Proof.
  induction qs as [|q qs IH]; intros row H; simpl.
  - intros s; apply does_nil.
  - rewrite concat_app.
    apply (does_comp n m row _ _ (b_qquad row q) (b_qquads (row + 3 * List.length (q_terms q)) qs)).
    + apply does_qquad; apply H; simpl; auto.
    + unfold blocks_qquad at 1. rewrite concat_mapi_rot_len by (intros; apply rows_rot_len).
      apply IH. intros q' Hq'; apply H; simpl; auto.
Qed.

(** SOC blocks *)
Definition block_soc (q : quadexpr) : list rowfn :=
  (fun x => x (nth 0 (q_extra q) 0%nat)) :: map (fun t x => aval x (snd t)) (q_terms q).

Lemma does_socquad n m row q :
  wf_q n q -> (1 <= List.length (q_extra q))%nat -> does n m row (block_soc q) (b_socquad row q).
Proof.
  intros [W1 W2 W3] Hlen. unfold b_socquad, block_soc.
  destruct (q_extra q) as [|c cs] eqn:E; [simpl in Hlen; lia|]. cbn [nth_error nth].
  assert (Hc : (c < n)%nat) by (apply W3; simpl; auto).
  change ((fun x : nat -> R => x c) :: map (fun t x => aval x (snd t)) (q_terms q))
    with ([fun x : nat -> R => x c] ++ map (fun t x => aval x (snd t)) (q_terms q)).
  apply (does_comp n m row _ _ (fun s => setH row 0 (addG row c (-1) s))
    (loopi (fun k t s => setH (row + k + 1) (le_const (snd t))
                          (b_terms (row + k + 1) (-1) (le_terms (snd t)) s)) 0 (q_terms q))).
  - apply does_one.
    + intros s; frame_tac.
    + intros s Hn Hm Hok Hr. apply ok_setH; [apply ok_addG; auto; lia|simpl; lia].
    + intros s r' x Hne. obs. eqb_simp. split; lra.
    + intros s x Hh Hg. obs. rewrite Hg. eqb_simp. lra.
  - simpl List.length.
    rewrite <- (concat_singletons (fun t x => aval x (snd t)) (q_terms q)).
    rewrite <- (mapi_const (fun t => [fun x => aval x (snd t)]) 0 (q_terms q)), <- flat_mapi_concat.
    replace (row + 1)%nat with (row + 1 + 1 * 0)%nat by lia.
    apply (does_loopi n m 1 (row + 1) (fun k t s => setH (row + k + 1) (le_const (snd t))
                          (b_terms (row + k + 1) (-1) (le_terms (snd t)) s))
             (fun (_ : nat) (t : R * linexpr) => [fun x => aval x (snd t)])); [reflexivity|].
    intros k t Hk. simpl Nat.add. rewrite Nat.add_0_r.
    replace (row + 1 + k)%nat with (row + k + 1)%nat by lia.
    assert (Ht : cols_ok n (snd t)) by (apply W2; eapply nth_error_In; eassumption).
    apply does_one.
    + intros s; frame_tac. apply frame_b_terms.
    + intros s Hn Hm Hok Hr.
      assert (F2 := frame_b_terms (row + k + 1) (-1) (le_terms (snd t)) s). destruct F2 as [Fn2 Fm2 _ _ _].
      apply ok_setH; [apply ok_b_terms; auto; [lia|]|rewrite Fm2; lia]. rewrite Hn; exact Ht.
    + intros s r' x Hne. obs. eqb_simp. split; lra.
    + intros s x Hh Hg. obs. rewrite Hg. eqb_simp. rewrite aval_tsum. lra.
Qed.

Lemma does_socquads n m qs : forall row,
  (forall q, In q qs -> wf_q n q /\ (1 <= List.length (q_extra q))%nat) ->
  does n m row (concat (map block_soc qs)) (b_socquads row qs).
Proof.
  induction qs as [|q qs IH]; intros row H; cbn [map concat b_socquads].
  - intros s; apply does_nil.
  - apply (does_comp n m row _ _ (b_socquad row q) (b_socquads (row + (List.length (q_terms q) + 1)) qs)).
    + apply does_socquad; apply H; simpl; auto.
    + replace (List.length (block_soc q)) with (List.length (q_terms q) + 1)%nat.
      * apply IH. intros q' Hq'; apply H; simpl; auto.
      * unfold block_soc. simpl. rewrite map_length. lia.
Qed.

(** objective: linear part touches no row *)
Lemma does_objlin n m lo p :
  cols_ok n (q_lexpr (p_obj p)) -> does n m lo [] (b_objlin p).
Proof.
  unfold b_objlin, cols_ok. intros H. induction (le_terms (q_lexpr (p_obj p))) as [|t ts IH].
  - intros s; simpl; apply does_nil.
  - change ([] : list rowfn) with (@app rowfn [] []). cbn [fold_left].
    apply (does_comp n m lo [] [] (setC (fst t) (snd t)) (fun s => fold_left (fun s t => setC (fst t) (snd t) s) ts s)).
    + apply (does_setC n m lo [] (fun s => s)); [apply H; simpl; auto|apply does_nil].
    + simpl. rewrite Nat.add_0_r. apply IH. intros c Hc; apply H; simpl; auto.
Qed.

(** ** Well-formed problems (established by every history of public calls, see below) *)
Record wf_problem (p : problem) : Prop := {
  wp_bin : forall c, In c (p_bin p) -> (c < List.length (p_vars p))%nat;
  wp_lb : List.length (p_binlb p) = List.length (p_bin p);
  wp_ub : List.length (p_binub p) = List.length (p_bin p);
  wp_leq : forall e, In e (p_leq p) -> cols_ok (List.length (p_vars p)) e;
  wp_lineq : forall e, In e (p_lineq p) -> cols_ok (List.length (p_vars p)) e;
  wp_q : forall q, In q (p_qineq p) -> wf_q (List.length (p_vars p)) q
            /\ List.length (q_extra q) = (List.length (q_terms q) + if q_soft q then 1 else 0)%nat;
  wp_soc : forall q, In q (p_soc p) -> wf_q (List.length (p_vars p)) q /\ List.length (q_extra q) = 1%nat;
  wp_obj : wf_q (List.length (p_vars p)) (p_obj p)
            /\ List.length (q_extra (p_obj p)) = List.length (q_terms (p_obj p)) }.

Definition lin_rows (thr : R) (iter : nat) (warm : bool) (p : problem) : list rowfn :=
  concat (mapi (rows_bin p) 0 (p_bin p)) ++ map row_lin (p_lineq p) ++ map row_qlin (p_qineq p)
  ++ map row_soclin (p_soc p)
  ++ (if warm then [] else map (row_trust p thr iter) (filter q_trust (p_qineq p))).

Definition soc_blocks (warm : bool) (p : problem) : list (list rowfn) :=
  mapi (rows_objq p) 0 (q_extra (p_obj p))
  ++ (if warm then [] else map (rows_soft p) (filter q_soft (p_qineq p)))
  ++ flat_map blocks_qquad (p_qineq p)
  ++ map block_soc (p_soc p).

Lemma lin_rows_len thr iter warm p : List.length (lin_rows thr iter warm p) = b_nlineq p warm.
Proof.
  unfold lin_rows, b_nlineq, n_tr. rewrite !app_length, !map_length.
  rewrite <- flat_mapi_concat, (flat_mapi_const_len _ 2) by reflexivity.
  destruct warm; rewrite ?map_length; simpl List.length; lia.
Qed.

Lemma map_const_repeat {A B} (f : A -> B) b l : (forall a, In a l -> f a = b) -> map f l = repeat b (List.length l).
Proof.
  induction l as [|a l IH]; simpl; intros H; [reflexivity|]. rewrite IH, H; auto.
Qed.

Lemma mapi_lens {A B} (f : nat -> A -> list B) w l : (forall i a, List.length (f i a) = w) ->
  forall i, map (@List.length B) (mapi f i l) = repeat w (List.length l).
Proof. intros H; induction l as [|a l IH]; intros i; simpl; [reflexivity|]. rewrite H, IH; reflexivity. Qed.

Lemma blocks_qquads_lens qs :
  map (@List.length rowfn) (flat_map blocks_qquad qs)
  = repeat 3%nat (sumn (map (fun q => List.length (q_terms q)) qs)).
Proof.
  induction qs as [|q qs IH]; simpl; [reflexivity|].
  rewrite map_app, IH, repeat_app. f_equal.
  unfold blocks_qquad. apply mapi_lens; reflexivity.
Qed.

Lemma soc_blocks_lens warm p : map (@List.length rowfn) (soc_blocks warm p) = b_q p warm.
Proof.
  unfold soc_blocks, b_q, b_mextra. rewrite !map_app, blocks_qquads_lens, map_map.
  assert (E : map (@List.length rowfn) (mapi (rows_objq p) 0 (q_extra (p_obj p)))
              = repeat 3%nat (List.length (q_extra (p_obj p)))).
  { apply mapi_lens; reflexivity. }
  rewrite E.
  set (a := List.length (q_extra (p_obj p))).
  set (b := sumn (map (fun q => List.length (q_terms q)) (p_qineq p))).
  assert (E2 : map (fun x => List.length (block_soc x)) (p_soc p)
               = map (fun q => List.length (q_terms q) + 1)%nat (p_soc p)).
  { apply map_ext; intros q; unfold block_soc; simpl; rewrite map_length; lia. }
  rewrite E2.
  assert (E3 : map (@List.length rowfn) (if warm then [] else map (rows_soft p) (filter q_soft (p_qineq p)))
               = repeat 3%nat (if warm then 0 else n_sc p)).
  { destruct warm; [reflexivity|]. rewrite map_map. rewrite (map_const_repeat _ 3%nat); reflexivity. }
  rewrite E3. rewrite !app_assoc. f_equal. rewrite <- !repeat_app. f_equal. lia.
Qed.

Lemma sumn_concat {A} (ls : list (list A)) : sumn (map (@List.length A) ls) = List.length (concat ls).
Proof. induction ls; simpl; [reflexivity|]. rewrite app_length, IHls; reflexivity. Qed.

Lemma singles_len {A} (f : A -> list rowfn) w l : (forall a, List.length (f a) = w) ->
  List.length (concat (map f l)) = (w * List.length l)%nat.
Proof. intros H; induction l; simpl; [lia|]. rewrite app_length, H, IHl. lia. Qed.

Definition all_rows thr iter warm p := lin_rows thr iter warm p ++ concat (soc_blocks warm p).

(** The equality part. *)
Lemma leq_loop_spec n : forall l i s x,
  (forall e, In e l -> cols_ok n e) -> s_n s = n -> s_ok s = true -> (i + List.length l <= s_me s)%nat ->
  (forall r, (i <= r)%nat -> s_b s r = 0 /\ matvec (s_A s) x r = 0) ->
  let s' := loopi b_leq i l s in
  s_n s' = s_n s /\ s_m s' = s_m s /\ s_me s' = s_me s /\ s_G s' = s_G s /\
  (forall r, s_h s' r = s_h s r) /\ (forall r, s_c s' r = s_c s r) /\ s_ok s' = true /\
  (forall r, (r < i)%nat -> s_b s' r = s_b s r /\ matvec (s_A s') x r = matvec (s_A s) x r) /\
  (forall k e, nth_error l k = Some e ->
     matvec (s_A s') x (i + k) - s_b s' (i + k)%nat = - row_lin e x).
Proof.
  assert (STEP : forall i e s x, cols_ok (s_n s) e -> s_ok s = true -> (i < s_me s)%nat ->
    let s' := b_leq i e s in
    s_n s' = s_n s /\ s_m s' = s_m s /\ s_me s' = s_me s /\ s_G s' = s_G s /\
    (forall r, s_h s' r = s_h s r) /\ (forall r, s_c s' r = s_c s r) /\ s_ok s' = true /\
    (forall r, matvec (s_A s') x r = (if Nat.eqb i r then tsum x (le_terms e) else 0) + matvec (s_A s) x r) /\
    (forall r, s_b s' r = match le_terms e with [] => s_b s r | _ => if Nat.eqb r i then - le_const e else s_b s r end)).
  { intros i e s x Hc Hok Hi. unfold b_leq, cols_ok in *. cbv zeta. revert s Hc Hok Hi.
    induction (le_terms e) as [|t ts IH]; intros s Hc Hok Hi; cbn [fold_left].
    - repeat split; auto. intros r; simpl; destruct (Nat.eqb i r); lra.
    - destruct (IH (setB i (- le_const e) (addA i (fst t) (snd t) s))) as (H1&H2&H3&H4&H5&H6&H7&H8&H9).
      + simpl. intros c Hc'; apply Hc; simpl; auto.
      + simpl. rewrite Hok. apply Nat.ltb_lt in Hi. rewrite Hi. simpl.
        assert (L : Nat.ltb (fst t) (s_n s) = true) by (apply Nat.ltb_lt, Hc; simpl; auto).
        rewrite L; reflexivity.
      + simpl; assumption.
      + rewrite H1, H2, H3, H4. repeat split; auto.
        * intros r; rewrite H8. rewrite tsum_cons. simpl s_A. unfold matvec at 1. cbn [map]. rewrite sumR_cons.
          fold (matvec (s_A s) x r). destruct (Nat.eqb i r); lra.
        * intros r; rewrite H9. simpl s_b. unfold upd. destruct ts; destruct (Nat.eqb r i); reflexivity. }
  induction l as [|e l IH]; intros i s x Hc Hn Hok Hle Hcl; cbv zeta; cbn [loopi].
  - repeat split; auto. intros k e Hk. destruct k; discriminate.
  - simpl in Hle.
    destruct (STEP i e s x) as (H1&H2&H3&H4&H5&H6&H7&H8&H9); [rewrite Hn; apply Hc; simpl; auto|auto|lia|].
    destruct (IH (S i) (b_leq i e s) x) as (G1&G2&G3&G4&G5&G6&G7&G8&G9).
    + intros e' He'; apply Hc; simpl; auto.
    + congruence.
    + assumption.
    + rewrite H3; lia.
    + intros r Hr. destruct (Hcl r) as [C1 C2]; [lia|]. rewrite H8, H9. eqb_simp.
      split; [destruct (le_terms e); assumption|lra].
    + do 4 (split; [congruence|]).
      split; [intros r; rewrite G5; apply H5|].
      split; [intros r; rewrite G6; apply H6|].
      split; [assumption|].
      split.
      * intros r Hr. destruct (G8 r) as [-> ->]; [lia|]. rewrite H8, H9. eqb_simp.
        split; [destruct (le_terms e); reflexivity|lra].
      * intros [|k] e' Hk; simpl in Hk.
        -- injection Hk as <-. rewrite Nat.add_0_r. destruct (G8 i) as [-> ->]; [lia|].
           rewrite H8, H9. eqb_simp. destruct (Hcl i) as [C1 C2]; [lia|]. rewrite C2.
           unfold row_lin. rewrite aval_tsum. destruct (le_terms e); [rewrite C1; simpl; lra|lra].
        -- replace (i + S k)%nat with (S i + k)%nat by lia. apply G9; assumption.
Qed.

(** Sequences of building steps. *)
Definition step := (list rowfn * (storage -> storage))%type.
Fixpoint run_steps (l : list step) (s : storage) : storage :=
  match l with [] => s | st :: l' => run_steps l' (snd st s) end.
Fixpoint steps_ok (n m lo : nat) (l : list step) : Prop :=
  match l with [] => True | st :: l' => does n m lo (fst st) (snd st) /\ steps_ok n m (lo + List.length (fst st)) l' end.

Lemma does_steps n m l : forall lo, steps_ok n m lo l -> does n m lo (concat (map fst l)) (run_steps l).
Proof.
  induction l as [|st l IH]; intros lo H.
  - intros s; apply does_nil.
  - destruct H as [H1 H2]. cbn [map concat run_steps].
    apply (does_comp n m lo (fst st) _ (snd st) (run_steps l)); auto.
Qed.

Definition build_steps (thr w : R) (iter : nat) (warm : bool) (p : problem) : list step :=
  let r1 := (2 * List.length (p_bin p))%nat in
  let r2 := (r1 + List.length (p_lineq p))%nat in
  let r3 := (r2 + List.length (p_qineq p))%nat in
  let r4 := (r3 + List.length (p_soc p))%nat in
  let r5 := (r4 + (if warm then 0 else n_tr p))%nat in
  let r6 := (r5 + 3 * List.length (q_extra (p_obj p)))%nat in
  let r7 := (r6 + (if warm then 0 else 3 * n_sc p))%nat in
  let r8 := (r7 + 3 * sumn (map (fun q => List.length (q_terms q)) (p_qineq p)))%nat in
  [ (concat (mapi (rows_bin p) 0 (p_bin p)), loopi (b_bin p) 0 (p_bin p));
    (map row_lin (p_lineq p), loopi (b_lineq r1) 0 (p_lineq p));
    (map row_qlin (p_qineq p), loopi (b_qlin r2) 0 (p_qineq p));
    (map row_soclin (p_soc p), loopi (b_soclin r3) 0 (p_soc p));
    ([], b_objlin p);
    ((if warm then [] else map (row_trust p thr iter) (filter q_trust (p_qineq p))),
      fun s => if warm then s else loopi (b_trust p thr iter r4) 0 (filter q_trust (p_qineq p)) s);
    (concat (mapi (rows_objq p) 0 (q_extra (p_obj p))), loopi (b_objq p r5) 0 (q_extra (p_obj p)));
    (concat (if warm then [] else map (rows_soft p) (filter q_soft (p_qineq p))),
      fun s => if warm then s else loopi (b_soft p w r6) 0 (filter q_soft (p_qineq p)) s);
    (concat (flat_map blocks_qquad (p_qineq p)), b_qquads r7 (p_qineq p));
    (concat (map block_soc (p_soc p)), b_socquads r8 (p_soc p)) ].

Lemma build_as_steps thr w iter warm p :
  cp_build thr w iter warm p = run_steps (build_steps thr w iter warm p) (loopi b_leq 0 (p_leq p) (b_empty p warm)).
Proof. reflexivity. Qed.

Lemma build_steps_rows thr w iter warm p :
  concat (map fst (build_steps thr w iter warm p)) = all_rows thr iter warm p.
Proof.
  unfold build_steps, all_rows, lin_rows, soc_blocks. cbn [map concat fst].
  rewrite !concat_app, <- !app_assoc, app_nil_r. reflexivity.
Qed.

Lemma build_steps_ok n m thr w iter warm p :
  wf_problem p -> n = List.length (p_vars p) -> steps_ok n m 0 (build_steps thr w iter warm p).
Proof.
  intros [Wb Wl Wu Weq Wli Wq Ws [Wo Wo2]] ->. set (n := List.length (p_vars p)) in *.
  unfold build_steps. cbv zeta. cbn [steps_ok fst snd].
  split.
  { rewrite <- flat_mapi_concat. refine (does_loopi n m 2 0 (b_bin p) (rows_bin p) (p_bin p) _ 0%nat _); [reflexivity|].
    intros i c Hi. simpl Nat.add.
    assert (i < List.length (p_bin p))%nat by (apply nth_error_Some; congruence).
    apply (does_bin n m p i c); [apply Wb; eapply nth_error_In; eassumption|lia|lia]. }
  replace (0 + List.length (concat (mapi (rows_bin p) 0 (p_bin p))))%nat with (2 * List.length (p_bin p))%nat.
  2:{ rewrite <- flat_mapi_concat, (flat_mapi_const_len _ 2) by reflexivity. lia. }
  set (r1 := (2 * List.length (p_bin p))%nat).
  split.
  { rewrite <- concat_singletons, <- (mapi_const _ 0), <- flat_mapi_concat.
    replace r1 with (r1 + 1 * 0)%nat at 1 by lia.
    apply (does_loopi n m 1 r1 (b_lineq r1) (fun _ a => [row_lin a])); [reflexivity|].
    intros i e Hi. apply does_lineq. apply Wli. eapply nth_error_In; eassumption. }
  rewrite map_length. set (r2 := (r1 + List.length (p_lineq p))%nat).
  split.
  { rewrite <- concat_singletons, <- (mapi_const _ 0), <- flat_mapi_concat.
    replace r2 with (r2 + 1 * 0)%nat at 1 by lia.
    apply (does_loopi n m 1 r2 (b_qlin r2) (fun _ a => [row_qlin a])); [reflexivity|].
    intros i q Hi. destruct (Wq q) as [[A1 A2 A3] A4]; [eapply nth_error_In; eassumption|].
    apply does_qlin; auto; lia. }
  rewrite map_length. set (r3 := (r2 + List.length (p_qineq p))%nat).
  split.
  { rewrite <- concat_singletons, <- (mapi_const _ 0), <- flat_mapi_concat.
    replace r3 with (r3 + 1 * 0)%nat at 1 by lia.
    apply (does_loopi n m 1 r3 (b_soclin r3) (fun _ a => [row_soclin a])); [reflexivity|].
    intros i q Hi. destruct (Ws q) as [[A1 A2 A3] A4]; [eapply nth_error_In; eassumption|].
    apply does_soclin; auto; lia. }
  rewrite map_length. set (r4 := (r3 + List.length (p_soc p))%nat).
  split; [apply does_objlin; apply (wq_l _ _ Wo)|].
  replace (r4 + List.length (@nil rowfn))%nat with r4 by (simpl; lia).
  split.
  { destruct warm; [apply does_nil|].
    rewrite <- concat_singletons, <- (mapi_const _ 0), <- flat_mapi_concat.
    replace r4 with (r4 + 1 * 0)%nat at 1 by lia.
    apply (does_loopi n m 1 r4 (b_trust p thr iter r4) (fun _ a => [row_trust p thr iter a])); [reflexivity|].
    intros i q Hi. apply nth_error_In, filter_In in Hi as [Hi _]. destruct (Wq q Hi) as [[A1 A2 A3] A4].
    apply does_trust; auto. }
  replace (List.length (if warm then [] else map (row_trust p thr iter) (filter q_trust (p_qineq p))))
    with (if warm then 0 else n_tr p)%nat by (destruct warm; rewrite ?map_length; reflexivity).
  set (r5 := (r4 + (if warm then 0 else n_tr p))%nat).
  split.
  { rewrite <- flat_mapi_concat. replace r5 with (r5 + 3 * 0)%nat at 1 by lia.
    apply (does_loopi n m 3 r5 (b_objq p r5) (rows_objq p)); [reflexivity|].
    intros i c Hi. assert (i < List.length (q_extra (p_obj p)))%nat by (apply nth_error_Some; congruence).
    apply does_objq; [apply (wq_e _ _ Wo); eapply nth_error_In; eassumption|lia|apply (wq_t _ _ Wo)]. }
  rewrite concat_mapi_rot_len by reflexivity.
  set (r6 := (r5 + 3 * List.length (q_extra (p_obj p)))%nat).
  split.
  { destruct warm; [apply does_nil|].
    rewrite <- (mapi_const _ 0), <- flat_mapi_concat.
    replace r6 with (r6 + 3 * 0)%nat at 1 by lia.
    apply (does_loopi n m 3 r6 (b_soft p w r6) (fun _ a => rows_soft p a)); [reflexivity|].
    intros i q Hi. apply nth_error_In, filter_In in Hi as [Hi Hsoft]. destruct (Wq q Hi) as [[A1 A2 A3] A4].
    apply does_soft; auto. intros Hnil. rewrite Hnil, Hsoft in A4. simpl in A4. lia. }
  replace (List.length (concat (if warm then [] else map (rows_soft p) (filter q_soft (p_qineq p)))))
    with (if warm then 0 else 3 * n_sc p)%nat.
  2:{ destruct warm; [reflexivity|]. rewrite (singles_len _ 3); reflexivity. }
  set (r7 := (r6 + (if warm then 0 else 3 * n_sc p))%nat).
  split.
  { apply does_qquads. intros q Hq. destruct (Wq q Hq) as [A B]. split; [assumption|lia]. }
  assert (EL : List.length (concat (flat_map blocks_qquad (p_qineq p)))
            = (3 * sumn (map (fun q => List.length (q_terms q)) (p_qineq p)))%nat).
  { rewrite <- sumn_concat, blocks_qquads_lens.
    generalize (sumn (map (fun q => List.length (q_terms q)) (p_qineq p))) as k.
    induction k as [|k IHk]; simpl in *; [reflexivity|]. rewrite IHk; lia. }
  rewrite EL. split; [|exact I].
  apply does_socquads. intros q Hq. destruct (Ws q Hq) as [A B]. split; [assumption|lia].
Qed.

(** The whole build. *)
Lemma build_spec thr w iter warm p :
  wf_problem p ->
  let s := cp_build thr w iter warm p in
  s_ok s = true /\
  s_n s = List.length (p_vars p) /\ s_me s = List.length (p_leq p) /\
  s_m s = (b_nlineq p warm + sumn (b_q p warm))%nat /\
  (forall x k e, nth_error (p_leq p) k = Some e -> matvec (s_A s) x k - s_b s k = - row_lin e x) /\
  (forall x j, (j < s_m s)%nat -> slack s x j = nth j (all_rows thr iter warm p) (fun _ => 0) x).
Proof.
  intros W. assert (W0 := W). destruct W as [Wb Wl Wu Weq Wli Wq Ws [Wo Wo2]].
  set (n := List.length (p_vars p)) in *.
  set (s0 := loopi b_leq 0 (p_leq p) (b_empty p warm)).
  assert (E0 : forall x, _) by (intros x; exact (leq_loop_spec n (p_leq p) 0 (b_empty p warm) x Weq eq_refl eq_refl
            (le_n _) (fun r _ => conj eq_refl eq_refl))).
  cbv zeta in E0. fold s0 in E0.
  destruct (E0 (fun _ => 0)) as (H1&H2&H3&H4&H5&H6&H7&_&_).
  set (m := (b_nlineq p warm + sumn (b_q p warm))%nat) in *.
  assert (B : blk 0 (all_rows thr iter warm p) s0 (run_steps (build_steps thr w iter warm p) s0)).
  { rewrite <- (build_steps_rows thr w iter warm p). apply (does_steps n m); [apply build_steps_ok; auto|..].
    - rewrite H1; reflexivity.
    - rewrite H2; reflexivity.
    - exact H7.
    - intros r _. rewrite H5. split; [reflexivity|]. intros x. unfold gx. rewrite H4. reflexivity.
    - rewrite build_steps_rows. simpl. unfold all_rows. rewrite app_length, lin_rows_len, <- sumn_concat, soc_blocks_lens. unfold m; lia. }
  destruct B as [_ _ B3 [Fn Fm Fme FA Fb] B5].
  cbv zeta. rewrite build_as_steps. fold s0.
  set (sf := run_steps _ _) in *.
  split; [exact B5|].
  split; [rewrite Fn, H1; reflexivity|].
  split; [rewrite Fme, H3; reflexivity|].
  assert (HM : s_m sf = m) by (rewrite Fm, H2; reflexivity).
  split; [exact HM|].
  split.
  - intros x k e Hk. rewrite FA, Fb. destruct (E0 x) as (_&_&_&_&_&_&_&_&H9). apply (H9 k e Hk).
  - intros x j Hj. apply (B3 j x). rewrite HM in Hj. unfold all_rows.
    rewrite app_length, lin_rows_len, <- sumn_concat, soc_blocks_lens. exact Hj.
Qed.

(** Proofs about the modelling layer. *)
From Coq Require Import String Reals List Arith Bool Lra Lia.
From Verif Require Import ExprsModel ExprsProofs ConicModel ConicSpec.
Import ListNotations.
Open Scope R_scope.

Lemma aval_le_value x e : le_value x e = aval x e.
Proof. rewrite le_value_tsum. reflexivity. Qed.

Lemma aval_tsum x e : aval x e = le_const e + tsum x (le_terms e).
Proof. reflexivity. Qed.

Lemma sumR_app l1 l2 : sumR (l1 ++ l2) = sumR l1 + sumR l2.
Proof. induction l1; simpl; [lra|]. rewrite IHl1. lra. Qed.

Lemma sumR_cons a l : sumR (a :: l) = a + sumR l.
Proof. reflexivity. Qed.
Lemma tsum_cons x t ts : tsum x (t :: ts) = snd t * x (fst t) + tsum x ts.
Proof. reflexivity. Qed.

(** ** Effect of the elementary writes *)
Definition gx (x : nat -> R) (s : storage) (r : nat) : R := matvec (s_G s) x r.

Lemma gx_addG x r c v s r' :
  gx x (addG r c v s) r' = (if Nat.eqb r r' then v * x c else 0) + gx x s r'.
Proof. reflexivity. Qed.
Lemma gx_addA x r c v s r' : gx x (addA r c v s) r' = gx x s r'. Proof. reflexivity. Qed.
Lemma gx_setH x r v s r' : gx x (setH r v s) r' = gx x s r'. Proof. reflexivity. Qed.
Lemma gx_setB x r v s r' : gx x (setB r v s) r' = gx x s r'. Proof. reflexivity. Qed.
Lemma gx_setC x r v s r' : gx x (setC r v s) r' = gx x s r'. Proof. reflexivity. Qed.
Lemma h_addG r c v s r' : s_h (addG r c v s) r' = s_h s r'. Proof. reflexivity. Qed.
Lemma h_setC r v s r' : s_h (setC r v s) r' = s_h s r'. Proof. reflexivity. Qed.
Lemma h_setH r v s r' : s_h (setH r v s) r' = if Nat.eqb r' r then v else s_h s r'.
Proof. reflexivity. Qed.

(** dimension-and-frame part of an operation on G, h (and c) *)
Record frame (s s' : storage) : Prop := mkFrame {
  fr_n : s_n s' = s_n s; fr_m : s_m s' = s_m s; fr_me : s_me s' = s_me s;
  fr_A : s_A s' = s_A s; fr_b : forall r, s_b s' r = s_b s r }.

Lemma frame_refl s : frame s s. Proof. constructor; auto. Qed.
Lemma frame_trans a b c : frame a b -> frame b c -> frame a c.
Proof. intros [] []; constructor; intros; congruence. Qed.
Lemma frame_addG r c v s : frame s (addG r c v s). Proof. constructor; auto. Qed.
Lemma frame_setH r v s : frame s (setH r v s). Proof. constructor; auto. Qed.
Lemma frame_setC r v s : frame s (setC r v s). Proof. constructor; auto. Qed.
Lemma frame_oob s : frame s (oob s). Proof. constructor; auto. Qed.

Lemma frame_fold {A} (f : storage -> A -> storage) l :
  (forall s a, frame s (f s a)) -> forall s, frame s (fold_left f l s).
Proof.
  intros H; induction l as [|a l IH]; intros s; simpl; [apply frame_refl|].
  eapply frame_trans; [apply H|apply IH].
Qed.
Lemma frame_loopi {A} (f : nat -> A -> storage -> storage) l :
  (forall i a s, frame s (f i a s)) -> forall i s, frame s (loopi f i l s).
Proof.
  intros H; induction l as [|a l IH]; intros i s; simpl; [apply frame_refl|].
  eapply frame_trans; [apply H|apply IH].
Qed.

Ltac frame_tac :=
  repeat match goal with
  | |- frame ?s ?s => apply frame_refl
  | |- frame _ (addG _ _ _ _) => eapply frame_trans; [|apply frame_addG]
  | |- frame _ (setH _ _ _) => eapply frame_trans; [|apply frame_setH]
  | |- frame _ (setC _ _ _) => eapply frame_trans; [|apply frame_setC]
  | |- frame _ (oob _) => eapply frame_trans; [|apply frame_oob]
  | |- frame _ (fold_left _ _ _) => eapply frame_trans; [|apply frame_fold; intros]
  | |- frame _ (loopi _ _ _ _) => eapply frame_trans; [|apply frame_loopi; intros]
  | |- frame _ (match ?d with _ => _ end) => destruct d
  end.

Lemma frame_b_terms r f ts s : frame s (b_terms r f ts s). Proof. unfold b_terms; frame_tac. Qed.
Lemma frame_b_grad p g r q s : frame s (b_grad p g r q s).
Proof. unfold b_grad; cbv zeta; frame_tac. Qed.
Lemma frame_b_rot r c l s : frame s (b_rot r c l s).
Proof. unfold b_rot; cbv zeta; frame_tac. eapply frame_trans; [|apply frame_b_terms]; frame_tac. Qed.

(** b_terms *)
Lemma gx_b_terms x r f ts s r' :
  gx x (b_terms r f ts s) r' = (if Nat.eqb r r' then f * tsum x ts else 0) + gx x s r'.
Proof.
  unfold b_terms; revert s; induction ts as [|t ts IH]; intros s; simpl.
  - destruct (Nat.eqb r r'); lra.
  - rewrite IH, gx_addG. destruct (Nat.eqb r r'); lra.
Qed.
Lemma h_b_terms r f ts s r' : s_h (b_terms r f ts s) r' = s_h s r'.
Proof. unfold b_terms; revert s; induction ts as [|t ts IH]; intros s; simpl; [|rewrite IH]; reflexivity. Qed.
Lemma c_b_terms r f ts s j : s_c (b_terms r f ts s) j = s_c s j.
Proof. unfold b_terms; revert s; induction ts as [|t ts IH]; intros s; simpl; [|rewrite IH]; reflexivity. Qed.

Definition cols_ok (n : nat) (e : linexpr) : Prop := forall c, In c (map fst (le_terms e)) -> (c < n)%nat.

Lemma ok_addG r c v s : s_ok s = true -> (r < s_m s)%nat -> (c < s_n s)%nat -> s_ok (addG r c v s) = true.
Proof. simpl; intros -> H1 H2. apply Nat.ltb_lt in H1, H2. rewrite H1, H2; reflexivity. Qed.
Lemma ok_setH r v s : s_ok s = true -> (r < s_m s)%nat -> s_ok (setH r v s) = true.
Proof. simpl; intros -> H1. apply Nat.ltb_lt in H1. rewrite H1; reflexivity. Qed.
Lemma ok_setC r v s : s_ok s = true -> (r < s_n s)%nat -> s_ok (setC r v s) = true.
Proof. simpl; intros -> H1. apply Nat.ltb_lt in H1. rewrite H1; reflexivity. Qed.

Lemma ok_b_terms r f ts s :
  s_ok s = true -> (r < s_m s)%nat -> (forall c, In c (map fst ts) -> (c < s_n s)%nat) ->
  s_ok (b_terms r f ts s) = true.
Proof.
  unfold b_terms; revert s; induction ts as [|t ts IH]; intros s H1 H2 H3; simpl; [assumption|].
  apply IH; [apply ok_addG; auto; apply H3; simpl; auto|exact H2|].
  intros c Hc; apply H3; simpl; auto.
Qed.

(** b_grad *)
Definition gradterm (p : problem) (x : nat -> R) (t : R * linexpr) : R :=
  2 * fst t * le_value (p_env p) (snd t) * tsum x (le_terms (snd t)).
Definition grad (p : problem) (x : nat -> R) (q : quadexpr) : R := sumR (map (gradterm p x) (q_terms q)).

Lemma b_grad_inner (p : problem) (g k0 : R) (r : nat) (ts : list (nat * R)) :
  forall s x r',
  let s' := fold_left (fun s u =>
      let k := k0 * snd u in
      let s1 := addG r (fst u) (- (g * k)) s in
      setH r (s_h s1 r - k * p_env p (fst u)) s1) ts s in
  gx x s' r' = (if Nat.eqb r r' then - (g * (k0 * tsum x ts)) else 0) + gx x s r' /\
  s_h s' r' = s_h s r' - (if Nat.eqb r' r then k0 * tsum (p_env p) ts else 0).
Proof.
  induction ts as [|t ts IH]; intros s x r'; cbv zeta.
  - simpl. destruct (Nat.eqb r r'), (Nat.eqb r' r); split; ring.
  - cbn [fold_left]. 
    match goal with |- context [fold_left ?f ts ?s0] => destruct (IH s0 x r') as [H1 H2] end.
    cbv zeta in H1, H2. rewrite H1, H2. clear H1 H2 IH.
    rewrite gx_setH, gx_addG, h_setH, !h_addG, !tsum_cons.
    destruct (Nat.eqb_spec r r'), (Nat.eqb_spec r' r); subst; try congruence; split; ring.
Qed.

Lemma b_grad_spec p g r q : forall s x r',
  gx x (b_grad p g r q s) r' = (if Nat.eqb r r' then - (g * grad p x q) else 0) + gx x s r' /\
  s_h (b_grad p g r q s) r' = s_h s r' - (if Nat.eqb r' r then grad p (p_env p) q else 0).
Proof.
  unfold b_grad, grad. induction (q_terms q) as [|t ts IH]; intros s x r'.
  - simpl. destruct (Nat.eqb r r'), (Nat.eqb r' r); split; ring.
  - cbn [fold_left]. 
    match goal with |- context [fold_left ?f ts ?s0] => destruct (IH s0 x r') as [H1 H2] end.
    rewrite H1, H2. clear H1 H2 IH.
    destruct (b_grad_inner p g (2 * fst t * le_value (p_env p) (snd t)) r (le_terms (snd t)) s x r') as [H1 H2].
    cbv zeta in H1, H2 |- *. rewrite H1, H2. cbn [map]. rewrite !sumR_cons.
    change (gradterm p x t) with (2 * fst t * le_value (p_env p) (snd t) * tsum x (le_terms (snd t))).
    change (gradterm p (p_env p) t) with (2 * fst t * le_value (p_env p) (snd t) * tsum (p_env p) (le_terms (snd t))).
    destruct (Nat.eqb r r'), (Nat.eqb r' r); split; ring.
Qed.

Lemma c_b_grad p g r q s j : s_c (b_grad p g r q s) j = s_c s j.
Proof.
  unfold b_grad. revert s; induction (q_terms q) as [|t ts IH]; intros s; [reflexivity|].
  cbn [fold_left]. rewrite IH. clear IH ts. generalize (le_terms (snd t)) as us.
  intros us; revert s; induction us as [|u us IH]; intros s; [reflexivity|].
  cbn [fold_left]. rewrite IH. reflexivity.
Qed.

Lemma ok_b_grad p g r q s :
  s_ok s = true -> (r < s_m s)%nat -> (forall t, In t (q_terms q) -> cols_ok (s_n s) (snd t)) ->
  s_ok (b_grad p g r q s) = true.
Proof.
  unfold b_grad. revert s; induction (q_terms q) as [|t ts IH]; intros s H1 H2 H3; [assumption|].
  cbn [fold_left].
  match goal with |- context [fold_left ?f ts ?s0] => set (s1 := s0) end.
  assert (F : frame s s1) by (subst s1; cbv zeta; frame_tac).
  destruct F as [Fn Fm _ _ _].
  apply IH.
  - clear IH Fn Fm. assert (Hc := H3 t (or_introl eq_refl)). clear H3.
    unfold s1, cols_ok in *; clear s1. revert s H1 H2 Hc.
    induction (le_terms (snd t)) as [|u us IHu]; intros s H1 H2 Hc; [assumption|].
    cbn [fold_left]. cbv zeta in *. apply IHu.
    + apply ok_setH; [apply ok_addG; auto|]; [apply Hc; simpl; auto|exact H2].
    + exact H2.
    + intros c Hin; apply Hc; simpl; auto.
  - rewrite Fm; assumption.
  - rewrite Fn. intros t0 Ht; apply H3; simpl; auto.
Qed.

(** ** Row blocks *)
Definition rowfn := (nat -> R) -> R.
Definition clean_from (lo : nat) (s : storage) : Prop :=
  forall r, (lo <= r)%nat -> s_h s r = 0 /\ forall x, gx x s r = 0.

Record blk (lo : nat) (rows : list rowfn) (s s' : storage) : Prop := mkBlk {
  bk_clean : clean_from (lo + List.length rows) s';
  bk_below : forall r x, (r < lo)%nat -> slack s' x r = slack s x r;
  bk_rows : forall j x, (j < List.length rows)%nat -> slack s' x (lo + j) = nth j rows (fun _ => 0) x;
  bk_frame : frame s s';
  bk_ok : s_ok s' = true }.

(** [does n m lo rows f]: executed on storage of size n x m, clean from row lo on, f appends these rows. *)
Definition does (n m lo : nat) (rows : list rowfn) (f : storage -> storage) : Prop :=
  forall s, s_n s = n -> s_m s = m -> s_ok s = true -> clean_from lo s ->
  (lo + List.length rows <= m)%nat -> blk lo rows s (f s).

Lemma does_comp n m lo r1 r2 f g :
  does n m lo r1 f -> does n m (lo + List.length r1) r2 g -> does n m lo (r1 ++ r2) (fun s => g (f s)).
Proof.
  intros H1 H2 s Hn Hm Hok Hc Hle. rewrite app_length in Hle.
  assert (B1 : blk lo r1 s (f s)) by (apply H1; auto; lia).
  destruct B1 as [c1 b1 w1 fr1 ok1].
  assert (B2 : blk (lo + List.length r1) r2 (f s) (g (f s))).
  { apply H2; auto; try lia. rewrite (fr_n _ _ fr1); auto. rewrite (fr_m _ _ fr1); auto. }
  destruct B2 as [c2 b2 w2 fr2 ok2].
  constructor.
  - rewrite app_length, Nat.add_assoc; assumption.
  - intros r x Hr. rewrite b2 by lia. apply b1; assumption.
  - intros j x Hj. rewrite app_length in Hj.
    destruct (Nat.lt_ge_cases j (List.length r1)).
    + rewrite app_nth1 by assumption. rewrite b2 by lia. apply w1; assumption.
    + rewrite app_nth2 by assumption. rewrite <- (w2 (j - List.length r1)%nat) by lia.
      f_equal. lia.
  - eapply frame_trans; eassumption.
  - assumption.
Qed.

Lemma does_ext n m lo rows f g : (forall s, f s = g s) -> does n m lo rows f -> does n m lo rows g.
Proof. intros E H s; intros. rewrite <- E. apply H; auto. Qed.

Lemma does_nil n m lo : does n m lo [] (fun s => s).
Proof.
  intros s Hn Hm Hok Hc Hle. constructor; auto using frame_refl.
  - simpl; rewrite Nat.add_0_r; assumption.
  - simpl; intros; lia.
Qed.

(** indexed concatenation of rows *)
Fixpoint flat_mapi {A B} (f : nat -> A -> list B) (i : nat) (l : list A) : list B :=
  match l with [] => [] | a :: l' => f i a ++ flat_mapi f (S i) l' end.

Lemma flat_mapi_const_len {A B} (f : nat -> A -> list B) w l i :
  (forall i a, List.length (f i a) = w) -> List.length (flat_mapi f i l) = (w * List.length l)%nat.
Proof.
  intros H; revert i; induction l as [|a l IH]; intros i; simpl; [lia|].
  rewrite app_length, H, IH. lia.
Qed.

Lemma does_loopi {A} n m w base (f : nat -> A -> storage -> storage) rowsof l :
  (forall i a, List.length (rowsof i a) = w) ->
  forall i0,
  (forall i a, nth_error l i = Some a ->
     does n m (base + w * (i0 + i)) (rowsof (i0 + i)%nat a) (f (i0 + i)%nat a)) ->
  does n m (base + w * i0) (flat_mapi rowsof i0 l) (loopi f i0 l).
Proof.
  intros Hw; induction l as [|a l IH]; intros i0 H.
  - simpl. intros s; simpl; apply does_nil.
  - cbn [loopi flat_mapi]. apply (does_comp n m _ _ _ (f i0 a) (loopi f (S i0) l)).
    + specialize (H 0%nat a eq_refl). rewrite Nat.add_0_r in H. exact H.
    + rewrite Hw. replace (base + w * i0 + w)%nat with (base + w * S i0)%nat by lia.
      apply IH. intros i b Hb. specialize (H (S i) b Hb).
      replace (i0 + S i)%nat with (S i0 + i)%nat in H by lia. exact H.
Qed.

Ltac eqb_simp :=
  repeat match goal with
  | |- context [Nat.eqb ?a ?a] => rewrite (Nat.eqb_refl a)
  | |- context [Nat.eqb ?a ?b] =>
      first [ rewrite (proj2 (Nat.eqb_eq a b)) by lia
            | rewrite (proj2 (Nat.eqb_neq a b)) by lia ]
  end.

Ltac obs :=
  repeat first [rewrite gx_setC | rewrite h_setC | rewrite gx_setH | rewrite gx_addG | rewrite gx_b_terms
    | rewrite h_setH | rewrite h_addG | rewrite h_b_terms].

(** One-row blocks. *)
Lemma does_one n m r (f : storage -> storage) (row : rowfn) :
  (forall s, frame s (f s)) ->
  (forall s, s_n s = n -> s_m s = m -> s_ok s = true -> (r < m)%nat -> s_ok (f s) = true) ->
  (forall s r' x, r' <> r -> s_h (f s) r' = s_h s r' /\ gx x (f s) r' = gx x s r') ->
  (forall s x, s_h s r = 0 -> (forall y, gx y s r = 0) -> s_h (f s) r - gx x (f s) r = row x) ->
  does n m r [row] f.
Proof.
  intros Hf Hok Hoth Hrow s Hn Hm Hs Hc Hle. simpl in Hle.
  constructor; auto; simpl.
  - intros r' Hr'. destruct (Hoth s r' (fun _ => 0)) as [E1 _]; [lia|].
    destruct (Hc r') as [H1 H2]; [lia|]. split; [congruence|].
    intros x; destruct (Hoth s r' x) as [_ E2]; [lia|]. rewrite E2; auto.
  - intros r' x Hr'. destruct (Hoth s r' x) as [E1 E2]; [lia|].
    unfold slack. fold (gx x (f s) r'). fold (gx x s r'). congruence.
  - intros j x Hj. assert (j = 0%nat) by lia; subst. rewrite Nat.add_0_r.
    destruct (Hc r) as [H1 H2]; [lia|]. apply Hrow; auto.
  - apply Hok; auto; lia.
Qed.

(** *** binary rows *)
Definition rows_bin (p : problem) (i c : nat) : list rowfn :=
  [ (fun x => nth i (p_binlb p) 0 + x c); (fun x => nth i (p_binub p) 0 - x c) ].

Lemma does_bin n m p i c :
  (c < n)%nat -> (i < List.length (p_binlb p))%nat -> (i < List.length (p_binub p))%nat ->
  does n m (0 + 2 * i) (rows_bin p i c) (b_bin p i c).
Proof.
  intros Hcn Hl Hu s Hn Hm Hok Hc Hle. simpl in Hle.
  unfold b_bin.
  destruct (nth_error (p_binlb p) i) as [lb|] eqn:El; [|apply nth_error_None in El; lia].
  destruct (nth_error (p_binub p) i) as [ub|] eqn:Eu; [|apply nth_error_None in Eu; lia].
  assert (NL : nth i (p_binlb p) 0 = lb) by (apply nth_error_nth; assumption).
  assert (NU : nth i (p_binub p) 0 = ub) by (apply nth_error_nth; assumption).
  set (s' := setH _ _ _).
  constructor.
  - intros r Hr. simpl in Hr. destruct (Hc r) as [H1 H2]; [lia|].
    unfold s'; split; [|intros x; specialize (H2 x)]; obs; eqb_simp; lra.
  - intros r x Hr. unfold slack; fold (gx x s' r) (gx x s r). unfold s'. obs. eqb_simp. lra.
  - intros j x Hj. unfold rows_bin in Hj; simpl in Hj. unfold slack; fold (gx x s' (0 + 2*i + j)%nat).
    destruct (Hc (2 * i)%nat) as [H1 H2]; [lia|]. destruct (Hc (2 * i + 1)%nat) as [H3 H4]; [lia|].
    specialize (H2 x); specialize (H4 x).
    destruct j as [|[|j]]; [| |lia]; unfold s', rows_bin; cbn [nth].
    + replace (0 + 2 * i + 0)%nat with (2 * i)%nat by lia. obs. eqb_simp. lra.
    + replace (0 + 2 * i + 1)%nat with (2 * i + 1)%nat by lia. obs. eqb_simp. lra.
  - unfold s'; frame_tac.
  - unfold s'. repeat first [apply ok_setH | apply ok_addG]; auto; simpl; lia.
Qed.

(** *** linear inequality rows: without variables the constant is lost *)
Definition row_lin (e : linexpr) : rowfn :=
  fun x => match le_terms e with [] => 0 | _ => - aval x e end.

Lemma fold_lin_row r k ts : forall s x r',
  let s' := fold_left (fun s t => setH r k (addG r (fst t) (snd t) s)) ts s in
  gx x s' r' = (if Nat.eqb r r' then tsum x ts else 0) + gx x s r' /\
  s_h s' r' = match ts with [] => s_h s r' | _ => if Nat.eqb r' r then k else s_h s r' end.
Proof.
  induction ts as [|t ts IH]; intros s x r'; cbv zeta.
  - simpl; destruct (Nat.eqb r r'); split; lra.
  - cbn [fold_left]. destruct (IH (setH r k (addG r (fst t) (snd t) s)) x r') as [H1 H2].
    cbv zeta in H1, H2. rewrite H1, H2. obs. cbn [tsum fold_right].
    fold (tsum x ts). split; [destruct (Nat.eqb r r'); lra|].
    destruct ts; destruct (Nat.eqb r' r); reflexivity.
Qed.

Lemma does_lineq n m base i e :
  cols_ok n e -> does n m (base + 1 * i) [row_lin e] (b_lineq base i e).
Proof.
  intros Hcols. rewrite Nat.mul_1_l. apply does_one.
  - intros s; unfold b_lineq; frame_tac.
  - intros s Hn Hm Hok Hr. unfold b_lineq. unfold cols_ok in Hcols.
    revert s Hn Hm Hok. induction (le_terms e) as [|t ts IH]; intros s Hn Hm Hok; [assumption|].
    cbn [fold_left]. apply IH; auto.
    + intros c Hc; apply Hcols; simpl; auto.
    + apply ok_setH; [apply ok_addG; auto; [lia|]|simpl; lia]. rewrite Hn; apply Hcols; simpl; auto.
  - intros s r' x Hne. unfold b_lineq.
    destruct (fold_lin_row (base + i) (- le_const e) (le_terms e) s x r') as [H1 H2].
    cbv zeta in H1, H2. rewrite H1, H2. eqb_simp. split; [destruct (le_terms e); reflexivity|lra].
  - intros s x Hh Hg. unfold b_lineq, row_lin.
    destruct (fold_lin_row (base + i) (- le_const e) (le_terms e) s x (base + i)) as [H1 H2].
    cbv zeta in H1, H2. rewrite H1, H2, Hg. eqb_simp. rewrite aval_tsum.
    destruct (le_terms e) eqn:E; [simpl; lra|lra].
Qed.

(** *** linear part of quadratic constraints *)
Fixpoint tdot (x : nat -> R) (cs : list nat) (ts : list (R * linexpr)) : R :=
  match cs, ts with
  | c :: cs', t :: ts' => fst t * x c + tdot x cs' ts'
  | _, _ => 0
  end.

Definition row_qlin (q : quadexpr) : rowfn :=
  fun x => - (tdot x (q_extra q) (q_terms q) + aval x (q_lexpr q)).

Lemma qlin_loop r ex : forall ts i s x r',
  (i + List.length ts <= List.length ex)%nat ->
  let s' := loopi (fun k (t : R * linexpr) s => match nth_error ex k with
                                | Some c => addG r c (fst t) s
                                | None => oob s end) i ts s in
  gx x s' r' = (if Nat.eqb r r' then tdot x (skipn i ex) ts else 0) + gx x s r' /\
  s_h s' r' = s_h s r' /\ s_c s' r' = s_c s r'.
Proof.
  induction ts as [|t ts IH]; intros i s x r' Hlen; cbv zeta.
  - simpl. destruct (skipn i ex); simpl; destruct (Nat.eqb r r'); repeat split; lra.
  - cbn [loopi]. simpl in Hlen.
    destruct (nth_error ex i) as [c|] eqn:E; [|apply nth_error_None in E; lia].
    destruct (IH (S i) (addG r c (fst t) s) x r') as (H1 & H2 & H3); [lia|].
    cbv zeta in H1, H2, H3. rewrite H1, H2, H3. obs.
    assert (Sk : skipn i ex = c :: skipn (S i) ex).
    { clear -E. revert ex E; induction i as [|i IHi]; intros [|e ex] E; simpl in *; try discriminate.
      - congruence. - apply IHi; assumption. }
    rewrite Sk. cbn [tdot]. destruct (Nat.eqb r r'); repeat split; lra.
Qed.

Lemma ok_qlin_loop r ex : forall ts i s,
  (i + List.length ts <= List.length ex)%nat -> s_ok s = true -> (r < s_m s)%nat ->
  (forall c, In c ex -> (c < s_n s)%nat) ->
  s_ok (loopi (fun k (t : R * linexpr) s => match nth_error ex k with
                                | Some c => addG r c (fst t) s
                                | None => oob s end) i ts s) = true.
Proof.
  induction ts as [|t ts IH]; intros i s Hlen Hok Hr Hc; [assumption|].
  cbn [loopi]. simpl in Hlen.
  destruct (nth_error ex i) as [c|] eqn:E; [|apply nth_error_None in E; lia].
  apply IH; auto; [lia|]. apply ok_addG; auto. apply Hc. eapply nth_error_In; eassumption.
Qed.

Lemma does_qlin n m base i q :
  cols_ok n (q_lexpr q) -> (List.length (q_terms q) <= List.length (q_extra q))%nat ->
  (forall c, In c (q_extra q) -> (c < n)%nat) ->
  does n m (base + 1 * i) [row_qlin q] (b_qlin base i q).
Proof.
  intros Hcols Hlen Hex. rewrite Nat.mul_1_l. apply does_one.
  - intros s; unfold b_qlin; cbv zeta. frame_tac.
    eapply frame_trans; [|apply frame_b_terms]. frame_tac.
  - intros s Hn Hm Hok Hr. unfold b_qlin; cbv zeta.
    set (s1 := loopi _ _ _ _).
    assert (F : frame s s1) by (unfold s1; frame_tac). destruct F as [Fn Fm _ _ _].
    assert (O : s_ok s1 = true).
    { apply ok_qlin_loop; auto; [lia|]. rewrite Hn; assumption. }
    assert (F2 := frame_b_terms (base + i) 1 (le_terms (q_lexpr q)) s1). destruct F2 as [Fn2 Fm2 _ _ _].
    apply ok_setH; [apply ok_b_terms; auto|rewrite Fm2; lia]; [lia|]. rewrite Fn, Hn; exact Hcols.
  - intros s r' x Hne. unfold b_qlin; cbv zeta. obs.
    destruct (qlin_loop (base + i) (q_extra q) (q_terms q) 0 s x r') as (H1 & H2 & _); [lia|].
    cbv zeta in H1, H2. rewrite H1, H2. eqb_simp. split; lra.
  - intros s x Hh Hg. unfold b_qlin; cbv zeta. obs.
    destruct (qlin_loop (base + i) (q_extra q) (q_terms q) 0 s x (base + i)) as (H1 & H2 & _); [lia|].
    cbv zeta in H1, H2. rewrite H1, Hg. eqb_simp. unfold row_qlin. rewrite aval_tsum. simpl skipn. lra.
Qed.

(** *** linear part of SOC constraints *)
Definition row_soclin (q : quadexpr) : rowfn :=
  fun x => - (x (nth 0 (q_extra q) 0%nat) + aval x (q_lexpr q)).

Lemma does_soclin n m base i q :
  cols_ok n (q_lexpr q) -> (1 <= List.length (q_extra q))%nat ->
  (forall c, In c (q_extra q) -> (c < n)%nat) ->
  does n m (base + 1 * i) [row_soclin q] (b_soclin base i q).
Proof.
  intros Hcols Hlen Hex. rewrite Nat.mul_1_l.
  destruct (q_extra q) as [|c cs] eqn:E; [simpl in Hlen; lia|].
  assert (Hc : (c < n)%nat) by (apply Hex; simpl; auto).
  unfold b_soclin, row_soclin; rewrite E; cbn [nth_error nth]; cbv zeta.
  apply does_one.
  - intros s. frame_tac. eapply frame_trans; [|apply frame_b_terms]. frame_tac.
  - intros s Hn Hm Hok Hr.
    set (s1 := addG _ _ _ _).
    assert (F2 := frame_b_terms (base + i) 1 (le_terms (q_lexpr q)) s1). destruct F2 as [Fn2 Fm2 _ _ _].
    apply ok_setH; [apply ok_b_terms|rewrite Fm2; simpl; lia].
    + apply ok_addG; auto; lia. + simpl; lia. + simpl; rewrite Hn; exact Hcols.
  - intros s r' x Hne. obs. eqb_simp. split; lra.
  - intros s x Hh Hg. obs. rewrite Hg. eqb_simp. rewrite aval_tsum. lra.
Qed.

(** *** trust-region rows *)
(** first-order model at the current values of  sum_i c_i L_i^2 + lexpr *)
Definition qlinear (p : problem) (q : quadexpr) (x : nat -> R) : R :=
  aval x (q_lexpr q) + q_value (p_env p) q
  + sumR (map (fun t => 2 * fst t * aval (p_env p) (snd t) * (aval x (snd t) - aval (p_env p) (snd t))) (q_terms q)).

Lemma grad_diff p x q :
  grad p x q - grad p (p_env p) q =
  sumR (map (fun t => 2 * fst t * aval (p_env p) (snd t) * (aval x (snd t) - aval (p_env p) (snd t))) (q_terms q)).
Proof.
  unfold grad. induction (q_terms q) as [|t ts IH]; simpl; [lra|].
  unfold sumR in *; simpl. rewrite <- IH. unfold gradterm. rewrite aval_le_value, !aval_tsum. ring.
Qed.

Definition row_trust (p : problem) (thr : R) (iter : nat) (q : quadexpr) : rowfn :=
  fun x => qlinear p q x + thr ^ iter.

Lemma does_trust n m p thr iter base i q :
  cols_ok n (q_lexpr q) -> (forall t, In t (q_terms q) -> cols_ok n (snd t)) ->
  does n m (base + 1 * i) [row_trust p thr iter q] (b_trust p thr iter base i q).
Proof.
  intros Hcols Hq. rewrite Nat.mul_1_l. unfold b_trust; cbv zeta. apply does_one.
  - intros s. frame_tac. eapply frame_trans; [|apply frame_b_terms].
    eapply frame_trans; [|apply frame_b_grad]. frame_tac.
  - intros s Hn Hm Hok Hr.
    set (s0 := setH _ 0 s). assert (O0 : s_ok s0 = true) by (apply ok_setH; auto; lia).
    assert (F1 := frame_b_grad p 1 (base + i) q s0). destruct F1 as [Fn1 Fm1 _ _ _].
    assert (F2 := frame_b_terms (base + i) (-1) (le_terms (q_lexpr q)) (b_grad p 1 (base + i) q s0)).
    destruct F2 as [Fn2 Fm2 _ _ _].
    apply ok_setH; [apply ok_b_terms|].
    + apply ok_b_grad; auto; unfold s0; simpl; [lia|]. rewrite Hn; assumption.
    + rewrite Fm1; unfold s0; simpl; lia.
    + rewrite Fn1; unfold s0; simpl; rewrite Hn; exact Hcols.
    + rewrite Fm2, Fm1; unfold s0; simpl; lia.
  - intros s r' x Hne. obs.
    destruct (b_grad_spec p 1 (base + i) q (setH (base + i) 0 s) x r') as [H1 H2].
    rewrite H1, H2. obs. eqb_simp. split; lra.
  - intros s x Hh Hg. obs.
    destruct (b_grad_spec p 1 (base + i) q (setH (base + i) 0 s) x (base + i)) as [H1 H2].
    rewrite H1, H2. obs. rewrite Hg. eqb_simp. unfold row_trust, qlinear.
    rewrite <- grad_diff. rewrite aval_tsum. lra.
Qed.

(** *** rotated cone blocks *)
Definition rows_rot (c : nat) (l : linexpr) : list rowfn :=
  [ (fun x => 1 + x c); (fun x => -1 + x c); (fun x => 2 * aval x l) ].

Lemma does_rot n m r c l :
  (c < n)%nat -> cols_ok n l -> does n m r (rows_rot c l) (b_rot r c l).
Proof.
  intros Hcn Hcols s Hn Hm Hok Hc Hle. simpl in Hle.
  assert (FR := frame_b_rot r c l s).
  constructor.
  - intros r' Hr'. simpl in Hr'. destruct (Hc r') as [H1 H2]; [lia|]. unfold b_rot; cbv zeta.
    split; [|intros x; specialize (H2 x)]; obs; eqb_simp; lra.
  - intros r' x Hr'. unfold slack; fold (gx x (b_rot r c l s) r') (gx x s r'). unfold b_rot; cbv zeta.
    obs. eqb_simp. lra.
  - intros j x Hj. simpl in Hj. unfold slack; fold (gx x (b_rot r c l s) (r + j)). 
    assert (K : forall k, (k < 3)%nat -> s_h s (r + k) = 0 /\ gx x s (r + k) = 0).
    { intros k Hk; destruct (Hc (r + k)%nat) as [? ?]; [lia|]; auto. }
    destruct (K j) as [K1 K2]; [assumption|].
    unfold b_rot; cbv zeta. obs. rewrite K2.
    destruct j as [|[|[|j]]]; [| | |lia]; eqb_simp; cbn [rows_rot nth]; rewrite ?aval_tsum; lra.
  - assumption.
  - unfold b_rot; cbv zeta.
    set (s1 := addG (r + 1) c (-1) (addG r c (-1) s)).
    assert (F2 := frame_b_terms (r + 2) (-2) (le_terms l) s1). destruct F2 as [Fn2 Fm2 _ _ _].
    assert (O1 : s_ok s1 = true). { unfold s1; repeat apply ok_addG; auto; simpl; lia. }
    repeat apply ok_setH; simpl; try (rewrite Fm2; simpl; lia).
    apply ok_b_terms; auto; simpl; [lia|]. rewrite Hn; exact Hcols.
Qed.

(** adding a [setC] does not change rows *)
Lemma does_setC n m lo rows f c v :
  (c < n)%nat -> does n m lo rows f -> does n m lo rows (fun s => setC c v (f s)).
Proof.
  intros Hcn H s Hn Hm Hok Hc Hle. destruct (H s Hn Hm Hok Hc Hle) as [B1 B2 B3 B4 B5].
  constructor; auto.
  - frame_tac. assumption.
  - apply ok_setC; auto. rewrite (fr_n _ _ B4); lia.
Qed.

Definition rows_objq (p : problem) (i c : nat) : list rowfn :=
  rows_rot c (snd (nth i (q_terms (p_obj p)) (0, le_of_const 0))).

Lemma does_objq n m p base i c :
  (c < n)%nat -> (i < List.length (q_terms (p_obj p)))%nat ->
  (forall t, In t (q_terms (p_obj p)) -> cols_ok n (snd t)) ->
  does n m (base + 3 * i) (rows_objq p i c) (b_objq p base i c).
Proof.
  intros Hcn Hi Hcols. unfold b_objq, rows_objq.
  destruct (nth_error (q_terms (p_obj p)) i) as [[a l]|] eqn:E; [|apply nth_error_None in E; lia].
  rewrite (nth_error_nth _ _ _ E). apply does_setC; [assumption|]. apply does_rot; [assumption|].
  apply nth_error_In in E. apply (Hcols (a, l) E).
Qed.

(** *** soft constraint blocks *)
Definition rows_soft (p : problem) (q : quadexpr) : list rowfn :=
  let c := last (q_extra q) 0%nat in
  [ (fun x => 1 + x c); (fun x => -1 + x c); (fun x => 2 * qlinear p q x) ].

Lemma rev_last {A} (l : list A) a l' d : rev l = a :: l' -> last l d = a.
Proof.
  intros H. assert (E : l = rev l' ++ [a]).
  { rewrite <- (rev_involutive l), H. reflexivity. }
  rewrite E. apply last_last.
Qed.

Lemma does_soft n m p w base i q :
  cols_ok n (q_lexpr q) -> (forall t, In t (q_terms q) -> cols_ok n (snd t)) ->
  q_extra q <> [] -> (forall c, In c (q_extra q) -> (c < n)%nat) ->
  does n m (base + 3 * i) (rows_soft p q) (b_soft p w base i q).
Proof.
  intros Hcols Hq Hne Hex. unfold b_soft, rows_soft.
  destruct (rev (q_extra q)) as [|c cs] eqn:E.
  { exfalso; apply Hne. rewrite <- (rev_involutive (q_extra q)), E. reflexivity. }
  rewrite (rev_last _ _ _ 0%nat E).
  assert (Hcn : (c < n)%nat). { apply Hex. apply in_rev. rewrite E; simpl; auto. }
  cbv zeta. generalize (base + 3 * i)%nat as r; intros r. apply does_setC; [assumption|].
  intros s Hn Hm Hok Hc Hle. simpl in Hle.
  set (s1 := setH (r + 2) 0 (setH (r + 1) (-1) (setH r 1 s))).
  set (s1' := addG (r + 1) c (-1) (addG r c (-1) s1)).
  set (s2 := b_grad p 2 (r + 2) q s1').
  set (s3 := b_terms (r + 2) (-2) (le_terms (q_lexpr q)) s2).
  set (s4 := setH (r + 2) _ s3).
  set (s5 := setH (r + 2) _ s4).
  assert (F1 : frame s s1') by (unfold s1', s1; frame_tac).
  assert (F2 : frame s1' s2) by apply frame_b_grad.
  assert (F3 : frame s2 s3) by apply frame_b_terms.
  assert (F5 : frame s3 s5) by (unfold s5, s4; frame_tac).
  assert (F12 := frame_trans _ _ _ F1 F2). assert (F13 := frame_trans _ _ _ F12 F3).
  assert (F15 := frame_trans _ _ _ F13 F5).
  assert (G2 := b_grad_spec p 2 (r + 2) q s1').
  assert (OBS : forall x r', gx x s5 r' =
     (if Nat.eqb (r + 2) r' then -2 * tsum x (le_terms (q_lexpr q)) else 0) +
     ((if Nat.eqb (r + 2) r' then - (2 * grad p x q) else 0) +
     ((if Nat.eqb (r + 1) r' then -1 * x c else 0) + ((if Nat.eqb r r' then -1 * x c else 0) + gx x s r')))).
  { intros x r'. unfold s5, s4, s3. obs. unfold s2. destruct (G2 x r') as [-> _]. unfold s1', s1. obs. reflexivity. }
  assert (OBH : forall r', s_h s5 r' = if Nat.eqb r' (r + 2)
     then 2 * (0 - grad p (p_env p) q + (le_const (q_lexpr q) + q_value (p_env p) q))
     else if Nat.eqb r' (r + 1) then -1 else if Nat.eqb r' r then 1 else s_h s r').
  { intros r'. unfold s5, s4, s3. obs. unfold s2.
    rewrite !(fun r' => proj2 (G2 (fun _ => 0) r')). unfold s1', s1. obs.
    destruct (Nat.eqb_spec r' (r + 2)); [subst|]; eqb_simp; [lra|].
    destruct (Nat.eqb r' (r + 1)), (Nat.eqb r' r); lra. }
  assert (O1 : s_ok s1' = true).
  { unfold s1', s1. apply ok_addG; [apply ok_addG; [repeat apply ok_setH|..]|..]; auto; simpl; lia. }
  assert (O2 : s_ok s2 = true).
  { apply ok_b_grad; auto; [rewrite (fr_m _ _ F1); lia|]. rewrite (fr_n _ _ F1), Hn; assumption. }
  assert (O3 : s_ok s3 = true).
  { apply ok_b_terms; auto; [rewrite (fr_m _ _ F12); lia|]. rewrite (fr_n _ _ F12), Hn; exact Hcols. }
  assert (O5 : s_ok s5 = true).
  { unfold s5, s4. apply ok_setH; [apply ok_setH|]; auto; [|simpl]; rewrite (fr_m _ _ F13); lia. }
  clearbody s5. clear s4.
  constructor.
  - intros r' Hr'. simpl in Hr'. destruct (Hc r') as [H1 H2]; [lia|].
    split; [rewrite OBH|intros x; rewrite OBS, H2]; eqb_simp; lra.
  - intros r' x Hr'. unfold slack; fold (gx x s5 r') (gx x s r'). rewrite OBS, OBH. eqb_simp. lra.
  - intros j x Hj. simpl in Hj. unfold slack; fold (gx x s5 (r + j)).
    assert (K : gx x s (r + j) = 0) by (destruct (Hc (r + j)%nat) as [_ Hx]; [lia|auto]).
    rewrite OBS, OBH, K.
    destruct j as [|[|[|j]]]; [| | |lia]; eqb_simp; cbn [nth]; try lra.
    unfold qlinear. rewrite <- grad_diff. rewrite aval_tsum. lra.
  - exact F15.
  - exact O5.
Qed.

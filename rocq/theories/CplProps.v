(** * C40: contact phases and end-effector references *)
From Coq Require Import Reals List Arith ZArith Bool Lia Lra.
Import ListNotations.
From Verif Require Import Base BaseProofs Vec3 CntModel CntSpec PolyModel PolySpec Hermite PolyProofs PolyProps CplModel CplSpec.
Local Open Scope R_scope.

Section Loop.
  Variables (a : nat -> bool) (pos : nat -> vec3).
  Definition closed (k s e : nat) : Prop := (s <= e < k)%nat /\ (forall t, (s <= t <= e)%nat -> a t = a 0%nat) /\ (s = 0%nat \/ a (s - 1)%nat <> a 0%nat) /\ a (e + 1)%nat <> a 0%nat.
  Definition inv (k : nat) (s : nat * nat * list phase) : Prop :=
    let '(start, count, l) := s in
    (forall c, In c l <-> closed k (ph_start c) (ph_end c) /\ ph_pos c = pos (ph_end c)) /\ separated l /\
    (if (count mod 2 =? 0)%nat then a k <> a 0%nat
     else (start <= k)%nat /\ (forall t, (start <= t <= k)%nat -> a t = a 0%nat) /\ (start = 0%nat \/ a (start - 1)%nat <> a 0%nat) /\ (forall c, In c l -> (ph_end c + 1 < start)%nat)).
  Lemma loop_inv : forall k, inv k (fold_left (plan_step a pos) (seq 0 k) (0%nat, 1%nat, [])).
  Proof.
    induction k.
    - cbn. split; [|split].
      + intros c. split; [intros []|intros ((H & _) & _); lia].
      + intros i j c d _ H. destruct i; discriminate.
      + split; [lia|]. split; [intros t Ht; now replace t with 0%nat by lia|]. split; [now left|]. intros c [].
    - rewrite seq_S, fold_left_app. cbn [fold_left plus]. destruct (fold_left (plan_step a pos) (seq 0 k) _) as [[start count] l]. unfold inv in IHk |- *. destruct IHk as (I1 & I2 & I3). unfold plan_step.
      destruct (Bool.eqb (a k) (a (k + 1)%nat)) eqn:E; cbn [negb].
      + apply eqb_prop in E. rewrite Nat.add_1_r in E. split; [|split].
        * intros c. rewrite I1. split; intros (H & P); (split; [|exact P]); destruct H as (H1 & H2 & H3 & H4); (split; [|tauto]); [lia|]. destruct (Nat.eq_dec (ph_end c) k) as [Ek|]; [|lia]. exfalso. apply H4. rewrite Ek, Nat.add_1_r, <- E, <- Ek. apply H2. lia.
        * exact I2.
        * destruct (count mod 2 =? 0)%nat; [congruence|]. destruct I3 as (J1 & J2 & J3 & J4). split; [lia|]. split; [|tauto]. intros t Ht. destruct (Nat.eq_dec t (S k)) as [->|]; [rewrite <- E; apply J2; lia|apply J2; lia].
      + assert (NE : a (S k) <> a k) by (intros Z; rewrite Nat.add_1_r, Z in E; now rewrite eqb_reflx in E).
        assert (PM : forall n, ((n + 1) mod 2 =? 0)%nat = negb (n mod 2 =? 0)%nat).
        { intros n. rewrite <- Nat.add_mod_idemp_l by lia. pose proof (Nat.mod_upper_bound n 2). destruct (n mod 2)%nat as [|[|]]; try lia; reflexivity. }
        destruct (count mod 2 =? 0)%nat eqn:C; rewrite PM, C; cbn [negb].
        * (* the value comes back: a new interval starts *)
          assert (K : a (S k) = a 0%nat) by (destruct (a (S k)), (a k), (a 0%nat); try reflexivity; congruence).
          split; [|split].
          -- intros c. rewrite I1. split; intros (H & P); (split; [|exact P]); destruct H as (H1 & H2 & H3 & H4); (split; [|tauto]); [lia|]. destruct (Nat.eq_dec (ph_end c) k) as [Ek|]; [|lia]. exfalso. apply H4. rewrite Ek, Nat.add_1_r. exact K.
          -- exact I2.
          -- rewrite Nat.add_1_r. split; [lia|]. split; [intros t Ht; now replace t with (S k) by lia|]. split; [right; now replace (S k - 1)%nat with k by lia|].
             intros c Hc. apply I1 in Hc. destruct Hc as ((H1 & H2 & H3 & H4) & _). destruct (Nat.eq_dec (ph_end c + 1) k) as [Ek|]; [|lia]. lia.
        * destruct I3 as (J1 & J2 & J3 & J4). assert (Kk : a k = a 0%nat) by (apply J2; lia). assert (K : a (S k) <> a 0%nat) by congruence.
          assert (NC : closed (S k) start k) by (split; [lia|]; split; [exact J2|]; split; [exact J3|]; now rewrite Nat.add_1_r).
          split; [|split].
          -- intros c. rewrite in_app_iff. split.
             ++ intros [Hc|[<-|[]]]; [|cbn [ph_start ph_end ph_pos]; split; [exact NC|reflexivity]]. apply I1 in Hc. destruct Hc as ((H1 & H2) & P). split; [split; [lia|exact H2]|exact P].
             ++ intros ((H1 & H2 & H3 & H4) & P). destruct (Nat.eq_dec (ph_end c) k) as [Ek|].
                ** right. left. assert (ph_start c = start).
                   { destruct (Nat.lt_trichotomy (ph_start c) start) as [L|[L|L]]; [|exact L|].
                     - destruct J3 as [->|J3]; [lia|]. elim J3. apply H2. lia.
                     - destruct H3 as [H3|H3]; [lia|]. elim H3. apply J2. lia. }
                   destruct c as [cs ce cp]. cbn [ph_start ph_end ph_pos] in *. subst. reflexivity.
                ** left. apply I1. split; [split; [lia|tauto]|exact P].
          -- intros i j c d Hij Hi Hj.
             assert (Lj : (j < length (l ++ [Ph start k (pos k)]))%nat) by (apply nth_error_Some; congruence). rewrite app_length in Lj. cbn in Lj.
             rewrite nth_error_app1 in Hi by lia. destruct (Nat.lt_ge_cases j (length l)) as [L|L].
             ++ rewrite nth_error_app1 in Hj by lia. exact (I2 i j c d Hij Hi Hj).
             ++ rewrite nth_error_app2 in Hj by lia. replace (j - length l)%nat with 0%nat in Hj by lia. injection Hj as <-. cbn [ph_start]. apply J4. apply (nth_error_In _ _ Hi).
          -- exact K.
  Qed.
  Lemma plan_is : forall N, let l := contact_plan N a pos in separated l /\ forall c, In c l <-> (closed (N - 1) (ph_start c) (ph_end c) /\ ph_pos c = pos (ph_end c)).
  Proof.
    intros N l. unfold l, contact_plan. pose proof (loop_inv (N - 1)) as H. destruct (fold_left _ _ _) as [[start count] l0]. cbn [snd]. destruct H as (H1 & H2 & _). split; [exact H2|exact H1].
  Qed.
End Loop.

(** What the extracted plan lists, for every pattern: in time order, the maximal intervals on which the end-effector has the state it has at step 0, except the one that reaches the last step;
    the position is the one at the end of the interval. *)
Theorem C40_plan : forall N a pos, let l := contact_plan N a pos in
  separated l /\ forall s e p, In (Ph s e p) l <-> maximal (a 0%nat) N a s e /\ (e + 1 < N)%nat /\ p = pos e.
Proof.
  intros N a pos l. destruct (plan_is a pos N) as (S & H). fold l in S, H. split; [exact S|]. intros s e p. rewrite H. cbn [ph_start ph_end ph_pos]. unfold closed, maximal. split.
  - intros ((H1 & H2 & H3 & H4) & P). repeat split; try lia; try assumption. now right.
  - intros ((H1 & H2 & H3 & H4) & L & P). split; [|exact P]. split; [lia|]. split; [exact H2|]. split; [exact H3|]. destruct H4; [lia|assumption].
Qed.
Print Assumptions C40_plan.
(** For an end-effector that starts in contact and is in the air at the last step these are exactly its contact phases. *)
Theorem C40_contact_phases : forall N q e plan, (0 < N)%nat -> get_contact_plan N q e = Ok plan -> e_act (look q e 0) = true -> e_act (look q e (N - 1)) = false ->
  separated plan /\ forall s f p, In (Ph s f p) plan <-> maximal true N (fun t => e_act (look q e t)) s f /\ p = e_pos (look q e f).
Proof.
  intros N q e plan HN H A0 AN. unfold get_contact_plan in H. destruct (_ && _)%bool; [discriminate|]. injection H as <-.
  destruct (C40_plan N (fun t => e_act (look q e t)) (fun t => e_pos (look q e t))) as (S & P). split; [exact S|]. intros s f p. rewrite (P s f p), A0. split; [tauto|]. intros (M & E). split; [exact M|]. split; [|exact E].
  destruct M as (B & V & _). destruct (Nat.eq_dec (f + 1) N) as [L|]; [|lia]. exfalso. assert (F : f = (N - 1)%nat) by lia. specialize (V f ltac:(lia)). cbv beta in V. rewrite F in V. congruence.
Qed.
Print Assumptions C40_contact_phases.
(** The contact phase that reaches the last step is missing: an end-effector that lands and stays has no entry for its last foothold... *)
Theorem C40_last_phase_refuted : forall N q e plan s p, get_contact_plan N q e = Ok plan -> (0 < N)%nat -> e_act (look q e 0) = true -> maximal true N (fun t => e_act (look q e t)) s (N - 1) ->
  forall f, (s <= f)%nat -> ~ In (Ph s f p) plan.
Proof.
  intros N q e plan s p H HN A0 M f Hf Hin. unfold get_contact_plan in H. destruct (_ && _)%bool; [discriminate|]. injection H as <-.
  apply (C40_plan N (fun t => e_act (look q e t)) (fun t => e_pos (look q e t))) in Hin. destruct Hin as ((_ & _ & _ & [B|B]) & L & _); [lia|]. cbv beta in B. rewrite A0 in B. apply B. apply M. lia.
Qed.
Print Assumptions C40_last_phase_refuted.
(** ... and for an end-effector that starts in the air the plan lists its flight phases. *)
Theorem C40_initial_swing_refuted : forall N q e plan s f p, get_contact_plan N q e = Ok plan -> e_act (look q e 0) = false -> In (Ph s f p) plan -> forall t, (s <= t <= f)%nat -> e_act (look q e t) = false.
Proof.
  intros N q e plan s f p H A0 Hin t Ht. unfold get_contact_plan in H. destruct (_ && _)%bool; [discriminate|]. injection H as <-.
  apply (C40_plan N (fun t => e_act (look q e t)) (fun t => e_pos (look q e t))) in Hin. destruct Hin as ((_ & V & _) & _). rewrite <- A0. now apply V.
Qed.
Print Assumptions C40_initial_swing_refuted.

(** ** The references *)
Section Reference.
  Variable solve : list (list R) -> list R -> option (list R).
  Hypothesis Hs : sound solve.
  Hypothesis Hc : complete solve.
  Variable z : R.
  Notation fly := (fly z).
  Fixpoint chain (l : list phase) : Prop :=
    match l with [] => True | c :: r => (ph_start c <= ph_end c)%nat /\ (match r with [] => True | d :: _ => (ph_end c < ph_start d)%nat end) /\ chain r end.
  (** At time t the list answers x with velocity v. *)
  Definition answers (l : plist) (t x v : R) : Prop := list_eval l t = Ok x /\ list_deval l t = Ok v.
  Lemma poly_deval : forall t0 t1 x0 x1 via p f t, poly_points solve t0 t1 x0 x1 via = Ok p -> is_function p f -> exists v, pdeval p t = Ok v /\ derivable_pt_lim f t v.
  Proof.
    intros t0 t1 x0 x1 via p f t H F. unfold poly_points in H. pose proof (cc_orders t0 t1 x0 x1 via) as O. unfold create_constraints in O, H. rewrite fit_fresh in H by exact O. cbn [length] in H.
    destruct (solve _ _) as [x|] eqn:E; [|discriminate]. injection H as <-. apply Hs in E. destruct E as (L & _). cbn in L.
    destruct (C39_derivative (Poly (Some (set_col0 (initial_coeffs 6) x)) true (Some 6%nat) (create_constraints t0 t1 x0 x1 via)) (set_col0 (initial_coeffs 6) x)) as (g & g' & G & D); [reflexivity|reflexivity| |].
    - left. unfold set_col0. rewrite combine_length, map_length, initial_length, L. cbn. lia.
    - exists (g' t). split; [exact (proj2 (G t))|]. specialize (D t). assert (EQ : forall u, g u = f u). { intros u. pose proof (proj1 (G u)) as A. specialize (F u). unfold peval in A, F. cbn [p_fitted p_coeffs] in A, F. congruence. }
      intros eps He. destruct (D eps He) as (dl & Q). exists dl. intros h Hh Hd. rewrite <- !EQ. now apply Q.
  Qed.
  Lemma fly_start : forall idx c d, (ph_end c < ph_start d)%nat -> fly idx c d (INR (ph_end c)) = vget3 (ph_pos c) idx.
  Proof. intros idx c d H. apply lt_INR in H. unfold fly, TrajSpec.swing. replace ((INR (ph_end c) - INR (ph_end c)) / (INR (ph_start d) - INR (ph_end c))) with 0 by (field; lra). ring. Qed.
  Lemma fly_end : forall idx c d, (ph_end c < ph_start d)%nat -> fly idx c d (INR (ph_start d)) = vget3 (ph_pos d) idx.
  Proof. intros idx c d H. apply lt_INR in H. unfold fly, TrajSpec.swing. replace ((INR (ph_start d) - INR (ph_end c)) / (INR (ph_start d) - INR (ph_end c))) with 1 by (field; lra). ring. Qed.
  Lemma swing_deriv : forall x0 v x1 t0 k t, derivable_pt_lim (fun t => TrajSpec.swing x0 v x1 ((t - t0) * k)) t
     (k * (let s := (t - t0) * k in (x1 - x0) * (30 * s ^ 2 - 60 * s ^ 3 + 30 * s ^ 4) + (v - (x0 + x1) / 2) * (192 * s ^ 2 * (1 - s) ^ 2 * (1 - 2 * s)))).
  Proof.
    intros. unfold TrajSpec.swing. cbv zeta.
    assert (L : forall g g', derivable_pt_lim g t g' -> forall n, derivable_pt_lim (fun t => g t ^ n) t (INR n * g t ^ (pred n) * g')).
    { intros g g' Hg n. exact (derivable_pt_lim_comp g (fun y => y ^ n) t g' (INR n * g t ^ pred n) Hg (derivable_pt_lim_pow (g t) n)). }
    set (s := fun t => (t - t0) * k).
    assert (Ds : derivable_pt_lim s t k).
    { assert (D : derivable_pt_lim ((id - (fun _ => t0)) * (fun _ => k))%F t ((1 - 0) * k + (t - t0) * 0)).
      { apply (derivable_pt_lim_mult (id - (fun _ => t0))%F (fun _ => k)); [|apply derivable_pt_lim_const]. apply (derivable_pt_lim_minus id (fun _ => t0)); [apply derivable_pt_lim_id|apply derivable_pt_lim_const]. }
      replace ((1 - 0) * k + (t - t0) * 0) with k in D by ring. exact D. }
    assert (Du : derivable_pt_lim (fun t => 1 - s t) t (0 - k)) by (apply (derivable_pt_lim_minus (fun _ => 1) s); [apply derivable_pt_lim_const|exact Ds]).
    assert (K : forall c g g', derivable_pt_lim g t g' -> derivable_pt_lim (fun t => c * g t) t (c * g')) by (intros; now apply derivable_pt_lim_scal).
    pose proof (K 10 _ _ (L _ _ Ds 3%nat)) as D3. pose proof (K 15 _ _ (L _ _ Ds 4%nat)) as D4. pose proof (K 6 _ _ (L _ _ Ds 5%nat)) as D5.
    pose proof (K (x1 - x0) _ _ (derivable_pt_lim_plus _ _ _ _ _ (derivable_pt_lim_minus _ _ _ _ _ D3 D4) D5)) as A1.
    pose proof (K (v - (x0 + x1) / 2) _ _ (derivable_pt_lim_mult _ _ _ _ _ (K 64 _ _ (L _ _ Ds 3%nat)) (L _ _ Du 3%nat))) as A2.
    pose proof (derivable_pt_lim_plus _ _ _ _ _ (derivable_pt_lim_plus _ _ _ _ _ (derivable_pt_lim_const x0 t) A1) A2) as A. cbn in A |- *.
    match type of A with derivable_pt_lim _ _ ?w => match goal with |- derivable_pt_lim _ _ ?w' => replace w' with w end end; [exact A|]. unfold plus_fct, minus_fct, mult_fct, s. ring.
  Qed.
  Lemma fly_rest : forall idx c d t v, (ph_end c < ph_start d)%nat -> t = INR (ph_end c) \/ t = INR (ph_start d) -> derivable_pt_lim (fly idx c d) t v -> v = 0.
  Proof.
    intros idx c d t v H E D. apply lt_INR in H. unfold fly in D. unfold Rdiv in D at 2. pose proof (uniqueness_limite _ _ _ _ D (swing_deriv _ _ _ _ _ t)) as ->. cbv zeta.
    destruct E as [->| ->].
    - replace ((INR (ph_end c) - INR (ph_end c)) * / (INR (ph_start d) - INR (ph_end c))) with 0 by ring. ring.
    - replace ((INR (ph_start d) - INR (ph_end c)) * / (INR (ph_start d) - INR (ph_end c))) with 1 by (field; lra). ring.
  Qed.
  Lemma const_ok : forall y t, peval (constant_poly y) t = Ok y /\ pdeval (constant_poly y) t = Ok 0.
  Proof. intros. cbn. split; [f_equal; ring|reflexivity]. Qed.
  Lemma chain_after : forall r c x, chain (c :: r) -> In x r -> (ph_end c < ph_start x)%nat.
  Proof.
    induction r as [|d r IH]; intros c x H Hx; [destruct Hx|]. destruct H as (_ & L & H). destruct Hx as [<-|Hx]; [exact L|]. pose proof (IH d x H Hx). destruct H as (H & _). lia.
  Qed.
  Lemma chain_start : forall r c x, chain (c :: r) -> In x r -> (ph_start c < ph_start x)%nat.
  Proof. intros r c x H Hx. pose proof (chain_after r c x H Hx). destruct H. lia. Qed.
  Lemma chain_ord : forall l c, chain l -> In c l -> (ph_start c <= ph_end c)%nat.
  Proof. induction l as [|d l IH]; intros c H Hin; [destruct Hin|]. destruct H as (A & B & C). destruct Hin as [->|Hin]; [exact A|now apply IH]. Qed.
  Lemma followed_in : forall l c d, followed l c d -> In c l /\ In d l.
  Proof. intros l c d (i & A & B). split; eapply nth_error_In; eassumption. Qed.
  Lemma gen_ok : forall idx plan, (idx < 3)%nat -> chain plan -> plan <> [] -> exists l, gen_traj solve z idx plan = Ok l /\ l <> [] /\
    (forall c t, In c plan -> INR (ph_start c) <= t <= INR (ph_end c) -> answers l t (vget3 (ph_pos c) idx) 0) /\
    (forall c d t, followed plan c d -> INR (ph_end c) <= t <= INR (ph_start d) -> exists v, answers l t (fly idx c d t) v /\ derivable_pt_lim (fly idx c d) t v) /\
    (forall c t, is_last plan c -> INR (ph_end c) <= t -> answers l t (vget3 (ph_pos c) idx) 0).
  Proof.
    intros idx plan Hi. induction plan as [|c r IH]; intros C N; [easy|]. destruct r as [|c' r].
    - cbn [gen_traj]. eexists. split; [reflexivity|]. split; [discriminate|]. unfold answers, list_eval, list_deval. cbn [get_poly bind]. split; [|split].
      + intros x t [->|[]] _. apply const_ok.
      + intros x d t (i & A & B). destruct i as [|i]; [discriminate|]. destruct i; discriminate.
      + intros x t (l' & E) _. destruct l' as [|a [|]]; try discriminate. injection E as ->. apply const_ok.
    - pose proof C as (C1 & C2 & C3). destruct (IH C3 ltac:(discriminate)) as (l & G & Nl & P1 & P2 & P3). clear IH.
      cbn [gen_traj]. destruct (C39_swing solve (INR (ph_end c)) (INR (ph_start c')) (vget3 (ph_pos c) idx) (vget3 (ph_pos c') idx) (via_of z idx c) Hs Hc) as (p & E & F); [apply lt_INR in C2; lra|].
      assert (F' : is_function p (fly idx c c')).
      { intros t. rewrite F. unfold fly, via_of. destruct (Nat.eqb_spec idx 2) as [->|]; reflexivity. }
      change (gen_traj solve z idx (c' :: r)) with (gen_traj solve z idx (c' :: r)) in G. rewrite E. cbn [bind]. cbn [gen_traj] in G. rewrite G. cbn [bind].
      eexists. split; [reflexivity|]. split; [discriminate|].
      set (L := (INR (ph_start c), INR (ph_end c), constant_poly (vget3 (ph_pos c) idx)) :: (INR (ph_end c), INR (ph_start c'), p) :: l).
      assert (A0 : forall t, t <= INR (ph_end c) -> answers L t (vget3 (ph_pos c) idx) 0).
      { intros t Ht. unfold answers, list_eval, list_deval, L. cbn [get_poly]. destruct (Rlt_dec (INR (ph_end c)) t); [lra|]. cbn [bind]. apply const_ok. }
      assert (A1 : forall t, INR (ph_end c) < t <= INR (ph_start c') -> exists v, answers L t (fly idx c c' t) v /\ derivable_pt_lim (fly idx c c') t v).
      { intros t Ht. destruct (poly_deval _ _ _ _ _ _ _ t E F') as (v & V & D). exists v. split; [|exact D]. unfold answers, list_eval, list_deval, L. cbn [get_poly]. destruct (Rlt_dec (INR (ph_end c)) t); [|lra].
        destruct l as [|h l]; [easy|]. destruct (Rlt_dec (INR (ph_start c')) t); [lra|]. cbn [bind]. split; [apply F'|exact V]. }
      assert (A2 : forall t x v, INR (ph_start c') < t -> answers l t x v -> answers L t x v).
      { intros t x v Ht. apply lt_INR in C2. unfold answers, list_eval, list_deval, L. cbn [get_poly]. destruct (Rlt_dec (INR (ph_end c)) t); [|lra]. destruct l as [|h l]; [easy|]. destruct (Rlt_dec (INR (ph_start c')) t); [|lra]. tauto. }
      assert (A3 : answers L (INR (ph_start c')) (vget3 (ph_pos c') idx) 0).
      { destruct (A1 (INR (ph_start c'))) as (v & V & D); [apply lt_INR in C2; lra|]. rewrite fly_end in V by exact C2. rewrite (fly_rest idx c c' (INR (ph_start c')) v C2 (or_intror eq_refl) D) in V. exact V. }
      assert (B : forall x, In x (c' :: r) -> INR (ph_start x) <= INR (ph_start c') -> x = c').
      { intros x [->|Hx] Le; [reflexivity|]. exfalso. apply (chain_start r c' x C3) in Hx. apply lt_INR in Hx. lra. }
      assert (M : forall x, In x (c' :: r) -> INR (ph_start x) <= INR (ph_end x)) by (intros x Hx; apply le_INR; eapply chain_ord; eauto).
      assert (M' : forall x, In x (c' :: r) -> INR (ph_start c') <= INR (ph_start x)).
      { intros x [->|Hx]; [lra|]. apply (chain_start r c' x C3) in Hx. apply lt_INR in Hx. lra. }
      split; [|split].
      + intros x t [->|Hx] Ht; [apply A0; lra|]. pose proof (M' x Hx). destruct (Rle_lt_dec t (INR (ph_start c'))) as [Le|Lt].
        * assert (t = INR (ph_start c')) by lra. rewrite (B x Hx) by lra. subst t. exact A3.
        * apply A2; [exact Lt|]. now apply P1.
      + intros x d t (i & I1 & I2) Ht. destruct i as [|i].
        * cbn in I1, I2. injection I1 as <-. injection I2 as <-. destruct (Rle_lt_dec t (INR (ph_end c))) as [Le|Lt]; [|apply A1; lra].
          assert (t = INR (ph_end c)) by lra. subst t. destruct (poly_deval _ _ _ _ _ _ _ (INR (ph_end c)) E F') as (v & V & D). exists 0.
          rewrite (fly_rest idx c c' _ v C2 (or_introl eq_refl) D) in D. split; [|exact D]. rewrite fly_start by exact C2. apply A0. lra.
        * assert (Fo : followed (c' :: r) x d) by (exists i; split; [exact I1|exact I2]). destruct (followed_in _ _ _ Fo) as (Hx & Hd). pose proof (M x Hx). pose proof (M' x Hx).
          destruct (P2 x d t Fo Ht) as (v & V & D). exists v. split; [|exact D]. destruct (Rle_lt_dec t (INR (ph_start c'))) as [Le|Lt]; [|now apply A2].
          assert (t = INR (ph_end x) /\ t = INR (ph_start c')) as (E1 & E2) by lra. assert (x = c') by (apply B; [exact Hx|lra]). subst x.
          assert (Lx : (ph_end c' < ph_start d)%nat). { destruct i as [|i]; cbn in I2; [|]. - destruct r as [|y r]; [discriminate|]. injection I2 as <-. apply C3. - eapply chain_after; [exact C3|]. eapply nth_error_In. rewrite Nat.add_1_r in I2. exact I2. }
          assert (v = 0) by (eapply (fly_rest idx c' d t v Lx); [now left|exact D]). subst v. rewrite E1, fly_start by exact Lx. rewrite <- E1, E2. exact A3.
      + intros x t (l' & El) Ht. destruct l' as [|h l']; [discriminate|]. injection El as <- El. assert (La : is_last (c' :: r) x) by (exists l'; exact El).
        assert (Hx : In x (c' :: r)) by (rewrite El; apply in_or_app; right; now left). pose proof (M x Hx). pose proof (M' x Hx).
        destruct (Rle_lt_dec t (INR (ph_start c'))) as [Le|Lt]; [|apply A2; [exact Lt|now apply P3]]. rewrite (B x Hx) by lra. assert (t = INR (ph_start c')) by lra. subst t. exact A3.
  Qed.
  Lemma separated_chain : forall l, separated l -> (forall c, In c l -> (ph_start c <= ph_end c)%nat) -> chain l.
  Proof.
    induction l as [|c l IH]; intros S O; [exact I|]. cbn [chain]. split; [apply O; now left|]. split.
    - destruct l as [|d l]; [exact I|]. specialize (S 0%nat 1%nat c d ltac:(lia) eq_refl eq_refl). lia.
    - apply IH; [|intros x Hx; apply O; now right]. intros i j x d Hij A B. apply (S (1 + i)%nat (1 + j)%nat x d); [lia|exact A|exact B].
  Qed.
End Reference.

(** The references of an end-effector, for every plan with at least one entry: on an entry of the plan its position, at rest; between an entry and the next one
    the rest-to-rest profile from one position to the other over exactly the steps in between, in the vertical axis through z_offset above the take-off point, and the
    velocity is its time derivative divided by dt; after the last entry its position, at rest. *)
Theorem C40_reference : forall solve z N q e dt plan idx, sound solve -> complete solve -> get_contact_plan N q e = Ok plan -> plan <> [] -> (idx < 3)%nat ->
  (forall c it, In c plan -> (ph_start c <= it <= ph_end c)%nat -> ref_pos solve z N q e it idx = Ok (vget3 (e_pos (look q e (ph_end c))) idx) /\ ref_vel solve z N dt q e it idx = Ok (0 / dt)) /\
  (forall c d it, followed plan c d -> (ph_end c <= it <= ph_start d)%nat ->
     ref_pos solve z N q e it idx = Ok (fly z idx c d (INR it)) /\ exists v, ref_vel solve z N dt q e it idx = Ok (v / dt) /\ derivable_pt_lim (fly z idx c d) (INR it) v) /\
  (forall c it, is_last plan c -> (ph_end c <= it)%nat -> ref_pos solve z N q e it idx = Ok (vget3 (e_pos (look q e (ph_end c))) idx) /\ ref_vel solve z N dt q e it idx = Ok (0 / dt)).
Proof.
  intros solve z N q e dt plan idx Hs Hc H NE Hi. unfold ref_pos, ref_vel. rewrite H. cbn [bind].
  unfold get_contact_plan in H. destruct (_ && _)%bool; [discriminate|]. injection H as <-.
  destruct (C40_plan N (fun t => e_act (look q e t)) (fun t => e_pos (look q e t))) as (S & P).
  assert (P' : forall c, In c (contact_plan N (fun t => e_act (look q e t)) (fun t => e_pos (look q e t))) -> (ph_start c <= ph_end c)%nat /\ ph_pos c = e_pos (look q e (ph_end c))).
  { intros [s f p] Hin. apply P in Hin. cbn [ph_start ph_end ph_pos]. destruct Hin as ((B & _) & _ & E). split; [lia|exact E]. }
  fold (look q e) in *. change (fun t => e_act (d_eff (nth t (states q) dstate_new) e)) with (fun t => e_act (look q e t)) in *. change (fun t => e_pos (d_eff (nth t (states q) dstate_new) e)) with (fun t => e_pos (look q e t)) in *.
  set (plan := contact_plan _ _ _) in *. clearbody plan.
  destruct (gen_ok solve Hs Hc z idx plan Hi) as (l & G & _ & A1 & A2 & A3); [apply separated_chain; [exact S|intros c Hin; now apply P']|exact NE|].
  rewrite G. cbn [bind]. split; [|split].
  - intros c it Hin Hb. destruct (A1 c (INR it) Hin) as (X & V); [split; apply le_INR; lia|]. rewrite X, V. cbn [bind]. rewrite (proj2 (P' c Hin)). now split.
  - intros c d it Hf Hb. destruct (A2 c d (INR it) Hf) as (v & (X & V) & D); [split; apply le_INR; lia|]. rewrite X, V. cbn [bind]. split; [reflexivity|]. exists v. now split.
  - intros c it Hl Hb. destruct (A3 c (INR it) Hl) as (X & V); [apply le_INR; lia|]. rewrite X, V. cbn [bind]. assert (Hin : In c plan) by (destruct Hl as (l' & El); rewrite El; apply in_or_app; right; now left). rewrite (proj2 (P' c Hin)). now split.
Qed.
Print Assumptions C40_reference.
(** An end-effector that never changes its state has no plan, and asking for its reference raises an exception. *)
Theorem C40_always_in_contact_refuted : forall solve z N q e dt it idx, (forall t, (t < N)%nat -> e_act (look q e t) = true) ->
  ref_pos solve z N q e it idx = Throw /\ ref_vel solve z N dt q e it idx = Throw.
Proof.
  intros solve z N q e dt it idx H. unfold ref_pos, ref_vel. destruct (get_contact_plan N q e) as [plan| |] eqn:E; cbn [bind]; [|now split|unfold get_contact_plan in E; destruct (_ && _)%bool; discriminate].
  assert (plan = []) as ->.
  { unfold get_contact_plan in E. destruct (_ && _)%bool; [discriminate|]. injection E as <-. destruct (C40_plan N (fun t => e_act (look q e t)) (fun t => e_pos (look q e t))) as (S & P).
    change (fun t => e_act (d_eff (nth t (states q) dstate_new) e)) with (fun t => e_act (look q e t)) in *. change (fun t => e_pos (d_eff (nth t (states q) dstate_new) e)) with (fun t => e_pos (look q e t)) in *.
    destruct (contact_plan _ _ _) as [|[s f p] l]; [reflexivity|]. exfalso. destruct (proj1 (P s f p)) as ((B & V & B1 & [B2|B2]) & L & _); [now left|lia|]. cbv beta in B2. apply B2. rewrite !H by lia. reflexivity. }
  cbn [gen_traj bind]. split; reflexivity.
Qed.
Print Assumptions C40_always_in_contact_refuted.
(** An end-effector that lands and stays: its reference is still the previous foothold, although it is reported in contact. *)
Theorem C40_landing_refuted : forall solve z N q e dt plan idx it c, sound solve -> complete solve -> get_contact_plan N q e = Ok plan -> plan <> [] -> (idx < 3)%nat -> is_last plan c -> (ph_end c <= it < List.length (states q))%nat ->
  e_act (look q e it) = true -> ref_contact q e it = Ok 1 /\ ref_pos solve z N q e it idx = Ok (vget3 (e_pos (look q e (ph_end c))) idx) /\ ref_vel solve z N dt q e it idx = Ok (0 / dt).
Proof.
  intros solve z N q e dt plan idx it c Hs Hc H NE Hi Hl Hb A. split.
  - unfold ref_contact. rewrite (proj2 (Nat.ltb_lt _ _) (proj2 Hb)). unfold look in A. now rewrite A.
  - apply (C40_reference solve z N q e dt plan idx Hs Hc H NE Hi); [exact Hl|lia].
Qed.
Print Assumptions C40_landing_refuted.

(** ** Example: contact at 0 and 1, flight at 2 and 3, contact at 4, flight at 5. *)
Definition demo_eff (b : bool) (x : R) : effst := Eff b (-1) 0 (V3 x x x) v0 v0 qone v0 v0 v0 v0.
Definition demo_state (b : bool) (x : R) : dstate := Dyn (/ 10) v0 v0 v0 v0 v0 (fun _ => demo_eff b x).
Definition demo_seq : dseq := Seq [demo_state true 1; demo_state true 1; demo_state false 2; demo_state false 3; demo_state true 4; demo_state false 5] (fun _ => 0%Z).
Example C40_demo : get_contact_plan 6 demo_seq 0 = Ok [Ph 0 1 (V3 1 1 1); Ph 4 4 (V3 4 4 4)] /\
  e_act (look demo_seq 0 0) = true /\ e_act (look demo_seq 0 5) = false /\
  followed [Ph 0 1 (V3 1 1 1); Ph 4 4 (V3 4 4 4)] (Ph 0 1 (V3 1 1 1)) (Ph 4 4 (V3 4 4 4)) /\ is_last [Ph 0 1 (V3 1 1 1); Ph 4 4 (V3 4 4 4)] (Ph 4 4 (V3 4 4 4)).
Proof. split; [reflexivity|]. split; [reflexivity|]. split; [reflexivity|]. split; [exists 0%nat; split; reflexivity|]. exists [Ph 0 1 (V3 1 1 1)]. reflexivity. Qed.
(** With the contact at step 5 kept (it lands at 4 and stays) the foothold at 4 is not listed. *)
Definition demo_stay : dseq := Seq [demo_state true 1; demo_state true 1; demo_state false 2; demo_state false 3; demo_state true 4; demo_state true 4] (fun _ => 0%Z).
Example C40_demo_stay : get_contact_plan 6 demo_stay 0 = Ok [Ph 0 1 (V3 1 1 1)] /\ is_last [Ph 0 1 (V3 1 1 1)] (Ph 0 1 (V3 1 1 1)) /\ e_act (look demo_stay 0 4) = true /\
  maximal true 6 (fun t => e_act (look demo_stay 0 t)) 4 5.
Proof.
  split; [reflexivity|]. split; [exists []; reflexivity|]. split; [reflexivity|]. split; [lia|]. split; [|split; [right; discriminate|now left]].
  intros t Ht. destruct (Nat.eq_dec t 4) as [->|]; [reflexivity|]. replace t with 5%nat by lia. reflexivity.
Qed.

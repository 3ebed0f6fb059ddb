(** * Settings of the LQR solver (C95) *)
From Coq Require Import String Reals List Arith ZArith Bool Lia Lra.
Import ListNotations.
From Verif Require Import Base StgTables StgModel LqrModel LstModel LstSpec.
Local Open Scope string_scope.

Lemma int_part_range x : (-2147483648 <= x < 2147483648)%R -> ((-2147483648 <=? Int_part x) && (Int_part x <=? 2147483647))%Z%bool = true.
Proof.
  intros [A B]. destruct (base_Int_part x) as [I1 I2]. apply andb_true_iff. split; apply Z.leb_le.
  - assert (-2147483649 < Int_part x)%Z; [|lia]. apply lt_IZR. lra.
  - assert (Int_part x < 2147483648)%Z; [|lia]. apply lt_IZR. lra.
Qed.
Lemma int_part_INR n : Int_part (INR n) = Z.of_nat n.
Proof. apply Int_part_INR. Qed.

(** The members after a file with all its entries and sensible numbers. *)
Definition lqr_loaded (name : string) (y : yaml) (c : R) (n : nat) (dt T : R) (s s' : store) : Prop :=
  (forall p k t, lqr_doc p = Some (k, t) -> exists v, ylook y t k = Some v /\ lqr_get p s' = Ok v) /\
  lqr_get (LPB LB_UseRungeKuttaIntegration) s' = Ok (VB false) /\
  (exists al, lqr_get (LPV LV_LineSearchCoeffs) s' = Ok (VV al) /\ List.length al = n /\ forall i, (i < n)%nat -> nth i al 0%R = Rinv (c ^ (i * i))%R) /\
  (exists z, lqr_get (LPI LI_TimeDimension) s' = Ok (VI z) /\ (IZR z <= T / dt < IZR z + 1)%R) /\
  lqr_get (LPS LS_ConfigFile) s' = Ok (VS name) /\
  (y_bool y "has_control_limits" = Some true -> exists lo hi, y_vector y "min_control_limits" = Some lo /\ y_vector y "max_control_limits" = Some hi /\
     lqr_get (LPV LV_MinControlLimits) s' = Ok (VV lo) /\ lqr_get (LPV LV_MaxControlLimits) s' = Ok (VV hi)) /\
  (y_bool y "has_control_limits" = Some false -> lqr_get (LPV LV_MinControlLimits) s' = lqr_get (LPV LV_MinControlLimits) s /\ lqr_get (LPV LV_MaxControlLimits) s' = lqr_get (LPV LV_MaxControlLimits) s).

Ltac have y p k t v := destruct (ylook y t k) as [v|] eqn:?; [|match goal with HC : forall p k t, lqr_doc p = Some (k, t) -> _, N : ylook _ t k = None |- _ => elim (HC p k t eq_refl N) end].

Theorem C95_loaded : forall name y s c n dt T, lqr_entries y -> lqr_sensible y c n dt T ->
  exists s', lqr_initialize name (Parsed y) s = (s', Ok tt) /\ lqr_loaded name y c n dt T s s'.
Proof.
  intros name y s c n dt T (HC & _ & _ & HL) (Hc & Hn & Nc & Hdt & HT & Ndt & HR).
  assert (D : forall k x, y_double y k = Some x -> ylook y Tdouble k = Some (VD x)) by (intros k x E; cbn [ylook]; now rewrite E).
  pose proof (D _ _ Hdt) as E1. pose proof (D _ _ HT) as E2.
  unfold lqr_initialize. set (s1 := supd _ "save_lqr_file_" _).
  have y (LPI LI_Verbosity) "verbosity" Tint v1. have y (LPI LI_LqrMaxIterations) "lqr_max_iters" Tint v2. have y (LPI LI_PrecisionDigits) "decimal_digits" Tint v3. have y (LPI LI_BackPassRegularizationType) "bpass_regularization_type" Tint v4.
  have y (LPD LD_CostChangeTolerance) "cost_change_tolerance" Tdouble v5. have y (LPD LD_DivergenceLimitCheck) "divergence_limit_check" Tdouble v6. have y (LPD LD_BackPassMinRegularization) "bpass_min_regularization" Tdouble v7.
  have y (LPD LD_BackPassMaxRegularization) "bpass_max_regularization" Tdouble v8. have y (LPD LD_ControlGradientTolerance) "control_gradient_tolerance" Tdouble v9. have y (LPD LD_BackPassInitialRegularization) "bpass_initial_regularization" Tdouble v10.
  have y (LPD LD_MinExpectedCostImprovement) "min_expected_cost_improvement" Tdouble v11. have y (LPD LD_BackPassMultRegularizationIncr) "bpass_mult_regularization_incr" Tdouble v12.
  have y (LPD LD_BackPassInitialMultRegularizationIncr) "bpass_initial_mult_regularization_incr" Tdouble v13. have y (LPB LB_StoreData) "store_data" Tbool v14.
  have y (LPI LI_StateDimension) "state_dimension" Tint v15. have y (LPI LI_ControlDimension) "control_dimension" Tint v16. have y (LPV LV_InitialState) "initial_state" Tvector v17.
  assert (HB : exists b, y_bool y "has_control_limits" = Some b).
  { destruct (y_bool y "has_control_limits") as [b|] eqn:E; [now exists b|]. elim (HC (LPB LB_HasControlLimits) _ _ eq_refl). cbn [ylook]. now rewrite E. }
  destruct HB as (b & HB). assert (E3 : ylook y Tbool "has_control_limits" = Some (VB b)) by (cbn [ylook]; now rewrite HB).
  unfold lqr_steps. cbn [lqr_run].
  repeat (match goal with
    | |- context [let (_, _) := lqr_step y LRungeKutta ?x in _] => change (lqr_step y LRungeKutta x) with (supd x "use_runge_kutta_integration_" (VB false), Ok tt); cbv beta iota
    | H : ylook y ?t ?k = Some ?v |- context [let (_, _) := lqr_step y (LEntry ?f ?k ?t) ?x in _] =>
        replace (lqr_step y (LEntry f k t) x) with (supd x f v, @Ok unit tt) by (cbn [lqr_step]; unfold lqr_entry; now rewrite H); cbv beta iota
    | |- context [let (_, _) := lqr_step y LCoeffs ?x in _] =>
        replace (lqr_step y LCoeffs x) with (supd x "alpha_" (VV (coefficients c n)), @Ok unit tt)
          by (cbn [lqr_step]; rewrite Hc, Hn; destruct (Rlt_dec (INR n) 0) as [L|_]; [pose proof (pos_INR n); lra|]; rewrite int_part_INR; destruct (Req_EM_T (INR n) (IZR (Z.of_nat n))) as [_|Q]; [|elim Q; apply INR_IZR_INZ]; destruct (Req_EM_T c 0); [contradiction|]; now rewrite Nat2Z.id); cbv beta iota
    | |- context [let (_, _) := lqr_step y LTimeDim ?x in _] =>
        replace (lqr_step y LTimeDim x) with (supd x "time_dimension_" (VI (Int_part (T / dt)%R)), @Ok unit tt)
          by (unfold lqr_step; change (x "time_horizon_") with (Some (VD T)); change (x "time_step_") with (Some (VD dt)); cbv beta iota; destruct (Req_EM_T dt 0); [contradiction|]; cbv zeta; now rewrite (int_part_range _ HR)); cbv beta iota
    end).
  match goal with |- context [lqr_step y LLimits ?x] => set (s2 := x) end.
  assert (Q : (exists s', lqr_step y LLimits s2 = (s', Ok tt) /\ (forall f, f <> "min_control_limits_" -> f <> "max_control_limits_" -> s' f = s2 f) /\
    (b = true -> exists lo hi, y_vector y "min_control_limits" = Some lo /\ y_vector y "max_control_limits" = Some hi /\ s' "min_control_limits_" = Some (VV lo) /\ s' "max_control_limits_" = Some (VV hi)) /\ (b = false -> s' = s2))).
  { unfold lqr_step. change (s2 "has_control_limits_") with (Some (VB b)). cbv beta iota. destruct b.
    - destruct (HL HB) as [L1 L2]. destruct (y_vector y "min_control_limits") as [lo|] eqn:F1; [|now elim L1]. destruct (y_vector y "max_control_limits") as [hi|] eqn:F2; [|now elim L2].
      unfold lqr_entry. cbn [ylook]. rewrite F1, F2. cbn [option_map]. eexists. split; [reflexivity|]. split; [|split; [|discriminate]].
      + intros f N1 N2. unfold supd. destruct (String.eqb_spec f "max_control_limits_"); [contradiction|]. destruct (String.eqb_spec f "min_control_limits_"); [contradiction|reflexivity].
      + intros _. exists lo, hi. repeat split; reflexivity.
    - exists s2. split; [reflexivity|]. split; [reflexivity|]. split; [discriminate|reflexivity]. }
  destruct Q as (s' & E & K & B1 & B0). rewrite E. exists s'. split; [reflexivity|].
  assert (G : forall p f, lqr_field p = Some f -> f <> "min_control_limits_" -> f <> "max_control_limits_" -> lqr_get p s' = sread (Some f) s2) by (intros p f F N1 N2; unfold lqr_get; rewrite F; cbn [sread]; now rewrite K).
  split; [|split; [|split; [|split; [|split; [|split]]]]].
  - intros p k t Hp. destruct p as [p|p|p|p|p]; destruct p; try discriminate Hp; injection Hp as <- <-; (eexists; split; [eassumption|]); (erewrite G; [|reflexivity|discriminate|discriminate]); reflexivity.
  - erewrite G; [|reflexivity|discriminate|discriminate]. reflexivity.
  - exists (coefficients c n). split; [erewrite G; [|reflexivity|discriminate|discriminate]; reflexivity|]. unfold coefficients. split; [now rewrite map_length, seq_length|].
    intros i Hi. rewrite (nth_indep _ 0%R ((fun i => / c ^ (i * i))%R 0%nat)) by (rewrite map_length, seq_length; exact Hi). rewrite (map_nth (fun i => / c ^ (i * i))%R), seq_nth by exact Hi. reflexivity.
  - exists (Int_part (T / dt)%R). split; [erewrite G; [|reflexivity|discriminate|discriminate]; reflexivity|]. destruct (base_Int_part (T / dt)%R). lra.
  - erewrite G; [|reflexivity|discriminate|discriminate]. reflexivity.
  - intros H. rewrite HB in H. injection H as ->. destruct (B1 eq_refl) as (lo & hi & F1 & F2 & F3 & F4). exists lo, hi. unfold lqr_get. cbn [lqr_field sread]. rewrite F3, F4. auto.
  - intros H. rewrite HB in H. injection H as ->. rewrite (B0 eq_refl). split; reflexivity.
Qed.

(** ** The line search: for a base above one the full step comes first, then ever smaller positive steps. *)
Theorem C95_line_search : forall name y s c n dt T, lqr_entries y -> lqr_sensible y c n dt T -> (1 < c)%R -> forall s', lqr_initialize name (Parsed y) s = (s', Ok tt) ->
  exists al, lqr_get (LPV LV_LineSearchCoeffs) s' = Ok (VV al) /\ List.length al = n /\ ((0 < n)%nat -> nth 0 al 0%R = 1%R) /\ (forall i, (i < n)%nat -> (0 < nth i al 0 <= 1)%R) /\ forall i j, (i < j < n)%nat -> (nth j al 0 < nth i al 0)%R.
Proof.
  intros name y s c n dt T HC HS H1 s' E. destruct (C95_loaded name y s c n dt T HC HS) as (s2 & E2 & _ & _ & (al & G & L & A) & _). rewrite E in E2. injection E2 as <-.
  exists al. split; [exact G|]. split; [exact L|]. assert (P : forall k, (1 <= c ^ k)%R) by (intros k; apply pow_R1_Rle; lra). split; [|split].
  - intros Hn. rewrite A by exact Hn. cbn [Nat.mul pow]. apply Rinv_1.
  - intros i Hi. rewrite A by exact Hi. pose proof (P (i * i)%nat). split; [apply Rinv_0_lt_compat; lra|]. rewrite <- Rinv_1. apply Rinv_le_contravar; lra.
  - intros i j Hij. rewrite !A by lia. apply Rinv_lt_contravar; [apply Rmult_lt_0_compat; pose proof (P (i * i)%nat); pose proof (P (j * j)%nat); lra|]. apply Rlt_pow; [exact H1|nia].
Qed.

(** ** What is written *)
Definition step_writes (c : lstep) : list string :=
  match c with LEntry f _ _ => [f] | LRungeKutta => ["use_runge_kutta_integration_"] | LCoeffs => ["alpha_"] | LTimeDim => ["time_dimension_"] | LLimits => ["min_control_limits_"; "max_control_limits_"] end.
Lemma supd_other s f v g : g <> f -> supd s f v g = s g.
Proof. intros H. unfold supd. now destruct (String.eqb_spec g f). Qed.
Lemma entry_keeps y f k t s g : g <> f -> fst (lqr_entry y f k t s) g = s g.
Proof. intros H. unfold lqr_entry. destruct (ylook y t k); [now apply supd_other|reflexivity]. Qed.
Lemma step_keeps y c s g : ~ In g (step_writes c) -> fst (lqr_step y c s) g = s g.
Proof.
  intros H. destruct c as [f k t| | | |]; cbn [step_writes In] in H; cbn [lqr_step].
  - apply entry_keeps. intros ->. apply H. now left.
  - apply supd_other. intros ->. apply H. now left.
  - destruct (y_double y "linesearch_coeff"); [|reflexivity]. destruct (y_double y "linesearch_num_coeffs") as [n|]; [|reflexivity]. cbv zeta.
    destruct (Rlt_dec n 0); [reflexivity|]. destruct (Req_EM_T n (IZR (Int_part n))); [|reflexivity]. assert (g <> "alpha_") by (intros ->; apply H; now left).
    destruct (Req_EM_T r 0); [destruct (Int_part n <=? 1)%Z|]; cbn [fst]; try reflexivity; now apply supd_other.
  - destruct (s "time_horizon_") as [[]|]; try reflexivity. destruct (s "time_step_") as [[]|]; try reflexivity. destruct (Req_EM_T x0 0); [reflexivity|]. cbv zeta.
    destruct (_ && _)%bool; [apply supd_other; intros ->; apply H; now left|reflexivity].
  - destruct (s "has_control_limits_") as [[[]| | | | | | |]|]; try reflexivity. pose proof (entry_keeps y "min_control_limits_" "min_control_limits" Tvector s g) as K. destruct (lqr_entry y "min_control_limits_" "min_control_limits" Tvector s) as [s1 [| |]]; cbn [fst] in *;
    [rewrite entry_keeps by (intros ->; apply H; right; now left)|..]; apply K; intros ->; apply H; now left.
Qed.
Lemma run_keeps y : forall l s g, (forall c, In c l -> ~ In g (step_writes c)) -> fst (lqr_run y l s) g = s g.
Proof.
  induction l as [|c l IH]; intros s g H; [reflexivity|]. cbn [lqr_run]. pose proof (step_keeps y c s g (H c (or_introl eq_refl))) as K. destruct (lqr_step y c s) as [s' [| |]]; cbn [fst] in *; try exact K.
  rewrite IH by (intros d D; apply H; now right). exact K.
Qed.
Lemma substring_app a b : substring 0 (String.length a) (a ++ b) = a.
Proof. induction a as [|c a IH]; cbn; [now destruct b|now rewrite IH]. Qed.
Lemma length_append a b : String.length (a ++ b) = (String.length a + String.length b)%nat.
Proof. induction a as [|c a IH]; cbn; [reflexivity|now rewrite IH]. Qed.
(** The results file: the name without its five last characters, whatever the file contains, also when the call raises. *)
Theorem C95_results_file : forall stem ext fl s, String.length ext = 5%nat ->
  let s' := fst (lqr_initialize (stem ++ ext) fl s) in lqr_get (LPS LS_ConfigFile) s' = Ok (VS (stem ++ ext)) /\ lqr_get (LPS LS_SaveLqrFile) s' = Ok (VS (stem ++ "_lqr_results.yaml")).
Proof.
  intros stem ext fl s H. cbv zeta. unfold lqr_initialize.
  assert (W : without_extension (stem ++ ext) = stem).
  { unfold without_extension. rewrite length_append, H. destruct (Nat.ltb_spec (String.length stem + 5) 5); [lia|]. replace (String.length stem + 5 - 5)%nat with (String.length stem) by lia. apply substring_app. }
  rewrite W. set (s1 := supd _ "save_lqr_file_" _).
  assert (K : lqr_get (LPS LS_ConfigFile) s1 = Ok (VS (stem ++ ext)) /\ lqr_get (LPS LS_SaveLqrFile) s1 = Ok (VS (stem ++ "_lqr_results.yaml"))) by (split; reflexivity).
  destruct fl as [| |y]; [exact K|exact K|]. unfold lqr_get in *. cbn [lqr_field sread] in *.
  rewrite !run_keeps; [exact K| |]; intros c I; unfold lqr_steps in I; cbn [In] in I; repeat (destruct I as [<-|I]; [cbn [step_writes In]; intuition discriminate|]); contradiction.
Qed.

(** ** Without a file the call raises; with one that is not YAML it returns normally; in both cases every setting keeps its value. *)
Theorem C95_unreadable : forall name s p, lqr_field p <> Some "cfg_file_" -> lqr_field p <> Some "save_lqr_file_" ->
  (snd (lqr_initialize name NoFile s) = Throw /\ lqr_get p (fst (lqr_initialize name NoFile s)) = lqr_get p s) /\
  (snd (lqr_initialize name NotYaml s) = Ok tt /\ lqr_get p (fst (lqr_initialize name NotYaml s)) = lqr_get p s).
Proof.
  intros name s p N1 N2. unfold lqr_initialize, lqr_get. cbn [fst snd]. destruct (lqr_field p) as [f|]; [|repeat split].
  cbn [sread]. rewrite !supd_other by congruence. repeat split.
Qed.
(** Refuted: a call that returns normally has loaded the settings. *)
Theorem C95_not_yaml_refuted : forall name, exists s', lqr_initialize name NotYaml lqr_new = (s', Ok tt) /\ lqr_get (LPI LI_LqrMaxIterations) s' = UB.
Proof. intros name. eexists. split; [reflexivity|]. reflexivity. Qed.

(** ** A file that lacks an entry is never accepted. *)
Lemma run_app y : forall a b s, lqr_run y (a ++ b) s = let (s', o) := lqr_run y a s in match o with Ok _ => lqr_run y b s' | _ => (s', o) end.
Proof. induction a as [|c a IH]; intros b s; [reflexivity|]. cbn [app lqr_run]. destruct (lqr_step y c s) as [s' [| |]]; [apply IH|reflexivity|reflexivity]. Qed.
Lemma run_ok y : forall l s, snd (lqr_run y l s) = Ok tt -> forall c, In c l -> exists s0, snd (lqr_step y c s0) = Ok tt.
Proof.
  induction l as [|c l IH]; intros s H d I; [contradiction|]. cbn [lqr_run] in H. destruct (lqr_step y c s) as [s' [[]| |]] eqn:E; try discriminate H. destruct I as [<-|I]; [exists s; now rewrite E|now apply (IH s' H)].
Qed.
Theorem C95_incomplete : forall name y s, snd (lqr_initialize name (Parsed y) s) = Ok tt -> lqr_entries y.
Proof.
  intros name y s H. unfold lqr_initialize in H. set (s1 := supd _ "save_lqr_file_" _) in H.
  assert (EN : forall f k t, In (LEntry f k t) lqr_steps -> ylook y t k <> None).
  { intros f k t I. destruct (run_ok y _ _ H _ I) as (s0 & E). cbn [lqr_step] in E. unfold lqr_entry in E. destruct (ylook y t k); [discriminate|discriminate E]. }
  assert (LC : exists s0, snd (lqr_step y LCoeffs s0) = Ok tt) by (apply (run_ok y _ _ H); unfold lqr_steps; cbn [In]; tauto). destruct LC as (s0 & E). cbn [lqr_step] in E.
  split; [|split; [|split]].
  - intros p k t D. destruct p as [p|p|p|p|p]; destruct p; try discriminate D; injection D as <- <-; eapply EN; unfold lqr_steps; cbn [In]; repeat (first [left; reflexivity|right]).
  - destruct (y_double y "linesearch_coeff"); [discriminate|discriminate E].
  - destruct (y_double y "linesearch_coeff"); [|discriminate E]. destruct (y_double y "linesearch_num_coeffs"); [discriminate|discriminate E].
  - intros HB. change lqr_steps with (firstn 22 lqr_steps ++ [LEntry "has_control_limits_" "has_control_limits" Tbool; LLimits])%list in H. rewrite run_app in H.
    destruct (lqr_run y (firstn 22 lqr_steps) s1) as [s2 [| |]]; try discriminate H. cbn [lqr_run] in H. cbn [lqr_step] in H. unfold lqr_entry at 1 in H. cbn [ylook] in H. rewrite HB in H. cbn [option_map] in H.
    change (supd s2 "has_control_limits_" (VB true) "has_control_limits_") with (Some (VB true)) in H. cbv beta iota in H. unfold lqr_entry in H. cbn [ylook] in H.
    destruct (y_vector y "min_control_limits"); [|discriminate H]. cbn [option_map] in H. destruct (y_vector y "max_control_limits"); [|discriminate H]. split; discriminate.
Qed.
(** Refuted: any positive number of coefficients can be given. *)
Theorem C95_fraction_refuted : forall name s y, lqr_entries y -> y_double y "linesearch_num_coeffs" = Some (5 / 2)%R -> snd (lqr_initialize name (Parsed y) s) <> Ok tt.
Proof.
  intros name s y HC HN H. unfold lqr_initialize in H. assert (LC : exists s0, snd (lqr_step y LCoeffs s0) = Ok tt) by (apply (run_ok y _ _ H); unfold lqr_steps; cbn [In]; tauto).
  destruct LC as (s0 & E). cbn [lqr_step] in E. rewrite HN in E. destruct (y_double y "linesearch_coeff"); [|discriminate E]. cbv zeta in E. destruct (Rlt_dec (5 / 2) 0); [discriminate E|].
  destruct (Req_EM_T (5 / 2) (IZR (Int_part (5 / 2)))) as [Q|_]; [|discriminate E]. set (z := Int_part (5 / 2)) in Q. assert (5 = 2 * z)%Z by (apply eq_IZR; rewrite mult_IZR; lra). lia.
Qed.

(** ** Reading and assigning *)
Theorem C95_results_refused : forall p s v, (lqr_is_result p = true <-> lqr_get p s = Throw) /\ (lqr_is_result p = true <-> lqr_set p v s = Throw).
Proof.
  intros p s v. destruct p as [p|p|p|p|p]; destruct p; unfold lqr_get, lqr_set; cbn [lqr_is_result lqr_field sread swrite]; repeat split; try discriminate; try reflexivity; match goal with |- context [s ?f] => destruct (s f); discriminate end.
Qed.
Theorem C95_assign : forall p q v s s', lqr_set p v s = Ok s' -> lqr_get p s' = Ok v /\ (q <> p -> lqr_get q s' = lqr_get q s).
Proof.
  intros p q v s s' H. unfold lqr_set, swrite in H. destruct (lqr_field p) as [f|] eqn:F; [|discriminate]. injection H as <-. split.
  - unfold lqr_get. rewrite F. cbn [sread]. unfold supd. now rewrite String.eqb_refl.
  - intros N. unfold lqr_get. destruct (lqr_field q) as [g|] eqn:G; [|reflexivity]. cbn [sread]. rewrite supd_other; [reflexivity|]. intros ->. apply N.
    destruct p as [p|p|p|p|p]; destruct p; cbn [lqr_field] in F; try discriminate F; injection F as <-; destruct q as [q|q|q|q|q]; destruct q; cbn [lqr_field] in G; congruence.
Qed.

(** ** A concrete file *)
Definition lqr_demo (limits : bool) : yaml := Yml (fun k => Some (if String.eqb k "has_control_limits" then limits else true)) (fun k => Some 7%Z)
  (fun k => Some (if String.eqb k "linesearch_num_coeffs" then INR 4 else if String.eqb k "time_step" then (1 / 2)%R else if String.eqb k "time_horizon" then 3%R else 2%R)) (fun _ => None) (fun k => if String.eqb k "initial_state" then Some [0; 1]%R else if limits then Some [1]%R else None) (fun _ => None) (fun _ _ => None).
Example C95_demo : forall name, lqr_entries (lqr_demo false) /\ lqr_sensible (lqr_demo false) 2 4 (1 / 2) 3 /\ exists s', lqr_initialize name (Parsed (lqr_demo false)) lqr_new = (s', Ok tt) /\ lqr_get (LPI LI_TimeDimension) s' = Ok (VI 6) /\ lqr_get (LPV LV_MinControlLimits) s' = Ok (VV []).
Proof.
  intros name. assert (A : lqr_entries (lqr_demo false)).
  { split; [|split; [discriminate|split; [discriminate|intros H; discriminate H]]]. intros p k t D. destruct p as [p|p|p|p|p]; destruct p; try discriminate D; injection D as <- <-; discriminate. }
  assert (B : lqr_sensible (lqr_demo false) 2 4 (1 / 2) 3) by (repeat split; try reflexivity; lra).
  split; [exact A|]. split; [exact B|]. destruct (C95_loaded name _ lqr_new _ _ _ _ A B) as (s' & E & _ & _ & _ & (z & Z1 & Z2) & _ & _ & L). exists s'. split; [exact E|]. split.
  - rewrite Z1. assert (z = 6)%Z as ->; [|reflexivity]. assert (5 < z < 7)%Z; [|lia]. split; apply lt_IZR; lra.
  - now rewrite (proj1 (L eq_refl)).
Qed.
Print Assumptions C95_loaded. Print Assumptions C95_line_search. Print Assumptions C95_results_file. Print Assumptions C95_unreadable. Print Assumptions C95_not_yaml_refuted.
Print Assumptions C95_incomplete. Print Assumptions C95_fraction_refuted. Print Assumptions C95_results_refused. Print Assumptions C95_assign.

(** * C47: planner settings *)
From Coq Require Import Reals List Arith ZArith Bool String Lia Lra R_Ifp.
Import ListNotations.
From Verif Require Import Base StgTables StgModel StgSpec StgProps StgPlanProofs.
Local Open Scope string_scope.

Lemma pderive_other : forall s f, ~ In f derived_members -> pderive s f = s f.
Proof. intros s f N. unfold pderive, supd, set_opt. cbn zeta beta. repeat (match goal with |- context [String.eqb f ?g] => destruct (String.eqb_spec f g) as [->|] end; [elim N; vm_compute; tauto|]). reflexivity. Qed.
Definition named (name path : string) (s : store) : store := supd (supd (supd s "cfg_file_" (VS name)) "save_kinematics_file_" (VS (kin_file name))) "default_solver_setting_file_" (VS (path ++ "default_solver_setting.yaml")).
Lemma named_other : forall name path s f, ~ In f name_members -> named name path s f = s f.
Proof. intros name path s f N. unfold named. rewrite !supd_other; [reflexivity|intros ->; apply N; vm_compute; tauto..]. Qed.
Lemma init_complete : forall name path y s, planner_file_complete y -> exists s1, rel y (env_of y) (named name path s) s1 /\ planner_initialize name path (Parsed y) s = pderive s1.
Proof.
  intros name path y s C. pose proof (load_sound y (named name path s)) as L. pose proof (proj2 (run_complete y (named name path s)) C) as K. unfold planner_initialize. fold (named name path s). destruct (prun y planner_file (named name path s)) as [s1 [|]]; [|discriminate]. exists s1. split; [exact L|reflexivity].
Qed.
Lemma init_incomplete : forall name path y s, ~ planner_file_complete y -> forall f, In f (derived_members ++ ["save_dynamics_file_"]) -> planner_initialize name path (Parsed y) s f = s f.
Proof.
  intros name path y s C f I. pose proof (run_complete y (named name path s)) as K. pose proof (prun_frame y planner_file (named name path s) f) as F. unfold planner_initialize. fold (named name path s). destruct (prun y planner_file (named name path s)) as [s1 [|]]; cbn [fst snd] in *; [elim C; now apply K|].
  rewrite F by (apply not_read; rewrite !in_app_iff in *; tauto). apply named_other. intros J. rewrite in_app_iff in I. assert (B : forallb (fun f => negb (in_list f name_members)) (derived_members ++ ["save_dynamics_file_"]) = true) by (vm_compute; reflexivity).
  pose proof (proj1 (forallb_forall _ _) B f ltac:(now apply in_app_iff)) as B1. cbn beta in B1. apply in_list_ok in J. rewrite J in B1. discriminate.
Qed.

(** ** Loading *)
(** A complete file: every parameter whose condition holds has the value of its own entry, every other parameter that is not derived and not a file name keeps its value. *)
Theorem C47_loaded : forall name path y s p, planner_file_complete y -> planner_doc p <> DDerived -> planner_doc p <> DName ->
  planner_get p (planner_initialize name path (Parsed y) s) = if from_file y (planner_doc p) then match file_value y (planner_doc p) with Some v => Ok v | None => UB end else planner_get p s.
Proof.
  intros name path y s p C N1 N2. destruct (init_complete name path y s C) as (s1 & (R1 & R2) & ->). destruct (param_field y p) as (f & F & D & NM & A1 & A2). unfold planner_get, sread. rewrite F. rewrite pderive_other by (intros I; apply N1, D, I). rewrite R1.
  destruct (from_file y (planner_doc p)) eqn:E.
  - rewrite (A1 eq_refl). cbn [wval]. destruct (file_value y (planner_doc p)) as [v|] eqn:V; [reflexivity|]. elim (proj2 C p E V).
  - rewrite (A2 eq_refl), named_other by (exact (NM N2)). reflexivity.
Qed.
Print Assumptions C47_loaded.
(** A derived parameter is the documented function of the parameters loaded: mass times gravity (under its two names), gravity along -z, the floor of the horizon over the time step (when it is an int), the numbers of degrees of freedom. *)
Theorem C47_derived : forall name path y s, planner_file_complete y -> let s' := planner_initialize name path (Parsed y) s in
  (forall m g, planner_get (PPD PlannerDoubleParam_RobotMass) s' = Ok (VD m) -> planner_get (PPD PlannerDoubleParam_Gravity) s' = Ok (VD g) ->
     planner_get (PPD PlannerDoubleParam_RobotWeight) s' = Ok (VD (m * g)%R) /\ planner_get (PPD PlannerDoubleParam_MassTimesGravity) s' = Ok (VD (m * g)%R) /\ planner_get (PPV PlannerVectorParam_GravityVector) s' = Ok (VV [0; 0; - g]%R)) /\
  (forall h dt n, planner_get (PPD PlannerDoubleParam_TimeHorizon) s' = Ok (VD h) -> planner_get (PPD PlannerDoubleParam_TimeStep) s' = Ok (VD dt) -> dt <> 0%R -> (IZR n <= h / dt < IZR n + 1)%R -> (- 2147483648 <= n <= 2147483647)%Z ->
     planner_get (PPI PlannerIntParam_NumTimesteps) s' = Ok (VI n)) /\
  (forall a, planner_get (PPIV PlannerIntVectorParam_ActiveDofs) s' = Ok (VIV a) -> planner_get (PPI PlannerIntParam_NumActiveDofs) s' = Ok (VI (Z.of_nat (List.length a)))) /\
  (forall a, planner_get (PPIV PlannerIntVectorParam_ExtendedActiveDofs) s' = Ok (VIV a) -> planner_get (PPI PlannerIntParam_NumExtendedActiveDofs) s' = Ok (VI (Z.of_nat (List.length a)))).
Proof.
  intros name path y s C s'. destruct (init_complete name path y s C) as (s1 & _ & E). subst s'. rewrite E. clear E.
  assert (G : forall f, getd (pderive s1) f = getd s1 f \/ In f derived_members) by (intros f; destruct (in_dec string_dec f derived_members) as [I|I]; [now right|left; unfold getd; now rewrite pderive_other]).
  assert (X : forall f v, ~ In f derived_members -> sread (Some f) (pderive s1) = Ok v -> s1 f = Some v) by (intros f v N H; unfold sread in H; rewrite pderive_other in H by exact N; destruct (s1 f); [injection H as <-; reflexivity|discriminate]).
  split; [|split; [|split]].
  - intros m g Hm Hg. apply X in Hm; [|vm_compute; intuition discriminate]. apply X in Hg; [|vm_compute; intuition discriminate]. cbn [planner_get planner_read_field planner_read_PlannerDoubleParam planner_read_PlannerVectorParam sread pderive supd set_opt String.eqb Ascii.eqb Bool.eqb]. unfold getd. cbn [supd String.eqb Ascii.eqb Bool.eqb]. rewrite Hm, Hg. repeat split.
  - intros h dt n Hh Hd Hz Hn Hi. apply X in Hh; [|vm_compute; intuition discriminate]. apply X in Hd; [|vm_compute; intuition discriminate]. unfold planner_get, planner_read_field, planner_read_PlannerIntParam, sread, pderive. cbn zeta. unfold supd, set_opt. cbn [String.eqb Ascii.eqb Bool.eqb]. unfold getd. cbn [String.eqb Ascii.eqb Bool.eqb]. rewrite Hh, Hd. destruct (Req_EM_T dt 0) as [Z|_]; [contradiction|].
    assert (P : Int_part (h / dt) = n). { unfold Int_part. rewrite <- (tech_up (h / dt) (n + 1)%Z); [lia| |]; rewrite plus_IZR; lra. }
    unfold to_int. rewrite P. replace (_ && _)%bool with true; [reflexivity|]. symmetry. apply andb_true_intro. split; apply Z.leb_le; lia.
  - intros a Ha. apply X in Ha; [|vm_compute; intuition discriminate]. unfold planner_get, planner_read_field, planner_read_PlannerIntParam, sread, pderive. cbn zeta. unfold supd, set_opt, getiv. cbn [String.eqb Ascii.eqb Bool.eqb]. now rewrite Ha.
  - intros a Ha. apply X in Ha; [|vm_compute; intuition discriminate]. unfold planner_get, planner_read_field, planner_read_PlannerIntParam, sread, pderive. cbn zeta. unfold supd, set_opt, getiv. cbn [String.eqb Ascii.eqb Bool.eqb]. now rewrite Ha.
Qed.
Print Assumptions C47_derived.
(** The heuristic: the three names select themselves, any other name selects the soft constraint heuristic. *)
Theorem C47_heuristic : forall name path y s h, planner_file_complete y -> y_string y "heuristic" = Some h ->
  planner_heuristic (planner_initialize name path (Parsed y) s) = Ok (VS (if in_list h ["TrustRegion"; "SoftConstraint"; "TimeOptimization"] then h else "SoftConstraint")).
Proof.
  intros name path y s h C H. destruct (init_complete name path y s C) as (s1 & (R1 & _) & ->). unfold planner_heuristic, sread. rewrite pderive_other by (vm_compute; intuition discriminate). rewrite R1. unfold env_of. rewrite heur_in_env. cbn [wval]. rewrite H. cbn [option_map]. unfold heur_name, in_list. cbn [existsb]. rewrite !orb_false_r.
  destruct (String.eqb_spec h "TrustRegion") as [->|]; [reflexivity|]. destruct (String.eqb_spec h "SoftConstraint") as [->|]; [reflexivity|]. destruct (String.eqb_spec h "TimeOptimization") as [->|]; reflexivity.
Qed.
Print Assumptions C47_heuristic.
(** The file names: of the configuration, of the results (the extension replaced), of the default solver setting. *)
Theorem C47_names : forall name path y s base, planner_file_complete y -> String.length base = (String.length name - 5)%nat -> (exists ext, String.length ext = 5%nat /\ name = base ++ ext) ->
  let s' := planner_initialize name path (Parsed y) s in
  planner_get (PPS PlannerStringParam_ConfigFile) s' = Ok (VS name) /\ planner_get (PPS PlannerStringParam_SaveKinematicsFile) s' = Ok (VS (base ++ "_kin_results.yaml")) /\
  planner_get (PPS PlannerStringParam_DefaultSolverSettingFile) s' = Ok (VS (path ++ "default_solver_setting.yaml")) /\ planner_get (PPS PlannerStringParam_SaveDynamicsFile) s' = planner_get (PPS PlannerStringParam_SaveDynamicsFile) s.
Proof.
  intros name path y s base C L (ext & Le & En) s'. destruct (init_complete name path y s C) as (s1 & (R1 & _) & E). subst s'. rewrite E.
  assert (AL : forall a b, String.length (a ++ b) = (String.length a + String.length b)%nat) by (intros a b; induction a as [|x a IH]; cbn [append String.length]; [reflexivity|now rewrite IH]).
  assert (K : kin_file name = base ++ "_kin_results.yaml").
  { unfold kin_file. subst name. rewrite AL, Le in *. replace (5 <=? String.length base + 5)%nat with true by (symmetry; apply Nat.leb_le; lia). replace (String.length base + 5 - 5)%nat with (String.length base) by lia. f_equal. clear. induction base as [|x b IH]; [now destruct ext|]. cbn [append String.length substring]. now rewrite IH. }
  assert (U : forall f, In f (name_members ++ ["save_dynamics_file_"]) -> pderive s1 f = named name path s f).
  { intros f I. rewrite pderive_other, R1.
    - assert (B : forall k t s, forallb (fun f => match assoc f (final_env k t s) with None => true | _ => false end) (name_members ++ ["save_dynamics_file_"]) = true) by (intros [] [] []; vm_compute; reflexivity). pose proof (proj1 (forallb_forall _ _) (B (with_kinematics y) (with_time_opt y) (with_second_order y)) f I) as B1. cbn beta in B1. unfold env_of. destruct (assoc f _); [discriminate|reflexivity].
    - intros J. apply in_list_ok in J. assert (B : forallb (fun f => negb (in_list f derived_members)) (name_members ++ ["save_dynamics_file_"]) = true) by (vm_compute; reflexivity). pose proof (proj1 (forallb_forall _ _) B f I) as B1. cbn beta in B1. rewrite J in B1. discriminate. }
  unfold planner_get, sread. cbn [planner_read_field planner_read_PlannerStringParam]. rewrite !U by (vm_compute; tauto). unfold named. rewrite K. repeat split.
Qed.
Print Assumptions C47_names.
(** An incomplete file: the call returns normally and every derived parameter is what it was before. *)
Theorem C47_incomplete : forall name path y s p, ~ planner_file_complete y -> planner_doc p = DDerived -> planner_get p (planner_initialize name path (Parsed y) s) = planner_get p s.
Proof.
  intros name path y s p C D. destruct (param_field y p) as (f & F & DD & _). unfold planner_get, sread. rewrite F. rewrite init_incomplete; [reflexivity|exact C|]. apply in_app_iff. left. now apply DD.
Qed.
Print Assumptions C47_incomplete.

(** ** Getters *)
Definition alias (p q : planner_param) : bool := match p, q with PPD PlannerDoubleParam_RobotWeight, PPD PlannerDoubleParam_MassTimesGravity | PPD PlannerDoubleParam_MassTimesGravity, PPD PlannerDoubleParam_RobotWeight => true | _, _ => false end.
Definition read_only (p : planner_param) : bool := match p with
  | PPD PlannerDoubleParam_WeightJointReg_Second | PPD PlannerDoubleParam_DGainEndEffTracking_Second | PPD PlannerDoubleParam_PGainBaseOrientationTracking_Second
  | PPD PlannerDoubleParam_DGainBaseOrientationTracking_Second | PPD PlannerDoubleParam_PGainJointRegularization_Second | PPD PlannerDoubleParam_DGainJointRegularization_Second => true | _ => false end.
Lemma planner_param_dec : forall p q : planner_param, {p = q} + {p <> q}.
Proof. decide equality; decide equality. Defined.
Lemma read_write : forall p, if read_only p then planner_write_field p = None else planner_write_field p = planner_read_field p.
Proof.
  intros p. assert (B : forallb (fun p => if read_only p then oeqb (planner_write_field p) None else oeqb (planner_write_field p) (planner_read_field p)) all_planner_params = true) by (vm_compute; reflexivity).
  pose proof (proj1 (forallb_forall _ _) B p (all_planner_ok p)) as B1. cbn beta in B1. destruct (read_only p); now apply oeqb_eq in B1.
Qed.
Lemma field_alias : forall p q f, planner_read_field p = Some f -> planner_read_field q = Some f -> p = q \/ alias p q = true.
Proof.
  intros p q f Hp Hq. assert (B : forallb (fun p => forallb (fun q => match planner_read_field p, planner_read_field q with Some a, Some b => if String.eqb a b then (if planner_param_dec p q then true else false) || alias p q else true | _, _ => true end) all_planner_params) all_planner_params = true) by (vm_compute; reflexivity).
  pose proof (proj1 (forallb_forall _ _) B p (all_planner_ok p)) as B1. cbn beta in B1. pose proof (proj1 (forallb_forall _ _) B1 q (all_planner_ok q)) as B2. cbn beta in B2. rewrite Hp, Hq, String.eqb_refl in B2. destruct (planner_param_dec p q); [now left|now right].
Qed.
(** No read is rejected.  A write is read back; it changes no other parameter, except that the weight and the mass times gravity are one. *)
Theorem C47_no_read_rejected : forall p s, planner_get p s <> Throw.
Proof. intros p s. destruct (param_field (Yml (fun _ => None) (fun _ => None) (fun _ => None) (fun _ => None) (fun _ => None) (fun _ => None) (fun _ _ => None)) p) as (f & F & _). unfold planner_get, sread. rewrite F. destruct (s f); discriminate. Qed.
Print Assumptions C47_no_read_rejected.
Theorem C47_roundtrip : forall p v s s', planner_set p v s = Ok s' -> planner_get p s' = Ok v /\ forall q, q <> p -> alias q p = false -> planner_get q s' = planner_get q s.
Proof.
  intros p v s s' H. pose proof (read_write p) as RW. unfold planner_set, swrite in H. destruct (planner_write_field p) as [f|] eqn:E; [|discriminate]. injection H as <-. destruct (read_only p); [discriminate|]. unfold planner_get, sread. rewrite <- RW. split; [unfold supd; now rewrite String.eqb_refl|].
  intros q N A. destruct (planner_read_field q) as [g|] eqn:Q; [|reflexivity]. unfold supd. destruct (String.eqb_spec g f) as [->|]; [|reflexivity]. destruct (field_alias q p f Q (eq_sym RW)) as [X|X]; [contradiction|congruence].
Qed.
Print Assumptions C47_roundtrip.
(** Six parameters can be read but not written; all others can be written. *)
Theorem C47_writable : forall p v s, (exists s', planner_set p v s = Ok s') <-> read_only p = false.
Proof.
  intros p v s. pose proof (read_write p) as RW. unfold planner_set, swrite. destruct (read_only p).
  - rewrite RW. split; [intros (s' & H); discriminate|discriminate].
  - rewrite RW. destruct (param_field (Yml (fun _ => None) (fun _ => None) (fun _ => None) (fun _ => None) (fun _ => None) (fun _ => None) (fun _ _ => None)) p) as (f & F & _). rewrite F. split; [reflexivity|]. intros _. eexists. reflexivity.
Qed.
Print Assumptions C47_writable.
Theorem C47_unwritable_refuted : exists p, forall v s, planner_get p s <> Throw /\ planner_set p v s = Throw.
Proof. exists (PPD PlannerDoubleParam_WeightJointReg_Second). intros v s. split; [apply C47_no_read_rejected|reflexivity]. Qed.
Print Assumptions C47_unwritable_refuted.

(** ** A file that lacks one entry *)
Definition lacking (y : yaml) (k : string) : yaml := Yml (fun x => if String.eqb x k then None else y_bool y x) (fun x => if String.eqb x k then None else y_int y x) (fun x => if String.eqb x k then None else y_double y x) (fun x => if String.eqb x k then None else y_string y x) (fun x => if String.eqb x k then None else y_vector y x) (fun x => if String.eqb x k then None else y_ivector y x) (y_via y).
Lemma demo_complete : planner_file_complete demo_yaml.
Proof. split; [discriminate|]. intros [p|p|p|p|p|p|p|p]; destruct p; vm_compute; discriminate. Qed.
(** A single missing entry (here the last one read): the call returns normally on a new object, and reading the number of time steps or the weight of the robot is undefined. *)
Theorem C47_missing_entry_refuted : forall name path, exists y k, planner_file_complete y /\ let s' := planner_initialize name path (Parsed (lacking y k)) planner_new in
  planner_get (PPI PlannerIntParam_NumTimesteps) s' = UB /\ planner_get (PPD PlannerDoubleParam_RobotWeight) s' = UB.
Proof.
  intros name path. exists demo_yaml, "use_default_solver_setting". split; [exact demo_complete|]. cbn zeta.
  assert (N : ~ planner_file_complete (lacking demo_yaml "use_default_solver_setting")) by (intros (_ & H); exact (H (PPB PlannerBoolParam_UseDefaultSolverSetting) eq_refl eq_refl)).
  rewrite !C47_incomplete by (exact N || reflexivity). split; reflexivity.
Qed.
Print Assumptions C47_missing_entry_refuted.
(** A later write of the mass does not change the weight. *)
Theorem C47_stale_derived_refuted : exists name path y s' m, planner_file_complete y /\ planner_set (PPD PlannerDoubleParam_RobotMass) (VD m) (planner_initialize name path (Parsed y) planner_new) = Ok s' /\
  exists g w, planner_get (PPD PlannerDoubleParam_RobotMass) s' = Ok (VD m) /\ planner_get (PPD PlannerDoubleParam_Gravity) s' = Ok (VD g) /\ planner_get (PPD PlannerDoubleParam_RobotWeight) s' = Ok (VD w) /\ w <> (m * g)%R.
Proof.
  pose proof (C47_derived "a.yaml" "" demo_yaml planner_new demo_complete) as (D & _). cbn zeta in D. specialize (D 3%R (981 / 100)%R). rewrite !C47_loaded in D by (exact demo_complete || discriminate). specialize (D eq_refl eq_refl) as (D & _).
  set (s0 := planner_initialize "a.yaml" "" (Parsed demo_yaml) planner_new) in *.
  exists "a.yaml", "", demo_yaml, (supd s0 "robot_mass_" (VD 10)), 10%R. split; [exact demo_complete|]. split; [reflexivity|]. exists (981 / 100)%R, (3 * (981 / 100))%R.
  pose proof (C47_roundtrip (PPD PlannerDoubleParam_RobotMass) (VD 10) s0 _ eq_refl) as (R1 & R2). split; [exact R1|]. split; [|split].
  - rewrite R2 by (discriminate || reflexivity). subst s0. rewrite C47_loaded by (exact demo_complete || discriminate). reflexivity.
  - rewrite R2 by (discriminate || reflexivity). exact D.
  - lra.
Qed.
Print Assumptions C47_stale_derived_refuted.

(** ** Example: a complete file; 30 time steps of 0.1 s in 3 s, two degrees of freedom. *)
Example C47_demo : forall name path, let s' := planner_initialize name path (Parsed demo_yaml) planner_new in
  planner_file_complete demo_yaml /\ planner_get (PPI PlannerIntParam_NumTimesteps) s' = Ok (VI 30) /\ planner_get (PPI PlannerIntParam_NumActiveDofs) s' = Ok (VI 2) /\
  planner_get (PPIV PlannerIntVectorParam_ExtendedActiveDofs) s' = Ok (VIV [0; 1; 2; 3; 4; 5; 6; 9]%Z) /\ planner_get (PPC PlannerCVectorParam_Viapoints) s' = Ok (VC [[1; 0; 0; 1]%R]).
Proof.
  intros name path. cbn zeta. pose proof (C47_derived name path demo_yaml planner_new demo_complete) as (_ & D2 & D3 & _). cbn zeta in *. split; [exact demo_complete|]. split; [|split; [|split]].
  - apply (D2 3%R (/ 10)%R 30%Z); [rewrite C47_loaded by (exact demo_complete || discriminate); reflexivity..|lra|lra|lia].
  - rewrite (D3 [0; 3]%Z); [reflexivity|]. rewrite C47_loaded by (exact demo_complete || discriminate). reflexivity.
  - rewrite C47_loaded by (exact demo_complete || discriminate). reflexivity.
  - rewrite C47_loaded by (exact demo_complete || discriminate). reflexivity.
Qed.

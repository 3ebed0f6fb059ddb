(** * Proofs for C47: a symbolic run of the file reader *)
From Coq Require Import Reals List Arith ZArith Bool String Lia.
Import ListNotations.
From Verif Require Import Base StgTables StgModel StgSpec StgProps.
Local Open Scope string_scope.

(** What a member holds after the reads: a documented source, or the heuristic. *)
Inductive wx := W (d : doc) | WHeur.
Definition heur_name (h : string) : string := if String.eqb h "TrustRegion" then "TrustRegion" else if String.eqb h "SoftConstraint" then "SoftConstraint" else if String.eqb h "TimeOptimization" then "TimeOptimization" else "SoftConstraint".
Definition wval (y : yaml) (e : wx) : option sval := match e with W d => file_value y d | WHeur => option_map (fun h => VS (heur_name h)) (y_string y "heuristic") end.
Lemma vias_all : forall y node n k, vias y node n k = all_some (map (y_via y node) (seq k n)).
Proof. intros y node n. induction n as [|n IH]; intros k; [reflexivity|]. cbn [vias seq map all_some]. destruct (y_via y node k); [now rewrite IH|reflexivity]. Qed.
Definition env := list (string * wx).
Fixpoint assoc (f : string) (en : env) : option wx := match en with [] => None | (g, e) :: r => if String.eqb f g then Some e else assoc f r end.
Definition holds_key (en : env) (f : string) (t : stype) (k : string) : bool := match assoc f en with Some (W (DKey _ t' k')) => stype_eqb t t' && String.eqb k k' | _ => false end.
(** The three flags of a file. *)
Definition flag (k t s : bool) (g : sguard) : bool := match g with Always => true | Kin => k | TimeOpt => t | Second => k && s | First => k && negb s end.
Definition guard_known (fl : sguard -> bool) (en : env) (g : sguard) : bool :=
  match g with
  | Always => true
  | Kin => holds_key en "load_kinematics_" Tbool "load_kinematics"
  | TimeOpt => match assoc "heuristic_" en with Some WHeur => true | _ => false end
  | Second | First => holds_key en "load_kinematics_" Tbool "load_kinematics" && (negb (fl Kin) || holds_key en "use_second_order_inv_kin_" Tbool "use_second_order_inv_kin")
  end.
Definition symstep (fl : sguard -> bool) (en : env) (st : sstep) : option env :=
  match st with
  | Read g t k f => if guard_known fl en g then Some (if fl g then (f, W (DKey g t k)) :: en else en) else None
  | ReadVias g num node f => if guard_known fl en g then if fl g then match assoc num en with Some (W (DKey _ Tint k)) => Some ((f, W (DVias g k node)) :: en) | _ => None end else Some en else None
  | ReadEff prefix f => Some ((f, W (DEff prefix)) :: en)
  | ExtendedDofs => if guard_known fl en Kin then if fl Kin then if holds_key en "active_dofs_" Tivector "active_dofs" then Some (("extended_active_dofs_", W DExtended) :: en) else None else Some en else None
  | ReadHeuristic => Some (("heuristic_", WHeur) :: en)
  | ReadFriction => Some (("is_friction_cone_linear_", W DFriction) :: en)
  end.
Fixpoint sym (fl : sguard -> bool) (l : list sstep) (en : env) : option env := match l with [] => Some en | st :: r => match symstep fl en st with Some en' => sym fl r en' | None => None end end.

Definition rel (y : yaml) (en : env) (base s : store) : Prop := (forall f, s f = match assoc f en with Some e => wval y e | None => base f end) /\ (forall f e, In (f, e) en -> wval y e <> None).
Lemma assoc_in : forall f en e, assoc f en = Some e -> In (f, e) en.
Proof. intros f en e. induction en as [|[g x] r IH]; cbn [assoc]; [discriminate|]. destruct (String.eqb_spec f g) as [->|]; [intros H; injection H as ->; now left|intros H; right; auto]. Qed.
Lemma rel_upd : forall y en base s f e v, rel y en base s -> wval y e = Some v -> rel y ((f, e) :: en) base (supd s f v).
Proof.
  intros y en base s f e v (R1 & R2) H. split.
  - intros g. cbn [assoc]. unfold supd. destruct (String.eqb g f); [now rewrite H|apply R1].
  - intros g x [E|I]; [injection E as <- <-; congruence|exact (R2 _ _ I)].
Qed.
Lemma holds_key_ok : forall y en base s f t k, rel y en base s -> holds_key en f t k = true -> s f = ylook y t k /\ ylook y t k <> None.
Proof.
  intros y en base s f t k (R1 & R2) H. unfold holds_key in H. destruct (assoc f en) as [[[g t' k'|? ? ?|?| | | |]|]|] eqn:E; try discriminate. apply andb_prop in H as [H1 H2]. apply stype_eqb_eq in H1. apply String.eqb_eq in H2. subst t' k'.
  pose proof (R1 f) as A. rewrite E in A. cbn [wval file_value] in A. split; [exact A|]. exact (R2 f _ (assoc_in _ _ _ E)).
Qed.
Lemma guard_flag : forall y en base s g, rel y en base s -> guard_known (applies y) en g = true -> guard_on g s = applies y g.
Proof.
  intros y en base s g R H.
  assert (K : holds_key en "load_kinematics_" Tbool "load_kinematics" = true -> is_true_member s "load_kinematics_" = with_kinematics y).
  { intros X. destruct (holds_key_ok _ _ _ _ _ _ _ R X) as (A & B). unfold is_true_member, with_kinematics. rewrite A. cbn [ylook] in *. destruct (y_bool y "load_kinematics") as [[|]|]; [reflexivity|reflexivity|now elim B]. }
  assert (K2 : holds_key en "use_second_order_inv_kin_" Tbool "use_second_order_inv_kin" = true -> is_true_member s "use_second_order_inv_kin_" = with_second_order y).
  { intros X. destruct (holds_key_ok _ _ _ _ _ _ _ R X) as (A & B). unfold is_true_member, with_second_order. rewrite A. cbn [ylook] in *. destruct (y_bool y "use_second_order_inv_kin") as [[|]|]; [reflexivity|reflexivity|now elim B]. }
  destruct g; cbn [guard_known guard_on applies] in *.
  - reflexivity.
  - auto.
  - destruct (assoc "heuristic_" en) as [[d|]|] eqn:E; try discriminate. destruct R as (R1 & R2). pose proof (R1 "heuristic_") as A. rewrite E in A. pose proof (R2 _ _ (assoc_in _ _ _ E)) as B. unfold is_timeopt, with_time_opt. rewrite A. cbn [wval] in *. destruct (y_string y "heuristic") as [h|]; cbn [option_map] in *; [|now elim B].
    unfold heur_name. destruct (String.eqb_spec h "TrustRegion") as [->|]; [reflexivity|]. destruct (String.eqb_spec h "SoftConstraint") as [->|]; [reflexivity|]. destruct (String.eqb_spec h "TimeOptimization") as [->|]; reflexivity.
  - apply andb_prop in H as [H1 H2]. rewrite (K H1). destruct (with_kinematics y); [|reflexivity]. cbn [negb orb andb] in *. now rewrite (K2 H2).
  - apply andb_prop in H as [H1 H2]. rewrite (K H1). destruct (with_kinematics y); [|reflexivity]. cbn [negb orb andb] in *. now rewrite (K2 H2).
Qed.
(** One step: it succeeds with the symbolic state, or what it reads is missing. *)
Lemma step_sound : forall y en base s st en', rel y en base s -> symstep (applies y) en st = Some en' ->
  match pstep y st s with (s', true) => rel y en' base s' | (_, false) => exists f e, In (f, e) en' /\ wval y e = None end.
Proof.
  intros y en base s st en' R H. destruct st as [g t k f|g num node f|prefix f| | |]; cbn [symstep pstep] in *.
  - destruct (guard_known (applies y) en g) eqn:G; [|discriminate]. rewrite (guard_flag _ _ _ _ _ R G). destruct (applies y g); injection H as <-; [|exact R]. destruct (ylook y t k) as [v|] eqn:E; [now apply rel_upd|]. exists f, (W (DKey g t k)). split; [now left|exact E].
  - destruct (guard_known (applies y) en g) eqn:G; [|discriminate]. rewrite (guard_flag _ _ _ _ _ R G). destruct (applies y g); [|injection H as <-; exact R].
    destruct (assoc num en) as [[[g' t' k'|? ? ?|?| | | |]|]|] eqn:E; try discriminate. destruct t'; try discriminate. injection H as <-.
    pose proof (proj1 R num) as A. rewrite E in A. pose proof (proj2 R _ _ (assoc_in _ _ _ E)) as B. cbn [wval file_value ylook] in A, B. destruct (y_int y k') as [n|] eqn:Y; cbn [option_map] in *; [|now elim B]. rewrite A.
    rewrite vias_all. destruct (all_some (map (y_via y node) (seq 0 (Z.to_nat n)))) as [l|] eqn:V.
    + apply rel_upd; [exact R|]. cbn [wval file_value]. now rewrite Y, V.
    + exists f, (W (DVias g k' node)). split; [now left|]. cbn [wval file_value]. now rewrite Y, V.
  - injection H as <-. unfold eff_names. cbn [read_effs]. destruct (y_vector y (prefix ++ "rf")) as [a|] eqn:Ea.
    + destruct (y_vector y (prefix ++ "lf")) as [b|] eqn:Eb; [destruct (y_vector y (prefix ++ "rh")) as [c|] eqn:Ec; [destruct (y_vector y (prefix ++ "lh")) as [d|] eqn:Ed|]|]; cbn beta iota; try (exists f, (W (DEff prefix)); split; [now left|]; cbn [wval file_value]; rewrite ?Ea, ?Eb, ?Ec, ?Ed; reflexivity).
      apply rel_upd; [exact R|]. cbn [wval file_value]. now rewrite Ea, Eb, Ec, Ed.
    + exists f, (W (DEff prefix)). split; [now left|]. cbn [wval file_value]. now rewrite Ea.
  - destruct (holds_key en "load_kinematics_" Tbool "load_kinematics") eqn:G; cbn [guard_known] in H; rewrite ?G in H; [|discriminate]. pose proof (guard_flag _ _ _ _ Kin R G) as GF. cbn [guard_on] in GF. cbn [guard_on]. rewrite GF. destruct (applies y Kin); [|injection H as <-; exact R].
    destruct (holds_key en "active_dofs_" Tivector "active_dofs") eqn:A; [|discriminate]. injection H as <-. destruct (holds_key_ok _ _ _ _ _ _ _ R A) as (A1 & A2). rewrite A1. cbn [ylook] in *. destruct (y_ivector y "active_dofs") as [a|] eqn:Y; cbn [option_map] in *; [|now elim A2].
    apply rel_upd; [exact R|]. cbn [wval file_value]. now rewrite Y.
  - injection H as <-. destruct (y_string y "heuristic") as [h|] eqn:Y.
    + apply rel_upd; [exact R|]. cbn [wval]. now rewrite Y.
    + exists "heuristic_", WHeur. split; [now left|]. cbn [wval]. now rewrite Y.
  - injection H as <-. destruct (y_string y "friction_cone") as [h|] eqn:Y.
    + apply rel_upd; [exact R|]. cbn [wval file_value]. now rewrite Y.
    + exists "is_friction_cone_linear_", (W DFriction). split; [now left|]. cbn [wval file_value]. now rewrite Y.
Qed.
Lemma symstep_mono : forall fl en st en', symstep fl en st = Some en' -> incl en en'.
Proof.
  intros fl en st en' H. destruct st as [g t k f|g num node f|prefix f| | |]; cbn [symstep] in H.
  - destruct (guard_known fl en g); [|discriminate]. destruct (fl g); injection H as <-; [apply incl_tl|]; apply incl_refl.
  - destruct (guard_known fl en g); [|discriminate]. destruct (fl g); [|injection H as <-; apply incl_refl]. destruct (assoc num en) as [[[g' t' k'|? ? ?|?| | | |]|]|]; try discriminate. destruct t'; try discriminate. injection H as <-. apply incl_tl, incl_refl.
  - injection H as <-. apply incl_tl, incl_refl.
  - destruct (guard_known fl en Kin); [|discriminate]. destruct (fl Kin); [|injection H as <-; apply incl_refl]. destruct (holds_key _ _ _ _); [|discriminate]. injection H as <-. apply incl_tl, incl_refl.
  - injection H as <-. apply incl_tl, incl_refl.
  - injection H as <-. apply incl_tl, incl_refl.
Qed.
Lemma sym_mono : forall fl l en en', sym fl l en = Some en' -> incl en en'.
Proof.
  intros fl l. induction l as [|st r IH]; intros en en' H; cbn [sym] in H; [injection H as <-; apply incl_refl|]. destruct (symstep fl en st) as [e1|] eqn:E; [|discriminate]. eapply incl_tran; [exact (symstep_mono _ _ _ _ E)|exact (IH _ _ H)].
Qed.
Lemma run_sound : forall y l en base s en', rel y en base s -> sym (applies y) l en = Some en' ->
  match prun y l s with (s', true) => rel y en' base s' | (_, false) => exists f e, In (f, e) en' /\ wval y e = None end.
Proof.
  intros y l. induction l as [|st r IH]; intros en base s en' R H; cbn [sym prun] in *; [injection H as <-; exact R|]. destruct (symstep (applies y) en st) as [e1|] eqn:E; [|discriminate]. pose proof (step_sound _ _ _ _ _ _ R E) as S1. destruct (pstep y st s) as [s1 [|]].
  - exact (IH _ _ _ _ S1 H).
  - destruct S1 as (f & e & I & N). exists f, e. split; [exact (sym_mono _ _ _ _ H _ I)|exact N].
Qed.

(** The run on the table of the program, for the eight combinations of flags. *)
Definition final_env (k t s : bool) : env := match sym (flag k t s) planner_file [] with Some e => e | None => [] end.
Lemma final_env_ok : forall k t s, sym (flag k t s) planner_file [] = Some (final_env k t s).
Proof. intros [] [] []; vm_compute; reflexivity. Qed.
Lemma sym_ext : forall f1 f2 l en, (forall g, f1 g = f2 g) -> sym f1 l en = sym f2 l en.
Proof.
  intros f1 f2 l. induction l as [|st r IH]; intros en E; [reflexivity|]. cbn [sym]. replace (symstep f2 en st) with (symstep f1 en st); [destruct (symstep f1 en st); auto|].
  assert (G : forall g, guard_known f1 en g = guard_known f2 en g) by (intros []; cbn [guard_known]; rewrite ?E; reflexivity). destruct st; cbn [symstep]; rewrite ?G, ?E; reflexivity.
Qed.
Lemma applies_flag : forall y g, applies y g = flag (with_kinematics y) (with_time_opt y) (with_second_order y) g.
Proof. intros y []; reflexivity. Qed.
Definition env_of (y : yaml) : env := final_env (with_kinematics y) (with_time_opt y) (with_second_order y).
Lemma load_sound : forall y s, match prun y planner_file s with (s', true) => rel y (env_of y) s s' | (_, false) => exists f e, In (f, e) (env_of y) /\ wval y e = None end.
Proof.
  intros y s. apply (run_sound y planner_file [] s s (env_of y)); [split; [reflexivity|intros ? ? []]|]. unfold env_of. rewrite <- final_env_ok. apply sym_ext, applies_flag.
Qed.

(** ** The documented parameters and the members *)
Definition all_planner_params : list planner_param := map PPI all_PlannerIntParam ++ map PPB all_PlannerBoolParam ++ map PPD all_PlannerDoubleParam ++ map PPS all_PlannerStringParam ++ map PPIV all_PlannerIntVectorParam ++ map PPV all_PlannerVectorParam ++ map PPA all_PlannerArrayParam ++ map PPC all_PlannerCVectorParam.
Lemma all_planner_ok : forall p, In p all_planner_params.
Proof. intros [p|p|p|p|p|p|p|p]; unfold all_planner_params; rewrite !in_app_iff, !in_map_iff;
  [left|right; left|do 2 right; left|do 3 right; left|do 4 right; left|do 5 right; left|do 6 right; left|do 7 right]; exists p; (split; [reflexivity|]); destruct p; vm_compute; tauto. Qed.
Definition guard_eqb (a b : sguard) : bool := match a, b with Always, Always | Kin, Kin | TimeOpt, TimeOpt | Second, Second | First, First => true | _, _ => false end.
Definition doc_eqb (a b : doc) : bool :=
  match a, b with
  | DKey g t k, DKey g' t' k' => guard_eqb g g' && stype_eqb t t' && String.eqb k k'
  | DVias g t k, DVias g' t' k' => guard_eqb g g' && String.eqb t t' && String.eqb k k'
  | DEff p, DEff q => String.eqb p q
  | DFriction, DFriction | DExtended, DExtended | DDerived, DDerived | DName, DName => true
  | _, _ => false
  end.
Lemma doc_eqb_eq : forall a b, doc_eqb a b = true -> a = b.
Proof.
  assert (G : forall a b, guard_eqb a b = true -> a = b) by (intros [] []; cbn; congruence).
  intros [] [] H; cbn [doc_eqb] in H; try discriminate; try reflexivity; repeat match goal with H : (_ && _)%bool = true |- _ => apply andb_prop in H as [? ?] end;
  repeat match goal with H : String.eqb _ _ = true |- _ => apply String.eqb_eq in H | H : stype_eqb _ _ = true |- _ => apply stype_eqb_eq in H | H : guard_eqb _ _ = true |- _ => apply G in H end; subst; reflexivity.
Qed.
Definition from_flags (k t s : bool) (d : doc) : bool := match d with DKey g _ _ | DVias g _ _ => flag k t s g | DEff _ | DFriction => true | DExtended => k | DDerived | DName => false end.
Lemma from_flags_ok : forall y d, from_file y d = from_flags (with_kinematics y) (with_time_opt y) (with_second_order y) d.
Proof. intros y [g ? ?|g ? ?| | | | |]; try reflexivity; cbn [from_file from_flags]; apply applies_flag. Qed.
Definition derived_members : list string := ["num_act_dofs_"; "mass_times_gravity_"; "gravity_vector_"; "num_timesteps_"; "num_extended_act_dofs_"].
Definition name_members : list string := ["cfg_file_"; "save_kinematics_file_"; "default_solver_setting_file_"].
Definition check1 (k t s : bool) (p : planner_param) : bool :=
  match planner_read_field p with
  | None => false
  | Some f =>
      Bool.eqb (in_list f derived_members) (doc_eqb (planner_doc p) DDerived) && (negb (in_list f name_members) || doc_eqb (planner_doc p) DName) &&
      match assoc f (final_env k t s) with Some (W d) => from_flags k t s (planner_doc p) && doc_eqb d (planner_doc p) | Some WHeur => false | None => negb (from_flags k t s (planner_doc p)) end
  end.
Definition check2 (k t s : bool) (fe : string * wx) : bool := match snd fe with WHeur => true | W d => existsb (fun p => from_flags k t s (planner_doc p) && doc_eqb d (planner_doc p)) all_planner_params end.
Lemma check1_ok : forall k t s, forallb (check1 k t s) all_planner_params = true.
Proof. intros [] [] []; vm_compute; reflexivity. Qed.
Lemma check2_ok : forall k t s, forallb (check2 k t s) (final_env k t s) = true.
Proof. intros [] [] []; vm_compute; reflexivity. Qed.
Lemma heur_in_env : forall k t s, assoc "heuristic_" (final_env k t s) = Some WHeur.
Proof. intros [] [] []; vm_compute; reflexivity. Qed.
Lemma param_field : forall y p, exists f, planner_read_field p = Some f /\ (In f derived_members <-> planner_doc p = DDerived) /\ (planner_doc p <> DName -> ~ In f name_members) /\
  (from_file y (planner_doc p) = true -> assoc f (env_of y) = Some (W (planner_doc p))) /\ (from_file y (planner_doc p) = false -> assoc f (env_of y) = None).
Proof.
  intros y p. pose proof (proj1 (forallb_forall _ _) (check1_ok (with_kinematics y) (with_time_opt y) (with_second_order y)) p (all_planner_ok p)) as C. unfold check1 in C. destruct (planner_read_field p) as [f|]; [|discriminate]. exists f. split; [reflexivity|].
  apply andb_prop in C as [C C3]. apply andb_prop in C as [C1 C2]. apply Bool.eqb_prop in C1. rewrite from_flags_ok. unfold env_of.
  split; [|split].
  - rewrite <- in_list_ok, C1. split; [apply doc_eqb_eq|intros ->; reflexivity].
  - intros N I. apply in_list_ok in I. rewrite I in C2. cbn [negb orb] in C2. apply doc_eqb_eq in C2. contradiction.
  - destruct (assoc f _) as [[d|]|]; [|discriminate|].
    + apply andb_prop in C3 as [C3 C4]. apply doc_eqb_eq in C4. rewrite C3. split; [now intros _; rewrite C4|discriminate].
    + destruct (from_flags _ _ _ _); [discriminate C3|]. split; [discriminate|reflexivity].
Qed.
(** The file is complete exactly if the run succeeds. *)
Lemma run_complete : forall y s, snd (prun y planner_file s) = true <-> planner_file_complete y.
Proof.
  intros y s. pose proof (load_sound y s) as L. destruct (prun y planner_file s) as [s' [|]]; cbn [snd].
  - split; [intros _|reflexivity]. split.
    + pose proof (proj2 L _ _ (assoc_in _ _ _ (heur_in_env (with_kinematics y) (with_time_opt y) (with_second_order y)))) as B. cbn [wval] in B. destruct (y_string y "heuristic"); [discriminate|now elim B].
    + intros p Hp. destruct (param_field y p) as (f & _ & _ & _ & A & _). exact (proj2 L _ _ (assoc_in _ _ _ (A Hp))).
  - split; [discriminate|]. intros (H1 & H2). destruct L as (f & e & I & N). pose proof (proj1 (forallb_forall _ _) (check2_ok (with_kinematics y) (with_time_opt y) (with_second_order y)) _ I) as C. unfold check2 in C. cbn [snd] in C. destruct e as [d|].
    + apply existsb_exists in C as (p & _ & C). apply andb_prop in C as [C1 C2]. apply doc_eqb_eq in C2. subst d. elim (H2 p); [now rewrite from_flags_ok|exact N].
    + cbn [wval] in N. destruct (y_string y "heuristic"); [discriminate|]. now elim H1.
Qed.
(** Members the reader never writes. *)
Definition step_writes (st : sstep) : string := match st with Read _ _ _ f | ReadVias _ _ _ f | ReadEff _ f => f | ExtendedDofs => "extended_active_dofs_" | ReadHeuristic => "heuristic_" | ReadFriction => "is_friction_cone_linear_" end.
Lemma supd_other : forall s f v g, g <> f -> supd s f v g = s g.
Proof. intros s f v g N. unfold supd. destruct (String.eqb_spec g f); [contradiction|reflexivity]. Qed.
Lemma pstep_frame : forall y st s g, g <> step_writes st -> fst (pstep y st s) g = s g.
Proof.
  intros y st s g N. destruct st as [gd t k f|gd num node f|prefix f| | |]; cbn [pstep step_writes] in *.
  - destruct (guard_on gd s); [|reflexivity]. destruct (ylook y t k); cbn [fst]; [now apply supd_other|reflexivity].
  - destruct (guard_on gd s); [|reflexivity]. destruct (s num) as [[]|]; try reflexivity. destruct (vias _ _ _ _); cbn [fst]; now apply supd_other.
  - destruct (read_effs _ _ _); cbn [fst]; [now apply supd_other|reflexivity].
  - destruct (guard_on Kin s); [|reflexivity]. destruct (s "active_dofs_") as [[]|]; try reflexivity. cbn [fst]. now apply supd_other.
  - destruct (y_string y "heuristic"); cbn [fst]; [now apply supd_other|reflexivity].
  - destruct (y_string y "friction_cone"); cbn [fst]; [now apply supd_other|reflexivity].
Qed.
Lemma prun_frame : forall y l s g, ~ In g (map step_writes l) -> fst (prun y l s) g = s g.
Proof.
  intros y l. induction l as [|st r IH]; intros s g N; [reflexivity|]. cbn [prun map] in *. pose proof (pstep_frame y st s g ltac:(intros ->; apply N; now left)) as F. destruct (pstep y st s) as [s1 [|]]; cbn [fst] in *; [|exact F]. rewrite IH; [exact F|]. intros I. apply N. now right.
Qed.
Lemma not_read : forall f, In f (derived_members ++ name_members ++ ["save_dynamics_file_"]) -> ~ In f (map step_writes planner_file).
Proof.
  intros f I J. assert (B : forallb (fun f => negb (in_list f (map step_writes planner_file))) (derived_members ++ name_members ++ ["save_dynamics_file_"]) = true) by (vm_compute; reflexivity).
  pose proof (proj1 (forallb_forall _ _) B f I) as B1. cbn beta in B1. apply in_list_ok in J. rewrite J in B1. discriminate.
Qed.

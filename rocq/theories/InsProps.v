(** * init_from_settings (C94) *)
From Coq Require Import String Reals List Arith ZArith Bool Lia.
Import ListNotations.
From Verif Require Import Base StgTables StgModel StgSpec StgProps StgPlanProofs StgPlanProps InsModel InsSpec.
Local Open Scope string_scope.

Lemma pobj_eqb_spec a b : reflect (a = b) (pobj_eqb a b).
Proof. destruct a, b; constructor; congruence. Qed.
Lemma set_attr_same a o n v : set_attr a o n v o n = Some v.
Proof. unfold set_attr. destruct (pobj_eqb_spec o o) as [_|N]; [|congruence]. now rewrite String.eqb_refl. Qed.
Lemma set_attr_other a o n v o' n' : (o', n') <> (o, n) -> set_attr a o n v o' n' = a o' n'.
Proof. intros N. unfold set_attr. destruct (pobj_eqb_spec o' o) as [->|]; [|reflexivity]. destruct (String.eqb_spec n' n) as [->|]; [congruence|reflexivity]. Qed.
(** The assignments one after the other. *)
Lemma assign_ok s : forall l a (val : planner_param -> option sval), (forall o n p, In (o, n, p) l -> exists v, val p = Some v /\ planner_get p s = Ok v) -> NoDup (map fst l) ->
  exists a', assign l s a = Ok a' /\ (forall o n p, In (o, n, p) l -> a' o n = val p) /\ (forall o n, ~ In (o, n) (map fst l) -> a' o n = a o n).
Proof.
  induction l as [|[[o n] p] l IH]; intros a val H ND.
  - exists a. split; [reflexivity|]. split; [intros o n p []|reflexivity].
  - cbn [assign]. destruct (H o n p (or_introl eq_refl)) as (v & Hv & G). rewrite G. cbn [bind]. cbn [map fst] in ND. inversion ND as [|x r N1 N2]; subst.
    destruct (IH (set_attr a o n v) val ltac:(intros; apply (H o0 n0); now right) N2) as (a' & E & A & B). exists a'. split; [exact E|]. split.
    + intros o' n' p' [I|I]; [injection I as <- <- <-; rewrite B by exact N1; rewrite set_attr_same; now symmetry|now apply A].
    + intros o' n' I. cbn [map fst] in I. rewrite B by (intros X; apply I; now right). apply set_attr_other. intros X. apply I. left. now symmetry.
Qed.
(** The documented table is that of the parameters: same attributes, and each parameter comes from the documented entry. *)
Lemma tables_agree : map (fun x => (fst x, planner_doc (snd x))) assign_second = wanted_second /\ map (fun x => (fst x, planner_doc (snd x))) assign_first = wanted_first.
Proof. split; reflexivity. Qed.
Lemma nodup_by {A} (eqb : A -> A -> bool) (E : forall a b, a = b -> eqb a b = true) : forall l, (fix nd l := match l with [] => true | x :: r => (negb (existsb (eqb x) r) && nd r)%bool end) l = true -> NoDup l.
Proof.
  induction l as [|x r IH]; intros H; [constructor|]. apply andb_true_iff in H as [H1 H2]. constructor; [|now apply IH]. intros I. apply negb_true_iff in H1. assert (existsb (eqb x) r = true) by (apply existsb_exists; exists x; split; [exact I|now apply E]). congruence.
Qed.
Definition key_eqb (a b : pobj * string) : bool := (pobj_eqb (fst a) (fst b) && String.eqb (snd a) (snd b))%bool.
Lemma key_eqb_refl a b : a = b -> key_eqb a b = true.
Proof. intros ->. unfold key_eqb. rewrite String.eqb_refl. destruct (pobj_eqb_spec (fst b) (fst b)); [reflexivity|congruence]. Qed.
Lemma nodup_second : NoDup (map fst assign_second). Proof. apply (nodup_by key_eqb key_eqb_refl). reflexivity. Qed.
Lemma nodup_first : NoDup (map fst assign_first). Proof. apply (nodup_by key_eqb key_eqb_refl). reflexivity. Qed.
Lemma doc_plain d : (exists g t k, d = DKey g t k) \/ (exists g a b, d = DVias g a b) -> d <> DDerived /\ d <> DName.
Proof. intros [(g & t & k & ->)|(g & a & b & ->)]; split; discriminate. Qed.

(** ** With kinematics loaded, every attribute gets the value of its entry in the file, whatever was there before, and no other attribute changes. *)
Theorem C94_settings_reach_the_solvers : forall name path y s0 a0 second, planner_file_complete y -> y_bool y "load_kinematics" = Some true -> y_bool y "use_second_order_inv_kin" = Some second ->
  exists a, init_from_settings (planner_initialize name path (Parsed y) s0) a0 = Ok a /\ a OKin "use_second_order_inv_kin" = Some (VB second) /\
    (forall o n d, In (o, n, d) (wanted second) -> a o n = file_value y d /\ a o n <> None) /\
    (forall o n, (o, n) <> (OKin, "use_second_order_inv_kin") -> ~ In (o, n) (map fst (wanted second)) -> a o n = a0 o n).
Proof.
  intros name path y s0 a0 second HC HK HS. set (s := planner_initialize name path (Parsed y) s0).
  assert (L : forall p, (exists g t k, planner_doc p = DKey g t k) \/ (exists g a b, planner_doc p = DVias g a b) -> from_file y (planner_doc p) = true -> exists v, file_value y (planner_doc p) = Some v /\ planner_get p s = Ok v).
  { intros p Hp F. destruct (doc_plain _ Hp) as [N1 N2]. pose proof (C47_loaded name path y s0 p HC N1 N2) as E. rewrite F in E. fold s in E. destruct (file_value y (planner_doc p)) as [v|] eqn:V; [exists v; auto|elim (proj2 HC p F V)]. }
  assert (K : with_kinematics y = true) by (unfold with_kinematics; now rewrite HK). assert (S2 : with_second_order y = second) by (unfold with_second_order; now rewrite HS).
  unfold init_from_settings.
  destruct (L (PPB PlannerBoolParam_UseSecondOrderInverseKinematics)) as (v & V & G); [left; eexists _, _, _; reflexivity|exact K|]. rewrite G. cbn [bind].
  cbn [planner_doc file_value ylook] in V. rewrite HS in V. cbn [option_map] in V. injection V as <-.
  set (a1 := set_attr a0 OKin "use_second_order_inv_kin" (VB second)).
  assert (M : forall (tab : list (pobj * string * planner_param)) (w : list (pobj * string * doc)), map (fun x => (fst x, planner_doc (snd x))) tab = w -> NoDup (map fst tab) ->
    (forall o n p, In (o, n, p) tab -> ((exists g t k, planner_doc p = DKey g t k) \/ (exists g a b, planner_doc p = DVias g a b)) /\ from_file y (planner_doc p) = true) -> ~ In (OKin, "use_second_order_inv_kin") (map fst tab) ->
    exists a, assign tab s a1 = Ok a /\ a OKin "use_second_order_inv_kin" = Some (VB second) /\ (forall o n d, In (o, n, d) w -> a o n = file_value y d /\ a o n <> None) /\
      (forall o n, (o, n) <> (OKin, "use_second_order_inv_kin") -> ~ In (o, n) (map fst w) -> a o n = a0 o n)).
  { intros tab w <- ND HT NI. destruct (assign_ok s tab a1 (fun p => file_value y (planner_doc p))) as (a & E & A & B); [|exact ND|].
    - intros o n p I. destruct (HT o n p I) as [H1 H2]. now apply L.
    - exists a. split; [exact E|]. split; [rewrite B by exact NI; apply set_attr_same|]. split.
      + intros o n d I. apply in_map_iff in I as ([[o' n'] p] & X & I). cbn [fst snd] in X. injection X as -> -> <-. rewrite (A o n p I). split; [reflexivity|]. destruct (HT o n p I) as [_ H2]. exact (proj2 HC p H2).
      + intros o n N I. rewrite map_map in I. rewrite B by exact I. now apply set_attr_other. }
  destruct second; cbn [wanted].
  - apply (M assign_second wanted_second (proj1 tables_agree) nodup_second); [|vm_compute; intuition discriminate].
    intros o n p I. assert (F : from_file y (DKey Second Tint "") = true) by (cbn; now rewrite K, S2).
    unfold assign_second in I. cbn [In] in I. repeat (destruct I as [I|I]; [injection I as <- <- <-; split; [first [left; eexists _, _, _; reflexivity|right; eexists _, _, _; reflexivity]|exact F]|]). contradiction.
  - apply (M assign_first wanted_first (proj2 tables_agree) nodup_first); [|vm_compute; intuition discriminate].
    intros o n p I. assert (F : from_file y (DKey First Tint "") = true) by (cbn; now rewrite K, S2).
    unfold assign_first in I. cbn [In] in I. repeat (destruct I as [I|I]; [injection I as <- <- <-; split; [first [left; eexists _, _, _; reflexivity|right; eexists _, _, _; reflexivity]|exact F]|]). contradiction.
Qed.
(** ** Without kinematics (load_kinematics: False in the file) the flag is never loaded, and configuring a new planner reads an uninitialised member. *)
Theorem C94_without_kinematics_refuted : forall name path y a0, planner_file_complete y -> y_bool y "load_kinematics" = Some false -> init_from_settings (planner_initialize name path (Parsed y) planner_new) a0 = UB.
Proof.
  intros name path y a0 HC HK. unfold init_from_settings. rewrite C47_loaded by (exact HC || discriminate). cbn [planner_doc from_file applies]. unfold with_kinematics. rewrite HK. reflexivity.
Qed.
Print Assumptions C94_settings_reach_the_solvers.
Print Assumptions C94_without_kinematics_refuted.

(** ** Concrete files: second order, first order, and without kinematics. *)
Definition demo_flags (kin second : bool) : yaml :=
  Yml (fun k => Some (if String.eqb k "load_kinematics" then kin else if String.eqb k "use_second_order_inv_kin" then second else true)) (y_int demo_yaml)
      (fun k => if String.eqb k "swing_traj_via_z" then Some (/ 5)%R else y_double demo_yaml k) (y_string demo_yaml) (y_vector demo_yaml) (y_ivector demo_yaml) (y_via demo_yaml).
Lemma demo_flags_complete kin second : planner_file_complete (demo_flags kin second).
Proof. split; [discriminate|]. destruct kin, second; intros [p|p|p|p|p|p|p|p]; destruct p; vm_compute; discriminate. Qed.
Example C94_demo : forall name path a0, exists a, init_from_settings (planner_initialize name path (Parsed (demo_flags true false)) planner_new) a0 = Ok a /\
  a OEtg "z_offset" = Some (VD (/ 5)%R) /\ a OIk "w_endeff_tracking" = Some (VD 3%R) /\ a OSo "w_endeff_tracking" = a0 OSo "w_endeff_tracking".
Proof.
  intros name path a0. destruct (C94_settings_reach_the_solvers name path (demo_flags true false) planner_new a0 false (demo_flags_complete _ _) eq_refl eq_refl) as (a & E & _ & H & K).
  exists a. split; [exact E|]. split; [|split].
  - exact (proj1 (H OEtg "z_offset" _ (or_introl eq_refl))).
  - assert (I : In (OIk, "w_endeff_tracking", DKey First Tdouble "w_endeff_tracking") (wanted false)) by (cbn; tauto). exact (proj1 (H _ _ _ I)).
  - apply K; [discriminate|]. vm_compute. intuition discriminate.
Qed.
Example C94_demo_second : forall name path a0, exists a, init_from_settings (planner_initialize name path (Parsed (demo_flags true true)) planner_new) a0 = Ok a /\ a OSo "p_mom_tracking" = Some (VV [1; 2; 3]%R).
Proof.
  intros name path a0. destruct (C94_settings_reach_the_solvers name path (demo_flags true true) planner_new a0 true (demo_flags_complete _ _) eq_refl eq_refl) as (a & E & _ & H & K).
  exists a. split; [exact E|]. assert (I : In (OSo, "p_mom_tracking", DKey Second Tvector "p_mom_tracking_second") (wanted true)) by (cbn; tauto). exact (proj1 (H _ _ _ I)).
Qed.
Example C94_demo_without : forall name path a0, init_from_settings (planner_initialize name path (Parsed (demo_flags false true)) planner_new) a0 = UB.
Proof. intros. apply C94_without_kinematics_refuted; [apply demo_flags_complete|reflexivity]. Qed.

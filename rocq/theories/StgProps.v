(** * C42: solver settings *)
From Coq Require Import Reals List Arith ZArith Bool String Lia.
Import ListNotations.
From Verif Require Import Base StgTables StgModel StgSpec.
Local Open Scope string_scope.

Definition all_solver_params : list solver_param := map SPB all_SolverBoolParam ++ map SPI all_SolverIntParam ++ map SPD all_SolverDoubleParam.
Lemma all_solver_ok : forall p, In p all_solver_params.
Proof. intros [p|p|p]; destruct p; vm_compute; tauto. Qed.
Definition oeqb (a b : option string) : bool := match a, b with Some x, Some y => String.eqb x y | None, None => true | _, _ => false end.
Lemma oeqb_eq : forall a b, oeqb a b = true -> a = b.
Proof. intros [a|] [b|] H; cbn in H; try discriminate; [apply String.eqb_eq in H; now subst|reflexivity]. Qed.
Lemma same_fields : forall p, solver_get_field p = solver_set_field p.
Proof. intros p. apply oeqb_eq. revert p. assert (H : forallb (fun p => oeqb (solver_get_field p) (solver_set_field p)) all_solver_params = true) by (vm_compute; reflexivity). intros p. exact (proj1 (forallb_forall _ _) H p (all_solver_ok p)). Qed.
Definition sp_tag (p : solver_param) : nat := match p with SPB _ => 0 | SPI _ => 1 | SPD _ => 2 end.
Lemma solver_param_dec : forall p q : solver_param, {p = q} + {p <> q}.
Proof. decide equality; decide equality. Defined.
Lemma field_inj : forall p q f, solver_set_field p = Some f -> solver_set_field q = Some f -> p = q.
Proof.
  intros p q f Hp Hq.
  assert (H : forallb (fun p => forallb (fun q => match solver_set_field p, solver_set_field q with Some a, Some b => if String.eqb a b then if solver_param_dec p q then true else false else true | _, _ => true end) all_solver_params) all_solver_params = true) by (vm_compute; reflexivity).
  pose proof (proj1 (forallb_forall _ _) H p (all_solver_ok p)) as H1. cbn beta in H1. pose proof (proj1 (forallb_forall _ _) H1 q (all_solver_ok q)) as H2. cbn beta in H2.
  rewrite Hp, Hq, String.eqb_refl in H2. destruct (solver_param_dec p q); [assumption|discriminate].
Qed.
Definition is_setting (p : solver_param) : bool := match solver_doc p with Some _ => true | None => false end.
Lemma handled : forall p, (match solver_set_field p with Some _ => true | None => false end) = is_setting p.
Proof. intros [p|p|p]; destruct p; reflexivity. Qed.

(** A value written is the value read, and no other parameter changes. *)
Theorem C42_roundtrip : forall p v s s', solver_set p v s = Ok s' -> solver_get p s' = Ok v /\ forall p', p' <> p -> solver_get p' s' = solver_get p' s.
Proof.
  intros p v s s' H. unfold solver_set, swrite in H. destruct (solver_set_field p) as [f|] eqn:E; [|discriminate]. injection H as <-. unfold solver_get, sread. rewrite same_fields, E. split; [unfold supd; now rewrite String.eqb_refl|].
  intros p' Hp. rewrite same_fields. destruct (solver_set_field p') as [g|] eqn:E'; [|reflexivity]. unfold supd. destruct (String.eqb_spec g f) as [->|]; [|reflexivity]. elim Hp. exact (field_inj _ _ _ E' E).
Qed.
Print Assumptions C42_roundtrip.
(** Exactly the documented parameters can be written and read; the others are rejected by both, and a rejected call has no effect (it returns no new store). *)
Theorem C42_rejects : forall p v s, (solver_doc p = None <-> solver_set p v s = Throw) /\ (solver_doc p = None <-> solver_get p s = Throw) /\ (solver_doc p <> None -> exists s', solver_set p v s = Ok s').
Proof.
  intros p v s. pose proof (handled p) as H. unfold is_setting in H. unfold solver_set, solver_get, swrite, sread. rewrite !(same_fields p). destruct (solver_set_field p) as [f|], (solver_doc p) as [d|]; try discriminate H.
  - repeat split; try discriminate; [destruct (s f); discriminate|intros _; eexists; reflexivity].
  - repeat split; congruence.
Qed.
Print Assumptions C42_rejects.
(** After any history of writes a parameter has the last value written to it, or the value it had before if it was not written. *)
Theorem C42_history : forall s l s' p, solver_hist s l s' -> (forall v, last_write p v l -> solver_get p s' = Ok v) /\ ((forall v, ~ In (p, v) l) -> solver_get p s' = solver_get p s).
Proof.
  intros s l s' p H. assert (U : (forall v, ~ In (p, v) l) -> solver_get p s' = solver_get p s).
  { induction H as [|s p' v s1 l s2 Hs Hh IH]; intros N; [reflexivity|]. rewrite IH by (intros w Hw; exact (N w (or_intror Hw))). apply (proj2 (C42_roundtrip _ _ _ _ Hs)). intros ->. exact (N v (or_introl eq_refl)). }
  split; [|exact U]. clear U. intros v L. destruct L as [l1 l2 N]. revert s H. induction l1 as [|[p' v'] l1 IH]; intros s H; cbn [app] in H; inversion H; subst; clear H.
  - match goal with Hs : solver_set p v s = Ok _, Hh : solver_hist _ l2 s' |- _ => rename Hs into HS; rename Hh into HH end.
    assert (U : forall s0 s2 l, (forall w, ~ In (p, w) l) -> solver_hist s0 l s2 -> solver_get p s2 = solver_get p s0).
    { intros s0 s2 l N' Hh. induction Hh as [|t p' w t1 l t2 Hs Hh IH]; [reflexivity|]. rewrite IH by (intros w' Hw; exact (N' w' (or_intror Hw))). apply (proj2 (C42_roundtrip _ _ _ _ Hs)). intros ->. exact (N' w (or_introl eq_refl)). }
    rewrite (U _ _ _ N HH). exact (proj1 (C42_roundtrip _ _ _ _ HS)).
  - eapply IH; eassumption.
Qed.
Print Assumptions C42_history.

(** ** The file *)
Lemma sload_frame : forall y l s f, ~ In f (map (fun e => fst (fst e)) l) -> fst (sload y l s) f = s f.
Proof.
  intros y l. induction l as [|[[f k] t] r IH]; intros s g N; [reflexivity|]. cbn [sload]. destruct (ylook y t k) as [v|]; [|reflexivity]. rewrite IH by (intros X; apply N; now right). unfold supd. destruct (String.eqb_spec g f) as [->|]; [|reflexivity]. elim N. now left.
Qed.
Lemma sload_ok : forall y l s, NoDup (map (fun e => fst (fst e)) l) -> snd (sload y l s) = true -> forall f k t, In (f, k, t) l -> exists v, ylook y t k = Some v /\ fst (sload y l s) f = Some v.
Proof.
  intros y l. induction l as [|[[f k] t] r IH]; intros s ND H g k' t' I; [destruct I|]. cbn [sload map fst] in *. inversion ND as [|? ? N1 N2]; subst. destruct (ylook y t k) as [v|] eqn:E; [|discriminate]. destruct I as [I|I].
  - injection I as <- <- <-. exists v. split; [exact E|]. rewrite sload_frame by exact N1. unfold supd. now rewrite String.eqb_refl.
  - exact (IH _ N2 H _ _ _ I).
Qed.
Lemma sload_complete : forall y l s, snd (sload y l s) = true <-> forall f k t, In (f, k, t) l -> ylook y t k <> None.
Proof.
  intros y l. induction l as [|[[f k] t] r IH]; intros s; cbn [sload]; [split; [intros _ ? ? ? []|reflexivity]|]. destruct (ylook y t k) as [v|] eqn:E.
  - rewrite IH. split; intros H; [intros g k' t' [I|I]; [injection I as <- <- <-; congruence|eauto]|intros g k' t' I; exact (H g k' t' (or_intror I))].
  - split; [discriminate|]. intros H. elim (H f k t (or_introl eq_refl) E).
Qed.
Definition stype_eqb (a b : stype) : bool := match a, b with Tbool, Tbool | Tint, Tint | Tdouble, Tdouble | Tstring, Tstring | Tvector, Tvector | Tivector, Tivector => true | _, _ => false end.
Lemma stype_eqb_eq : forall a b, stype_eqb a b = true -> a = b.
Proof. intros [] []; cbn; congruence. Qed.
Definition triple_eqb (a b : string * string * stype) : bool := let '(x, y, z) := a in let '(x', y', z') := b in String.eqb x x' && String.eqb y y' && stype_eqb z z'.
Lemma triple_eqb_eq : forall a b, triple_eqb a b = true -> a = b.
Proof. intros [[x y] z] [[x' y'] z'] H. cbn in H. apply andb_prop in H as [H H3]. apply andb_prop in H as [H1 H2]. apply String.eqb_eq in H1, H2. apply stype_eqb_eq in H3. now subst. Qed.
Lemma solver_file_doc : forall p t k, solver_doc p = Some (t, k) -> exists f, solver_get_field p = Some f /\ In (f, k, t) solver_file.
Proof.
  intros p t k H.
  assert (B : forallb (fun p => match solver_doc p with Some (t, k) => match solver_get_field p with Some f => existsb (triple_eqb (f, k, t)) solver_file | None => false end | None => true end) all_solver_params = true) by (vm_compute; reflexivity).
  pose proof (proj1 (forallb_forall _ _) B p (all_solver_ok p)) as B1. cbn beta in B1. rewrite H in B1. destruct (solver_get_field p) as [f|]; [|discriminate]. exists f. split; [reflexivity|]. apply existsb_exists in B1 as (x & I & E). apply triple_eqb_eq in E. now subst.
Qed.
Lemma solver_doc_file : forall f k t, In (f, k, t) solver_file -> exists p, solver_doc p = Some (t, k).
Proof.
  intros f k t I.
  assert (B : forallb (fun e => let '(f, k, t) := e in existsb (fun p => match solver_doc p with Some (t', k') => stype_eqb t t' && String.eqb k k' | None => false end) all_solver_params) solver_file = true) by (vm_compute; reflexivity).
  pose proof (proj1 (forallb_forall _ _) B _ I) as B1. cbn beta in B1. apply existsb_exists in B1 as (p & _ & E). exists p. destruct (solver_doc p) as [[t' k']|]; [|discriminate]. apply andb_prop in E as [E1 E2]. apply stype_eqb_eq in E1. apply String.eqb_eq in E2. now subst.
Qed.
Fixpoint nodupb (l : list string) : bool := match l with [] => true | x :: r => negb (in_list x r) && nodupb r end.
Lemma in_list_ok : forall x l, in_list x l = true <-> In x l.
Proof. intros x l. unfold in_list. rewrite existsb_exists. split; [intros (y & I & E); apply String.eqb_eq in E; now subst|intros I; exists x; split; [exact I|apply String.eqb_refl]]. Qed.
Lemma nodupb_ok : forall l, nodupb l = true -> NoDup l.
Proof. intros l. induction l as [|x r IH]; intros H; [constructor|]. cbn [nodupb] in H. apply andb_prop in H as [H1 H2]. constructor; [|now apply IH]. intros I. apply in_list_ok in I. rewrite I in H1. discriminate. Qed.
Lemma solver_file_nodup : NoDup (map (fun e => fst (fst e)) solver_file).
Proof. apply nodupb_ok. vm_compute. reflexivity. Qed.

(** Loading a file succeeds exactly if it has every documented key, and then every parameter has the value of its own key. *)
Theorem C42_file : forall y s, snd (solver_initialize (Parsed y) s) = Ok tt <-> solver_file_complete y.
Proof.
  intros y s. unfold solver_initialize. destruct (sload y solver_file s) as [s1 ok] eqn:E. cbn [snd]. assert (X : ok = true <-> solver_file_complete y).
  { replace ok with (snd (sload y solver_file s)) by now rewrite E. rewrite sload_complete. unfold solver_file_complete. split.
    - intros H p t k D. destruct (solver_file_doc p t k D) as (f & _ & I). exact (H f k t I).
    - intros H f k t I. destruct (solver_doc_file f k t I) as (p & D). exact (H p t k D). }
  destruct ok; split; intros H; try reflexivity; try discriminate; [now apply X|]. apply X in H. discriminate.
Qed.
Print Assumptions C42_file.
Theorem C42_file_values : forall y s s' p t k, solver_initialize (Parsed y) s = (s', Ok tt) -> solver_doc p = Some (t, k) -> exists v, ylook y t k = Some v /\ solver_get p s' = Ok v.
Proof.
  intros y s s' p t k H D. unfold solver_initialize in H. destruct (sload y solver_file s) as [s1 ok] eqn:E. destruct ok; [|discriminate]. injection H as <-. destruct (solver_file_doc p t k D) as (f & G & I).
  destruct (sload_ok y solver_file s solver_file_nodup ltac:(now rewrite E) f k t I) as (v & V1 & V2). exists v. split; [exact V1|]. unfold solver_get, sread. rewrite G. rewrite E in V2. cbn [fst] in V2. now rewrite V2.
Qed.
Print Assumptions C42_file_values.
(** A missing file raises; a file that is not YAML is reported as success and leaves every parameter of a new object unwritten. *)
Theorem C42_no_file : forall s, solver_initialize NoFile s = (s, Throw).
Proof. reflexivity. Qed.
Theorem C42_not_yaml_refuted : exists fl s', solver_initialize fl solver_new = (s', Ok tt) /\ forall p, solver_doc p <> None -> solver_get p s' = UB.
Proof.
  exists NotYaml, solver_new. split; [reflexivity|]. intros p D. pose proof (handled p) as H. unfold is_setting in H. unfold solver_get, sread. rewrite same_fields. destruct (solver_set_field p); [reflexivity|]. destruct (solver_doc p); [discriminate|congruence].
Qed.
Print Assumptions C42_not_yaml_refuted.

(** ** Example: a history of writes and a file. *)
Definition demo_yaml : yaml := Yml (fun _ => Some true) (fun k => if String.eqb k "max_iters" then Some 7%Z else if String.eqb k "num_com_viapoints" then Some 1%Z else Some 2%Z) (fun k => if String.eqb k "time_step" then Some (/ 10)%R else if String.eqb k "gravity" then Some (981 / 100)%R else Some 3%R) (fun _ => Some "TrustRegion") (fun _ => Some [1; 2; 3]%R) (fun _ => Some [0; 3]%Z) (fun _ _ => Some [1; 0; 0; 1]%R).
Example C42_demo : exists s', solver_initialize (Parsed demo_yaml) solver_new = (s', Ok tt) /\ solver_get (SPI SolverIntParam_MaxIters) s' = Ok (VI 7) /\
  exists s2, solver_hist s' [(SPI SolverIntParam_MaxIters, VI 9); (SPB SolverBoolParam_Verbose, VB false); (SPI SolverIntParam_MaxIters, VI 11)] s2 /\ solver_get (SPI SolverIntParam_MaxIters) s2 = Ok (VI 11) /\
    solver_get (SPI SolverIntParam_SolverMaxIters) s2 = Ok (VI 2) /\ solver_get (SPI SolverIntParam_ColNum) s2 = Throw.
Proof.
  eexists. split; [reflexivity|]. split; [reflexivity|]. eexists. split; [repeat (eapply sh_set; [reflexivity|]); apply sh_nil|]. split; [reflexivity|]. split; reflexivity.
Qed.

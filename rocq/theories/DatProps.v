(** * The trajectory files (C74, C75) *)
From Coq Require Import String Reals List Arith ZArith Bool Lia Lra.
Import ListNotations.
From Verif Require Import Base Vec3 MkoModel ItpModel ItpSpec ItpProofs ItpProofs2 DatModel DatSpec DatProofs.
Local Open Scope R_scope.
Notation length := List.length.

Lemma dselect_qp n nj me sq dy : quadruped_plan n nj me sq dy -> forall sp d, sp <> DFeedback -> (sp = DForces -> d = Some dy) ->
  forall i, (i < n)%nat -> dselect sp (Some sq) None d i = Ok (d_meaning sp sq [] dy i).
Proof.
  intros [L _ _ Hd] sp d H1 H2 i Hi. destruct L as (_ & _ & _ & _ & L5 & L6).
  destruct sp; cbn [dselect need bind d_meaning]; try (rewrite (pyget_nth sq i kdef) by lia; reflexivity); [|congruence].
  rewrite H2 by reflexivity. cbn [need bind]. rewrite (pyget_nth dy i ddef) by lia. cbn [bind]. apply forces_ok. intros E. specialize (Hd i Hi). rewrite E in Hd. discriminate.
Qed.
Lemma forces_length d : length (forces d) = (3 * length (ds_eff d))%nat.
Proof. unfold forces. induction (ds_eff d) as [|e l IH]; [reflexivity|]. cbn [map List.concat]. rewrite app_length, IH. cbn [length vlist]. lia. Qed.
Lemma d_size n nj me sq dy : quadruped_plan n nj me sq dy -> forall sp, sp <> DFeedback -> same_size n (d_meaning sp sq [] dy).
Proof.
  intros [_ _ Hk Hd] sp H i Hi. assert (Hi0 : (0 < n)%nat) by lia. pose proof (Hk i Hi) as A. pose proof (Hk 0%nat Hi0) as B. cbv zeta in A, B. pose proof (Hd i Hi) as A'. pose proof (Hd 0%nat Hi0) as B'.
  destruct sp; cbn [d_meaning]; unfold kin; rewrite ?forces_length; try (now rewrite A', B'); try congruence; destruct A as (?&?&?&?&?&?&?&?), B as (?&?&?&?&?&?&?&?); congruence.
Qed.
Lemma desired_fun tv nj me sq dy : tv <> [] -> increasing tv -> quadruped_plan (length tv) nj me sq dy -> forall sp d, sp <> DFeedback -> (sp = DForces -> d = Some dy) ->
  exists f g, desired_state sp tv (Some sq) None d = Ok f /\ (forall t, f t = Ok (g t)) /\ forall t, on_curve tv (d_meaning sp sq [] dy) t (g t).
Proof.
  intros Hne Hinc Hp sp d H1 H2. destruct (curve_fun tv (d_meaning sp sq [] dy) (dselect sp (Some sq) None d) Hne Hinc (dselect_qp _ _ _ _ _ Hp sp d H1 H2) (d_size _ _ _ _ _ Hp sp H1)) as (g & Hg).
  exists (eval_at (dselect sp (Some sq) None d) tv), g. split; [reflexivity|]. split; intros t; apply (Hg t).
Qed.
Lemma sampled_map N scale tv s g : (forall t, on_curve tv s t (g t)) -> sampled N scale tv s (map (fun i => INR i :: map (Rmult scale) (g (ms i))) (seq 0 N)).
Proof. intros H. split; [now rewrite map_length, seq_length|]. intros i Hi. exists (g (INR i / 1000)). split; [apply H|]. now rewrite nth_map_seq by exact Hi. Qed.

(** ** C74: create_file samples every quantity once per millisecond over the horizon (to the nearest millisecond, halves to the even one), forces times the weight, and writes nothing else. *)
Theorem C74_create_file tv nj me sq dy weight fs : tv <> [] -> increasing tv -> quadruped_plan (length tv) nj me sq dy -> / 2000 < horizon tv ->
  exists fs' N, create_file tv sq dy weight fs = Ok fs' /\ (0 < N)%nat /\ Rabs (INR N / 1000 - horizon tv) <= / 2000 /\ (Rabs (INR N / 1000 - horizon tv) = / 2000 -> Nat.even N = true) /\
  (forall name scale sp, In (name, scale, sp) (file_table weight) -> exists a, contents fs' name = Some a /\ sampled N scale tv (d_meaning sp sq [] dy) a) /\
  (forall name, (forall scale sp, ~ In (name, scale, sp) (file_table weight)) -> contents fs' name = contents fs name).
Proof.
  intros Hne Hinc Hp Hh. destruct (file_points_ok tv Hne Hh) as (N & EN & HN & Hnear & Heven).
  pose proof (desired_fun tv nj me sq dy Hne Hinc Hp) as D. unfold create_file. cbv zeta.
  destruct (D DPosition None ltac:(discriminate) ltac:(discriminate)) as (f1 & g1 & -> & F1 & C1). cbn [bind].
  destruct (D DVelocity None ltac:(discriminate) ltac:(discriminate)) as (f2 & g2 & -> & F2 & C2). cbn [bind].
  destruct (D DGenPosition None ltac:(discriminate) ltac:(discriminate)) as (f3 & g3 & -> & F3 & C3). cbn [bind].
  destruct (D DGenVelocity None ltac:(discriminate) ltac:(discriminate)) as (f4 & g4 & -> & F4 & C4). cbn [bind].
  destruct (D DGenAcceleration None ltac:(discriminate) ltac:(discriminate)) as (f5 & g5 & -> & F5 & C5). cbn [bind].
  destruct (D DCom None ltac:(discriminate) ltac:(discriminate)) as (f6 & g6 & -> & F6 & C6). cbn [bind].
  destruct (D DLmom None ltac:(discriminate) ltac:(discriminate)) as (f7 & g7 & -> & F7 & C7). cbn [bind].
  destruct (D DAmom None ltac:(discriminate) ltac:(discriminate)) as (f8 & g8 & -> & F8 & C8). cbn [bind].
  destruct (D DForces (Some dy) ltac:(discriminate) ltac:(reflexivity)) as (f9 & g9 & -> & F9 & C9). cbn [bind].
  rewrite EN. cbn [bind]. unfold dump_data.
  rewrite (dump_rows_ok N 1 f1 g1 HN F1), (dump_rows_ok N 1 f2 g2 HN F2), (dump_rows_ok N weight f9 g9 HN F9), (dump_rows_ok N 1 f3 g3 HN F3), (dump_rows_ok N 1 f4 g4 HN F4),
    (dump_rows_ok N 1 f5 g5 HN F5), (dump_rows_ok N 1 f6 g6 HN F6), (dump_rows_ok N 1 f7 g7 HN F7), (dump_rows_ok N 1 f8 g8 HN F8). cbn [bind].
  do 2 eexists. split; [reflexivity|]. split; [exact HN|]. split; [exact Hnear|]. split; [exact Heven|]. split.
  - intros name scale sp H. cbn [file_table In] in H. repeat (destruct H as [H|H]; [injection H as <- <- <-; eexists; split; [reflexivity|]; now apply sampled_map|]). destruct H.
  - intros name H. assert (X : forall n s p, In (n, s, p) (file_table weight) -> n <> name) by (intros n s p Hn ->; exact (H s p Hn)).
    rewrite !set_nth_file. repeat match goal with |- context[string_dec ?a name] => destruct (string_dec a name) as [E|_]; [exfalso; revert E; eapply X; cbn; intuition reflexivity|] end. reflexivity.
Qed.
Print Assumptions C74_create_file.

(** ** The curves of create_qp_files and create_lqr_files *)
Definition i_kind (sp : ispec) : nat := match sp with IPosition | IVelocity | IPositionAbs | IVelocityAbs => 0 | ICom | ILmom | IAmom | IQuaternion | IBaseAngVel => 1 | IForces => 2 | ICentroidalForces | ICentroidalMoments => 3 | IFeedback => 4 end%nat.
Lemma interpolate_some sp tv me sq fb dy w : me <> None \/ sq <> None \/ fb <> None \/ dy <> None -> interpolate sp tv me sq fb dy w = Ok (eval_at (iselect sp me sq fb dy w) tv).
Proof. unfold interpolate. destruct me, fb, sq, dy; try reflexivity. intuition congruence. Qed.
Lemma iselect_qp n nj me sq dy w : quadruped_plan n nj me sq dy -> forall sp me' sq' dy' w',
  match i_kind sp with 0 => me' = Some me | 1 => sq' = Some sq | 2 => dy' = Some dy | 3 => dy' = Some dy /\ w' = Some w | _ => False end%nat ->
  forall i, (i < n)%nat -> iselect sp me' sq' None dy' w' i = Ok (i_meaning sp me sq [] dy w i).
Proof.
  intros [L He Hk Hd] sp me' sq' dy' w' H i Hi. destruct L as (L1 & L2 & L3 & L4 & L5 & L6). pose proof (Hk i Hi) as K. cbv zeta in K. destruct K as (_ & _ & G1 & G2 & _).
  destruct sp; cbn [i_kind] in H; try contradiction; try (match type of H with _ /\ _ => destruct H as [-> ->] | _ => rewrite H end); cbn [iselect need bind i_meaning];
    try (rewrite (pyget_nth sq i kdef) by lia; cbn [bind]); try (rewrite (pyget_nth dy i ddef) by lia; cbn [bind need]); try (now apply pyget_nth; lia); try reflexivity.
  - apply forces_ok. intros E. specialize (Hd i Hi). rewrite E in Hd. discriminate.
  - now rewrite centroidal_force_total.
  - now rewrite centroidal_moment_total.
  - rewrite slice4 by lia. reflexivity.
  - rewrite slice3 by lia. reflexivity.
Qed.
Definition i_size (sp : ispec) : nat := match sp with IPosition | IVelocity | IPositionAbs | IVelocityAbs | IForces => 12 | IQuaternion => 4 | _ => 3 end%nat.
Lemma i_length n nj me sq dy w : quadruped_plan n nj me sq dy -> forall sp, sp <> IFeedback -> forall i, (i < n)%nat -> length (i_meaning sp me sq [] dy w i) = i_size sp.
Proof.
  intros [_ He Hk Hd] sp Hf i Hi. pose proof (He i Hi) as (A1 & A2 & A3 & A4). pose proof (Hk i Hi) as K. cbv zeta in K. destruct K as (K1 & K2 & K3 & K4 & K5 & K6 & K7 & K8). pose proof (Hd i Hi) as D.
  destruct sp; cbn [i_meaning i_size]; unfold ItpSpec.kin; rewrite ?forces_length, ?map_length; auto; try congruence; [rewrite D; reflexivity].
Qed.
Lemma interp_fun tv nj me sq dy w : tv <> [] -> increasing tv -> quadruped_plan (length tv) nj me sq dy -> forall sp me' sq' dy' w',
  match i_kind sp with 0 => me' = Some me | 1 => sq' = Some sq | 2 => dy' = Some dy | 3 => dy' = Some dy /\ w' = Some w | _ => False end%nat ->
  exists f g, interpolate sp tv me' sq' None dy' w' = Ok f /\ (forall t, f t = Ok (g t)) /\ (forall t, length (g t) = i_size sp) /\ forall t, on_curve tv (i_meaning sp me sq [] dy w) t (g t).
Proof.
  intros Hne Hinc Hp sp me' sq' dy' w' H. assert (Hf : sp <> IFeedback) by (intros ->; exact H).
  pose proof (i_length _ _ _ _ _ w Hp sp Hf) as HL. assert (Hn : (0 < length tv)%nat) by (destruct tv; [congruence|cbn; lia]).
  destruct (curve_fun tv (i_meaning sp me sq [] dy w) (iselect sp me' sq' None dy' w') Hne Hinc (iselect_qp _ _ _ _ _ w Hp sp me' sq' dy' w' H)) as (g & Hg).
  { intros i Hi. now rewrite !HL by assumption. }
  exists (eval_at (iselect sp me' sq' None dy' w') tv), g. split; [|split; [|split]]; try (intros t; apply (Hg t)).
  - apply interpolate_some. destruct sp; cbn [i_kind] in H; try contradiction; try (match type of H with _ /\ _ => destruct H as [H _] end); rewrite H; intuition discriminate.
  - intros t. apply (curve_length tv _ t _ _ Hne Hinc HL (proj2 (Hg t))).
Qed.
Lemma sampled_fill N tv s g : (forall t, on_curve tv s t (g t)) -> sampled N 1 tv s (map (fun i => INR i :: g (ms i)) (seq 0 N)).
Proof.
  intros H. split; [now rewrite map_length, seq_length|]. intros i Hi. exists (g (INR i / 1000)). split; [apply H|]. rewrite nth_map_seq by exact Hi. f_equal.
  rewrite <- (map_id (g (ms i))) at 1. apply map_ext. intros x. ring.
Qed.
Lemma sampled_fill_div N d tv s g : (forall t, on_curve tv s t (g t)) -> sampled N (1 / d) tv s (map (fun i => INR i :: map (fun x => x / d) (g (ms i))) (seq 0 N)).
Proof.
  intros H. split; [now rewrite map_length, seq_length|]. intros i Hi. exists (g (INR i / 1000)). split; [apply H|]. rewrite nth_map_seq by exact Hi. f_equal.
  apply map_ext. intros x. unfold Rdiv. ring.
Qed.
Lemma nth_columns p r j : (j < length p)%nat -> nth j (columns p r) 0 = nth (nth j p 0%nat) r 0.
Proof. intros H. unfold columns. rewrite nth_indep with (d' := nth (nth 0 p 0%nat) r 0) by (now rewrite map_length). revert j H. induction p as [|x p IH]; intros [|j] H; cbn in *; try lia; auto.
  destruct p; [cbn in H; lia|]. rewrite <- IH by lia. apply nth_indep. rewrite map_length. lia. Qed.
Lemma sampled_feet_map order sw N tv s g : (sw = swap_pairs /\ order = sides_exchanged \/ sw = swap_ends /\ order = reversed) -> (forall t, on_curve tv s t (g t)) ->
  sampled_feet order N tv s (map sw (map (fun i => INR i :: g (ms i)) (seq 0 N))).
Proof.
  intros Hs H. split; [now rewrite !map_length, seq_length|]. intros i Hi. exists (g (INR i / 1000)). split; [apply H|].
  rewrite map_map, nth_map_seq by exact Hi. fold (ms i). destruct Hs as [[-> ->]|[-> ->]]; (split; [reflexivity|]; split; [reflexivity|]); intros e c He Hc;
    (destruct e as [|[|[|[|e]]]]; [..|lia]); (destruct c as [|[|[|c]]]; [..|lia]); reflexivity.
Qed.
Lemma sampled_six_map N tv s g : (forall t, on_curve tv s t (g t)) -> sampled_six sides_exchanged N tv s (map six (map swap_pairs (map (fun i => INR i :: g (ms i)) (seq 0 N)))).
Proof.
  intros H. split; [now rewrite !map_length, seq_length|]. intros i Hi. exists (g (INR i / 1000)). split; [apply H|].
  rewrite !map_map, nth_map_seq by exact Hi. fold (ms i). split; [reflexivity|]. intros e c He Hc.
  (destruct e as [|[|[|[|e]]]]; [..|lia]); (destruct c as [|[|[|c]]]; [..|lia]); split; reflexivity.
Qed.
Lemma sampled_contacts_map N tv s g : (forall t, on_curve tv s t (g t)) -> sampled_contacts sides_exchanged N tv s (activations (map swap_pairs (map (fun i => INR i :: g (ms i)) (seq 0 N)))).
Proof.
  intros H. unfold activations. rewrite !map_length, seq_length.
  assert (E : map (fun p => activation (fst p) (snd p)) (combine (seq 0 N) (map swap_pairs (map (fun i => INR i :: g (ms i)) (seq 0 N)))) = map (fun i => activation i (swap_pairs (INR i :: g (ms i)))) (seq 0 N)).
  { rewrite map_map. generalize (seq 0 N). intros l. induction l as [|x l IH]; [reflexivity|]. cbn [map combine]. now rewrite IH. }
  rewrite E. split; [now rewrite map_length, seq_length|]. intros i Hi. exists (g (INR i / 1000)). split; [apply H|]. rewrite nth_map_seq by exact Hi. fold (ms i). split; [reflexivity|]. split; [reflexivity|].
  intros e He. destruct e as [|[|[|[|e]]]]; [..|lia]; cbn; match goal with |- context[Rlt_dec 0 ?x] => destruct (Rlt_dec 0 x) end; split; intros; try reflexivity; exfalso; lra.
Qed.

(** ** C75: create_qp_files covers the horizon in whole seconds, one row per millisecond. *)
Section QP.
Context (tv : list R) (nj : nat) (me : motioneff) (sq : list kstate) (dy : list dstate) (weight : R).
Hypothesis Hne : tv <> [].
Hypothesis Hinc : increasing tv.
Hypothesis Hp : quadruped_plan (length tv) nj me sq dy.
Hypothesis Hw : weight <> 0.
Hypothesis Hh : 0 <= horizon tv.
Let m sp := i_meaning sp me sq [] dy weight.
Lemma bind_ok {A B} (a : A) (f : A -> res B) : bind (Ok a) f = f a. Proof. reflexivity. Qed.
Lemma qp_files_form fs : exists N gJ gJV gP gV gC gL gF gQ gCF gCM gB gPA gVA, let F (g : R -> list R) := map (fun i => INR i :: g (ms i)) (seq 0 N) in
  create_qp_files tv me sq dy weight fs = Ok (
   savetxt "quadruped_gain_ratio.dat" (map (fun i => INR i :: repeat 0 8) (seq 0 N)) (savetxt "quadruped_contact_activation.dat" (activations (map swap_pairs (F gF)))
   (savetxt "quadruped_velocities_abs.dat" (map swap_pairs (F gVA)) (savetxt "quadruped_positions_abs.dat" (map swap_pairs (F gPA))
   (savetxt "quadruped_base_ang_velocities.dat" (F gB) (savetxt "quadruped_quaternion.dat" (F gQ) (savetxt "quadruped_centroidal_moments.dat" (F gCM) (savetxt "quadruped_centroidal_forces.dat" (F gCF)
   (savetxt "quadruped_com_vel.dat" (F (fun t => map (fun x => x / (weight / (981 / 100))) (gL t))) (savetxt "quadruped_com.dat" (F gC)
   (savetxt "quadruped_velocities_eff.dat" (map six (map swap_pairs (F gV))) (savetxt "quadruped_positions_eff.dat" (map six (map swap_pairs (F gP)))
   (savetxt "quadruped_velocities.dat" (map six (map swap_pairs (F gV))) (savetxt "quadruped_positions.dat" (F gJ) fs)))))))))))))) /\
  horizon tv - / 1000 <= INR N / 1000 < horizon tv + 1 /\ (exists k, N = (1000 * k)%nat) /\ (forall t, length (gJ t) = nj) /\
  (forall t, on_curve tv (d_meaning DPosition sq [] dy) t (gJ t)) /\ (forall t, on_curve tv (d_meaning DVelocity sq [] dy) t (gJV t)) /\
  (forall t, on_curve tv (m IPosition) t (gP t)) /\ (forall t, on_curve tv (m IVelocity) t (gV t)) /\ (forall t, on_curve tv (m ICom) t (gC t)) /\ (forall t, on_curve tv (m ILmom) t (gL t)) /\
  (forall t, on_curve tv (m IForces) t (gF t)) /\ (forall t, on_curve tv (m IQuaternion) t (gQ t)) /\ (forall t, on_curve tv (m ICentroidalForces) t (gCF t)) /\
  (forall t, on_curve tv (m ICentroidalMoments) t (gCM t)) /\ (forall t, on_curve tv (m IBaseAngVel) t (gB t)) /\ (forall t, on_curve tv (m IPositionAbs) t (gPA t)) /\ (forall t, on_curve tv (m IVelocityAbs) t (gVA t)).
Proof.
  assert (Hn : (0 < length tv)%nat) by (destruct tv; [congruence|cbn; lia]).
  destruct (qp_points_ok tv Hne Hh) as (N & EN & HN & Hk). pose proof (desired_fun tv nj me sq dy Hne Hinc Hp) as D. pose proof (interp_fun tv nj me sq dy weight Hne Hinc Hp) as I.
  unfold create_qp_files. cbv zeta.
  destruct (D DPosition None ltac:(discriminate) ltac:(discriminate)) as (fJ & gJ & -> & FJ & CJ). rewrite bind_ok.
  destruct (D DVelocity None ltac:(discriminate) ltac:(discriminate)) as (fJV & gJV & -> & FJV & CJV). rewrite bind_ok.
  destruct (I IPosition (Some me) (Some sq) None None eq_refl) as (fP & gP & -> & FP & LP & CP). rewrite bind_ok.
  destruct (I IVelocity (Some me) (Some sq) None None eq_refl) as (fV & gV & -> & FV & LV & CV). rewrite bind_ok.
  destruct (I ICom (Some me) (Some sq) None None eq_refl) as (fC & gC & -> & FC & LC & CC). rewrite bind_ok.
  destruct (I ILmom (Some me) (Some sq) None None eq_refl) as (fL & gL & -> & FL & LL & CL). rewrite bind_ok.
  destruct (I IForces None None (Some dy) None eq_refl) as (fF & gF & -> & FF & LF & CF). rewrite bind_ok.
  destruct (I IQuaternion None (Some sq) None None eq_refl) as (fQ & gQ & -> & FQ & LQ & CQ). rewrite bind_ok.
  destruct (I ICentroidalForces None None (Some dy) (Some weight) (conj eq_refl eq_refl)) as (fCF & gCF & -> & FCF & LCF & CCF). rewrite bind_ok.
  destruct (I ICentroidalMoments None None (Some dy) (Some weight) (conj eq_refl eq_refl)) as (fCM & gCM & -> & FCM & LCM & CCM). rewrite bind_ok.
  destruct (I IBaseAngVel None (Some sq) None None eq_refl) as (fB & gB & -> & FB & LB & CB). rewrite bind_ok.
  destruct (I IPositionAbs (Some me) (Some sq) None None eq_refl) as (fPA & gPA & -> & FPA & LPA & CPA). rewrite bind_ok.
  destruct (I IVelocityAbs (Some me) (Some sq) None None eq_refl) as (fVA & gVA & -> & FVA & LVA & CVA). rewrite bind_ok.
  rewrite EN. rewrite bind_ok. pose proof (proj1 (proj2 (proj2 (qp_kin _ _ _ _ _ Hp 0%nat Hn)))) as K0. pose proof (qp_len _ _ _ _ _ Hp) as (_ & _ & _ & _ & L5 & _).
  rewrite (pyget_nth sq 0 kdef) by lia. rewrite bind_ok. rewrite K0. replace (nj + 7 - 7)%nat with nj by lia.
  assert (LJ : forall t, length (gJ t) = nj).
  { intros t. apply (curve_length tv _ t _ nj Hne Hinc) with (2 := CJ t). intros i Hi. apply (qp_kin _ _ _ _ _ Hp i Hi). }
  assert (LJV : forall t, length (gJV t) = nj).
  { intros t. apply (curve_length tv _ t _ nj Hne Hinc) with (2 := CJV t). intros i Hi. apply (qp_kin _ _ _ _ _ Hp i Hi). }
  assert (FD : forall t, divided (weight / (981 / 100)) fL t = Ok (map (fun x => x / (weight / (981 / 100))) (gL t))).
  { intros t. unfold divided. rewrite FL. cbn [bind]. destruct (Req_EM_T (weight / (981 / 100)) 0) as [E|E]; [|reflexivity]. exfalso. apply Hw.
    replace weight with (weight / (981 / 100) * (981 / 100)) by field. rewrite E. ring. }
  rewrite (fill_ok _ N 13 fF gF), (fill_ok _ N 4 fCF gCF), (fill_ok _ N 4 fCM gCM), (fill_ok _ N (nj + 1) fJ gJ), (fill_ok _ N (nj + 1) fJV gJV), (fill_ok _ N 13 fP gP), (fill_ok _ N 13 fV gV), (fill_ok _ N 4 fC gC),
    (fill_ok _ N 4 (divided (weight / (981 / 100)) fL) (fun t => map (fun x => x / (weight / (981 / 100))) (gL t))), (fill_ok _ N 5 fQ gQ), (fill_ok _ N 4 fB gB), (fill_ok _ N 13 fPA gPA), (fill_ok _ N 13 fVA gVA); auto;
    try lia; try (intros t; rewrite ?map_length, ?LF, ?LCF, ?LCM, ?LJ, ?LJV, ?LP, ?LV, ?LC, ?LL, ?LQ, ?LB, ?LPA, ?LVA; cbn; lia).
  rewrite !bind_ok. exists N, gJ, gJV, gP, gV, gC, gL, gF, gQ, gCF, gCM, gB, gPA, gVA. split; [reflexivity|]. auto 20.
Qed.

(** Every quantity is in its file, per foot in the order that exchanges left and right, activations from the interpolated vertical forces; nothing else is written. *)
Theorem C75_create_qp_files_partial fs : exists fs' N, create_qp_files tv me sq dy weight fs = Ok fs' /\ horizon tv - / 1000 <= INR N / 1000 < horizon tv + 1 /\ (exists k, N = (1000 * k)%nat) /\
  (exists a, contents fs' "quadruped_positions.dat" = Some a /\ sampled N 1 tv (d_meaning DPosition sq [] dy) a) /\
  (forall name scale sp, In (name, scale, sp) (qp_vector_table weight) -> exists a, contents fs' name = Some a /\ sampled N scale tv (m sp) a) /\
  (forall name sp, In (name, sp) qp_feet_table -> exists a, contents fs' name = Some a /\ sampled_feet sides_exchanged N tv (m sp) a) /\
  (forall name sp, In (name, sp) qp_six_table -> exists a, contents fs' name = Some a /\ sampled_six sides_exchanged N tv (m sp) a) /\
  (exists a, contents fs' "quadruped_contact_activation.dat" = Some a /\ sampled_contacts sides_exchanged N tv (m IForces) a) /\
  (exists a, contents fs' "quadruped_gain_ratio.dat" = Some a /\ length a = N /\ forall i, (i < N)%nat -> nth i a [] = INR i :: repeat 0 8) /\
  (forall name, ~ In name (qp_names weight) -> contents fs' name = contents fs name).
Proof.
  destruct (qp_files_form fs) as (N & gJ & gJV & gP & gV & gC & gL & gF & gQ & gCF & gCM & gB & gPA & gVA & E & HN & Hk & LJ & CJ & CJV & CP & CV & CC & CL & CF & CQ & CCF & CCM & CB & CPA & CVA). cbv zeta in E.
  do 2 eexists. split; [exact E|]. split; [exact HN|]. split; [exact Hk|]. clear E.
  split; [eexists; split; [reflexivity|now apply sampled_fill]|].
  split.
  { intros name scale sp H. cbn [qp_vector_table In] in H. repeat (destruct H as [H|H]; [injection H as <- <- <-; eexists; split; [reflexivity|]; first [now apply sampled_fill | now apply sampled_fill_div]|]). destruct H. }
  split.
  { intros name sp H. cbn [qp_feet_table In] in H. repeat (destruct H as [H|H]; [injection H as <- <-; eexists; split; [reflexivity|]; apply sampled_feet_map; auto|]). destruct H. }
  split.
  { intros name sp H. cbn [qp_six_table In] in H. repeat (destruct H as [H|H]; [injection H as <- <-; eexists; split; [reflexivity|]; now apply sampled_six_map|]). destruct H. }
  split; [eexists; split; [reflexivity|now apply sampled_contacts_map]|].
  split; [eexists; split; [reflexivity|]; split; [now rewrite map_length, seq_length|intros i Hi; now rewrite nth_map_seq by exact Hi]|].
  intros name H. assert (X : forall n, In n (qp_names weight) -> n <> name) by (intros n Hn ->; exact (H Hn)).
  rewrite !set_nth_file. repeat match goal with |- context[string_dec ?a name] => destruct (string_dec a name) as [E|_]; [exfalso; revert E; apply X; cbn; intuition reflexivity|] end. reflexivity.
Qed.
(** Missing from the above: quadruped_velocities.dat.  It should hold the joint velocities; it is a copy of quadruped_velocities_eff.dat (24 columns of foot velocities, no index), and so overwrites the file of create_file with another quantity. *)
Theorem C75_joint_velocities_refuted fs fs' : 1 / 1000 < horizon tv -> nj <> 23%nat -> create_qp_files tv me sq dy weight fs = Ok fs' ->
  contents fs' "quadruped_velocities.dat" = contents fs' "quadruped_velocities_eff.dat" /\
  ~ exists a N, contents fs' "quadruped_velocities.dat" = Some a /\ (0 < N)%nat /\ sampled N 1 tv (d_meaning DVelocity sq [] dy) a.
Proof.
  intros Ht Hj E'. destruct (qp_files_form fs) as (N & gJ & gJV & gP & gV & gC & gL & gF & gQ & gCF & gCM & gB & gPA & gVA & E & HN & Hk & LJ & CJ & CJV & CP & CV & _). cbv zeta in E. rewrite E in E'. injection E' as <-.
  split; [reflexivity|]. intros (a & M & Ea & HM & S). assert (HN' : (0 < N)%nat) by (destruct N; [exfalso; cbn in HN; lra|lia]).
  assert (Ea' : a = map six (map swap_pairs (map (fun i => INR i :: gV (ms i)) (seq 0 N)))) by (injection Ea as <-; reflexivity). clear Ea.
  destruct S as [La S]. destruct (S 0%nat HM) as (v & C & Er). apply (f_equal (@List.length R)) in Er. rewrite Ea' in Er. rewrite !map_map, nth_map_seq in Er by exact HN'.
  cbn [List.length] in Er. rewrite map_length in Er. rewrite (curve_length tv _ _ v nj Hne Hinc) with (2 := C) in Er by (intros i Hi; apply (qp_kin _ _ _ _ _ Hp i Hi)). cbn in Er. lia.
Qed.
(** create_lqr_files writes the absolute foot positions, one row per millisecond, feet in reversed order (plan order 0,1,2,3 becomes 3,2,1,0). *)
Theorem C75_create_lqr_files fb fs : exists fs' N a, create_lqr_files tv me sq (Some fb) dy weight fs = Ok fs' /\ horizon tv - / 1000 <= INR N / 1000 < horizon tv + 1 /\ (exists k, N = (1000 * k)%nat) /\
  contents fs' "quadruped_positions_abs_with_horizon_part.dat" = Some a /\ sampled_feet reversed N tv (m IPositionAbs) a /\
  forall name, name <> "quadruped_positions_abs_with_horizon_part.dat"%string -> contents fs' name = contents fs name.
Proof.
  destruct (qp_points_ok tv Hne Hh) as (N & EN & HN & Hk). pose proof (interp_fun tv nj me sq dy weight Hne Hinc Hp) as I.
  unfold create_lqr_files. cbv zeta. rewrite interpolate_some by (right; right; left; discriminate). cbn [bind].
  destruct (I IPosition (Some me) (Some sq) None None eq_refl) as (fP & gP & -> & FP & LP & CP). cbn [bind].
  destruct (I IVelocity (Some me) (Some sq) None None eq_refl) as (fV & gV & -> & FV & LV & CV). cbn [bind].
  destruct (I ICom (Some me) (Some sq) None None eq_refl) as (fC & gC & -> & FC & LC & CC). cbn [bind].
  destruct (I ILmom (Some me) (Some sq) None None eq_refl) as (fL & gL & -> & FL & LL & CL). cbn [bind].
  destruct (I IForces None None (Some dy) None eq_refl) as (fF & gF & -> & FF & LF & CF). cbn [bind].
  destruct (I IQuaternion None (Some sq) None None eq_refl) as (fQ & gQ & -> & FQ & LQ & CQ). cbn [bind].
  destruct (I IBaseAngVel None (Some sq) None None eq_refl) as (fB & gB & -> & FB & LB & CB). cbn [bind].
  destruct (I IPositionAbs (Some me) (Some sq) None None eq_refl) as (fPA & gPA & -> & FPA & LPA & CPA). cbn [bind].
  rewrite EN. cbn [bind].
  rewrite (fill_ok _ N 13 fP gP), (fill_ok _ N 13 fV gV), (fill_ok _ N 13 fF gF), (fill_ok _ N 4 fC gC), (fill_ok _ N 4 fL gL), (fill_ok _ N 5 fQ gQ), (fill_ok _ N 4 fB gB), (fill_ok _ N 13 fPA gPA); auto;
    try lia; try (intros t; rewrite ?LF, ?LP, ?LV, ?LC, ?LL, ?LQ, ?LB, ?LPA; cbn; lia).
  cbn [bind]. do 3 eexists. split; [reflexivity|]. split; [exact HN|]. split; [exact Hk|]. split; [reflexivity|]. split; [apply sampled_feet_map; auto|].
  intros name H. rewrite set_nth_file. destruct (string_dec _ name); [congruence|reflexivity].
Qed.
(** For forces that never pull, a foot counts as active at a time strictly between two states exactly if one of the two states has a force on it. *)
Theorem C75_activation i t e v : (S i < length tv)%nat -> stamp tv i < t < stamp tv (S i) -> on_curve tv (m IForces) t v -> (e < 4)%nat ->
  (forall k, (k < length tv)%nat -> 0 <= nth (3 * e + 2) (m IForces k) 0) ->
  (0 < nth (3 * e + 2) v 0 <-> 0 < nth (3 * e + 2) (m IForces i) 0 \/ 0 < nth (3 * e + 2) (m IForces (S i)) 0).
Proof.
  intros Hi Ht C He Hpos. rewrite (oc_between _ _ _ _ C i Hi) by lra. unfold m in *. rewrite between_nth by (rewrite !(i_length _ _ _ _ _ weight Hp) by (try lia; discriminate); reflexivity).
  pose proof (Hpos i ltac:(lia)) as A. pose proof (Hpos (S i) ltac:(lia)) as B. set (a := nth (3 * e + 2) (i_meaning IForces me sq [] dy weight i) 0) in *. set (b := nth (3 * e + 2) (i_meaning IForces me sq [] dy weight (S i)) 0) in *.
  assert (Hl : 0 < (t - stamp tv i) / (stamp tv (S i) - stamp tv i) < 1).
  { split; [apply Rdiv_lt_0_compat; lra|]. apply (Rmult_lt_reg_r (stamp tv (S i) - stamp tv i)); [lra|]. unfold Rdiv. rewrite Rmult_assoc, Rinv_l by lra. lra. }
  set (l := (t - stamp tv i) / (stamp tv (S i) - stamp tv i)) in *. clearbody l a b. split; intros H.
  - destruct (Rlt_dec 0 a) as [|Na]; [now left|]. destruct (Rlt_dec 0 b) as [|Nb]; [now right|]. exfalso. assert (a = 0) by lra. assert (b = 0) by lra. subst. lra.
  - destruct H as [H|H]; [pose proof (Rmult_lt_0_compat (1 - l) a ltac:(lra) H); pose proof (Rmult_le_pos l b ltac:(lra) B); lra | pose proof (Rmult_le_pos (1 - l) a ltac:(lra) A); pose proof (Rmult_lt_0_compat l b ltac:(lra) H); lra].
Qed.
End QP.
Print Assumptions C75_create_qp_files_partial.
Print Assumptions C75_joint_velocities_refuted.
Print Assumptions C75_create_lqr_files.
Print Assumptions C75_activation.

(** ** A plan that meets the hypotheses: eight joints, two states one second apart, the second with the front-right foot unloaded. *)
Definition ex_k (x : R) : kstate := KS (repeat x 8) (repeat 1 8) ([x; 0; 1; 0; 0; 0; 1] ++ repeat x 8) (repeat 0 14) (repeat 0 14) [x; 0; 1] [x; 0; 0] [0; 0; 0].
Definition ex_d (f : R) : dstate := DS (V3 0 0 1) [(V3 0 0 f, V3 1 1 0); (V3 0 0 1, V3 1 (-1) 0); (V3 0 0 1, V3 (-1) 1 0); (V3 0 0 1, V3 (-1) (-1) 0)].
Definition ex_me : motioneff := ME (repeat (repeat 1 12) 2) (repeat (repeat 2 12) 2) (repeat (repeat 3 12) 2) (repeat (repeat 4 12) 2).
Definition ex_tv := [0; 1].
Example C74_hypotheses_hold : ex_tv <> [] /\ increasing ex_tv /\ quadruped_plan (length ex_tv) 8 ex_me [ex_k 0; ex_k 1] [ex_d 1; ex_d 0] /\ / 2000 < horizon ex_tv /\ 1 / 1000 < horizon ex_tv.
Proof.
  split; [discriminate|]. split; [intros i Hi; cbn in Hi; assert (i = 0)%nat as -> by lia; unfold stamp; cbn; lra|]. split; [|unfold horizon, stamp; cbn; lra].
  split; cbn [length ex_tv ex_me me_traj_base me_vel_base me_traj me_vel]; [repeat split| | |];
    intros i Hi; (destruct i as [|[|i]]; [..|exfalso; cbn in Hi; lia]); cbn; repeat split.
Qed.
(** In the middle of that plan the foot (second of the file) counts as active, at the end (and from there on) it does not. *)
Example C75_activation_example : let s := i_meaning IForces ex_me [ex_k 0; ex_k 1] [] [ex_d 1; ex_d 0] 100 in
  (forall v, on_curve ex_tv s (/ 2) v -> 0 < nth 2 v 0) /\ (forall v, on_curve ex_tv s 1 v -> nth 2 v 0 = 0).
Proof.
  cbv zeta. split; intros v C.
  - rewrite (oc_between _ _ _ _ C 0%nat) by (unfold stamp; cbn; lra || lia). unfold between, stamp. cbn. lra.
  - rewrite (oc_after _ _ _ _ C) by (unfold stamp; cbn; lra). reflexivity.
Qed.

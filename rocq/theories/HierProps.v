(** * C28: lower-priority tasks never disturb higher-priority tasks (hierarchical solver) *)
From Coq Require Import Reals List Arith Bool Lia Lra.
Import ListNotations.
From Verif Require Import Base BaseProofs RtMatModel RtMatProofs HierModel HierSpec HierProofs HierProofs2 HierProofs3.
Local Open Scope R_scope.

Lemma row_value_rowval : forall n M v i x, nc M = n -> row_value M v i x = rowval M v i n x.
Proof. intros. unfold row_value, rowval. now rewrite H. Qed.

(** After any further tasks the equality residuals of a task are what they were right after that task. *)
Theorem C28_equalities_preserved : forall nullmap qp least_norm relax diag capA capB n before t later s0 s1 s2 b,
  null_space nullmap ->
  h_run nullmap qp least_norm relax diag capA capB before (h_reset n) = Ok s0 ->
  h_task nullmap qp least_norm relax diag capA capB s0 t = Ok (s1, b) ->
  h_run nullmap qp least_norm relax diag capA capB later s1 = Ok s2 ->
  forall i, (i < nr (t_E t))%nat -> equality_residual t i (h_x s2) = equality_residual t i (h_x s1).
Proof.
  intros nullmap qp ln relax diag capA capB n pre t post s0 s1 s2 b NS H0 H1 H2 i Hi.
  assert (N1 : forall B, nr (nullmap B) = nc B) by (intros; apply NS). assert (N2 := fun B => proj2 (NS B)).
  assert (D0 : dims nullmap n s0) by (eapply dims_run; [exact N1|apply dims_reset|exact H0]).
  assert (D1 : dims nullmap n s1) by (eapply dims_task; eassumption).
  destruct (task_cols _ _ _ _ _ _ _ n s0 t _ D0 H1) as [Z|Z]; [lia|].
  unfold equality_residual, row_value. rewrite Z. f_equal.
  eapply annih_run; [exact N1|exact D1|exact H2| |exact Hi]. eapply annih_new; [exact N1|exact N2|exact D0|exact H1|now right].
Qed.

(** With an exact quadratic program solver an inequality that holds after its task is later violated by at most the relaxation times the number of later tasks. *)
Theorem C28_inequalities_preserved : forall nullmap qp least_norm relax diag capA capB n before t later s0 s1 s2,
  null_space nullmap -> exact_qp qp -> 0 <= relax -> 0 <= diag ->
  (forall u, In u (t :: later) -> t_slack u = true) ->
  h_run nullmap qp least_norm relax diag capA capB before (h_reset n) = Ok s0 ->
  h_task nullmap qp least_norm relax diag capA capB s0 t = Ok (s1, true) ->
  h_run nullmap qp least_norm relax diag capA capB later s1 = Ok s2 ->
  forall i, (i < nr (t_C t))%nat -> inequality_value t i (h_x s1) <= 0 -> inequality_value t i (h_x s2) <= INR (length later) * relax.
Proof.
  intros nullmap qp ln relax diag capA capB n pre t post s0 s1 s2 NS Q Hr Hd Hs H0 H1 H2 i Hi Hv.
  assert (N1 : forall B, nr (nullmap B) = nc B) by (intros; apply NS).
  assert (Qf : forall H g A a v, qp H g A a = Some v -> feas A a v) by (intros H g A a v E; exact (proj1 (Q H g A a v E))).
  assert (Qo : forall H g A a v, qp H g A a = Some v -> forall y, feas A a y -> objective H g v <= objective H g y) by (intros H g A a v E; exact (proj2 (Q H g A a v E))).
  assert (D0 : dims nullmap n s0) by (eapply dims_run; [exact N1|apply dims_reset|exact H0]).
  destruct (h_task_cases nullmap qp ln relax diag capA capB n s0 t s1 true D0 H1) as [(E & _)|(He & O & Hz & -> & Hb)].
  { unfold early in E. destruct (Nat.eqb_spec (nr (t_C t)) 0); [lia|]. rewrite !andb_false_r in E. discriminate. }
  assert (Ht : t_slack t = true) by (apply Hs; now left). rewrite Ht in Hb. destruct (sol qp relax diag s0 t) as [v|] eqn:Es; [|discriminate].
  assert (Cn : nc (t_C t) = n) by (destruct O as (_ & _ & [Z|[Z _]] & _); [lia|exact Z]).
  unfold inequality_value in *. rewrite (row_value_rowval n) in * by exact Cn.
  assert (W : va v (nc (Neff s0) + i)%nat = 0) by (eapply zero_slack; try eassumption).
  assert (R : row_inv relax n (t_C t) (t_c t) i (vn (h_a s0) + i) 0 (after nullmap qp ln relax diag s0 t)) by (eapply row_start; try eassumption; reflexivity).
  assert (D1 : dims nullmap n (after nullmap qp ln relax diag s0 t)) by (eapply dims_task; eassumption).
  assert (R2 : row_inv relax n (t_C t) (t_c t) i (vn (h_a s0) + i) (0 + INR (length post)) s2) by (eapply row_run; try eassumption; [intros; apply Hs; now right|lra]).
  apply row_final in R2. now rewrite Rplus_0_l in R2.
Qed.

(** A solved task minimises its own cost (squared residual of its equalities, squared slacks, and the diagonal regularisation) among all moves within the null space of
    the earlier tasks that keep the carried constraints. *)
Theorem C28_task_optimal : forall nullmap qp least_norm relax diag capA capB n before t s0 s1,
  null_space nullmap -> exact_qp qp -> t_slack t = true -> (0 < nr (t_C t) \/ 0 < nr (t_E t) /\ 0 < nc (h_K s0))%nat ->
  h_run nullmap qp least_norm relax diag capA capB before (h_reset n) = Ok s0 ->
  h_task nullmap qp least_norm relax diag capA capB s0 t = Ok (s1, true) ->
  exists z w, vn z = nc (h_N s1) /\ vn w = nr (t_C t) /\ h_x s1 = move (h_x s0) (h_N s1) z /\
    (forall i, (i < nr (h_A s0))%nat -> row_value (h_A s1) (h_a s1) i z <= 0) /\ (forall i, (i < nr (t_C t))%nat -> inequality_value t i (h_x s1) + va w i <= 0) /\
    forall z' w', vn z' = nc (h_N s1) -> vn w' = nr (t_C t) ->
      (forall i, (i < nr (h_A s0))%nat -> row_value (h_A s1) (h_a s1) i z' <= 0) ->
      (forall i, (i < nr (t_C t))%nat -> inequality_value t i (move (h_x s0) (h_N s1) z') + va w' i <= 0) ->
      task_cost diag t (h_x s1) z w <= task_cost diag t (move (h_x s0) (h_N s1) z') z' w'.
Proof.
  intros nullmap qp ln relax diag capA capB n pre t s0 s1 NS Q Ht Hne H0 H1.
  assert (N1 : forall B, nr (nullmap B) = nc B) by (intros; apply NS).
  assert (D0 : dims nullmap n s0) by (eapply dims_run; [exact N1|apply dims_reset|exact H0]).
  assert (He : early s0 t = false).
  { unfold early. destruct (Nat.eqb_spec (nr (t_C t)) 0); rewrite ?andb_false_r, ?andb_true_r; [|reflexivity].
    destruct Hne as [Z|[Z1 Z2]]; [lia|]. destruct (Nat.eqb_spec (nr (t_E t)) 0), (Nat.eqb_spec (nc (h_K s0)) 0); try lia; reflexivity. }
  pose proof (task_optimal nullmap qp ln relax diag capA capB n s0 t s1 Q D0 H1 Ht He) as (z & w & Hz & Hw & Hx & F1 & F2 & Op).
  exists z, w. repeat split; auto.
  - intros i Hi. unfold inequality_value. destruct (h_task_cases nullmap qp ln relax diag capA capB n s0 t s1 true D0 H1) as [(E & _)|(_ & O & _)]; [congruence|].
    rewrite (row_value_rowval n) by (destruct O as (_ & _ & [Z|[Z _]] & _); [lia|exact Z]). now apply F2.
  - intros z' w' Hz' Hw' G1 G2. apply Op; auto. intros i Hi. specialize (G2 i Hi). unfold inequality_value in G2.
    destruct (h_task_cases nullmap qp ln relax diag capA capB n s0 t s1 true D0 H1) as [(E & _)|(_ & O & _)]; [congruence|].
    rewrite (row_value_rowval n) in G2 by (destruct O as (_ & _ & [Z|[Z _]] & _); [lia|exact Z]). exact G2.
Qed.

(** Well-formed hierarchies that fit the compile-time capacities never fail an assertion, whatever the oracles answer. *)
Theorem C28_no_assertion : forall nullmap qp least_norm relax diag capA capB n tasks,
  (forall B, nr (nullmap B) = nc B) -> Forall (well_formed n capB) tasks -> (forall t, In t tasks -> t_slack t = true) -> (inequality_rows tasks <= capA)%nat ->
  exists s, h_run nullmap qp least_norm relax diag capA capB tasks (h_reset n) = Ok s.
Proof.
  intros nullmap qp ln relax diag capA capB n ts N1 W Hs Hc. apply run_ok with (n := n); auto; apply dims_reset.
Qed.

(** Without slacks (applyIneqSlacks() false) the least-norm formula has as many entries as there are variables, so the multiplication by the null-space
    basis fails as soon as an earlier equality task has taken a degree of freedom (finding F24). *)
Theorem C28_no_slacks_refuted : forall qp relax diag capA capB least_norm, (1 <= capB)%nat -> (forall E e, vn (least_norm E e) = nc E) ->
  exists nullmap n t1 t2, null_space nullmap /\ well_formed n capB t1 /\ well_formed n capB t2 /\
    h_run nullmap qp least_norm relax diag capA capB [t1; t2] (h_reset n) = UB.
Proof.
  intros qp relax diag capA capB ln Hb Hl. set (nm := fun B : mat => Mat (nc B) (Nat.pred (nc B)) (fun _ _ => 0)).
  set (t := fun b => mkT (Mat 1 2 (fun _ j => if (j =? 0)%nat then 1 else 0)) (Vec 1 (fun _ => 1)) (Mat 0 2 (fun _ _ => 0)) (Vec 0 (fun _ => 0)) b).
  assert (NS : null_space nm) by (intros B; split; [reflexivity|]; intros; apply rsum_zero; intros; unfold nm; cbn; ring).
  exists nm, 2%nat, (t true), (t false). split; [exact NS|].
  assert (W : forall b, well_formed 2 capB (t b)) by (intros; unfold well_formed; cbn; auto). split; [apply W|]. split; [apply W|].
  assert (D0 : dims nm 2 (h_reset 2)) by apply dims_reset.
  destruct (run_ok nm qp ln relax diag capA capB (fun B => eq_refl) 2 [t true] (h_reset 2) D0) as [s Es]; [repeat constructor; apply W|intros u [<-|[]]; reflexivity|cbn; lia|].
  destruct (h_run_cons _ _ _ _ _ _ _ _ _ _ _ Es) as (s1 & b & E1 & E2). cbn in E2. injection E2 as E2; subst s1.
  assert (D1 : dims nm 2 s) by (eapply dims_task; [intros; apply NS|exact D0|exact E1]).
  unfold h_run. cbn [foldM]. rewrite E1. cbn [bind fst].
  destruct (h_task_cases nm qp ln relax diag capA capB 2 _ _ _ _ D0 E1) as [(X & _)|(_ & _ & _ & Xs & _)]; [discriminate|].
  assert (O : ok_task capA capB 2 s (t false)).
  { apply wf_ok; [apply W|]. rewrite Xs. cbn [HierProofs.after h_A]. rewrite newA_rows. destruct (Neff_cols nm 2 (h_reset 2) D0) as (_ & _ & _ & ->). cbn. lia. }
  rewrite (h_task_eq nm qp ln relax diag capA capB 2 s (t false) D1 O).
  destruct (Neff_cols nm 2 s D1) as (C1 & _). 
  assert (Kc : nc (h_K s) = 1%nat) by (rewrite Xs; reflexivity).
  unfold early. rewrite Kc. cbn [t t_E t_C nr Nat.eqb andb orb]. unfold HierProofs.newz. cbn [t_slack t t_E t_e]. rewrite Hl, C1, Kc. reflexivity.
Qed.

(** ** A violated higher-priority inequality is not protected (finding F21): the slack of the task is added to the clipped bound, so a lower-priority
    task may worsen the violation by as much again. *)
(** An exact solver for diagonal problems that checks two candidate answers by their multipliers. *)
Definition allb (n : nat) (f : nat -> bool) : bool := forallb f (seq 0 n).
Definition leb (x y : R) : bool := if Rle_dec x y then true else false.
Definition eqb (x y : R) : bool := leb x y && leb y x.
Definition kkt (H : mat) (g : vec) (A : mat) (a v lam : vec) : bool :=
  (nr H =? nc A)%nat && allb (nr H) (fun i => allb (nr H) (fun j => if (i =? j)%nat then leb 0 (ma H i j) else eqb (ma H i j) 0))
  && allb (nr A) (fun i => leb (row_value A a i v) 0 && leb 0 (va lam i) && eqb (va lam i * row_value A a i v) 0)
  && allb (nr H) (fun j => eqb (ma H j j * va v j + va g j + rsum (nr A) (fun i => va lam i * ma A i j)) 0).
Lemma leb_le : forall x y, leb x y = true <-> x <= y.
Proof. intros. unfold leb. destruct (Rle_dec x y); split; intros; try discriminate; auto; lra. Qed.
Lemma eqb_eq : forall x y, eqb x y = true <-> x = y.
Proof. intros. unfold eqb. rewrite andb_true_iff, !leb_le. lra. Qed.
Lemma allb_spec : forall n f, allb n f = true <-> forall i, (i < n)%nat -> f i = true.
Proof. intros. unfold allb. rewrite forallb_forall. split; intros H i Hi; apply H; [apply in_seq; lia|apply in_seq in Hi; lia]. Qed.
Lemma kkt_optimal : forall H g A a v lam, kkt H g A a v lam = true -> qp_feasible A a v /\ forall y, qp_feasible A a y -> qp_cost H g v <= qp_cost H g y.
Proof.
  intros H g A a v lam K. unfold kkt in K. apply andb_prop in K. destruct K as [K K4]. apply andb_prop in K. destruct K as [K K3]. apply andb_prop in K. destruct K as [K1 K2].
  apply Nat.eqb_eq in K1. rewrite allb_spec in K2, K3, K4.
  assert (Dg : forall w, qp_cost H g w = rsum (nr H) (fun i => ma H i i * (va w i * va w i) + 2 * (va g i * va w i))).
  { intros w. unfold qp_cost. rewrite rsum_plus, rsum_scal. f_equal. apply rsum_ext; intros i Hi. rewrite (rsum_single (nr H) i); [ring|exact Hi|].
    intros j Hj N. specialize (K2 i Hi). rewrite allb_spec in K2. specialize (K2 j Hj). destruct (Nat.eqb_spec i j); [congruence|]. apply eqb_eq in K2. rewrite K2. ring. }
  assert (Pd : forall i, (i < nr H)%nat -> 0 <= ma H i i).
  { intros i Hi. specialize (K2 i Hi). rewrite allb_spec in K2. specialize (K2 i Hi). rewrite Nat.eqb_refl in K2. now apply leb_le in K2. }
  assert (F : qp_feasible A a v). { intros i Hi. specialize (K3 i Hi). rewrite !andb_true_iff in K3. now apply leb_le. }
  split; [exact F|]. intros y Hy. rewrite !Dg.
  assert (L : 0 <= rsum (nr H) (fun i => (ma H i i * va v i + va g i) * (va y i - va v i))).
  { rewrite (rsum_ext (nr H) _ (fun i => - rsum (nr A) (fun r => va lam r * ma A r i * (va y i - va v i)))).
    - rewrite (rsum_ext (nr H) _ (fun i => (-1) * rsum (nr A) (fun r => va lam r * ma A r i * (va y i - va v i)))) by (intros; ring).
      rewrite rsum_scal, rsum_swap. 
      rewrite (rsum_ext (nr A) _ (fun r => va lam r * row_value A a r y)).
      + assert (rsum (nr A) (fun r => va lam r * row_value A a r y) <= 0); [|lra].
        replace 0 with (rsum (nr A) (fun _ => 0)) by (apply rsum_zero; auto). apply rsum_le; intros r Hr. specialize (K3 r Hr). rewrite !andb_true_iff, !leb_le in K3. specialize (Hy r Hr). nra.
      + intros r Hr. specialize (K3 r Hr). rewrite !andb_true_iff, eqb_eq in K3. destruct K3 as [_ K3].
        transitivity (va lam r * row_value A a r y - va lam r * row_value A a r v); [|lra]. unfold row_value. rewrite <- K1.
        rewrite (rsum_ext (nr H) _ (fun i => va lam r * (ma A r i * va y i - ma A r i * va v i))) by (intros; ring). rewrite rsum_scal, rsum_minus. ring.
    - intros i Hi. specialize (K4 i Hi). apply eqb_eq in K4. rewrite rsum_scal_r. replace (ma H i i * va v i + va g i) with (- rsum (nr A) (fun r => va lam r * ma A r i)) by lra. ring. }
  assert (M : rsum (nr H) (fun i => ma H i i * (va v i * va v i) + 2 * (va g i * va v i)) + 2 * rsum (nr H) (fun i => (ma H i i * va v i + va g i) * (va y i - va v i))
              <= rsum (nr H) (fun i => ma H i i * (va y i * va y i) + 2 * (va g i * va y i))).
  { rewrite <- rsum_scal, <- rsum_plus. apply rsum_le; intros i Hi. specialize (Pd i Hi). assert (0 <= ma H i i * ((va y i - va v i) * (va y i - va v i))) by (apply Rmult_le_pos; [exact Pd|apply Rle_0_sqr]). nra. }
  lra.
Qed.
Definition rx : R := / 1000000.
Definition dg : R := / 100000000.
Definition v1 : vec := Vec 3 (fun i => match i with O => 0 | _ => -1 end).
Definition l1 : vec := Vec 2 (fun _ => 1 + dg).
Definition v2 : vec := Vec 1 (fun _ => 1 + rx).
Definition l2 : vec := Vec 2 (fun i => match i with O => 10 - (1 + dg) * (1 + rx) | _ => 0 end).
Definition qp_check (H : mat) (g : vec) (A : mat) (a : vec) : option vec :=
  if kkt H g A a v1 l1 then Some v1 else if kkt H g A a v2 l2 then Some v2 else None.
Lemma qp_check_exact : exact_qp qp_check.
Proof.
  intros H g A a v E. unfold qp_check in E. destruct (kkt H g A a v1 l1) eqn:K1; [injection E as <-; eapply kkt_optimal; exact K1|].
  destruct (kkt H g A a v2 l2) eqn:K2; [injection E as <-; eapply kkt_optimal; exact K2|discriminate].
Qed.
(** x <= -1 and x >= 1; then x = 10 *)
Definition high : task := mkT (Mat 0 1 (fun _ _ => 0)) (Vec 0 (fun _ => 0)) (Mat 2 1 (fun i _ => match i with O => 1 | _ => -1 end)) (Vec 2 (fun _ => 1)) true.
Definition low : task := mkT (Mat 1 1 (fun _ _ => 1)) (Vec 1 (fun _ => -10)) (Mat 0 1 (fun _ _ => 0)) (Vec 0 (fun _ => 0)) true.
Definition no_null (B : mat) : mat := Mat (nc B) 0 (fun _ _ => 0).
Lemma no_null_spec : null_space no_null.
Proof. intros B. split; [reflexivity|]. cbn. intros; lia. Qed.
Definition step1 := after no_null qp_check (fun _ _ => v_zero 0) rx dg (h_reset 1) high.
Lemma cval : forall x y, x = y -> eqb x y = true. Proof. intros; now apply eqb_eq. Qed.
Ltac chk := first [apply leb_le | apply cval]; unfold row_value; cbn -[Rle_dec]; unfold rx, dg; try lra.
Lemma sol1 : sol qp_check rx dg (h_reset 1) high = Some v1.
Proof.
  unfold sol. cbn [high t_slack]. unfold qp_check. match goal with |- (if ?k then _ else _) = _ => assert (K : k = true); [|now rewrite K] end.
  unfold kkt. rewrite !andb_true_iff. split; [split; [split; [reflexivity|]|]|]; rewrite allb_spec; intros i Hi; cbn in Hi.
  - rewrite allb_spec; intros j Hj; cbn in Hj.
    destruct i as [|[|[|i]]]; [| | |lia]; (destruct j as [|[|[|j]]]; [| | |lia]); cbn [Nat.eqb]; chk.
  - rewrite !andb_true_iff. destruct i as [|[|i]]; [| |lia]; repeat split; chk.
  - destruct i as [|[|[|i]]]; [| | |lia]; chk.
Qed.
Lemma clip_hi : forall p, - rx <= p -> clip rx p = - rx.
Proof. intros. unfold clip. destruct (Rle_dec (- rx) p); [reflexivity|contradiction]. Qed.
Definition s1 : hst := mkH (Vec 1 (fun i => 0 + rsum 1 (fun k => ma (Neff (h_reset 1)) i k * va v1 k))) (Vec 1 (va v1)) (Vec 2 (fun i => va v1 (1 + i)%nat))
  (m_id 1) (Neff (h_reset 1)) (m_empty 1) (newA (h_reset 1) high) (newa rx (h_reset 1) high).
Lemma step1_eq : step1 = s1.
Proof. unfold step1, after, newz, neww. rewrite sol1. reflexivity. Qed.
Lemma task1 : forall capA capB, (2 <= capA)%nat -> h_task no_null qp_check (fun _ _ => v_zero 0) rx dg capA capB (h_reset 1) high = Ok (s1, true).
Proof.
  intros capA capB Hc. rewrite (h_task_eq _ _ _ _ _ capA capB 1 (h_reset 1) high) by first [apply dims_reset | apply wf_ok; [unfold well_formed; cbn; repeat split; auto; lia|cbn; lia]].
  cbn [early high t_E t_C nr Nat.eqb andb orb h_reset h_K m_id nc]. unfold newz. rewrite sol1. cbn [t_slack high vn]. fold step1. rewrite <- step1_eq. reflexivity.
Qed.
Lemma sol2 : sol qp_check rx dg s1 low = Some v2.
Proof.
  assert (P : va (newa rx s1 low) 0 = - rx - 1 /\ va (newa rx s1 low) 1 = - rx - 1).
  { split; cbn -[clip]; rewrite clip_hi; unfold rx; lra. }
  unfold sol. cbn [low t_slack]. unfold qp_check.
  match goal with |- (if ?k then _ else _) = _ => assert (K : k = false) end.
  { unfold kkt. match goal with |- _ && _ && _ && ?c = false => assert (Kc : c = false); [|rewrite Kc; apply andb_false_r] end.
    apply not_true_is_false. rewrite allb_spec. intros X. specialize (X 0%nat ltac:(cbn; lia)). apply eqb_eq in X. revert X. cbn. unfold dg, rx. lra. }
  rewrite K. match goal with |- (if ?k then _ else _) = _ => assert (K2 : k = true); [|now rewrite K2] end.
  unfold kkt. rewrite !andb_true_iff. split; [split; [split; [reflexivity|]|]|]; rewrite allb_spec; intros i Hi; cbn in Hi.
  - rewrite allb_spec; intros j Hj; cbn in Hj. destruct i; [|lia]. destruct j; [|lia]. cbn [Nat.eqb]. chk.
  - destruct P as [P0 P1]. rewrite !andb_true_iff. destruct i as [|[|i]]; [| |lia]; repeat split; first [apply leb_le | apply cval]; unfold row_value; rewrite ?P0, ?P1; cbn; unfold rx, dg; lra.
  - destruct i as [|i]; [|lia]. chk.
Qed.
Theorem C28_violated_inequality_refuted : exists nullmap qp least_norm t1 t2 s1 s2, null_space nullmap /\ exact_qp qp /\
  (forall capA capB, (2 <= capA)%nat -> (1 <= capB)%nat ->
     h_task nullmap qp least_norm (/ 1000000) (/ 100000000) capA capB (h_reset 1) t1 = Ok (s1, true) /\ h_task nullmap qp least_norm (/ 1000000) (/ 100000000) capA capB s1 t2 = Ok (s2, true)) /\
  inequality_value t1 0 (h_x s1) = 1 /\ inequality_value t1 0 (h_x s2) > 2.
Proof.
  exists no_null, qp_check, (fun _ _ => v_zero 0), high, low, s1, (after no_null qp_check (fun _ _ => v_zero 0) rx dg s1 low).
  split; [exact no_null_spec|]. split; [exact qp_check_exact|]. split; [|split].
  - intros capA capB HA HB. pose proof (task1 capA capB HA) as T1. split; [exact T1|].
    assert (D1 : dims no_null 1 s1) by (eapply dims_task; [intros; apply no_null_spec|apply dims_reset|exact T1]).
    fold rx dg. rewrite (h_task_eq _ _ _ _ _ capA capB 1 s1 low) by first [exact D1 | apply wf_ok; [unfold well_formed; cbn; repeat split; auto; lia|cbn; lia]].
    cbn [early low t_E t_C nr Nat.eqb andb orb s1 h_K m_id nc]. unfold newz. rewrite sol2. reflexivity.
  - unfold inequality_value, row_value. cbn. lra.
  - unfold inequality_value, row_value, after, newz. cbn [h_x]. rewrite sol2. cbn. unfold rx. lra.
Qed.

(** Non-vacuity: the preservation theorems apply to a run of three tasks. *)
Example C28_demo : exists s, h_run no_null qp_check (fun _ _ => v_zero 0) rx dg 10 10 [high; low; high] (h_reset 1) = Ok s.
Proof.
  apply C28_no_assertion; [intros; apply no_null_spec| |intros t [<-|[<-|[<-|[]]]]; reflexivity|cbn; lia].
  repeat constructor; cbn; lia.
Qed.
(** Here a row of [high] is satisfied after its task: x <= -1 alone. *)
Example C28_demo_satisfied : exists qp t s1, exact_qp qp /\ h_task no_null qp (fun _ _ => v_zero 0) rx 0 10 10 (h_reset 1) t = Ok (s1, true) /\ (0 < nr (t_C t))%nat /\ inequality_value t 0 (h_x s1) <= 0.
Proof.
  set (v := Vec 2 (fun i => match i with O => -1 | _ => 0 end)). set (l := Vec 1 (fun _ => 0)).
  set (q := fun H g A a => if kkt H g A a v l then Some v else None). set (t := mkT (Mat 0 1 (fun _ _ => 0)) (Vec 0 (fun _ => 0)) (Mat 1 1 (fun _ _ => 1)) (Vec 1 (fun _ => 1)) true).
  assert (S : sol q rx 0 (h_reset 1) t = Some v).
  { unfold sol. cbn [t t_slack]. unfold q. match goal with |- (if ?k then _ else _) = _ => assert (K2 : k = true); [|now rewrite K2] end.
    unfold kkt. rewrite !andb_true_iff. split; [split; [split; [reflexivity|]|]|]; rewrite allb_spec; intros i Hi; cbn in Hi.
    - rewrite allb_spec; intros j Hj; cbn in Hj. destruct i as [|[|i]]; [| |lia]; (destruct j as [|[|j]]; [| |lia]); cbn [Nat.eqb]; chk.
    - rewrite !andb_true_iff. destruct i; [|lia]. repeat split; chk.
    - destruct i as [|[|i]]; [| |lia]; chk. }
  exists q, t, (after no_null q (fun _ _ => v_zero 0) rx 0 (h_reset 1) t). split; [|split; [|split]].
  - intros H g A a y E. unfold q in E. destruct (kkt H g A a v l) eqn:K; [injection E as <-; eapply kkt_optimal; exact K|discriminate].
  - rewrite (h_task_eq _ _ _ _ _ 10 10 1 (h_reset 1) t) by first [apply dims_reset | apply wf_ok; [unfold well_formed; cbn; repeat split; auto; lia|cbn; lia]].
    cbn [early t t_E t_C nr Nat.eqb andb orb h_reset h_K m_id nc]. unfold newz. rewrite S. reflexivity.
  - cbn. lia.
  - unfold inequality_value, row_value, after, newz. cbn [h_x]. rewrite S. cbn. lra.
Qed.
Print Assumptions C28_equalities_preserved.
Print Assumptions C28_inequalities_preserved.
Print Assumptions C28_task_optimal.
Print Assumptions C28_no_assertion.
Print Assumptions C28_violated_inequality_refuted.

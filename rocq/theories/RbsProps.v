(** * C84: the containers of a kinematic state *)
From Coq Require Import Reals List Arith ZArith Bool Lia Lra.
Import ListNotations.
From Verif Require Import Base Vec3 RbsModel RbsSpec.
Local Open Scope R_scope.

Local Definition upd {A} (o : option A) (a : A) : A := match o with Some x => x | None => a end.

Lemma len6 : forall n (v : list R), length v = (n + 6)%nat -> v = lin_part v ++ ang_part v ++ jnt_part v /\ length (jnt_part v) = n.
Proof.
  intros n v H. do 6 (destruct v as [|? v]; [cbn in H; lia|]). cbn in H. split; [reflexivity|]. cbn. lia.
Qed.
Lemma len3 : forall A (l : list A), length l = 3%nat -> exists a b c, l = [a; b; c].
Proof. intros A l H. do 3 (destruct l as [|? l]; [discriminate|]). destruct l; [|discriminate]. eauto. Qed.

Definition rates_are (n : nat) (r : rates) (L A J : list R) : Prop :=
  ra_n r = n /\ ra_gen r = L ++ A ++ J /\ length L = 3%nat /\ length A = 3%nat /\ length J = n.

Lemma rates_get : forall n r L A J, rates_are n r L A J -> lin_rate r = Ok L /\ ang_rate r = Ok A /\ jnt_rate r = Ok J /\ ra_gen r = L ++ A ++ J.
Proof.
  intros n r L A J [Hn [Hg [HL [HA HJ]]]]. destruct (len3 _ _ HL) as [a [b [c ->]]]. destruct (len3 _ _ HA) as [a' [b' [c' ->]]].
  unfold lin_rate, ang_rate, jnt_rate, seg, tail. rewrite Hg, Hn. cbn [app length].
  replace (n <=? S (S (S (S (S (S (length J)))))))%nat with true by (symmetry; apply Nat.leb_le; lia).
  replace (S (S (S (S (S (S (length J)))))) - n)%nat with 6%nat by lia. repeat split.
Qed.

Lemma set_rates_ok : forall n w r L A J, rates_are n r L A J -> sized_wr n w ->
  (exists r', set_rates w r = Ok r' /\ rates_are n r' (upd (ww_lin w) L) (upd (ww_ang w) A) (upd (ww_jnt w) J)) \/
  (set_rates w r = Throw /\ ww_lin w = None /\ ww_ang w = None /\ ww_jnt w = None).
Proof.
  intros n w r L A J [Hn [Hg [HL [HA HJ]]]] Hw. destruct (len3 _ _ HL) as [a [b [c ->]]]. destruct (len3 _ _ HA) as [a' [b' [c' ->]]].
  destruct w as [v|v|v|v]; cbn [sized_wr] in Hw.
  - left. eexists. split; [reflexivity|]. destruct (len6 _ _ Hw) as [E F]. unfold rates_are, set_gen. cbn. auto.
  - left. cbn [set_rates]. unfold set_jnt_rate, set_tail. rewrite Hg, Hn. cbn [app length].
    replace (n <=? S (S (S (S (S (S (length J)))))))%nat with true by (symmetry; apply Nat.leb_le; lia).
    replace (length v =? n)%nat with true by (symmetry; apply Nat.eqb_eq; exact Hw). cbn [andb bind].
    replace (S (S (S (S (S (S (length J)))))) - n)%nat with 6%nat by lia. eexists. split; [reflexivity|]. unfold rates_are. cbn. auto.
  - destruct v as [|x [|y [|z [|? ?]]]]; try (right; cbn; now auto).
    left. cbn [set_rates as3 bind]. unfold set_lin_rate, set_seg. rewrite Hg, Hn. cbn. eexists. split; [reflexivity|]. unfold rates_are. cbn. auto.
  - destruct v as [|x [|y [|z [|? ?]]]]; try (right; cbn; now auto).
    left. cbn [set_rates as3 bind]. unfold set_ang_rate, set_seg. rewrite Hg, Hn. cbn. eexists. split; [reflexivity|]. unfold rates_are. cbn. auto.
Qed.

Lemma nth_error_set_nth : forall A (l : list A) i k a, (i < length l)%nat ->
  nth_error (set_nth l i a) k = if Nat.eqb i k then Some a else nth_error l k.
Proof.
  intros A l. induction l as [|x l IH]; intros [|i] [|k] a H; cbn in *; try lia; auto. apply IH. lia.
Qed.
Lemma set_nth_len : forall A (l : list A) i a, length (set_nth l i a) = length l.
Proof. intros A l. induction l as [|x l IH]; intros [|i] a; cbn; auto. Qed.

(** The state of the variables a user sees. *)
Record vals := Vals { u_pos : list R; u_ori : list R; u_jnt : list R; u_vl : list R; u_va : list R; u_vj : list R;
  u_al : list R; u_aa : list R; u_aj : list R; u_com : list R; u_lm : list R; u_am : list R; u_eff : nat -> vec3 }.
Definition holds_vals (n : nat) (s : rstate) (u : vals) : Prop :=
  rs_n s = n /\ po_n (rs_post s) = n /\ l3 (po_pos (rs_post s)) = u_pos u /\ py_base_ori (rs_post s) = u_ori u /\ po_jnt (rs_post s) = u_jnt u /\ length (u_jnt u) = n /\
  rates_are n (rs_vel s) (u_vl u) (u_va u) (u_vj u) /\ rates_are n (rs_acc s) (u_al u) (u_aa u) (u_aj u) /\
  l3 (rs_com s) = u_com u /\ l3 (rs_lmom s) = u_lm u /\ l3 (rs_amom s) = u_am u /\
  length (rs_effpos s) = n_endeffs /\ (forall k, (k < n_endeffs)%nat -> nth_error (rs_effpos s) k = Some (u_eff u k)).
Definition step_vals (o : kop) (u : vals) : vals :=
  Vals (upd (w_base_pos o) (u_pos u)) (upd (w_base_ori o) (u_ori u)) (upd (w_jnt o) (u_jnt u))
       (upd (w_vel lin_part ww_lin o) (u_vl u)) (upd (w_vel ang_part ww_ang o) (u_va u)) (upd (w_vel jnt_part ww_jnt o) (u_vj u))
       (upd (w_acc lin_part ww_lin o) (u_al u)) (upd (w_acc ang_part ww_ang o) (u_aa u)) (upd (w_acc jnt_part ww_jnt o) (u_aj u))
       (upd (w_com o) (u_com u)) (upd (w_lmom o) (u_lm u)) (upd (w_amom o) (u_am u)) (fun k => upd (w_eff k o) (u_eff u k)).

Lemma kstep_ok : forall n o s u, holds_vals n s u -> sized n o ->
  match kstep o s with Ok s' => holds_vals n s' (step_vals o u) | Throw => holds_vals n s (step_vals o u) | UB => False end.
Proof.
  intros n o s u H Ho.
  destruct H as [Hn [Hpn [Hp [Hq [Hj [Hjl [Hv [Ha [Hc [Hl [Hm [Hel He]]]]]]]]]]]].
  assert (IDN : forall v, step_vals (SBasePos v) u = step_vals (SBasePos v) u) by reflexivity. clear IDN.
  destruct o as [v|v|v|w|w|v|v|v|p|r|r|l|i v]; cbn [kstep sized] in *.
  - destruct v as [|x [|y [|z [|? ?]]]]; cbn; unfold holds_vals; cbn; repeat (split; auto).
  - destruct v as [|x [|y [|z [|t [|? ?]]]]]; cbn; unfold holds_vals; cbn; repeat (split; auto).
  - unfold holds_vals; cbn; repeat (split; auto).
  - destruct (set_rates_ok n w _ _ _ _ Hv Ho) as [[r' [E F]]|[E [F1 [F2 F3]]]]; rewrite E; cbn [bind]; unfold holds_vals; cbn.
    + repeat (split; auto).
    + rewrite F1, F2, F3. cbn. repeat (split; auto).
  - destruct (set_rates_ok n w _ _ _ _ Ha Ho) as [[r' [E F]]|[E [F1 [F2 F3]]]]; rewrite E; cbn [bind]; unfold holds_vals; cbn.
    + repeat (split; auto).
    + rewrite F1, F2, F3. cbn. repeat (split; auto).
  - destruct v as [|x [|y [|z [|? ?]]]]; cbn; unfold holds_vals; cbn; repeat (split; auto).
  - destruct v as [|x [|y [|z [|? ?]]]]; cbn; unfold holds_vals; cbn; repeat (split; auto).
  - destruct v as [|x [|y [|z [|? ?]]]]; cbn; unfold holds_vals; cbn; repeat (split; auto).
  - destruct Ho as [Ho1 Ho2]. unfold holds_vals; cbn. repeat (split; auto).
  - destruct Ho as [Ho1 Ho2]. destruct (len6 _ _ Ho2) as [E F]. unfold holds_vals; cbn -[lin_part ang_part jnt_part].
    assert (rates_are n r (lin_part (ra_gen r)) (ang_part (ra_gen r)) (jnt_part (ra_gen r))) by (unfold rates_are; auto).
    repeat (split; auto).
  - destruct Ho as [Ho1 Ho2]. destruct (len6 _ _ Ho2) as [E F]. unfold holds_vals; cbn -[lin_part ang_part jnt_part].
    assert (rates_are n r (lin_part (ra_gen r)) (ang_part (ra_gen r)) (jnt_part (ra_gen r))) by (unfold rates_are; auto).
    repeat (split; auto).
  - unfold holds_vals; cbn. repeat (split; auto). intros k Hk. apply nth_error_nth'. lia.
  - destruct v as [|x [|y [|z [|? ?]]]]; try (cbn; unfold holds_vals; cbn; now repeat (split; auto)).
    cbn [as3 bind]. destruct (Nat.ltb_spec i (length (rs_effpos s))) as [Hi|Hi].
    + unfold holds_vals; cbn [rs_n rs_post rs_vel rs_acc rs_com rs_lmom rs_amom rs_effpos up_eff step_vals u_pos u_ori u_jnt u_vl u_va u_vj u_al u_aa u_aj u_com u_lm u_am u_eff w_base_pos w_base_ori w_jnt w_vel w_acc w_com w_lmom w_amom upd].
      repeat (split; auto).
      * rewrite set_nth_len. exact Hel.
      * intros k Hk. rewrite nth_error_set_nth by exact Hi. cbn [w_eff]. destruct (Nat.eqb_spec i k); [reflexivity|]. cbn. now apply He.
    + unfold holds_vals; cbn [rs_n rs_post rs_vel rs_acc rs_com rs_lmom rs_amom rs_effpos up_eff step_vals u_pos u_ori u_jnt u_vl u_va u_vj u_al u_aa u_aj u_com u_lm u_am u_eff w_base_pos w_base_ori w_jnt w_vel w_acc w_com w_lmom w_amom upd].
      repeat (split; auto). intros k Hk. cbn [w_eff]. destruct (Nat.eqb_spec i k); [subst; rewrite Hel in Hi; lia|]. cbn. now apply He.
Qed.

Lemma krun_ok : forall n h s u, holds_vals n s u -> Forall (sized n) h ->
  exists s', krun h s = Ok s' /\ holds_vals n s' (fold_left (fun u o => step_vals o u) h u).
Proof.
  intros n h. induction h as [|o h IH]; intros s u H Hs; [exists s; auto|]. inversion Hs as [|? ? Ho Hh]; subst.
  pose proof (kstep_ok n o s u H Ho) as K. cbn [krun fold_left]. destruct (kstep o s) as [s'| |]; [| |contradiction]; now apply IH.
Qed.

Lemma zeros_split : forall n, zeros (n + 6) = [0; 0; 0] ++ [0; 0; 0] ++ zeros n.
Proof. intros n. unfold zeros. rewrite Nat.add_comm. reflexivity. Qed.
Lemma zeros_len : forall n, length (zeros n) = n.
Proof. intros. apply repeat_length. Qed.
Lemma new_vals : forall n, holds_vals n (rstate_new n)
  (Vals [0;0;0] [0;0;0;1] (zeros n) [0;0;0] [0;0;0] (zeros n) [0;0;0] [0;0;0] (zeros n) [0;0;0] [0;0;0] [0;0;0] (fun _ => v0)).
Proof.
  intros n. unfold holds_vals. cbn -[zeros]. rewrite zeros_len.
  assert (rates_are n (rates_new n) [0;0;0] [0;0;0] (zeros n)) by (unfold rates_are, rates_new; cbn -[zeros]; rewrite zeros_split, zeros_len; auto).
  repeat (split; auto). intros [|[|[|[|k]]]] Hk; auto. unfold n_endeffs in Hk. lia.
Qed.

Lemma fold_vals : forall h u, let u' := fold_left (fun u o => step_vals o u) h u in
  u_pos u' = last_write w_base_pos (u_pos u) h /\ u_ori u' = last_write w_base_ori (u_ori u) h /\ u_jnt u' = last_write w_jnt (u_jnt u) h /\
  u_vl u' = last_write (w_vel lin_part ww_lin) (u_vl u) h /\ u_va u' = last_write (w_vel ang_part ww_ang) (u_va u) h /\ u_vj u' = last_write (w_vel jnt_part ww_jnt) (u_vj u) h /\
  u_al u' = last_write (w_acc lin_part ww_lin) (u_al u) h /\ u_aa u' = last_write (w_acc ang_part ww_ang) (u_aa u) h /\ u_aj u' = last_write (w_acc jnt_part ww_jnt) (u_aj u) h /\
  u_com u' = last_write w_com (u_com u) h /\ u_lm u' = last_write w_lmom (u_lm u) h /\ u_am u' = last_write w_amom (u_am u) h /\
  (forall k, u_eff u' k = last_write (w_eff k) (u_eff u k) h).
Proof.
  intros h. induction h as [|o h IH]; intros u; cbv zeta; [cbn; repeat split|].
  cbn [fold_left]. specialize (IH (step_vals o u)). cbv zeta in IH. unfold last_write in *. cbn [fold_left].
  destruct IH as [I1 [I2 [I3 [I4 [I5 [I6 [I7 [I8 [I9 [I10 [I11 [I12 I13]]]]]]]]]]]].
  repeat split; try (first [rewrite I1|rewrite I2|rewrite I3|rewrite I4|rewrite I5|rewrite I6|rewrite I7|rewrite I8|rewrite I9|rewrite I10|rewrite I11|rewrite I12]; reflexivity).
  intros k. rewrite I13. reflexivity.
Qed.

Lemma gen_pos_eq : forall p, length (po_jnt p) = po_n p -> gen_pos p = Ok (l3 (po_pos p) ++ py_base_ori p ++ po_jnt p).
Proof.
  intros [n x j q] H. cbn [po_n po_jnt po_pos po_ori] in *. unfold gen_pos. cbn [po_n po_jnt po_pos po_ori].
  unfold zeros. rewrite Nat.add_comm. cbn [Nat.add repeat]. unfold set_seg at 1. cbn [length l3 Nat.add Nat.leb firstn skipn app bind].
  unfold set_tail. cbn [length]. rewrite repeat_length.
  replace (n <=? S (S (S (S (S (S (S n)))))))%nat with true by (symmetry; apply Nat.leb_le; lia).
  replace (length j =? n)%nat with true by (symmetry; apply Nat.eqb_eq; exact H). cbn [andb bind].
  replace (S (S (S (S (S (S (S n)))))) - n)%nat with 7%nat by lia. cbn [firstn app].
  unfold set_seg. cbn. unfold py_base_ori. reflexivity.
Qed.

(** ** C84. Whatever assignments (with the sizes of the robot) a program made to a new state, in whatever order and with whatever rejected
    attempts in between, every property reads the last value assigned to it, assignments to one property never change another (the
    generalised rates being the three parts put together), and the generalised positions are position, orientation x y z w, joints. *)
Theorem C84_last_assignment_wins : forall n h, Forall (sized n) h ->
  exists s, krun h (rstate_new n) = Ok s /\
    let P := last_write w_base_pos [0; 0; 0] h in let O := last_write w_base_ori [0; 0; 0; 1] h in let J := last_write w_jnt (repeat 0 n) h in
    let VL := last_write (w_vel lin_part ww_lin) [0; 0; 0] h in let VA := last_write (w_vel ang_part ww_ang) [0; 0; 0] h in
    let VJ := last_write (w_vel jnt_part ww_jnt) (repeat 0 n) h in
    let AL := last_write (w_acc lin_part ww_lin) [0; 0; 0] h in let AA := last_write (w_acc ang_part ww_ang) [0; 0; 0] h in
    let AJ := last_write (w_acc jnt_part ww_jnt) (repeat 0 n) h in
    rs_n s = n /\ l3 (po_pos (rs_post s)) = P /\ py_base_ori (rs_post s) = O /\ po_jnt (rs_post s) = J /\ gen_pos (rs_post s) = Ok (P ++ O ++ J) /\
    lin_rate (rs_vel s) = Ok VL /\ ang_rate (rs_vel s) = Ok VA /\ jnt_rate (rs_vel s) = Ok VJ /\ ra_gen (rs_vel s) = VL ++ VA ++ VJ /\
    lin_rate (rs_acc s) = Ok AL /\ ang_rate (rs_acc s) = Ok AA /\ jnt_rate (rs_acc s) = Ok AJ /\ ra_gen (rs_acc s) = AL ++ AA ++ AJ /\
    l3 (rs_com s) = last_write w_com [0; 0; 0] h /\ l3 (rs_lmom s) = last_write w_lmom [0; 0; 0] h /\ l3 (rs_amom s) = last_write w_amom [0; 0; 0] h /\
    (forall k, (k < 4)%nat -> eff_pos s k = Ok (last_write (w_eff k) v0 h)).
Proof.
  intros n h Hh. destruct (krun_ok n h _ _ (new_vals n) Hh) as [s [E H]]. exists s. split; [exact E|]. cbv zeta.
  match type of H with holds_vals _ _ (fold_left _ _ ?u0) => pose proof (fold_vals h u0) as F end. cbv zeta in F.
  cbn [u_pos u_ori u_jnt u_vl u_va u_vj u_al u_aa u_aj u_com u_lm u_am u_eff] in F.
  destruct F as [F1 [F2 [F3 [F4 [F5 [F6 [F7 [F8 [F9 [F10 [F11 [F12 F13]]]]]]]]]]]].
  destruct H as [Hn [Hpn [Hp [Hq [Hj [Hjl [Hv [Ha [Hc [Hl [Hm [Hel He]]]]]]]]]]]].
  destruct (rates_get _ _ _ _ _ Hv) as [V1 [V2 [V3 V4]]]. destruct (rates_get _ _ _ _ _ Ha) as [A1 [A2 [A3 A4]]].
  rewrite F1 in Hp. rewrite F2 in Hq. rewrite F3 in Hj. rewrite F4 in V1. rewrite F5 in V2. rewrite F6 in V3. rewrite F4, F5, F6 in V4.
  rewrite F7 in A1. rewrite F8 in A2. rewrite F9 in A3. rewrite F7, F8, F9 in A4. rewrite F10 in Hc. rewrite F11 in Hl. rewrite F12 in Hm.
  unfold zeros in *.
  split; [exact Hn|]. split; [exact Hp|]. split; [exact Hq|]. split; [exact Hj|]. split.
  { rewrite gen_pos_eq; [rewrite Hp, Hq, Hj; reflexivity|]. rewrite Hpn, Hj, <- F3. exact Hjl. }
  do 4 (split; [assumption|]). do 4 (split; [assumption|]). do 3 (split; [assumption|]).
  intros k Hk. unfold eff_pos. rewrite He by exact Hk. now rewrite F13.
Qed.
Print Assumptions C84_last_assignment_wins.

(** Orientations go through the Python property unchanged (x, y, z, w in and out) and mean the quaternion w + x i + y j + z k. *)
Theorem C84_orientation_round_trip : forall s x y z w, exists s', kstep (SBaseOri [x; y; z; w]) s = Ok s' /\
  py_base_ori (rs_post s') = [x; y; z; w] /\ po_ori (rs_post s') = Q4 w x y z /\
  (forall s'', kstep (SBaseOri (py_base_ori (rs_post s))) s = Ok s'' -> s'' = s).
Proof.
  intros s x y z w. eexists. split; [reflexivity|]. split; [reflexivity|]. split; [reflexivity|].
  intros s'' E. destruct s as [[n p j q] v a m c l am eo ep ev ea]. destruct q as [qw' qx' qy' qz']. cbn in E. injection E as <-. reflexivity.
Qed.
Print Assumptions C84_orientation_round_trip.

(** Arrays of the wrong size are rejected, with nothing changed, exactly for the properties of fixed size. *)
Theorem C84_fixed_sizes_are_checked : forall s v,
  (length v <> 3%nat -> kstep (SBasePos v) s = Throw /\ kstep (SCom v) s = Throw /\ kstep (SLmom v) s = Throw /\ kstep (SAmom v) s = Throw /\
     kstep (SVel (WLin v)) s = Throw /\ kstep (SVel (WAng v)) s = Throw /\ kstep (SAcc (WLin v)) s = Throw /\ kstep (SAcc (WAng v)) s = Throw /\
     forall i, kstep (SEffAt i v) s = Throw) /\
  (length v <> 4%nat -> kstep (SBaseOri v) s = Throw) /\
  (length v = 3%nat -> forall i, kstep (SEffAt i v) s = Throw <-> (length (rs_effpos s) <= i)%nat) /\
  (exists s', kstep (SJnt v) s = Ok s') /\ (exists s', kstep (SVel (WGen v)) s = Ok s') /\ (exists s', kstep (SAcc (WGen v)) s = Ok s').
Proof.
  intros s v. split; [|split; [|split; [|split; [|split]]]].
  - intros H. destruct v as [|a [|b [|c [|d v]]]]; cbn; try (now repeat split); now destruct H.
  - intros H. destruct v as [|a [|b [|c [|d [|e v]]]]]; cbn; try reflexivity; now destruct H.
  - intros H i. destruct (len3 _ _ H) as [a [b [c ->]]]. cbn [kstep as3 bind]. destruct (Nat.ltb_spec i (length (rs_effpos s))); split; intros; try easy; lia.
  - eexists; reflexivity.
  - eexists; reflexivity.
  - eexists; reflexivity.
Qed.
Print Assumptions C84_fixed_sizes_are_checked.

(** Joint positions of another size are stored; from then on the generalised positions cannot be formed, until a vector of the right size is stored. *)
Theorem C84_joint_positions_of_another_size : forall s v, exists s', kstep (SJnt v) s = Ok s' /\ po_jnt (rs_post s') = v /\
  (gen_pos (rs_post s') = UB <-> length v <> po_n (rs_post s)) /\
  (forall h s'', Forall (fun o => w_jnt o = None) h -> krun h s' = Ok s'' -> length v <> po_n (rs_post s) -> gen_pos (rs_post s'') = UB).
Proof.
  assert (B : forall p, length (po_jnt p) <> po_n p -> gen_pos p = UB).
  { intros [n x j q] H. cbn [po_n po_jnt] in H. unfold gen_pos. cbn [po_n po_jnt po_pos po_ori]. unfold zeros. rewrite Nat.add_comm. cbn [Nat.add repeat].
    unfold set_seg at 1. cbn [length l3 Nat.add Nat.leb firstn skipn app bind]. unfold set_tail.
    replace (length j =? n)%nat with false by (symmetry; now apply Nat.eqb_neq). rewrite andb_false_r. reflexivity. }
  intros s v. eexists. split; [reflexivity|]. split; [reflexivity|]. split.
  - split; intros H; [intros E; rewrite gen_pos_eq in H by exact E; discriminate|]. apply B. exact H.
  - assert (G : forall h s' s'', Forall (fun o => w_jnt o = None) h -> krun h s' = Ok s'' -> po_jnt (rs_post s'') = po_jnt (rs_post s') /\ po_n (rs_post s'') = po_n (rs_post s')).
    { intros h. induction h as [|o h IH]; intros s' s'' Hh E; [cbn in E; injection E as <-; auto|]. inversion Hh as [|? ? Ho Hh']; subst.
      cbn [krun] in E. destruct (kstep o s') as [t| |] eqn:K; [| |discriminate]; [|now apply IH].
      specialize (IH _ _ Hh' E). destruct IH as [I1 I2]. rewrite I1, I2. clear - K Ho.
      destruct o as [w|w|w|w|w|w|w|w|p|r|r|l|i w]; cbn [kstep w_jnt] in *; try discriminate.
      + destruct (as3 w); [|discriminate|discriminate]. cbn in K. injection K as <-. auto.
      + destruct (as4 w) as [[[[? ?] ?] ?]| |]; [|discriminate|discriminate]. cbn in K. injection K as <-. auto.
      + destruct (set_rates w (rs_vel s')); [|discriminate|discriminate]. cbn in K. injection K as <-. auto.
      + destruct (set_rates w (rs_acc s')); [|discriminate|discriminate]. cbn in K. injection K as <-. auto.
      + destruct (as3 w); [|discriminate|discriminate]. cbn in K. injection K as <-. auto.
      + destruct (as3 w); [|discriminate|discriminate]. cbn in K. injection K as <-. auto.
      + destruct (as3 w); [|discriminate|discriminate]. cbn in K. injection K as <-. auto.
      + injection K as <-. auto.
      + injection K as <-. auto.
      + injection K as <-. auto.
      + destruct (as3 w); [|discriminate|discriminate]. cbn [bind] in K. destruct (i <? length (rs_effpos s'))%nat; [|discriminate]. injection K as <-. auto. }
    intros h s'' Hh E Hv. destruct (G _ _ _ Hh E) as [G1 G2]. apply B. rewrite G1, G2. exact Hv.
Qed.
Print Assumptions C84_joint_positions_of_another_size.

(** Generalised rates of another size m are stored too; the base parts stay entries 0-2 and 3-5, the joint part is the last n entries: with
    m < n+6 it overlaps the base, with m > n+6 some entries belong to no part. *)
Theorem C84_rates_of_another_size : forall s v n, ra_n (rs_vel s) = n -> exists s', kstep (SVel (WGen v)) s = Ok s' /\ ra_gen (rs_vel s') = v /\
  lin_rate (rs_vel s') = (if 3 <=? length v then Ok (firstn 3 v) else UB)%nat /\
  ang_rate (rs_vel s') = (if 6 <=? length v then Ok (firstn 3 (skipn 3 v)) else UB)%nat /\
  jnt_rate (rs_vel s') = (if n <=? length v then Ok (skipn (length v - n) v) else UB)%nat.
Proof. intros s v n <-. eexists. split; [reflexivity|]. repeat split. Qed.
Print Assumptions C84_rates_of_another_size.

(** So with one rate too few, the assignment of the base angular velocity changes the velocity of the first joint. *)
Theorem C84_rates_overlap_refuted : forall n, (1 <= n)%nat -> exists s, krun [SVel (WGen (repeat 0 (n + 5)))] (rstate_new n) = Ok s /\
  forall z, exists s', kstep (SVel (WAng [0; 0; z])) s = Ok s' /\ jnt_rate (rs_vel s') = Ok (z :: repeat 0 (n - 1)) /\ jnt_rate (rs_vel s) = Ok (repeat 0 n).
Proof.
  intros n Hn. eexists. split; [reflexivity|]. intros z. destruct n as [|n]; [lia|].
  replace (S n + 5)%nat with (6 + n)%nat by lia. cbn [Nat.add repeat].
  assert (T : forall a b c d e f, jnt_rate (Rates (S n) (a :: b :: c :: d :: e :: f :: repeat 0 n)) = Ok (f :: repeat 0 n)).
  { intros. unfold jnt_rate, tail. cbn [ra_gen ra_n]. cbn [length]. rewrite repeat_length.
    replace (S n <=? S (S (S (S (S (S n))))))%nat with true by (symmetry; apply Nat.leb_le; lia).
    replace (S (S (S (S (S (S n))))) - S n)%nat with 5%nat by lia. reflexivity. }
  eexists. split; [reflexivity|]. split.
  - replace (S n - 1)%nat with n by lia. exact (T 0 0 0 0 0 z).
  - exact (T 0 0 0 0 0 0).
Qed.
Print Assumptions C84_rates_overlap_refuted.

(** ** Resizing a sequence *)
Lemma fold_app_repeat : forall A (x : A) m k acc, fold_left (fun acc _ => acc ++ [x]) (seq k m) acc = acc ++ repeat x m.
Proof. intros A x m. induction m as [|m IH]; intros k acc; cbn; [now rewrite app_nil_r|]. rewrite IH, <- app_assoc. reflexivity. Qed.

(** resize(T, n): exactly T states (none for T <= 0), each one a new state whatever the sequence held before; nothing beyond can be read. *)
Theorem C84_resize : forall nt nj old, length (seq_resize nt nj old) = Z.to_nat nt /\
  (forall i, (i < Z.to_nat nt)%nat -> seq_state (seq_resize nt nj old) i = Ok (rstate_new nj)) /\
  (forall i, (Z.to_nat nt <= i)%nat -> seq_state (seq_resize nt nj old) i = UB).
Proof.
  intros nt nj old. unfold seq_resize, seq_state. rewrite fold_app_repeat. cbn [app]. rewrite repeat_length. split; [reflexivity|]. split.
  - intros i Hi. rewrite (nth_error_nth' _ (rstate_new nj)) by (now rewrite repeat_length). now rewrite nth_repeat.
  - intros i Hi. replace (nth_error (repeat (rstate_new nj) (Z.to_nat nt)) i) with (@None rstate); [reflexivity|]. symmetry. apply nth_error_None. now rewrite repeat_length.
Qed.
Print Assumptions C84_resize.

(** What a new state holds. *)
Theorem C84_new_state : forall n, exists s, krun [] (rstate_new n) = Ok s /\ rs_n s = n /\ gen_pos (rs_post s) = Ok ([0; 0; 0] ++ [0; 0; 0; 1] ++ repeat 0 n) /\
  ra_gen (rs_vel s) = repeat 0 (n + 6) /\ ra_gen (rs_acc s) = repeat 0 (n + 6) /\ rs_com s = v0 /\ rs_lmom s = v0 /\ rs_amom s = v0 /\
  rs_effpos s = repeat v0 4 /\ rs_effvel s = repeat v0 4 /\ rs_effacc s = repeat v0 4 /\ rs_effori s = repeat qone 4.
Proof.
  intros n. eexists. split; [reflexivity|]. split; [reflexivity|]. split; [rewrite gen_pos_eq by (apply repeat_length); reflexivity|]. repeat split.
Qed.
Print Assumptions C84_new_state.

(** ** Non-vacuity: a robot with two joints, a history with a rejected assignment, overlapping writes of the velocities. *)
Example ex_history : list kop :=
  [SBasePos [1; 2; 3]; SVel (WGen [1; 2; 3; 4; 5; 6; 7; 8]); SVel (WAng [9; 9; 9]); SBasePos [1; 2]; SJnt [5; 6]; SBaseOri [1; 0; 0; 0]; SEffAt 2 [1; 1; 1]; SEffAt 9 [1; 1; 1]; SVel (WJnt [0; 1])].
Example C84_nonvacuous : Forall (sized 2) ex_history /\ exists s, krun ex_history (rstate_new 2) = Ok s /\
  gen_pos (rs_post s) = Ok [1; 2; 3; 1; 0; 0; 0; 5; 6] /\ ra_gen (rs_vel s) = [1; 2; 3; 9; 9; 9; 0; 1] /\ eff_pos s 2 = Ok (V3 1 1 1).
Proof.
  assert (H : Forall (sized 2) ex_history) by (repeat constructor). split; [exact H|].
  destruct (C84_last_assignment_wins 2 ex_history H) as [s [E K]]. exists s. split; [exact E|].
  destruct K as [_ [_ [_ [_ [K1 [_ [_ [_ [K2 K3]]]]]]]]]. split; [rewrite K1; reflexivity|]. split; [rewrite K2; reflexivity|].
  destruct K3 as [_ [_ [_ [_ [_ [_ [_ K]]]]]]]. rewrite K by lia. reflexivity.
Qed.

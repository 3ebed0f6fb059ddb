(** * Descent along runs with a Wolfe-type line search; interpolation; penalty objective *)
From Coq Require Import Reals List Arith ZArith Bool Lia Lra FunctionalExtensionality.
From Verif Require Import Base BaseProofs IpModel BnbProofs LbfgsModel LbfgsSpec LbfgsProofs LbfgsProofs2 LbfgsProofs3.
Import ListNotations.
Open Scope R_scope.

Lemma firstn_incl {A} (l : list A) k p : In p (firstn k l) -> In p l.
Proof. revert k. induction l as [|a l IH]; intros [|k] H; cbn in *; try tauto. destruct H; eauto. Qed.
Lemma firstn_cons_in {A} (a : A) l k p : In p (firstn k (a :: l)) -> p = a \/ In p (firstn k l).
Proof. destruct k; cbn; [tauto|]. intros [H|H]; [auto|]. right. revert k H. induction l as [|b l IH]; intros [|k] H; cbn in *; try tauto. destruct H; eauto. Qed.

Section S.
Variable n : nat.
Variable F : vec -> R.
Variable G : vec -> vec.
Variable P : params.

Definition wolfe_type : Prop := p_ls P = Wolfe \/ p_ls P = StrongWolfe \/ (p_ls P = MoreThuente /\ p_gtol P < 1).

Lemma not_converged_norm x g : 0 <= p_eps P -> converged n P x g = false -> 0 < vdot n g g.
Proof.
  intros He H. unfold converged in H. apply leb_false in H. destruct (Req_dec (vdot n g g) 0) as [E|E]; [|pose proof (vdot_pos n g); lra].
  exfalso. unfold vnorm at 1 in H. rewrite E, sqrt_0 in H. unfold Rdiv in H. rewrite Rmult_0_l in H. lra.
Qed.

Record inv2 (h : list (vec * vec)) (S : lstate) : Prop := mkInv2 {
  w_pairs : forall p, In p (firstn (Z.to_nat (p_m P)) (corrections h)) -> 0 < vdot n (snd p) (fst p);
  w_desc : vdot n (l_g S) (l_d S) < 0;
  w_step : 0 < l_step S }.

Lemma wolfe_curv xp d stp r c : checked n P -> wolfe_type -> vdot n (G xp) d < 0 -> linesearch n F G P xp (F xp) (G xp) d stp = Ok r -> ls_out r = inr c ->
  0 < ls_stp r /\ 0 < vdot n (ls_g r) d - vdot n (G xp) d.
Proof.
  intros C W Hd H Ho. destruct (linesearch_ok n F G P _ _ _ _ _ C H Ho) as (L1 & L2 & L3 & L4 & L5 & L6 & L7 & L8). destruct W as [W|[W|[W Wg]]]; rewrite W in L8.
  - pose proof (c_wolfe n P C (or_introl W)). split; [lra|]. nra.
  - pose proof (c_wolfe n P C (or_intror W)). split; [lra|]. nra.
  - destruct L8 as [L8 L9]. pose proof (c_gtol n P C). assert (L10 : p_gtol P * vdot n (G xp) d <= vdot n (ls_g r) d). { pose proof (Rle_abs (- vdot n (ls_g r) d)) as A. rewrite Rabs_Ropp in A. lra. }
    split; [|nra]. destruct (Req_dec (ls_stp r) 0) as [E|E]; [|lra]. exfalso. assert (Ex : ls_x r = xp). { rewrite L1, E. apply functional_extensionality. intros i. unfold vaxpy. ring. }
    rewrite L3, Ex in L10. nra.
Qed.

Variable progress : Z -> vec -> vec -> R -> Z.
Variable x0 : vec.
Lemma inv2_start : checked n P -> converged n P x0 (G x0) = false -> inv2 [(x0, G x0)] (start n F G P x0).
Proof.
  intros C Hc. pose proof (not_converged_norm _ _ (c_eps n P C) Hc) as Hg. constructor; cbn.
  - intros p Hp. rewrite firstn_nil in Hp. destruct Hp.
  - rewrite vdot_neg_r. lra.
  - unfold Rdiv. rewrite Rmult_1_l. apply Rinv_0_lt_compat. unfold vnorm. apply sqrt_lt_R0. rewrite vdot_neg_r, vdot_sym, vdot_neg_r. lra.
Qed.
Lemma inv2_step h S S' : checked n P -> (0 < p_m P)%Z -> wolfe_type -> inv n F G P x0 h S -> inv2 h S -> iteration n F G P progress S = Ok (inr S') -> inv2 ((l_x S', l_g S') :: h) S'.
Proof.
  intros C Hm W I J H. destruct (inv_step n F G P progress x0 h S S' C Hm I H) as (I' & s & y & t & Ec & Hyy & Hne & Ed).
  apply iter_next in H as (r & c & it & j & lm & H1 & Ho & X1 & X2 & X3 & X4 & X5 & Hc & _).
  rewrite (v_fx _ _ _ _ _ _ _ I), (v_g _ _ _ _ _ _ _ I) in H1. pose proof (w_desc _ _ J) as Hd. rewrite (v_g _ _ _ _ _ _ _ I) in Hd.
  destruct (wolfe_curv _ _ _ _ _ C W Hd H1 Ho) as [Ha Hcv]. destruct (linesearch_ok n F G P _ _ _ _ _ C H1 Ho) as (L1 & _ & L3 & _).
  destruct (v_hd _ _ _ _ _ _ _ I) as (t0 & Eh). rewrite Eh in Ec. cbn [corrections] in Ec. injection Ec as Es Ey Et.
  assert (Hys : 0 < vdot n y s).
  { rewrite <- Es, <- Ey, X1, X3. replace (vdot n (fun i => ls_g r i - l_g S i) (fun i => ls_x r i - l_x S i)) with (ls_stp r * (vdot n (ls_g r) (l_d S) - vdot n (l_g S) (l_d S))).
    - rewrite (v_g _ _ _ _ _ _ _ I). now apply Rmult_lt_0_compat.
    - rewrite <- vdot_diff_l. unfold vdot. rewrite <- rsum_scal. apply rsum_ext. intros i Hi. rewrite L1. unfold vaxpy, vdiff. ring. }
  assert (Hp : forall p, In p (firstn (Z.to_nat (p_m P)) ((s, y) :: t)) -> 0 < vdot n (snd p) (fst p)).
  { intros p Hp. apply firstn_cons_in in Hp as [-> |Hp]; [exact Hys|]. apply (w_pairs _ _ J). rewrite Eh. rewrite <- Et in Hp. exact Hp. }
  constructor.
  - rewrite Eh. cbn [corrections]. rewrite Es, Ey. intros p Hp'. apply Hp. rewrite <- Et. exact Hp'.
  - rewrite Ed. set (w := comb _ _ _ _). assert (Hyy' : 0 < vdot n y y) by (pose proof (vdot_pos n y); lra).
    assert (Hcp : 0 < vdot n y s / vdot n y y) by (apply Rdiv_lt_0_compat; assumption).
    destruct (comb_pos n _ _ (vneg (l_g S')) Hcp Hp) as [Q1 Q2]. fold w in Q1, Q2.
    assert (Eq : vdot n (vneg (l_g S')) w = - vdot n (l_g S') w) by (rewrite vdot_sym, vdot_neg_r, vdot_sym; reflexivity). rewrite Eq in *.
    destruct (Req_dec (vdot n (l_g S') w) 0) as [E|E]; [|lra]. exfalso. assert (Hz := Q2 ltac:(lra)).
    rewrite <- X1, <- X3 in Hc. pose proof (not_converged_norm _ _ (c_eps n P C) Hc) as Hg.
    assert (vdot n (l_g S') (l_g S') = 0); [|lra]. apply rsum_zero. intros i Hi. specialize (Hz i Hi). unfold vneg in Hz. replace (l_g S' i) with 0 by lra. ring.
  - rewrite X4. lra.
Qed.
Lemma inv2_visited h S : checked n P -> (0 < p_m P)%Z -> wolfe_type -> converged n P x0 (G x0) = false -> visited n F G P progress x0 h S -> inv2 h S.
Proof.
  intros C Hm W Hc H. induction H as [|h S S' H IH Hs]; [now apply inv2_start|]. eapply inv2_step; eauto. eapply inv_visited; eauto.
Qed.

(** ** Outcomes of one iteration *)
Lemma iter_out h S o : checked n P -> inv n F G P x0 h S -> iteration n F G P progress S = Ok (inl o) ->
  (exists r, linesearch n F G P (l_x S) (F (l_x S)) (G (l_x S)) (l_d S) (l_step S) = Ok r /\ ls_out r = inl (o_code o) /\ o_x o = l_x S /\ o_fx o = ls_f r) \/
  (F (o_x o) <= F (l_x S) /\ o_fx o = F (o_x o) /\
    match o_code o with
    | Success => converged n P (o_x o) (G (o_x o)) = true
    | Stop => (0 < p_past P <= l_k S)%Z
    | MaximumIteration => (p_maxit P <> 0 /\ p_maxit P <= l_k S)%Z
    | Callback z => z <> 0%Z
    | _ => False
    end).
Proof.
  intros C I H. unfold iteration in H. apply bind_ok in H as (r & H1 & H). rewrite (v_fx _ _ _ _ _ _ _ I), (v_g _ _ _ _ _ _ _ I) in H1.
  destruct (ls_out r) as [e|c] eqn:Ho; [left; injection H as <-; cbn; eauto|right]. pose proof (linesearch_decrease n F G P _ _ _ _ _ C H1 Ho) as Ld.
  destruct (linesearch_ok n F G P _ _ _ _ _ C H1 Ho) as (_ & L2 & L3 & _).
  cbv zeta in H. destruct (negb _) eqn:Ep; [injection H as <-; cbn; repeat split; auto; apply negb_true_iff, Z.eqb_neq in Ep; exact Ep|].
  destruct (converged n P (ls_x r) (ls_g r)) eqn:Ec; [injection H as <-; cbn; repeat split; auto; now rewrite <- L3|].
  apply bind_ok in H as ([e|pf] & H2 & H).
  - injection H as <-. cbn. repeat split; auto. unfold stop_tests in H2. apply bind_ok in H2 as ([e'|pf] & H3 & H2).
    + injection H2 as <-. destruct (0 <? p_past P)%Z eqn:Epa; [|discriminate]. apply Z.ltb_lt in Epa. apply bind_ok in H3 as (i & _ & H3). apply bind_ok in H3 as (b & H4 & H3).
      destruct b; [injection H3 as <-|apply bind_ok in H3 as (? & _ & ?); discriminate]. destruct (p_past P <=? l_k S)%Z eqn:E2; [apply Z.leb_le in E2; lia|discriminate].
    + destruct (negb (p_maxit P =? 0) && (p_maxit P <? l_k S + 1))%Z%bool eqn:E; [|discriminate]. injection H2 as <-. apply andb_prop in E as [E1 E2]. apply negb_true_iff, Z.eqb_neq in E1. apply Z.ltb_lt in E2. lia.
  - exfalso. apply bind_ok in H as (it & _ & H). apply bind_ok in H as (lm & _ & H). apply bind_ok in H as (j & _ & H). apply bind_ok in H as ([lm' d'] & _ & H). discriminate.
Qed.
Lemma runs_visited h S o : visited n F G P progress x0 h S -> runs n F G P progress S (Ok o) -> exists h' S', visited n F G P progress x0 h' S' /\ iteration n F G P progress S' = Ok (inl o).
Proof.
  intros V H. remember (Ok o) as ro eqn:E. revert h V. induction H as [S o' H|S H|S H|S S' o' H R IH]; intros h V; try discriminate.
  - injection E as ->. eauto.
  - subst. apply (IH eq_refl ((l_x S', l_g S') :: h)). econstructor; eauto.
Qed.
Lemma runs_bad h S (o : res lout) : visited n F G P progress x0 h S -> runs n F G P progress S o -> (forall a, o <> Ok a) ->
  exists h' S', visited n F G P progress x0 h' S' /\ ((iteration n F G P progress S' = UB /\ o = UB) \/ (iteration n F G P progress S' = Throw /\ o = Throw)).
Proof.
  intros V H No. revert h V. induction H as [S o' H|S H|S H|S S' o' H R IH]; intros h V.
  - exfalso. now apply (No o').
  - eauto 6.
  - eauto 6.
  - apply (IH No ((l_x S', l_g S') :: h)). econstructor; eauto.
Qed.
Lemma runs_det S o1 o2 : runs n F G P progress S o1 -> runs n F G P progress S o2 -> o1 = o2.
Proof.
  intros H. revert o2. induction H as [S o' H|S H|S H|S S' o' H R IH]; intros o2 H2; inversion H2; subst; try congruence.
  rewrite H in H0. injection H0 as <-. auto.
Qed.
Lemma runs_total : (p_maxit P <> 0)%Z -> forall k S, (p_maxit P - l_k S < Z.of_nat k)%Z -> (0 <= p_past P)%Z -> exists o, runs n F G P progress S o.
Proof.
  intros Hm. induction k as [|k IH]; intros S Hk Hp; destruct (iteration n F G P progress S) as [[o|S']| |] eqn:E.
  all: try (eexists; econstructor; eassumption).
  all: pose proof E as E'; apply iter_next in E' as (r & c & it & j & lm & _ & _ & _ & _ & _ & _ & X5 & _ & _ & Hst & _); apply stop_tests_pf in Hst as [_ Hst]; auto; destruct Hst as [?|Hst]; try lia.
  destruct (IH S' ltac:(lia) Hp) as (o & Ho). exists o. econstructor; eauto.
Qed.

(** No NaN with the backtracking Wolfe searches. *)
Lemma iteration_nothrow h S : checked n P -> (0 < p_m P)%Z -> (p_ls P = Wolfe \/ p_ls P = StrongWolfe) -> p_past P = 0%Z -> inv n F G P x0 h S -> inv2 h S -> iteration n F G P progress S <> Throw.
Proof.
  intros C Hm W Hp I J H. unfold iteration in H. assert (Hw : wolfe_type) by (unfold wolfe_type; tauto).
  destruct (linesearch n F G P (l_x S) (l_fx S) (l_g S) (l_d S) (l_step S)) as [r| |] eqn:H1; [|unfold linesearch in H1; destruct W as [W|W]; rewrite W in H1; discriminate|unfold linesearch in H1; destruct W as [W|W]; rewrite W in H1; discriminate].
  cbn [bind] in H. destruct (ls_out r) as [e|c] eqn:Ho; [discriminate|]. cbv zeta in H. destruct (negb _); [discriminate|]. destruct (converged n P (ls_x r) (ls_g r)) eqn:Ec; [discriminate|].
  unfold stop_tests in H. rewrite Hp in H. cbn [Z.ltb Z.compare bind] in H. destruct (negb (p_maxit P =? 0) && (p_maxit P <? l_k S + 1))%Z%bool; cbn [bind] in H; [discriminate|].
  pose proof (v_end _ _ _ _ _ _ _ I) as Ie. pose proof (v_lm _ _ _ _ _ _ _ I) as Il. pose proof (v_k _ _ _ _ _ _ _ I) as Ik.
  destruct (vget (l_lm S) (l_end S)) as [it| |] eqn:Eg; cbn [bind] in H; try discriminate.
  2: { unfold vget in Eg. destruct (0 <=? l_end S)%Z; [|discriminate]. destruct (nth_error _ _); discriminate. }
  rewrite vset_at in H by lia. cbn [bind] in H. rewrite imod_pos in H by lia. cbn [bind] in H.
  rewrite (v_fx _ _ _ _ _ _ _ I) in H1. pose proof (v_g _ _ _ _ _ _ _ I) as Ig. rewrite Ig in H1. pose proof (w_desc _ _ J) as Hd. rewrite Ig in Hd.
  destruct (wolfe_curv _ _ _ _ _ C Hw Hd H1 Ho) as [Ha Hcv]. destruct (linesearch_ok n F G P _ _ _ _ _ C H1 Ho) as (L1 & _ & L3 & _).
  set (s := vdiff (ls_x r) (l_x S)) in *. set (y := vdiff (ls_g r) (l_g S)) in *.
  assert (Hys : 0 < vdot n y s).
  { replace (vdot n y s) with (ls_stp r * (vdot n (ls_g r) (l_d S) - vdot n (l_g S) (l_d S))).
    - rewrite Ig. now apply Rmult_lt_0_compat.
    - rewrite <- vdot_diff_l. unfold vdot. rewrite <- rsum_scal. apply rsum_ext. intros i Hi. unfold s, y. rewrite L1. unfold vaxpy, vdiff. ring. }
  assert (Hyy : vdot n y y <> 0). { intros E. assert (vdot n y s = 0); [|lra]. apply rsum_zero. intros i Hi. rewrite (rsum_sq_zero n y E i Hi). ring. }
  set (lm := set_nth _ _ _) in H. set (j := ((l_end S + 1) mod p_m P)%Z) in H.
  set (ps := firstn (Z.to_nat (p_m P)) ((s, y) :: corrections h)).
  assert (Hring : holds n (p_m P) lm j ps). { apply ring_push; auto. apply (v_ring _ _ _ _ _ _ _ I). }
  destruct (v_hd _ _ _ _ _ _ _ I) as (t0 & Eh).
  assert (Hlen : length ps = Z.to_nat (if (p_m P <=? l_k S)%Z then p_m P else l_k S)).
  { unfold ps. rewrite firstn_length. cbn [length]. rewrite corrections_length. rewrite Ik. assert (1 <= length h)%nat by (rewrite Eh; cbn; lia). clear - H0. unfold vec in *. destruct (p_m P <=? Z.of_nat (length h))%Z eqn:E; [apply Z.leb_le in E|apply Z.leb_gt in E]; lia. }
  rewrite <- Hlen in H. unfold direction in H.
  destruct (two_loop n (p_m P) Hm ps lm (vneg (ls_g r)) j) as (lm' & d1 & jb & E1 & E2 & E3 & E4 & E5).
  - unfold lm. now rewrite set_nth_length.
  - unfold ps. rewrite firstn_length. lia.
  - apply Z.mod_pos_bound. lia.
  - exact Hring.
  - intros p Hpp. apply firstn_cons_in in Hpp as [-> |Hpp]; [apply Rgt_not_eq; exact Hys|]. apply Rgt_not_eq. exact (w_pairs _ _ J p Hpp).
  - rewrite E1 in H. cbn [bind] in H. rewrite rdiv_ok in H by exact Hyy. cbn [bind] in H. rewrite E5 in H. cbn [bind] in H. discriminate.
Qed.
End S.

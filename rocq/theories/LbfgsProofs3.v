(** * Proofs about the main loop *)
From Coq Require Import Reals List Arith ZArith Bool Lia Lra.
From Verif Require Import Base BaseProofs IpModel BnbProofs LbfgsModel LbfgsSpec LbfgsProofs LbfgsProofs2.
Import ListNotations.
Open Scope R_scope.

Lemma nth_firstn {A} (l : list A) : forall k i, (i < k)%nat -> nth_error (firstn k l) i = nth_error l i.
Proof. induction l as [|a l IH]; intros [|k] [|i] Hi; cbn; auto; try lia. apply IH. lia. Qed.
Section S.
Variable n : nat.
Variable F : vec -> R.
Variable G : vec -> vec.
Variable P : params.

Record checked : Prop := mkC {
  c_n : n <> 0%nat; c_eps : 0 <= p_eps P; c_past : (0 <= p_past P)%Z; c_min : 0 <= p_minstep P; c_max : p_minstep P <= p_maxstep P;
  c_ftol : 0 <= p_ftol P; c_gtol : 0 <= p_gtol P; c_wolfe : p_ls P = Wolfe \/ p_ls P = StrongWolfe -> p_ftol P < p_wolfe P < 1;
  c_maxls : (0 < p_maxls P)%Z; c_ls : p_ls P <> LsOther }.
Lemma check_ok : check_params n P = None <-> checked /\ 0 <= p_delta P /\ 0 <= p_xtol P.
Proof.
  unfold check_params. split.
  - repeat match goal with |- (if ?b then Some _ else _) = None -> _ => let E := fresh "E" in destruct b eqn:E; [discriminate|] end.
    intros EL. apply Nat.eqb_neq in E. apply ltb_false in E0, E2, E3, E4, E5, E7, E8. apply Z.ltb_ge in E1. apply Z.leb_gt in E9.
    split; [|lra]. constructor; auto; try (destruct (p_ls P); discriminate). intros [H|H]; rewrite H in E6; cbn [andb] in E6; apply orb_false_iff in E6 as [A B]; apply leb_false in A, B; lra.
  - intros ([? ? ? ? ? ? ? ? ? ?] & ? & ?). rewrite (proj2 (Nat.eqb_neq n 0)) by auto. rewrite !(proj2 (ltb_false _ _)) by auto. rewrite (proj2 (Z.ltb_ge _ _)) by auto. rewrite (proj2 (Z.leb_gt _ _)) by auto.
    match goal with |- context [(?a && ?b)%bool] => assert (E : (a && b)%bool = false) end; [|rewrite E; destruct (p_ls P); congruence].
    destruct (p_ls P); try reflexivity; cbn [andb]; rewrite !(proj2 (leb_false _ _)); try reflexivity; destruct c_wolfe0; auto.
Qed.

(** What every successful line search gives the main loop. *)
Lemma linesearch_ok xp s stp r c : checked -> linesearch n F G P xp (F xp) (G xp) s stp = Ok r -> ls_out r = inr c ->
  ls_x r = vaxpy xp s (ls_stp r) /\ ls_f r = F (ls_x r) /\ ls_g r = G (ls_x r) /\ (1 <= c <= p_maxls P)%Z /\ 0 <= ls_stp r /\
  ls_f r <= F xp + p_ftol P * ls_stp r * vdot n (G xp) s /\ vdot n (G xp) s <= 0 /\
  match p_ls P with
  | MoreThuente => p_minstep P <= ls_stp r <= p_maxstep P /\ Rabs (vdot n (ls_g r) s) <= p_gtol P * - vdot n (G xp) s
  | Armijo => 0 < ls_stp r
  | Wolfe => 0 < ls_stp r /\ p_wolfe P * vdot n (G xp) s <= vdot n (ls_g r) s
  | _ => 0 < ls_stp r /\ p_wolfe P * vdot n (G xp) s <= vdot n (ls_g r) s <= - p_wolfe P * vdot n (G xp) s
  end.
Proof.
  intros C H Ho. unfold linesearch in H. destruct (p_ls P) eqn:L.
  1: { apply morethuente_spec in H; [|apply C|apply C]. rewrite Ho in H. destruct H as (A1 & A2 & A3 & A4 & A5 & A6 & A7 & A8). pose proof (c_min C). repeat split; auto; try lia; lra. }
  all: injection H as H; apply backtracking_spec in H; [|apply C]; rewrite Ho in H; destruct H as ((B1 & B2 & B3 & B4 & B5 & B6) & B7 & B8); unfold bt_curv in B7; rewrite L in B7; repeat split; auto; try lia; try tauto; lra.
Qed.
Lemma linesearch_noub xp f g s stp : linesearch n F G P xp f g s stp <> UB.
Proof. unfold linesearch. destruct (p_ls P); try discriminate. apply morethuente_noub. Qed.
Lemma linesearch_decrease xp s stp r c : checked -> linesearch n F G P xp (F xp) (G xp) s stp = Ok r -> ls_out r = inr c -> F (ls_x r) <= F xp.
Proof.
  intros C H Ho. destruct (linesearch_ok xp s stp r c C H Ho) as (A1 & A2 & A3 & A4 & A5 & A6 & A7 & A8). rewrite <- A2. pose proof (c_ftol C).
  assert (0 <= p_ftol P * ls_stp r) by now apply Rmult_le_pos. nra.
Qed.

Variable progress : Z -> vec -> vec -> R -> Z.
Variable x0 : vec.
Lemma iter_next S S' : iteration n F G P progress S = Ok (inr S') ->
  exists r c it j lm, linesearch n F G P (l_x S) (l_fx S) (l_g S) (l_d S) (l_step S) = Ok r /\ ls_out r = inr c /\ l_x S' = ls_x r /\ l_fx S' = ls_f r /\ l_g S' = ls_g r /\ l_step S' = 1 /\
    l_k S' = (l_k S + 1)%Z /\ converged n P (ls_x r) (ls_g r) = false /\ progress (l_k S) (ls_x r) (ls_g r) (ls_f r) = 0%Z /\ stop_tests P S (ls_f r) = Ok (inr (l_pf S')) /\
    vget (l_lm S) (l_end S) = Ok it /\
    vset (l_lm S) (l_end S) (mkID (i_alpha it) (vdiff (ls_x r) (l_x S)) (vdiff (ls_g r) (l_g S)) (vdot n (vdiff (ls_g r) (l_g S)) (vdiff (ls_x r) (l_x S)))) = Ok lm /\
    imod (l_end S + 1) (p_m P) = Ok j /\ l_end S' = j /\
    direction n (Z.to_nat (if (p_m P <=? l_k S)%Z then p_m P else l_k S)) (p_m P) lm (ls_g r) j (vdot n (vdiff (ls_g r) (l_g S)) (vdiff (ls_x r) (l_x S))) (vdot n (vdiff (ls_g r) (l_g S)) (vdiff (ls_g r) (l_g S))) = Ok (l_lm S', l_d S').
Proof.
  unfold iteration. intros H. apply bind_ok in H as (r & H1 & H). destruct (ls_out r) as [e|c] eqn:Ho; [discriminate|]. cbv zeta in H.
  destruct (negb _) eqn:Ep; [discriminate|]. destruct (converged n P (ls_x r) (ls_g r)) eqn:Ec; [discriminate|].
  apply bind_ok in H as ([e|pf] & H2 & H); [discriminate|]. apply bind_ok in H as (it & H3 & H). apply bind_ok in H as (lm & H4 & H). apply bind_ok in H as (j & H5 & H).
  apply bind_ok in H as ([lm' d] & H6 & H). injection H as <-. cbn [l_x l_fx l_g l_step l_k l_pf l_end l_lm l_d].
  apply negb_false_iff, Z.eqb_eq in Ep. exists r, c, it, j, lm. repeat split; auto.
Qed.
Lemma stop_tests_pf S fx pf : (0 <= p_past P)%Z -> stop_tests P S fx = Ok (inr pf) -> length pf = length (l_pf S) /\ ((p_maxit P = 0)%Z \/ (l_k S + 1 <= p_maxit P)%Z).
Proof.
  intros Hp. unfold stop_tests. intros H. apply bind_ok in H as ([e|pf'] & H1 & H); [discriminate|].
  destruct (negb (p_maxit P =? 0) && (p_maxit P <? l_k S + 1))%Z%bool eqn:E; [discriminate|]. injection H as <-. split.
  - destruct (0 <? p_past P)%Z; [|now injection H1 as <-]. apply bind_ok in H1 as (i & _ & H1). apply bind_ok in H1 as ([|] & _ & H1); [discriminate|].
    apply bind_ok in H1 as (pf2 & H2 & H1). injection H1 as <-. apply vset_inv in H2 as (k & _ & _ & ->). apply set_nth_length.
  - apply andb_false_iff in E as [E|E]; [left; apply negb_false_iff, Z.eqb_eq in E; exact E|right; apply Z.ltb_ge in E; lia].
Qed.

(** ** Invariants *)
Record inv (h : list (vec * vec)) (S : lstate) : Prop := mkInv {
  v_fx : l_fx S = F (l_x S); v_g : l_g S = G (l_x S); v_hd : exists t, h = (l_x S, l_g S) :: t; v_k : l_k S = Z.of_nat (length h);
  v_lm : Z.of_nat (length (l_lm S)) = p_m P; v_end : (0 <= l_end S < p_m P)%Z; v_pf : length (l_pf S) = Z.to_nat (p_past P); v_le : F (l_x S) <= F x0;
  v_it : (p_maxit P <> 0)%Z -> (l_k S <= Z.max 1 (p_maxit P))%Z;
  v_ring : holds n (p_m P) (l_lm S) (l_end S) (firstn (Z.to_nat (p_m P)) (corrections h));
  v_nconv : converged n P (l_x S) (l_g S) = false }.

Lemma corrections_length h : length (corrections h) = (length h - 1)%nat.
Proof. induction h as [|[x1 g1] [|[x0' g0'] h] IH]; cbn [corrections length] in *; auto. rewrite IH. lia. Qed.

Lemma ring_push lm e h m s y it : (0 < m)%Z -> Z.of_nat (length lm) = m -> (0 <= e < m)%Z -> holds n m lm e (firstn (Z.to_nat m) h) ->
  holds n m (set_nth lm (Z.to_nat e) (mkID (i_alpha it) s y (vdot n y s))) ((e + 1) mod m) (firstn (Z.to_nat m) ((s, y) :: h)).
Proof.
  intros Hm Hl He Hh. set (lm1 := set_nth _ _ _).
  assert (E0 : forall i, slot m ((e + 1) mod m) (S i) = slot m e i).
  { intros i. unfold slot. replace ((e + 1) mod m - 1 - Z.of_nat (S i))%Z with ((e + 1) mod m - (1 + Z.of_nat (S i)))%Z by lia. rewrite Zminus_mod_idemp_l. f_equal. lia. }
  assert (E1 : slot m ((e + 1) mod m) 0 = e).
  { unfold slot. replace ((e + 1) mod m - 1 - Z.of_nat 0)%Z with ((e + 1) mod m - 1)%Z by lia. rewrite Zminus_mod_idemp_l. replace (e + 1 - 1)%Z with e by lia. apply Z.mod_small. lia. }
  destruct (Z.to_nat m) as [|m'] eqn:Em; [lia|]. cbn [firstn]. intros [|i] s' y' Hi; cbn [nth_error] in Hi.
  - injection Hi as <- <-. rewrite E1. exists (i_alpha it). unfold lm1. apply at_set_same. lia.
  - rewrite E0. assert (Hi' : (i < m')%nat). { assert (i < length (firstn m' h))%nat by (apply nth_error_Some; congruence). rewrite firstn_length in *. lia. }
    destruct (Hh i s' y') as (a & Ha). { rewrite nth_firstn by lia. now rewrite nth_firstn in Hi by lia. }
    exists a. unfold lm1. rewrite at_set_other; [exact Ha|lia|apply slot_range; lia|]. intros E. unfold slot in E.
    assert (E2 : (((e - 1 - Z.of_nat i) - e) mod m = 0 mod m)%Z) by (rewrite <- (Zminus_mod_idemp_l (e - 1 - Z.of_nat i)), <- E; now rewrite Z.sub_diag).
    rewrite Z.mod_0_l in E2 by lia. apply Z.mod_divide in E2; [|lia]. destruct E2 as [q Eq]. assert (q = 0 \/ q <= -1 \/ 1 <= q)%Z as [|[|]] by lia; nia.
Qed.

Lemma inv_start : (0 < p_m P)%Z -> (0 <= p_past P)%Z -> converged n P x0 (G x0) = false -> inv [(x0, G x0)] (start n F G P x0).
Proof.
  intros Hm Hp Hc. constructor; cbn; auto; try lia; try lra; eauto.
  - rewrite repeat_length. lia.
  - rewrite set_nth_length, repeat_length. reflexivity.
  - rewrite firstn_nil. intros [|i] s y Hi; discriminate.
Qed.

Lemma twoloop1_ne m : (0 < m)%Z -> forall ps lm d j lm1 d1 jb, Z.of_nat (length lm) = m -> (0 <= j < m)%Z -> (Z.of_nat (length ps) <= m)%Z -> holds n m lm j ps ->
  twoloop1 n (length ps) m lm d j = Ok (lm1, d1, jb) -> forall p, In p ps -> vdot n (snd p) (fst p) <> 0.
Proof.
  intros Hm. induction ps as [|[s y] ps IH]; intros lm d j lm1 d1 jb Hl Hj Hb Hh H p Hp; [destruct Hp|]. cbn [length] in *. cbn [twoloop1] in H. rewrite slot_next in H by auto. cbn [bind] in H.
  destruct (Hh 0%nat s y eq_refl) as (a0 & Ha0). pose proof (slot_range m Hm j 0) as Hr. rewrite (vget_at _ _ _ (proj1 Hr) Ha0) in H. cbn [bind i_s i_y i_ys] in H.
  unfold rdiv in H. destruct (eqb (vdot n y s) 0) eqn:E; [discriminate|]. apply eqb_false in E. cbn [bind] in H. rewrite vset_at in H by lia. cbn [bind] in H.
  destruct Hp as [<-|Hp]; [exact E|]. refine (IH _ _ _ _ _ _ _ Hr _ _ H p Hp); [now rewrite set_nth_length|lia|].
  intros i s' y' Hi. rewrite slot_S by auto. destruct (Hh (Datatypes.S i) s' y' Hi) as (a & Ha). exists a. rewrite at_set_other; [exact Ha|lia|apply slot_range; auto|].
  intros E'. apply slot_inj in E'; [discriminate|auto|lia|]. assert (i < length ps)%nat by (apply nth_error_Some; congruence). lia.
Qed.
Lemma direction_ok lm g j ys yy lm' d ps m : (0 < m)%Z -> Z.of_nat (length lm) = m -> (0 <= j < m)%Z -> (Z.of_nat (length ps) <= m)%Z -> holds n m lm j ps ->
  direction n (length ps) m lm g j ys yy = Ok (lm', d) ->
  (forall p, In p ps -> vdot n (snd p) (fst p) <> 0) /\ yy <> 0 /\ same_pairs lm lm' /\ d = comb n ps (ys / yy) (vneg g).
Proof.
  intros Hm Hl Hj Hb Hh H.
  assert (Hne : forall p, In p ps -> vdot n (snd p) (fst p) <> 0).
  { unfold direction in H. apply bind_ok in H as ([[lm1 d1] jb] & H & _). exact (twoloop1_ne m Hm ps _ _ _ _ _ _ Hl Hj Hb Hh H). }
  unfold direction in H. destruct (two_loop n m Hm ps lm (vneg g) j Hl Hb Hj Hh Hne) as (lm1 & d1 & jb & E1 & E2 & E3 & E4 & E5). rewrite E1 in H. cbn [bind] in H.
  unfold rdiv in H. destruct (eqb yy 0) eqn:E; [discriminate|]. apply eqb_false in E. cbn [bind] in H. rewrite E5 in H. cbn [bind] in H. injection H as <- <-. auto.
Qed.

Lemma inv_step h S S' : checked -> (0 < p_m P)%Z -> inv h S -> iteration n F G P progress S = Ok (inr S') ->
  inv ((l_x S', l_g S') :: h) S' /\
  exists s y t, corrections ((l_x S', l_g S') :: h) = (s, y) :: t /\ vdot n y y <> 0 /\ (forall p, In p (firstn (Z.to_nat (p_m P)) ((s, y) :: t)) -> vdot n (snd p) (fst p) <> 0) /\
    l_d S' = comb n (firstn (Z.to_nat (p_m P)) ((s, y) :: t)) (vdot n y s / vdot n y y) (vneg (l_g S')).
Proof.
  intros C Hm I H. apply iter_next in H as (r & c & it & j & lm & H1 & Ho & X1 & X2 & X3 & X4 & X5 & Hc & Hp & Hst & Hg & Hset & Hj & X6 & Hd).
  destruct I as [I1 I2 (t & I3) I4 I5 I6 I7 I8 I9 I10 I11]. rewrite I1, I2 in H1. destruct (linesearch_ok _ _ _ _ _ C H1 Ho) as (L1 & L2 & L3 & L4 & L5 & L6 & L7 & L8).
  pose proof (linesearch_decrease _ _ _ _ _ C H1 Ho) as Ld.
  rewrite imod_pos in Hj by lia. injection Hj as Hj. rewrite vset_at in Hset by lia. injection Hset as Hset.
  destruct (stop_tests_pf _ _ _ (c_past C) Hst) as [P1 P2].
  assert (Ecor : corrections ((l_x S', l_g S') :: h) = (vdiff (ls_x r) (l_x S), vdiff (ls_g r) (l_g S)) :: corrections h).
  { rewrite I3. cbn [corrections]. rewrite X1, X3. reflexivity. }
  assert (Hring : holds n (p_m P) lm j (firstn (Z.to_nat (p_m P)) (corrections ((l_x S', l_g S') :: h)))).
  { rewrite Ecor, <- Hset, <- Hj. apply ring_push; auto. }
  assert (Hlen : length (firstn (Z.to_nat (p_m P)) (corrections ((l_x S', l_g S') :: h))) = Z.to_nat (if (p_m P <=? l_k S)%Z then p_m P else l_k S)).
  { rewrite firstn_length, corrections_length. cbn [length]. rewrite I4. destruct (p_m P <=? Z.of_nat (length h))%Z eqn:E; [apply Z.leb_le in E|apply Z.leb_gt in E]; unfold vec in *; lia. }
  assert (Hll : Z.of_nat (length lm) = p_m P) by (rewrite <- Hset, set_nth_length; exact I5).
  assert (Hjr : (0 <= j < p_m P)%Z) by (rewrite <- Hj; apply Z.mod_pos_bound; lia).
  rewrite <- Hlen in Hd. apply direction_ok in Hd as (D1 & D2 & (D3 & D4) & D5); auto; [|rewrite firstn_length; lia].
  split.
  - constructor.
    + rewrite X2, X1. exact L2.
    + rewrite X3, X1. exact L3.
    + eauto.
    + rewrite X5, I4. cbn [length]. lia.
    + rewrite D3. exact Hll.
    + rewrite X6. exact Hjr.
    + rewrite P1. exact I7.
    + rewrite X1. lra.
    + intros Hi. rewrite X5. lia.
    + rewrite X6. intros i s y Hi. destruct (Hring i s y Hi) as (a & Ha). apply D4 in Ha. exact Ha.
    + rewrite X1, X3. exact Hc.
  - rewrite Ecor in *. eexists _, _, _. split; [reflexivity|]. split; [exact D2|]. split; [exact D1|]. rewrite X3. exact D5.
Qed.
Lemma inv_visited h S : checked -> (0 < p_m P)%Z -> converged n P x0 (G x0) = false -> visited n F G P progress x0 h S -> inv h S.
Proof. intros C Hm Hc H. induction H as [|h S S' H IH Hs]; [apply inv_start; auto; apply C|]. now destruct (inv_step h S S' C Hm IH Hs). Qed.

(** ** No memory error *)
Lemma bind_noub {A B} (x : res A) (f : A -> res B) : x <> UB -> (forall a, x = Ok a -> f a <> UB) -> bind x f <> UB.
Proof. destruct x; cbn; intros H1 H2; auto; discriminate. Qed.
Lemma rdiv_noub a b : rdiv a b <> UB.
Proof. unfold rdiv. destruct (eqb b 0); discriminate. Qed.
Lemma vget_noub {A} (l : list A) z : (0 <= z < Z.of_nat (length l))%Z -> vget l z <> UB.
Proof. intros H. unfold vget. rewrite (proj2 (Z.leb_le 0 z)) by lia. destruct (nth_error l (Z.to_nat z)) eqn:E; [discriminate|]. apply nth_error_None in E. lia. Qed.
Lemma vset_noub {A} (l : list A) z a : (0 <= z < Z.of_nat (length l))%Z -> vset l z a <> UB.
Proof. intros H. unfold vset. rewrite (proj2 (Z.leb_le 0 z)), (proj2 (Z.ltb_lt z _)) by lia. discriminate. Qed.
Lemma twoloop1_noub m b : forall lm d j, (0 < m)%Z -> Z.of_nat (length lm) = m -> (0 <= j < m)%Z -> twoloop1 n b m lm d j <> UB /\
  forall lm' d' j', twoloop1 n b m lm d j = Ok (lm', d', j') -> Z.of_nat (length lm') = m /\ (0 <= j' < m)%Z.
Proof.
  induction b as [|b IH]; intros lm d j Hm Hl Hj; cbn [twoloop1]; [split; [discriminate|intros ? ? ? [= <- <- <-]; auto]|].
  rewrite slot_next by auto. cbn [bind]. pose proof (slot_range m Hm j 0) as Hr. split.
  - apply bind_noub; [apply vget_noub; lia|intros it _]. apply bind_noub; [apply rdiv_noub|intros al _]. apply bind_noub; [apply vset_noub; lia|intros lm1 H1].
    apply IH; auto. apply vset_inv in H1 as (k & _ & _ & ->). now rewrite set_nth_length.
  - intros lm' d' j' H. apply bind_ok in H as (it & _ & H). apply bind_ok in H as (al & _ & H). apply bind_ok in H as (lm1 & H1 & H). apply vset_inv in H1 as (k & _ & _ & ->).
    eapply (proj2 (IH _ _ _ Hm _ Hr) _ _ _ H). Unshelve. now rewrite set_nth_length.
Qed.
Lemma twoloop2_noub m lm b : forall d j, (0 < m)%Z -> Z.of_nat (length lm) = m -> (0 <= j < m)%Z -> twoloop2 n b m lm d j <> UB.
Proof.
  induction b as [|b IH]; intros d j Hm Hl Hj; cbn [twoloop2]; [discriminate|].
  apply bind_noub; [apply vget_noub; lia|intros it _]. apply bind_noub; [apply rdiv_noub|intros al _]. rewrite imod_pos by lia. cbn [bind]. apply IH; auto. apply Z.mod_pos_bound. lia.
Qed.
Lemma iteration_noub h S : checked -> (0 < p_m P)%Z -> inv h S -> iteration n F G P progress S <> UB.
Proof.
  intros C Hm I. unfold iteration. apply bind_noub; [apply linesearch_noub|intros r _]. destruct (ls_out r); [discriminate|]. cbv zeta.
  destruct (negb _); [discriminate|]. destruct (converged _ _ _ _); [discriminate|]. pose proof (v_k _ _ I) as Ik. pose proof (v_pf _ _ I) as Ip. pose proof (c_past C) as Cp. pose proof (v_end _ _ I) as Ie. pose proof (v_lm _ _ I) as Il.
  apply bind_noub.
  - unfold stop_tests. apply bind_noub; [|intros [?|?] _; discriminate]. destruct (0 <? p_past P)%Z eqn:E; [|discriminate]. apply Z.ltb_lt in E. rewrite imod_pos by lia. cbn [bind].
    assert ((0 <= l_k S mod p_past P < Z.of_nat (length (l_pf S)))%Z) by (pose proof (Z.mod_pos_bound (l_k S) (p_past P) E); lia).
    apply bind_noub; [destruct (p_past P <=? l_k S)%Z; [|discriminate]; apply bind_noub; [now apply vget_noub|intros; apply bind_noub; [apply rdiv_noub|discriminate]]|].
    intros [|] _; [discriminate|]. apply bind_noub; [now apply vset_noub|discriminate].
  - intros [c|pf] _; [discriminate|]. apply bind_noub; [apply vget_noub; lia|intros it _]. apply bind_noub; [apply vset_noub; lia|intros lm Hlm].
    apply vset_inv in Hlm as (k & _ & _ & ->). rewrite imod_pos by lia. cbn [bind]. apply bind_noub; [|intros [? ?]; discriminate].
    set (lm := set_nth _ _ _). assert (Hl : Z.of_nat (length lm) = p_m P) by (unfold lm; now rewrite set_nth_length).
    pose proof (Z.mod_pos_bound (l_end S + 1) (p_m P) Hm) as Hr. unfold direction.
    match goal with |- bind (twoloop1 n ?b ?m ?l ?d ?j) _ <> UB => destruct (twoloop1_noub m b l d j Hm Hl Hr) as [T1 T2] end.
    apply bind_noub; [exact T1|]. intros [[lm1 d1] j1] Ht. destruct (T2 _ _ _ Ht) as [Hl1 Hj1]. apply bind_noub; [apply rdiv_noub|intros cc _]. apply bind_noub; [now apply twoloop2_noub|discriminate].
Qed.
End S.

(** * Proofs about the line searches *)
From Coq Require Import Reals List Arith ZArith Bool Lia Lra.
From Verif Require Import Base BaseProofs IpModel BnbProofs LbfgsModel LbfgsSpec.
Import ListNotations.
Open Scope R_scope.

Lemma leb_true a b : leb a b = true <-> a <= b.
Proof. unfold leb. destruct (Rle_dec a b); intuition (try discriminate; try lra). Qed.
Lemma leb_false a b : leb a b = false <-> b < a.
Proof. unfold leb. destruct (Rle_dec a b); intuition (try discriminate; try lra). Qed.
Lemma eqb_false a b : eqb a b = false <-> a <> b.
Proof. pose proof (eqb_true a b). destruct (eqb a b); intuition (try discriminate; try lra). Qed.
Lemma dot_vdot n x y : dot n x y = vdot n x y.
Proof. unfold dot, vdot. rewrite rsum_list. reflexivity. Qed.
Lemma norm2_vnorm n x : norm2 n x = vnorm n x.
Proof. unfold norm2, vnorm. now rewrite dot_vdot. Qed.
Lemma vdot_ext n x y x' y' : (forall i, (i < n)%nat -> x i = x' i) -> (forall i, (i < n)%nat -> y i = y' i) -> vdot n x y = vdot n x' y'.
Proof. intros H1 H2. apply rsum_ext. intros i Hi. now rewrite H1, H2. Qed.
Lemma vdot_sym n x y : vdot n x y = vdot n y x.
Proof. apply rsum_ext. intros; ring. Qed.
Lemma vdot_add_r n x y z c : vdot n x (vaxpy y z c) = vdot n x y + c * vdot n x z.
Proof. unfold vdot, vaxpy. rewrite <- rsum_scal, <- rsum_plus. apply rsum_ext. intros; ring. Qed.
Lemma vdot_scale_r n x y c : vdot n x (vscale y c) = c * vdot n x y.
Proof. unfold vdot, vscale. rewrite <- rsum_scal. apply rsum_ext. intros; ring. Qed.
Lemma vdot_neg_r n x y : vdot n x (vneg y) = - vdot n x y.
Proof. unfold vdot, vneg. replace (- rsum n (fun i => x i * y i)) with ((-1) * rsum n (fun i => x i * y i)) by ring. rewrite <- rsum_scal. apply rsum_ext. intros; ring. Qed.
Lemma vdot_diff_l n x y z : vdot n (vdiff x y) z = vdot n x z - vdot n y z.
Proof. unfold vdot, vdiff. rewrite <- rsum_minus. apply rsum_ext. intros; ring. Qed.
Lemma vdot_pos n x : 0 <= vdot n x x.
Proof. apply rsum_nonneg. intros. apply Rle_0_sqr. Qed.

Section S.
Variable n : nat.
Variable F : vec -> R.
Variable G : vec -> vec.
Variable P : params.

(** ** Backtracking *)
(** What a successful return means. *)
Definition ls_good (xp s : vec) (dginit : R) (r : lsres) (count : Z) : Prop :=
  0 < ls_stp r /\ ls_x r = vaxpy xp s (ls_stp r) /\ ls_f r = F (ls_x r) /\ ls_g r = G (ls_x r) /\ (1 <= count <= p_maxls P)%Z /\
  ls_f r <= F xp + p_ftol P * ls_stp r * dginit.
Definition bt_curv (s : vec) (dginit : R) (r : lsres) : Prop :=
  match p_ls P with
  | Armijo => True
  | Wolfe => p_wolfe P * dginit <= vdot n (ls_g r) s
  | _ => p_wolfe P * dginit <= vdot n (ls_g r) s <= - p_wolfe P * dginit
  end.

Lemma bt_test_inv finit dginit dgtest stp f g s count : 
  match bt_test n P finit dginit dgtest stp f g s count with
  | inl (inr c) => c = count /\ f <= finit + stp * dgtest /\
      match p_ls P with Armijo => True | Wolfe => p_wolfe P * dginit <= vdot n g s | _ => p_wolfe P * dginit <= vdot n g s <= - p_wolfe P * dginit end
  | inl (inl c) => (c = MinimumStep /\ stp < p_minstep P) \/ (c = MaximumStep /\ p_maxstep P < stp) \/ (c = MaximumLinesearch /\ (p_maxls P <= count)%Z)
  | inr w => (w = 1 / 2 \/ w = 21 / 10) /\ (count < p_maxls P)%Z /\ p_minstep P <= stp <= p_maxstep P
  end.
Proof.
  unfold bt_test.
  assert (Fin : forall w (Q : Z -> Prop), w = 1 / 2 \/ w = 21 / 10 ->
    match (if ltb stp (p_minstep P) then inl (inl MinimumStep) else if ltb (p_maxstep P) stp then inl (inl MaximumStep)
      else if (p_maxls P <=? count)%Z then inl (inl MaximumLinesearch) else inr w : (rcode + Z) + R) with
    | inl (inr c) => Q c
    | inl (inl c) => (c = MinimumStep /\ stp < p_minstep P) \/ (c = MaximumStep /\ p_maxstep P < stp) \/ (c = MaximumLinesearch /\ (p_maxls P <= count)%Z)
    | inr w => (w = 1 / 2 \/ w = 21 / 10) /\ (count < p_maxls P)%Z /\ p_minstep P <= stp <= p_maxstep P
    end).
  { intros w Q Hw. destruct (ltb stp (p_minstep P)) eqn:E1; [left; split; [reflexivity|now apply ltb_true]|].
    destruct (ltb (p_maxstep P) stp) eqn:E2; [right; left; split; [reflexivity|now apply ltb_true]|].
    destruct (p_maxls P <=? count)%Z eqn:E3; [right; right; split; [reflexivity|now apply Z.leb_le]|].
    apply ltb_false in E1, E2. apply Z.leb_gt in E3. auto. }
  assert (W1 : 1 / 2 = 1 / 2 \/ 1 / 2 = 21 / 10) by auto. assert (W2 : 21 / 10 = 1 / 2 \/ 21 / 10 = 21 / 10) by auto.
  cbv zeta.
  destruct (ltb (finit + stp * dgtest) f) eqn:E; [exact (Fin (1 / 2) _ W1)|].
  apply ltb_false in E.
  destruct (p_ls P) eqn:L.
  all: try (split; [reflexivity|split; [exact E|exact I]]).
  all: destruct (ltb (vdot n g s) (p_wolfe P * dginit)) eqn:E1; [exact (Fin (21 / 10) _ W2)|]; apply ltb_false in E1.
  all: try (split; [reflexivity|split; [exact E|exact E1]]).
  all: destruct (ltb (- p_wolfe P * dginit) (vdot n g s)) eqn:E2; [exact (Fin (1 / 2) _ W1)|]; apply ltb_false in E2.
  all: split; [reflexivity|split; [exact E|split; [exact E1|exact E2]]].
Qed.

Lemma bt_loop_spec fuel : forall xp s finit dginit stp count r, 0 < stp -> finit = F xp -> (0 <= count < p_maxls P)%Z -> (p_maxls P - count <= Z.of_nat fuel)%Z ->
  bt_loop n F G P fuel xp s finit dginit (p_ftol P * dginit) stp count = r ->
  ls_x r = vaxpy xp s (ls_stp r) /\ ls_f r = F (ls_x r) /\ ls_g r = G (ls_x r) /\ 0 < ls_stp r /\
  match ls_out r with
  | inr c => ls_good xp s dginit r c /\ bt_curv s dginit r
  | inl c => (c = MinimumStep /\ ls_stp r < p_minstep P) \/ (c = MaximumStep /\ p_maxstep P < ls_stp r) \/ c = MaximumLinesearch
  end.
Proof.
  induction fuel as [|fuel IH]; intros xp s finit dginit stp count r Hs Hf Hc Hfu Hr; [lia|].
  cbn [bt_loop] in Hr. cbv zeta in Hr.
  pose proof (bt_test_inv finit dginit (p_ftol P * dginit) stp (F (vaxpy xp s stp)) (G (vaxpy xp s stp)) s (count + 1)) as T.
  destruct (bt_test n P finit dginit (p_ftol P * dginit) stp (F (vaxpy xp s stp)) (G (vaxpy xp s stp)) s (count + 1)) as [[c|c]|w].
  - subst r. cbn [ls_x ls_f ls_g ls_stp ls_out]. repeat split; auto. destruct T as [T|[T|[-> _]]]; auto.
  - subst r. cbn [ls_x ls_f ls_g ls_stp ls_out]. destruct T as (-> & T1 & T2). repeat split; auto; cbn [ls_x ls_f ls_g ls_stp ls_out]; auto; try lia.
    rewrite <- Hf. lra.
  - destruct T as (Hw & Hcc & _). apply (IH xp s finit dginit (stp * w) (count + 1)%Z r); auto; try lia.
    apply Rmult_lt_0_compat; [exact Hs|]. destruct Hw as [-> | ->]; lra.
Qed.

Lemma backtracking_spec xp s stp r : (0 < p_maxls P)%Z -> backtracking n F G P xp (F xp) (G xp) s stp = r ->
  match ls_out r with
  | inr c => ls_good xp s (vdot n (G xp) s) r c /\ bt_curv s (vdot n (G xp) s) r /\ vdot n (G xp) s <= 0
  | inl c => (c = InvalidParameters /\ stp <= 0) \/ (c = IncreaseGradient /\ 0 < vdot n (G xp) s) \/ (c = MinimumStep /\ ls_stp r < p_minstep P) \/ (c = MaximumStep /\ p_maxstep P < ls_stp r) \/ c = MaximumLinesearch
  end.
Proof.
  intros Hm Hr. unfold backtracking in Hr. destruct (leb stp 0) eqn:E; [apply leb_true in E; subst r; cbn; auto|]. apply leb_false in E. cbv zeta in Hr.
  destruct (ltb 0 (vdot n (G xp) s)) eqn:E1; [apply ltb_true in E1; subst r; cbn; auto|]. apply ltb_false in E1.
  apply bt_loop_spec in Hr; auto; [|lia|lia]. destruct Hr as (_ & _ & _ & _ & Hr). destruct (ls_out r) as [c|c]; [tauto|]. destruct Hr; auto.
Qed.

(** ** More-Thuente *)
Lemma mt_turn_ret xp s finit dginit dgtest M r : p_minstep P <= p_maxstep P -> mt_turn n F G P xp s finit dginit dgtest M = Ok (inl r) ->
  ls_x r = vaxpy xp s (ls_stp r) /\ ls_f r = F (ls_x r) /\ ls_g r = G (ls_x r) /\
  match ls_out r with
  | inr c => c = (m_count M + 1)%Z /\ (c < p_maxls P)%Z /\ p_minstep P <= ls_stp r <= p_maxstep P /\ ls_f r <= finit + ls_stp r * dgtest /\ Rabs (vdot n (ls_g r) s) <= p_gtol P * - dginit
  | inl c => c = RoundingError \/ c = MaximumStep \/ c = MinimumStep \/ c = WidthTooSmall \/ c = MaximumLinesearch
  end.
Proof.
  intros Hmm. unfold mt_turn. cbv zeta.
  set (I := m_I M). set (stmin := if t_br I then Rmin (t_x I) (t_y I) else t_x I). set (stmax := if t_br I then Rmax (t_x I) (t_y I) else t_t I + 4 * (t_t I - t_x I)).
  set (stp1 := if ltb (t_t I) (p_minstep P) then p_minstep P else t_t I). set (stp2 := if ltb (p_maxstep P) stp1 then p_maxstep P else stp1).
  set (cond := ((t_br I && ((leb stp2 stmin || leb stmax stp2) || (p_maxls P <=? m_count M + 1)%Z || u_bad (m_uinfo M)))
                 || (t_br I && leb (stmax - stmin) (p_xtol P * stmax)))%bool).
  set (stp := if cond then t_x I else stp2).
  assert (Hb : p_minstep P <= stp2 <= p_maxstep P).
  { unfold stp2, stp1. destruct (ltb (t_t I) (p_minstep P)) eqn:A1; [|apply ltb_false in A1];
      (match goal with |- context [ltb ?a ?b] => destruct (ltb a b) eqn:A2; [apply ltb_true in A2|apply ltb_false in A2] end); lra. }
  assert (Eb' : t_br I = true -> leb (t_x I) stmin = true \/ leb stmax (t_x I) = true).
  { intros Eb. unfold stmin, stmax. rewrite Eb. rewrite !leb_true. unfold Rmin, Rmax. destruct (Rle_dec (t_x I) (t_y I)); [left|right]; lra. }
  clearbody stmin stmax stp2.
  destruct (t_br I && (leb stp stmin || leb stmax stp || u_bad (m_uinfo M)))%bool eqn:E1; [intros [= <-]; cbn; auto 10|].
  destruct (eqb stp (p_maxstep P) && leb (F (vaxpy xp s stp)) (finit + stp * dgtest) && leb (vdot n (G (vaxpy xp s stp)) s) dgtest)%bool eqn:E2; [intros [= <-]; cbn; auto 10|].
  destruct (eqb stp (p_minstep P) && _)%bool eqn:E3; [intros [= <-]; cbn; auto 10|].
  destruct (t_br I && leb (stmax - stmin) (p_xtol P * stmax))%bool eqn:E4; [intros [= <-]; cbn; auto 10|].
  destruct (p_maxls P <=? m_count M + 1)%Z eqn:E5; [intros [= <-]; cbn; auto 10|].
  destruct (leb (F (vaxpy xp s stp)) (finit + stp * dgtest) && leb (Rabs (vdot n (G (vaxpy xp s stp)) s)) (p_gtol P * - dginit))%bool eqn:E6.
  - intros [= <-]. cbn [ls_x ls_f ls_g ls_stp ls_out]. apply andb_prop in E6 as [E6 E7]. apply leb_true in E6, E7.
    assert (Hc : cond = false).
    { destruct cond eqn:Ec; [exfalso|reflexivity]. unfold stp in E1. (* the step was not replaced by the best one *)
      unfold cond in Ec. destruct (t_br I) eqn:Eb; [|discriminate]. cbn [andb] in E1.
      destruct (Eb' eq_refl) as [A|A]; rewrite A in E1; cbn in E1; [|rewrite orb_true_r in E1]; discriminate. }
    apply Z.leb_gt in E5. unfold stp in *. rewrite Hc in *. repeat split; auto; lra.
  - intros H. exfalso. apply bind_ok in H as ([J u] & _ & H). destruct (t_br J); discriminate.
Qed.
Lemma mt_turn_next xp s finit dginit dgtest M M' : mt_turn n F G P xp s finit dginit dgtest M = Ok (inr M') -> m_count M' = (m_count M + 1)%Z /\ (m_count M' < p_maxls P)%Z.
Proof.
  unfold mt_turn. cbv zeta. repeat match goal with |- (if ?b then Ok (inl _) else _) = _ -> _ => let E := fresh "E" in destruct b eqn:E; [discriminate|] end.
  intros H. apply bind_ok in H as ([J u] & _ & H). injection H as <-. apply Z.leb_gt in E3. destruct (t_br J); cbn; lia.
Qed.

Lemma mt_loop_spec fuel : forall xp s finit dginit M r, p_minstep P <= p_maxstep P -> finit = F xp -> (0 <= m_count M < p_maxls P)%Z -> (p_maxls P - m_count M <= Z.of_nat fuel)%Z ->
  mt_loop n F G P fuel xp s finit dginit (p_ftol P * dginit) M = Ok r ->
  ls_x r = vaxpy xp s (ls_stp r) /\ ls_f r = F (ls_x r) /\ ls_g r = G (ls_x r) /\
  match ls_out r with
  | inr c => (1 <= c < p_maxls P)%Z /\ p_minstep P <= ls_stp r <= p_maxstep P /\ ls_f r <= F xp + p_ftol P * ls_stp r * dginit /\ Rabs (vdot n (ls_g r) s) <= p_gtol P * - dginit
  | inl c => c = RoundingError \/ c = MaximumStep \/ c = MinimumStep \/ c = WidthTooSmall \/ c = MaximumLinesearch
  end.
Proof.
  induction fuel as [|fuel IH]; intros xp s finit dginit M r Hmm Hf Hc Hfu Hr; [lia|]. cbn [mt_loop] in Hr. apply bind_ok in Hr as ([r'|M'] & H & Hr).
  - injection Hr as <-. apply mt_turn_ret in H as (A & B & C & D); [|exact Hmm]. repeat split; auto. destruct (ls_out r') as [c|c]; [exact D|]. destruct D as (-> & D1 & D2 & D3 & D4).
    repeat split; auto; try lia; try lra.
  - apply mt_turn_next in H. apply (IH xp s finit dginit M' r); auto; lia.
Qed.
Lemma morethuente_spec xp s stp r : p_minstep P <= p_maxstep P -> (0 < p_maxls P)%Z -> morethuente n F G P xp (F xp) (G xp) s stp = Ok r ->
  match ls_out r with
  | inr c => ls_x r = vaxpy xp s (ls_stp r) /\ ls_f r = F (ls_x r) /\ ls_g r = G (ls_x r) /\ (1 <= c < p_maxls P)%Z /\ p_minstep P <= ls_stp r <= p_maxstep P /\
      ls_f r <= F xp + p_ftol P * ls_stp r * vdot n (G xp) s /\ Rabs (vdot n (ls_g r) s) <= p_gtol P * - vdot n (G xp) s /\ vdot n (G xp) s <= 0
  | inl c => (c = InvalidParameters /\ stp <= 0) \/ (c = IncreaseGradient /\ 0 < vdot n (G xp) s) \/ c = RoundingError \/ c = MaximumStep \/ c = MinimumStep \/ c = WidthTooSmall \/ c = MaximumLinesearch
  end.
Proof.
  intros Hmm Hm Hr. unfold morethuente in Hr. destruct (leb stp 0) eqn:E; [apply leb_true in E; injection Hr as <-; cbn; auto|]. apply leb_false in E. cbv zeta in Hr.
  destruct (ltb 0 (vdot n (G xp) s)) eqn:E1; [apply ltb_true in E1; injection Hr as <-; cbn; auto|]. apply ltb_false in E1.
  apply mt_loop_spec in Hr; auto; cbn [m_count]; [|lia|lia]. destruct Hr as (A & B & C & D). destruct (ls_out r) as [c|c]; [tauto|]. repeat split; tauto.
Qed.
Lemma mt_turn_noub xp s finit dginit dgtest M : mt_turn n F G P xp s finit dginit dgtest M <> UB.
Proof.
  assert (Hd : forall a b, rdiv a b <> UB) by (intros; unfold rdiv; destruct (eqb b 0); discriminate).
  assert (Hsq : forall a, rsqrt a <> UB) by (intros; unfold rsqrt; destruct (ltb a 0); discriminate).
  assert (Hb : forall A B (x : res A) (f : A -> res B), x <> UB -> (forall a, f a <> UB) -> bind x f <> UB) by (intros A B [a| |] f H1 H2; cbn; auto; discriminate).
  assert (Hcm : forall u fu du v fv dv, cubic_min u fu du v fv dv <> UB) by (intros; unfold cubic_min; repeat (apply Hb; [auto|intros]); discriminate).
  assert (Hcm2 : forall u fu du v fv dv a b, cubic_min2 u fu du v fv dv a b <> UB) by (intros; unfold cubic_min2; repeat (apply Hb; [auto|intros]); discriminate).
  assert (Hq : forall u fu du v fv, quard_min u fu du v fv <> UB) by (intros; unfold quard_min; repeat (apply Hb; [auto|intros]); discriminate).
  assert (Hq2 : forall u du v dv, quard_min2 u du v dv <> UB) by (intros; unfold quard_min2; repeat (apply Hb; [auto|intros]); discriminate).
  assert (Hu : forall I ft dt a b, update_trial_interval I ft dt a b <> UB).
  { intros. unfold update_trial_interval, trial_value. cbv zeta. destruct (_ && _)%bool; [discriminate|]. apply Hb; [|intros [[? ?] ?]; discriminate].
    repeat match goal with |- (if ?b then _ else _) <> UB => destruct b end; repeat (apply Hb; [auto|intros]); try discriminate. destruct (t_br I); [auto|discriminate]. }
  unfold mt_turn. cbv zeta. repeat match goal with |- (if ?b then Ok (inl _) else _) <> UB => destruct b; [discriminate|] end.
  apply Hb; [|intros [J u]; discriminate]. match goal with |- (if ?b then _ else _) <> UB => destruct b end; [|auto]. apply Hb; [auto|intros [J u]; discriminate].
Qed.
Lemma morethuente_noub xp f gp s stp : morethuente n F G P xp f gp s stp <> UB.
Proof.
  unfold morethuente. destruct (leb stp 0); [discriminate|]. cbv zeta. destruct (ltb 0 (vdot n gp s)); [discriminate|].
  assert (H : forall fuel xp s finit dginit dgtest M, mt_loop n F G P fuel xp s finit dginit dgtest M <> UB); [|apply H].
  induction fuel as [|fuel IH]; intros; cbn [mt_loop]; pose proof (mt_turn_noub xp0 s0 finit dginit dgtest M) as N; destruct (mt_turn n F G P xp0 s0 finit dginit dgtest M) as [[?|?]| |]; cbn; try discriminate; try congruence; auto.
Qed.

End S.

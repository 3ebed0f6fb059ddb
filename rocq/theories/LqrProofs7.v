(** * One iteration on a convex linear-quadratic problem; control limits; integration schemes *)
From Coq Require Import Reals List Arith ZArith Bool Lia Lra FunctionalExtensionality.
From Verif Require Import Base BaseProofs IpModel BnbProofs LbfgsProofs LqrModel LqrSpec LqrProofs LqrProofs2 LqrProofs3 LqrProofs4 LqrProofs5 LqrProofs6.
Import ListNotations.
Open Scope R_scope.

Lemma closed_loop_cost step stage final T (xs : sseq) pi : forall k t, (t + k = T)%nat ->
  (forall s, (s < T)%nat -> xs (s + 1)%nat = step (xs s) (pi s (xs s)) s) ->
  cost_to_go step stage final k t (xs t) pi = rsum k (fun s => stage (xs (t + s)%nat) (pi (t + s)%nat (xs (t + s)%nat)) (t + s)%nat) + final (xs T).
Proof.
  induction k as [|k IH]; intros t Hk H; cbn [cost_to_go].
  - cbn. replace t with T by lia. ring.
  - rewrite <- H by lia. rewrite IH by (try lia; exact H). rewrite rsum_S_first. rewrite Nat.add_0_r.
    rewrite (rsum_ext k (fun s => stage (xs (t + 1 + s)%nat) _ _) (fun s => stage (xs (t + Datatypes.S s)%nat) (pi (t + Datatypes.S s)%nat (xs (t + Datatypes.S s)%nat)) (t + Datatypes.S s)%nat)); [ring|].
    intros s Hs. replace (t + 1 + s)%nat with (t + Datatypes.S s)%nat by lia. reflexivity.
Qed.

Section One.
Variable S : stgs.
Variable f : vec -> vec -> nat -> vec.
Variable l : vec -> vec -> nat -> R.
Variable phi : vec -> R.
Variable qp : (vec -> R) -> vec -> vec -> vec.
Notation n := (s_xdim S).
Notation m := (s_udim S).
Notation T := (s_tdim S).
Notation dyn := (pdyn f).
Notation obj := (pobj l phi).
Notation stp := (pstep S f).
Notation ctg := (cost_to_go stp l phi).
(** The forward pass stored with fresh derivatives is the one of the current trajectory. *)
Definition matched (L : lstate) : Prop := l_devs L = true ->
  (forall t, (t < T)%nat -> f_cost (l_f L) t = l (l_x L t) (ff (l_u L t)) t) /\ f_cost (l_f L) T = phi (l_x L T).
Lemma matched_apply xn un : let F := applyController S dyn obj xn un in
  (forall t, (t < T)%nat -> f_cost F t = l (f_x F t) (ff (f_u F t)) t) /\ f_cost F T = phi (f_x F T).
Proof. cbv zeta. destruct (apply_ok S dyn obj xn un) as (_ & I2 & I3 & _). split; [intros t Ht; destruct (I2 t Ht) as (_ & _ & ->); reflexivity|rewrite I3; reflexivity]. Qed.
Lemma matched_visited xs us bs ds F0 i L : s_alphas S <> [] -> visited S dyn obj qp xs us bs ds F0 i L -> matched L.
Proof.
  intros Hne H. induction H as [L H|i L L' H IH Hi Hit].
  - unfold start in H. destruct (rollout_is S dyn obj (s_alphas S) xs us F0 Hne) as (a & _ & Ea). rewrite Ea in H. destruct (f_div _); [discriminate|]. injection H as <-. intros _. cbn. apply matched_apply.
  - destruct (iter_effect S dyn obj qp L (inr L') Hit) as [E|(a & b2 & F & _ & -> & Ex & Eu & _ & Ef & _)]; cbn [result] in *.
    + inversion Hit as [|ds' flag bs' mult reg F acc Hd Hb Hg HF Ho]. subst. destruct acc as [a|]; cbv zeta in Ho.
      * destruct (ltb _ (s_costtol S)); [discriminate|]. injection Ho as <-. intros _. cbn. destruct flag; [|discriminate]. symmetry in HF. apply line_search_ok in HF. destruct HF as (_ & -> & _). apply matched_apply.
      * destruct (ltb _ _); [discriminate|]. injection Ho as <-. intros X. discriminate X.
    + intros _. rewrite Ex, Eu, Ef. apply matched_apply.
Qed.
Variables (A B : nat -> mat) (c : nat -> vec) (l0 : nat -> R) (b d : nat -> vec) (Q R_ N : nat -> mat) (phi0 : R) (bf : vec) (Qf : mat).
Hypothesis LQ : linear_quadratic T n m f l phi A B c l0 b d Q R_ N phi0 bf Qf.
Hypothesis CVX : convex_costs T n m Q R_ N Qf.
Hypothesis Hlim : s_limits S = false.

Lemma full_step (L : lstate) x0 bs : consistent S dyn obj x0 (l_x L) (l_u L) (l_cost L) -> matched L -> l_devs L = true ->
  exists bs' Vs, optimizeController S qp (computeDerivatives S dyn obj (l_x L) (l_u L)) (f_cost (l_f L)) 0 (l_u L) bs = (bs', None, Vs) /\
  let F := applyController S dyn obj (l_x L) (seqplus (l_u L) (seqscal 1 bs')) in
  (forall w, newCost S F <= ctg T 0 x0 (open_loop w)) /\ f_x F 0%nat = x0 /\ follows stp T (f_x F) (fun t => ff (f_u F t)) /\ newCost S F = trajectory_cost l phi T (f_x F) (fun t => ff (f_u F t)).
Proof.
  intros HC HM HD. destruct (HM HD) as (M1 & M2).
  assert (Hd : forall t, (t < T)%nat -> l_x L (t + 1)%nat = stp (l_x L t) (ff (l_u L t)) t) by (intros t Ht; rewrite (con_dyn _ _ _ _ _ _ _ HC t Ht); apply internal_step).
  destruct (convex_backward S f l phi qp _ _ _ _ _ _ _ _ _ _ _ _ LQ Hlim (l_x L) (l_u L) (f_cost (l_f L)) M2 CVX 0 bs (Rle_refl 0)) as (bs' & Vs & E).
  exists bs', Vs. split; [exact E|]. cbv zeta.
  assert (G := backward_optimal S f l phi qp _ _ _ _ _ _ _ _ _ _ _ _ LQ Hlim (l_x L) (l_u L) (f_cost (l_f L)) Hd M1 M2 _ _ _ E 0%nat ltac:(lia)).
  set (F := applyController S dyn obj (l_x L) (seqplus (l_u L) (seqscal 1 bs'))).
  destruct (apply_ok S dyn obj (l_x L) (seqplus (l_u L) (seqscal 1 bs'))) as (I1 & I2 & _ & _). fold F in I1, I2.
  assert (HF := apply_consistent S dyn obj (l_x L) (seqplus (l_u L) (seqscal 1 bs'))). cbv zeta in HF. fold F in HF.
  assert (Eu : forall t, (t < T)%nat -> ff (f_u F t) = opt S (l_x L) (l_u L) bs' t (f_x F t)).
  { intros t Ht. destruct (I2 t Ht) as (-> & _). cbn [ff]. unfold law. rewrite Hlim. unfold opt, seqplus, seqscal, cplus, cscal. cbn [ff fb]. apply functional_extensionality. intros i. unfold vplus, vscal. ring. }
  assert (Ex : forall t, (t < T)%nat -> f_x F (t + 1)%nat = stp (f_x F t) (opt S (l_x L) (l_u L) bs' t (f_x F t)) t).
  { intros t Ht. destruct (I2 t Ht) as (_ & -> & _). rewrite internal_step, Eu by exact Ht. reflexivity. }
  assert (EC : newCost S F = ctg T 0 x0 (opt S (l_x L) (l_u L) bs')).
  { rewrite (con_cost _ _ _ _ _ _ _ HF), sum_rsum. rewrite <- (con_init _ _ _ _ _ _ _ HC), <- I1. rewrite (closed_loop_cost stp l phi T (f_x F) (opt S (l_x L) (l_u L) bs') T 0 eq_refl Ex).
    f_equal. apply rsum_ext. intros t Ht. unfold pobj. rewrite Eu by exact Ht. reflexivity. }
  split; [|split; [|split]].
  - intros w. rewrite EC. assert (G1 := good_att _ _ _ _ _ _ _ _ _ G x0). assert (G2 := good_low _ _ _ _ _ _ _ _ _ G (open_loop w) x0). rewrite Nat.sub_0_r in G1, G2. rewrite G1. exact G2.
  - rewrite I1. apply (con_init _ _ _ _ _ _ _ HC).
  - intros t Ht. rewrite Ex, Eu by exact Ht. reflexivity.
  - rewrite (con_cost _ _ _ _ _ _ _ HF). reflexivity.
Qed.
Lemma zero_reg_bp L x0 o : consistent S dyn obj x0 (l_x L) (l_u L) (l_cost L) -> matched L -> l_devs L = true -> l_reg L = 0 ->
  bp_runs S qp (computeDerivatives S dyn obj (l_x L) (l_u L)) (f_cost (l_f L)) (l_u L) (l_b L) (l_mult L) (l_reg L) o ->
  exists bs Vs, optimizeController S qp (computeDerivatives S dyn obj (l_x L) (l_u L)) (f_cost (l_f L)) 0 (l_u L) (l_b L) = (bs, None, Vs) /\ o = (true, bs, l_mult L, 0).
Proof.
  intros HC HM HD HR H. rewrite HR in H. destruct (full_step L x0 (l_b L) HC HM HD) as (bs' & Vs & E & _). exists bs', Vs. split; [exact E|].
  inversion H as [? ? ? ? ? E2|? ? ? ? ? ? E2|? ? ? ? ? ? ? E2]; subst; rewrite E in E2; [injection E2 as -> ->; reflexivity|discriminate|discriminate].
Qed.
Lemma one_iteration L x0 o alphas : consistent S dyn obj x0 (l_x L) (l_u L) (l_cost L) -> matched L -> l_devs L = true -> l_reg L = 0 -> s_alphas S = 1 :: alphas ->
  (forall xs w, xs 0%nat = x0 -> follows stp T xs w -> (forall w', trajectory_cost l phi T xs w <= ctg T 0 x0 (open_loop w')) -> forall t i, (t <= T)%nat -> (i < n)%nat -> Rabs (xs t i) <= s_divlimit S) ->
  lqr_iter S dyn obj qp L o -> (forall L', o <> inl (SUCC_gradient, L')) -> forall w, l_cost (result o) <= ctg T 0 x0 (open_loop w).
Proof.
  intros HC HM HD HR HA HB Hit Hng w. inversion Hit as [ds flag bs mult reg Hd Hb Hg|ds flag bs mult reg F acc Hd Hb Hg HF]; subst o; [exfalso; eapply Hng; reflexivity|].
  rewrite HD in Hd. subst ds. destruct (zero_reg_bp L x0 _ HC HM HD HR Hb) as (bs' & Vs & E & Eo). injection Eo as -> -> -> ->.
  destruct (full_step L x0 (l_b L) HC HM HD) as (bs2 & Vs2 & E2 & K). rewrite E in E2. injection E2 as <- <-. cbv zeta in K.
  set (F1 := applyController S dyn obj (l_x L) (seqplus (l_u L) (seqscal 1 bs'))) in *. destruct K as (K1 & K2 & K3 & K4).
  assert (ND : f_div F1 = false).
  { destruct (f_div F1) eqn:X; [|reflexivity]. exfalso. destruct (apply_ok S dyn obj (l_x L) (seqplus (l_u L) (seqscal 1 bs'))) as (_ & _ & _ & I4). apply I4 in X. destruct X as (t & Ht & X).
    unfold exceeds in X. apply existsb_exists in X. destruct X as (i & Hi & X). apply in_seq in Hi. apply ltb_true in X.
    assert (Y := HB (f_x F1) (fun t => ff (f_u F1 t)) K2 K3 ltac:(intros w'; rewrite <- K4; apply K1) (t + 1)%nat i ltac:(lia) ltac:(lia)). fold F1 in X. lra. }
  assert (P : l_cost L <= ctg T 0 x0 (open_loop w) \/ 0 < cost_change S L F1).
  { destruct (Rlt_or_le 0 (cost_change S L F1)) as [P|P]; [now right|left]. unfold cost_change in P. rewrite ND in P. specialize (K1 w). lra. }
  rewrite HA in HF. cbn [line_search] in HF. fold F1 in HF. destruct (ltb 0 (cost_change S L F1)) eqn:EL.
  - injection HF as -> ->. cbv zeta. destruct (ltb (Rabs _) (s_costtol S)); cbn; apply K1.
  - apply ltb_false in EL. destruct P as [P|P]; [|lra]. destruct (iter_drop S dyn obj qp L _ Hit) as [X|(_ & _ & X)]; lra.
Qed.
End One.

(** ** Control limits: the quadratic program solved misses the factor 1/2 *)
Section Half.
Variable S : stgs.
Notation m := (s_udim S).
Lemma objective_form H C g v : sym m H -> llt m H = Some C -> constrained_objective S C g v = vdot m v (mv m H v) + vdot m g v.
Proof. intros HS HC. unfold constrained_objective. f_equal. rewrite <- (llt_norm m H C v HS HC). reflexivity. Qed.
Lemma half_argmin H C g l v : sym m H -> llt m H = Some C -> (forall i, (i < m)%nat -> mv m H l i = - g i) ->
  constrained_objective S C g v = constrained_objective S C g (vscal (1 / 2) l) + vdot m (vminus v (vscal (1 / 2) l)) (mv m H (vminus v (vscal (1 / 2) l))).
Proof.
  intros HS HC Hl. rewrite !(objective_form H C g) by assumption. set (p := vscal (1 / 2) l).
  assert (E2 : forall y, vdot m y (mv m H p) = - (1 / 2) * vdot m y g).
  { intros y. unfold p. rewrite mv_scal_dot. rewrite (dot_ext m y y (mv m H l) (vscal (-1) g)) by (auto; intros i Hi; rewrite Hl by exact Hi; unfold vscal; ring). rewrite dot_scal_r. field. }
  rewrite (dot_ext m (vminus v p) (vminus v p) (mv m H (vminus v p)) (vminus (mv m H v) (mv m H p))) by (auto; intros; apply mv_minus). rewrite dot_minus_r, !(dot_minus_l m v p).
  rewrite (dot_sym m H p v) by exact HS. rewrite !E2. rewrite (dot_comm m v g), (dot_comm m p g). field.
Qed.
End Half.

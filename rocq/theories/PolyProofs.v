(** * Proofs: fitted polynomials *)
From Coq Require Import Reals List Arith Lia Lra Psatz Bool.
Import ListNotations.
From Verif Require Import Base BaseProofs PolyModel PolySpec Hermite TrajSpec.
Local Open Scope R_scope.

Lemma csum_deriv : forall c t, derivable_pt_lim (csum c) t (csum (differentiate c) t).
Proof.
  induction c as [|r c IH]; intros t.
  - cbn [csum fold_right differentiate map]. apply derivable_pt_lim_const.
  - change (csum (r :: c)) with (plus_fct (fun t => t ^ snd r * fst r) (csum c)).
    change (csum (differentiate (r :: c)) t) with (t ^ snd (diff_row r) * fst (diff_row r) + csum (differentiate c) t).
    apply derivable_pt_lim_plus; [|apply IH]. destruct r as [a [|e]]; cbn [fst snd diff_row].
    + replace (t ^ 0 * 0) with 0 by ring.
      assert (E : forall u, (fun t : R => t ^ 0 * a) u = (fun _ => a) u) by (intros; cbn; ring).
      intros eps He. destruct (derivable_pt_lim_const a t eps He) as (d & Hd). exists d. intros h H1 H2. rewrite !E. apply (Hd h H1 H2).
    + replace (t ^ e * (a * INR (S e))) with (INR (S e) * t ^ pred (S e) * a + t ^ S e * 0) by (cbn [pred]; ring).
      apply (derivable_pt_lim_mult (fun t => t ^ S e) (fun _ => a)); [apply derivable_pt_lim_pow | apply derivable_pt_lim_const].
Qed.

(** ** The rows of the linear system evaluate the polynomial and its derivatives *)
Definition ones (c : carray) : Prop := Forall (fun r => fst r = 1) c.
Definition row (t : R) (a : carray) : list R := map (fun r => t ^ snd r * fst r) a.
Lemma ones_initial : forall o, ones (initial_coeffs o).
Proof. intros. unfold ones, initial_coeffs. apply Forall_forall. intros r H. apply in_map_iff in H. destruct H as (i & <- & _). reflexivity. Qed.
Lemma dot_cons : forall a l x r, dot (a :: l) (x :: r) = a * x + dot l r.
Proof. reflexivity. Qed.
Lemma set_col0_cons : forall r c x l, set_col0 (r :: c) (x :: l) = (x, snd r) :: set_col0 c l.
Proof. reflexivity. Qed.
Lemma row0 : forall t c x, ones c -> length x = length c -> dot (row t c) x = csum (set_col0 c x) t.
Proof.
  induction c as [|r c IH]; intros [|y x] Ho L; cbn in L; try lia; [reflexivity|]. inversion Ho; subst.
  rewrite set_col0_cons. cbn [row map]. rewrite dot_cons. change (map (fun r0 : R * nat => t ^ snd r0 * fst r0) c) with (row t c). rewrite IH by (auto; lia). cbn [csum fold_right fst snd]. rewrite H1. unfold csum. ring.
Qed.
Lemma row1 : forall t c x, ones c -> length x = length c -> dot (row t (differentiate c)) x = csum (differentiate (set_col0 c x)) t.
Proof.
  induction c as [|r c IH]; intros [|y x] Ho L; cbn in L; try lia; [reflexivity|]. inversion Ho; subst.
  rewrite set_col0_cons. cbn [row map differentiate]. rewrite dot_cons. change (map (fun r0 : R * nat => t ^ snd r0 * fst r0) (map diff_row c)) with (row t (differentiate c)). rewrite IH by (auto; lia).
  cbn [csum fold_right fst snd]. unfold csum, differentiate. destruct r as [a [|e]]; cbn [diff_row fst snd] in *; subst; ring.
Qed.
Lemma row2 : forall t c x, ones c -> length x = length c -> dot (row t (differentiate (differentiate c))) x = csum (differentiate (differentiate (set_col0 c x))) t.
Proof.
  induction c as [|r c IH]; intros [|y x] Ho L; cbn in L; try lia; [reflexivity|]. inversion Ho; subst.
  rewrite set_col0_cons. cbn [row map differentiate]. rewrite dot_cons. change (map (fun r0 : R * nat => t ^ snd r0 * fst r0) (map diff_row (map diff_row c))) with (row t (differentiate (differentiate c))). rewrite IH by (auto; lia).
  cbn [csum fold_right fst snd]. unfold csum, differentiate. destruct r as [a [|[|e]]]; cbn [diff_row fst snd] in *; subst; ring.
Qed.
(** Order of the constraint below three: the row is that of the derivative. *)
Fixpoint diffn (n : nat) (c : carray) : carray := match n with O => c | S m => diffn m (differentiate c) end.
Lemma arow_ok : forall c k, (snd k < 3)%nat -> arow c k = Ok (row (fst (fst k)) (diffn (snd k) c)).
Proof. intros c [[t y] n] H. cbn in H. destruct n as [|[|[|n]]]; try lia; reflexivity. Qed.
Lemma arow_throw : forall c k, (3 <= snd k)%nat -> arow c k = Throw.
Proof. intros c [[t y] n] H. cbn in H. destruct n as [|[|[|n]]]; try lia; reflexivity. Qed.
Lemma arow_dot : forall n t c x, (n < 3)%nat -> ones c -> length x = length c -> dot (row t (diffn n c)) x = csum (diffn n (set_col0 c x)) t.
Proof. intros n t c x H Ho L. destruct n as [|[|[|n]]]; try lia; cbn [diffn]; [now apply row0 | now apply row1 | now apply row2]. Qed.
Lemma nth_diff : forall n c, nth_derivative n (csum c) (csum (diffn n c)).
Proof. induction n; intros c; cbn [nth_derivative diffn]; [easy|]. exists (csum (differentiate c)). split; [apply csum_deriv|apply IHn]. Qed.

Lemma arows_spec : forall c ks A, arows c ks = Ok A -> Forall (fun k => (snd k < 3)%nat) ks /\ A = map (fun k => row (fst (fst k)) (diffn (snd k) c)) ks.
Proof.
  induction ks as [|k ks IH]; intros A H; cbn [arows] in H; [injection H as <-; auto|].
  destruct (le_lt_dec 3 (snd k)) as [L|L]; [rewrite arow_throw in H by exact L; discriminate|]. rewrite arow_ok in H by exact L. cbn [bind] in H.
  destruct (arows c ks) as [l| |] eqn:E; try discriminate. cbn [bind] in H. injection H as <-. destruct (IH l eq_refl) as (F & ->). split; [now constructor|reflexivity].
Qed.
Lemma arows_total : forall c ks, Forall (fun k => (snd k < 3)%nat) ks -> arows c ks = Ok (map (fun k => row (fst (fst k)) (diffn (snd k) c)) ks).
Proof. induction 1; [reflexivity|]. cbn [arows]. rewrite arow_ok by easy. cbn [bind]. rewrite IHForall. reflexivity. Qed.
Lemma arows_throws : forall c ks, (exists k, In k ks /\ (3 <= snd k)%nat) -> arows c ks = Throw.
Proof.
  induction ks as [|k ks IH]; intros (k' & Hin & H); [destruct Hin|]. cbn [arows]. destruct (le_lt_dec 3 (snd k)) as [L|L]; [now rewrite arow_throw|].
  rewrite arow_ok by exact L. cbn [bind]. destruct Hin as [->|Hin]; [lia|]. rewrite IH by eauto. reflexivity.
Qed.

(** ** fit *)
Definition sys_A (c : carray) (ks : list (R * R * nat)) : list (list R) := map (fun k => row (fst (fst k)) (diffn (snd k) c)) ks.
Definition sys_b (ks : list (R * R * nat)) : list R := map (fun k => snd (fst k)) ks.
Lemma initial_length : forall o, length (initial_coeffs o) = (o + 1)%nat.
Proof. intros. unfold initial_coeffs. now rewrite map_length, seq_length. Qed.
Lemma fit_fresh : forall solve k ks, Forall (fun k => (snd k < 3)%nat) (k :: ks) ->
  fit solve (set_constraints poly_new (k :: ks)) =
  match solve (sys_A (initial_coeffs (length ks)) (k :: ks)) (sys_b (k :: ks)) with
  | Some x => Ok (Poly (Some (set_col0 (initial_coeffs (length ks)) x)) true (Some (length ks)) (k :: ks))
  | None => Throw
  end.
Proof.
  intros solve k ks H. unfold fit, set_constraints, poly_new. cbn [p_cons p_order p_coeffs app].
  replace (length (k :: ks) - 1)%nat with (length ks) by (cbn; lia).
  replace (length (k :: ks) <=? length ks + 1)%nat with true by (symmetry; apply Nat.leb_le; cbn; lia).
  rewrite arows_total by exact H. cbn [bind]. replace (length ks + 1 - length (k :: ks))%nat with 0%nat by (cbn; lia). cbn [repeat]. rewrite !app_nil_r. reflexivity.
Qed.
Lemma fit_meets : forall solve ks p, sound solve -> fit solve (set_constraints poly_new ks) = Ok p ->
  exists f, is_function p f /\ Forall (meets f) ks /\ length ks <> 0%nat.
Proof.
  intros solve [|k ks] p Hs H; [discriminate|].
  assert (F : Forall (fun k => (snd k < 3)%nat) (k :: ks)).
  { apply Forall_forall. intros k' Hk'. destruct (le_lt_dec 3 (snd k')) as [L|L]; [|exact L]. exfalso.
    unfold fit, set_constraints, poly_new in H. cbn [p_cons p_order p_coeffs app] in H. destruct (length (k :: ks) <=? length (k :: ks) - 1 + 1)%nat; [|discriminate].
    rewrite arows_throws in H by eauto. discriminate. }
  rewrite fit_fresh in H by exact F. destruct (solve _ _) as [x|] eqn:E; [|discriminate]. injection H as <-. apply Hs in E. destruct E as (L & E).
  set (c := initial_coeffs (length ks)) in *. assert (Lc : length c = S (length ks)) by (unfold c; rewrite initial_length; lia).
  unfold sys_A in L. rewrite map_length in L. cbn [length] in L.
  exists (csum (set_col0 c x)). split; [intros t; reflexivity|]. split; [|cbn; lia].
  apply Forall_forall. intros k' Hk'. exists (csum (diffn (snd k') (set_col0 c x))). split; [apply nth_diff|].
  rewrite <- arow_dot; [|rewrite Forall_forall in F; auto | apply ones_initial | lia].
  unfold sys_A, sys_b in E. rewrite map_map in E. clear - E Hk'. induction (k :: ks) as [|h l IH]; [destruct Hk'|]. cbn [map] in E. injection E as E1 E2. destruct Hk' as [->|Hk']; auto.
Qed.

(** ** The seven constraints of a swing *)
Lemma via_mid : forall t0 t1, / 2 * (t1 - t0) + t0 = / 2 * (t0 + t1).
Proof. intros. lra. Qed.
Definition via_of (x0 x1 : R) (via : option R) : R := match via with Some v => v | None => (x0 + x1) / 2 end.
Lemma cc_orders : forall t0 t1 x0 x1 via, Forall (fun k : R * R * nat => (snd k < 3)%nat) (create_constraints t0 t1 x0 x1 via).
Proof. intros. unfold create_constraints. repeat constructor. Qed.
Lemma swing_system : forall t0 t1 x0 x1 via x, length x = 7%nat ->
  (map (fun a => dot a x) (sys_A (initial_coeffs 6) (create_constraints t0 t1 x0 x1 via)) = sys_b (create_constraints t0 t1 x0 x1 via) <->
   rest_to_rest (fun i => nth i x 0) t0 t1 x0 (via_of x0 x1 via) x1).
Proof.
  intros t0 t1 x0 x1 via x L.
  assert (V : match via with Some v => v | None => / 2 * (x1 - x0) + x0 end = via_of x0 x1 via) by (unfold via_of; destruct via; lra).
  destruct x as [|c0 [|c1 [|c2 [|c3 [|c4 [|c5 [|c6 [|]]]]]]]]; try discriminate.
  unfold create_constraints. rewrite via_mid, V. unfold sys_b, sys_A, rest_to_rest. cbn [map fst snd diffn].
  set (x := [c0; c1; c2; c3; c4; c5; c6]).
  assert (L' : length x = length (initial_coeffs 6)) by reflexivity.
  pose proof (fun t => row0 t _ _ (ones_initial 6) L') as R0. pose proof (fun t => row1 t _ _ (ones_initial 6) L') as R1. pose proof (fun t => row2 t _ _ (ones_initial 6) L') as R2. rewrite !R0, !R1, !R2.
  assert (A0 : forall t, csum (set_col0 (initial_coeffs 6) x) t = pval 7 (fun i => nth i x 0) t).
  { intros t. rewrite pval7. unfold x, initial_coeffs. cbn [seq Nat.add map set_col0 combine csum fold_right fst snd nth]. ring. }
  assert (A1 : forall t, csum (differentiate (set_col0 (initial_coeffs 6) x)) t = pder 7 (fun i => nth i x 0) t).
  { intros t. rewrite pder7. unfold x, initial_coeffs. cbn [seq Nat.add map set_col0 combine csum fold_right fst snd nth differentiate diff_row INR]. ring. }
  assert (A2 : forall t, csum (differentiate (differentiate (set_col0 (initial_coeffs 6) x))) t = pder2 7 (fun i => nth i x 0) t).
  { intros t. rewrite pder27. unfold x, initial_coeffs. cbn [seq Nat.add map set_col0 combine csum fold_right fst snd nth differentiate diff_row INR]. ring. }
  rewrite !A0, !A1, !A2. clearbody x. split.
  - intros H. injection H as H1 H2 H3 H4 H5 H6 H7. repeat split; assumption.
  - intros (H1 & H2 & H3 & H4 & H5 & H6 & H7). rewrite H1, H2, H3, H4, H5, H6, H7. reflexivity.
Qed.
Lemma swing_value : forall c t0 t1 x0 v x1 t, t0 <> t1 -> rest_to_rest c t0 t1 x0 v x1 -> pval 7 c t = swing x0 v x1 ((t - t0) / (t1 - t0)).
Proof. intros c t0 t1 x0 v x1 t N H. rewrite (hermite c t0 t1 x0 v x1 N H t). unfold swing, quintic, bump. lra. Qed.
Lemma swing_unique : forall c d t0 t1 x0 v x1, t0 <> t1 -> rest_to_rest c t0 t1 x0 v x1 -> rest_to_rest d t0 t1 x0 v x1 -> forall i, (i < 7)%nat -> c i = d i.
Proof.
  intros c d t0 t1 x0 v x1 N (a0 & a1 & a2 & a3 & a4 & a5 & a6) (b0 & b1 & b2 & b3 & b4 & b5 & b6) i Hi.
  assert (c i - d i = 0); [|lra]. apply (homogeneous (fun i => c i - d i) t0 t1 N); [|exact Hi].
  unfold rest_to_rest. rewrite !pval7, !pder7, !pder27 in *. repeat split; lra.
Qed.
Lemma list_of : forall (c : nat -> R) n, exists x, length x = n /\ forall i, (i < n)%nat -> nth i x 0 = c i.
Proof. intros c n. exists (map c (seq 0 n)). split; [now rewrite map_length, seq_length|]. intros i Hi. rewrite (nth_indep _ 0 (c 0%nat)) by (rewrite map_length, seq_length; exact Hi). rewrite map_nth, seq_nth by exact Hi. reflexivity. Qed.
Lemma rest_ext : forall c d t0 t1 x0 v x1, (forall i, (i < 7)%nat -> c i = d i) -> rest_to_rest c t0 t1 x0 v x1 -> rest_to_rest d t0 t1 x0 v x1.
Proof. intros c d t0 t1 x0 v x1 E. unfold rest_to_rest. rewrite !pval7, !pder7, !pder27. rewrite !E by lia. tauto. Qed.
Lemma points_ok : forall solve t0 t1 x0 x1 via, sound solve -> complete solve -> t0 <> t1 ->
  exists p, poly_points solve t0 t1 x0 x1 via = Ok p /\ is_function p (fun t => swing x0 (via_of x0 x1 via) x1 ((t - t0) / (t1 - t0))).
Proof.
  intros solve t0 t1 x0 x1 via Hs Hc N. unfold poly_points. pose proof (cc_orders t0 t1 x0 x1 via) as O. pose proof (swing_system t0 t1 x0 x1 via) as SY.
  assert (Hl : length (sys_A (initial_coeffs 6) (create_constraints t0 t1 x0 x1 via)) = 7%nat) by reflexivity.
  unfold create_constraints in O |- * at 1. rewrite fit_fresh by exact O. cbn [length].
  fold (create_constraints t0 t1 x0 x1 via).
  change (exists p, match solve (sys_A (initial_coeffs 6) (create_constraints t0 t1 x0 x1 via)) (sys_b (create_constraints t0 t1 x0 x1 via)) with
    | Some x => Ok (Poly (Some (set_col0 (initial_coeffs 6) x)) true (Some 6%nat) (create_constraints t0 t1 x0 x1 via)) | None => Throw end = Ok p /\
    is_function p (fun t => swing x0 (via_of x0 x1 via) x1 ((t - t0) / (t1 - t0)))).
  destruct (solve _ _) as [x|] eqn:E.
  - eexists. split; [reflexivity|]. apply Hs in E. destruct E as (L & E). rewrite Hl in L. apply SY in E; [|exact L].
    intros t. cbn [peval p_fitted p_coeffs]. f_equal. rewrite <- (swing_value _ _ _ _ _ _ t N E).
    rewrite pval7. destruct x as [|c0 [|c1 [|c2 [|c3 [|c4 [|c5 [|c6 [|]]]]]]]]; try discriminate.
    unfold initial_coeffs. cbn [seq Nat.add map set_col0 combine csum fold_right fst snd nth]. ring.
  - exfalso. destruct (unisolvent t0 t1 (fun i => match i with 0%nat => x0 | 1%nat => via_of x0 x1 via | 2%nat => x1 | _ => 0 end) N) as (c & H).
    assert (H' : rest_to_rest c t0 t1 x0 (via_of x0 x1 via) x1) by exact H. clear H.
    destruct (list_of c 7) as (x & Lx & Ex).
    apply (Hc _ _ x) in E; [exact E| |].
    + split; [now rewrite Hl|]. apply SY; [exact Lx|]. eapply rest_ext; [|exact H']. intros; symmetry; auto.
    + intros y (Ly & Ey). rewrite Hl in Ly. apply SY in Ey; [|exact Ly]. apply nth_ext with 0 0; [lia|]. intros i Hi. rewrite Ex by lia.
      apply (swing_unique (fun i => nth i y 0) c t0 t1 x0 (via_of x0 x1 via) x1 N Ey H'). lia.
Qed.

(** ** The list of polynomials *)
Lemma get_poly_last : forall l w p t, Forall (fun z => snd (fst z) < t) l -> get_poly (l ++ [(w, p)]) t = Ok p.
Proof.
  induction l as [|[[s e] q] l IH]; intros w p t H; [cbn; destruct w; reflexivity|]. inversion H; subst. cbn [app get_poly].
  destruct (l ++ [(w, p)]) eqn:E; [destruct l; discriminate|]. rewrite <- E. cbn in H2. destruct (Rlt_dec e t); [|lra]. now apply IH.
Qed.
Lemma get_poly_at : forall l w p r t, Forall (fun z => snd (fst z) < t) l -> t <= snd w -> get_poly (l ++ (w, p) :: r) t = Ok p.
Proof.
  induction l as [|[[s e] q] l IH]; intros w p r t H Ht.
  - cbn [app get_poly]. destruct w as [a b], r; [reflexivity|]. cbn in Ht. destruct (Rlt_dec b t); [lra|reflexivity].
  - inversion H; subst. cbn [app get_poly]. destruct (l ++ (w, p) :: r) eqn:E; [destruct l; discriminate|]. rewrite <- E. cbn in H2. destruct (Rlt_dec e t); [|lra]. now apply IH.
Qed.
Lemma contiguous_before : forall l w p r t, contiguous (map fst (l ++ (w, p) :: r)) -> fst w < t -> Forall (fun z : (R * R) * poly => snd (fst z) < t) l.
Proof.
  induction l as [|[[s e] q] l IH]; intros [a b] p r t H Ht; [constructor|].
  assert (X : Forall (fun z : (R * R) * poly => snd (fst z) < t) l).
  { apply (IH (a, b) p r t); [|exact Ht]. cbn [app map fst] in H. destruct (l ++ (a, b, p) :: r) as [|[[c d] q'] m] eqn:E; [destruct l; discriminate|]. cbn [map fst] in H |- *. cbn [contiguous] in H. tauto. }
  constructor; [|exact X]. cbn [snd fst]. destruct l as [|[[c d] q'] l].
  - cbn [app map fst contiguous] in H. destruct H as (_ & -> & _). exact Ht.
  - cbn [app map fst contiguous] in H. destruct H as (_ & -> & H). inversion X; subst. cbn in H2.
    assert (c <= d). { destruct (map fst (l ++ (a, b, p) :: r)) as [|[u v] m]; [|destruct H]; auto. } lra.
Qed.

From Coq Require Import Reals List Arith Bool Lia Lra Psatz.
From Verif Require Import Base BaseProofs ConicSpec ConeModel ConeSpec ConeProofs ConeProofs2 ConeProofs3 IpModel IpSpec.
Import ListNotations.
Open Scope R_scope.

(** ** Norms *)
Lemma rows_m d : p_m d = rows d.
Proof. unfold p_m, rows. f_equal. Qed.
Lemma ip_sym n u v : ip n u v = ip n v u.
Proof. apply rsum_ext. intros. ring. Qed.
Lemma ip_ext n u v u' v' : (forall i, (i < n)%nat -> u i = u' i) -> (forall i, (i < n)%nat -> v i = v' i) -> ip n u v = ip n u' v'.
Proof. intros H1 H2. apply rsum_ext. intros i Hi. rewrite H1, H2 by exact Hi. reflexivity. Qed.
Lemma ip_pos n u : 0 <= ip n u u.
Proof. apply rsum_nonneg. intros. nra. Qed.
Lemma norm2_pos n u : 0 <= norm2 n u.
Proof. apply sqrt_pos. Qed.
Lemma ip_lin n u v w a b : ip n u (fun i => a * v i + b * w i) = a * ip n u v + b * ip n u w.
Proof. unfold ip. rewrite <- !rsum_scal, <- rsum_plus. apply rsum_ext. intros. ring. Qed.
Lemma ip_cs n u v : ip n u v * ip n u v <= ip n u u * ip n v v.
Proof.
  pose proof (ip_pos n u) as P. pose proof (ip_pos n v) as Q.
  assert (E : forall t, 0 <= ip n u u * (t * t) - 2 * t * ip n u v + ip n v v).
  { intros t. pose proof (ip_pos n (fun i => t * u i + (-1) * v i)) as H. rewrite ip_lin in H.
    rewrite (ip_sym n _ u), (ip_sym n _ v), !ip_lin in H. rewrite (ip_sym n v u) in H. lra. }
  destruct (Req_dec (ip n u u) 0) as [Z|NZ].
  - rewrite Z. rewrite Z in E. destruct (Req_dec (ip n u v) 0) as [Y|NY]; [rewrite Y; lra|].
    specialize (E ((ip n v v + 1) / (2 * ip n u v))).
    replace (2 * ((ip n v v + 1) / (2 * ip n u v)) * ip n u v) with (ip n v v + 1) in E by (field; exact NY). lra.
  - specialize (E (ip n u v / ip n u u)). apply Rmult_le_compat_l with (r := ip n u u) in E; [|exact P]. 
    replace (ip n u u * (ip n u u * (ip n u v / ip n u u * (ip n u v / ip n u u)) - 2 * (ip n u v / ip n u u) * ip n u v + ip n v v))
      with (ip n u u * ip n v v - ip n u v * ip n u v) in E by (field; exact NZ). lra.
Qed.
Lemma ip_norm n u v : - (norm2 n u * norm2 n v) <= ip n u v <= norm2 n u * norm2 n v.
Proof.
  unfold norm2. rewrite <- sqrt_mult by apply ip_pos. pose proof (ip_cs n u v) as H.
  pose proof (sqrt_pos (ip n u u * ip n v v)). assert (0 <= ip n u u * ip n v v) by (pose proof (ip_pos n u); pose proof (ip_pos n v); nra).
  pose proof (sqrt_sqrt _ H1). split; nra.
Qed.
Lemma norm2_ext n u v : (forall i, (i < n)%nat -> u i = v i) -> norm2 n u = norm2 n v.
Proof. intros H. unfold norm2. f_equal. apply ip_ext; exact H. Qed.
Lemma norm2_opp n u v : (forall i, (i < n)%nat -> u i = - v i) -> norm2 n u = norm2 n v.
Proof. intros H. unfold norm2. f_equal. apply rsum_ext. intros i Hi. rewrite H by exact Hi. ring. Qed.
Lemma vdot_ip n u v : vdot n u v = ip n u v. Proof. reflexivity. Qed.
Lemma vnorm_norm2 n u : vnorm n u = norm2 n u. Proof. reflexivity. Qed.
Global Opaque vdot vnorm.

(** ** Self-duality of the cone *)
Lemma soc_dot n u v : (1 <= n)%nat -> sqrt (tail_prod n u u) <= u 0%nat -> sqrt (tail_prod n v v) <= v 0%nat -> 0 <= u 0%nat * v 0%nat + tdot n u v.
Proof.
  intros Hn Hu Hv. rewrite <- !tdot_tail in *. pose proof (cs n u v) as C. pose proof (sqrt_pos (tdot n u u)). pose proof (sqrt_pos (tdot n v v)).
  pose proof (sqrt_sqrt _ (tdot_pos n u)). pose proof (sqrt_sqrt _ (tdot_pos n v)).
  set (a := sqrt (tdot n u u)) in *. set (b := sqrt (tdot n v v)) in *. 
  assert (a * b <= u 0%nat * v 0%nat) by (apply Rmult_le_compat; lra).
  assert (- (a * b) <= tdot n u v); [|lra]. assert (tdot n u v * tdot n u v <= (a * b) * (a * b)) by nra. assert (0 <= a * b) by nra. nra.
Qed.
Lemma inner_split_ge nl a b q : (forall i, (i < nl)%nat -> 0 <= a i * b i) ->
  (forall pre n post, q = pre ++ n :: post -> 0 <= inner n (shift a (nl + total pre)) (shift b (nl + total pre))) -> 0 <= inner (nl + total q) a b.
Proof.
  intros HL. revert nl HL. induction q as [|n q IH]; intros nl HL HB.
  - simpl. rewrite Nat.add_0_r. unfold inner, sumR. rewrite <- rsum_list. apply rsum_nonneg. exact HL.
  - pose proof (HB [] n q eq_refl) as H0. simpl total in *. rewrite Nat.add_0_r in H0. rewrite Nat.add_assoc.
    assert (HH : 0 <= inner nl a b) by (unfold inner, sumR; rewrite <- rsum_list; apply rsum_nonneg; exact HL).
    assert (K : forall q' st, (forall pre n post, q' = pre ++ n :: post -> 0 <= inner n (shift a (st + total pre)) (shift b (st + total pre))) -> 0 <= inner st a b -> 0 <= inner (st + total q') a b).
    { induction q' as [|k q' IH']; intros st HB' H; simpl; [rewrite Nat.add_0_r; exact H|]. rewrite Nat.add_assoc. apply IH'.
      - intros pre n1 post E. specialize (HB' (k :: pre) n1 post). simpl in HB'. rewrite Nat.add_assoc in HB'. apply HB'. now rewrite E.
      - rewrite inner_app. specialize (HB' [] k q' eq_refl). simpl in HB'. rewrite Nat.add_0_r in HB'. lra. }
    specialize (K (n :: q) nl HB HH). simpl in K. rewrite Nat.add_assoc in K. exact K.
Qed.
Lemma cone_dot nl q u v : Forall (fun n => (1 <= n)%nat) q -> in_closed_cone nl q u -> in_closed_cone nl q v -> 0 <= ip (nl + total q) u v.
Proof.
  intros F [U1 U2] [V1 V2]. rewrite each_block_all in U2, V2. unfold ip. rewrite rsum_list. change (0 <= inner (nl + total q) u v). apply inner_split_ge.
  - intros i Hi. specialize (U1 i Hi). specialize (V1 i Hi). nra.
  - intros pre n post E. pose proof (size_in _ _ _ _ E F) as Hn. rewrite inner_block_dot by exact Hn. apply soc_dot; [exact Hn|apply (U2 _ _ _ E)|apply (V2 _ _ _ E)].
Qed.

(** ** Transposition *)
Lemma transpose_dot d x y z : ip (p_n d) (Aty_Gtz d y z) x = ip (p_p d) y (Ax d x) + ip (rows d) z (Gx d x).
Proof.
  unfold ip, Aty_Gtz, Ax, Gx. fold (rows d).
  rewrite (rsum_ext (p_n d) _ (fun i => rsum (p_p d) (fun r => p_A d r i * y r * x i) + rsum (rows d) (fun r => p_G d r i * z r * x i))).
  2:{ intros i _. rewrite Rmult_plus_distr_r, <- !rsum_scal_r. reflexivity. }
  rewrite rsum_plus, rsum_swap, (rsum_swap (p_n d) (rows d)). f_equal; apply rsum_ext; intros r _; rewrite <- rsum_scal; apply rsum_ext; intros; ring.
Qed.

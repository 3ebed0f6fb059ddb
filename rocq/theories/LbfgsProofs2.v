(** * The two-loop recursion computes the product with the inverse BFGS matrix *)
From Coq Require Import Reals List Arith ZArith Bool Lia Lra.
From Verif Require Import Base BaseProofs IpModel BnbProofs LbfgsModel LbfgsSpec LbfgsProofs.
Import ListNotations.
Open Scope R_scope.

Section S.
Variable n : nat.

(** ** The recursion without the ring buffer *)
Fixpoint comb (ps : list (vec * vec)) (c : R) (d : vec) : vec :=
  match ps with
  | [] => vscale d c
  | (s, y) :: ps' =>
    let ys := vdot n y s in
    let alpha := vdot n s d / ys in
    let w := comb ps' c (vaxpy d y (- alpha)) in
    vaxpy w s (alpha - vdot n y w / ys)
  end.

Lemma msum_rsum f : msum n f = rsum n f.
Proof. unfold msum. now rewrite rsum_list. Qed.
Lemma mvec_ext A v v' i : (forall k, (k < n)%nat -> v k = v' k) -> mvec n A v i = mvec n A v' i.
Proof. intros H. unfold mvec. rewrite !msum_rsum. apply rsum_ext. intros k Hk. now rewrite H. Qed.
Lemma mvec_mmul A B v i : mvec n (mmul n A B) v i = mvec n A (mvec n B v) i.
Proof.
  unfold mvec, mmul. rewrite !msum_rsum. erewrite rsum_ext; [|intros j Hj; rewrite msum_rsum, <- rsum_scal_r; reflexivity].
  rewrite rsum_swap. apply rsum_ext. intros k Hk. rewrite msum_rsum, <- rsum_scal. apply rsum_ext. intros; ring.
Qed.
Lemma delta_sum (v : vec) i : (i < n)%nat -> rsum n (fun j => delta i j * v j) = v i.
Proof. intros Hi. rewrite (rsum_single n i); unfold delta; [rewrite Nat.eqb_refl; ring|exact Hi|]. intros k Hk Hne. destruct (Nat.eqb_spec i k); [congruence|ring]. Qed.

Lemma bfgs_comb ps : forall c d i, (i < n)%nat -> comb ps c d i = mvec n (bfgs n c ps) d i.
Proof.
  induction ps as [|[s y] ps IH]; intros c d i Hi.
  - cbn [comb bfgs]. unfold vscale, mvec. rewrite msum_rsum. rewrite <- (delta_sum d i Hi) at 1. rewrite <- rsum_scal_r. apply rsum_ext. intros; ring.
  - cbn [comb bfgs]. cbv zeta. rewrite dot_vdot. set (ys := vdot n y s). set (alpha := vdot n s d / ys). set (w := comb ps c (vaxpy d y (- alpha))).
    assert (E1 : forall k, (k < n)%nat -> mvec n (fun k0 j => delta k0 j - / ys * y k0 * s j) d k = vaxpy d y (- alpha) k).
    { intros k Hk. unfold mvec, vaxpy. rewrite msum_rsum. erewrite rsum_ext; [|intros j Hj; instantiate (1 := fun j => delta k j * d j - (/ ys * y k) * (s j * d j)); cbn; ring].
      rewrite rsum_minus, rsum_scal, delta_sum by exact Hk. unfold alpha, Rdiv, vdot. ring. }
    assert (E2 : forall k, (k < n)%nat -> mvec n (bfgs n c ps) (mvec n (fun k0 j => delta k0 j - / ys * y k0 * s j) d) k = w k).
    { intros k Hk. unfold w. rewrite IH by exact Hk. apply mvec_ext. exact E1. }
    transitivity (mvec n (mmul n (mmul n (fun i0 k => delta i0 k - / ys * s i0 * y k) (bfgs n c ps)) (fun k j => delta k j - / ys * y k * s j)) d i + / ys * s i * vdot n s d).
    + rewrite !mvec_mmul. rewrite (mvec_ext _ _ w i E2). unfold mvec, vaxpy. rewrite msum_rsum.
      erewrite rsum_ext; [|intros j Hj; instantiate (1 := fun j => delta i j * w j - (/ ys * s i) * (y j * w j)); cbn; ring].
      rewrite rsum_minus, rsum_scal, delta_sum by exact Hi. unfold alpha, Rdiv, vdot. ring.
    + unfold mvec. rewrite !msum_rsum. unfold vdot. rewrite <- rsum_scal, <- rsum_plus. apply rsum_ext. intros j Hj. ring.
Qed.

Lemma comb_pos ps : forall c v, 0 < c -> (forall p, In p ps -> 0 < vdot n (snd p) (fst p)) ->
  0 <= vdot n v (comb ps c v) /\ (vdot n v (comb ps c v) = 0 -> forall i, (i < n)%nat -> v i = 0).
Proof.
  induction ps as [|[s y] ps IH]; intros c v Hc Hps.
  - cbn [comb]. rewrite vdot_scale_r. pose proof (vdot_pos n v). split; [apply Rmult_le_pos; lra|]. intros H0. apply (rsum_sq_zero n v). fold (vdot n v v).
    apply Rmult_integral in H0 as [H0|H0]; lra.
  - cbn [comb]. cbv zeta. set (ys := vdot n y s). set (alpha := vdot n s v / ys). set (v' := vaxpy v y (- alpha)). set (w := comb ps c v').
    assert (Hys : 0 < ys) by (apply (Hps (s, y)); now left).
    destruct (IH c v' Hc ltac:(intros p Hp; apply Hps; now right)) as [I1 I2]. fold w in I1, I2.
    assert (E : vdot n v (vaxpy w s (alpha - vdot n y w / ys)) = vdot n v' w + alpha * alpha * ys).
    { rewrite vdot_add_r. rewrite (vdot_sym n v' w). unfold v'. rewrite vdot_add_r. rewrite (vdot_sym n v s), (vdot_sym n w v), (vdot_sym n w y). unfold alpha. field. lra. }
    rewrite E. assert (0 <= alpha * alpha * ys) by (apply Rmult_le_pos; [apply Rle_0_sqr|lra]). split; [lra|]. intros H0 i Hi.
    assert (Ha : alpha * alpha * ys = 0) by lra. apply Rmult_integral in Ha as [Ha|Ha]; [|lra]. apply Rmult_integral in Ha.
    assert (H1 := I2 ltac:(lra) i Hi). unfold v', vaxpy in H1. destruct Ha as [Ha|Ha]; rewrite Ha in H1; lra.
Qed.

(** ** The ring buffer *)
Lemma imod_pos a m : (0 <= a)%Z -> (0 < m)%Z -> imod a m = Ok (a mod m)%Z.
Proof. intros Ha Hm. unfold imod. destruct (Z.eqb_spec m 0); [lia|]. now rewrite Z.rem_mod_nonneg by lia. Qed.
Lemma rdiv_ok a b : b <> 0 -> rdiv a b = Ok (a / b).
Proof. intros H. unfold rdiv. now rewrite (proj2 (eqb_false b 0) H). Qed.
Definition at_ (lm : list idata) (z : Z) : option idata := nth_error lm (Z.to_nat z).
Lemma vget_at (lm : list idata) z it : (0 <= z)%Z -> at_ lm z = Some it -> vget lm z = Ok it.
Proof. intros Hz H. unfold vget. rewrite (proj2 (Z.leb_le 0 z) Hz). unfold at_ in H. now rewrite H. Qed.
Lemma vset_at (lm : list idata) z it : (0 <= z < Z.of_nat (length lm))%Z -> vset lm z it = Ok (set_nth lm (Z.to_nat z) it).
Proof. intros Hz. unfold vset. rewrite (proj2 (Z.leb_le 0 z)), (proj2 (Z.ltb_lt z _)) by lia. reflexivity. Qed.
Lemma at_set_same (lm : list idata) z it : (0 <= z < Z.of_nat (length lm))%Z -> at_ (set_nth lm (Z.to_nat z) it) z = Some it.
Proof. intros Hz. unfold at_. apply nth_set_same. lia. Qed.
Lemma at_set_other (lm : list idata) z z' it : (0 <= z)%Z -> (0 <= z')%Z -> z <> z' -> at_ (set_nth lm (Z.to_nat z) it) z' = at_ lm z'.
Proof. intros Hz Hz' Hn. unfold at_. apply nth_set_other. lia. Qed.

Section Ring.
Variable m : Z.
Hypothesis Hm : (0 < m)%Z.
(** The slot of the i-th most recent pair when the next free slot is j. *)
Definition slot (j : Z) (i : nat) : Z := ((j - 1 - Z.of_nat i) mod m)%Z.
Lemma slot_range j i : (0 <= slot j i < m)%Z.
Proof. apply Z.mod_pos_bound. exact Hm. Qed.
Lemma slot_S j i : slot (slot j 0) i = slot j (S i).
Proof.
  unfold slot. replace ((j - 1 - Z.of_nat 0) mod m - 1 - Z.of_nat i)%Z with ((j - 1 - Z.of_nat 0) mod m - (1 + Z.of_nat i))%Z by lia.
  rewrite Zminus_mod_idemp_l. f_equal. lia.
Qed.
Lemma slot_inj j i k : (Z.of_nat i < m)%Z -> (Z.of_nat k < m)%Z -> slot j i = slot j k -> i = k.
Proof.
  intros Hi Hk E. unfold slot in E. assert (E0 : (((j - 1 - Z.of_nat i) - (j - 1 - Z.of_nat k)) mod m = 0)%Z) by (rewrite Zminus_mod, E, Z.sub_diag; reflexivity).
  apply Z.mod_divide in E0; [|lia]. destruct E0 as [q E0]. assert (q = 0)%Z by nia. subst. lia.
Qed.
Lemma slot_next j : (0 <= j < m)%Z -> imod (j + m - 1) m = Ok (slot j 0).
Proof. intros Hj. rewrite imod_pos by lia. unfold slot. f_equal. replace (j + m - 1)%Z with (j - 1 - Z.of_nat 0 + 1 * m)%Z by lia. now rewrite Z.mod_add by lia. Qed.

Lemma twoloop2_snoc lm : forall b d j, (0 <= j < m)%Z ->
  twoloop2 n (S b) m lm d j = bind (twoloop2 n b m lm d j) (fun w =>
    bind (vget lm ((j + Z.of_nat b) mod m)%Z) (fun it => bind (rdiv (vdot n (i_y it) w) (i_ys it)) (fun beta => Ok (vaxpy w (i_s it) (i_alpha it - beta))))).
Proof.
  induction b as [|b IH]; intros d j Hj.
  - cbn [twoloop2 bind]. rewrite Z.add_0_r, Z.mod_small by lia. destruct (vget lm j) as [it| |]; cbn [bind]; try reflexivity. destruct (rdiv _ _); cbn [bind]; try reflexivity.
    rewrite imod_pos by lia. reflexivity.
  - change (twoloop2 n (S (S b)) m lm d j) with (bind (vget lm j) (fun it => bind (rdiv (vdot n (i_y it) d) (i_ys it)) (fun beta => bind (imod (j + 1) m) (fun j' => twoloop2 n (S b) m lm (vaxpy d (i_s it) (i_alpha it - beta)) j')))).
    change (twoloop2 n (S b) m lm d j) with (bind (vget lm j) (fun it => bind (rdiv (vdot n (i_y it) d) (i_ys it)) (fun beta => bind (imod (j + 1) m) (fun j' => twoloop2 n b m lm (vaxpy d (i_s it) (i_alpha it - beta)) j')))).
    destruct (vget lm j) as [it| |]; cbn [bind]; try reflexivity. destruct (rdiv _ _); cbn [bind]; try reflexivity.
    rewrite imod_pos by lia. cbn [bind]. rewrite IH by (apply Z.mod_pos_bound; lia). replace ((j + 1) mod m + Z.of_nat b)%Z with (Z.of_nat b + (j + 1) mod m)%Z by lia.
    rewrite Zplus_mod_idemp_r. replace (Z.of_nat b + (j + 1))%Z with (j + Z.of_nat (S b))%Z by lia. reflexivity.
Qed.

(** The pairs found in the buffer going back from slot j. *)
Definition holds (lm : list idata) (j : Z) (ps : list (vec * vec)) : Prop :=
  forall i s y, nth_error ps i = Some (s, y) -> exists a, at_ lm (slot j i) = Some (mkID a s y (vdot n y s)).
Definition same_pairs (lm lm' : list idata) : Prop :=
  length lm' = length lm /\ forall z a s y q, at_ lm z = Some (mkID a s y q) -> exists a', at_ lm' z = Some (mkID a' s y q).

Lemma two_loop ps : forall lm d j, Z.of_nat (length lm) = m -> (Z.of_nat (length ps) <= m)%Z -> (0 <= j < m)%Z -> holds lm j ps -> (forall p, In p ps -> vdot n (snd p) (fst p) <> 0) ->
  exists lm' d1 jb, twoloop1 n (length ps) m lm d j = Ok (lm', d1, jb) /\ jb = ((j - Z.of_nat (length ps)) mod m)%Z /\ same_pairs lm lm' /\
    (forall z, (0 <= z)%Z -> (forall i, (i < length ps)%nat -> z <> slot j i) -> at_ lm' z = at_ lm z) /\
    forall c, twoloop2 n (length ps) m lm' (vscale d1 c) jb = Ok (comb ps c d).
Proof.
  induction ps as [|[s y] ps IH]; intros lm d j Hl Hb Hj Hh Hne.
  - exists lm, d, j. cbn [length twoloop1 twoloop2 comb]. repeat split; auto. { cbn. rewrite Z.sub_0_r, Z.mod_small by lia. reflexivity. } eauto.
  - cbn [length] in *. cbn [twoloop1]. rewrite slot_next by exact Hj. cbn [bind]. destruct (Hh 0%nat s y eq_refl) as (a0 & Ha0). pose proof (slot_range j 0) as Hr.
    rewrite (vget_at _ _ _ (proj1 Hr) Ha0). cbn [bind i_s i_y i_ys]. assert (Hys : vdot n y s <> 0) by (apply (Hne (s, y)); now left). rewrite rdiv_ok by exact Hys. cbn [bind].
    rewrite vset_at by lia. cbn [bind]. set (alpha := vdot n s d / vdot n y s). set (lm1 := set_nth lm (Z.to_nat (slot j 0)) (mkID alpha s y (vdot n y s))).
    assert (Hl1 : length lm1 = length lm) by apply set_nth_length.
    assert (Hh1 : holds lm1 (slot j 0) ps).
    { intros i s' y' Hi. rewrite slot_S. destruct (Hh (S i) s' y' Hi) as (a & Ha). exists a. unfold lm1. rewrite at_set_other; [exact Ha|lia|apply slot_range|].
      intros E. apply slot_inj in E; [discriminate|lia|]. assert (i < length ps)%nat by (apply nth_error_Some; congruence); lia. }
    destruct (IH lm1 (vaxpy d y (- alpha)) (slot j 0) ltac:(lia) ltac:(lia) ltac:(lia) Hh1 ltac:(intros p Hp; apply Hne; now right)) as (lm' & d1 & jb & E1 & E2 & (E3 & E3') & E4 & E5).
    exists lm', d1, jb. split; [exact E1|].
    assert (Ejb : jb = ((j - Z.of_nat (S (length ps))) mod m)%Z). { rewrite E2. unfold slot. rewrite Zminus_mod_idemp_l. f_equal. lia. }
    split; [exact Ejb|]. split; [|split].
    + split; [lia|]. intros z a s' y' q Hz.
      assert (Hz1 : exists a1, at_ lm1 z = Some (mkID a1 s' y' q)).
      { unfold at_, lm1 in *. destruct (Nat.eq_dec (Z.to_nat z) (Z.to_nat (slot j 0))) as [e|e].
        - rewrite e in *. unfold at_ in Ha0. rewrite Ha0 in Hz. injection Hz as <- <- <- <-. rewrite nth_set_same by lia. eauto.
        - rewrite nth_set_other by auto. eauto. }
      destruct Hz1 as (a1 & Hz1). eauto.
    + intros z Hz Hni. rewrite E4; [unfold lm1; apply at_set_other; [lia|exact Hz|intros e; apply (Hni 0%nat); [lia|auto]]|exact Hz|]. intros i Hi. rewrite slot_S. apply Hni. lia.
    + intros c. rewrite twoloop2_snoc by (rewrite Ejb; apply Z.mod_pos_bound; lia). rewrite E5. cbn [bind].
      assert (Ei : ((jb + Z.of_nat (length ps)) mod m = slot j 0)%Z). { rewrite Ejb, Zplus_mod_idemp_l. unfold slot. f_equal. lia. }
      rewrite Ei. assert (Ha : at_ lm' (slot j 0) = Some (mkID alpha s y (vdot n y s))).
      { rewrite E4; [apply at_set_same; lia|lia|]. intros i Hi. rewrite slot_S. intros e. apply slot_inj in e; [discriminate|lia|lia]. }
      rewrite (vget_at _ _ _ (proj1 Hr) Ha). cbn [bind i_s i_y i_ys i_alpha]. rewrite rdiv_ok by exact Hys. cbn [bind comb]. reflexivity.
Qed.
End Ring.
End S.

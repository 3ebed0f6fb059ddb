(** * The Python view of a contact (C93) *)
From Coq Require Import Reals List Arith ZArith Bool Lia Lra.
Import ListNotations.
From Verif Require Import Base Vec3 CntModel PycModel PycSpec.
Local Open Scope R_scope.

(** ** The equations of a rotation matrix a b c / d e f / g h i *)
Section Nine.
Variables a b c d e f g h i : R.
Hypothesis C00 : a * a + d * d + g * g = 1.
Hypothesis C11 : b * b + e * e + h * h = 1.
Hypothesis C22 : c * c + f * f + i * i = 1.
Hypothesis C01 : a * b + d * e + g * h = 0.
Hypothesis C02 : a * c + d * f + g * i = 0.
Hypothesis C12 : b * c + e * f + h * i = 0.
Hypothesis D : a * (e * i - f * h) - b * (d * i - f * g) + c * (d * h - e * g) = 1.
Let det := a * (e * i - f * h) - b * (d * i - f * g) + c * (d * h - e * g).
Let g0 (x1 x2 x3 : R) := (a * a + d * d + g * g) * x1 + (a * b + d * e + g * h) * x2 + (a * c + d * f + g * i) * x3.
Let g1 (x1 x2 x3 : R) := (a * b + d * e + g * h) * x1 + (b * b + e * e + h * h) * x2 + (b * c + e * f + h * i) * x3.
Let g2 (x1 x2 x3 : R) := (a * c + d * f + g * i) * x1 + (b * c + e * f + h * i) * x2 + (c * c + f * f + i * i) * x3.
Ltac cof G x1 x2 x3 := 
  match goal with |- ?p = ?r =>
    transitivity (det * r); [symmetry; transitivity (G x1 x2 x3); [unfold det, g0, g1, g2; ring|unfold g0, g1, g2; rewrite ?C00, ?C11, ?C22, ?C01, ?C02, ?C12; ring]|unfold det; rewrite D; ring]
  end.
(** the adjugate, by columns *)
Lemma adj : (e * i - f * h = a /\ c * h - b * i = d /\ b * f - c * e = g) /\ (f * g - d * i = b /\ a * i - c * g = e /\ c * d - a * f = h) /\ (d * h - e * g = c /\ b * g - a * h = f /\ a * e - b * d = i).
Proof.
  repeat split.
  - cof g0 (e * i - f * h) (f * g - d * i) (d * h - e * g).
  - cof g0 (c * h - b * i) (a * i - c * g) (b * g - a * h).
  - cof g0 (b * f - c * e) (c * d - a * f) (a * e - b * d).
  - cof g1 (e * i - f * h) (f * g - d * i) (d * h - e * g).
  - cof g1 (c * h - b * i) (a * i - c * g) (b * g - a * h).
  - cof g1 (b * f - c * e) (c * d - a * f) (a * e - b * d).
  - cof g2 (e * i - f * h) (f * g - d * i) (d * h - e * g).
  - cof g2 (c * h - b * i) (a * i - c * g) (b * g - a * h).
  - cof g2 (b * f - c * e) (c * d - a * f) (a * e - b * d).
Qed.
Lemma rows9 : a * a + b * b + c * c = 1 /\ d * d + e * e + f * f = 1 /\ g * g + h * h + i * i = 1 /\ a * d + b * e + c * f = 0 /\ a * g + b * h + c * i = 0 /\ d * g + e * h + f * i = 0.
Proof.
  destruct adj as ((A1 & A2 & A3) & (B1 & B2 & B3) & (E1 & E2 & E3)).
  assert (X1 : a * (e * i - f * h) + b * (f * g - d * i) + c * (d * h - e * g) = 1) by lra.
  assert (X2 : d * (c * h - b * i) + e * (a * i - c * g) + f * (b * g - a * h) = 1) by lra.
  assert (X3 : g * (b * f - c * e) + h * (c * d - a * f) + i * (a * e - b * d) = 1) by lra.
  assert (X4 : a * (c * h - b * i) + b * (a * i - c * g) + c * (b * g - a * h) = 0) by ring.
  assert (X5 : a * (b * f - c * e) + b * (c * d - a * f) + c * (a * e - b * d) = 0) by ring.
  assert (X6 : d * (b * f - c * e) + e * (c * d - a * f) + f * (a * e - b * d) = 0) by ring.
  rewrite A1, B1, E1 in X1. rewrite A2, B2, E2 in X2, X4. rewrite A3, B3, E3 in X3, X5, X6. repeat split; lra.
Qed.
End Nine.

(** ** Reading back a rotation *)
Lemma quot s p q : 0 < s -> (p * (1 / 2 / s)) * (q * (1 / 2 / s)) = p * q / (4 * (s * s)). Proof. intros. field. lra. Qed.
Lemma quot_l s p : 0 < s -> (1 / 2 * s) * (p * (1 / 2 / s)) = p / 4. Proof. intros. field. lra. Qed.
Lemma quot_r s p : 0 < s -> (p * (1 / 2 / s)) * (1 / 2 * s) = p / 4. Proof. intros. field. lra. Qed.
Lemma quot_s s : (1 / 2 * s) * (1 / 2 * s) = s * s / 4. Proof. field. Qed.
Lemma div_is p q r : 0 < q -> p = r * q -> p / q = r. Proof. intros H ->. field. lra. Qed.
(** the rotation matrix by products of entries *)
Lemma matrix_products q r c : (r < 3)%nat -> (c < 3)%nat -> matrix_of_quat q r c =
  nth c (nth r [[1 - 2 * (qy q * qy q + qz q * qz q); 2 * (qx q * qy q - qz q * qw q); 2 * (qx q * qz q + qy q * qw q)];
         [2 * (qx q * qy q + qz q * qw q); 1 - 2 * (qx q * qx q + qz q * qz q); 2 * (qy q * qz q - qx q * qw q)];
         [2 * (qx q * qz q - qy q * qw q); 2 * (qy q * qz q + qx q * qw q); 1 - 2 * (qx q * qx q + qy q * qy q)]] []) 0.
Proof. intros Hr Hc. destruct r as [|[|[|r]]]; try lia; destruct c as [|[|[|c]]]; try lia; unfold matrix_of_quat; cbn [nth]; ring. Qed.

Section Branches.
Variables a b c d e f g h i : R.
Hypothesis C00 : a * a + d * d + g * g = 1.
Hypothesis C11 : b * b + e * e + h * h = 1.
Hypothesis C22 : c * c + f * f + i * i = 1.
Hypothesis C01 : a * b + d * e + g * h = 0.
Hypothesis C02 : a * c + d * f + g * i = 0.
Hypothesis C12 : b * c + e * f + h * i = 0.
Hypothesis D : a * (e * i - f * h) - b * (d * i - f * g) + c * (d * h - e * g) = 1.
Definition entries : list (list R) := [[a; b; c]; [d; e; f]; [g; h; i]].
Ltac branch := let A := fresh in let B := fresh in
  pose proof (adj _ _ _ _ _ _ _ _ _ C00 C11 C22 C01 C02 C12 D) as ((A1 & A2 & A3) & (B1 & B2 & B3) & (E1 & E2 & E3));
  pose proof (rows9 _ _ _ _ _ _ _ _ _ C00 C11 C22 C01 C02 C12 D) as (R1 & R2 & R3 & R4 & R5 & R6).
Ltac entries_by s Hs Hq q r k :=
  rewrite matrix_products by assumption; cbn [qw qx qy qz]; rewrite ?(quot s), ?(quot_l s), ?(quot_r s), ?quot_s by exact Hs; rewrite ?Hq;
  destruct r as [|[|[|r]]]; try lia; destruct k as [|[|[|k]]]; try lia; unfold entries; cbn [nth];
  (apply (Rmult_eq_reg_r (2 * q)); [|lra]); match goal with |- ?l = ?rr => let X := fresh in assert (X : l - rr = 0); [field_simplify; [lra|lra..]|lra] end.
Lemma branch_w s r k : 0 < s -> s * s = a + e + i + 1 -> (r < 3)%nat -> (k < 3)%nat -> matrix_of_quat (Q4 (1 / 2 * s) ((h - f) * (1 / 2 / s)) ((c - g) * (1 / 2 / s)) ((d - b) * (1 / 2 / s))) r k = nth k (nth r entries []) 0.
Proof. intros Hs Hq Hr Hk. branch. assert (H4 : 0 < a + e + i + 1) by (rewrite <- Hq; now apply Rmult_lt_0_compat). entries_by s Hs Hq (a + e + i + 1) r k. Qed.
Lemma branch_x s r k : 0 < s -> s * s = a - e - i + 1 -> (r < 3)%nat -> (k < 3)%nat -> matrix_of_quat (Q4 ((h - f) * (1 / 2 / s)) (1 / 2 * s) ((d + b) * (1 / 2 / s)) ((g + c) * (1 / 2 / s))) r k = nth k (nth r entries []) 0.
Proof. intros Hs Hq Hr Hk. branch. assert (H4 : 0 < a - e - i + 1) by (rewrite <- Hq; now apply Rmult_lt_0_compat). entries_by s Hs Hq (a - e - i + 1) r k. Qed.
Lemma branch_y s r k : 0 < s -> s * s = e - i - a + 1 -> (r < 3)%nat -> (k < 3)%nat -> matrix_of_quat (Q4 ((c - g) * (1 / 2 / s)) ((b + d) * (1 / 2 / s)) (1 / 2 * s) ((h + f) * (1 / 2 / s))) r k = nth k (nth r entries []) 0.
Proof. intros Hs Hq Hr Hk. branch. assert (H4 : 0 < e - i - a + 1) by (rewrite <- Hq; now apply Rmult_lt_0_compat). entries_by s Hs Hq (e - i - a + 1) r k. Qed.
Lemma branch_z s r k : 0 < s -> s * s = i - a - e + 1 -> (r < 3)%nat -> (k < 3)%nat -> matrix_of_quat (Q4 ((d - b) * (1 / 2 / s)) ((c + g) * (1 / 2 / s)) ((f + h) * (1 / 2 / s)) (1 / 2 * s)) r k = nth k (nth r entries []) 0.
Proof. intros Hs Hq Hr Hk. branch. assert (H4 : 0 < i - a - e + 1) by (rewrite <- Hq; now apply Rmult_lt_0_compat). entries_by s Hs Hq (i - a - e + 1) r k. Qed.
End Branches.

Lemma entries_of m r k : (r < 3)%nat -> (k < 3)%nat -> nth k (nth r (entries (m 0%nat 0%nat) (m 0%nat 1%nat) (m 0%nat 2%nat) (m 1%nat 0%nat) (m 1%nat 1%nat) (m 1%nat 2%nat) (m 2%nat 0%nat) (m 2%nat 1%nat) (m 2%nat 2%nat)) []) 0 = m r k.
Proof. intros Hr Hk. destruct r as [|[|[|r]]]; try lia; destruct k as [|[|[|k]]]; try lia; reflexivity. Qed.
Lemma sqrt_pos_sq t : 0 < t -> 0 < sqrt t /\ sqrt t * sqrt t = t.
Proof. intros H. split; [now apply sqrt_lt_R0|apply sqrt_sqrt; lra]. Qed.
(** ** The quaternion Eigen computes for a rotation matrix gives back that matrix. *)
Theorem C93_rotation_round_trip m : rotation3 m -> forall r k, (r < 3)%nat -> (k < 3)%nat -> matrix_of_quat (quat_of_matrix m) r k = m r k.
Proof.
  intros [HC HD] r k Hr Hk.
  pose proof (HC 0 0 ltac:(lia) ltac:(lia))%nat as C00. pose proof (HC 1 1 ltac:(lia) ltac:(lia))%nat as C11. pose proof (HC 2 2 ltac:(lia) ltac:(lia))%nat as C22.
  pose proof (HC 0 1 ltac:(lia) ltac:(lia))%nat as C01. pose proof (HC 0 2 ltac:(lia) ltac:(lia))%nat as C02. pose proof (HC 1 2 ltac:(lia) ltac:(lia))%nat as C12.
  unfold coldot in C00, C11, C22, C01, C02, C12. cbn [Nat.eqb] in C00, C11, C22, C01, C02, C12. unfold det3 in HD. rewrite <- (entries_of m r k Hr Hk). unfold quat_of_matrix, ent.
  destruct (Rlt_dec 0 _) as [T|T].
  - destruct (sqrt_pos_sq (m 0%nat 0%nat + m 1%nat 1%nat + m 2%nat 2%nat + 1)) as [Hs Hq]; [lra|]. now apply branch_w.
  - destruct (Rlt_dec (m 0%nat 0%nat) (m 1%nat 1%nat)) as [L|L]; cbv zeta.
    + destruct (Rlt_dec (m 1%nat 1%nat) (m 2%nat 2%nat)) as [L2|L2].
      * change ((2 + 1) mod 3)%nat with 0%nat. change ((0 + 1) mod 3)%nat with 1%nat. cbn [Nat.eqb]. destruct (sqrt_pos_sq (m 2%nat 2%nat - m 0%nat 0%nat - m 1%nat 1%nat + 1)) as [Hs Hq]; [lra|]. now apply branch_z.
      * change ((1 + 1) mod 3)%nat with 2%nat. change ((2 + 1) mod 3)%nat with 0%nat. cbn [Nat.eqb]. destruct (sqrt_pos_sq (m 1%nat 1%nat - m 2%nat 2%nat - m 0%nat 0%nat + 1)) as [Hs Hq]; [lra|]. now apply branch_y.
    + destruct (Rlt_dec (m 0%nat 0%nat) (m 2%nat 2%nat)) as [L2|L2].
      * change ((2 + 1) mod 3)%nat with 0%nat. change ((0 + 1) mod 3)%nat with 1%nat. cbn [Nat.eqb]. destruct (sqrt_pos_sq (m 2%nat 2%nat - m 0%nat 0%nat - m 1%nat 1%nat + 1)) as [Hs Hq]; [lra|]. now apply branch_z.
      * change ((0 + 1) mod 3)%nat with 1%nat. change ((1 + 1) mod 3)%nat with 2%nat. cbn [Nat.eqb]. destruct (sqrt_pos_sq (m 0%nat 0%nat - m 1%nat 1%nat - m 2%nat 2%nat + 1)) as [Hs Hq]; [lra|]. now apply branch_x.
Qed.

(** ** Histories of assignments *)
Lemma last_snoc {A} (p : cwrite -> option A) d h w : last_of p d (h ++ [w]) = match p w with Some x => x | None => last_of p d h end.
Proof. unfold last_of. now rewrite fold_left_app. Qed.
Theorem C93_last_assignment_wins h : (forall m, In (WPlacement m) h -> rigid m) -> let c := crun h contact_new in
  c_ini c = last_of sets_start 0 h /\ c_end c = last_of sets_end 0 h /\ c_type c = last_of sets_type FreeContact h /\ c_sel c = last_of sets_active false h /\
  c_pos c = last_of sets_position v0 h /\
  (forall i j, (i < 4)%nat -> (j < 4)%nat -> placement c i j = if ((i <? 3) && (j =? 3))%nat%bool then vget3 (c_pos c) i else last_of sets_placement identity4 h i j) /\
  c_optid c = (-1)%Z /\ c_terrain c = (-1)%Z.
Proof.
  induction h as [|w h IH] using rev_ind; intros HR.
  - cbn. repeat split. intros i j Hi Hj. destruct i as [|[|[|[|i]]]]; try lia; destruct j as [|[|[|[|j]]]]; try lia; cbn; unfold identity4; cbn; try ring; reflexivity.
  - destruct IH as (H1 & H2 & H3 & H4 & H5 & H6 & H7 & H8); [intros m Hm; apply HR, in_or_app; now left|]. cbv zeta. unfold crun. rewrite fold_left_app. fold (crun h contact_new). cbn [fold_left].
    rewrite !last_snoc. set (c0 := crun h contact_new) in *. clearbody c0. unfold placement in *. destruct c0 as [a b p o t s oi te]. cbn [c_ini c_end c_pos c_ori c_type c_sel c_optid c_terrain] in *.
    destruct w as [x|x|v|m|x|x]; cbn [capply c_ini c_end c_pos c_ori c_type c_sel c_optid c_terrain sets_start sets_end sets_type sets_active sets_position sets_placement]; try (repeat split; assumption).
    + repeat split; try assumption; try reflexivity. intros i j Hi Hj. specialize (H6 i j Hi Hj). destruct i as [|[|[|[|i]]]]; try lia; destruct j as [|[|[|[|j]]]]; try lia; cbn [Nat.ltb Nat.leb Nat.eqb andb] in *; try reflexivity; exact H6.
    + repeat split; try assumption; try reflexivity. intros i j Hi Hj. destruct (HR m ltac:(apply in_or_app; right; now left)) as [HRot HL].
      destruct (Nat.ltb_spec i 3) as [Hi3|Hi3]; cbn [andb].
      * destruct (Nat.ltb_spec j 3) as [Hj3|Hj3]; [rewrite C93_rotation_round_trip by assumption|]; replace (j =? 3)%nat with (negb (j <? 3)%nat) by (destruct (Nat.ltb_spec j 3), (Nat.eqb_spec j 3); try lia; reflexivity).
        -- now rewrite (proj2 (Nat.ltb_lt j 3) Hj3).
        -- rewrite (proj2 (Nat.ltb_ge j 3) Hj3). cbn [negb]. reflexivity.
      * assert (i = 3%nat) by lia. subst i. rewrite HL by exact Hj. destruct (Nat.ltb_spec j 3), (Nat.eqb_spec j 3); try lia; reflexivity.
Qed.
(** A placement written and read at once is unchanged if it is rigid, *)
Corollary C93_placement_round_trip c m : rigid m -> forall i j, (i < 4)%nat -> (j < 4)%nat -> placement (capply c (WPlacement m)) i j = m i j.
Proof.
  intros [HRot HL] i j Hi Hj. destruct c as [a b p o t s oi te]. unfold placement. cbn [capply c_pos c_ori].
  destruct (Nat.ltb_spec i 3) as [Hi3|Hi3].
  - destruct (Nat.ltb_spec j 3) as [Hj3|Hj3]; [now apply C93_rotation_round_trip|]. assert (j = 3%nat) by lia. subst j. destruct i as [|[|[|i]]]; try lia; reflexivity.
  - assert (i = 3%nat) by lia. subst i. rewrite HL by exact Hj. destruct (Nat.ltb_spec j 3), (Nat.eqb_spec j 3); try lia; reflexivity.
Qed.
(** and otherwise it may not be: twice the identity is read back as the identity. *)
Theorem C93_any_matrix_refuted : ~ (forall c m, (forall j, (j < 4)%nat -> m 3%nat j = if Nat.eqb j 3 then 1 else 0) -> forall i j, (i < 4)%nat -> (j < 4)%nat -> placement (capply c (WPlacement m)) i j = m i j).
Proof.
  intros H. specialize (H contact_new (fun i j => if Nat.eqb i j then if Nat.eqb i 3 then 1 else 2 else 0)). specialize (H ltac:(intros j Hj; destruct j as [|[|[|[|j]]]]; try lia; reflexivity) 0%nat 0%nat ltac:(lia) ltac:(lia)).
  unfold placement in H. cbn in H. unfold quat_of_matrix, ent in H. cbn in H. destruct (Rlt_dec 0 (2 + 2 + 2)) as [|N]; [|lra]. cbn in H. assert (Z : forall x : R, (0 - 0) * x = 0) by (intros; ring). rewrite !Z in H. lra.
Qed.
(** ** A contact has a rigid placement exactly if its quaternion has norm one or no vector part (Eigen does not normalise), *)
Lemma placement_rigid c :
  rigid (placement c) <-> (qw (c_ori c) * qw (c_ori c) + qx (c_ori c) * qx (c_ori c) + qy (c_ori c) * qy (c_ori c) + qz (c_ori c) * qz (c_ori c) = 1 \/ (qx (c_ori c) = 0 /\ qy (c_ori c) = 0 /\ qz (c_ori c) = 0)).
Proof.
  set (q := c_ori c). destruct q as [w x y z] eqn:Eq. cbn [qw qx qy qz]. set (n := w * w + x * x + y * y + z * z).
  assert (E : forall i j, (i < 3)%nat -> (j < 3)%nat -> placement c i j = matrix_of_quat (Q4 w x y z) i j).
  { intros i j Hi Hj. unfold placement. rewrite (proj2 (Nat.ltb_lt i 3) Hi), (proj2 (Nat.ltb_lt j 3) Hj). unfold q in Eq. now rewrite Eq. }
  split.
  - intros [[HC _] _].
    pose proof (HC 0 0 ltac:(lia) ltac:(lia))%nat as A. pose proof (HC 1 1 ltac:(lia) ltac:(lia))%nat as B. pose proof (HC 2 2 ltac:(lia) ltac:(lia))%nat as C.
    unfold coldot in A, B, C. rewrite !E in A, B, C by lia. unfold matrix_of_quat in A, B, C. cbn [qw qx qy qz Nat.eqb] in A, B, C.
    assert (A' : (y * y + z * z) * (n - 1) = 0) by (unfold n; nra). assert (B' : (x * x + z * z) * (n - 1) = 0) by (unfold n; nra). assert (C' : (x * x + y * y) * (n - 1) = 0) by (unfold n; nra).
    destruct (Req_dec n 1) as [N|N]; [now left|right]. assert (N' : n - 1 <> 0) by lra.
    apply Rmult_integral in A'. apply Rmult_integral in B'. apply Rmult_integral in C'. destruct A' as [A'|]; [|tauto]. destruct B' as [B'|]; [|tauto]. destruct C' as [C'|]; [|tauto]. repeat split; nra.
  - intros H. assert (H3 : forall j, (j < 4)%nat -> placement c 3%nat j = if Nat.eqb j 3 then 1 else 0) by (intros j Hj; destruct j as [|[|[|[|j]]]]; try lia; reflexivity).
    split; [|exact H3]. assert (W : w * w = 1 - x * x - y * y - z * z \/ (x = 0 /\ y = 0 /\ z = 0)) by (destruct H as [H|H]; [left; unfold n in H; lra|now right]). clear H H3. split.
    + intros a b Ha Hb. unfold coldot. rewrite !E by lia. destruct a as [|[|[|a]]]; try lia; destruct b as [|[|[|b]]]; try lia; unfold matrix_of_quat; cbn [qw qx qy qz Nat.eqb];
        (destruct W as [W|(-> & -> & ->)]; [|ring]); ring_simplify; replace (w ^ 2) with (w * w) by ring; rewrite W; ring.
    + unfold det3. rewrite !E by lia. unfold matrix_of_quat. cbn [qw qx qy qz]. destruct W as [W|(-> & -> & ->)]; [|ring]. ring_simplify. replace (w ^ 2) with (w * w) by ring. rewrite W. ring.
Qed.
(** so the placement of a contact read from a file is rigid exactly if the four numbers of its orientation have norm one (or the last three vanish); its translation is the position in the file. *)
Theorem C93_file_placement p oid c : contact_of p oid = Ok c -> let v i := nth i p 0 in
  (rigid (placement c) <-> (v 5%nat * v 5%nat + v 6%nat * v 6%nat + v 7%nat * v 7%nat + v 8%nat * v 8%nat = 1 \/ (v 6%nat = 0 /\ v 7%nat = 0 /\ v 8%nat = 0))) /\
  (forall i, (i < 3)%nat -> placement c i 3%nat = v (2 + i)%nat).
Proof.
  intros H v. unfold contact_of in H. do 11 (destruct p as [|? p]; [discriminate|]). injection H as <-. split.
  - rewrite placement_rigid. reflexivity.
  - intros i Hi. destruct i as [|[|[|i]]]; try lia; reflexivity.
Qed.
(** Non-vacuity: a half turn about the vertical (largest diagonal entry, trace -1) with a translation; and a quarter turn. *)
Definition half_turn : nat -> nat -> R := fun i j => nth j (nth i [[-1; 0; 0; 1]; [0; -1; 0; 2]; [0; 0; 1; 3]; [0; 0; 0; 1]] []) 0.
Example C93_rigid_example : rigid half_turn.
Proof.
  unfold half_turn. split; [split|].
  - intros a b Ha Hb. unfold coldot. destruct a as [|[|[|a]]]; try lia; destruct b as [|[|[|b]]]; try lia; cbn; ring.
  - unfold det3. cbn. ring.
  - intros j Hj. destruct j as [|[|[|[|j]]]]; try lia; reflexivity.
Qed.
Print Assumptions C93_rotation_round_trip.
Print Assumptions C93_last_assignment_wins.
Print Assumptions C93_placement_round_trip.
Print Assumptions C93_any_matrix_refuted.
Print Assumptions C93_file_placement.

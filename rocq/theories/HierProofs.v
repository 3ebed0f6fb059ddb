(** Invariants of the hierarchical solver. *)
From Coq Require Import Reals List Arith Bool Lia Lra.
Import ListNotations.
From Verif Require Import Base BaseProofs RtMatModel RtMatProofs HierModel.
Local Open Scope R_scope.

Section HP.
Variable nullmap : mat -> mat.
Variable qp : mat -> vec -> mat -> vec -> option vec.
Variable least_norm : mat -> vec -> vec.
Variable relax diag : R.
Variable capA capB : nat.
Notation h_task := (h_task nullmap qp least_norm relax diag capA capB).
Notation h_run := (h_run nullmap qp least_norm relax diag capA capB).
Notation upd_ahat := (upd_ahat relax).
Hypothesis null_rows : forall B, nr (nullmap B) = nc B.
Hypothesis null_zero : forall B i j, (i < nr B)%nat -> (j < nc (nullmap B))%nat -> rsum (nc B) (fun k => ma B i k * ma (nullmap B) k j) = 0.

Definition Neff (s : hst) : mat := if (nc (h_N s) =? nr (h_K s))%nat then Mat (nr (h_N s)) (nc (h_K s)) (fun i j => rsum (nc (h_N s)) (fun k => ma (h_N s) i k * ma (h_K s) k j)) else h_N s.
Definition Aeff (s : hst) : mat := if (nc (h_A s) =? nr (h_K s))%nat then Mat (nr (h_A s)) (nc (h_K s)) (fun i j => rsum (nc (h_A s)) (fun k => ma (h_A s) i k * ma (h_K s) k j)) else h_A s.
Lemma timesK_N : forall s, timesK (h_N s) (h_K s) = Ok (Neff s).
Proof. intros. unfold timesK, Neff, m_mul. destruct (nc (h_N s) =? nr (h_K s))%nat; reflexivity. Qed.
Lemma timesK_A : forall s, timesK (h_A s) (h_K s) = Ok (Aeff s).
Proof. intros. unfold timesK, Aeff, m_mul. destruct (nc (h_A s) =? nr (h_K s))%nat; reflexivity. Qed.

Definition dims (n : nat) (s : hst) : Prop :=
  vn (h_x s) = n /\ nr (h_N s) = n /\ nc (h_A s) = nc (h_N s) /\ nr (h_A s) = vn (h_a s) /\
  (nr (h_K s) = nc (h_N s) \/ nc (h_K s) = nc (h_N s)) /\ (nr (h_B s) <> 0%nat -> h_K s = nullmap (h_B s)) /\
  (vn (h_a s) = 0%nat \/ vn (h_z s) = nc (h_N s)) /\ (vn (h_w s) <= vn (h_a s))%nat.
Lemma dims_reset : forall n, dims n (h_reset n).
Proof. intros. unfold dims, h_reset; cbn. repeat split; auto; intros; lia. Qed.
Lemma Neff_cols : forall n s, dims n s -> nc (Neff s) = nc (h_K s) /\ nr (Neff s) = n /\ nc (Aeff s) = nc (Neff s) /\ nr (Aeff s) = nr (h_A s).
Proof.
  intros n s (D1 & D2 & D3 & D4 & D5 & _). unfold Neff, Aeff. rewrite D3. destruct (Nat.eqb_spec (nc (h_N s)) (nr (h_K s))); cbn.
  - auto.
  - repeat split; auto. destruct D5 as [D|D]; [congruence|auto].
Qed.
(** What a task that does not return early does. *)
Definition newA (s : hst) (t : task) : mat :=
  if (nr (t_C t) =? 0)%nat then Aeff s
  else Mat (nr (Aeff s) + nr (t_C t)) (nc (Aeff s)) (fun i j => if (i <? nr (Aeff s))%nat then ma (Aeff s) i j else rsum (nc (t_C t)) (fun k => ma (t_C t) (i - nr (Aeff s)) k * ma (Neff s) k j)).
Definition aclip (s : hst) : vec :=
  if (vn (h_a s) =? 0)%nat then h_a s else
  let a2 := Vec (vn (h_a s)) (fun i => clip relax (va (h_a s) i + rsum (nc (h_A s)) (fun k => ma (h_A s) i k * va (h_z s) k))) in
  if (vn (h_w s) =? 0)%nat then a2 else
  Vec (vn a2) (fun i => if (i <? vn a2 - vn (h_w s))%nat then va a2 i else va a2 i + va (h_w s) (i - (vn a2 - vn (h_w s)))%nat).
Definition newa (s : hst) (t : task) : vec :=
  if (nr (t_C t) =? 0)%nat then aclip s
  else Vec (vn (aclip s) + nr (t_C t)) (fun i => if (i <? vn (aclip s))%nat then va (aclip s) i else rsum (nc (t_C t)) (fun k => ma (t_C t) (i - vn (aclip s)) k * va (h_x s) k) + va (t_c t) (i - vn (aclip s))%nat).
Definition newB (s : hst) (t : task) : mat :=
  if (nr (t_E t) =? 0)%nat then h_B s else Mat (nr (t_E t)) (nc (Neff s)) (fun i j => rsum (nc (t_E t)) (fun k => ma (t_E t) i k * ma (Neff s) k j)).
Definition resid (s : hst) (t : task) : option (mat * vec) :=
  if (nr (t_E t) =? 0)%nat then None
  else Some (newB s t, Vec (vn (t_e t)) (fun i => va (t_e t) i + rsum (nc (t_E t)) (fun k => ma (t_E t) i k * va (h_x s) k))).
Definition sol (s : hst) (t : task) : option vec :=
  if t_slack t then qp (cost_H diag (nc (Neff s)) (nr (t_C t)) (option_map fst (resid s t)) true) (cost_g (nc (Neff s)) (nr (t_C t)) (resid s t)) (con_A (newA s t) (nc (Neff s)) (nr (t_C t))) (newa s t) else None.
Definition newz (s : hst) (t : task) : vec :=
  if t_slack t then match sol s t with Some v => Vec (nc (Neff s)) (va v) | None => v_zero (nc (Neff s)) end else least_norm (t_E t) (t_e t).
Definition neww (s : hst) (t : task) : vec :=
  if (nr (t_C t) =? 0)%nat then h_w s else match sol s t with Some v => Vec (nr (t_C t)) (fun i => va v (nc (Neff s) + i)%nat) | None => v_zero (nr (t_C t)) end.
Definition after (s : hst) (t : task) : hst :=
  mkH (Vec (vn (h_x s)) (fun i => va (h_x s) i + rsum (nc (Neff s)) (fun k => ma (Neff s) i k * va (newz s t) k))) (newz s t) (neww s t)
      (if (nr (newB s t) =? 0)%nat then h_K s else nullmap (newB s t)) (Neff s) (newB s t) (newA s t) (newa s t).
Definition early (s : hst) (t : task) : bool := ((nr (t_E t) =? 0) && (nr (t_C t) =? 0) || (nc (h_K s) =? 0) && (nr (t_C t) =? 0))%nat.
Definition ok_task (n : nat) (s : hst) (t : task) : Prop :=
  (nr (t_E t) <= capB)%nat /\ (nr (t_E t) = 0%nat \/ (nc (t_E t) = n /\ vn (t_e t) = nr (t_E t))) /\ (nr (t_C t) = 0%nat \/ (nc (t_C t) = n /\ vn (t_c t) = nr (t_C t))) /\
  (nr (h_A s) + nr (t_C t) <= capA)%nat.

Lemma upd_ahat_eq : forall n s, dims n s -> upd_ahat s = Ok (aclip s).
Proof.
  intros n s (D1 & D2 & D3 & D4 & D5 & D6 & D7 & D8). unfold HierModel.upd_ahat, aclip, m_vec, v_add.
  destruct (Nat.eqb_spec (vn (h_a s)) 0) as [E|E]; [reflexivity|].
  destruct D7 as [D7|D7]; [congruence|]. rewrite D3, D7, Nat.eqb_refl. cbn. rewrite D4, Nat.eqb_refl. cbn.
  destruct (Nat.eqb_spec (vn (h_w s)) 0); [reflexivity|]. destruct (Nat.leb_spec (vn (h_w s)) (vn (h_a s))); [reflexivity|lia].
Qed.
Lemma aclip_len : forall s, vn (aclip s) = vn (h_a s).
Proof. intros. unfold aclip. destruct (vn (h_a s) =? 0)%nat; [reflexivity|]. destruct (vn (h_w s) =? 0)%nat; reflexivity. Qed.

Lemma h_task_eq : forall n s t, dims n s -> ok_task n s t ->
  h_task s t = (if early s t then Ok (s, true) else guard (vn (newz s t) =? nc (Neff s))%nat (Ok (after s t, match sol s t with Some _ => true | None => negb (t_slack t) end))).
Proof.
  intros n s t D O. pose proof (Neff_cols n s D) as (C1 & C2 & C3 & C4). pose proof (upd_ahat_eq n s D) as U.
  pose proof D as (D1 & D2 & D3 & D4 & D5 & D6 & D7 & D8). destruct O as (O1 & O2 & O3 & O4).
  unfold HierModel.h_task. rewrite D1. apply Nat.leb_le in O1. rewrite O1.
  replace ((nr (t_E t) =? 0) || (nc (t_E t) =? n))%nat with true by (symmetry; apply orb_true_iff; destruct O2 as [->|[-> _]]; [left; apply Nat.eqb_refl|right; apply Nat.eqb_refl]).
  replace ((nr (t_C t) =? 0) || (nc (t_C t) =? n))%nat with true by (symmetry; apply orb_true_iff; destruct O3 as [->|[-> _]]; [left; apply Nat.eqb_refl|right; apply Nat.eqb_refl]).
  pose proof O4 as O4b. apply Nat.leb_le in O4b. rewrite O4b. cbn [andb guard].
  unfold early. destruct ((nr (t_E t) =? 0) && (nr (t_C t) =? 0))%nat eqn:EE; [reflexivity|]. cbn [orb].
  destruct ((nc (h_K s) =? 0) && (nr (t_C t) =? 0))%nat eqn:EK; [reflexivity|].
  rewrite timesK_N. cbn [bind]. rewrite U. cbn [bind].
  assert (Ha : (if (nr (t_C t) =? 0)%nat then Ok (aclip s) else bind (m_vec (t_C t) (h_x s)) (fun Cx => bind (v_add Cx (t_c t)) (fun r => v_append capA (aclip s) r))) = Ok (newa s t)).
  { unfold newa. destruct (Nat.eqb_spec (nr (t_C t)) 0) as [E|E]; [reflexivity|]. destruct O3 as [O3|[O3 O3b]]; [congruence|].
    unfold m_vec, v_add, v_append. rewrite O3, D1, Nat.eqb_refl. cbn [guard bind vn va]. rewrite O3b, Nat.eqb_refl. cbn [guard bind vn va].
    rewrite aclip_len. destruct (Nat.leb_spec (vn (h_a s) + nr (t_C t)) capA); [reflexivity|lia]. }
  rewrite Ha. cbn [bind]. rewrite timesK_A. cbn [bind].
  assert (HA : (if (nr (t_C t) =? 0)%nat then Ok (Aeff s) else bind (m_mul (t_C t) (Neff s)) (fun CN => m_append capA (Aeff s) CN)) = Ok (newA s t)).
  { unfold newA. destruct (Nat.eqb_spec (nr (t_C t)) 0) as [E|E]; [reflexivity|]. destruct O3 as [O3|[O3 O3b]]; [congruence|].
    unfold m_mul, m_append. rewrite O3, C2, Nat.eqb_refl. cbn [guard bind nr nc ma]. rewrite C3, Nat.eqb_refl, C4. cbn [andb].
    destruct (Nat.leb_spec (nr (h_A s) + nr (t_C t)) capA); [|lia]. cbn [guard]. reflexivity. }
  rewrite HA. cbn [bind].
  assert (HB : (if (nr (t_E t) =? 0)%nat then Ok (h_B s, None)
         else bind (m_mul (t_E t) (Neff s)) (fun B => bind (m_vec (t_E t) (h_x s)) (fun Ex => bind (v_add (t_e t) Ex) (fun r => Ok (B, Some (B, r)))))) = Ok (newB s t, resid s t)).
  { unfold resid, newB. destruct (Nat.eqb_spec (nr (t_E t)) 0) as [E|E]; [reflexivity|]. destruct O2 as [O2|[O2 O2b]]; [congruence|].
    unfold m_mul, m_vec, v_add. rewrite O2, C2, D1, Nat.eqb_refl. cbn [guard bind nr nc ma vn va]. rewrite O2b, Nat.eqb_refl. cbn [guard bind]. reflexivity. }
  rewrite HB. cbn [bind fst snd].
  assert (HG : (if (nr (newA s t) =? 0)%nat then true else ((nr (newA s t) =? vn (newa s t)) && (nc (newA s t) =? nc (Neff s))))%nat = true).
  { destruct (nr (newA s t) =? 0)%nat; [reflexivity|]. unfold newA, newa. destruct (nr (t_C t) =? 0)%nat; cbn [nr nc vn]; rewrite ?aclip_len, C3, C4, D4, !Nat.eqb_refl; reflexivity. }
  rewrite HG. cbn [guard]. fold (sol s t). fold (newz s t). unfold m_vec at 1. rewrite (Nat.eqb_sym (nc (Neff s)) (vn (newz s t))).
  destruct (vn (newz s t) =? nc (Neff s))%nat; cbn [guard bind]; [|reflexivity].
  unfold v_add. cbn [vn]. rewrite C2, D1, Nat.eqb_refl. cbn [guard bind]. unfold after. rewrite D1. reflexivity.
Qed.
(** Conversely a task that returns normally was well formed. *)
Lemma h_task_ok_inv : forall n s t r, dims n s -> h_task s t = Ok r -> ok_task n s t \/ (early s t = true /\ r = (s, true)).
Proof.
  intros n s t r D H. pose proof (Neff_cols n s D) as (C1 & C2 & C3 & C4). pose proof (upd_ahat_eq n s D) as U. pose proof D as (D1 & D2 & D3 & D4 & D5 & D6 & D7 & D8).
  unfold HierModel.h_task in H. apply guard_ok in H. destruct H as [G H].
  apply andb_prop in G. destruct G as [G G4]. apply andb_prop in G. destruct G as [G G3]. apply andb_prop in G. destruct G as [G1 G2].
  apply Nat.leb_le in G1, G4. rewrite D1 in *.
  unfold early. destruct ((nr (t_E t) =? 0) && (nr (t_C t) =? 0))%nat; [injection H as <-; now right|]. cbn [orb].
  destruct ((nc (h_K s) =? 0) && (nr (t_C t) =? 0))%nat; [injection H as <-; now right|]. left.
  rewrite timesK_N in H. cbn [bind] in H. rewrite U in H. cbn [bind] in H. split; [exact G1|].
  apply bind_ok in H. destruct H as (a2 & Ha & H). apply bind_ok in H. destruct H as (A1 & HA1 & H). apply bind_ok in H. destruct H as (A2 & HA2 & H).
  apply bind_ok in H. destruct H as (Br & HB & _). split; [|split; [|exact G4]].
  - destruct (Nat.eqb_spec (nr (t_E t)) 0) as [E|E]; [now left|right]. cbn [orb] in G2. apply Nat.eqb_eq in G2. split; [exact G2|].
    apply bind_ok in HB. destruct HB as (B & HB1 & HB). apply bind_ok in HB. destruct HB as (Ex & HB2 & HB). apply bind_ok in HB. destruct HB as (rr & HB3 & _).
    unfold m_vec in HB2. apply guard_ok in HB2. destruct HB2 as [_ HB2]. injection HB2 as <-. unfold v_add in HB3. apply guard_ok in HB3. destruct HB3 as [HB3 _].
    cbn [vn] in HB3. now apply Nat.eqb_eq in HB3.
  - destruct (Nat.eqb_spec (nr (t_C t)) 0) as [E|E]; [now left|right]. cbn [orb] in G3. apply Nat.eqb_eq in G3. split; [exact G3|].
    apply bind_ok in Ha. destruct Ha as (Cx & HB2 & Ha). apply bind_ok in Ha. destruct Ha as (rr & HB3 & _).
    unfold m_vec in HB2. apply guard_ok in HB2. destruct HB2 as [_ HB2]. injection HB2 as <-. unfold v_add in HB3. apply guard_ok in HB3. destruct HB3 as [HB3 _].
    cbn [vn] in HB3. apply Nat.eqb_eq in HB3. now symmetry.
Qed.
Lemma h_task_cases : forall n s t s' b, dims n s -> h_task s t = Ok (s', b) ->
  (early s t = true /\ s' = s /\ b = true) \/ (early s t = false /\ ok_task n s t /\ vn (newz s t) = nc (Neff s) /\ s' = after s t /\ b = match sol s t with Some _ => true | None => negb (t_slack t) end).
Proof.
  intros n s t s' b D H. destruct (h_task_ok_inv n s t _ D H) as [O|[E E2]]; [|left; injection E2 as -> ->; auto].
  rewrite (h_task_eq n s t D O) in H. destruct (early s t); [left; injection H as <- <-; auto|right].
  apply guard_ok in H. destruct H as [G H]. apply Nat.eqb_eq in G. injection H as <- <-. auto.
Qed.

Lemma dims_after : forall n s t, dims n s -> ok_task n s t -> vn (newz s t) = nc (Neff s) -> dims n (after s t).
Proof.
  intros n s t D O Hz. pose proof (Neff_cols n s D) as (C1 & C2 & C3 & C4). pose proof D as (D1 & D2 & D3 & D4 & D5 & D6 & D7 & D8). destruct O as (O1 & O2 & O3 & O4).
  unfold dims, after; cbn [h_x h_z h_w h_K h_N h_B h_A h_a vn].
  split; [exact D1|]. split; [exact C2|].
  split; [unfold newA; destruct (nr (t_C t) =? 0)%nat; cbn [nc]; exact C3|].
  split; [unfold newA, newa; destruct (nr (t_C t) =? 0)%nat; cbn [nr vn]; rewrite aclip_len, C4, D4; reflexivity|].
  split. { unfold newB. destruct (Nat.eqb_spec (nr (t_E t)) 0) as [E|E].
    - right. destruct (Nat.eqb_spec (nr (h_B s)) 0) as [EB|EB]; [now rewrite C1|]. rewrite <- (D6 EB). now rewrite C1.
    - cbn [nr]. destruct (Nat.eqb_spec (nr (t_E t)) 0); [congruence|]. left. rewrite null_rows. reflexivity. }
  split. { intros EB. destruct (Nat.eqb_spec (nr (newB s t)) 0); [congruence|reflexivity]. }
  split; [right; exact Hz|].
  unfold neww, newa. destruct (nr (t_C t) =? 0)%nat; cbn [vn]; rewrite ?aclip_len; [exact D8|]. destruct (sol s t); cbn [vn v_zero]; lia.
Qed.

(** Equality tasks already handled: their matrix vanishes on the null space left. *)
Definition annihilates (n : nat) (E : mat) (m : mat) : Prop := forall i j, (i < nr E)%nat -> (j < nc m)%nat -> rsum n (fun k => ma E i k * ma m k j) = 0.
Lemma annih_K : forall n E s, dims n s -> annihilates n E (h_N s) -> annihilates n E (Neff s).
Proof.
  intros n E s D A. unfold Neff. destruct (Nat.eqb_spec (nc (h_N s)) (nr (h_K s))) as [Ek|]; [|exact A].
  intros i j Hi Hj. cbn [nc ma] in *.
  transitivity (rsum (nc (h_N s)) (fun l => rsum n (fun k => ma E i k * ma (h_N s) k l) * ma (h_K s) l j)).
  - transitivity (rsum n (fun k => rsum (nc (h_N s)) (fun l => ma E i k * ma (h_N s) k l * ma (h_K s) l j))).
    + apply rsum_ext; intros k Hk. rewrite <- rsum_scal. apply rsum_ext; intros; ring.
    + rewrite rsum_swap. apply rsum_ext; intros l Hl. now rewrite rsum_scal_r.
  - apply rsum_zero. intros l Hl. rewrite (A i l Hi Hl). ring.
Qed.
Lemma annih_task : forall n s t s' b E, dims n s -> h_task s t = Ok (s', b) -> annihilates n E (Neff s) -> annihilates n E (Neff s').
Proof.
  intros n s t s' b E D H A. destruct (h_task_cases n s t s' b D H) as [(_ & -> & _)|(_ & O & Hz & -> & _)]; [exact A|].
  apply (annih_K n E (after s t)); [now apply dims_after|exact A].
Qed.
Lemma annih_new : forall n s t s' b, dims n s -> h_task s t = Ok (s', b) -> (nr (t_E t) = 0%nat \/ nc (t_E t) = n) -> annihilates n (t_E t) (Neff s').
Proof.
  intros n s t s' b D H He. destruct (h_task_cases n s t s' b D H) as [(Ee & -> & _)|(_ & O & Hz & -> & _)].
  - unfold early in Ee. apply orb_prop in Ee. destruct Ee as [Ee|Ee]; apply andb_prop in Ee; destruct Ee as [E1 E2]; apply Nat.eqb_eq in E1.
    + intros i j Hi. lia.
    + intros i j Hi Hj. destruct (Neff_cols n s D) as (C1 & _). lia.
  - destruct (Nat.eq_dec (nr (t_E t)) 0) as [E0|E0]; [intros i j Hi; lia|]. destruct He as [He|He]; [congruence|].
    assert (HB : nr (newB s t) = nr (t_E t)) by (unfold newB; destruct (Nat.eqb_spec (nr (t_E t)) 0); [congruence|reflexivity]).
    assert (HBc : nc (newB s t) = nc (Neff s)) by (unfold newB; destruct (Nat.eqb_spec (nr (t_E t)) 0); [congruence|reflexivity]).
    assert (HBm : forall i j, ma (newB s t) i j = rsum (nc (t_E t)) (fun k => ma (t_E t) i k * ma (Neff s) k j)) by (intros; unfold newB; destruct (Nat.eqb_spec (nr (t_E t)) 0); [congruence|reflexivity]).
    assert (HK : h_K (after s t) = nullmap (newB s t)) by (cbn [after h_K]; destruct (Nat.eqb_spec (nr (newB s t)) 0); [congruence|reflexivity]).
    assert (HN : Neff (after s t) = Mat (nr (Neff s)) (nc (nullmap (newB s t))) (fun i j => rsum (nc (Neff s)) (fun k => ma (Neff s) i k * ma (nullmap (newB s t)) k j))).
    { unfold Neff at 1. rewrite HK. change (h_N (after s t)) with (Neff s). rewrite null_rows, HBc, Nat.eqb_refl. reflexivity. }
    intros i j Hi Hj. rewrite HN in *. cbn [nc ma] in *.
    rewrite <- (null_zero (newB s t) i j) by (rewrite ?HB; assumption). rewrite HBc.
    transitivity (rsum n (fun k => rsum (nc (Neff s)) (fun l => ma (t_E t) i k * ma (Neff s) k l * ma (nullmap (newB s t)) l j))).
    + apply rsum_ext; intros k Hk. rewrite <- rsum_scal. apply rsum_ext; intros; ring.
    + rewrite rsum_swap. apply rsum_ext; intros l Hl. rewrite HBm, <- rsum_scal_r, He. reflexivity.
Qed.
(** A later task does not change the value of a row that vanishes on the null space. *)
Lemma annih_value : forall n s t s' b E i, dims n s -> h_task s t = Ok (s', b) -> annihilates n E (Neff s) -> (i < nr E)%nat ->
  rsum n (fun k => ma E i k * va (h_x s') k) = rsum n (fun k => ma E i k * va (h_x s) k).
Proof.
  intros n s t s' b E i D H A Hi. destruct (h_task_cases n s t s' b D H) as [(_ & -> & _)|(_ & O & Hz & -> & _)]; [reflexivity|].
  cbn [after h_x va].
  rewrite (rsum_ext n _ (fun k => ma E i k * va (h_x s) k + ma E i k * rsum (nc (Neff s)) (fun l => ma (Neff s) k l * va (newz s t) l))) by (intros; ring).
  rewrite rsum_plus. replace (rsum n (fun k => ma E i k * rsum (nc (Neff s)) (fun l => ma (Neff s) k l * va (newz s t) l))) with 0; [ring|]. symmetry.
  transitivity (rsum (nc (Neff s)) (fun l => rsum n (fun k => ma E i k * ma (Neff s) k l) * va (newz s t) l)).
  - transitivity (rsum n (fun k => rsum (nc (Neff s)) (fun l => ma E i k * ma (Neff s) k l * va (newz s t) l))).
    + apply rsum_ext; intros k Hk. rewrite <- rsum_scal. apply rsum_ext; intros; ring.
    + rewrite rsum_swap. apply rsum_ext; intros l Hl. now rewrite rsum_scal_r.
  - apply rsum_zero. intros l Hl. rewrite (A i l Hi Hl). ring.
Qed.
Lemma dims_task : forall n s t s' b, dims n s -> h_task s t = Ok (s', b) -> dims n s'.
Proof. intros n s t s' b D H. destruct (h_task_cases n s t s' b D H) as [(_ & -> & _)|(_ & O & Hz & -> & _)]; [exact D|now apply dims_after]. Qed.
Lemma h_run_cons : forall t ts s s', h_run (t :: ts) s = Ok s' -> exists s1 b, h_task s t = Ok (s1, b) /\ h_run ts s1 = Ok s'.
Proof.
  intros t ts s s' H. unfold HierModel.h_run in H. rewrite foldM_cons in H. apply bind_ok in H. destruct H as (s1 & H1 & H2).
  apply bind_ok in H1. destruct H1 as ([s2 b] & H1 & E). injection E as <-. eauto.
Qed.
Lemma h_run_app : forall t1 t2 s s', h_run (t1 ++ t2) s = Ok s' -> exists s1, h_run t1 s = Ok s1 /\ h_run t2 s1 = Ok s'.
Proof. intros. unfold HierModel.h_run in *. rewrite foldM_append in H. apply bind_ok in H. exact H. Qed.
Lemma dims_run : forall n ts s s', dims n s -> h_run ts s = Ok s' -> dims n s'.
Proof.
  intros n ts. induction ts as [|t ts IH]; intros s s' D H; [cbn in H; injection H as <-; exact D|].
  destruct (h_run_cons _ _ _ _ H) as (s1 & b & H1 & H2). eapply IH; [|exact H2]. eapply dims_task; eassumption.
Qed.
Lemma annih_run : forall n ts s s' E, dims n s -> h_run ts s = Ok s' -> annihilates n E (Neff s) -> forall i, (i < nr E)%nat ->
  rsum n (fun k => ma E i k * va (h_x s') k) = rsum n (fun k => ma E i k * va (h_x s) k).
Proof.
  intros n ts. induction ts as [|t ts IH]; intros s s' E D H A i Hi; [cbn in H; injection H as <-; reflexivity|].
  destruct (h_run_cons _ _ _ _ H) as (s1 & b & H1 & H2).
  rewrite (IH s1 s' E); [|eapply dims_task; eassumption|exact H2|eapply annih_task; eassumption|exact Hi]. eapply annih_value; eassumption.
Qed.
Lemma task_cols : forall n s t r, dims n s -> h_task s t = Ok r -> nr (t_E t) = 0%nat \/ nc (t_E t) = n.
Proof.
  intros n s t r D H. unfold HierModel.h_task in H. apply guard_ok in H. destruct H as [G _].
  apply andb_prop in G. destruct G as [G _]. apply andb_prop in G. destruct G as [G _]. apply andb_prop in G. destruct G as [_ G].
  destruct D as (D1 & _). rewrite D1 in G. apply orb_prop in G. destruct G as [G|G]; apply Nat.eqb_eq in G; auto.
Qed.
End HP.

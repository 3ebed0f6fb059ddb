(** * Proofs about the trajectory files *)
From Coq Require Import String Reals List Arith ZArith Bool Lia Lra.
Import ListNotations.
From Verif Require Import Base Vec3 MkoModel ItpModel ItpSpec ItpProofs ItpProofs2 DatModel DatSpec.
Local Open Scope R_scope.
Notation length := List.length.

(** ** Number of rows *)
Lemma Rabs_le_inv a b : Rabs a <= b -> - b <= a <= b.
Proof. intros H. pose proof (Rle_abs a). pose proof (Rle_abs (- a)) as N. rewrite Rabs_Ropp in N. lra. Qed.
Lemma Int_part_bounds x : IZR (Int_part x) <= x < IZR (Int_part x) + 1.
Proof. destruct (base_Int_part x). lra. Qed.
Lemma Int_part_le x z : IZR z <= x -> (z <= Int_part x)%Z.
Proof. intros H. destruct (Int_part_bounds x) as [_ B]. assert (IZR z < IZR (Int_part x + 1)) by (rewrite plus_IZR; lra). apply lt_IZR in H0. lia. Qed.
Lemma py_round_near x : Rabs (IZR (py_round x) - x) <= / 2.
Proof.
  unfold py_round. destruct (Int_part_bounds (x + / 2)) as [A B]. set (z := Int_part (x + / 2)) in *. apply Rabs_le.
  destruct (Req_EM_T (IZR z) (x + / 2)) as [E|E]; [destruct (Z.even z)|]; rewrite ?minus_IZR; lra.
Qed.
Lemma py_round_nat x : 0 <= x -> Rabs (INR (Z.to_nat (py_round x)) - x) <= / 2.
Proof.
  intros H. assert (P : (0 <= py_round x)%Z).
  { pose proof (py_round_near x) as N. apply Rabs_le_inv in N. assert (IZR (-1) < IZR (py_round x)) by (cbn; lra). apply lt_IZR in H0. lia. }
  rewrite INR_IZR_INZ, Z2Nat.id by exact P. apply py_round_near.
Qed.
Lemma py_round_tie x : 0 <= x -> Rabs (INR (Z.to_nat (py_round x)) - x) = / 2 -> Nat.even (Z.to_nat (py_round x)) = true.
Proof.
  intros H T. assert (P : (0 <= py_round x)%Z).
  { pose proof (py_round_near x) as N. apply Rabs_le_inv in N. assert (IZR (-1) < IZR (py_round x)) by (cbn; lra). apply lt_IZR in H0. lia. }
  rewrite INR_IZR_INZ, Z2Nat.id in T by exact P. assert (E : Z.even (py_round x) = true).
  { revert T. unfold py_round. destruct (Int_part_bounds (x + / 2)) as [A B]. set (z := Int_part (x + / 2)) in *. destruct (Req_EM_T (IZR z) (x + / 2)) as [E|E].
    - intros _. destruct (Z.even z) eqn:Ev; [exact Ev|]. rewrite Z.even_sub, Ev. reflexivity.
    - intros T. exfalso. unfold Rabs in T. destruct (Rcase_abs (IZR z - x)); lra. }
  rewrite <- (Z2Nat.id (py_round x) P) in E. apply Z.even_spec in E as [k Hk]. apply Nat.even_spec. exists (Z.to_nat k). lia.
Qed.
Lemma last_time_ok tv : tv <> [] -> last_time tv = Ok (horizon tv). Proof. unfold last_time, horizon, stamp. destruct tv; [congruence|reflexivity]. Qed.
Lemma file_points_ok tv : tv <> [] -> / 2000 < horizon tv -> exists N, file_points tv = Ok N /\ (0 < N)%nat /\ Rabs (INR N / 1000 - horizon tv) <= / 2000 /\ (Rabs (INR N / 1000 - horizon tv) = / 2000 -> Nat.even N = true).
Proof.
  intros Hne H. unfold file_points. rewrite last_time_ok by exact Hne. cbn [bind]. eexists; split; [reflexivity|].
  pose proof (py_round_nat (horizon tv * 1000) ltac:(lra)) as N. pose proof (py_round_tie (horizon tv * 1000) ltac:(lra)) as T. apply Rabs_le_inv in N. set (k := Z.to_nat (py_round (horizon tv * 1000))) in *. split; [|split].
  - destruct k; [exfalso; cbn in N; lra|lia].
  - apply Rabs_le. lra.
  - intros H2. apply T. replace (INR k - horizon tv * 1000) with (1000 * (INR k / 1000 - horizon tv)) by field. rewrite Rabs_mult, H2, (Rabs_right 1000) by lra. lra.
Qed.
Lemma qp_points_ok tv : tv <> [] -> 0 <= horizon tv -> exists N, qp_points tv = Ok N /\ horizon tv - / 1000 <= INR N / 1000 < horizon tv + 1 /\ exists k, N = (1000 * k)%nat.
Proof.
  intros Hne H. unfold qp_points. rewrite last_time_ok by exact Hne. cbn [bind]. eexists; split; [reflexivity|].
  destruct (Int_part_bounds (horizon tv)) as [A B]. pose proof (Int_part_le (horizon tv) 0 H) as P. set (k := Int_part (horizon tv)) in *.
  destruct (Rlt_dec (/ 1000) (horizon tv - IZR k)) as [L|L].
  - split; [|exists (Z.to_nat (k + 1)); lia]. rewrite INR_IZR_INZ, Z2Nat.id by lia. rewrite mult_IZR, plus_IZR. lra.
  - split; [|exists (Z.to_nat k); lia]. rewrite INR_IZR_INZ, Z2Nat.id by lia. rewrite mult_IZR. lra.
Qed.

(** ** Rows *)
Lemma mapM_ok {A B} (f : A -> res B) (g : A -> B) l : (forall x, In x l -> f x = Ok (g x)) -> mapM f l = Ok (map g l).
Proof. induction l as [|x l IH]; intros H; [reflexivity|]. cbn [mapM map]. rewrite H by now left. cbn [bind]. rewrite IH by (intros; apply H; now right). reflexivity. Qed.
Lemma nth_map_seq {A} (g : nat -> A) n i d : (i < n)%nat -> nth i (map g (seq 0 n)) d = g i.
Proof. intros H. rewrite nth_indep with (d' := g 0%nat) by (rewrite map_length, seq_length; lia). rewrite map_nth, seq_nth by lia. reflexivity. Qed.

(** The value of a curve at each time. *)
Lemma curve_fun tv s state : tv <> [] -> increasing tv -> (forall i, (i < length tv)%nat -> state i = Ok (s i)) -> same_size (length tv) s ->
  exists g, forall t, eval_at state tv t = Ok (g t) /\ on_curve tv s t (g t).
Proof.
  intros H1 H2 H3 H4. exists (fun t => match eval_at state tv t with Ok v => v | _ => [] end). intros t. destruct (eval_ok tv s state t H1 H2 H3 H4) as (v & E & C). rewrite E. split; [reflexivity|exact C].
Qed.
Lemma curve_length tv s t v c : tv <> [] -> increasing tv -> (forall i, (i < length tv)%nat -> length (s i) = c) -> on_curve tv s t v -> length v = c.
Proof.
  intros H1 H2 H3 C. assert (Hn : (0 < length tv)%nat) by (destruct tv; [congruence|cbn; lia]). destruct (locate tv t H1 H2) as [D|[D|(i & Hi & D)]].
  - rewrite (oc_before _ _ _ _ C D). apply H3. lia.
  - rewrite (oc_after _ _ _ _ C D). apply H3. lia.
  - rewrite (oc_between _ _ _ _ C i Hi D). rewrite between_length by (rewrite !H3 by lia; reflexivity). apply H3. lia.
Qed.
Lemma dump_rows_ok N scale f g : (0 < N)%nat -> (forall t, f t = Ok (g t)) -> dump_rows N scale f = Ok (map (fun i => INR i :: map (Rmult scale) (g (ms i))) (seq 0 N)).
Proof. intros HN Hf. unfold dump_rows. destruct N; [lia|]. apply mapM_ok. intros i _. rewrite Hf. reflexivity. Qed.

(** ** fill *)
Lemma foldM_seq {S} (f : S -> nat -> res S) (P : nat -> S -> Prop) n : forall k s, P k s -> (forall i a, (k <= i < k + n)%nat -> P i a -> exists b, f a i = Ok b /\ P (Datatypes.S i) b) -> exists b, foldM f (seq k n) s = Ok b /\ P (k + n)%nat b.
Proof.
  induction n as [|n IH]; intros k s H Hs; cbn [seq foldM]; [exists s; rewrite Nat.add_0_r; auto|].
  destruct (Hs k s ltac:(lia) H) as (b & E & Pb). rewrite E. cbn [bind]. destruct (IH (Datatypes.S k) b Pb) as (c & Ec & Pc).
  - intros i a Hi. apply Hs. lia.
  - exists c. split; [exact Ec|]. replace (k + Datatypes.S n)%nat with (Datatypes.S k + n)%nat by lia. exact Pc.
Qed.
Lemma set_nth_length {A} (l : list A) i v : length (set_nth l i v) = length l.
Proof. revert i. induction l; intros [|i]; cbn; auto. Qed.
Lemma nth_set_nth {A} (l : list A) i v j d : (i < length l)%nat -> nth j (set_nth l i v) d = if (j =? i)%nat then v else nth j l d.
Proof. revert i j. induction l as [|x l IH]; intros [|i] [|j] H; cbn in *; try lia; auto. rewrite IH by lia. reflexivity. Qed.
Lemma list_eq_nth (a b : array) : length a = length b -> (forall i, (i < length a)%nat -> nth i a [] = nth i b []) -> a = b.
Proof. intros H1 H2. apply (nth_ext a b [] [] H1). exact H2. Qed.
Lemma fill_ok put N c f g : put = set_row \/ put = set_rows_from -> (forall t, f t = Ok (g t)) -> (forall t, length (g t) = (c - 1)%nat) -> (0 < c)%nat ->
  fill put N c f = Ok (map (fun i => INR i :: g (ms i)) (seq 0 N)).
Proof.
  intros Hput Hf Hl Hc. unfold fill.
  destruct (foldM_seq (fun a i => bind (f (ms i)) (fun v => put c a i (INR i :: v))) (fun k a => length a = N /\ forall j, (j < k)%nat -> (j < N)%nat -> nth j a [] = INR j :: g (ms j)) N 0 (zeros N c)) as (b & E & Pb).
  - split; [apply repeat_length|]. intros; lia.
  - intros i a Hi [La Pa]. rewrite Hf. cbn [bind]. destruct Hput as [->| ->]; unfold set_row, set_rows_from; rewrite (proj2 (Nat.eqb_eq _ _)) by (cbn [length]; rewrite Hl; lia); (eexists; split; [reflexivity|]).
    + split; [rewrite set_nth_length; exact La|]. intros j Hj HN. rewrite nth_set_nth by lia. destruct (Nat.eqb_spec j i) as [->|]; [reflexivity|]. apply Pa; lia.
    + split; [rewrite app_length, firstn_length, repeat_length; lia|]. intros j Hj HN. destruct (Nat.eq_dec j i) as [->|].
      * rewrite app_nth2 by (rewrite firstn_length; lia). rewrite firstn_length. rewrite Nat.min_l by lia. rewrite Nat.sub_diag. destruct (length a - i)%nat eqn:D; [lia|]. reflexivity.
      * rewrite app_nth1 by (rewrite firstn_length; lia). rewrite <- (Pa j ltac:(lia) HN). clear - n Hj. revert a i Hj n. induction j as [|j IH]; intros [|x a] [|i] Hj n; cbn; try lia; auto. apply IH; lia.
  - rewrite E. destruct Pb as [Lb Pb]. cbn [Nat.add] in Pb. f_equal. apply list_eq_nth; [rewrite map_length, seq_length; exact Lb|]. intros i Hi. rewrite nth_map_seq by lia. apply Pb; lia.
Qed.
Lemma set_nth_file fs n a m : contents (savetxt n a fs) m = if string_dec n m then Some a else contents fs m. Proof. reflexivity. Qed.

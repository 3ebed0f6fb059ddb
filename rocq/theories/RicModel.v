(** * Model of the LQR gain scripts
    Source: momentumopt/python/momentumopt/kinoptpy/lqr_gain_computation.py (centroidal_lqr, "c:" below) and
    momentumopt/python/momentumopt/kinoptpy/end_eff_lqr_gain_computation.py (end_effector_lqr, "e:" below).
    Reals are exact.  Matrices are functions of their indices of which only the entries inside the dimensions are used (as in LqrModel).
    numpy.linalg.inv is the parameter [inv]: None is LinAlgError.  [Throw] is a raised exception.
    Simplified: entries that numpy holds as 1x1 matrices are read as numbers.  Not modelled: printing, the text files. *)
From Coq Require Import Reals List Arith Bool.
Import ListNotations.
From Verif Require Import Base IpModel LqrModel MkoModel.
Local Open Scope R_scope.

(** A matrix given by its rows. *)
Definition rows_mat (l : list (list R)) : mat := fun i j => nth j (nth i l []) 0.
(** The block M with its upper left corner at (r, c) of a matrix that is zero elsewhere. *)
Definition block (r c nr nc : nat) (M : mat) : mat := fun i j => if ((r <=? i) && (i <? r + nr) && (c <=? j) && (j <? c + nc))%nat%bool then M (i - r)%nat (j - c)%nat else 0.

(** The loaded trajectories; the index column is already removed. *)
Record ldata := LD { l_pos : list (list R); l_vel : list (list R); l_ori : list (list R); l_ang : list (list R); l_input : list (list R); l_feet : list (list R) }.
Definition mass : R := 217 / 100.
Definition dt : R := / 1000.
Definition delta : R := / 1000000.
Definition inertia : mat := rows_mat [[578574 / 100000000; 0; 0]; [0; 1938108 / 100000000; 0]; [0; 0; 2476124 / 100000000]].
(** x_t and u_t: c: l.81-82 and l.125; e: l.92-93 *)
Definition state_at (d : ldata) (t : nat) : res vec :=
  bind (pyget (l_pos d) t) (fun p => bind (pyget (l_vel d) t) (fun v => bind (pyget (l_ori d) t) (fun q => bind (pyget (l_ang d) t) (fun w => Ok (fun i => nth i (p ++ v ++ q ++ w) 0))))).
Definition input_at (d : ldata) (t : nat) : res vec := bind (pyget (l_input d) t) (fun u => Ok (fun i => nth i u 0)).

Section Ric.
Variable inv : nat -> mat -> option mat.
Definition need_inv (n : nat) (M : mat) : res mat := match inv n M with Some N => Ok N | None => Throw end.

(** ** compute_lqr_gains, c: l.170-181, e: l.142-153 (with n states and m inputs) *)
Definition compute_lqr_gains (n m : nat) (Q R_ A B P : mat) : res (mat * mat) :=
  bind (need_inv m (mplus R_ (mm n (mm n (tr B) P) B))) (fun S =>
  let K := mscal (-1) (mm n (mm n (mm m S (tr B)) P) A) in
  let F := mplus A (mm m B K) in
  Ok (K, mplus (mplus Q (mm m (mm m (tr K) R_) K)) (mm n (mm n (tr F) P) F))).
(** ** descretise_dynamics, c: l.158-166, e: l.130-138 *)
Definition descretise (A B : mat) : mat * mat := (mplus (mscal dt A) ident, mscal dt B).
(** ** lqr_backward_pass, c: l.184-204, e: l.156-175, with the loop over the given times; the gains in the order of time (insert(0, K), or append and flip). *)
Definition backward_loop (n m : nat) (Q R_ : mat) (lin : nat -> res (mat * mat)) (times : list nat) : res (list mat * mat) :=
  foldM (fun s t => let '(Ks, P) := s in
    bind (lin t) (fun AB => let '(A, B) := descretise (fst AB) (snd AB) in
    bind (compute_lqr_gains n m Q R_ A B P) (fun KP => Ok (fst KP :: Ks, snd KP)))) times ([], fun _ _ => 0).
(** range(horizon-2, 0, -1) and range(horizon-2, -1, -1) *)
Definition times_centroidal (h : nat) : list nat := rev (seq 1 (h - 2)).
Definition times_endeff (h : nat) : list nat := rev (seq 0 (h - 1)).

(** ** Dynamics *)
(** omega, c: l.46-49, l.129-132; e: l.56-59 *)
Definition omega (x : vec) : mat := rows_mat
  [[0; x 12%nat; - x 11%nat; x 10%nat]; [- x 12%nat; 0; x 10%nat; x 11%nat]; [x 11%nat; - x 10%nat; 0; x 12%nat]; [- x 10%nat; - x 11%nat; - x 12%nat; 0]].
(** A_t, c: l.52-55, e: l.62-65 *)
Definition dyn_A (x : vec) : mat := mplus (block 0 3 3 3 ident) (block 6 6 4 4 (mscal (/ 2) (omega x))).
(** Rot.from_quat(q).as_dcm(), quaternions (x, y, z, w): scipy normalises, ValueError for zero. *)
Definition rotation (q : vec) : res mat :=
  let n2 := q 0%nat ^ 2 + q 1%nat ^ 2 + q 2%nat ^ 2 + q 3%nat ^ 2 in
  if Req_EM_T n2 0 then Throw else
  let x := q 0%nat in let y := q 1%nat in let z := q 2%nat in let w := q 3%nat in
  Ok (mscal (/ n2) (rows_mat [[x * x - y * y - z * z + w * w; 2 * (x * y - z * w); 2 * (x * z + y * w)];
    [2 * (x * y + z * w); - x * x + y * y - z * z + w * w; 2 * (y * z - x * w)]; [2 * (x * z - y * w); 2 * (y * z + x * w); - x * x - y * y + z * z + w * w]])).
Definition quat_of (x : vec) : vec := fun i => x (6 + i)%nat.
(** compute_dyn of the centroidal script, c: l.43-75 *)
Definition c_B (x : vec) : res mat :=
  bind (rotation (quat_of x)) (fun r => bind (need_inv 3 (mm 3 (mm 3 r inertia) (tr r))) (fun I => Ok (mplus (block 3 0 3 3 (mscal (1 / mass) ident)) (block 10 3 3 3 I)))).
Definition c_dyn (x u : vec) : res vec := bind (c_B x) (fun B => Ok (vplus (mv 13 (dyn_A x) x) (mv 6 B u))).
(** analytical_lin_dyn, c: l.123-155 *)
Definition pd_omega (x : vec) : mat := rows_mat
  [[x 9%nat; - x 8%nat; - x 7%nat]; [x 8%nat; x 9%nat; - x 6%nat]; [- x 7%nat; - x 6%nat; x 9%nat]; [- x 6%nat; - x 7%nat; - x 8%nat]].
Definition lin_A (x : vec) : mat := mplus (mplus (block 0 3 3 3 ident) (block 6 6 4 4 (mscal (/ 2) (omega x)))) (block 6 10 4 3 (mscal (/ 2) (pd_omega x))).
Definition lin_B : res mat := bind (need_inv 3 inertia) (fun I => Ok (mplus (block 3 0 3 3 (mscal (1 / mass) ident)) (block 10 3 3 3 I))).
Definition analytical_lin_dyn (d : ldata) (t : nat) : res (mat * mat) := bind (state_at d t) (fun x => bind lin_B (fun B => Ok (lin_A x, B))).

(** compute_r_cross, e: l.43-49 *)
Definition r_cross (p c : vec) : mat := rows_mat
  [[0; - (p 2%nat - c 2%nat); p 1%nat - c 1%nat]; [p 2%nat - c 2%nat; 0; - (p 0%nat - c 0%nat)]; [- (p 1%nat - c 1%nat); - (p 0%nat - c 0%nat); 0]].
(** compute_dyn of the end-effector script, e: l.52-86; R^T I R is used here, R I R^T in the centroidal script *)
Definition e_B (d : ldata) (t : nat) (x : vec) : res mat :=
  bind (rotation (quat_of x)) (fun r => bind (need_inv 3 (mm 3 (mm 3 (tr r) inertia) r)) (fun I =>
  bind (pyget (l_feet d) t) (fun fl => bind (pyget (l_pos d) t) (fun cl =>
  let foot e := r_cross (fun i => nth (3 * e + i) fl 0) (fun i => nth i cl 0) in
  Ok (fun i j => rsum 4 (fun e => mplus (block 3 (3 * e) 3 3 (mscal (1 / mass) ident)) (block 10 (3 * e) 3 3 (mm 3 I (foot e))) i j)))))).
Definition e_dyn (d : ldata) (t : nat) (x u : vec) : res vec := bind (e_B d t x) (fun B => Ok (vplus (mv 13 (dyn_A x) x) (mv 12 B u))).
(** The finite differences, e: l.88-128: entry [i] is replaced by its value at the next time, or moved by delta if that is the same. *)
Definition moved (x x1 : vec) (i : nat) : R := if Req_EM_T (x1 i - x i) 0 then delta else x1 i - x i.
Definition bump (x : vec) (i : nat) (h : R) : vec := upd x i (x i + h).
Fixpoint columns_of (n : nat) (col : nat -> res vec) : res mat :=
  match n with O => Ok (fun _ _ => 0) | S k => bind (columns_of k col) (fun M => bind (col k) (fun v => Ok (fun i j => if (j =? k)%nat then v i else M i j))) end.
Definition quotient (f : vec -> res vec) (f0 x x1 : vec) (i : nat) : res vec := bind (f (bump x i (moved x x1 i))) (fun fp => Ok (fun r => (fp r - f0 r) / moved x x1 i)).
Definition compute_lin_dyn (d : ldata) (t : nat) : res (mat * mat) :=
  bind (state_at d t) (fun x => bind (input_at d t) (fun u => bind (e_dyn d t x u) (fun f0 =>
  bind (state_at d (t + 1)) (fun x1 => bind (input_at d (t + 1)) (fun u1 =>
  bind (columns_of 13 (quotient (fun y => e_dyn d t y u) f0 x x1)) (fun A =>
  bind (if Rlt_dec (sqrt (vdot 12 u1 u1)) (/ 1000) then Ok (fun _ _ => 0) else columns_of 12 (quotient (fun v => e_dyn d t x v) f0 u u1)) (fun B => Ok (A, B)))))))).

(** ** lqr_backward_pass of the two scripts *)
Definition c_backward_pass (d : ldata) (Q R_ : mat) : res (list mat) := bind (backward_loop 13 6 Q R_ (analytical_lin_dyn d) (times_centroidal (length (l_pos d)))) (fun s => Ok (fst s)).
Definition e_backward_pass (d : ldata) (Q R_ : mat) : res (list mat) := bind (backward_loop 13 12 Q R_ (compute_lin_dyn d) (times_endeff (length (l_pos d)))) (fun s => Ok (fst s)).
(** The weights of the centroidal script, c: l.219-241: Q is replaced by zeros before it is used. *)
Definition script_Q : mat := fun _ _ => 0.
Definition script_R : mat := fun i j => if (i =? j)%nat then if ((i =? 0) || (i =? 2))%nat%bool then / 10 else 10 else 0.
End Ric.

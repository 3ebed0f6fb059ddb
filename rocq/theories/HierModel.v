(** * Model of the hierarchical solver, seen from the user's thread
    Source: solver/include/solver/rt_optimizer/{RtHQPSolver.h,RtHQPSolver.hpp}.  By C27 the null-space computation posted by a task is finished when
    the task returns, so here it is done at the end of the task.  Exact reals; the singular value decomposition and the quadratic program solver are
    parameters (oracles).  Not modelled: time measurements, prev_K_ (never read), the assertion on checkSolution. *)
From Coq Require Import Reals List Arith Bool.
Import ListNotations.
From Verif Require Import Base RtMatModel.
Local Open Scope R_scope.

Section Hier.
(** computeNullspaceMap on the SVD of its argument, RtMatrix.hpp l.276-306. *)
Variable nullmap : mat -> mat.
(** The quadratic program min x'Hx + 2g'x with A x + a <= 0; [None] when isOptimized() is false afterwards (or optimize() threw, l.213-214). *)
Variable qp : mat -> vec -> mat -> vec -> option vec.
(** -E'(EE')^-1 e of l.242 *)
Variable least_norm : mat -> vec -> vec.
(** inequality_relaxation_, diag_addition_for_psd_hessian_, All_A_Rows, Max_B_Rows. *)
Variable relax diag : R.
Variable capA capB : nat.

Record hst := mkH { h_x : vec; h_z : vec; h_w : vec; h_K : mat; h_N : mat; h_B : mat; h_A : mat; h_a : vec }.
Record task := mkT { t_E : mat; t_e : vec; t_C : mat; t_c : vec; t_slack : bool (* applyIneqSlacks() *) }.

(** reset l.95-111 *)
Definition h_reset (n : nat) : hst := mkH (v_zero n) (v_zero 0) (v_zero 0) (m_id n) (m_id n) (m_empty n) (m_empty n) (v_zero 0).

(** l.139-152: ahat_ += Ahat_ zopt_, clip at -relax, then add the last slacks to the bottom rows. *)
Definition clip (v : R) : R := if Rle_dec (- relax) v then - relax else v.
Definition upd_ahat (s : hst) : res vec :=
  if (vn (h_a s) =? 0)%nat then Ok (h_a s)
  else guard (nc (h_A s) =? vn (h_z s))%nat
         (bind (m_vec (h_A s) (h_z s)) (fun Az => bind (v_add (h_a s) Az) (fun a1 =>
          let a2 := Vec (vn a1) (fun i => clip (va a1 i)) in
          if (vn (h_w s) =? 0)%nat then Ok a2
          else guard (vn (h_w s) <=? vn a2)%nat
                 (Ok (Vec (vn a2) (fun i => if (i <? vn a2 - vn (h_w s))%nat then va a2 i else va a2 i + va (h_w s) (i - (vn a2 - vn (h_w s)))%nat)))))).
(** [m] *= K_ when the dimensions agree (l.127, l.163). *)
Definition timesK (m K : mat) : res mat := if (nc m =? nr K)%nat then m_mul m K else Ok m.

(** The cost matrices of l.171-194: B'B in the top left corner, the identity in the slack block, [diag] added on the diagonal. *)
Definition cost_H (dz dw : nat) (B : option mat) (slack : bool) : mat :=
  Mat (dz + dw) (dz + dw) (fun i j =>
    (match B with Some b => if ((i <? dz) && (j <? dz))%nat then rsum (nr b) (fun k => ma b k i * ma b k j) else 0 | None => 0 end)
    + (if ((dz <=? i) && (dz <=? j) && (i =? j))%nat then (if slack then 1 else 0) else 0) + (if (i =? j)%nat then diag else 0)).
Definition cost_g (dz dw : nat) (B : option (mat * vec)) : vec :=
  Vec (dz + dw) (fun i => match B with Some (b, r) => if (i <? dz)%nat then rsum (nr b) (fun k => ma b k i * va r k) else 0 | None => 0 end).
(** The constraint matrix of l.200-204: [Ahat | 0 ; . | I] with the identity in the bottom right corner. *)
Definition con_A (A : mat) (dz dw : nat) : mat :=
  Mat (nr A) (dz + dw) (fun i j => if (j <? dz)%nat then ma A i j else if ((nr A - dw <=? i) && (i - (nr A - dw) =? j - dz))%nat then 1 else 0).

(** solveNextTask l.115-255 *)
Definition h_task (s : hst) (t : task) : res (hst * bool) :=
  let n := vn (h_x s) in
  guard ((nr (t_E t) <=? capB) && ((nr (t_E t) =? 0) || (nc (t_E t) =? n)) && ((nr (t_C t) =? 0) || (nc (t_C t) =? n)) && (nr (h_A s) + nr (t_C t) <=? capA))%nat
  (if ((nr (t_E t) =? 0) && (nr (t_C t) =? 0))%nat then Ok (s, true)                                              (* l.117 *)
   else if ((nc (h_K s) =? 0) && (nr (t_C t) =? 0))%nat then Ok (s, true)                                         (* l.124 *)
   else
   bind (timesK (h_N s) (h_K s)) (fun N =>                                                                          (* l.127 *)
   let dz := nc N in let dw := nr (t_C t) in
   bind (upd_ahat s) (fun a1 =>                                                                                     (* l.136-149 *)
   bind (if (dw =? 0)%nat then Ok a1 else bind (m_vec (t_C t) (h_x s)) (fun Cx => bind (v_add Cx (t_c t)) (fun r => v_append capA a1 r))) (fun a2 =>   (* l.156 *)
   bind (timesK (h_A s) (h_K s)) (fun A1 =>                                                                         (* l.159 *)
   bind (if (dw =? 0)%nat then Ok A1 else bind (m_mul (t_C t) N) (fun CN => m_append capA A1 CN)) (fun A2 =>      (* l.162 *)
   bind (if (nr (t_E t) =? 0)%nat then Ok (h_B s, None)
         else bind (m_mul (t_E t) N) (fun B => bind (m_vec (t_E t) (h_x s)) (fun Ex => bind (v_add (t_e t) Ex) (fun r => Ok (B, Some (B, r)))))) (fun Br =>   (* l.171-178 *)
   let B := fst Br in let res_ := snd Br in
   guard (if (nr A2 =? 0)%nat then true else ((nr A2 =? vn a2) && (nc A2 =? dz)))%nat (
   let sol := if t_slack t then qp (cost_H dz dw (option_map fst res_) true) (cost_g dz dw res_) (con_A A2 dz dw) a2 else None in
   let K := if (nr B =? 0)%nat then h_K s else nullmap B in                                                        (* the SVD thread, l.63-67 *)
   let z := if t_slack t then match sol with Some v => Vec dz (va v) | None => v_zero dz end else least_norm (t_E t) (t_e t) in   (* l.242-246 *)
   bind (m_vec N z) (fun Nz => bind (v_add (h_x s) Nz) (fun x =>                                                   (* l.247 *)
   let w := if (dw =? 0)%nat then h_w s else match sol with Some v => Vec dw (fun i => va v (dz + i)%nat) | None => v_zero dw end in   (* l.248-255 *)
   Ok (mkH x z w K N B A2 a2, match sol with Some _ => true | None => negb (t_slack t) end))))))))))).
Definition h_run (ts : list task) (s : hst) : res hst := foldM (fun s t => bind (h_task s t) (fun r => Ok (fst r))) ts s.
End Hier.

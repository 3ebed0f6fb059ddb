(** * Model of the dual active set QP solver
    Source: solver/include/solver/rt_optimizer/RtQPSolver.hpp.  Reals are exact.  Matrices and vectors are functions of the indices;
    an access outside the allocated storage that the code can reach is the outcome [Bad].  +infinity is [None]. *)
From Coq Require Import Reals List Arith ZArith Bool.
Import ListNotations.
From Verif Require Import Base.
Local Open Scope R_scope.

Definition qmat := nat -> nat -> R.
Definition qvec := nat -> R.
(** std::numeric_limits<double>::epsilon() *)
Definition eps : R := / 2 ^ 52.
Definition rltb (a b : R) : bool := if Rlt_dec a b then true else false.
Definition rleb (a b : R) : bool := if Rle_dec a b then true else false.
Definition reqb (a b : R) : bool := if Req_EM_T a b then true else false.

(** The problem: objectiveQuadPart, objectiveLinPart, equality and inequality rows (RtQPSolver.hpp l.32-35, RtQPSolverInterface.hpp). *)
Record qp := QP { q_n : nat; q_me : nat; q_mi : nat; q_H : qmat; q_g : qvec; q_CE : qmat; q_ce0 : qvec; q_CI : qmat; q_ci0 : qvec }.

Definition dotn (n : nat) (a b : qvec) : R := rsum n (fun i => a i * b i).

(** distance, l.66-81 *)
Definition distance (a b : R) : R :=
  let a1 := Rabs a in let b1 := Rabs b in
  if rltb b1 a1 then let t := b1 / a1 in a1 * sqrt (1 + t * t)
  else if rltb a1 b1 then let t := a1 / b1 in b1 * sqrt (1 + t * t)
  else a1 * sqrt 2.
(** The rotation of a pair of entries, l.134-140, l.205-208, l.211-214. *)
Definition rot1 (cc ss t1 t2 : R) : R := t1 * cc + t2 * ss.
Definition rot2 (cc ss t1 t2 : R) : R := let xny := ss / (1 + cc) in xny * (t1 + rot1 cc ss t1 t2) - t2.
(** Normalised coefficients and the new leading entry, l.123-132, l.194-201: (cc, ss, entry). *)
Definition givens (a b h : R) : R * R * R :=
  let cc := a / h in let ss := b / h in
  if rltb cc 0 then (- cc, - ss, - h) else (cc, ss, h).

(** computeD l.84-86, updateZ l.88-91, updateR l.93-95 (back substitution, last unknown first). *)
Definition computeD (n : nat) (J : qmat) (np : qvec) : qvec := fun l => rsum n (fun k => J k l * np k).
Definition updateZ (n : nat) (J : qmat) (d : qvec) (iq : nat) : qvec := fun k => rsum (n - iq) (fun l => J k (iq + l)%nat * d (iq + l)%nat).
Fixpoint backsub (cnt iq : nat) (R : qmat) (d : qvec) : qvec :=
  match cnt with
  | O => fun _ => 0
  | S c => let r := backsub c iq R d in let i := (iq - S c)%nat in
           upd r i ((d i - rsum iq (fun k => if (i <? k)%nat then R i k * r k else 0)) / R i i)
  end.
Definition updateR (R : qmat) (d : qvec) (iq : nat) : qvec := backsub iq iq R d.

(** ** addConstraint, l.98-154 *)
(** One turn of the loop l.109-142 for the columns j-1 and j. *)
Definition add_step (j : nat) (J : qmat) (d : qvec) : qmat * qvec :=
  let cc := d (j - 1)%nat in let ss := d j in let h := distance cc ss in
  if reqb h 0 then (J, d)
  else let '(c, s, e) := givens cc ss h in
       let d' := upd (upd d j 0) (j - 1)%nat e in
       let J' := fun k l => if (l =? j - 1)%nat then rot1 c s (J k (j - 1)%nat) (J k j)
                            else if (l =? j)%nat then rot2 c s (J k (j - 1)%nat) (J k j) else J k l in
       (J', d').
(** for (j=n-1; j>=iq+1; j--): [cnt] turns, the first one with j = iq + cnt. *)
Fixpoint add_loop (cnt iq : nat) (J : qmat) (d : qvec) : qmat * qvec :=
  match cnt with
  | O => (J, d)
  | S c => let '(J', d') := add_step (iq + S c)%nat J d in add_loop c iq J' d'
  end.
Record addres := AddRes { a_R : qmat; a_J : qmat; a_d : qvec; a_Rn : R; a_ok : bool }.
(** [None]: column iq of R does not exist. iq is incremented by one in every other case. *)
Definition addConstraint (n : nat) (M J : qmat) (d : qvec) (iq : nat) (Rn : R) : option addres :=
  if (iq <? n)%nat then
    let '(J', d') := add_loop (n - 1 - iq) iq J d in
    let R' := fun i k => if ((k =? iq) && (i <=? iq))%nat then d' i else M i k in
    if rleb (Rabs (d' iq)) (eps * Rn) then Some (AddRes R' J' d' Rn false)
    else Some (AddRes R' J' d' (Rmax Rn (Rabs (d' iq))) true)
  else None.

(** ** deleteConstraint, l.156-217 *)
(** l.166-167 *)
Fixpoint find_active (A : nat -> Z) (l : Z) (i cnt : nat) : option nat :=
  match cnt with O => None | S c => if (A i =? l)%Z then Some i else find_active A l (S i) c end.
(** One turn of the loop l.189-216 for the rows j, j+1 of R and the columns j, j+1 of J. *)
Definition del_step (iq j : nat) (R J : qmat) : qmat * qmat :=
  let cc := R j j in let ss := R (S j) j in let h := distance cc ss in
  if reqb h 0 then (R, J)
  else let '(c, s, e) := givens cc ss h in
       let R' := fun i k =>
         if (k =? j)%nat then (if (i =? S j)%nat then 0 else if (i =? j)%nat then e else R i k)
         else if ((j + 1 <=? k) && (k <? iq))%nat then
           (if (i =? j)%nat then rot1 c s (R j k) (R (S j) k) else if (i =? S j)%nat then rot2 c s (R j k) (R (S j) k) else R i k)
         else R i k in
       let J' := fun k l => if (l =? j)%nat then rot1 c s (J k j) (J k (S j))
                            else if (l =? S j)%nat then rot2 c s (J k j) (J k (S j)) else J k l in
       (R', J').
Fixpoint del_loop (cnt iq j : nat) (R J : qmat) : qmat * qmat :=
  match cnt with
  | O => (R, J)
  | S c => let '(R', J') := del_step iq j R J in del_loop c iq (S j) R' J'
  end.
Record delres := DelRes { e_R : qmat; e_J : qmat; e_A : nat -> Z; e_u : qvec; e_iq : nat }.
(** l.170-184: the entries qq+1.. of A, u and the columns of R move down by one, then A(iq-1)=A(iq), u(iq-1)=u(iq), A(iq)=0, u(iq)=0. *)
Definition shift_down {T} (f : nat -> T) (qq last : nat) (z : T) : nat -> T :=
  fun i => if ((qq <=? i) && (i <? last - 1))%nat then f (S i) else if (i =? last - 1)%nat then f last else if (i =? last)%nat then z else f i.
(** [None]: iq = 0 (index -1) or A(iq) outside the vector of size [len]. *)
Definition deleteConstraint (len : nat) (R J : qmat) (A : nat -> Z) (u : qvec) (p iq : nat) (l : Z) : option delres :=
  if ((1 <=? iq) && (iq <? len))%nat then
    let qq := match find_active A l p (iq - p) with Some i => i | None => O end in
    let A' := shift_down A qq iq 0%Z in
    let u' := shift_down u qq iq 0 in
    let R1 := fun i k => if ((qq <=? k) && (k <? iq - 1))%nat then R i (S k) else if ((k =? iq - 1) && (i <? iq))%nat then 0 else R i k in
    let iq' := (iq - 1)%nat in
    let '(R2, J2) := del_loop (iq' - qq) iq' qq R1 J in
    Some (DelRes R2 J2 A' u' iq')
  else None.

(** ** solveQP, l.226-509 *)
(** Local variables that live across the labels. *)
Record qst := QS { x : qvec; u : qvec; A : nat -> Z; iai : nat -> Z; iaexcl : nat -> bool; s : qvec; ss : R; ip : nat; np : qvec;
                   mR : qmat; mJ : qmat; Rn : R; fv : R; iq : nat; u_old : qvec; A_old : nat -> Z; x_old : qvec }.
(** Which return statement ended the call: l.342 equality constraints declared dependent (an assertion guards it in debug builds; this is
    the build with assertions compiled out), l.375 infeasibility below the tolerance, l.395 no violated constraint left, l.452 infeasible. *)
Inductive exit := ExitDependent | ExitTolerance | ExitFeasible | ExitInfeasible.
Inductive label := L1 | L2 | L2a.
(** The flag [obs] is only an observation, no computation depends on it: it is true when the rollback branch l.480-492 was entered, when
    the test l.436 took a direction z different from zero for zero, or when the same test l.321 skipped the step that makes an equality hold. *)
Inductive outc := Bad (obs : bool) | Return (obs : bool) (e : exit) (q : qst) | Next (obs : bool) (pc : label) (q : qst).

Definition trace (n : nat) (M : qmat) : R := rsum n (fun i => M i i).
Definition row (M : qmat) (i : nat) : qvec := M i.
Definition vopp (v : qvec) : qvec := fun i => - v i.
Definition axpy (t : R) (z x : qvec) : qvec := fun i => x i + t * z i.
(** u.head(iq) -= t * r.head(iq) *)
Definition head_sub (iq : nat) (t : R) (r u : qvec) : qvec := fun i => if (i <? iq)%nat then u i - t * r i else u i.

(** Preprocessing, l.262-305.  [J0] is L^-T computed by Eigen's LLT; the unconstrained minimiser is computed from the same factor;
    u, A, iai, s, ... start with the unspecified contents of [q0]. *)
Definition start (P : qp) (J0 : qmat) (q0 : qst) : qst :=
  let n := q_n P in
  let x0 := fun i => - rsum n (fun k => J0 i k * computeD n J0 (q_g P) k) in
  QS x0 (u q0) (A q0) (iai q0) (iaexcl q0) (s q0) (ss q0) (ip q0) (np q0) (fun _ _ => 0) J0 1
     (/ 2 * dotn n (q_g P) x0) O (u_old q0) (A_old q0) (x_old q0).

(** One equality constraint, l.311-343. *)
Definition eq_step (P : qp) (i : nat) (q : qst) : outc :=
  let n := q_n P in let npv := row (q_CE P) i in
  let d := computeD n (mJ q) npv in let z := updateZ n (mJ q) d (iq q) in let r := updateR (mR q) d (iq q) in
  let t2 := if rltb eps (Rabs (dotn n z z)) then (- dotn n npv (x q) - q_ce0 P i) / dotn n z npv else 0 in
  let x' := axpy t2 z (x q) in
  let u' := head_sub (iq q) t2 r (upd (u q) (iq q) t2) in
  let f' := fv q + / 2 * (t2 * t2) * dotn n z npv in
  let A' := upd (A q) i (- Z.of_nat i - 1)%Z in
  let skipped := negb (rltb eps (Rabs (dotn n z z))) && negb (reqb (dotn n npv (x q) + q_ce0 P i) 0) in
  match addConstraint n (mR q) (mJ q) d (iq q) (Rn q) with
  | None => Bad skipped
  | Some a => let q' := QS x' u' A' (iai q) (iaexcl q) (s q) (ss q) (ip q) npv (a_R a) (a_J a) (a_Rn a) f' (iq q + 1)%nat (u_old q) (A_old q) (x_old q) in
              if a_ok a then Next skipped L1 q' else Return skipped ExitDependent q'
  end.
Fixpoint eq_phase (P : qp) (cnt i : nat) (obs : bool) (q : qst) : outc :=
  match cnt with
  | O => Next obs L1 (QS (x q) (u q) (A q) (fun k => if (k <? q_mi P)%nat then Z.of_nat k else iai q k) (iaexcl q) (s q) (ss q) (ip q) (np q)
                           (mR q) (mJ q) (Rn q) (fv q) (iq q) (u_old q) (A_old q) (x_old q))
  | S c => match eq_step P i q with
           | Next o _ q' => eq_phase P c (S i) (obs || o) q'
           | Return o e q' => Return (obs || o) e q'
           | Bad o => Bad (obs || o)
           end
  end.

(** l.353-357: iai(A(i)) = -1 for the active constraints of index first.., [None] outside iai. *)
Fixpoint mark_active (len : nat) (A : nat -> Z) (first cnt : nat) (iai : nat -> Z) : option (nat -> Z) :=
  match cnt with
  | O => Some iai
  | S c => if ((0 <=? A first) && (A first <? Z.of_nat len))%Z then mark_active len A (S first) c (upd iai (Z.to_nat (A first)) (-1)%Z) else None
  end.
(** s(i), l.367 *)
Definition slack (P : qp) (xv : qvec) (i : nat) : R := - (dotn (q_n P) (row (q_CI P) i) xv + q_ci0 P i).
(** Label l1, l.350-381. [J0] is only used for the constant c2. *)
Definition step_l1 (P : qp) (J0 : qmat) (q : qst) : outc :=
  match mark_active (q_me P + q_mi P) (A q) (q_me P) (iq q - q_me P) (iai q) with
  | None => Bad false
  | Some iai' =>
    let sv := fun i => if (i <? q_mi P)%nat then slack P (x q) i else s q i in
    let psi := rsum (q_mi P) (fun i => Rmin 0 (sv i)) in
    let c1 := trace (q_n P) (q_H P) in let c2 := trace (q_n P) J0 in
    let excl := fun i => if (i <? q_mi P)%nat then true else iaexcl q i in
    if rleb (Rabs psi) (INR (q_mi P) * eps * c1 * c2 * 100)
    then Return false ExitTolerance (QS (x q) (u q) (A q) iai' excl sv 0 O (np q) (mR q) (mJ q) (Rn q) (fv q) (iq q) (u_old q) (A_old q) (x_old q))
    else let hd {T} (a b : nat -> T) := fun i => if (i <? iq q)%nat then a i else b i in
         Next false L2 (QS (x q) (u q) (A q) iai' excl sv 0 O (np q) (mR q) (mJ q) (Rn q) (fv q) (iq q) (hd (u q) (u_old q)) (hd (A q) (A_old q)) (x q))
  end.
(** Label l2, l.383-405: the most violated candidate; ss is not reset here. *)
Fixpoint pick (cnt i : nat) (sv : qvec) (iai : nat -> Z) (excl : nat -> bool) (best : R) (ip : nat) : R * nat :=
  match cnt with
  | O => (best, ip)
  | S c => if rltb (sv i) best && negb (iai i =? -1)%Z && excl i then pick c (S i) sv iai excl (sv i) i else pick c (S i) sv iai excl best ip
  end.
Definition step_l2 (P : qp) (q : qst) : outc :=
  let '(ss', ip') := pick (q_mi P) 0 (s q) (iai q) (iaexcl q) (ss q) (ip q) in
  if rleb 0 ss' then Return false ExitFeasible (QS (x q) (u q) (A q) (iai q) (iaexcl q) (s q) ss' ip' (np q) (mR q) (mJ q) (Rn q) (fv q) (iq q) (u_old q) (A_old q) (x_old q))
  else if (iq q <? q_me P + q_mi P)%nat then
    Next false L2a (QS (x q) (upd (u q) (iq q) 0) (upd (A q) (iq q) (Z.of_nat ip')) (iai q) (iaexcl q) (s q) ss' ip' (vopp (row (q_CI P) ip'))
                       (mR q) (mJ q) (Rn q) (fv q) (iq q) (u_old q) (A_old q) (x_old q))
  else Bad false.
(** Partial step length, l.424-434: (t1, l), [None] is infinity. *)
Fixpoint ratio (cnt k : nat) (r u : qvec) (A : nat -> Z) (t1 : option R) (l : Z) : option R * Z :=
  match cnt with
  | O => (t1, l)
  | S c => if rltb 0 (r k) && match t1 with None => true | Some t => rltb (u k / r k) t end
           then ratio c (S k) r u A (Some (u k / r k)) (A k) else ratio c (S k) r u A t1 l
  end.
(** The restoring loop l.486-491: A(i) = A_old(i), iai(A(i)) = -1 for all i < iq; [None]: the index A(i) is outside iai. *)
Definition rollback_iai (len mi : nat) (A_old : nat -> Z) (iq : nat) (iai : nat -> Z) : option (nat -> Z) :=
  mark_active len A_old 0 iq (fun i => if (i <? mi)%nat then Z.of_nat i else iai i).
(** Label l2a, l.407-507. *)
Definition step_l2a (P : qp) (q : qst) : outc :=
  let n := q_n P in let len := (q_me P + q_mi P)%nat in
  let d := computeD n (mJ q) (np q) in
  let z := if (n <=? iq q)%nat then (fun _ => 0) else updateZ n (mJ q) d (iq q) in
  let r := updateR (mR q) d (iq q) in
  let '(t1, l) := ratio (iq q - q_me P) (q_me P) r (u q) (A q) None 0%Z in
  let t2 := if rltb eps (Rabs (dotn n z z)) then Some (- s q (ip q) / dotn n z (np q)) else None in
  let tiny := negb (reqb (dotn n z z) 0) in
  match t1, t2 with
  | None, None => Return tiny ExitInfeasible q
  | Some t, None =>
    let u' := upd (head_sub (iq q) t r (u q)) (iq q) (u q (iq q) + t) in
    let iai' := upd (iai q) (Z.to_nat l) l in
    match deleteConstraint len (mR q) (mJ q) (A q) u' (q_me P) (iq q) l with
    | None => Bad false
    | Some e => Next tiny L2a (QS (x q) (e_u e) (e_A e) iai' (iaexcl q) (s q) (ss q) (ip q) (np q) (e_R e) (e_J e) (Rn q) (fv q) (e_iq e) (u_old q) (A_old q) (x_old q))
    end
  | _, Some t2v =>
    let t := match t1 with Some t1v => Rmin t1v t2v | None => t2v end in
    let x' := axpy t z (x q) in
    let f' := fv q + t * dotn n z (np q) * (/ 2 * t + u q (iq q)) in
    let u' := upd (head_sub (iq q) t r (u q)) (iq q) (u q (iq q) + t) in
    if reqb t t2v then
      match addConstraint n (mR q) (mJ q) d (iq q) (Rn q) with
      | None => Bad false
      | Some a =>
        if a_ok a then
          Next false L1 (QS x' u' (A q) (upd (iai q) (ip q) (-1)%Z) (iaexcl q) (s q) (ss q) (ip q) (np q) (a_R a) (a_J a) (a_Rn a) f' (iq q + 1)%nat (u_old q) (A_old q) (x_old q))
        else
          match deleteConstraint len (a_R a) (a_J a) (A q) u' (q_me P) (iq q + 1)%nat (Z.of_nat (ip q)) with
          | None => Bad true
          | Some e =>
            match rollback_iai len (q_mi P) (A_old q) (e_iq e) (iai q) with
            | None => Bad true
            | Some iai' =>
              Next true L2 (QS (x_old q) (fun i => if (i <? e_iq e)%nat then u_old q i else e_u e i) (fun i => if (i <? e_iq e)%nat then A_old q i else e_A e i)
                               iai' (upd (iaexcl q) (ip q) false) (s q) (ss q) (ip q) (np q) (e_R e) (e_J e) (a_Rn a) f' (e_iq e) (u_old q) (A_old q) (x_old q))
            end
          end
      end
    else
      let iai' := upd (iai q) (Z.to_nat l) l in
      match deleteConstraint len (mR q) (mJ q) (A q) u' (q_me P) (iq q) l with
      | None => Bad false
      | Some e => Next false L2a (QS x' (e_u e) (e_A e) iai' (iaexcl q) (upd (s q) (ip q) (slack P x' (ip q))) (ss q) (ip q) (np q) (e_R e) (e_J e) (Rn q) f' (e_iq e) (u_old q) (A_old q) (x_old q))
      end
  end.
Definition qstep (P : qp) (J0 : qmat) (pc : label) (q : qst) : outc :=
  match pc with L1 => step_l1 P J0 q | L2 => step_l2 P q | L2a => step_l2a P q end.

(** The goto program from a label: at most [fuel] jumps.  [obs] records whether one of the observed events happened so far. *)
Inductive final := Crash (obs : bool) | Done (e : exit) (q : qst) (obs : bool) | Running (obs : bool) (pc : label) (q : qst).
Fixpoint qrun (P : qp) (J0 : qmat) (fuel : nat) (obs : bool) (pc : label) (q : qst) : final :=
  match fuel with
  | O => Running obs pc q
  | S f => match qstep P J0 pc q with
           | Bad o => Crash (obs || o)
           | Return o e q' => Done e q' (obs || o)
           | Next o pc' q' => qrun P J0 f (obs || o) pc' q'
           end
  end.
Definition solveQP (P : qp) (J0 : qmat) (q0 : qst) (fuel : nat) : final :=
  match eq_phase P (q_me P) 0 false (start P J0 q0) with
  | Bad o => Crash o
  | Return o e q => Done e q o
  | Next o pc q => qrun P J0 fuel o pc q
  end.
(** The returned double: the objective value, or +infinity at l.452. *)
Definition ret_value (e : exit) (q : qst) : option R := match e with ExitInfeasible => None | _ => Some (fv q) end.
(** optimize() l.29-38 and isOptimized() l.39 as (value returned by optimize, solver_return_ afterwards); [sr] is solver_return_ before the call. *)
Definition optimize (P : qp) (J0 : qmat) (q0 : qst) (fuel : nat) (sr : option R) : option (bool * option R) :=
  if (q_n P =? 0)%nat then Some (true, sr)
  else match solveQP P J0 q0 fuel with
       | Done e q _ => let v := ret_value e q in Some (match v with Some _ => true | None => false end, v)
       | _ => None
       end.
Definition isOptimized (sr : option R) : bool := match sr with Some _ => true | None => false end.

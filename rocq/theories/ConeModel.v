(** * Model of the cone algebra used by the interior-point solver
    Source: solver/src/solver/interface/Cone.cpp, and lineSearch of solver/src/solver/optimizer/IPSolver.cpp.
    Vectors are functions of the index, reals for doubles.  A cone layout is (nl, q): nl linear rows followed by
    second-order blocks of sizes q, block l starting at nl + q_0 + ... + q_(l-1) (Cone.cpp l.60-74, setupSocone).
    Not modelled: the index bookkeeping fields (LP_id_, SOC_id_, opt_/ext_ starts), NaN and infinities. *)
From Coq Require Import Reals List Arith Bool.
Import ListNotations.
Open Scope R_scope.

(** Sum over the tail entries 1 .. n-1 of a block (Eigen tail(conesize-1).dot, squaredNorm and the j=1.. loops). *)
Definition tdot (n : nat) (u v : nat -> R) : R := fold_right Rplus 0 (map (fun j => u j * v j) (seq 1 (n - 1))).

(** Cone.cpp l.76-79 *)
Definition guard : R := 1 / 10 ^ 13.
Definition safeDivision (x y : R) : R := if Rlt_dec y guard then x / guard else x / y.

(** Cone.cpp l.81-92: conicResidual (one and two arguments) *)
Definition conicResidual (n : nat) (u : nat -> R) : R := u 0%nat * u 0%nat - tdot n u u.

(** The loop over second-order blocks: entry j of block l (start st, size n) of the output becomes [g l st n j]. *)
Fixpoint soc_loop (g : nat -> nat -> nat -> nat -> R) (l st : nat) (q : list nat) (w : nat -> R) : nat -> R :=
  match q with
  | [] => w
  | n :: q' => soc_loop g (S l) (st + n) q' (fun i => if (Nat.leb st i && Nat.ltb i (st + n))%bool then g l st n (i - st)%nat else w i)
  end.
Definition shift (u : nat -> R) (st : nat) : nat -> R := fun j => u (st + j)%nat.

(** Cone.cpp l.104-126: conicProduct; block part (w_0 = u.v, w_j = u_0 v_j + v_0 u_j) and whole vector. *)
Definition prod_blk (n : nat) (u v : nat -> R) (j : nat) : R :=
  match j with O => fold_right Rplus 0 (map (fun j => u j * v j) (seq 0 n)) | _ => u 0%nat * v j + v 0%nat * u j end.
Definition conicProduct (nl : nat) (q : list nat) (u v : nat -> R) : nat -> R :=
  soc_loop (fun _ st n => prod_blk n (shift u st) (shift v st)) 0 nl q (fun i => u i * v i).

(** Cone.cpp l.128-147: conicDivision *)
Definition div_blk (n : nat) (u w : nat -> R) (j : nat) : R :=
  let rho := conicResidual n u in
  let uwn := tdot n u w in
  let factor := safeDivision (safeDivision uwn (u 0%nat) - w 0%nat) rho in
  match j with
  | O => safeDivision (u 0%nat * w 0%nat - uwn) rho
  | _ => factor * u j + safeDivision (w j) (u 0%nat)
  end.
Definition conicDivision (nl : nat) (q : list nat) (u w : nat -> R) : nat -> R :=
  soc_loop (fun _ st n => div_blk n (shift u st) (shift w st)) 0 nl q (fun i => safeDivision (w i) (u i)).

(** Cone.cpp l.149-168: conicProjection *)
Definition lp_residual (nl : nat) (s : nat -> R) : R :=
  fold_left (fun m i => if Rlt_dec (s i) 0 then Rmax m (Rabs (s i)) else m) (seq 0 nl) 0.
Definition soc_residual (n : nat) (s : nat -> R) : R := Rmax (sqrt (tdot n s s) - s 0%nat) 0.
Fixpoint max_soc_residual (st : nat) (q : list nat) (s : nat -> R) (m : R) : R :=
  match q with
  | [] => m
  | n :: q' => max_soc_residual (st + n) q' s (let r := soc_residual n (shift s st) in if Rlt_dec m r then r else m)
  end.
(** The shift by a of all linear entries and block heads (l.163-166; also ConicVector operator+ l.357-366). *)
Definition add_identity (nl : nat) (q : list nat) (a : R) (s : nat -> R) : nat -> R :=
  soc_loop (fun _ st n j => match j with O => s st + a | _ => s (st + j)%nat end) 0 nl q (fun i => s i + a).
Definition conicProjection (nl : nat) (q : list nat) (s : nat -> R) : nat -> R :=
  add_identity nl q (max_soc_residual nl q s (lp_residual nl s) + 1) s.

(** NesterovToddScaling (Cone.hpp l.45-83): per block scaling point and coefficients. *)
Record ntsoc := mkNT { nt_wbar : nat -> R; nt_eta : R; nt_eta2 : R; nt_d1 : R; nt_u0 : R; nt_u1 : R; nt_v1 : R }.
(** LP_scaling_, LP_sq_scaling_ and soc_. *)
Record scaling := mkSc { sc_lp : nat -> R; sc_lp2 : nat -> R; sc_soc : list ntsoc }.

(** Cone.cpp l.294-300: the scaling point from the normalised variables. *)
Definition nt_point (n : nat) (sk zk : nat -> R) : nat -> R :=
  let normalizer := safeDivision (1/2) (sqrt (1/2 + 1/2 * (fold_right Rplus 0 (map (fun j => sk j * zk j) (seq 0 n))))) in
  fun i => match i with O => normalizer * (sk 0%nat + zk 0%nat) | _ => normalizer * (sk i - zk i) end.
(** Cone.cpp l.302-311: coefficients for the KKT matrix; [None] is the early return ConeStatus::Outside. *)
Definition nt_coeffs (n : nat) (eta2 : R) (wbar : nat -> R) : option ntsoc :=
  let w0 := wbar 0%nat in
  let wn := tdot n wbar wbar in
  let alpha := 1 + w0 + safeDivision wn (1 + w0) in
  let beta := 1 + safeDivision 2 (1 + w0) + safeDivision wn ((1 + w0) ^ 2) in
  let d1 := Rmax (1/2 * (w0 * w0 + wn * (1 - safeDivision (alpha * alpha) (1 + wn * beta)))) 0 in
  let u0 := sqrt (w0 * w0 + wn - d1) in
  let u1 := safeDivision alpha u0 in
  let v1 := u1 ^ 2 - beta in
  if Rle_dec v1 0 then None else
  Some (mkNT wbar (sqrt eta2) eta2 d1 u0 u1 (sqrt v1)).
(** Cone.cpp l.281-311: one block of updateNTScalings. *)
Definition nt_block (n : nat) (s z : nat -> R) : option ntsoc :=
  let sres := conicResidual n s in
  let zres := conicResidual n z in
  if Rle_dec sres 0 then None else if Rle_dec zres 0 then None else
  let sinv := safeDivision 1 (sqrt sres) in
  let zinv := safeDivision 1 (sqrt zres) in
  nt_coeffs n (safeDivision (sqrt sres) (sqrt zres)) (nt_point n (fun i => s i * sinv) (fun i => z i * zinv)).

Fixpoint nt_blocks (st : nat) (q : list nat) (s z : nat -> R) : option (list ntsoc) :=
  match q with
  | [] => Some []
  | n :: q' => match nt_block n (shift s st) (shift z st) with
               | None => None
               | Some b => match nt_blocks (st + n) q' s z with None => None | Some bs => Some (b :: bs) end
               end
  end.

(** Cone.cpp l.170-193: conicNTScaling *)
Definition scal_blk (b : ntsoc) (n : nat) (z : nat -> R) (j : nat) : R :=
  let w := nt_wbar b in
  let lzero := tdot n w z in
  let factor := z 0%nat + safeDivision lzero (1 + w 0%nat) in
  match j with
  | O => nt_eta b * (w 0%nat * z 0%nat + lzero)
  | _ => nt_eta b * (z j + factor * w j)
  end.
Definition nt_dummy : ntsoc := mkNT (fun _ => 0) 0 0 0 0 0 0.
Definition conicNTScaling (nl : nat) (q : list nat) (W : scaling) (z : nat -> R) : nat -> R :=
  soc_loop (fun l st n => scal_blk (nth l (sc_soc W) nt_dummy) n (shift z st)) 0 nl q (fun i => sc_lp W i * z i).

(** Cone.cpp l.268-317: updateNTScalings; [None] = Outside.  (On Outside the partly updated scalings are not returned:
    every caller abandons them, IPSolver.cpp l.357-365.) *)
Definition updateNTScalings (nl : nat) (q : list nat) (s z : nat -> R) : option (scaling * (nat -> R)) :=
  let lp2 := fun i => safeDivision (s i) (z i) in
  match nt_blocks nl q s z with
  | None => None
  | Some bs => let W := mkSc (fun i => sqrt (lp2 i)) lp2 bs in Some (W, conicNTScaling nl q W z)
  end.

(** Cone.cpp l.195-224: conicNTScaling2, the sparse (extended) squared scaling of one block of size n: adds
    eta^2 [D v u; v' 1 0; u' 0 -1] x to y, x and y having n+2 entries. *)
Definition scal2_blk (b : ntsoc) (n : nat) (x y : nat -> R) (j : nat) : R :=
  let w := nt_wbar b in
  let yaux1 := nt_v1 b * x n + nt_u1 b * x (S n) in
  let yaux2 := tdot n w x in
  if Nat.eqb j 0 then y 0%nat + nt_eta2 b * (nt_d1 b * x 0%nat + nt_u0 b * x (S n))
  else if Nat.ltb j n then y j + nt_eta2 b * (x j + yaux1 * w j)
  else if Nat.eqb j n then y n + nt_eta2 b * (nt_v1 b * yaux2 + x n)
  else y (S n) + nt_eta2 b * (nt_u0 b * x 0%nat + nt_u1 b * yaux2 - x (S n)).

(** ** Line search, IPSolver.cpp l.129-189 *)
(** l.140-147: smallest ratios of the linear part; entry 0 is read even when there is no linear row. *)
Definition lp_ratio (nl : nat) (d lam : nat -> R) : R :=
  fold_left (fun m i => if Rlt_dec (d i / lam i) m then d i / lam i else m) (seq 1 (nl - 1)) (d 0%nat / lam 0%nat).
Definition lp_alpha (big : R) (nl : nat) (ds dz lam : nat -> R) : R :=
  let m := Rmin (lp_ratio nl dz lam) (lp_ratio nl ds lam) in
  if Rlt_dec m 0 then -1 / m else big.
(** l.150-151; a zero denominator gives an infinity or NaN, whose comparison fails. *)
Definition pos_alpha (t dt alpha : R) : R :=
  if Req_EM_T dt 0 then alpha else
  if Rlt_dec 0 (- t / dt) then (if Rlt_dec (- t / dt) alpha then - t / dt else alpha) else alpha.
(** l.166-186: one block; rhok from lambda and a direction. *)
Definition rho_blk (n : nat) (lk dk : nat -> R) (j : nat) : R :=
  let res := conicResidual n lk in
  let lkbar := fun j => lk j / sqrt res in
  let cres := lkbar 0%nat * dk 0%nat - tdot n lkbar dk in
  let inv := 1 / sqrt res in
  let factor := (cres + dk 0%nat) / (lkbar 0%nat + 1) in
  match j with O => inv * cres | _ => inv * (dk j - factor * lkbar j) end.
Definition soc_alpha (n : nat) (lk dsk dzk : nat -> R) (alpha : R) : R :=
  if Rle_dec (conicResidual n lk) 0 then alpha else
  let rho := rho_blk n lk dsk in
  let sigma := rho_blk n lk dzk in
  let m := Rmax (Rmax (sqrt (tdot n rho rho) - rho 0%nat) (sqrt (tdot n sigma sigma) - sigma 0%nat)) 0 in
  if Rlt_dec 0 m then Rmin alpha (1 / m) else alpha.   (* 1/0 is +infinity: no effect *)
Fixpoint socs_alpha (st : nat) (q : list nat) (lam ds dz : nat -> R) (alpha : R) : R :=
  match q with
  | [] => alpha
  | n :: q' => socs_alpha (st + n) q' lam ds dz (soc_alpha n (shift lam st) (shift ds st) (shift dz st) alpha)
  end.
(** [big] = 1 / DynamicRegularizationThresh, [smax], [smin] = Maximum/MinimumStepLength. *)
Definition lineSearch (big smax smin : R) (nl : nat) (q : list nat) (lam ds dz : nat -> R) (tau dtau kappa dkappa : R) : R :=
  let a := lp_alpha big nl ds dz lam in
  let a := pos_alpha tau dtau a in
  let a := pos_alpha kappa dkappa a in
  let a := socs_alpha nl q lam ds dz a in
  Rmax (Rmin a smax) smin.

(** IPSolver.cpp l.411-415: the update of one interior-point iteration, given the scaled direction ds of s, dz, dtau and dkappa. *)
Record ipoint := mkIP { ip_s : nat -> R; ip_z : nat -> R; ip_tau : R; ip_kappa : R }.
Definition ip_update (nl : nat) (q : list nat) (W : scaling) (step : R) (p : ipoint) (ds dz : nat -> R) (dtau dkappa : R) : ipoint :=
  mkIP (fun i => ip_s p i + step * conicNTScaling nl q W ds i) (fun i => ip_z p i + step * dz i)
       (ip_tau p + step * dtau) (ip_kappa p + step * dkappa).

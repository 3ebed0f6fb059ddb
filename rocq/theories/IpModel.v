(** * Model of the interior-point loop
    Source: solver/src/solver/optimizer/IPSolver.cpp l.66-424 and OptimizationInfo in solver/src/solver/optimizer/CvxInfoPrinter.cpp l.18-60.
    Vectors are functions of the index, reals for doubles.  Matrices are given by their entries A r i, G r i (the sparse storage is in
    LinModel.v).  Not modelled: printing, the refinement counters, infinities and true NaNs; an unspecified value arises from a division
    by zero, as in Coq's reals.  The KKT factorisation and solve are oracles here (their own models are LdlModel.v and LinModel.v). *)
From Coq Require Import Reals List Arith Bool.
From Verif Require Import Base ConeModel.
Import ListNotations.
Open Scope R_scope.

(** Problem data after equilibration: n variables, p equalities, nl linear cone rows, blocks q. *)
Record pdata := mkPD { p_n : nat; p_p : nat; p_nl : nat; p_q : list nat; p_A : nat -> nat -> R; p_G : nat -> nat -> R; p_c : nat -> R; p_b : nat -> R; p_h : nat -> R }.
(** Cone::sizeCone. *)
Definition p_m (d : pdata) : nat := (p_nl d + fold_right Nat.add 0%nat (p_q d))%nat.
(** OptimizationVector opt_ (Cone.hpp l.306-372). *)
Record itr := mkIt { i_x : nat -> R; i_y : nat -> R; i_z : nat -> R; i_s : nat -> R; i_tau : R; i_kappa : R }.

(** The settings read by the loop (SolverSetting); [t_nan] is the finite sentinel SolverSetting::nan (SolverSetting.hpp l.59). *)
Record tols := mkTol { t_feas : R; t_abs : R; t_rel : R }.
Record ipset := mkSet { t_full : tols; t_inacc : tols; t_nan : R; t_safeguard : R; t_minstep : R; t_maxstep : R; t_scal : R; t_mincent : R; t_maxcent : R; t_big : R; t_maxiters : nat }.

(** Eigen dot and norm. *)
Definition vdot (n : nat) (u v : nat -> R) : R := rsum n (fun i => u i * v i).
Definition vnorm (n : nat) (u : nat -> R) : R := sqrt (vdot n u u).

(** l.109-129: computeResiduals.  [rs_res*]: residual_x_ ... (norms before the data is subtracted), [rs_*]: res_. *)
Record resid := mkRs { rs_x : nat -> R; rs_y : nat -> R; rs_z : nat -> R; rs_t : R; rs_resx : R; rs_resy : R; rs_resz : R; rs_cx : R; rs_by : R; rs_hz : R }.
Definition computeResiduals (d : pdata) (o : itr) : resid :=
  let rx := fun i => - rsum (p_p d) (fun r => p_A d r i * i_y o r) - rsum (p_m d) (fun r => p_G d r i * i_z o r) in
  let ry := fun r => rsum (p_n d) (fun i => p_A d r i * i_x o i) in
  let rz := fun r => rsum (p_n d) (fun i => p_G d r i * i_x o i) + i_s o r in
  let cx := vdot (p_n d) (p_c d) (i_x o) in
  let by_ := vdot (p_p d) (p_b d) (i_y o) in
  let hz := vdot (p_m d) (p_h d) (i_z o) in
  mkRs (fun i => rx i - i_tau o * p_c d i) (fun r => ry r - i_tau o * p_b d r) (fun r => rz r - i_tau o * p_h d r)
       (i_kappa o + cx + by_ + hz) (vnorm (p_n d) rx) (vnorm (p_p d) ry) (vnorm (p_m d) rz) cx by_ hz.

(** OptimizationInfo: the fields read or written by the loop. *)
Record info := mkInf { f_pcost : R; f_dcost : R; f_gap : R; f_kot : R; f_merit : R; f_relgap : R; f_pres : R; f_dres : R; f_pinf : R; f_dinf : R }.

(** l.69-71: inires_x_, inires_y_, inires_z_. *)
Definition inires (n : nat) (v : nat -> R) : R := Rmax 1 (vnorm n v).

(** l.192-218: updateStatistics. *)
Definition updateStatistics (S : ipset) (d : pdata) (o : itr) (r : resid) : info :=
  let n := p_n d in let p := p_p d in let m := p_m d in
  let nx := vnorm n (i_x o) in let ny := vnorm p (i_y o) in let nz := vnorm m (i_z o) in let ns := vnorm m (i_s o) in
  let pcost := rs_cx r / i_tau o in
  let gap := vdot m (i_s o) (i_z o) in
  let dcost := - (rs_hz r + rs_by r) / i_tau o in
  let relgap := if Rlt_dec pcost 0 then gap / (- pcost) else if Rlt_dec 0 dcost then gap / dcost else t_nan S in
  let pres := Rmax (vnorm p (rs_y r) / Rmax (inires p (p_b d) + nx) 1) (vnorm m (rs_z r) / Rmax (inires m (p_h d) + nx + ns) 1) / i_tau o in
  let dres := vnorm n (rs_x r) / Rmax (inires n (p_c d) + ny + nz) 1 / i_tau o in
  let pinf := if Rlt_dec ((rs_hz r + rs_by r) / Rmax (ny + nz) 1) (- t_rel (t_full S)) then rs_resx r / Rmax (ny + nz) 1 else t_nan S in
  let dinf := if Rlt_dec (rs_cx r / Rmax nx 1) (- t_rel (t_full S)) then Rmax (rs_resy r / Rmax nx 1) (rs_resz r / Rmax (nx + ns) 1) else t_nan S in
  mkInf pcost dcost gap (i_kappa o / i_tau o) ((gap + i_kappa o * i_tau o) / (INR m + 1)) relgap pres dres pinf dinf.

(** SolverSetting.hpp l.20-34, the codes the loop can return. *)
Inductive exitcode := Optimal | OptimalInacc | PrimalInf | PrimalInfInacc | DualInf | DualInfInacc | ReachMaxIters | NotConverged
  | PrSearchDirection | PrSlacksLeaveCone | Indeterminate.
Inductive mode := Full | Reduced.

Definition ltb (a b : R) : bool := if Rlt_dec a b then true else false.
Definition leb (a b : R) : bool := if Rle_dec a b then true else false.
Definition eqb (a b : R) : bool := if Req_EM_T a b then true else false.

(** l.220-257: convergenceCheck; cx_, by_, hz_ are members set by the last computeResiduals, tau and kappa those of opt_. *)
Definition convergenceCheck (S : ipset) (m : mode) (r : resid) (f : info) (tau kappa : R) : exitcode :=
  let t := match m with Full => t_full S | Reduced => t_inacc S end in
  if ((ltb (rs_cx r) 0 || leb (rs_by r + rs_hz r) (t_abs t)) && (ltb (f_pres f) (t_feas t) && ltb (f_dres f) (t_feas t)) &&
      (ltb (f_gap f) (t_abs t) || ltb (f_relgap f) (t_rel t)))%bool
  then match m with Full => Optimal | Reduced => OptimalInacc end
  else if (negb (eqb (f_dinf f) (t_nan S)) && ltb (f_dinf f) (t_feas t) && ltb tau kappa)%bool
  then match m with Full => DualInf | Reduced => DualInfInacc end
  else if ((negb (eqb (f_pinf f) (t_nan S)) && ltb (f_pinf f) (t_feas t) && ltb tau kappa) ||
           (ltb tau (t_feas t) && ltb kappa (t_feas t) && ltb (f_pinf f) (t_feas t)))%bool
  then match m with Full => PrimalInf | Reduced => PrimalInfInacc end
  else NotConverged.

(** CvxInfoPrinter.cpp l.38-60: isBetterThan. *)
Definition pos_less (a b : R) : bool := (ltb 0 a && ltb a b)%bool.
Definition isBetterThan (S : ipset) (f g : info) : bool :=
  if (negb (eqb (f_pinf f) (t_nan S)) && ltb 1 (f_kot f))%bool then
    if negb (eqb (f_pinf g) (t_nan S)) then
      (ltb 0 (f_gap f) && ltb 0 (f_gap g) && ltb (f_gap f) (f_gap g) && (ltb 0 (f_pinf f) && ltb (f_pinf f) (f_pres g)) && pos_less (f_merit f) (f_merit g))%bool
    else (ltb 0 (f_gap f) && ltb 0 (f_gap g) && ltb (f_gap f) (f_gap g) && pos_less (f_merit f) (f_merit g))%bool
  else (ltb 0 (f_gap f) && ltb 0 (f_gap g) && ltb (f_gap f) (f_gap g) && pos_less (f_pres f) (f_pres g) && pos_less (f_dres f) (f_dres g) &&
        pos_less (f_kot f) (f_kot g) && pos_less (f_merit f) (f_merit g))%bool.

(** One pass of scaling update, factorisation and step (l.356-415): leaves the cone, factorisation failure, or next iterate and step length. *)
Inductive stepres := Outside | FactFail | Next (o : itr) (step : R).

(** Variables of the loop.  saveIterateAsBest / restoreBestIterate (l.259-270) copy (ls_opt, ls_info) to/from (ls_best, ls_binfo);
    operator= copies exactly the fields of [info] (CvxInfoPrinter.cpp l.18-35). *)
Record lstate := mkLs { ls_opt : itr; ls_best : itr; ls_binfo : info; ls_prev : R; ls_step : R }.
(** What optimize() leaves: exit code, the iterate in opt_ before scaleVariables, whether scaleVariables was applied (l.420),
    the statistics in getInfo(), and the number of steps made. *)
Record outc := mkOut { o_code : exitcode; o_opt : itr; o_scaled : bool; o_info : info; o_steps : nat }.

(** restore the best iterate, check with reduced precision, and use code [c] when even that fails. *)
Definition fallback (S : ipset) (r : resid) (o : itr) (f : info) (c : exitcode) : exitcode :=
  match convergenceCheck S Reduced r f (i_tau o) (i_kappa o) with NotConverged => c | e => e end.

(** l.304-421, from iteration [k] on; [fuel] = iterations left (the for condition NumIter <= SolverMaxIters). *)
Fixpoint ip_loop (S : ipset) (d : pdata) (step : nat -> itr -> stepres) (fuel k : nat) (code : exitcode) (last : info) (L : lstate) : outc :=
  match fuel with
  | O => mkOut code (ls_opt L) true last k
  | Datatypes.S fuel' =>
    let o := ls_opt L in
    let r := computeResiduals d o in
    let f := updateStatistics S d o r in
    if (Nat.ltb 0 k && (ltb (t_safeguard S * ls_prev L) (f_pres f) || ltb (f_gap f) 0))%bool then
      mkOut (fallback S r (ls_best L) (ls_binfo L) PrSearchDirection) (ls_best L) true (ls_binfo L) k
    else
      match convergenceCheck S Full r f (i_tau o) (i_kappa o) with
      | NotConverged =>
        if (Nat.ltb 0 k && eqb (ls_step L) (t_minstep S * t_scal S))%bool then
          mkOut (fallback S r (ls_best L) (ls_binfo L) PrSearchDirection) (ls_best L) true (ls_binfo L) k
        else if Nat.eqb k (t_maxiters S) then
          let keep := isBetterThan S f (ls_binfo L) in
          let o' := if keep then o else ls_best L in
          let f' := if keep then f else ls_binfo L in
          mkOut (fallback S r o' f' ReachMaxIters) o' true f' k
        else
          let better := (Nat.eqb k 0 || isBetterThan S f (ls_binfo L))%bool in
          let best := if better then o else ls_best L in
          let binfo := if better then f else ls_binfo L in
          match step k o with
          | Outside =>
            match convergenceCheck S Reduced r binfo (i_tau best) (i_kappa best) with
            | NotConverged => mkOut PrSlacksLeaveCone best false binfo k
            | e => mkOut e best true binfo k
            end
          | FactFail => mkOut Indeterminate o false f k
          | Next o' a => ip_loop S d step fuel' (Datatypes.S k) NotConverged f (mkLs o' best binfo (f_pres f) a)
          end
      | e => mkOut e o true f k
      end
  end.

(** l.295-304: optimize after initializeVariables returned the starting point [o0]; [best0], [binfo0]: previous contents of best_opt_ and
    best_info_ (uninitialised the first time); [last0]: previous contents of the info. *)
Definition ip_optimize (S : ipset) (d : pdata) (step : nat -> itr -> stepres) (o0 best0 : itr) (binfo0 last0 : info) : outc :=
  ip_loop S d step (Datatypes.S (t_maxiters S)) 0 Indeterminate last0 (mkLs o0 best0 binfo0 (t_nan S) 0).

(** A solution of the KKT system: x, y and cone part z. *)
Record dir := mkDir { d_x : nat -> R; d_y : nat -> R; d_z : nat -> R }.

(** l.66-107: initializeVariables; [solve0] is the solve with unit scalings, [stale] the previous contents of rhs2_ (y and z part). *)
Definition initial_point (d : pdata) (solve0 : dir -> dir) (stale : dir) : itr :=
  let q1 := solve0 (mkDir (fun _ => 0) (p_b d) (p_h d)) in
  let q2 := solve0 (mkDir (fun i => - p_c d i) (d_y stale) (d_z stale)) in
  mkIt (d_x q1) (d_y q2) (conicProjection (p_nl d) (p_q d) (d_z q2)) (conicProjection (p_nl d) (p_q d) (fun i => - d_z q1 i)) 1 1.

(** l.273-291 and l.377-415: the Mehrotra predictor-corrector step.  [W], [lam] from updateNTScalings, [solve] the solve of this iteration. *)
Record newton := mkNw { w_sigma : R; w_dscomb : nat -> R; w_dkcomb : R; w_dx : nat -> R; w_dy : nat -> R; w_dz : nat -> R;
                        w_dsbyW : nat -> R; w_ds : nat -> R; w_dtau : R; w_dkappa : R; w_step : R }.
Definition cbh_dot (d : pdata) (v : dir) : R := vdot (p_n d) (p_c d) (d_x v) + vdot (p_p d) (p_b d) (d_y v) + vdot (p_m d) (p_h d) (d_z v).
Definition newton_step (S : ipset) (d : pdata) (o : itr) (W : scaling) (lam : nat -> R) (solve : dir -> dir) : newton :=
  let nl := p_nl d in let q := p_q d in
  let r := computeResiduals d o in
  let mu := f_merit (updateStatistics S d o r) in
  let tau := i_tau o in let kappa := i_kappa o in
  let Wt := conicNTScaling nl q W in
  let dir2 := solve (mkDir (fun i => - p_c d i) (p_b d) (p_h d)) in
  (* affine step *)
  let dir1 := solve (mkDir (rs_x r) (fun i => - rs_y r i) (fun i => i_s o i - rs_z r i)) in
  let denom := kappa / tau - cbh_dot d dir2 in
  let dta := (rs_t r - kappa + cbh_dot d dir1) / denom in
  let dka := - kappa - kappa / tau * dta in
  let wdz := Wt (fun i => d_z dir1 i + dta * d_z dir2 i) in
  let dsw := fun i => - wdz i - lam i in
  let aff := lineSearch (t_big S) (t_maxstep S) (t_minstep S) nl q lam dsw wdz tau dta kappa dka in
  let sigma := Rmax (Rmin ((1 - aff) ^ 3) (t_maxcent S)) (t_mincent S) in
  (* centering and corrector *)
  let pp := conicProduct nl q lam lam in
  let cc := conicProduct nl q dsw wdz in
  let dsc := add_identity nl q (- (sigma * mu)) (fun i => pp i + cc i) in
  let dst := conicDivision nl q lam dsc in
  let wdst := Wt dst in
  let dkc := kappa * tau + dka * dta - sigma * mu in
  let dir3 := solve (mkDir (fun i => rs_x r i * (1 - sigma)) (fun i => - rs_y r i * (1 - sigma)) (fun i => (sigma - 1) * rs_z r i + wdst i)) in
  let dt := ((1 - sigma) * rs_t r - dkc / tau + cbh_dot d dir3) / denom in
  let dz := fun i => d_z dir3 i + dt * d_z dir2 i in
  let wdz2 := Wt dz in
  let dsw2 := fun i => - (dst i + wdz2 i) in
  let dk := - (dkc + kappa * dt) / tau in
  let a := lineSearch (t_big S) (t_maxstep S) (t_minstep S) nl q lam dsw2 wdz2 tau dt kappa dk * t_scal S in
  mkNw sigma dsc dkc (fun i => d_x dir3 i + dt * d_x dir2 i) (fun i => d_y dir3 i + dt * d_y dir2 i) dz dsw2 (Wt dsw2) dt dk a.
(** l.415: opt_ += step * dopt. *)
Definition advance (o : itr) (w : newton) : itr :=
  let a := w_step w in
  mkIt (fun i => i_x o i + a * w_dx w i) (fun i => i_y o i + a * w_dy w i) (fun i => i_z o i + a * w_dz w i) (fun i => i_s o i + a * w_ds w i)
       (i_tau o + a * w_dtau w) (i_kappa o + a * w_dkappa w).
(** l.356-415: scaling update, factorisation ([solve k W] = None when it fails) and step. *)
Definition newton_inner (S : ipset) (d : pdata) (solve : nat -> scaling -> option (dir -> dir)) (k : nat) (o : itr) : stepres :=
  match updateNTScalings (p_nl d) (p_q d) (i_s o) (i_z o) with
  | None => Outside
  | Some (W, lam) =>
    match solve k W with
    | None => FactFail
    | Some sv => let w := newton_step S d o W lam sv in Next (advance o w) (w_step w)
    end
  end.

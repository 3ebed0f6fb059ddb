(** * Model of the L-BFGS solver and of the class that feeds it a nonlinear programme
    Source: solver/src/solver/optimizer/LbfgsSolver.cpp (line numbers below are of this file), solver/include/solver/optimizer/LbfgsSolver.hpp.
    Reals for doubles.  A double[n] is a function of the index of which only the entries below n are used.  The evaluation callback is a
    pure function of the point.  [res]: UB is an index outside an array or a division of integers by zero; this code throws nothing, so
    [Throw] stands for the production of a NaN or an infinity (division by zero, root of a negative number), after which doubles are no
    longer real numbers and the model says nothing.  Not modelled: failing memory allocation, the NaN of overflows, printing. *)
From Coq Require Import Reals List Arith ZArith Bool.
From Verif Require Import Base IpModel.
Import ListNotations.
Open Scope R_scope.

Definition vec := nat -> R.
(** l.132-149: vecdot, vec2norm. *)
Definition vdot (n : nat) (x y : vec) : R := rsum n (fun i => x i * y i).
Definition vnorm (n : nat) (x : vec) : R := sqrt (vdot n x x).
(** l.108-130: vecncpy, vecadd, vecdiff, vecscale. *)
Definition vneg (x : vec) : vec := fun i => - x i.
Definition vaxpy (y x : vec) (c : R) : vec := fun i => y i + c * x i.
Definition vdiff (x y : vec) : vec := fun i => x i - y i.
Definition vscale (y : vec) (c : R) : vec := fun i => y i * c.

(** Division of doubles. *)
Definition rdiv (a b : R) : res R := if eqb b 0 then Throw else Ok (a / b).
Definition rsqrt (a : R) : res R := if ltb a 0 then Throw else Ok (sqrt a).

(** LbfgsSolver.hpp l.112-150 (line search codes; any other integer is [LsOther]) and the parameter struct. *)
Inductive lsalg := MoreThuente | Armijo | Wolfe | StrongWolfe | LsOther.
Record params := mkP { p_m : Z; p_eps : R; p_past : Z; p_delta : R; p_maxit : Z; p_ls : lsalg; p_maxls : Z;
                       p_minstep : R; p_maxstep : R; p_ftol : R; p_wolfe : R; p_gtol : R; p_xtol : R }.
(** l.165-169. *)
Definition defparam : params :=
  mkP 6 (1 / 10 ^ 5) 0 (1 / 10 ^ 5) 0 MoreThuente 40 (1 / 10 ^ 20) (10 ^ 20) (1 / 10 ^ 4) (9 / 10) (9 / 10) (1 / 10 ^ 16).

(** LbfgsSolver.hpp l.30-107: return codes; [Callback z] is a non-zero value returned by the progress callback. *)
Inductive rcode :=
  | Success | Stop | AlreadyMinimized | Callback (z : Z)
  | InvalidN | InvalidEpsilon | InvalidTestperiod | InvalidDelta | InvalidLinesearch | InvalidMinstep | InvalidMaxstep | InvalidFtol
  | InvalidWolfe | InvalidGtol | InvalidXtol | InvalidMaxlinesearch
  | OutOfMemory | OutOfInterval | IncorrectTminmax | RoundingError | MinimumStep | MaximumStep | MaximumLinesearch | MaximumIteration
  | WidthTooSmall | InvalidParameters | IncreaseGradient.

(** ** The line searches *)
(** What a line search leaves behind: code or count, x, *f, g, *stp. *)
Record lsres := mkLS { ls_out : rcode + Z; ls_x : vec; ls_f : R; ls_g : vec; ls_stp : R }.

Section Search.
Variable n : nat.
Variable F : vec -> R.
Variable G : vec -> vec.
Variable P : params.

(** l.509-566: one turn of the backtracking loop; [inl]: return, [inr width]: try again. *)
Definition bt_test (finit dginit dgtest stp f : R) (g s : vec) (count : Z) : (rcode + Z) + R :=
  let finish (width : R) : (rcode + Z) + R :=
    if ltb stp (p_minstep P) then inl (inl MinimumStep)
    else if ltb (p_maxstep P) stp then inl (inl MaximumStep)
    else if (p_maxls P <=? count)%Z then inl (inl MaximumLinesearch)
    else inr width in
  if ltb (finit + stp * dgtest) f then finish (1 / 2)
  else match p_ls P with
       | Armijo => inl (inr count)
       | _ =>
         let dg := vdot n g s in
         if ltb dg (p_wolfe P * dginit) then finish (21 / 10)
         else match p_ls P with
              | Wolfe => inl (inr count)
              | _ => if ltb (- p_wolfe P * dginit) dg then finish (1 / 2) else inl (inr count)
              end
       end.
(** l.509-566.  The fuel is max_linesearch, see bt_fuel_enough. *)
Fixpoint bt_loop (fuel : nat) (xp s : vec) (finit dginit dgtest stp : R) (count : Z) : lsres :=
  let x := vaxpy xp s stp in
  let f := F x in
  let g := G x in
  match bt_test finit dginit dgtest stp f g s (count + 1) with
  | inl out => mkLS out x f g stp
  | inr width => match fuel with
                 | O => mkLS (inl MaximumLinesearch) x f g stp
                 | Datatypes.S fuel' => bt_loop fuel' xp s finit dginit dgtest (stp * width) (count + 1)
                 end
  end.
(** l.489-507: line_search_backtracking.  x is a copy of xp and g of gp on entry (l.337-341). *)
Definition backtracking (xp : vec) (f : R) (gp s : vec) (stp : R) : lsres :=
  if leb stp 0 then mkLS (inl InvalidParameters) xp f gp stp
  else
    let dginit := vdot n gp s in
    if ltb 0 dginit then mkLS (inl IncreaseGradient) xp f gp stp
    else bt_loop (Z.to_nat (p_maxls P)) xp s f dginit (p_ftol P * dginit) stp 0.

(** l.756-770: CUBIC_MINIMIZER. *)
Definition max2 (a b : R) : R := if leb b a then a else b.
Definition cubic_min (u fu du v fv dv : R) : res R :=
  let d := v - u in
  bind (rdiv ((fu - fv) * 3) d) (fun th0 =>
  let theta := th0 + du + dv in
  let s := max2 (max2 (Rabs theta) (Rabs du)) (Rabs dv) in
  bind (rdiv theta s) (fun a =>
  bind (rdiv du s) (fun dus =>
  bind (rdiv dv s) (fun dvs =>
  bind (rsqrt (a * a - dus * dvs)) (fun root =>
  let gamma := if ltb v u then - (s * root) else s * root in
  bind (rdiv (gamma - du + theta) (gamma - du + gamma + dv)) (fun r => Ok (u + r * d))))))).
(** l.784-804: CUBIC_MINIMIZER2. *)
Definition cubic_min2 (u fu du v fv dv xmin xmax : R) : res R :=
  let d := v - u in
  bind (rdiv ((fu - fv) * 3) d) (fun th0 =>
  let theta := th0 + du + dv in
  let s := max2 (max2 (Rabs theta) (Rabs du)) (Rabs dv) in
  bind (rdiv theta s) (fun a =>
  bind (rdiv du s) (fun dus =>
  bind (rdiv dv s) (fun dvs =>
  bind (rsqrt (max2 0 (a * a - dus * dvs))) (fun root =>
  let gamma := if ltb u v then - (s * root) else s * root in
  bind (rdiv (gamma - dv + theta) (gamma - dv + gamma + du)) (fun r =>
  Ok (if (ltb r 0 && negb (eqb gamma 0))%bool then v - r * d else if ltb a 0 then xmax else xmin))))))).
(** l.815-817: QUARD_MINIMIZER. *)
Definition quard_min (u fu du v fv : R) : res R :=
  let a := v - u in
  bind (rdiv (fu - fv) a) (fun q => bind (rdiv du (q + du)) (fun w => Ok (u + w / 2 * a))).
(** l.827-829: QUARD_MINIMIZER2. *)
Definition quard_min2 (u du v dv : R) : res R :=
  let a := u - v in bind (rdiv dv (dv - du)) (fun w => Ok (v + w * a)).

(** The interval of uncertainty: x, fx, dx, y, fy, dy, brackt and the trial value t. *)
Record ti := mkTI { t_x : R; t_fx : R; t_dx : R; t_y : R; t_fy : R; t_dy : R; t_t : R; t_br : bool }.
Inductive uinfo := UOk | UErr.

(** l.864: dsign; 0/0 is NaN and compares false. *)
Definition dsign (dt dx : R) : bool := if eqb dx 0 then false else ltb (dt * (dx / Rabs dx)) 0.

(** l.893-976: the trial value, the new brackt flag and bound. *)
Definition trial_value (I : ti) (ft dt tmin tmax : R) : res (R * bool * bool) :=
  let x := t_x I in let fx := t_fx I in let dx := t_dx I in let t := t_t I in
  if ltb fx ft then
    bind (cubic_min x fx dx t ft dt) (fun mc =>
    bind (quard_min x fx dx t ft) (fun mq =>
    Ok (if ltb (Rabs (mc - x)) (Rabs (mq - x)) then mc else mc + / 2 * (mq - mc), true, true)))
  else if dsign dt dx then
    bind (cubic_min x fx dx t ft dt) (fun mc =>
    bind (quard_min2 x dx t dt) (fun mq =>
    Ok (if ltb (Rabs (mq - t)) (Rabs (mc - t)) then mc else mq, true, false)))
  else if ltb (Rabs dt) (Rabs dx) then
    bind (cubic_min2 x fx dx t ft dt tmin tmax) (fun mc =>
    bind (quard_min2 x dx t dt) (fun mq =>
    Ok (if t_br I then (if ltb (Rabs (t - mc)) (Rabs (t - mq)) then mc else mq)
        else (if ltb (Rabs (t - mq)) (Rabs (t - mc)) then mc else mq), t_br I, true)))
  else
    bind (if t_br I then cubic_min t ft dt (t_y I) (t_fy I) (t_dy I) else Ok (if ltb x t then tmax else tmin)) (fun newt =>
    Ok (newt, t_br I, false)).

(** l.860-1016: update_trial_interval; ft and dt are read only. *)
Definition update_trial_interval (I : ti) (ft dt tmin tmax : R) : res (ti * uinfo) :=
  let x := t_x I in let y := t_y I in let t := t_t I in
  if (t_br I && ((leb t (Rmin x y) || leb (Rmax x y) t) || leb 0 (t_dx I * (t - x)) || ltb tmax tmin))%bool then Ok (I, UErr)
  else
    bind (trial_value I ft dt tmin tmax) (fun '(newt0, br, bound) =>
    let I1 := if ltb (t_fx I) ft then mkTI x (t_fx I) (t_dx I) t ft dt t br
              else if dsign dt (t_dx I) then mkTI t ft dt x (t_fx I) (t_dx I) t br
              else mkTI t ft dt y (t_fy I) (t_dy I) t br in
    let newt1 := if ltb tmax newt0 then tmax else newt0 in
    let newt2 := if ltb newt1 tmin then tmin else newt1 in
    let newt3 := if (br && bound)%bool then
                   let mq := t_x I1 + 66 / 100 * (t_y I1 - t_x I1) in
                   if ltb (t_x I1) (t_y I1) then (if ltb mq newt2 then mq else newt2) else (if ltb newt2 mq then mq else newt2)
                 else newt2 in
    Ok (mkTI (t_x I1) (t_fx I1) (t_dx I1) (t_y I1) (t_fy I1) (t_dy I1) newt3 br, UOk)).

(** The state of the More-Thuente loop: the interval (whose t is *stp), stage1, uinfo, width, prev_width, count. *)
Record mt := mkMT { m_I : ti; m_stage1 : bool; m_uinfo : uinfo; m_width : R; m_prev : R; m_count : Z }.
Definition set_t (I : ti) (t : R) : ti := mkTI (t_x I) (t_fx I) (t_dx I) (t_y I) (t_fy I) (t_dy I) t (t_br I).
Definition u_bad (u : uinfo) : bool := match u with UErr => true | UOk => false end.

(** l.621-737: one turn of the loop; [inl]: return. *)
Definition mt_turn (xp s : vec) (finit dginit dgtest : R) (M : mt) : res (lsres + mt) :=
  let I := m_I M in
  let stp0 := t_t I in
  let stmin := if t_br I then Rmin (t_x I) (t_y I) else t_x I in
  let stmax := if t_br I then Rmax (t_x I) (t_y I) else stp0 + 4 * (stp0 - t_x I) in
  let stp1 := if ltb stp0 (p_minstep P) then p_minstep P else stp0 in
  let stp2 := if ltb (p_maxstep P) stp1 then p_maxstep P else stp1 in
  let stp := if ((t_br I && ((leb stp2 stmin || leb stmax stp2) || (p_maxls P <=? m_count M + 1)%Z || u_bad (m_uinfo M)))
                 || (t_br I && leb (stmax - stmin) (p_xtol P * stmax)))%bool then t_x I else stp2 in
  let x := vaxpy xp s stp in
  let f := F x in
  let g := G x in
  let dg := vdot n g s in
  let ftest1 := finit + stp * dgtest in
  let count := (m_count M + 1)%Z in
  let ret o : res (lsres + mt) := Ok (inl (mkLS o x f g stp)) in
  if (t_br I && ((leb stp stmin || leb stmax stp) || u_bad (m_uinfo M)))%bool then ret (inl RoundingError)
  else if (eqb stp (p_maxstep P) && leb f ftest1 && leb dg dgtest)%bool then ret (inl MaximumStep)
  else if (eqb stp (p_minstep P) && (ltb ftest1 f || leb dgtest dg))%bool then ret (inl MinimumStep)
  else if (t_br I && leb (stmax - stmin) (p_xtol P * stmax))%bool then ret (inl WidthTooSmall)
  else if (p_maxls P <=? count)%Z then ret (inl MaximumLinesearch)
  else if (leb f ftest1 && leb (Rabs dg) (p_gtol P * - dginit))%bool then ret (inr count)
  else
    let stage1 := if (m_stage1 M && leb f ftest1 && leb (Rmin (p_ftol P) (p_gtol P) * dginit) dg)%bool then false else m_stage1 M in
    bind (if (stage1 && ltb ftest1 f && leb f (t_fx I))%bool then
            bind (update_trial_interval (mkTI (t_x I) (t_fx I - t_x I * dgtest) (t_dx I - dgtest) (t_y I) (t_fy I - t_y I * dgtest) (t_dy I - dgtest) stp (t_br I))
                    (f - stp * dgtest) (dg - dgtest) stmin stmax) (fun '(J, u) =>
            Ok (mkTI (t_x J) (t_fx J + t_x J * dgtest) (t_dx J + dgtest) (t_y J) (t_fy J + t_y J * dgtest) (t_dy J + dgtest) (t_t J) (t_br J), u))
          else update_trial_interval (set_t I stp) f dg stmin stmax) (fun '(J, u) =>
    let w := Rabs (t_y J - t_x J) in
    Ok (inr (if t_br J then
               mkMT (if leb (66 / 100 * m_prev M) w then set_t J (t_x J + / 2 * (t_y J - t_x J)) else J) stage1 u w (m_width M) count
             else mkMT J stage1 u (m_width M) (m_prev M) count))).
Fixpoint mt_loop (fuel : nat) (xp s : vec) (finit dginit dgtest : R) (M : mt) : res lsres :=
  bind (mt_turn xp s finit dginit dgtest M) (fun o =>
  match o with
  | inl r => Ok r
  | inr M' => match fuel with
              | O => Ok (mkLS (inl MaximumLinesearch) xp finit xp 0)
              | Datatypes.S fuel' => mt_loop fuel' xp s finit dginit dgtest M'
              end
  end).
(** l.569-619: line_search_morethuente. *)
Definition morethuente (xp : vec) (f : R) (gp s : vec) (stp : R) : res lsres :=
  if leb stp 0 then Ok (mkLS (inl InvalidParameters) xp f gp stp)
  else
    let dginit := vdot n gp s in
    if ltb 0 dginit then Ok (mkLS (inl IncreaseGradient) xp f gp stp)
    else
      let width := p_maxstep P - p_minstep P in
      mt_loop (Z.to_nat (p_maxls P)) xp s f dginit (p_ftol P * dginit) (mkMT (mkTI 0 f dginit 0 f dginit stp false) true UOk width (2 * width) 0).

(** l.252-263: the dispatch. *)
Definition linesearch (xp : vec) (f : R) (gp s : vec) (stp : R) : res lsres :=
  match p_ls P with MoreThuente => morethuente xp f gp s stp | _ => Ok (backtracking xp f gp s stp) end.

(** ** The main loop *)
(** l.157-163: iteration_data_t. *)
Record idata := mkID { i_alpha : R; i_s : vec; i_y : vec; i_ys : R }.
(** a % m of C for non-negative operands. *)
Definition imod (a m : Z) : res Z := if (m =? 0)%Z then UB else Ok (Z.rem a m).

(** l.446-454: the first loop of the two-loop recursion; returns lm, d and the final j. *)
Fixpoint twoloop1 (bound : nat) (m : Z) (lm : list idata) (d : vec) (j : Z) : res (list idata * vec * Z) :=
  match bound with
  | O => Ok (lm, d, j)
  | Datatypes.S b =>
    bind (imod (j + m - 1) m) (fun j' =>
    bind (vget lm j') (fun it =>
    bind (rdiv (vdot n (i_s it) d) (i_ys it)) (fun alpha =>
    bind (vset lm j' (mkID alpha (i_s it) (i_y it) (i_ys it))) (fun lm' =>
    twoloop1 b m lm' (vaxpy d (i_y it) (- alpha)) j'))))
  end.
(** l.458-466: the second loop. *)
Fixpoint twoloop2 (bound : nat) (m : Z) (lm : list idata) (d : vec) (j : Z) : res vec :=
  match bound with
  | O => Ok d
  | Datatypes.S b =>
    bind (vget lm j) (fun it =>
    bind (rdiv (vdot n (i_y it) d) (i_ys it)) (fun beta =>
    bind (imod (j + 1) m) (fun j' =>
    twoloop2 b m lm (vaxpy d (i_s it) (i_alpha it - beta)) j')))
  end.
(** l.442-466: d = -(H g). *)
Definition direction (bound : nat) (m : Z) (lm : list idata) (g : vec) (end_ : Z) (ys yy : R) : res (list idata * vec) :=
  bind (twoloop1 bound m lm (vneg g) end_) (fun '(lm', d, j) =>
  bind (rdiv ys yy) (fun c =>
  bind (twoloop2 bound m lm' (vscale d c) j) (fun d' => Ok (lm', d')))).

(** The state at l.334: x, fx, g, d, step, lm, pf, k, end. *)
Record lstate := mkL { l_x : vec; l_fx : R; l_g : vec; l_d : vec; l_step : R; l_lm : list idata; l_pf : list R; l_k : Z; l_end : Z }.
(** What lbfgs returns: the code, *x, *ptr_fx. *)
Record lout := mkO { o_code : rcode; o_x : vec; o_fx : R }.

(** proc_progress at iteration k with x, g, fx. *)
Variable progress : Z -> vec -> vec -> R -> Z.

(** l.358-361 and 318-321. *)
Definition converged (x g : vec) : bool :=
  let xnorm := vnorm n x in
  leb (vnorm n g / (if ltb xnorm 1 then 1 else xnorm)) (p_eps P).

(** l.368-399: stopping tests after the convergence test: the past values and the iteration limit; returns the new pf. *)
Definition stop_tests (S : lstate) (fx : R) : res (rcode + list R) :=
  bind (if (0 <? p_past P)%Z then
          bind (imod (l_k S) (p_past P)) (fun i =>
          bind (if (p_past P <=? l_k S)%Z then
                  bind (vget (l_pf S) i) (fun old => bind (rdiv (old - fx) fx) (fun rate => Ok (ltb rate (p_delta P))))
                else Ok false) (fun stop =>
          if stop then Ok (inl Stop) else bind (vset (l_pf S) i fx) (fun pf => Ok (inr pf))))
        else Ok (inr (l_pf S))) (fun o =>
  match o with
  | inl c => Ok (inl c)
  | inr pf => Ok (if (negb (p_maxit P =? 0) && (p_maxit P <? l_k S + 1))%Z%bool then inl MaximumIteration else inr pf)
  end).

(** l.334-473: one iteration; [inl]: leave the loop. *)
Definition iteration (S : lstate) : res (lout + lstate) :=
  bind (linesearch (l_x S) (l_fx S) (l_g S) (l_d S) (l_step S)) (fun r =>
  match ls_out r with
  | inl c => Ok (inl (mkO c (l_x S) (ls_f r)))
  | inr _ =>
    let x := ls_x r in let fx := ls_f r in let g := ls_g r in
    let pr := progress (l_k S) x g fx in
    if negb (pr =? 0)%Z then Ok (inl (mkO (Callback pr) x fx))
    else if converged x g then Ok (inl (mkO Success x fx))
    else
      bind (stop_tests S fx) (fun o =>
      match o with
      | inl c => Ok (inl (mkO c x fx))
      | inr pf =>
        bind (vget (l_lm S) (l_end S)) (fun it =>
        let s := vdiff x (l_x S) in
        let y := vdiff g (l_g S) in
        let ys := vdot n y s in
        let yy := vdot n y y in
        bind (vset (l_lm S) (l_end S) (mkID (i_alpha it) s y ys)) (fun lm =>
        let bound := if (p_m P <=? l_k S)%Z then p_m P else l_k S in
        bind (imod (l_end S + 1) (p_m P)) (fun end_ =>
        bind (direction (Z.to_nat bound) (p_m P) lm g end_ ys yy) (fun '(lm', d) =>
        Ok (inr (mkL x fx g d 1 lm' pf (l_k S + 1) end_))))))
      end)
  end).
(** The loop of l.334 as a relation: [runs S o]: from S the loop leaves with o (Ok), UB or NaN after finitely many iterations. *)
Inductive runs : lstate -> res lout -> Prop :=
  | run_out : forall S o, iteration S = Ok (inl o) -> runs S (Ok o)
  | run_throw : forall S, iteration S = Throw -> runs S Throw
  | run_ub : forall S, iteration S = UB -> runs S UB
  | run_next : forall S S' o, iteration S = Ok (inr S') -> runs S' o -> runs S o.
(** l.212-263: the parameter checks. *)
Definition check_params : option rcode :=
  if (n =? 0)%nat then Some InvalidN
  else if ltb (p_eps P) 0 then Some InvalidEpsilon
  else if (p_past P <? 0)%Z then Some InvalidTestperiod
  else if ltb (p_delta P) 0 then Some InvalidDelta
  else if ltb (p_minstep P) 0 then Some InvalidMinstep
  else if ltb (p_maxstep P) (p_minstep P) then Some InvalidMaxstep
  else if ltb (p_ftol P) 0 then Some InvalidFtol
  else if (match p_ls P with Wolfe | StrongWolfe => true | _ => false end && (leb (p_wolfe P) (p_ftol P) || leb 1 (p_wolfe P)))%bool then Some InvalidWolfe
  else if ltb (p_gtol P) 0 then Some InvalidGtol
  else if ltb (p_xtol P) 0 then Some InvalidXtol
  else if (p_maxls P <=? 0)%Z then Some InvalidMaxlinesearch
  else match p_ls P with LsOther => Some InvalidLinesearch | _ => None end.

(** l.276-332: allocation (all zero) and the state at the first entry of the loop.  A negative m makes the allocation fail. *)
Definition idata0 : idata := mkID 0 (fun _ => 0) (fun _ => 0) 0.
Definition start (x0 : vec) : lstate :=
  let g := G x0 in
  let d := vneg g in
  mkL x0 (F x0) g d (1 / vnorm n d) (repeat idata0 (Z.to_nat (p_m P))) (set_nth (repeat 0 (Z.to_nat (p_past P))) 0 (F x0)) 1 0.

(** The states at the head of the loop (l.334), with the history of points and gradients, newest first. *)
Inductive visited (x0 : vec) : list (vec * vec) -> lstate -> Prop :=
  | vis_start : visited x0 [(x0, G x0)] (start x0)
  | vis_step : forall h S S', visited x0 h S -> iteration S = Ok (inr S') -> visited x0 ((l_x S', l_g S') :: h) S'.

(** l.189-487: lbfgs as a relation between the starting point and the outcome ([fx0] is what *ptr_fx held: it is not written when a
    parameter check fails). *)
Inductive lbfgs (x0 : vec) (fx0 : R) : res lout -> Prop :=
  | lb_invalid : forall c, check_params = Some c -> lbfgs x0 fx0 (Ok (mkO c x0 fx0))
  | lb_memory : check_params = None -> (p_m P < 0)%Z -> lbfgs x0 fx0 (Ok (mkO OutOfMemory x0 0))
  | lb_minimized : check_params = None -> (0 <= p_m P)%Z -> converged x0 (G x0) = true -> lbfgs x0 fx0 (Ok (mkO AlreadyMinimized x0 (F x0)))
  | lb_loop : forall o, check_params = None -> (0 <= p_m P)%Z -> converged x0 (G x0) = false -> runs (start x0) o -> lbfgs x0 fx0 o.
End Search.

(** ** The wrapper: penalty objective and numerical gradient *)
Section Nlp.
Variables nvars ncons : nat.
Variable obj : vec -> R.
Variable cons : vec -> vec.
Variables xl xu gl gu : vec.
Variable weight : R.
(** pow(v, 2.). *)
Definition sq (v : R) : R := v * v.
(** l.1091-1100: the contribution of one bounded quantity. *)
Definition viol_term (v l u acc : R) : R :=
  let acc1 := if leb v l then acc + sq (v - l) else acc in
  if leb u v then acc1 + sq (v - u) else acc1.
Fixpoint viol_loop (k : nat) (v l u : vec) (acc : R) : R :=
  match k with O => acc | Datatypes.S k' => viol_term (v k') (l k') (u k') (viol_loop k' v l u acc) end.
(** l.1080-1104: evaluate_objective_function. *)
Definition evaluate_objective_function (x : vec) : R :=
  obj x + weight * viol_loop ncons (cons x) gl gu (viol_loop nvars x xl xu 0).
(** l.1053-1078: evaluate; prt = 2^-17.  Returns the value, the gradient and the final contents of the scratch copy eig_x. *)
Definition prt : R := / 2 ^ 17.
Fixpoint jac_loop (k : nat) (x : vec) : vec * vec :=
  match k with
  | O => (x, fun _ => 0)
  | Datatypes.S k' =>
    let '(x0, jac) := jac_loop k' x in
    let x1 := upd x0 k' (x0 k' + prt) in
    let gp := evaluate_objective_function x1 in
    let x2 := upd x1 k' (x1 k' - 2 * prt) in
    let gm := evaluate_objective_function x2 in
    (upd x2 k' (x2 k' + prt), upd jac k' ((gp - gm) / (2 * prt)))
  end.
Definition evaluate (x : vec) : R * vec * vec :=
  let '(x', jac) := jac_loop nvars x in (evaluate_objective_function x', jac, x').
End Nlp.

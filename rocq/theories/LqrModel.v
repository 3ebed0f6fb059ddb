(** * Model of the LQR / differential dynamic programming solver
    Source: solver_lqr/src/solver_lqr/{SolverLqr,ForwardPass,BackwardPass,FiniteDifferences,OcpDescription}.cpp.
    Reals for doubles.  Vectors and matrices are functions of their indices of which only the entries inside the dimensions are used;
    a sequence is a function of the time index.  After OcpBase::initialize the sequences hold tdim+1 states and tdim controls and every
    loop below stays inside 0..tdim, so no index is out of range except in the cases made explicit ([UB]).
    Not modelled: NaN and infinities, printing, storeSolution / loadSolution (YAML files), the unused second dynamics derivatives,
    the expected cost (written, never read). *)
From Coq Require Import Reals List Arith ZArith Bool.
From Verif Require Import Base IpModel.
Import ListNotations.
Open Scope R_scope.

Definition vec := nat -> R.
Definition mat := nat -> nat -> R.
Definition vplus (x y : vec) : vec := fun i => x i + y i.
Definition vminus (x y : vec) : vec := fun i => x i - y i.
Definition vscal (c : R) (x : vec) : vec := fun i => c * x i.
Definition mv (n : nat) (M : mat) (x : vec) : vec := fun i => rsum n (fun j => M i j * x j).
Definition mm (n : nat) (A B : mat) : mat := fun i j => rsum n (fun k => A i k * B k j).
Definition tr (A : mat) : mat := fun i j => A j i.
Definition mplus (A B : mat) : mat := fun i j => A i j + B i j.
Definition ident : mat := fun i j => if Nat.eqb i j then 1 else 0.
Definition mscal (c : R) (A : mat) : mat := fun i j => c * A i j.

(** OcpDescription.hpp l.62-85: ControlBase; OcpDescription.cpp l.18-56 (feedback is taken from the right operand of +, only the
    feedforward is scaled). *)
Record ctrl := mkCtrl { ff : vec; fb : mat }.
Definition ctrl0 : ctrl := mkCtrl (fun _ => 0) (fun _ _ => 0).
Definition cscal (c : R) (u : ctrl) : ctrl := mkCtrl (vscal c (ff u)) (fb u).
Definition cplus (u v : ctrl) : ctrl := mkCtrl (vplus (ff u) (ff v)) (fb v).
(** OcpDescription.cpp l.105-137: the same for sequences. *)
Definition sseq := nat -> vec.
Definition cseq := nat -> ctrl.
Definition seqscal (c : R) (u : cseq) : cseq := fun t => cscal c (u t).
Definition seqplus (u v : cseq) : cseq := fun t => cplus (u t) (v t).

(** The settings read by the solver (SolverLqrSetting.cpp l.25-62). *)
Record stgs := mkStgs {
  s_tdim : nat; s_xdim : nat; s_udim : nat; s_maxit : nat; s_rk : bool; s_limits : bool; s_umin : vec; s_umax : vec;
  s_divlimit : R; s_alphas : list R; s_reg0 : R; s_mult0 : R; s_incr : R; s_minreg : R; s_maxreg : R; s_gradtol : R; s_costtol : R }.
(** SolverLqrSetting.cpp l.42-46: the line search coefficients coeff^(-(i*i)). *)
Definition coefficients (coeff : R) (num : nat) : list R := map (fun i => / coeff ^ (i * i)) (seq 0 num).

Section Lqr.
Variable S : stgs.
(** The user's problem: virtual functions dynamics and objective. *)
Variable dyn : vec -> ctrl -> nat -> vec.
Variable obj : vec -> ctrl -> nat -> bool -> R.

(** OcpDescription.cpp l.157-168: internal_dynamics. *)
Definition internal_dynamics (x : vec) (u : ctrl) (t : nat) : vec :=
  let k1 := dyn x u t in
  let dstate :=
    if s_rk S then
      let k2 := dyn (vplus x (vscal (1 / 2) k1)) u t in
      let k3 := dyn (vplus x (vscal (1 / 2) k2)) u t in
      let k4 := dyn (vplus x k3) u t in
      vplus (fun i => vplus k1 k4 i / 6) (fun i => vplus k2 k3 i / 3)
    else k1 in
  vplus x dstate.

(** ** ForwardPass.cpp l.21-59 *)
Record fpass := mkF { f_x : sseq; f_u : cseq; f_cost : nat -> R; f_div : bool }.
(** l.37-41: the two tests in their order. *)
Definition clip (lo hi v : R) : R :=
  let v1 := if leb hi v then hi else v in
  if leb v1 lo then lo else v1.
(** l.31-54: one turn of the loop. *)
Definition fp_step (xn : sseq) (un : cseq) (F : fpass) (t : nat) : fpass :=
  let dx := vminus (f_x F t) (xn t) in
  let u0 := vplus (ff (un t)) (mv (s_xdim S) (fb (un t)) dx) in
  let u1 := if s_limits S then fun i => clip (s_umin S i) (s_umax S i) (u0 i) else u0 in
  let u := mkCtrl u1 (fb (f_u F t)) in
  let x' := internal_dynamics (f_x F t) u t in
  mkF (upd (f_x F) (t + 1) x') (upd (f_u F) t u) (upd (f_cost F) t (obj (f_x F t) u t false))
      (existsb (fun i => ltb (s_divlimit S) (Rabs (x' i))) (seq 0 (s_xdim S)) || f_div F).
Fixpoint fp_loop (k : nat) (xn : sseq) (un : cseq) (F : fpass) : fpass :=
  match k with O => F | Datatypes.S k' => fp_step xn un (fp_loop k' xn un F) k' end.
(** l.21-59: applyController; the sum of the stage costs is [newCost]. *)
Definition applyController (xn : sseq) (un : cseq) : fpass :=
  let F := fp_loop (s_tdim S) xn un (mkF xn un (fun _ => 0) false) in
  mkF (f_x F) (f_u F) (upd (f_cost F) (s_tdim S) (obj (f_x F (s_tdim S)) ctrl0 (s_tdim S) true)) (f_div F).
Definition newCost (F : fpass) : R := rsum (s_tdim S + 1) (f_cost F).

(** ** FiniteDifferences.cpp; h = 2^-17 (FiniteDifferences.hpp l.20) *)
Definition h_devs : R := / 2 ^ 17.
(** x[i] += d. *)
Definition bump (x : vec) (i : nat) (d : R) : vec := upd x i (x i + d).
(** l.74-79, 82-87, 167-172, 175-180: central differences of [f] over the first k entries of its argument; returns the restored argument
    and the columns.  [A] is the type of values with their (a - b)/(2h). *)
Fixpoint fd1 {A} (quot : A -> A -> A) (f : vec -> A) (zero : A) (k : nat) (x : vec) : vec * (nat -> A) :=
  match k with
  | O => (x, fun _ => zero)
  | Datatypes.S k' =>
    let '(x0, D) := fd1 quot f zero k' x in
    let x1 := bump x0 k' h_devs in
    let p := f x1 in
    let x2 := bump x1 k' (- h_devs) in
    let x3 := bump x2 k' (- h_devs) in
    let m := f x3 in
    (bump x3 k' h_devs, upd D k' (quot p m))
  end.
Definition rquot (p m : R) : R := (p - m) / (2 * h_devs).
Definition vquot (p m : vec) : vec := fun i => (p i - m i) / (2 * h_devs).
(** l.202-246: mixed second differences.  Two copies of the pair of arguments, (Xi, Yi) and (Xj, Yj); the outer loop moves X, the inner one
    the second argument.  [same = true] when both loops move the same argument (cxx, cuu). *)
Definition mixed (f : vec -> vec -> R) (same : bool) (xi yi xj yj : vec) (c : nat) : R :=
  let '(ip, im) := (if same then (f (bump xi c h_devs) yi, f (bump (bump (bump xi c h_devs) c (- h_devs)) c (- h_devs)) yi)
                    else (f xi (bump yi c h_devs), f xi (bump (bump (bump yi c h_devs) c (- h_devs)) c (- h_devs)))) in
  let '(jp, jm) := (if same then (f (bump xj c h_devs) yj, f (bump (bump (bump xj c h_devs) c (- h_devs)) c (- h_devs)) yj)
                    else (f xj (bump yj c h_devs), f xj (bump (bump (bump yj c h_devs) c (- h_devs)) c (- h_devs)))) in
  (ip - im - jp + jm) / (4 * (h_devs * h_devs)).
Definition restored (x : vec) (c : nat) : vec := bump (bump (bump (bump x c h_devs) c (- h_devs)) c (- h_devs)) c h_devs.
(** The inner loop: returns the (restored) moved arguments and the row. *)
Fixpoint fd2_row (f : vec -> vec -> R) (same : bool) (k : nat) (xi yi xj yj : vec) : vec * vec * vec * vec * vec :=
  match k with
  | O => (xi, yi, xj, yj, fun _ => 0)
  | Datatypes.S k' =>
    let '(xi, yi, xj, yj, D) := fd2_row f same k' xi yi xj yj in
    let v := mixed f same xi yi xj yj k' in
    if same then (restored xi k', yi, restored xj k', yj, upd D k' v) else (xi, restored yi k', xj, restored yj k', upd D k' v)
  end.
(** The outer loop. *)
Fixpoint fd2 (f : vec -> vec -> R) (same : bool) (cols : nat) (rows : nat) (xi yi xj yj : vec) : vec * vec * vec * vec * mat :=
  match rows with
  | O => (xi, yi, xj, yj, fun _ _ => 0)
  | Datatypes.S r =>
    let '(xi, yi, xj, yj, D) := fd2 f same cols r xi yi xj yj in
    let '(xi, yi, xj, yj, row) := fd2_row f same cols (bump xi r h_devs) yi (bump xj r (- h_devs)) yj in
    (bump xi r (- h_devs), yi, bump xj r h_devs, yj, upd D r row)
  end.
Record devs := mkD { d_fx : mat; d_fu : mat; d_cx : vec; d_cu : vec; d_cxx : mat; d_cxu : mat; d_cuu : mat }.
(** The derivatives at one time index.  l.62-88: dynamics (only for t < tdim); l.151-182 and 184-247: objective; at t = tdim the control is
    the one of the previous time index with its feedforward set to zero (setZero leaves the feedback), [u] below. *)
Definition derivatives_at (x : vec) (u : ctrl) (t : nat) : devs :=
  let fin := Nat.eqb t (s_tdim S) in
  let nx := s_xdim S in let nu := s_udim S in
  let '(x1, fxc) := fd1 vquot (fun s => internal_dynamics s u t) (fun _ => 0) nx x in
  let '(u1, fuc) := fd1 vquot (fun a => internal_dynamics x1 (mkCtrl a (fb u)) t) (fun _ => 0) nu (ff u) in
  let '(x2, cx) := fd1 rquot (fun s => obj s u t fin) 0 nx x in
  let '(u2, cu) := fd1 rquot (fun a => obj x2 (mkCtrl a (fb u)) t fin) 0 nu (ff u) in
  let f := fun s a => obj s (mkCtrl a (fb u)) t fin in
  let '(xi, yi, xj, yj, cxx) := fd2 f true nx nx x (ff u) x (ff u) in
  let '(xi, yi, xj, yj, cxu) := fd2 f false nu nx xi yi xj yj in
  let '(_, _, _, _, cuu) := fd2 (fun a s => f s a) true nu nu yi xi yj xj in
  mkD (fun i j => fxc j i) (fun i j => fuc j i) cx cu cxx cxu cuu.
Definition computeDerivatives (xs : sseq) (us : cseq) : nat -> devs :=
  fun t => derivatives_at (xs t) (if (t <? s_tdim S)%nat then us t else mkCtrl (fun _ => 0) (fb (us (s_tdim S - 1)%nat))) t.

(** ** BackwardPass.cpp *)
(** Eigen::LLT (not part of the repository): the Cholesky factor of the matrix given by the lower triangle of A, [None] as soon as a pivot
    is not positive; column-by-column elimination. *)
Definition schur (A : mat) : mat := fun i j => A (Datatypes.S i) (Datatypes.S j) - A (Datatypes.S i) 0%nat * A (Datatypes.S j) 0%nat / A 0%nat 0%nat.
Fixpoint llt (n : nat) (A : mat) : option mat :=
  match n with
  | O => Some (fun _ _ => 0)
  | Datatypes.S m =>
    if leb (A 0%nat 0%nat) 0 then None
    else match llt m (schur A) with
         | None => None
         | Some L => Some (fun i j => match i, j with
                                      | O, O => sqrt (A 0%nat 0%nat)
                                      | O, Datatypes.S _ => 0
                                      | Datatypes.S i', O => A (Datatypes.S i') 0%nat / sqrt (A 0%nat 0%nat)
                                      | Datatypes.S i', Datatypes.S j' => L i' j'
                                      end)
         end
  end.
(** llt.solve(b): L y = b forwards, then L^T x = y backwards. *)
Fixpoint lsolve (n : nat) (L : mat) (b : vec) : vec :=
  match n with
  | O => fun _ => 0
  | Datatypes.S m =>
    let y0 := b 0%nat / L 0%nat 0%nat in
    let y := lsolve m (fun i j => L (Datatypes.S i) (Datatypes.S j)) (fun i => b (Datatypes.S i) - L (Datatypes.S i) 0%nat * y0) in
    fun i => match i with O => y0 | Datatypes.S i' => y i' end
  end.
Fixpoint ltsolve (n : nat) (L : mat) (y : vec) : vec :=
  match n with
  | O => fun _ => 0
  | Datatypes.S m =>
    let x := ltsolve m (fun i j => L (Datatypes.S i) (Datatypes.S j)) (fun i => y (Datatypes.S i)) in
    fun i => match i with O => (y 0%nat - rsum m (fun j => L (Datatypes.S j) 0%nat * x j)) / L 0%nat 0%nat | Datatypes.S i' => x i' end
  end.
Definition llt_solve (n : nat) (L : mat) (b : vec) : vec := ltsolve n L (lsolve n L b).

(** The optimizer used by findConstrainedControls: [qp f lo hi] is what the conic solver returns for minimising f over lo <= v <= hi. *)
Variable qp : (vec -> R) -> vec -> vec -> vec.
(** l.118-125: the objective handed over (sum of squares of L^T v plus the linear terms). *)
Definition constrained_objective (L : mat) (g : vec) : vec -> R :=
  fun v => rsum (s_udim S) (fun c => rsum (s_udim S) (fun r => L r c * v r) * rsum (s_udim S) (fun r => L r c * v r)) + rsum (s_udim S) (fun c => g c * v c).
(** l.109-144: findConstrainedControls; [un] is the current control of the problem at this time, [K] the feedback just computed. *)
Definition findConstrainedControls (un : ctrl) (K : mat) (L : mat) (g : vec) : ctrl :=
  let v := qp (constrained_objective L g) (fun i => s_umin S i - ff un i) (fun i => s_umax S i - ff un i) in
  mkCtrl v (fun i j => if (leb (s_umax S i - 1 / 100) (ff un i + v i) || leb (ff un i + v i) (s_umin S i + 1 / 100))%bool then 0 else K i j).

(** The value function: V_, Vx_, Vxx_ of one time index. *)
Record value := mkV { v_c : R; v_x : vec; v_xx : mat }.
(** l.59-95: one turn of the loop; [None]: Cholesky failed. *)
Definition bp_step (d : devs) (cost : R) (lambda : R) (un : ctrl) (V : value) : option (ctrl * value) :=
  let nx := s_xdim S in let nu := s_udim S in
  let Q := d_cxx d in let R_ := d_cuu d in let P := tr (d_cxu d) in let q := d_cx d in let r := d_cu d in let A := d_fx d in let B := d_fu d in
  let g := vplus r (mv nx (tr B) (v_x V)) in
  let G := mplus P (mm nx (mm nx (tr B) (v_xx V)) A) in
  let H := mplus (mplus R_ (mm nx (mm nx (tr B) (v_xx V)) B)) (mscal lambda ident) in
  match llt nu H with
  | None => None
  | Some C =>
    let l := vscal (-1) (llt_solve nu C g) in
    let L : mat := fun i j => - llt_solve nu C (fun k => G k j) i in
    let u := if s_limits S then findConstrainedControls un L C g else mkCtrl l L in
    let Sxxn := mplus (mplus (mplus (mplus Q (mm nx (mm nx (tr A) (v_xx V)) A)) (mm nu (mm nu (tr L) H) L)) (mm nu (tr L) G)) (mm nu (tr G) L) in
    Some (u, mkV (cost + v_c V + 1 / 2 * vdot nu l (mv nu H l) + vdot nu l g)
                 (fun j => q j + mv nx (tr A) (v_x V) j + mv nu (tr L) (mv nu (tr H) l) j + mv nu (tr G) l j + mv nu (tr L) g j)
                 (fun i j => 1 / 2 * (Sxxn i j + Sxxn j i)))
  end.
(** l.47-97: optimizeController from time index tdim - 1 down to 0; on failure the later controls have been overwritten, the earlier ones
    are those of the previous call ([bs]).  Returns the controls, the failing time index if any, and the values. *)
Fixpoint bp_loop (k : nat) (ds : nat -> devs) (cost : nat -> R) (lambda : R) (un : cseq) (bs : cseq) (V : value) (Vs : nat -> value)
    : cseq * option nat * (nat -> value) :=
  match k with
  | O => (bs, None, Vs)
  | Datatypes.S t =>
    match bp_step (ds t) (cost t) lambda (un t) V with
    | None => (bs, Some t, Vs)
    | Some (u, V') => bp_loop t ds cost lambda un (upd bs t u) V' (upd Vs t V')
    end
  end.
Definition optimizeController (ds : nat -> devs) (cost : nat -> R) (lambda : R) (un : cseq) (bs : cseq) : cseq * option nat * (nat -> value) :=
  let VT := mkV (cost (s_tdim S)) (d_cx (ds (s_tdim S))) (d_cxx (ds (s_tdim S))) in
  bp_loop (s_tdim S) ds cost lambda un bs VT (fun _ => VT).

(** ** SolverLqr.cpp l.34-162 *)
(** OcpDescription.cpp l.139-146: the mean over time of max_i |du_i| / (|u_i| + 1). *)
Fixpoint rmaxl (l : list R) : R := match l with [] => 0 | [a] => a | a :: l' => Rmax a (rmaxl l') end.
Definition gradient_norm (u1 u2 : cseq) : R :=
  rsum (s_tdim S) (fun t => rmaxl (map (fun i => Rabs (ff (u1 t) i) / (Rabs (ff (u2 t) i) + 1)) (seq 0 (s_udim S)))) / INR (s_tdim S).

(** The solver between iterations: the problem's trajectory, cost, forward pass, controls of the backward pass, derivatives (with the flag
    that asks for new ones), mult_regularization_change_ and current regularization. *)
Record lstate := mkL { l_x : sseq; l_u : cseq; l_cost : R; l_f : fpass; l_b : cseq; l_d : nat -> devs; l_devs : bool; l_mult : R; l_reg : R }.
Inductive msg := SUCC_gradient | SUCC_costchange | EXIT_maxlambda | EXIT_maxiter | EXIT_divergence.

(** l.75-90: the loop around the backward pass, as a relation since it need not end: outcome (backpass_flag_, controls, mult, reg). *)
Definition incr_mult (mult : R) : R := Rmax (mult * s_incr S) (s_incr S).
Inductive bp_runs (ds : nat -> devs) (cost : nat -> R) (un : cseq) : cseq -> R -> R -> bool * cseq * R * R -> Prop :=
  | bp_ok : forall bs mult reg bs' Vs, optimizeController ds cost reg un bs = (bs', None, Vs) -> bp_runs ds cost un bs mult reg (true, bs', mult, reg)
  | bp_stop : forall bs mult reg bs' Vs t, optimizeController ds cost reg un bs = (bs', Some t, Vs) ->
      s_maxreg S < Rmax (reg * incr_mult mult) (s_minreg S) ->
      bp_runs ds cost un bs mult reg (false, bs', incr_mult mult, Rmax (reg * incr_mult mult) (s_minreg S))
  | bp_again : forall bs mult reg bs' Vs t o, optimizeController ds cost reg un bs = (bs', Some t, Vs) ->
      Rmax (reg * incr_mult mult) (s_minreg S) <= s_maxreg S ->
      bp_runs ds cost un bs' (incr_mult mult) (Rmax (reg * incr_mult mult) (s_minreg S)) o -> bp_runs ds cost un bs mult reg o.

(** l.103-114: the line search; the last forward pass tried and, if accepted, its coefficient and cost change. *)
Definition cost_change (L : lstate) (F : fpass) : R := l_cost L - newCost F - (if f_div F then 10 ^ 10 else 0).
Fixpoint line_search (alphas : list R) (L : lstate) (bs : cseq) (F : fpass) : fpass * option R :=
  match alphas with
  | [] => (F, None)
  | a :: alphas' =>
    let F' := applyController (l_x L) (seqplus (l_u L) (seqscal a bs)) in
    if ltb 0 (cost_change L F') then (F', Some a) else line_search alphas' L bs F'
  end.
Definition rmin_list (l : list R) : R := match l with [] => 0 | a :: l' => fold_left Rmin l' a end.

(** l.67-156: one iteration; [inl]: leave the loop with a message. *)
Inductive lqr_iter (L : lstate) : msg * lstate + lstate -> Prop :=
  | it_gradient : forall ds flag bs mult reg,
      ds = (if l_devs L then computeDerivatives (l_x L) (l_u L) else l_d L) ->
      bp_runs ds (f_cost (l_f L)) (l_u L) (l_b L) (l_mult L) (l_reg L) (flag, bs, mult, reg) ->
      gradient_norm bs (l_u L) < s_gradtol S ->
      lqr_iter L (inl (SUCC_gradient, mkL (l_x L) (l_u L) (l_cost L) (l_f L) bs ds false mult reg))
  | it_step : forall ds flag bs mult reg F acc,
      ds = (if l_devs L then computeDerivatives (l_x L) (l_u L) else l_d L) ->
      bp_runs ds (f_cost (l_f L)) (l_u L) (l_b L) (l_mult L) (l_reg L) (flag, bs, mult, reg) ->
      s_gradtol S <= gradient_norm bs (l_u L) ->
      (F, acc) = (if flag then line_search (s_alphas S) L bs (l_f L) else (l_f L, None)) ->
      lqr_iter L
        (match acc with
         | Some a =>
           let mult' := if ltb (rmin_list (s_alphas S)) a then Rmin (mult / s_incr S) (1 / s_incr S) else mult in
           let reg' := if ltb (rmin_list (s_alphas S)) a then reg * mult' * (if ltb (s_minreg S) reg then 1 else 0) else reg in
           let L' := mkL (f_x F) (f_u F) (newCost F) F bs ds true mult' reg' in
           if ltb (Rabs (cost_change L F)) (s_costtol S) then inl (SUCC_costchange, L') else inr L'
         | None =>
           let reg' := Rmax (reg * incr_mult mult) (s_minreg S) in
           let L' := mkL (l_x L) (l_u L) (l_cost L) F bs ds false (incr_mult mult) reg' in
           if ltb (s_maxreg S) reg' then inl (EXIT_maxlambda, L') else inr L'
         end).

(** l.65-159: the loop: from iteration number [i] to the message and final state. *)
Inductive lqr_runs : nat -> lstate -> msg * lstate -> Prop :=
  | runs_end : forall i L, (s_maxit S <= i)%nat -> lqr_runs i L (EXIT_maxiter, L)
  | runs_out : forall i L o, (i < s_maxit S)%nat -> lqr_iter L (inl o) -> lqr_runs i L o
  | runs_next : forall i L L' o, (i < s_maxit S)%nat -> lqr_iter L (inr L') -> lqr_runs (i + 1) L' o -> lqr_runs i L o.

(** l.40-56: the initial simulation with decreasing multiples of the given controls. *)
Fixpoint initial_rollout (alphas : list R) (xs : sseq) (us : cseq) (F : fpass) : fpass :=
  match alphas with
  | [] => F
  | a :: alphas' => let F' := applyController xs (seqscal a us) in if f_div F' then initial_rollout alphas' xs us F' else F'
  end.
Definition start (xs : sseq) (us : cseq) (bs : cseq) (ds : nat -> devs) (F0 : fpass) : msg * lstate + lstate :=
  let F := initial_rollout (s_alphas S) xs us F0 in
  if f_div F then inl (EXIT_divergence, mkL xs us (newCost F) F bs ds true (s_mult0 S) (s_reg0 S))
  else inr (mkL (f_x F) (f_u F) (newCost F) F bs ds true (s_mult0 S) (s_reg0 S)).

(** l.34-162: optimize, called with the problem's sequences and whatever the members of the solver hold.  An empty horizon makes the copy of
    the control sequence (OcpDescription.cpp l.97-103) index an empty vector; an empty list of coefficients reads has_diverged_ before it is set. *)
Inductive optimize (xs : sseq) (us : cseq) (bs : cseq) (ds : nat -> devs) (F0 : fpass) : res (msg * lstate) -> Prop :=
  | opt_ub : s_tdim S = 0%nat \/ s_alphas S = [] -> optimize xs us bs ds F0 UB
  | opt_div : forall o, s_tdim S <> 0%nat -> s_alphas S <> [] -> start xs us bs ds F0 = inl o -> optimize xs us bs ds F0 (Ok o)
  | opt_run : forall L o, s_tdim S <> 0%nat -> s_alphas S <> [] -> start xs us bs ds F0 = inr L -> lqr_runs 0 L o -> optimize xs us bs ds F0 (Ok o).
(** The states at the head of the loop, with the number of iterations done. *)
Inductive visited (xs : sseq) (us : cseq) (bs : cseq) (ds : nat -> devs) (F0 : fpass) : nat -> lstate -> Prop :=
  | vis_start : forall L, start xs us bs ds F0 = inr L -> visited xs us bs ds F0 0 L
  | vis_step : forall i L L', visited xs us bs ds F0 i L -> (i < s_maxit S)%nat -> lqr_iter L (inr L') -> visited xs us bs ds F0 (i + 1) L'.
End Lqr.

(** * Model of the modelling layer: class ConicProblem
    Sources: solver/src/solver/interface/ConicProblem.cpp, solver/include/solver/interface/ConicProblem.hpp,
    solver/src/solver/interface/Cone.cpp l.31-74, 424-451 (sizes and storage).

    Abstractions: reals for doubles; a [Var] is its column number; sparse matrices are the lists of
    triplets handed to [setFromTriplets] (duplicates are summed, Cone.cpp l.444-451);
    the "Verbose" warnings of addVar are not modelled; ints do not overflow. *)
From Coq Require Import Reals List Arith Bool String.
From Verif Require Import ExprsModel.
Import ListNotations.
Open Scope R_scope.

(** Var.hpp l.22-30: VarType, VarStorage. *)
Inductive vartype := Binary | Continuous.
Record cvar := mkVar { v_type : vartype; v_lb : R; v_ub : R; v_val : R; v_guess : R }.

(** SolverParams.hpp: enum QuadConstrApprox. *)
Inductive approx := ApproxNone | ApproxTrustRegion | ApproxSoftConstraint.

(** ConicProblem.hpp l.66-82: data members relevant to modelling. *)
Record problem := mkP {
  p_vars : list cvar;             (* vars_; column number = position *)
  p_bin : list nat;               (* bin_vars_, as column numbers *)
  p_leq : list linexpr;           (* leqcons_ *)
  p_lineq : list linexpr;         (* lineqcons_ *)
  p_qineq : list quadexpr;        (* qineqcons_ *)
  p_soc : list quadexpr;          (* soccons_ *)
  p_obj : quadexpr;               (* objective_ *)
  p_ntr : nat;                    (* numTrustRegions_ *)
  p_nsc : nat;                    (* numSoftConstraints_ *)
  p_binlb : list R;               (* bin_vars_lower_bound_ *)
  p_binub : list R }.             (* bin_vars_upper_bound_ *)

(** ConicProblem.cpp l.20-31: clean().  The bound vectors are not touched; objective_.clear() keeps flags. *)
Definition cp_clean (p : problem) : problem :=
  mkP [] [] [] [] [] [] (q_clear (p_obj p)) 0 0 (p_binlb p) (p_binub p).

(** ConicProblem.hpp l.32: the constructor calls clean() on default-constructed members. *)
Definition cp_init : problem := mkP [] [] [] [] [] [] q_empty 0 0 [] [].

(** Outcome of a call: the state after the call, and whether it returned or threw.
    A throwing call keeps whatever it had changed before. *)
Inductive outcome := Returned (p : problem) | Threw (p : problem).
Definition out_state (o : outcome) : problem := match o with Returned p | Threw p => p end.

Definition set_vars vs bs lb ub (p : problem) : problem :=
  mkP vs bs (p_leq p) (p_lineq p) (p_qineq p) (p_soc p) (p_obj p) (p_ntr p) (p_nsc p) lb ub.

(** ConicProblem.cpp l.36-37: clamping of the guess. *)
Definition clamp_guess (lb ub g : R) : R :=
  if Rlt_dec g lb then lb else if Rlt_dec ub g then ub else g.

(** ConicProblem.cpp l.33-47: addVar; the returned variable is the column [length (p_vars p)]. *)
Definition cp_addVar (ty : vartype) (lb ub guess : R) (p : problem) : outcome :=
  if Rlt_dec ub lb then Threw p
  else
    let g := clamp_guess lb ub guess in
    let c := List.length (p_vars p) in
    let vs := p_vars p ++ [mkVar ty lb ub g g] in
    Returned match ty with
    | Binary => set_vars vs (p_bin p ++ [c])
                  (repeat 0 (List.length (p_bin p) + 1)) (repeat 1 (List.length (p_bin p) + 1)) p
    | Continuous => set_vars vs (p_bin p) (p_binlb p) (p_binub p) p
    end.

(** The internal addVar(VarType::Continuous, 0.0, 1.0, 0.5) of l.69, 70, 82, 97 (never throws). *)
Definition cp_addAux (p : problem) : problem := out_state (cp_addVar Continuous 0 1 (1/2) p).
(** [n] of them in a row, returning the columns. *)
Fixpoint cp_addAuxs (n : nat) (p : problem) : problem * list nat :=
  match n with
  | O => (p, [])
  | S k => let c := List.length (p_vars p) in
           let '(p', cs) := cp_addAuxs k (cp_addAux p) in (p', c :: cs)
  end.

(** ConicProblem.cpp l.50-56: addLinConstr. *)
Definition cp_addLin (lhs : linexpr) (sense : string) (rhs : linexpr) (p : problem) : outcome :=
  if String.eqb sense "=" then
    Returned (mkP (p_vars p) (p_bin p) (p_leq p ++ [le_sub lhs rhs]) (p_lineq p) (p_qineq p) (p_soc p)
                  (p_obj p) (p_ntr p) (p_nsc p) (p_binlb p) (p_binub p))
  else if String.eqb sense "<" then
    Returned (mkP (p_vars p) (p_bin p) (p_leq p) (p_lineq p ++ [le_sub lhs rhs]) (p_qineq p) (p_soc p)
                  (p_obj p) (p_ntr p) (p_nsc p) (p_binlb p) (p_binub p))
  else if String.eqb sense ">" then
    Returned (mkP (p_vars p) (p_bin p) (p_leq p) (p_lineq p ++ [le_sub rhs lhs]) (p_qineq p) (p_soc p)
                  (p_obj p) (p_ntr p) (p_nsc p) (p_binlb p) (p_binub p))
  else Threw p.

(** ConicProblem.cpp l.59-74: addQuaConstr. *)
Definition cp_addQua (q : quadexpr) (sense : string) (l : linexpr) (ap : approx) (p : problem) : outcome :=
  let ntr := match ap with ApproxTrustRegion => S (p_ntr p) | _ => p_ntr p end in
  let nsc := match ap with ApproxSoftConstraint => S (p_nsc p) | _ => p_nsc p end in
  let tr := match ap with ApproxTrustRegion => true | _ => q_trust q end in
  let sf := match ap with ApproxSoftConstraint => true | _ => q_soft q end in
  let n := (List.length (q_terms q) + match ap with ApproxSoftConstraint => 1 | _ => 0 end)%nat in
  let '(p1, cs) := cp_addAuxs n p in
  let qstg := mkQ (le_sub (q_lexpr q) l) (q_terms q) (q_extra q ++ cs) tr sf in
  let out q' := mkP (p_vars p1) (p_bin p1) (p_leq p1) (p_lineq p1) (p_qineq p1 ++ q') (p_soc p1)
                    (p_obj p1) ntr nsc (p_binlb p1) (p_binub p1) in
  if String.eqb sense "<" then Returned (out [qstg]) else Threw (out []).

(** ConicProblem.cpp l.77-86: addSocConstr. *)
Definition cp_addSoc (q : quadexpr) (sense : string) (l : linexpr) (p : problem) : outcome :=
  let '(p1, cs) := cp_addAuxs 1 p in
  let qstg := mkQ (le_sub (q_lexpr q) l) (q_terms q) (q_extra q ++ cs) false (q_soft q) in
  let out q' := mkP (p_vars p1) (p_bin p1) (p_leq p1) (p_lineq p1) (p_qineq p1) (p_soc p1 ++ q')
                    (p_obj p1) (p_ntr p1) (p_nsc p1) (p_binlb p1) (p_binub p1) in
  if String.eqb sense "<" then Returned (out [qstg]) else Threw (out []).

(** ConicProblem.cpp l.90-98: setObjective; extraVars of objective_ are appended, never cleared. *)
Definition cp_setObj (q : quadexpr) (l : linexpr) (p : problem) : outcome :=
  let '(p1, cs) := cp_addAuxs (List.length (q_terms q)) p in
  let o := mkQ (le_add (q_lexpr q) l) (q_terms q) (q_extra (p_obj p) ++ cs)
               (q_trust (p_obj p)) (q_soft (p_obj p)) in
  Returned (mkP (p_vars p1) (p_bin p1) (p_leq p1) (p_lineq p1) (p_qineq p1) (p_soc p1)
                o (p_ntr p1) (p_nsc p1) (p_binlb p1) (p_binub p1)).

(** The public modelling calls. *)
Inductive call :=
| CAddVar (ty : vartype) (lb ub guess : R)
| CAddLin (lhs : linexpr) (sense : string) (rhs : linexpr)
| CAddQua (q : quadexpr) (sense : string) (l : linexpr) (ap : approx)
| CAddSoc (q : quadexpr) (sense : string) (l : linexpr)
| CSetObj (q : quadexpr) (l : linexpr).

Definition do_call (c : call) (p : problem) : outcome :=
  match c with
  | CAddVar ty lb ub g => cp_addVar ty lb ub g p
  | CAddLin a s b => cp_addLin a s b p
  | CAddQua q s l ap => cp_addQua q s l ap p
  | CAddSoc q s l => cp_addSoc q s l p
  | CSetObj q l => cp_setObj q l p
  end.

(** A history: exceptions are caught by the user, who continues with the next call. *)
Definition run_calls (cs : list call) (p : problem) : problem :=
  fold_left (fun p c => out_state (do_call c p)) cs p.

(** ** Storage written by buildProblem (Cone.hpp l.380-437, Cone.cpp l.424-451)
    [s_ok] becomes false when an index is out of range (undefined behaviour in C++). *)
Record storage := mkS {
  s_n : nat;                              (* numVars: columns of A and G *)
  s_me : nat;                             (* numLeq: rows of A *)
  s_m : nat;                              (* sizeLpc + sizeSoc: rows of G *)
  s_A : list (nat * nat * R);             (* Acoeffs_ (in reverse order of insertion) *)
  s_b : nat -> R;
  s_G : list (nat * nat * R);             (* Gcoeffs_ *)
  s_h : nat -> R;
  s_c : nat -> R;
  s_ok : bool }.

Definition upd (f : nat -> R) (i : nat) (v : R) : nat -> R := fun j => if Nat.eqb j i then v else f j.

(** Cone.cpp l.438-442: addCoeff(.., true). *)
Definition addA (r c : nat) (v : R) (s : storage) : storage :=
  mkS (s_n s) (s_me s) (s_m s) ((r, c, v) :: s_A s) (s_b s) (s_G s) (s_h s) (s_c s)
      (s_ok s && Nat.ltb r (s_me s) && Nat.ltb c (s_n s)).
(** Cone.cpp l.438-442: addCoeff(.., false). *)
Definition addG (r c : nat) (v : R) (s : storage) : storage :=
  mkS (s_n s) (s_me s) (s_m s) (s_A s) (s_b s) ((r, c, v) :: s_G s) (s_h s) (s_c s)
      (s_ok s && Nat.ltb r (s_m s) && Nat.ltb c (s_n s)).
(** assignment  b()[r] = v *)
Definition setB (r : nat) (v : R) (s : storage) : storage :=
  mkS (s_n s) (s_me s) (s_m s) (s_A s) (upd (s_b s) r v) (s_G s) (s_h s) (s_c s)
      (s_ok s && Nat.ltb r (s_me s)).
(** assignment  h()[r] = v *)
Definition setH (r : nat) (v : R) (s : storage) : storage :=
  mkS (s_n s) (s_me s) (s_m s) (s_A s) (s_b s) (s_G s) (upd (s_h s) r v) (s_c s)
      (s_ok s && Nat.ltb r (s_m s)).
(** assignment  c()[j] = v *)
Definition setC (j : nat) (v : R) (s : storage) : storage :=
  mkS (s_n s) (s_me s) (s_m s) (s_A s) (s_b s) (s_G s) (s_h s) (upd (s_c s) j v)
      (s_ok s && Nat.ltb j (s_n s)).
(** out-of-range read of a std::vector *)
Definition oob (s : storage) : storage :=
  mkS (s_n s) (s_me s) (s_m s) (s_A s) (s_b s) (s_G s) (s_h s) (s_c s) false.

(** [for (int i=i0; i<i0+l.size(); i++) body] where the body sees index and element. *)
Fixpoint loopi {A} (f : nat -> A -> storage -> storage) (i : nat) (l : list A) (s : storage) : storage :=
  match l with [] => s | a :: l' => loopi f (S i) l' (f i a s) end.

(** Values of the variables, read by getValue and get(SolverDoubleParam_X). *)
Definition p_env (p : problem) : nat -> R := fun c => nth c (map v_val (p_vars p)) 0.

(** l.107-113, 115-121: counts.  [warm] is the argument warm_start. *)
Definition n_tr (p : problem) : nat := List.length (filter q_trust (p_qineq p)).
Definition n_sc (p : problem) : nat := List.length (filter q_soft (p_qineq p)).
Definition sumn (l : list nat) : nat := fold_right Nat.add 0%nat l.
Definition b_mextra (p : problem) (warm : bool) : nat :=
  (List.length (q_extra (p_obj p)) + List.length (p_soc p)
   + sumn (map (fun q => List.length (q_terms q)) (p_qineq p)) + (if warm then 0 else n_sc p))%nat.
Definition b_nlineq (p : problem) (warm : bool) : nat :=
  (2 * List.length (p_bin p) + List.length (p_lineq p) + List.length (p_qineq p) + List.length (p_soc p)
   + (if warm then 0 else n_tr p))%nat.
Definition b_q (p : problem) (warm : bool) : list nat :=
  repeat 3%nat (b_mextra p warm - List.length (p_soc p))
  ++ map (fun q => List.length (q_terms q) + 1)%nat (p_soc p).

(** l.123-125: sizes and cleared storage (Vector::initialize, Cone.cpp l.320-325, zeroes c, b, h). *)
Definition b_empty (p : problem) (warm : bool) : storage :=
  mkS (List.length (p_vars p)) (List.length (p_leq p)) (b_nlineq p warm + sumn (b_q p warm))
      [] (fun _ => 0) [] (fun _ => 0) (fun _ => 0) true.

(** l.128-135: linear equality constraints; b is set inside the loop over the variables. *)
Definition b_leq (i : nat) (e : linexpr) (s : storage) : storage :=
  fold_left (fun s t => setB i (- le_const e) (addA i (fst t) (snd t) s)) (le_terms e) s.

(** l.138-143: bounds of binary variables. *)
Definition b_bin (p : problem) (i : nat) (col : nat) (s : storage) : storage :=
  match nth_error (p_binlb p) i, nth_error (p_binub p) i with
  | Some lb, Some ub =>
      setH (2 * i + 1) ub (setH (2 * i) lb (addG (2 * i + 1) col 1 (addG (2 * i) col (-1) s)))
  | _, _ => oob s
  end.

(** l.147-154: linear inequality constraints; h is set inside the loop over the variables. *)
Definition b_lineq (row : nat) (i : nat) (e : linexpr) (s : storage) : storage :=
  fold_left (fun s t => setH (row + i) (- le_const e) (addG (row + i) (fst t) (snd t) s)) (le_terms e) s.

(** addCoeff of all terms of a linear expression scaled by [f], in row [r]. *)
Definition b_terms (r : nat) (f : R) (ts : list (nat * R)) (s : storage) : storage :=
  fold_left (fun s t => addG r (fst t) (f * snd t) s) ts s.

(** l.158-170: linear part of quadratic constraints. *)
Definition b_qlin (row : nat) (i : nat) (q : quadexpr) (s : storage) : storage :=
  let s1 := loopi (fun k t s => match nth_error (q_extra q) k with
                                | Some c => addG (row + i) c (fst t) s
                                | None => oob s end) 0 (q_terms q) s in
  setH (row + i) (- le_const (q_lexpr q)) (b_terms (row + i) 1 (le_terms (q_lexpr q)) s1).

(** l.174-185: linear part of second-order cone constraints. *)
Definition b_soclin (row : nat) (i : nat) (q : quadexpr) (s : storage) : storage :=
  let s1 := match nth_error (q_extra q) 0 with Some c => addG (row + i) c 1 s | None => oob s end in
  setH (row + i) (- le_const (q_lexpr q)) (b_terms (row + i) 1 (le_terms (q_lexpr q)) s1).

(** l.189-190: linear part of the objective. *)
Definition b_objlin (p : problem) (s : storage) : storage :=
  fold_left (fun s t => setC (fst t) (snd t) s) (le_terms (q_lexpr (p_obj p))) s.

(** l.198-205 (f = 2): gradient of the quadratic part at the current values, in row [r];
    l.253-260 use twice the coefficient in G ([g] = 2) but the same in h. *)
Definition b_grad (p : problem) (g : R) (r : nat) (q : quadexpr) (s : storage) : storage :=
  fold_left (fun s t =>
    fold_left (fun s u =>
      let k := 2 * fst t * le_value (p_env p) (snd t) * snd u in
      let s1 := addG r (fst u) (- (g * k)) s in
      setH r (s_h s1 r - k * p_env p (fst u)) s1) (le_terms (snd t)) s) (q_terms q) s.

(** l.195-215: trust-region rows; [thr] is TrustRegionThreshold. *)
Definition b_trust (p : problem) (thr : R) (iter : nat) (row : nat) (i : nat) (q : quadexpr) (s : storage)
  : storage :=
  let s1 := b_grad p 1 (row + i) q (setH (row + i) 0 s) in
  let s2 := b_terms (row + i) (-1) (le_terms (q_lexpr q)) s1 in
  setH (row + i) (s_h s2 (row + i) + (le_const (q_lexpr q) + q_value (p_env p) q + thr ^ iter)) s2.

(** The three rows (1+t, t-1, 2 L) of l.220-234 and l.277-291. *)
Definition b_rot (r : nat) (c : nat) (l : linexpr) (s : storage) : storage :=
  let s1 := addG (r + 1) c (-1) (addG r c (-1) s) in
  let s2 := b_terms (r + 2) (-2) (le_terms l) s1 in
  setH (r + 2) (2 * le_const l) (setH (r + 1) (-1) (setH r 1 s2)).

(** l.220-236: quadratic part of the objective: one block per extra variable. *)
Definition b_objq (p : problem) (row : nat) (i : nat) (c : nat) (s : storage) : storage :=
  match nth_error (q_terms (p_obj p)) i with
  | Some (a, l) => setC c a (b_rot (row + 3 * i) c l s)
  | None => oob s
  end.

(** l.242-271: soft constraints; [w] is SoftConstraintWeightReduced. *)
Definition b_soft (p : problem) (w : R) (row : nat) (i : nat) (q : quadexpr) (s : storage) : storage :=
  match rev (q_extra q) with
  | [] => oob s
  | c :: _ =>
    let r := (row + 3 * i)%nat in
    let s1 := setH (r + 2) 0 (setH (r + 1) (-1) (setH r 1 s)) in
    let s2 := b_grad p 2 (r + 2) q (addG (r + 1) c (-1) (addG r c (-1) s1)) in
    let s3 := b_terms (r + 2) (-2) (le_terms (q_lexpr q)) s2 in
    let s4 := setH (r + 2) (s_h s3 (r + 2) + (le_const (q_lexpr q) + q_value (p_env p) q)) s3 in
    let s5 := setH (r + 2) (2 * s_h s4 (r + 2)) s4 in
    setC c w s5
  end.

(** l.277-292: quadratic part of one quadratic constraint, rows from [row]. *)
Definition b_qquad (row : nat) (q : quadexpr) (s : storage) : storage :=
  loopi (fun k t s => match nth_error (q_extra q) k with
                      | Some c => b_rot (row + 3 * k) c (snd t) s
                      | None => oob s end) 0 (q_terms q) s.
(** l.276-294. *)
Fixpoint b_qquads (row : nat) (qs : list quadexpr) (s : storage) : storage :=
  match qs with
  | [] => s
  | q :: qs' => b_qquads (row + 3 * List.length (q_terms q)) qs' (b_qquad row q s)
  end.

(** l.299-311: second-order cone block. *)
Definition b_socquad (row : nat) (q : quadexpr) (s : storage) : storage :=
  match nth_error (q_extra q) 0 with
  | None => oob s
  | Some c =>
    loopi (fun k t s => setH (row + k + 1) (le_const (snd t))
                          (b_terms (row + k + 1) (-1) (le_terms (snd t)) s))
      0 (q_terms q) (setH row 0 (addG row c (-1) s))
  end.
(** l.297-313. *)
Fixpoint b_socquads (row : nat) (qs : list quadexpr) (s : storage) : storage :=
  match qs with
  | [] => s
  | q :: qs' => b_socquads (row + (List.length (q_terms q) + 1)) qs' (b_socquad row q s)
  end.

(** l.101-317: buildProblem(iter_id, warm_start). *)
Definition cp_build (thr w : R) (iter : nat) (warm : bool) (p : problem) : storage :=
  let s := b_empty p warm in
  let s := loopi b_leq 0 (p_leq p) s in
  let s := loopi (b_bin p) 0 (p_bin p) s in
  let row := (2 * List.length (p_bin p))%nat in
  let s := loopi (b_lineq row) 0 (p_lineq p) s in
  let row := (row + List.length (p_lineq p))%nat in
  let s := loopi (b_qlin row) 0 (p_qineq p) s in
  let row := (row + List.length (p_qineq p))%nat in
  let s := loopi (b_soclin row) 0 (p_soc p) s in
  let row := (row + List.length (p_soc p))%nat in
  let s := b_objlin p s in
  let s := if warm then s else loopi (b_trust p thr iter row) 0 (filter q_trust (p_qineq p)) s in
  let row := (row + (if warm then 0 else n_tr p))%nat in
  let s := loopi (b_objq p row) 0 (q_extra (p_obj p)) s in
  let row := (row + 3 * List.length (q_extra (p_obj p)))%nat in
  let s := if warm then s else loopi (b_soft p w row) 0 (filter q_soft (p_qineq p)) s in
  let row := (row + (if warm then 0 else 3 * n_sc p))%nat in
  let s := b_qquads row (p_qineq p) s in
  let row := (row + 3 * sumn (map (fun q => List.length (q_terms q)) (p_qineq p)))%nat in
  b_socquads row (p_soc p) s.

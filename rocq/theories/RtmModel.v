(** * Model of the real-time model class
    Source: solver/include/solver/rt_optimizer/{RtModel.h,RtModel.hpp,RtHQPCost.hpp}.  Exact reals, so the finiteness tests of l.167-181 always pass and are left out,
    as are the time measurements (l.201-204), printing and the notification of the sub-cost composers (l.208-210). *)
From Coq Require Import Reals List Arith ZArith Bool.
Import ListNotations.
From Verif Require Import Base ExprsModel RtMatModel HierModel.
Local Open Scope R_scope.

(** reduceColumns l.42-77: the in-place compaction of the columns; the index array [flags] does not move. *)
Definition inactive (f : Z) : bool := (f <? 0)%Z.
Definition active (f : Z) : bool := (0 <=? f)%Z.
Fixpoint rc_loop {A} (fuel : nat) (flags : list Z) (cols : list A) (first start : nat) : list A * nat :=
  let n := List.length flags in
  match fuel with
  | O => (cols, first)
  | S fuel' =>
    let start := find_from active n flags start in
    if (n <=? start)%nat then (cols, first)
    else let fin := find_from inactive n flags (start + 1)%nat in
         rc_loop fuel' flags (blit cols first start (fin - start)%nat) (first + (fin - start))%nat fin
  end.
Definition reduce_list {A} (flags : list Z) (cols : list A) : list A :=
  let first := find_from inactive (List.length flags) flags 0 in
  let '(cols', first') := rc_loop (List.length flags) flags cols first (first + 1)%nat in
  firstn first' cols'.
(** A matrix with its vector, as the list of its rows. *)
Definition row := ((nat -> R) * R)%type.
Definition columns (n : nat) (rows : list row) : list (list R) := map (fun j => map (fun r => fst r j) rows) (seq 0 n).
Definition reduce_rows (flags : list Z) (n : nat) (rows : list row) : res (nat * list row) :=
  guard (n =? List.length flags)%nat
    (let cols := reduce_list flags (columns n rows) in
     Ok (List.length cols, map (fun ir => ((fun j => nth (fst ir) (nth j cols []) 0), snd (snd ir))) (combine (seq 0 (List.length rows)) rows))).

(** addLinConstr l.230-236 *)
Inductive sense := SEq | SLt | SGt | SOther.
Record cons := mkC { leq : list (Z * linexpr); lineq : list (Z * linexpr) }.
Definition addLinConstr (c : cons) (lhs : linexpr) (s : sense) (rhs : linexpr) (rank : Z) : res cons :=
  match s with
  | SEq => Ok (mkC (leq c ++ [(rank, le_sub lhs rhs)]) (lineq c))
  | SLt => Ok (mkC (leq c) (lineq c ++ [(rank, le_sub lhs rhs)]))
  | SGt => Ok (mkC (leq c) (lineq c ++ [(rank, le_sub rhs lhs)]))
  | SOther => Throw
  end.
(** clean l.215-219 *)
Definition clean_cons : cons := mkC [] [].
(** checkIfHigherRanksLeft l.239-247 *)
Definition higher_left (c : cons) (rank : Z) : bool := existsb (fun x => rank <? fst x)%Z (leq c) || existsb (fun x => rank <? fst x)%Z (lineq c).
(** The inner loop of addCostsToHierarchy l.268-275, l.293-300: assignment of the coefficients in a zero row; [n] columns. *)
Definition build_row (n : nat) (e : linexpr) : res row :=
  bind (foldM (fun r t => guard (fst t <? n)%nat (Ok (upd r (fst t) (snd t)))) (le_terms e) (fun _ => 0)) (fun r => Ok (r, le_const e)).
Fixpoint mapM {A B} (f : A -> res B) (l : list A) : res (list B) :=
  match l with [] => Ok [] | a :: t => bind (f a) (fun b => bind (mapM f t) (fun bs => Ok (b :: bs))) end.
(** addCostsToHierarchy l.250-303, one of the two halves; [cap] rows at most. *)
Definition add_costs (cap n : nat) (cs : list (Z * linexpr)) (rank : Z) (rows : list row) : res (list row) :=
  bind (mapM (build_row n) (map snd (filter (fun x => fst x =? rank)%Z cs))) (fun new =>
  guard (List.length rows + List.length new <=? cap)%nat (Ok (rows ++ new))).
(** appendRowsOfRank l.82-126: the rows of [mat] whose rank is requested, written at a starting column of zero rows. *)
Definition append_rows_of_rank (cap n : nat) (rank : Z) (ranks : list Z) (mat_cols : nat) (mat_ : list row) (col : nat) (rows : list row) : res (list row) :=
  let sel := filter (fun x => fst x =? rank)%Z (combine ranks mat_) in
  if (List.length sel =? 0)%nat then Ok rows
  else guard ((List.length mat_ =? List.length ranks) && (col + mat_cols <=? n) && (List.length rows + List.length sel <=? cap))%nat
         (Ok (rows ++ map (fun x => ((fun j => if ((col <=? j) && (j <? col + mat_cols))%nat then fst (snd x) (j - col)%nat else 0), snd (snd x))) sel)).
(** inequalitySlack l.130-136: the argument is modified; its norm is returned. *)
Definition inequalitySlack (d : vec) : vec * R :=
  let d' := Vec (vn d) (fun i => if Rle_dec (va d i) 0 then va d i * 0 else va d i * 1) in
  (d', sqrt (rsum (vn d') (fun i => va d' i * va d' i))).
(** checkSlacknessOfHierarchy l.306-312: the assignment after the loop is unconditional. *)
Definition check_slackness (noslack : list Z) (rank : Z) (flag : bool) : bool :=
  let f := fold_left (fun f x => if (x =? rank)%Z then false else f) noslack flag in true.

(** A sub-cost composer (RtHQPCost.hpp l.17-27): its maximal rank and the rows it appends before and after the reduction. *)
Record composer := mkComp { cp_max : Z; cp_eq : Z -> list row; cp_ineq : Z -> list row; cp_eq_after : Z -> list row; cp_ineq_after : Z -> list row }.
Definition nnz (n : nat) (rows : list row) : list row := removeZeroRows n rows.
Definition to_mat (n : nat) (rows : list row) : mat := Mat (List.length rows) n (fun i j => fst (nth i rows ((fun _ => 0), 0)) j).
Definition to_vec (rows : list row) : vec := Vec (List.length rows) (fun i => snd (nth i rows ((fun _ => 0), 0))).

Section Solve.
Variable nullmap : mat -> mat.
Variable qp : mat -> vec -> mat -> vec -> option vec.
Variable least_norm : mat -> vec -> vec.
Variable relax diag : R.
(** Max_Ineq_Rows, Max_Eq_Rows, and All_A_Rows of the solver *)
Variable capIneq capEq capA : nat.
(** Num_OptVars, full_to_opt_variable_index_, num_variables_optimized_ *)
Variable n : nat.
Variable flags : list Z.
Variable nopt : nat.
Variable comps : list composer.
Variable noslack : list Z.

(** The task built in one turn of the loop, l.147-190. *)
Definition build_task (c : cons) (rank : Z) (slack : bool) : res task :=
  bind (add_costs capEq n (leq c) rank (flat_map (fun p => cp_eq p rank) comps)) (fun eq0 =>
  bind (add_costs capIneq n (lineq c) rank (flat_map (fun p => cp_ineq p rank) comps)) (fun in0 =>
  bind (reduce_rows flags n eq0) (fun me => bind (reduce_rows flags n in0) (fun mi =>
  let eqr := nnz (fst me) (snd me) ++ flat_map (fun p => cp_eq_after p rank) comps in
  let inr := nnz (fst mi) (snd mi) ++ flat_map (fun p => cp_ineq_after p rank) comps in
  guard ((List.length eqr <=? capEq) && (List.length inr <=? capIneq))%nat
  (Ok (mkT (to_mat (fst me) eqr) (to_vec eqr) (to_mat (fst mi) inr) (to_vec inr) slack)))))).
Definition ranks_left (c : cons) (rank : Z) : bool := higher_left c rank || existsb (fun p => rank <? cp_max p)%Z comps.

Record result := mkRes { r_valid : bool; r_solved : nat; r_state : hst; r_tasks : list task }.
(** solve l.139-212.  [s]: the state of the hierarchical solver; [slack]: applyIneqSlacks().  [None]: still looping when the fuel is used up. *)
Fixpoint solve_loop (fuel : nat) (c : cons) (rank : Z) (slack : bool) (s : hst) (solved : nat) (done : list task) : option (res result) :=
  match fuel with
  | O => None
  | S fuel' =>
    let slack := if (List.length noslack =? 0)%nat then slack else check_slackness noslack rank slack in
    match build_task c rank slack with
    | Throw => Some Throw
    | UB => Some UB
    | Ok t =>
      let s := if (rank =? 0)%Z then h_reset nopt else s in
      match h_task nullmap qp least_norm relax diag capA capEq s t with
      | Throw => Some Throw
      | UB => Some UB
      | Ok (s', ok) =>
        let solved := if ok then S solved else solved in
        if (ranks_left c rank && negb (nc (h_K s') =? 0)%nat && ok)%bool then solve_loop fuel' c (rank + 1) slack s' solved (done ++ [t])
        else Some (Ok (mkRes ok solved s' (done ++ [t])))
      end
    end
  end.
Definition solve (fuel : nat) (c : cons) (slack : bool) (s : hst) : option (res result) := solve_loop fuel c 0 slack s 0 [].
End Solve.

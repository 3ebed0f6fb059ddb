(** * Model of the linear-system layer of the interior-point solver
    Source: solver/src/solver/optimizer/LinSolver.cpp (all of it), Cone.cpp l.195-260 (conicNTScaling2, unpermuteSolution).
    Problem data: n variables, p equality rows, cone layout (nl, q) as in ConeModel.  The stored sparse matrices are given by columns:
    [At r] is the column r of Atmatrix (entries (variable, value) of the equality row r), [Gt r] column r of Gtmatrix,
    [Am i], [Gm i] the columns of Amatrix and Gmatrix.  Vectors are functions of the index, reals for doubles.
    Index order of an extended vector: x (n), y (p), linear cone rows (nl), then per second-order block its rows and two extra rows.
    Eigen's AMDOrdering is any permutation; Eigen's setFromTriplets keeps the triplets, which buildProblem pushes column by column
    (rows ascending inside a column as the columns of At and Gt are), and twistedBy<Upper> is modelled as Eigen implements it
    (permute_symm_to_symm: counting sort by the larger permuted index, in the order of the source entries). *)
From Coq Require Import Reals List Arith Bool.
From Verif Require Import Base ConeModel LdlModel.
Import ListNotations.
Open Scope R_scope.

Notation triplet := (nat * nat * R)%type.
Definition t_row (t : triplet) := fst (fst t).
Definition t_col (t : triplet) := snd (fst t).
Definition t_val (t : triplet) := snd t.

Record ldata := mkLD { d_n : nat; d_p : nat; d_nl : nat; d_q : list nat; d_At : smatrix; d_Gt : smatrix; d_Am : smatrix; d_Gm : smatrix }.
(** Cone.cpp l.38-46: sizes. *)
Definition total (q : list nat) : nat := fold_right Nat.add 0%nat q.
Definition extSizeCone (nl : nat) (q : list nat) : nat := (nl + total q + 2 * length q)%nat.
Definition extSizeProb (d : ldata) : nat := (d_n d + d_p d + extSizeCone (d_nl d) (d_q d))%nat.

(** ** buildProblem, l.31-87 *)
(** The entries of one column of A' or G' pushed into KKT column c. *)
Definition push_col (c : nat) (l : list (nat * R)) : list triplet := map (fun e => (fst e, c, snd e)) l.
(** l.65-83: blocks; [b] = n+p, [st] = startSoc(l), [l] the block number. *)
Fixpoint kkt_socs (Gt : smatrix) (b st l : nat) (q : list nat) : list triplet :=
  match q with
  | [] => []
  | m :: q' =>
    let e := (b + st + 2 * l)%nat in
    flat_map (fun id => push_col (e + id) (Gt (st + id)%nat) ++ [((e + id)%nat, (e + id)%nat, -1)]) (seq 0 m)
    ++ map (fun id => ((e + id)%nat, (e + m)%nat, 0)) (seq 1 (m - 1)) ++ [((e + m)%nat, (e + m)%nat, -1)]
    ++ map (fun id => ((e + id)%nat, (e + m + 1)%nat, 0)) (seq 0 m) ++ [((e + m + 1)%nat, (e + m + 1)%nat, 1)]
    ++ kkt_socs Gt b (st + m) (S l) q'
  end.
Definition kkt_triplets (d : ldata) (reg : R) : list triplet :=
  let n := d_n d in let p := d_p d in
  map (fun id => (id, id, reg)) (seq 0 n)
  ++ flat_map (fun id => push_col (n + id) (d_At d id) ++ [((n + id)%nat, (n + id)%nat, - reg)]) (seq 0 p)
  ++ flat_map (fun id => push_col (n + p + id) (d_Gt d id) ++ [((n + p + id)%nat, (n + p + id)%nat, -1)]) (seq 0 (d_nl d))
  ++ kkt_socs (d_Gt d) (n + p) (d_nl d) 0 (d_q d).

(** l.60: indexLpc; nonZeros of leftCols. *)
Definition nnz_left (M : smatrix) (k : nat) : nat := nsum k (fun j => length (M j)).
Definition indexLpc (d : ldata) (id : nat) : nat :=
  (d_n d + d_p d + nnz_left (d_At d) (d_p d) + nnz_left (d_Gt d) (S id) + id)%nat.
(** l.63-74: indexSoc(0..m-1) of every block. *)
Definition soc_diag (Gt : smatrix) (k st m : nat) : list nat :=
  map (fun id => (k + nsum id (fun j => length (Gt (st + j)%nat) + 1) + length (Gt (st + id)%nat))%nat) (seq 0 m).
Fixpoint indexSocs (Gt : smatrix) (k st : nat) (q : list nat) : list (list nat) :=
  match q with
  | [] => []
  | m :: q' => soc_diag Gt k st m :: indexSocs Gt (k + nsum m (fun j => length (Gt (st + j)%nat) + 1) + (2 * m + 1))%nat (st + m) q'
  end.
Definition indexSoc0 (d : ldata) : list (list nat) :=
  indexSocs (d_Gt d) (d_n d + d_p d + nnz_left (d_At d) (d_p d) + nnz_left (d_Gt d) (d_nl d) + d_nl d)%nat (d_nl d) (d_q d).

(** ** findPermutation, l.89-99: twistedBy(invPerm_), and the position map permK_, l.188-197 *)
(** Column of the upper triangle an entry goes to. *)
Definition pcol (inv : nat -> nat) (t : triplet) : nat := Nat.max (inv (t_row t)) (inv (t_col t)).
Definition prow (inv : nat -> nat) (t : triplet) : nat := Nat.min (inv (t_row t)) (inv (t_col t)).
(** outerIndexPtr of permKkt_: number of entries of smaller columns. *)
Definition outer (inv : nat -> nat) (T : list triplet) (c : nat) : nat := length (filter (fun t => Nat.ltb (pcol inv t) c) T).
(** index[col]++ over the entries in storage order: the positions. *)
Fixpoint positions (inv : nat -> nat) (index : nat -> nat) (T : list triplet) : list nat :=
  match T with
  | [] => []
  | t :: T' => index (pcol inv t) :: positions inv (upd index (pcol inv t) (S (index (pcol inv t)))) T'
  end.
Definition permK (inv : nat -> nat) (T : list triplet) : list nat := positions inv (outer inv T) T.
(** The arrays of permKkt_. *)
Definition scatter {A} (pos : list nat) (vals : list A) (f : nat -> A) : nat -> A :=
  fold_left (fun f pv => upd f (fst pv) (snd pv)) (combine pos vals) f.
Definition perm_inner (inv : nat -> nat) (T : list triplet) : nat -> nat := scatter (permK inv T) (map (prow inv) T) (fun _ => 0%nat).
Definition perm_value (inv : nat -> nat) (T : list triplet) : nat -> R := scatter (permK inv T) (map t_val T) (fun _ => 0).
(** The permuted matrix as columns, for a value array. *)
Definition perm_matrix (inv : nat -> nat) (T : list triplet) (value : nat -> R) : smatrix :=
  fun c => map (fun k => (perm_inner inv T k, value k)) (seq (outer inv T c) (outer inv T (S c) - outer inv T c)).

(** l.199-208: positions of the scalings in permKkt_. *)
Definition at_ (l : list nat) (i : nat) : nat := nth i l 0%nat.
Definition perm_indexLpc (d : ldata) (pK : list nat) (id : nat) : nat := at_ pK (indexLpc d id).
(** Entry k of the 3*m+1 indices of a block with diagonal indices [ix]. *)
Definition perm_indexSoc (pK ix : list nat) (m k : nat) : nat :=
  if Nat.ltb k m then at_ pK (at_ ix k) else at_ pK (at_ ix (m - 1) + (k - m + 1)).

(** ** updateMatrix, l.236-266: the writes value[position] = v, in order *)
Definition soc_writes (reg : R) (pK ix : list nat) (m : nat) (b : ntsoc) : list (nat * R) :=
  let e2 := nt_eta2 b in
  [(perm_indexSoc pK ix m 0, - e2 * nt_d1 b - reg)]
  ++ map (fun k => (perm_indexSoc pK ix m k, - e2 - reg)) (seq 1 (m - 1))
  ++ map (fun k => (perm_indexSoc pK ix m (m + k), - e2 * nt_v1 b * nt_wbar b (k + 1)%nat)) (seq 0 (m - 1))
  ++ [(perm_indexSoc pK ix m (2 * m - 1), - e2)]
  ++ [(perm_indexSoc pK ix m (2 * m), - e2 * nt_u0 b)]
  ++ map (fun k => (perm_indexSoc pK ix m (2 * m + 1 + k), - e2 * nt_u1 b * nt_wbar b (k + 1)%nat)) (seq 0 (m - 1))
  ++ [(perm_indexSoc pK ix m (3 * m), e2 + reg)].
Fixpoint socs_writes (reg : R) (pK : list nat) (ixs : list (list nat)) (q : list nat) (bs : list ntsoc) : list (nat * R) :=
  match ixs, q, bs with
  | ix :: ixs', m :: q', b :: bs' => soc_writes reg pK ix m b ++ socs_writes reg pK ixs' q' bs'
  | _, _, _ => []
  end.
Definition apply_writes (ws : list (nat * R)) (value : nat -> R) : nat -> R := fold_left (fun f w => upd f (fst w) (snd w)) ws value.
Definition updateMatrix (d : ldata) (reg : R) (pK : list nat) (W : scaling) (value : nat -> R) : nat -> R :=
  apply_writes (map (fun i => (perm_indexLpc d pK i, - sc_lp2 W i - reg)) (seq 0 (d_nl d)) ++ socs_writes reg pK (indexSoc0 d) (d_q d) (sc_soc W)) value.

(** initializeMatrix, l.211-234: the same positions with the identity scaling, without the regularisation. *)
Definition soc_init_writes (pK ix : list nat) (m : nat) : list (nat * R) :=
  [(perm_indexSoc pK ix m 0, -1)]
  ++ map (fun k => (perm_indexSoc pK ix m k, -1)) (seq 1 (m - 1))
  ++ map (fun k => (perm_indexSoc pK ix m (m + k), 0)) (seq 0 (m - 1))
  ++ [(perm_indexSoc pK ix m (2 * m - 1), -1)]
  ++ [(perm_indexSoc pK ix m (2 * m), 0)]
  ++ map (fun k => (perm_indexSoc pK ix m (2 * m + 1 + k), 0)) (seq 0 (m - 1))
  ++ [(perm_indexSoc pK ix m (3 * m), 1)].
Fixpoint socs_init_writes (pK : list nat) (ixs : list (list nat)) (q : list nat) : list (nat * R) :=
  match ixs, q with
  | ix :: ixs', m :: q' => soc_init_writes pK ix m ++ socs_init_writes pK ixs' q'
  | _, _ => []
  end.
Definition initializeMatrix (d : ldata) (pK : list nat) (value : nat -> R) : nat -> R :=
  apply_writes (map (fun i => (perm_indexLpc d pK i, -1)) (seq 0 (d_nl d)) ++ socs_init_writes pK (indexSoc0 d) (d_q d)) value.

(** l.36-41: signs of the pivots. *)
Fixpoint sign_ext (e : nat) (q : list nat) (f : nat -> R) : nat -> R :=
  match q with [] => f | m :: q' => sign_ext (e + m + 2) q' (upd f (e + m + 1)%nat 1) end.
Definition sign (d : ldata) : nat -> R :=
  sign_ext (d_n d + d_p d + d_nl d) (d_q d) (fun i => if Nat.ltb i (d_n d) then 1 else -1).

(** ** unpermuteSolution, Cone.cpp l.222-259 *)
(** dz[j++] = Px[perm[k++]], k += 2 after every block *)
Fixpoint unperm_soc (inv : nat -> nat) (Px : nat -> R) (k j : nat) (q : list nat) (dz : nat -> R) : nat -> R :=
  match q with
  | [] => dz
  | m :: q' => unperm_soc inv Px (k + m + 2) (j + m) q' (fun i => if (Nat.leb j i && Nat.ltb i (j + m))%bool then Px (inv (k + (i - j))%nat) else dz i)
  end.
Record dir := mkDir { dx : nat -> R; dy : nat -> R; dz : nat -> R }.
Definition unpermute (d : ldata) (inv : nat -> nat) (Px : nat -> R) : dir :=
  mkDir (fun i => Px (inv i)) (fun i => Px (inv (i + d_n d)%nat))
        (unperm_soc inv Px (d_n d + d_p d + d_nl d) (d_nl d) (d_q d) (fun i => Px (inv (i + (d_n d + d_p d))%nat))).
Definition permdZ (d : ldata) (inv : nat -> nat) (Px : nat -> R) : nat -> R := fun i => Px (inv (i + (d_n d + d_p d))%nat).

(** ** solve, l.112-174 *)
(** l.268-306: column dot product. *)
Definition col_dot (l : list (nat * R)) (x : nat -> R) : R := fold_right Rplus 0 (map (fun e => snd e * x (fst e)) l).
(** l.150-155: G part of the z error; [e] and [st] the extended and plain starts of the block. *)
Fixpoint errz_soc (Gdx z : nat -> R) (reg : R) (e st : nat) (q : list nat) (ez : nat -> R) : nat -> R :=
  match q with
  | [] => ez
  | m :: q' => errz_soc Gdx z reg (e + m + 2) (st + m) q'
      (fun i => if (Nat.leb e i && Nat.ltb i (e + (m - 1)))%bool then ez i + (- Gdx (st + (i - e))%nat + reg * z (st + (i - e))%nat)
                else if Nat.eqb i (e + m - 1) then ez i - (Gdx (st + m - 1)%nat + reg * z (st + m - 1)%nat) else ez i)
  end.
(** Cone.cpp l.195-220 on the extended z vector. *)
Fixpoint scaling2_soc (x : nat -> R) (e : nat) (q : list nat) (bs : list ntsoc) (y : nat -> R) : nat -> R :=
  match q, bs with
  | m :: q', b :: bs' => scaling2_soc x (e + m + 2) q' bs'
      (fun i => if (Nat.leb e i && Nat.ltb i (e + m + 2))%bool then scal2_blk b m (shift x e) (shift y e) (i - e) else y i)
  | _, _ => y
  end.
Definition conicNTScaling2 (nl : nat) (q : list nat) (W : scaling) (x y : nat -> R) : nat -> R :=
  scaling2_soc x nl q (sc_soc W) (fun i => if Nat.ltb i nl then y i + sc_lp2 W i * x i else y i).
(** l.134-157: the error vector of a candidate permX; [W] = None during initialisation; [annz] = Amatrix().nonZeros()>0. *)
Definition lin_error (d : ldata) (reg : R) (W : option scaling) (annz : bool) (inv : nat -> nat) (permB Px : nat -> R) : nat -> R :=
  let n := d_n d in let p := d_p d in
  let D := unpermute d inv Px in
  let Z := permdZ d inv Px in
  let b := fun i => permB (inv i) in
  let Gdx := fun r => col_dot (d_Gt d r) (dx D) in
  let ez := fun i => if Nat.ltb i (d_nl d) then b (n + p + i)%nat + (- Gdx i + reg * dz D i) else b (n + p + i)%nat in
  let ez := errz_soc Gdx (dz D) reg (d_nl d) (d_nl d) (d_q d) ez in
  let ez := match W with None => fun i => ez i + Z i | Some W => conicNTScaling2 (d_nl d) (d_q d) W Z ez end in
  fun i =>
    if Nat.ltb i n then b i - col_dot (d_Am d i) (dy D) - col_dot (d_Gm d i) (dz D) - reg * dx D i
    else if Nat.ltb i (n + p) then (if annz then b i - col_dot (d_At d (i - n)%nat) (dx D) + reg * dy D (i - n)%nat else b i)
    else ez (i - (n + p))%nat.
(** lpNorm<Infinity> *)
Definition norm_inf (N : nat) (v : nat -> R) : R := fold_left (fun m i => Rmax m (Rabs (v i))) (seq 0 N) 0.
(** l.166: Pe_[Pinv[i]] = err[i] *)
Definition perm_scatter (N : nat) (inv : nat -> nat) (err Pe : nat -> R) : nat -> R := scatter (map inv (seq 0 N)) (map err (seq 0 N)) Pe.
(** l.132-169: the loop from iteration [k]; result permX_ and numRefs.  [chol] is getCholesky().solve. *)
Fixpoint refine (fuel : nat) (N : nat) (error : (nat -> R) -> nat -> R) (chol : (nat -> R) -> nat -> R) (inv : nat -> nat) (Pe : nat -> R)
    (limit : nat) (thresh factor : R) (k : nat) (X dX : nat -> R) (prev : R) : res ((nat -> R) * nat) :=
  match fuel with
  | O => UB
  | S f =>
    if Nat.ltb limit k then Ok (X, k) else
    let err := error X in
    let cur := norm_inf N err in
    if (Nat.ltb 0 k && (if Rlt_dec prev cur then true else false))%bool then Ok ((fun i => X i - dX i), (k - 1)%nat) else
    if (Nat.eqb k limit || (if Rlt_dec cur thresh then true else false) || (Nat.ltb 0 k && (if Rlt_dec prev (factor * cur) then true else false)))%bool then Ok (X, k) else
    let Pe' := perm_scatter N inv err Pe in
    let dX' := chol Pe' in
    refine f N error chol inv Pe' limit thresh factor (S k) (fun i => X i + dX' i) dX' cur
  end.
(** SolverSetting.hpp l.59: the sentinel (double)0x7ff8000000000000. *)
Definition nan : R := 9221120237041090560.
Definition lin_solve (d : ldata) (reg : R) (W : option scaling) (annz : bool) (inv : nat -> nat) (chol : (nat -> R) -> nat -> R)
    (limit : nat) (acc factor : R) (Pe0 dX0 permB : nat -> R) : res (dir * nat) :=
  let N := extSizeProb d in
  let thresh := (1 + norm_inf N permB) * acc in
  bind (refine (limit + 2) N (lin_error d reg W annz inv permB) chol inv Pe0 limit thresh factor 0 (chol permB) dX0 nan)
       (fun '(X, k) => Ok (unpermute d inv X, k)).

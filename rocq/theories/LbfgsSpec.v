(** * What a user expects of L-BFGS, independent of the implementation *)
From Coq Require Import Reals List Arith ZArith.
Import ListNotations.
Open Scope R_scope.

Definition dot (n : nat) (x y : nat -> R) : R := fold_right Rplus 0 (map (fun i => x i * y i) (seq 0 n)).
Definition norm2 (n : nat) (x : nat -> R) : R := sqrt (dot n x x).

(** The point x + a d. *)
Definition is_point (n : nat) (z x d : nat -> R) (a : R) : Prop := forall i, (i < n)%nat -> z i = x i + a * d i.

Section Conditions.
Variables (n : nat) (F : (nat -> R) -> R) (G : (nat -> R) -> nat -> R).
(** Conditions on the point z reached from x along d with step a, as documented in LbfgsSolver.hpp l.118-149. *)
Definition sufficient_decrease (ftol : R) (x d z : nat -> R) (a : R) : Prop := F z <= F x + ftol * a * dot n (G x) d.
Definition curvature (wolfe : R) (x d z : nat -> R) : Prop := wolfe * dot n (G x) d <= dot n (G z) d.
Definition strong_curvature (wolfe : R) (x d z : nat -> R) : Prop := Rabs (dot n (G z) d) <= wolfe * Rabs (dot n (G x) d).
(** The documented convergence criterion |g(x)| / max(1, |x|) <= epsilon. *)
Definition small_gradient (eps : R) (x : nat -> R) : Prop := norm2 n (G x) / Rmax 1 (norm2 n x) <= eps.
End Conditions.

(** The inverse BFGS matrix built from a list of correction pairs (s, y), newest first, and a scaling of the identity:
    H' = (I - rho s y^T) H (I - rho y s^T) + rho s s^T with rho = 1 / (y^T s)   (Nocedal 1980). *)
Definition msum (n : nat) (f : nat -> R) : R := fold_right Rplus 0 (map f (seq 0 n)).
Definition mmul (n : nat) (A B : nat -> nat -> R) (i j : nat) : R := msum n (fun k => A i k * B k j).
Definition delta (i j : nat) : R := if Nat.eqb i j then 1 else 0.
Fixpoint bfgs (n : nat) (gamma : R) (ps : list ((nat -> R) * (nat -> R))) : nat -> nat -> R :=
  match ps with
  | [] => fun i j => gamma * delta i j
  | (s, y) :: ps' =>
    let rho := / dot n y s in
    fun i j => mmul n (mmul n (fun i k => delta i k - rho * s i * y k) (bfgs n gamma ps')) (fun k j => delta k j - rho * y k * s j) i j + rho * s i * s j
  end.
Definition mvec (n : nat) (A : nat -> nat -> R) (v : nat -> R) (i : nat) : R := msum n (fun j => A i j * v j).

(** The correction pairs of a history of iterates (point, gradient), newest first. *)
Fixpoint corrections (h : list ((nat -> R) * (nat -> R))) : list ((nat -> R) * (nat -> R)) :=
  match h with
  | (x1, g1) :: (((x0, g0) :: _) as t) => ((fun i => x1 i - x0 i), (fun i => g1 i - g0 i)) :: corrections t
  | _ => []
  end.

(** Squared violation of l <= v <= u. *)
Definition violation2 (v l u : R) : R := Rsqr (Rmax 0 (l - v)) + Rsqr (Rmax 0 (v - u)).

(** ** Backtracking: the documented search.  The step is halved while it is too long and enlarged by 2.1 while it is too short. *)
Inductive condition := CArmijo | CWolfe | CStrongWolfe.
Section Backtracking.
Variables (n : nat) (F : (nat -> R) -> R) (G : (nat -> R) -> nat -> R) (cond : condition) (ftol wolfe : R) (x d : nat -> R).
Definition along (a : R) : nat -> R := fun i => x i + a * d i.
Definition accepted_step (a : R) : Prop :=
  sufficient_decrease n F G ftol x d (along a) a /\
  match cond with CArmijo => True | CWolfe => curvature n G wolfe x d (along a) | CStrongWolfe => strong_curvature n G wolfe x d (along a) end.
Definition too_short (a : R) : Prop := cond <> CArmijo /\ sufficient_decrease n F G ftol x d (along a) a /\ ~ curvature n G wolfe x d (along a).
Definition too_long (a : R) : Prop := ~ accepted_step a /\ ~ too_short a.
(** [search a k b]: starting from step a the k-th trial is the first accepted one, b. *)
Inductive search : R -> Z -> R -> Prop :=
  | search_accept : forall a, accepted_step a -> search a 1 a
  | search_shrink : forall a k b, too_long a -> search (a * (1 / 2)) k b -> search a (k + 1) b
  | search_grow : forall a k b, too_short a -> search (a * (21 / 10)) k b -> search a (k + 1) b.
End Backtracking.

(** ** Cubic and quadratic interpolation *)
Definition cubic (a b c e x : R) : R := a * x ^ 3 + b * x ^ 2 + c * x + e.
Definition cubic' (a b c x : R) : R := 3 * a * x ^ 2 + 2 * b * x + c.
Definition cubic'' (a b x : R) : R := 6 * a * x + 2 * b.

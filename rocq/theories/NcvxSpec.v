(** * Specification vocabulary for the search over problems with approximated constraints, independent of the algorithm *)
From Coq Require Import Reals List Arith ZArith String.
From Verif Require Import IpModel BnbModel BnbSpec ExprsModel ConicModel ConicSpec ScpModel ScpSpec.
Import ListNotations.
Open Scope R_scope.

(** The solver of a node: keeps the state well formed, its optimal answers satisfy [F] and respect the decisions, and an answer that is not
    optimal but is used all the same cannot be mistaken for an integral one. *)
Definition sound_ask {O : Type} (F : (nat -> R) -> Prop) (ids : list nat) (tol : R) (okO : O -> Prop) (ask : O -> list Z -> exitcode * (nat -> R) * R * O) : Prop :=
  forall o dec c x v o', okO o -> List.length dec = List.length ids -> (forall d, In d dec -> d = 1%Z \/ d = 0%Z \/ d = (-1)%Z) -> ask o dec = (c, x, v, o') ->
    okO o' /\
    match c with
    | Optimal | OptimalInacc => restrict F ids dec x
    | DualInf | DualInfInacc | PrimalInf | PrimalInfInacc | ReachMaxIters => clearly_fractional ids tol x
    | _ => True
    end.

(** What the user asked for: every constraint, and those entered with a trust region as equalities up to [eps]. *)
Definition asked (cs : list call) (eps : R) (x : nat -> R) : Prop :=
  (forall c, In c cs -> call_holds x c) /\ (forall q l, In (CAddQua q "<" l ApproxTrustRegion) cs -> - eps <= qcon x q l <= 0).
(** The numerical solver below: both optimal codes come with a feasible point of the programme; the other answers the search uses are clearly
    fractional in the binary columns. *)
Definition sound_below (tol : R) (solve : oracle) : Prop :=
  forall k b P c x, solve k b P = (c, x) ->
    match c with
    | Optimal | OptimalInacc => feasible_answer P x
    | DualInf | DualInfInacc | PrimalInf | PrimalInfInacc | ReachMaxIters => clearly_fractional (g_bin P) tol x
    | _ => True
    end.

(** * Specification: the best iterate (C92) *)
From Coq Require Import Reals List.
From Verif Require Import IpModel.
Import ListNotations.
Local Open Scope R_scope.

(** All five measures of progress are positive and strictly smaller: gap, primal and dual residual, kappa / tau and merit. *)
Definition improves (f g : info) : Prop :=
  (0 < f_gap f < f_gap g) /\ (0 < f_pres f < f_pres g) /\ (0 < f_dres f < f_dres g) /\ (0 < f_kot f < f_kot g) /\ (0 < f_merit f < f_merit g).
(** The statistics show no sign of an infeasible problem: no certificate value, or kappa at most tau. *)
Definition ordinary (S : ipset) (f : info) : Prop := f_pinf f = t_nan S \/ f_kot f <= 1.
Definition statistics (S : ipset) (d : pdata) (o : itr) : info := updateStatistics S d o (computeResiduals d o).
(** The exit codes under which optimize returns the best iterate kept so far. *)
Definition kept_best (c : exitcode) : Prop := In c [OptimalInacc; DualInfInacc; PrimalInfInacc; ReachMaxIters; PrSearchDirection; PrSlacksLeaveCone].


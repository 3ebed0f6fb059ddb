(** * Model of the sequences of states and controls of the LQR solver
    Sources: solver_lqr/src/solver_lqr/OcpDescription.cpp l.18-155, solver_lqr/include/solver_lqr/OcpDescription.hpp l.18-150.
    Vectors are lists of reals, matrices lists of rows; sums of vectors of different sizes and indices out of range are [UB].
    Not modelled: setRandom, the user's configure (called last by initialize). The algebra of controls of one size is also in LqrModel. *)
From Coq Require Import Reals List Arith ZArith Bool.
Import ListNotations.
From Verif Require Import Base.
Local Open Scope R_scope.

Record ocontrol := OC { oc_ff : list R; oc_fb : list (list R) }.
(** Eigen vectors: sum, product with a number *)
Definition vplus_ (a b : list R) : res (list R) := if (length a =? length b)%nat then Ok (map (fun p => fst p + snd p) (combine a b)) else UB.
Definition vtimes (k : R) (a : list R) : list R := map (fun x => x * k) a.
(** ControlBase::ControlBase(xdim, udim), OcpDescription.cpp l.19-23; StateBase(xdim), OcpDescription.hpp l.22 *)
Definition control_zero (xdim udim : nat) : ocontrol := OC (repeat 0 udim) (repeat (repeat 0 xdim) udim).
Definition state_zero (xdim : nat) : list R := repeat 0 xdim.
(** operator*, operator*=, OcpDescription.cpp l.32-44 *)
Definition control_times (c : ocontrol) (k : R) : ocontrol := OC (vtimes k (oc_ff c)) (oc_fb c).
(** operator+, operator+=, OcpDescription.cpp l.51-64 *)
Definition control_plus (a b : ocontrol) : res ocontrol := bind (vplus_ (oc_ff a) (oc_ff b)) (fun f => Ok (OC f (oc_fb b))).
(** StateSequence::resize, OcpDescription.cpp l.67-72: states are appended *)
Definition states_resize (l : list (list R)) (tdim : Z) (xdim : nat) : list (list R) := l ++ repeat (state_zero xdim) (Z.to_nat tdim).
(** ControlSequence::resize, OcpDescription.cpp l.83-89 *)
Definition controls_resize (l : list ocontrol) (tdim : Z) (xdim udim : nat) : list ocontrol := repeat (control_zero xdim udim) (Z.to_nat tdim).
(** ControlSequence::operator=, OcpDescription.cpp l.97-103: reads rhs.control(0) for the sizes, then copies one by one *)
Definition controls_assign (lhs rhs : list ocontrol) : res (list ocontrol) :=
  match rhs with
  | [] => UB
  | c :: _ => let fresh := controls_resize lhs (Z.of_nat (length rhs)) (length (hd [] (oc_fb c))) (length (oc_fb c)) in
              Ok (map snd (combine fresh rhs))
  end.
(** operator*, operator*=, l.105-117: the copy is made by the constructor, not by operator= *)
Definition controls_times (l : list ocontrol) (k : R) : list ocontrol := map (fun c => control_times c k) l.
(** operator+, operator+=, l.124-136: every control of the left sequence, rhs.control(time) *)
Fixpoint controls_plus (a b : list ocontrol) : res (list ocontrol) :=
  match a with
  | [] => Ok []
  | x :: a' => match b with [] => UB | y :: b' => bind (control_plus x y) (fun z => bind (controls_plus a' b') (fun r => Ok (z :: r))) end
  end.
(** OcpBase: the sequences; initialize, l.149-155, for the time, state and control dimensions of the setting *)
Record ocp := OCP { o_states : list (list R); o_controls : list ocontrol }.
Definition ocp_new : ocp := OCP [] [].
Definition ocp_initialize (d : Z * nat * nat) (o : ocp) : ocp :=
  let '(T, nx, nu) := d in OCP (states_resize (o_states o) (T + 1) nx) (controls_resize (o_controls o) T nx nu).
Definition ocp_history (l : list (Z * nat * nat)) (o : ocp) : ocp := fold_left (fun o d => ocp_initialize d o) l o.

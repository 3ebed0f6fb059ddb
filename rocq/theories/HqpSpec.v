(** * The sequential meaning of a program of calls: every posted null-space computation is done at once *)
From Coq Require Import List Arith Bool.
Import ListNotations.
From Verif Require Import HqpModel.

Section Spec.
Variable M : Type.
Variable has_rows : M -> bool.
Variable nullmap : M -> M.
(** B_Nprev_, K_, the rank counter, the values of K_ the user's thread saw, and whether an index left the array of seven. *)
Record seqst := mkS { q_B : M; q_K : M; q_rank : nat; q_obs : list M; q_over : bool }.
Definition seq_call (q : seqst) (c : call M) : seqst :=
  match c with
  | Init _ => q
  | ResetTo _ b k => mkS b k 0 (q_obs q) (q_over q)
  | NullDim _ => mkS (q_B q) (q_K q) (q_rank q) (q_obs q ++ [q_K q]) (q_over q)
  | Solve _ early newB =>
    if early (q_K q) then mkS (q_B q) (q_K q) (q_rank q) (q_obs q ++ [q_K q]) (q_over q)
    else let b := match newB (q_obs q ++ [q_K q]) with Some b => b | None => q_B q end in
         mkS b (if has_rows b then nullmap b else q_K q) (q_rank q + 1) (q_obs q ++ [q_K q]) (q_over q || (has_rows b && negb (q_rank q <? 7)))
  end.
Definition seq_run (b0 k0 : M) (p : list (call M)) : seqst := fold_left seq_call p (mkS b0 k0 0 [] false).
End Spec.

(** * Model of the messages of the LQR solver
    Source: solver_lqr/src/solver_lqr/LqrInfoPrinter.cpp l.64-70, 125-156, 158-256.
    Text is a list of characters; a printed message is a list of tokens (text, or a number with its precision text and notation) between which only the colour
    codes are left out.  Reals are exact.  std::string::substr throws if it starts beyond the end; operator[] of a vector beyond its end is [UB]. *)
From Coq Require Import Reals String Ascii List Arith Bool.
Import ListNotations.
From Verif Require Import Base.
Local Open Scope R_scope.

Definition text := list ascii.
Definition percent : ascii := "%"%char.
Definition lit (s : string) : text := list_ascii_of_string s.
(** s.find(delim), counted from the beginning of the list *)
Fixpoint find0 (c : ascii) (s : text) : option nat :=
  match s with [] => None | x :: r => if Ascii.eqb x c then Some 0%nat else match find0 c r with Some p => Some (S p) | None => None end end.
(** s.find(delim, from) *)
Definition find_from (c : ascii) (s : text) (from : nat) : option nat := match find0 c (skipn from s) with Some p => Some (from + p)%nat | None => None end.
(** s.substr(pos, n); a negative length (n = None) converts to npos *)
Definition substr (s : text) (pos : nat) (n : option nat) : res text :=
  if (List.length s <? pos)%nat then Throw else Ok (match n with Some n => firstn n (skipn pos s) | None => skipn pos s end).

(** split, l.142-156: the loop while pos is not npos; every turn moves pos on, [fuel] turns suffice (C90_split_ends). *)
Fixpoint split_loop (fuel : nat) (s : text) (i pos : nat) (vs vp : list text) : res (list text * list text) :=
  match fuel with
  | O => UB
  | S fuel' =>
      bind (substr s i (if (pos <? i)%nat then None else Some (pos - i)%nat)) (fun t =>
      bind (substr s (pos + 1) (Some 1%nat)) (fun d =>
      match find_from percent s (pos + 1) with
      | None => bind (substr s (pos + 2) (Some (List.length s))) (fun t' => Ok ((vs ++ [t]) ++ [t'], vp ++ [d]))
      | Some q => split_loop fuel' s (pos + 2) q (vs ++ [t]) (vp ++ [d])
      end))
  end.
Definition split (s : text) : res (list text * list text) :=
  match find0 percent s with None => Ok ([], []) | Some p => split_loop (S (List.length s)) s 0 p [] [] end.

(** printMsg, l.125-140 *)
Inductive token := Text (t : text) | Num (v : R) (prec : text) (scientific : bool).
Definition at_vec {A} (l : list A) (i : nat) : res A := match nth_error l i with Some x => Ok x | None => UB end.
Fixpoint print_loop (i : nat) (vs vp : list text) (vals : list R) (sci : list bool) : res (list token) :=
  match vs with
  | [] => Ok []
  | t :: r =>
      bind (if (i <? List.length vals)%nat then bind (at_vec vals i) (fun v => bind (at_vec vp i) (fun d => bind (at_vec sci i) (fun b => Ok [Num v d b]))) else Ok [])
        (fun num => bind (print_loop (S i) r vp vals sci) (fun rest => Ok (Text t :: num ++ rest)))
  end.
Definition print_msg (s : text) (vals : list R) (sci : list bool) : res (list token) := bind (split s) (fun p => print_loop 0 (fst p) (snd p) vals sci).

(** display, l.210-222: the message of an accepted iteration; [prec] is std::to_string of the configured digits *)
Definition msg_success (prec : text) : text := lit "Iter: %0 cost: %" ++ prec ++ lit " reduc: %" ++ prec ++ lit " grad: %" ++ prec ++ lit " log10lam: %" ++ prec ++ ["010"%char].
Definition success_sci : list bool := [false; true; true; true; false].

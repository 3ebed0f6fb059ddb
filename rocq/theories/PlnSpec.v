(** * What the command line of the planner means, and what a run of the planner is, independently of the code. *)
From Coq Require Import String Ascii ZArith Reals List Bool.
From Verif Require Import Base Vec3 PlnModel.
Import ListNotations.
Local Open Scope string_scope.

(** ** Command line: a sequence of items *)
Inductive item := Help | File (f : string) | Solo12 | Bolt | DisableLqr | Unused.

(** [shorts w ws its ws']: the letters [w] of a word "-w" followed by the words [ws] mean [its], and [ws'] is left. *)
Inductive shorts : string -> list string -> list item -> list string -> Prop :=
| sh_end ws : shorts "" ws [] ws
| sh_help w ws its ws' : shorts w ws its ws' -> shorts ("h" ++ w) ws (Help :: its) ws'
| sh_unused w ws its ws' : shorts w ws its ws' -> shorts ("m" ++ w) ws (Unused :: its) ws'
| sh_file_next f ws : shorts "i" (f :: ws) [File f] ws
| sh_file_glued f ws : f <> "" -> shorts ("i" ++ f) ws [File f] ws.

(** A long option may be shortened to any non-empty beginning of its name. *)
Definition abbrev (n full : string) : Prop := n <> "" /\ exists rest, n ++ rest = full.
Inductive long : string -> list string -> item -> list string -> Prop :=
| lg_file_next n f ws : abbrev n "ifile" -> long n (f :: ws) (File f) ws
| lg_file_glued n f ws : abbrev n "ifile" -> long (n ++ "=" ++ f) ws (File f) ws
| lg_solo12 n ws : abbrev n "solo12" -> long n ws Solo12 ws
| lg_bolt n ws : abbrev n "bolt" -> long n ws Bolt ws
| lg_lqr n ws : abbrev n "disable_lqr" -> long n ws DisableLqr ws.

(** The whole line: options up to the first word that is none, or up to "--"; what follows is ignored. *)
Inductive line : list string -> list item -> Prop :=
| ln_end : line [] []
| ln_stop w ws : (forall v, v <> "" -> w <> "-" ++ v) -> line (w :: ws) []
| ln_dashes ws : line ("--" :: ws) []
| ln_long w ws it ws' its : w <> "" -> long w ws it ws' -> line ws' its -> line (("--" ++ w) :: ws) (it :: its)
| ln_short w ws its ws' its' : w <> "" -> (forall v, w <> "-" ++ v) -> shorts w ws its ws' -> line ws' its' -> line (("-" ++ w) :: ws) (its ++ its').

(** The last occurrence counts. *)
Definition file_of (its : list item) : string := fold_left (fun a i => match i with File f => f | _ => a end) its "".
Definition robot_of (its : list item) : robot := fold_left (fun a i => match i with Solo12 => Quadruped12 | Bolt => Biped | _ => a end) its Quadruped.

(** ** Runs of the planner *)
Section Runs.
Variables (dplan kplan feedback kopt : Type).
Variable solve : wsetting -> vec3 -> kplan -> dplan -> res dplan.
Variable kin_optimize : kopt -> dplan -> res kopt.
Variable kin_sequence : kopt -> kplan.

(** The setting with the weights of tracking in the place of the regulation weights. *)
Definition tracking_weights (s : wsetting) : wsetting := WS (w_track_lmom s) (w_track_amom s) (w_track_com s) (w_track_lmom s) (w_track_amom s).

(** [ds] and [ks] are the successive dynamic and kinematic plans of a run with [n] turns from the previous plans [d] and [k]: the first dynamic plan is
    optimised with the weights [s] and without tracking the centre of mass; then every kinematic plan follows the dynamic plan before it, and every
    dynamic plan follows the kinematic plan just computed, with the weights of tracking. *)
Definition alternating (s : wsetting) (d : dplan) (k : kopt) (n : nat) (ds : nat -> dplan) (ks : nat -> kopt) : Prop :=
  ks 0%nat = k /\ solve s v0 (kin_sequence k) d = Ok (ds 0%nat) /\
  forall i, (i < n)%nat -> kin_optimize (ks i) (ds i) = Ok (ks (S i)) /\
    solve (tracking_weights s) (w_track_com s) (kin_sequence (ks (S i))) (ds i) = Ok (ds (S i)).
End Runs.

(** * The planner script: command line and alternation of dynamics and kinematics.
    Sources: momentumopt/python/momentumopt/kino_dyn_planner.py l.28-59 (parse_arguments), the function getopt.getopt of the Python library that it
    calls, momentumopt/python/momentumopt/motion_planner.py l.34-72, 126-158, 344-367 (MotionPlanner), and the handling of the weights of
    momentumopt/src/momentumopt/dynopt/DynamicsOptimizer.cpp l.57-91 (updateTrackingObjective, optimize). *)
From Coq Require Import String Ascii ZArith Reals List Bool.
From Verif Require Import Base Vec3 ItpModel.
Import ListNotations.
Local Open Scope string_scope.

(** ** getopt.getopt(argv, "hi:m", ["ifile=", "solo12", "bolt", "disable_lqr"]) *)
(** kino_dyn_planner.py l.31: the options asked for. *)
Definition shortopts : list ascii := ["h"; "i"; ":"; "m"]%char.
Definition longopts : list string := ["ifile="; "solo12"; "bolt"; "disable_lqr"].
(** An option occurrence: its full name with dashes and its argument. *)
Definition opt := (string * string)%type.

(** getopt.short_has_arg: position of the letter, followed by a colon or not; None is GetoptError. *)
Fixpoint short_has_arg (c : ascii) (so : list ascii) : option bool :=
  match so with
  | [] => None
  | d :: r => if (Ascii.eqb c d && negb (Ascii.eqb d ":"))%bool then Some (match r with e :: _ => Ascii.eqb e ":" | [] => false end) else short_has_arg c r
  end.

(** getopt.do_shorts: a word of short options, without its dash. *)
Fixpoint do_shorts (opts : list opt) (word : string) (args : list string) : option (list opt * list string) :=
  match word with
  | EmptyString => Some (opts, args)
  | String c rest =>
      match short_has_arg c shortopts with
      | None => None
      | Some true =>
          match rest with
          | EmptyString => match args with [] => None | a :: r => Some ((opts ++ [(String "-" (String c EmptyString), a)])%list, r) end
          | _ => Some ((opts ++ [(String "-" (String c EmptyString), rest)])%list, args)
          end
      | Some false => do_shorts (opts ++ [(String "-" (String c EmptyString), "")])%list rest args
      end
  end.

(** str.endswith('=') and str[:-1]. *)
Fixpoint ends_eq (s : string) : bool := match s with EmptyString => false | String c EmptyString => Ascii.eqb c "=" | String _ r => ends_eq r end.
Fixpoint chop (s : string) : string := match s with EmptyString => EmptyString | String c EmptyString => EmptyString | String c r => String c (chop r) end.
Definition mem (s : string) (l : list string) : bool := existsb (String.eqb s) l.

(** getopt.long_has_args. *)
Definition long_has_args (o : string) (los : list string) : option (bool * string) :=
  match filter (String.prefix o) los with
  | [] => None
  | p :: more =>
      if mem o (p :: more) then Some (false, o)
      else if mem (o ++ "=") (p :: more) then Some (true, o)
      else match more with
           | _ :: _ => None
           | [] => if ends_eq p then Some (true, chop p) else Some (false, p)
           end
  end.

(** opt.index('='): the name and the argument of --name=argument. *)
Fixpoint split_eq (s : string) : string * option string :=
  match s with
  | EmptyString => (EmptyString, None)
  | String c r => if Ascii.eqb c "=" then (EmptyString, Some r) else let (a, b) := split_eq r in (String c a, b)
  end.

(** getopt.do_longs: a word of a long option, without its dashes. *)
Definition do_longs (opts : list opt) (word : string) (args : list string) : option (list opt * list string) :=
  let (o, oarg) := split_eq word in
  match long_has_args o longopts with
  | None => None
  | Some (true, name) =>
      match oarg with
      | Some a => Some ((opts ++ [(("--" ++ name)%string, a)])%list, args)
      | None => match args with [] => None | a :: r => Some ((opts ++ [(("--" ++ name)%string, a)])%list, r) end
      end
  | Some (false, name) => match oarg with Some _ => None | None => Some ((opts ++ [(("--" ++ name)%string, "")])%list, args) end
  end.

(** getopt.getopt: words are read until one does not start with a dash, is a single dash, or is "--". Every word takes at least one
    argument, so the number of arguments bounds the number of turns of the loop. *)
Fixpoint getopt_loop (fuel : nat) (opts : list opt) (args : list string) : option (list opt) :=
  match fuel with
  | O => Some opts
  | S f =>
      match args with
      | String "-" (String d w) :: r =>
          if String.eqb (String d w) "-" then Some opts
          else match (if Ascii.eqb d "-" then do_longs opts w r else do_shorts opts (String d w) r) with
               | None => None
               | Some (opts', args') => getopt_loop f opts' args'
               end
      | _ => Some opts
      end
  end.
Definition getopt (args : list string) : option (list opt) := getopt_loop (length args) [] args.

(** Python's [opt in ("--solo12")] is a substring test (the parentheses make no tuple). *)
Fixpoint is_substring (s t : string) : bool := orb (String.prefix s t) (match t with EmptyString => false | String _ r => is_substring s r end).

Inductive robot := Quadruped | Quadruped12 | Biped.
(** Outcomes: sys.exit(2), sys.exit(), the RuntimeError, and the returned triple. *)
Inductive parsed := ExitUsage | ExitHelp | NoSuchFile (file : string) | Parsed (file : string) (r : robot) (with_lqr : bool).

(** kino_dyn_planner.py l.37-50: the loop over the options; None is the exit of -h. *)
Fixpoint handle (opts : list opt) (cfg : string) (r : robot) (lqr : bool) : option (string * robot * bool) :=
  match opts with
  | [] => Some (cfg, r, lqr)
  | (o, a) :: l =>
      if String.eqb o "-h" then None
      else if mem o ["-i"; "--ifile"] then handle l a r lqr
      else if is_substring o "--solo12" then handle l cfg Quadruped12 lqr
      else if is_substring o "--bolt" then handle l cfg Biped lqr
      else if is_substring o "--disable_lqr" then handle l cfg r false
      else handle l cfg r lqr
  end.

(** kino_dyn_planner.py l.28-59; [exists_file] is os.path.exists. *)
Definition parse_arguments (exists_file : string -> bool) (argv : list string) : parsed :=
  match getopt argv with
  | None => ExitUsage
  | Some opts => match handle opts "" Quadruped false with
                 | None => ExitHelp
                 | Some (cfg, r, lqr) => if exists_file cfg then Parsed cfg r lqr else NoSuchFile cfg
                 end
  end.

(** ** The alternation *)
(** The weights of the planner setting that the runs read and write (PlannerSetting; the setting object is shared by reference). *)
Record wsetting := WS { w_lmom : vec3; w_amom : vec3; w_track_com : vec3; w_track_lmom : vec3; w_track_amom : vec3 }.

Section Planner.
(** Plans of the dynamics and of the kinematics, feedback, state of the kinematics optimiser. *)
Variables (dplan kplan feedback kopt : Type).
(** The optimisation of DynamicsOptimizer::optimize (l.71-73, 78-90) as a function of the setting, the weight of the tracked centre of mass, the
    kinematic plan and the plan it overwrites; MomentumKinematicsOptimizer.optimize; DynamicsFeedback.optimize; durations of a plan. *)
Variable solve : wsetting -> vec3 -> kplan -> dplan -> res dplan.
Variable kin_optimize : kopt -> dplan -> res kopt.
Variable kin_sequence : kopt -> kplan.
Variable fb_optimize : dplan -> res feedback.
Variable durations : dplan -> list R.

(** DynamicsOptimizer.cpp l.57-62: the weights in the setting are overwritten by those of tracking. *)
Definition updateTrackingObjective (s : wsetting) : wsetting * vec3 :=
  (WS (w_track_lmom s) (w_track_amom s) (w_track_com s) (w_track_lmom s) (w_track_amom s), w_track_com s).

Record planner := PL { p_set : wsetting; p_dyn : dplan; p_kin : kopt; p_fb : option feedback }.

(** DynamicsOptimizer.cpp l.64-91, motion_planner.py l.126-131: the weight of the centre of mass is reset before (l.70). *)
Definition optimize_dynamics (p : planner) (kd_iter : nat) : res planner :=
  let '(s, wc) := if (0 <? kd_iter)%nat then updateTrackingObjective (p_set p) else (p_set p, v0) in
  bind (solve s wc (kin_sequence (p_kin p)) (p_dyn p)) (fun d => Ok (PL s d (p_kin p) (p_fb p))).

(** motion_planner.py l.133-138. *)
Definition optimize_kinematics (p : planner) : res planner :=
  bind (kin_optimize (p_kin p) (p_dyn p)) (fun k => Ok (PL (p_set p) (p_dyn p) k (p_fb p))).

(** motion_planner.py l.140-158. *)
Definition optimize_dynamics_feedback (p : planner) : res planner :=
  bind (fb_optimize (p_dyn p)) (fun f => Ok (PL (p_set p) (p_dyn p) (p_kin p) (Some f))).

(** motion_planner.py l.351-353: the turns kd_iter = i, ..., i + n - 1 of the loop (plots left out). *)
Fixpoint kd_loop (n i : nat) (p : planner) : res planner :=
  match n with
  | O => Ok p
  | S m => bind (optimize_kinematics p) (fun p1 => bind (optimize_dynamics p1 (i + 1)) (fun p2 => kd_loop m (S i) p2))
  end.

(** motion_planner.py l.344-367: planner afterwards and the plans, feedback and time vector returned. *)
Definition optimize_motion (iterations : Z) (with_lqr : bool) (p : planner) : res (planner * (kplan * dplan * option feedback * list R)) :=
  bind (optimize_dynamics p 0) (fun p1 =>
  bind (kd_loop (Z.to_nat iterations) 0 p1) (fun p2 =>
  let tv := create_time_vector (durations (p_dyn p2)) in
  bind (if with_lqr then optimize_dynamics_feedback p2 else Ok p2) (fun p3 =>
  Ok (p3, (kin_sequence (p_kin p2), p_dyn p2, p_fb p3, tv))))).
End Planner.
Arguments PL {dplan feedback kopt}. Arguments p_set {dplan feedback kopt}. Arguments p_dyn {dplan feedback kopt}. Arguments p_kin {dplan feedback kopt}. Arguments p_fb {dplan feedback kopt}.

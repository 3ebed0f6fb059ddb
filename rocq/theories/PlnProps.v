(** * C82: the command line of the planner. *)
From Coq Require Import String Ascii ZArith Reals List Bool Lia.
From Verif Require Import Base Vec3 PlnModel PlnSpec.
Import ListNotations.
Local Open Scope string_scope.

(** ** Beginnings of a string *)
Fixpoint prefixes (s : string) : list string := "" :: match s with EmptyString => [] | String c r => map (String c) (prefixes r) end.
Lemma prefix_in o : forall s, String.prefix o s = true <-> In o (prefixes s).
Proof.
  induction o as [|c o IH]; intros s. { destruct s; cbn; tauto. }
  destruct s as [|d s]; cbn [String.prefix prefixes].
  - split; [discriminate|]. intros [H|[]]; discriminate.
  - destruct (ascii_dec c d) as [->|N].
    + rewrite IH. split; [intros H; right; now apply in_map|]. intros [H|H]; [discriminate|]. apply in_map_iff in H as (x & E & Hx). now injection E as ->.
    + split; [discriminate|]. intros [H|H]; [discriminate|]. apply in_map_iff in H as (x & E & Hx). injection E as -> _. now elim N.
Qed.
Lemma abbrev_in n full : abbrev n full <-> n <> "" /\ In n (prefixes full).
Proof.
  unfold abbrev. enough (E : (exists rest, n ++ rest = full) <-> In n (prefixes full)) by (rewrite E; reflexivity).
  revert full. induction n as [|c n IH]; intros full.
  - split; [intros _; destruct full; cbn; tauto|]. intros _. now exists full.
  - destruct full as [|d full]; cbn [prefixes In].
    + split; [intros (r & E); discriminate|]. intros [H|[]]; discriminate.
    + split.
      * intros (r & E). injection E as -> E. right. apply in_map. apply IH. now exists r.
      * intros [H|H]; [discriminate|]. apply in_map_iff in H as (x & E & Hx). injection E as -> ->. apply IH in Hx as (r & <-). now exists r.
Qed.
Definition abbrevb (n full : string) : bool := match n with EmptyString => false | _ => String.prefix n full end.
Lemma abbrevb_iff n full : abbrevb n full = true <-> abbrev n full.
Proof. rewrite abbrev_in, <- prefix_in. unfold abbrevb. destruct n; [split; [discriminate|intros [H _]; now elim H]|]. split; [intros H; split; [discriminate|exact H]|now intros [_ H]]. Qed.

(** ** Long options *)
Fixpoint no_eq (s : string) : Prop := match s with EmptyString => True | String c r => c <> "="%char /\ no_eq r end.
Lemma split_spec s : let (o, a) := split_eq s in no_eq o /\ match a with None => s = o | Some x => s = o ++ "=" ++ x end.
Proof.
  induction s as [|c s IH]; cbn [split_eq]; [now split|].
  destruct (Ascii.eqb_spec c "=") as [->|N]; [now split|]. destruct (split_eq s) as [o a]. destruct IH as [N1 E]. split; [now split|]. destruct a; rewrite E; reflexivity.
Qed.
Lemma split_unique o : forall a, no_eq o -> split_eq (o ++ "=" ++ a) = (o, Some a).
Proof. induction o as [|c o IH]; intros a N; [reflexivity|]. destruct N as [Nc No]. change (String c o ++ "=" ++ a) with (String c (o ++ "=" ++ a)). cbn [split_eq]. apply Ascii.eqb_neq in Nc. rewrite Nc. now rewrite (IH a No). Qed.
Lemma split_none o : no_eq o -> split_eq o = (o, None).
Proof. induction o as [|c o IH]; intros N; [reflexivity|]. destruct N as [Nc No]. cbn [split_eq]. apply Ascii.eqb_neq in Nc. rewrite Nc. now rewrite (IH No). Qed.

Lemma long_names o : no_eq o -> long_has_args o longopts =
  if abbrevb o "ifile" then Some (true, "ifile") else if abbrevb o "solo12" then Some (false, "solo12") else if abbrevb o "bolt" then Some (false, "bolt")
  else if abbrevb o "disable_lqr" then Some (false, "disable_lqr") else None.
Proof.
  intros N. unfold long_has_args, longopts.
  assert (F : forall s, abbrevb o s = true -> In o (tl (prefixes s))).
  { intros s H. apply abbrevb_iff, abbrev_in in H as [H1 H2]. destruct s; cbn [prefixes tl] in *; destruct H2 as [H2|H2]; try (now elim H1); auto. }
  destruct (abbrevb o "ifile") eqn:E1. { apply F in E1. cbn in E1. repeat (destruct E1 as [<-|E1]; [reflexivity|]). destruct E1. }
  destruct (abbrevb o "solo12") eqn:E2. { apply F in E2. cbn in E2. repeat (destruct E2 as [<-|E2]; [reflexivity|]). destruct E2. }
  destruct (abbrevb o "bolt") eqn:E3. { apply F in E3. cbn in E3. repeat (destruct E3 as [<-|E3]; [reflexivity|]). destruct E3. }
  destruct (abbrevb o "disable_lqr") eqn:E4. { apply F in E4. cbn in E4. repeat (destruct E4 as [<-|E4]; [reflexivity|]). destruct E4. }
  destruct o as [|c o]; [reflexivity|]. unfold abbrevb in *. cbn [filter]. rewrite E2, E3, E4.
  destruct (String.prefix (String c o) "ifile=") eqn:E; [|reflexivity]. exfalso.
  apply prefix_in in E. cbn in E. repeat (destruct E as [E|E]; [try discriminate E; (subst || (injection E as <- <-)); try (cbn in E1; discriminate E1)|]). 2: exact E.
  cbn in N. tauto.
Qed.

Inductive means : opt -> item -> Prop :=
| m_help a : means ("-h", a) Help
| m_i f : means ("-i", f) (File f)
| m_ifile f : means ("--ifile", f) (File f)
| m_solo a : means ("--solo12", a) Solo12
| m_bolt a : means ("--bolt", a) Bolt
| m_lqr a : means ("--disable_lqr", a) DisableLqr
| m_unused a : means ("-m", a) Unused.

Lemma abbrev_no_eq n full : abbrev n full -> no_eq full -> no_eq n.
Proof. intros [_ (r & <-)]. induction n as [|c n IH]; cbn; [tauto|]. intros [H1 H2]. auto. Qed.
Lemma append_nil s : s ++ "" = s. Proof. induction s; cbn; congruence. Qed.
Lemma abbrev_exclusive o s t : abbrev o s -> abbrev o t -> match s, t with String c _, String d _ => c = d | _, _ => False end.
Proof. intros [N (r & <-)] [_ (r' & <-)]. destruct o; [now elim N|]. reflexivity. Qed.

Lemma longs_sound opts w ws opts' ws' : do_longs opts w ws = Some (opts', ws') -> exists it o, opts' = (opts ++ [o])%list /\ means o it /\ long w ws it ws'.
Proof.
  unfold do_longs. pose proof (split_spec w) as SP. destruct (split_eq w) as [o oa]. destruct SP as [No E]. rewrite (long_names o No).
  destruct (abbrevb o "ifile") eqn:E1.
  { apply abbrevb_iff in E1. destruct oa as [a|].
    - intros H. injection H as <- <-. exists (File a), ("--ifile", a). subst w. split; [reflexivity|]. split; constructor; auto.
    - destruct ws as [|a r]; [discriminate|]. intros H. injection H as <- <-. subst w. exists (File a), ("--ifile", a). split; [reflexivity|]. split; constructor; auto. }
  destruct (abbrevb o "solo12") eqn:E2.
  { apply abbrevb_iff in E2. destruct oa as [a|]; [discriminate|]. intros H. injection H as <- <-. subst w. exists Solo12, ("--solo12", ""). split; [reflexivity|]. split; constructor; auto. }
  destruct (abbrevb o "bolt") eqn:E3.
  { apply abbrevb_iff in E3. destruct oa as [a|]; [discriminate|]. intros H. injection H as <- <-. subst w. exists Bolt, ("--bolt", ""). split; [reflexivity|]. split; constructor; auto. }
  destruct (abbrevb o "disable_lqr") eqn:E4; [|discriminate].
  apply abbrevb_iff in E4. destruct oa as [a|]; [discriminate|]. intros H. injection H as <- <-. subst w. exists DisableLqr, ("--disable_lqr", ""). split; [reflexivity|]. split; constructor; auto.
Qed.
Lemma not_abbrev o s t : abbrev o s -> match s, t with String c _, String d _ => c <> d | _, _ => True end -> abbrevb o t = false.
Proof. intros H N. destruct (abbrevb o t) eqn:E; [|reflexivity]. apply abbrevb_iff in E. pose proof (abbrev_exclusive _ _ _ H E) as X. destruct s, t; tauto. Qed.
Lemma longs_complete opts w ws it ws' : long w ws it ws' -> exists o, do_longs opts w ws = Some ((opts ++ [o])%list, ws') /\ means o it.
Proof.
  intros H. unfold do_longs. destruct H as [n f ws A|n f ws A|n ws A|n ws A|n ws A];
    (assert (No : no_eq n) by (apply (abbrev_no_eq n _ A); cbn; repeat split; discriminate));
    (rewrite (split_none n No) || rewrite (split_unique n f No)); rewrite (long_names n No).
  - rewrite (proj2 (abbrevb_iff _ _) A). eexists. split; [reflexivity|constructor].
  - rewrite (proj2 (abbrevb_iff _ _) A). eexists. split; [reflexivity|constructor].
  - rewrite (not_abbrev n _ "ifile" A), (proj2 (abbrevb_iff _ _) A) by discriminate. eexists. split; [reflexivity|constructor].
  - rewrite (not_abbrev n _ "ifile" A), (not_abbrev n _ "solo12" A), (proj2 (abbrevb_iff _ _) A) by discriminate. eexists. split; [reflexivity|constructor].
  - rewrite (not_abbrev n _ "ifile" A), (not_abbrev n _ "solo12" A), (not_abbrev n _ "bolt" A), (proj2 (abbrevb_iff _ _) A) by discriminate. eexists. split; [reflexivity|constructor].
Qed.

(** ** Short options *)
Lemma short_letter c : short_has_arg c shortopts = if Ascii.eqb c "h" then Some false else if Ascii.eqb c "i" then Some true else if Ascii.eqb c "m" then Some false else None.
Proof.
  unfold shortopts. cbn [short_has_arg]. destruct (Ascii.eqb_spec c "h") as [->|N1]; [reflexivity|]. destruct (Ascii.eqb_spec c "i") as [->|N2]; [reflexivity|].
  cbn [andb]. destruct (Ascii.eqb_spec c "m") as [->|N3]; [reflexivity|]. cbn [andb negb]. destruct (Ascii.eqb c ":"); reflexivity.
Qed.
Lemma shorts_sound w : forall opts ws opts' ws', do_shorts opts w ws = Some (opts', ws') -> exists its new, opts' = (opts ++ new)%list /\ Forall2 means new its /\ shorts w ws its ws'.
Proof.
  induction w as [|c w IH]; intros opts ws opts' ws' H.
  - injection H as <- <-. exists [], []. rewrite app_nil_r. repeat split; constructor.
  - cbn [do_shorts] in H. rewrite short_letter in H. destruct (Ascii.eqb_spec c "h") as [->|N1].
    { apply IH in H as (its & new & -> & F & S). exists (Help :: its), (("-h", "") :: new). rewrite <- app_assoc. split; [reflexivity|]. split; [constructor; [constructor|exact F]|]. now apply sh_help. }
    destruct (Ascii.eqb_spec c "i") as [->|N2].
    { destruct w as [|d w].
      - destruct ws as [|a r]; [discriminate|]. injection H as <- <-. exists [File a], [("-i", a)]. split; [reflexivity|]. split; [repeat constructor|]. apply sh_file_next.
      - injection H as <- <-. exists [File (String d w)], [("-i", String d w)]. split; [reflexivity|]. split; [repeat constructor|]. apply (sh_file_glued (String d w)). discriminate. }
    destruct (Ascii.eqb_spec c "m") as [->|N3]; [|discriminate].
    apply IH in H as (its & new & -> & F & S). exists (Unused :: its), (("-m", "") :: new). rewrite <- app_assoc. split; [reflexivity|]. split; [constructor; [constructor|exact F]|]. now apply sh_unused.
Qed.
Lemma shorts_complete w ws its ws' : shorts w ws its ws' -> forall opts, exists new, do_shorts opts w ws = Some ((opts ++ new)%list, ws') /\ Forall2 means new its.
Proof.
  intros H. induction H as [ws|w ws its ws' H IH|w ws its ws' H IH|f ws|f ws N]; intros opts.
  - exists []. rewrite app_nil_r. now split.
  - destruct (IH (opts ++ [("-h", "")])%list) as (new & E & F). exists (("-h", "") :: new). cbn [append do_shorts]. change (short_has_arg "h" shortopts) with (Some false). rewrite E, <- app_assoc. split; [reflexivity|]. constructor; [constructor|exact F].
  - destruct (IH (opts ++ [("-m", "")])%list) as (new & E & F). exists (("-m", "") :: new). cbn [append do_shorts]. change (short_has_arg "m" shortopts) with (Some false). rewrite E, <- app_assoc. split; [reflexivity|]. constructor; [constructor|exact F].
  - exists [("-i", f)]. split; [reflexivity|repeat constructor].
  - exists [("-i", f)]. destruct f as [|c f]; [now elim N|]. split; [reflexivity|repeat constructor].
Qed.
Lemma shorts_shrink w ws its ws' : shorts w ws its ws' -> (length ws' <= length ws)%nat.
Proof. induction 1; cbn [length]; lia. Qed.
Lemma long_shrink w ws it ws' : long w ws it ws' -> (length ws' <= length ws)%nat.
Proof. destruct 1; cbn [length]; lia. Qed.

(** ** The loop *)
Lemma loop_sound fuel : forall opts args opts', (length args <= fuel)%nat -> getopt_loop fuel opts args = Some opts' -> exists new its, opts' = (opts ++ new)%list /\ Forall2 means new its /\ line args its.
Proof.
  induction fuel as [|f IH]; intros opts args opts' L H; cbn [getopt_loop] in H.
  - injection H as <-. destruct args; [|cbn in L; lia]. exists [], []. rewrite app_nil_r. repeat split; constructor.
  - destruct args as [|a r].
    { injection H as <-. exists [], []. rewrite app_nil_r. repeat split; constructor. }
    assert (Stop : (forall v, v <> "" -> a <> "-" ++ v) -> Some opts = Some opts' -> exists new its, opts' = (opts ++ new)%list /\ Forall2 means new its /\ line (a :: r) its).
    { intros N E. injection E as <-. exists [], []. rewrite app_nil_r. repeat split; [constructor|]. now constructor. }
    destruct a as [|c a]; [apply Stop; [discriminate|exact H]|].
    destruct (Ascii.eqb_spec c "-") as [->|Nc].
    2: { apply Stop; [intros v _ E; injection E as -> _; now elim Nc|]. destruct c as [[] [] [] [] [] [] [] []]; try exact H; now elim Nc. }
    destruct a as [|d w]; [apply Stop; [intros v Nv E; injection E as <-; now elim Nv|exact H]|].
    destruct (String.eqb_spec (String d w) "-") as [E|Ne].
    { injection E as -> ->. injection H as <-. exists [], []. rewrite app_nil_r. repeat split; [constructor|]. apply ln_dashes. }
    destruct (Ascii.eqb_spec d "-") as [->|Nd].
    + destruct (do_longs opts w r) as [[opts1 args1]|] eqn:E; [|discriminate]. apply longs_sound in E as (it & o & -> & M & Lg).
      apply IH in H; [|pose proof (long_shrink _ _ _ _ Lg); cbn [length] in L; lia]. destruct H as (new & its & -> & F & Li).
      exists (o :: new), (it :: its). rewrite <- app_assoc. split; [reflexivity|]. split; [now constructor|]. apply (ln_long w r it args1); auto. intros ->. now elim Ne.
    + destruct (do_shorts opts (String d w) r) as [[opts1 args1]|] eqn:E; [|discriminate]. apply shorts_sound in E as (its1 & new1 & -> & F1 & Sh).
      apply IH in H; [|pose proof (shorts_shrink _ _ _ _ Sh); cbn [length] in L; lia]. destruct H as (new & its & -> & F & Li).
      exists (new1 ++ new)%list, (its1 ++ its)%list. rewrite <- app_assoc. split; [reflexivity|]. split; [now apply Forall2_app|]. apply (ln_short (String d w) r its1 args1); auto; [discriminate|].
      intros v Ev. injection Ev as -> _. now elim Nd.
Qed.
Lemma loop_complete args its : line args its -> forall fuel opts, (length args <= fuel)%nat -> exists new, getopt_loop fuel opts args = Some (opts ++ new)%list /\ Forall2 means new its.
Proof.
  intros H. induction H as [|w ws N|ws|w ws it ws' its Nw Lg H IH|w ws its ws' its' Nw Nd Sh H IH]; intros fuel opts L.
  - exists []. rewrite app_nil_r. split; [now destruct fuel|constructor].
  - exists []. rewrite app_nil_r. split; [|constructor]. destruct fuel as [|f]; [reflexivity|]. cbn [getopt_loop].
    destruct w as [|c w]; [reflexivity|]. destruct (Ascii.eqb_spec c "-") as [->|Nc].
    + destruct w as [|d w]; [reflexivity|]. elim (N (String d w)); [discriminate|reflexivity].
    + destruct c as [[] [] [] [] [] [] [] []]; try reflexivity; now elim Nc.
  - exists []. rewrite app_nil_r. split; [now destruct fuel|constructor].
  - destruct fuel as [|f]; [cbn in L; lia|]. destruct (longs_complete opts w ws it ws' Lg) as (o & E & M).
    destruct (IH f (opts ++ [o])%list) as (new & E2 & F); [pose proof (long_shrink _ _ _ _ Lg); cbn [length] in L; lia|].
    exists (o :: new). cbn [append getopt_loop]. destruct (String.eqb_spec (String "-" w) "-") as [X|_]; [injection X as ->; now elim Nw|]. cbn [Ascii.eqb Bool.eqb].
    rewrite E, E2, <- app_assoc. split; [reflexivity|]. now constructor.
  - destruct fuel as [|f]; [cbn in L; lia|]. destruct (shorts_complete w ws its ws' Sh opts) as (new1 & E & F1).
    destruct (IH f (opts ++ new1)%list) as (new & E2 & F); [pose proof (shorts_shrink _ _ _ _ Sh); cbn [length] in L; lia|].
    exists (new1 ++ new)%list. destruct w as [|d w]; [now elim Nw|]. cbn [append getopt_loop].
    destruct (String.eqb_spec (String d w) "-") as [X|_]; [injection X as -> ->; now elim (Nd "")|].
    destruct (Ascii.eqb_spec d "-") as [->|_]; [now elim (Nd w)|]. rewrite E, E2, <- app_assoc. split; [reflexivity|]. now apply Forall2_app.
Qed.

Lemma means_fun o it it' : means o it -> means o it' -> it = it'.
Proof. intros H K. inversion H; subst; inversion K; subst; congruence. Qed.

(** The meaning of a command line is unique. *)
Theorem C82_unambiguous argv its its' : line argv its -> line argv its' -> its = its'.
Proof.
  intros H K. destruct (loop_complete _ _ H (length argv) [] (le_n _)) as (new & E & F). destruct (loop_complete _ _ K (length argv) [] (le_n _)) as (new' & E' & F').
  rewrite E in E'. injection E' as <-. clear - F F'. revert its' F'. induction F as [|o it new its M F IH]; intros its' K; inversion K; subst; [reflexivity|]. f_equal; [now apply (means_fun o)|auto].
Qed.
Print Assumptions C82_unambiguous.

Lemma handle_spec new : forall its f r, Forall2 means new its ->
  (In Help its -> handle new f r false = None) /\
  (~ In Help its -> handle new f r false = Some (fold_left (fun a i => match i with File f => f | _ => a end) its f, fold_left (fun a i => match i with Solo12 => Quadruped12 | Bolt => Biped | _ => a end) its r, false)).
Proof.
  induction new as [|o new IH]; intros its f r F; inversion F as [|o' it new' its' M F']; subst; [now split|].
  inversion M; subst; cbn [handle String.eqb Ascii.eqb Bool.eqb mem existsb is_substring String.prefix orb fold_left];
    try (split; [reflexivity|intros N; elim N; now left]);
    (split; [intros [H|H]; [discriminate|]; exact (proj1 (IH _ _ _ F') H)|intros N; exact (proj2 (IH _ _ _ F') (fun X => N (or_intror X)))]).
Qed.

(** ** C82: for every command line: the exit with the usage message means that the line is not of the documented form; otherwise help wins over
    everything, then the last file given must exist, and the result is that file with the last robot named. The gains are never asked for. *)
Theorem C82_command_line exists_file argv :
  match parse_arguments exists_file argv with
  | ExitUsage => forall its, ~ line argv its
  | ExitHelp => exists its, line argv its /\ In Help its
  | NoSuchFile f => exists its, line argv its /\ ~ In Help its /\ f = file_of its /\ exists_file f = false
  | Parsed f r with_lqr => exists its, line argv its /\ ~ In Help its /\ f = file_of its /\ exists_file f = true /\ r = robot_of its /\ with_lqr = false
  end.
Proof.
  unfold parse_arguments, getopt. destruct (getopt_loop (length argv) [] argv) as [opts|] eqn:E.
  - apply loop_sound in E as (new & its & -> & F & L); [|lia]. cbn [app]. destruct (handle_spec new its "" Quadruped F) as [H1 H2].
    assert (D : In Help its \/ ~ In Help its). { assert (DI : forall a b : item, {a = b} + {a <> b}) by (intros; decide equality; apply string_dec). destruct (in_dec DI Help its); auto. }
    destruct D as [D|D]; [rewrite (H1 D); eauto|]. rewrite (H2 D). fold (file_of its) (robot_of its). destruct (exists_file (file_of its)) eqn:X; eauto 10.
  - intros its L. destruct (loop_complete _ _ L (length argv) [] (le_n _)) as (new & E2 & _). congruence.
Qed.
Print Assumptions C82_command_line.

(** The converse direction: a line of the documented form gets the outcome it means. *)
Theorem C82_complete exists_file argv its : line argv its -> parse_arguments exists_file argv =
  if existsb (fun i => match i with Help => true | _ => false end) its then ExitHelp
  else if exists_file (file_of its) then Parsed (file_of its) (robot_of its) false else NoSuchFile (file_of its).
Proof.
  intros L. pose proof (C82_command_line exists_file argv) as H. assert (D : existsb (fun i => match i with Help => true | _ => false end) its = true <-> In Help its).
  { rewrite existsb_exists. split; [intros (x & Hx & X); destruct x; discriminate || exact Hx|]. intros X. now exists Help. }
  destruct (existsb _ its).
  - assert (I : In Help its) by now apply D. destruct (parse_arguments exists_file argv); [now elim (H its)|reflexivity| |].
    + destruct H as (i & Li & N & _). rewrite (C82_unambiguous _ _ _ Li L) in N. now elim N.
    + destruct H as (i & Li & N & _). rewrite (C82_unambiguous _ _ _ Li L) in N. now elim N.
  - assert (I : ~ In Help its) by (intros X; apply D in X; discriminate). destruct (parse_arguments exists_file argv); [now elim (H its)| | |].
    + destruct H as (i & Li & N). rewrite (C82_unambiguous _ _ _ Li L) in N. now elim I.
    + destruct H as (i & Li & _ & -> & X). rewrite (C82_unambiguous _ _ _ Li L) in *. now rewrite X.
    + destruct H as (i & Li & _ & -> & X & -> & ->). rewrite (C82_unambiguous _ _ _ Li L) in *. now rewrite X.
Qed.
Print Assumptions C82_complete.

(** "--disable_lqr" is meant to switch something off, but no command line switches it on, so the option has no effect. *)
Theorem C82_lqr_option_refuted : ~ (exists exists_file argv f r, parse_arguments exists_file argv = Parsed f r true).
Proof. intros (ef & argv & f & r & H). pose proof (C82_command_line ef argv) as X. rewrite H in X. destruct X as (its & _ & _ & _ & _ & _ & X). discriminate. Qed.
Print Assumptions C82_lqr_option_refuted.

(** Instances: the commands of the README, an abbreviation, help that wins over a bad file, an unknown option that wins over help. *)
Example C82_ex1 : parse_arguments (fun _ => true) ["-i"; "cfg.yaml"; "--solo12"] = Parsed "cfg.yaml" Quadruped12 false. Proof. reflexivity. Qed.
Example C82_ex2 : parse_arguments (fun f => String.eqb f "b") ["-ia"; "--b"; "--if=b"; "--solo12"; "-m"; "rest"; "-h"] = Parsed "b" Quadruped12 false. Proof. reflexivity. Qed.
Example C82_ex3 : parse_arguments (fun _ => false) ["-i"; "x"; "-mh"] = ExitHelp /\ parse_arguments (fun _ => false) ["-h"; "--quadruped"] = ExitUsage /\ parse_arguments (fun _ => false) ["--"; "-h"] = NoSuchFile "". Proof. repeat split. Qed.
Example C82_ex4 : line ["-i"; "cfg.yaml"; "--solo12"] [File "cfg.yaml"; Solo12].
Proof.
  apply (ln_short "i" ["cfg.yaml"; "--solo12"] [File "cfg.yaml"] ["--solo12"] [Solo12]); [discriminate|discriminate|apply sh_file_next|].
  apply (ln_long "solo12" [] Solo12 [] []); [discriminate| |apply ln_end]. apply lg_solo12. split; [discriminate|now exists ""].
Qed.

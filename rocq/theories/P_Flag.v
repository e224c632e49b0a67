(** C71: the command line of jp. *)
From Coq Require Import String List Arith ZArith NArith Bool Lia.
From Verif Require Import Base Tokens ScannerModel MainModel CliModel CliSpec P_Cli FlagModel FlagSpec FlagInt FlagProofs.
Import ListNotations.
Local Open Scope N_scope.

(** C71.  What jp does with its words.  If they are options and then arguments,
    then jp carries out the command which these describe, or prints one of the
    help texts to standard error; if after some options they ask for the usage, jp
    prints this to standard error and ends with status 0; all other words are
    refused with status 2, and nothing is written to standard output. *)
Theorem C71_command_line :
  forall float_text csv_records find grow (tty epipe : bool) (room : option nat) (words : list bytes) (input : reader) (oc : outcome),
    jp_main float_text csv_records find grow tty epipe room words input oc <->
    (exists x, command_line words x /\ (forall h, ch_help x h = false) /\
       jp float_text csv_records find grow tty epipe room (ch_command x) input oc) \/
    (exists x h, command_line words x /\ ch_help x h = true /\ oc = mkOutcome [] 0) \/
    (asks_usage words /\ oc = mkOutcome [] 0) \/
    ((forall x, ~ command_line words x) /\ ~ asks_usage words /\ oc = mkOutcome [] 2).
Proof.
  intros ft csv find grow tty epipe room words input oc. unfold jp_main.
  destruct (parse_flags words default_vars) as [v|s] eqn:P.
  - pose proof (parsed_line _ _ P) as CL.
    assert (U : forall x, command_line words x -> agrees v x).
    { intros x C. destruct (line_parsed _ _ C) as (v' & P' & A). rewrite P in P'. injection P' as <-. exact A. }
    assert (NU : ~ asks_usage words) by (intro X; apply usage_parsed in X; unfold exit_usage in X; congruence).
    pose proof (help_none v (choices_of v) (agrees_of v)) as HN.
    destruct (va_help_in v || va_help_out v || va_help_tr v || va_help_cook v) eqn:H.
    + destruct (proj1 HN eq_refl) as [h Hh]. split.
      * intros ->. right; left. eauto.
      * intros [(x & C & NH & _)|[(x & h' & C & Hx & ->)|[[X _]|(X & _)]]]; [|reflexivity|tauto|now destruct (X _ CL)].
        destruct (U x C) as [_ B]. cbn in Hh. rewrite <- B, NH in Hh. discriminate.
    + assert (NH : forall x, command_line words x -> forall h, ch_help x h = false).
      { intros x C h. destruct (ch_help x h) eqn:E; [|reflexivity]. assert (X : false = true) by (rewrite <- H; apply (help_none v x (U x C)); eauto). discriminate. }
      split.
      * intro J. left. exists (choices_of v). split; [exact CL|]. split; [apply NH, CL|exact J].
      * intros [(x & C & _ & J)|[(x & h' & C & Hx & _)|[[X _]|(X & _)]]]; [|rewrite (NH x C h') in Hx; discriminate|tauto|now destruct (X _ CL)].
        destruct (U x C) as [E _]. now rewrite <- E.
  - assert (NC : forall x, ~ command_line words x).
    { intros x C. destruct (line_parsed _ _ C) as (v' & P' & _). congruence. }
    destruct (parsed_exit _ _ P) as [[-> A]| ->].
    + split.
      * intros ->. right; right; left. auto.
      * intros [(x & C & _)|[(x & h' & C & _)|[[_ X]|(_ & X & _)]]]; [now destruct (NC x)|now destruct (NC x)|exact X|tauto].
    + assert (NU : ~ asks_usage words) by (intro X; apply usage_parsed in X; rewrite P in X; discriminate). split.
      * intros ->. right; right; right. auto.
      * intros [(x & C & _)|[(x & h' & C & _)|[[X _]|(_ & _ & X)]]]; [now destruct (NC x)|now destruct (NC x)|tauto|exact X].
Qed.
Print Assumptions C71_command_line.

(** Words have one reading: the same words do not describe two commands, and do
    not both describe a command and ask for the usage. *)
Theorem C71_one_reading :
  forall (words : list bytes) (x : choices), command_line words x ->
    ~ asks_usage words /\
    forall x', command_line words x' -> ch_command x' = ch_command x /\ forall h, ch_help x' h = ch_help x h.
Proof.
  intros words x C. destruct (line_parsed _ _ C) as (v & P & [A B]). split.
  - intro U. apply usage_parsed in U. unfold exit_usage in U. congruence.
  - intros x' C'. destruct (line_parsed _ _ C') as (v' & P' & [A' B']). rewrite P in P'. injection P' as <-. split; [congruence|].
    intro h. now rewrite B', B.
Qed.
Print Assumptions C71_one_reading.

(** Integers and truth values are read as Go spells them. *)
Theorem C71_values :
  (forall t z, parse_int0 t = Some z <-> integer t z) /\ (forall t b, parse_bool t = Some b <-> yes_no t b).
Proof. split; [exact int_integer|exact bool_yes_no]. Qed.
Print Assumptions C71_values.

(** Options stand in front.  After the first word that is no option, or two
    dashes, a word that begins with a dash is an argument, and jp refuses it. *)
Theorem C71_options_come_first :
  forall float_text csv_records find grow (tty epipe : bool) (room : option nat) (words : list bytes) (input : reader) (x : choices) (r : bytes),
    command_line words x -> (forall h, ch_help x h = false) -> In (45 :: r) (cm_args (ch_command x)) ->
    forall oc, jp_main float_text csv_records find grow tty epipe room words input oc <-> oc = mkOutcome [] 1.
Proof.
  intros ft csv find grow tty epipe room words input x r C NH I oc. rewrite C71_command_line.
  assert (NA : ~ acceptable ft (ch_command x) input).
  { intros (_ & _ & _ & F & _). rewrite Forall_forall in F. apply F in I.
    destruct I as [X|[X|[X|[(t & z & X & _)|(r' & q' & X & _)]]]]; discriminate. }
  pose proof (proj1 (C59_refused_commands ft csv find grow tty epipe room (ch_command x) input) NA) as J. cbv zeta in J. split.
  - intros [(x' & C' & _ & X)|[(x' & h' & C' & Hx & _)|[[X _]|(X & _)]]].
    + rewrite (proj1 (proj2 (C71_one_reading _ _ C) _ C')) in X. now apply J.
    + rewrite (proj2 (proj2 (C71_one_reading _ _ C) _ C')), NH in Hx. discriminate.
    + now destruct (proj1 (C71_one_reading _ _ C)).
    + now destruct (X x).
  - intros ->. left. exists x. split; [exact C|]. split; [exact NH|]. now apply J.
Qed.
Print Assumptions C71_options_come_first.

(** Of an option that is given twice the last one counts. *)
Theorem C71_last_one_counts :
  (forall name v1 v2 x x1 x2, valued name v1 x x1 -> valued name v2 x1 x2 -> valued name v2 x x2) /\
  (forall name b1 b2 x x1 x2, switch name b1 x x1 -> switch name b2 x1 x2 -> switch name b2 x x2).
Proof.
  assert (TR : forall f c c' c'', same_but f c c' -> same_but f c' c'' -> same_but f c c'').
  { intros f c c' c'' H1 H2. unfold same_but in *. decompose [and] H1. decompose [and] H2.
    repeat split; intro NE; solve [match goal with A : _ -> ?p c' = ?p c, B : _ -> ?p c'' = ?p c' |- ?p c'' = ?p c => rewrite (B NE); exact (A NE) end]. }
  split.
  - intros name v1 v2 x x1 x2 [N1 S1] [N2 S2]. split; [intro h; now rewrite N2, N1|].
    cbn [In] in *.
    destruct S1 as [(I1 & _ & B1)|[(I1 & _ & B1)|[(I1 & _ & B1)|[(I1 & _ & B1)|[(I1 & _ & B1)|[(I1 & _ & B1)|(I1 & _ & B1)]]]]]];
    destruct S2 as [(I2 & E & B2)|[(I2 & E & B2)|[(I2 & E & B2)|[(I2 & E & B2)|[(I2 & E & B2)|[(I2 & E & B2)|(I2 & E & B2)]]]]]];
    try (exfalso; clear E B1 B2; intuition (subst; discriminate));
    pose proof (TR _ _ _ _ B1 B2); tauto.
  - intros name b1 b2 x x1 x2 S1 S2. unfold switch in *.
    destruct S1 as [(I1 & C1 & H1)|(N1 & [(I1 & _ & B1)|[(I1 & _ & B1)|(I1 & _ & B1)]])];
    destruct S2 as [(I2 & C2 & H2)|(N2 & [(I2 & E & B2)|[(I2 & E & B2)|(I2 & E & B2)]])]; unfold help_names in *; cbn [In] in *.
    1: { left. split; [exact I1|]. split; [congruence|]. intro h. rewrite H2, H1. now destruct (bytes_eqb h name). }
    all: try (exfalso; clear - I1 I2; intuition (subst; discriminate)).
    all: right; (split; [intro h; now rewrite N2, N1|]); pose proof (TR _ _ _ _ B1 B2); tauto.
Qed.
Print Assumptions C71_last_one_counts.

(* ------------------------------------------------------------------ *)
(** Two places where the usage text says something else. *)

(** The usage text and the text of -help-transforms document an option -strict.
    There is none: jp refuses it, whatever else is on the command line. *)
Theorem C71_strict_refuted :
  forall float_text csv_records find grow (tty epipe : bool) (room : option nat) (rest : list bytes) (input : reader) (oc : outcome),
    jp_main float_text csv_records find grow tty epipe room (text "-strict" :: rest) input oc <-> oc = mkOutcome [] 2.
Proof. intros. unfold jp_main. replace (parse_flags (text "-strict" :: rest) default_vars) with (Exit 2) by reflexivity. reflexivity. Qed.
Print Assumptions C71_strict_refuted.

(** The old option -colors is a switch, but -colors=false turns the colours on
    like -colors=true. *)
Theorem C71_colors_refuted :
  forall value, exists x, command_line [text "-colors=" ++ value] x /\ cm_color (ch_command x) = text "always".
Proof.
  intro value. eexists (choices_of _). split; [apply parsed_line|].
  - change (text "-colors=" ++ value) with (text "-" ++ text "colors" ++ text "=" ++ value). rewrite good_some; [|cbn [In]; auto|].
    + reflexivity.
    + apply (table_good _ (FBoolFunc (on_command (set_color (text "always"))))). reflexivity.
  - reflexivity.
Qed.
Print Assumptions C71_colors_refuted.

(* ------------------------------------------------------------------ *)
(** Examples.  jp -json-compact-width -0x_1F --json-lines=F -in csv
    -indent=5 --indent=3 split -out: the word after an option with a value is its
    value, dash or not, and -out after an argument is an argument. *)
Definition ex71_words : list bytes :=
  [text "-json-compact-width"; text "-0x_1F"; text "--json-lines=F"; text "-in"; text "csv"; text "-indent=5"; text "--indent=3"; text "split"; text "-out"].
Example C71_example :
  command_line ex71_words
    (mkChoices (mkCommand (text "auto") (text "csv") [] (text "json") 3 false (-31) false false [] [text "split"; text "-out"]) (fun _ => false)) /\
  integer (text "-0x_1F") (-31) /\ integer (text "017") 15 /\ (forall z, ~ integer (text "1__0") z) /\ (forall z, ~ integer (text "9223372036854775808") z) /\
  asks_usage [text "-out=jpv"; text "--help"; text "-x"] /\
  (forall x, ~ command_line [text "-indent"] x) /\
  command_line [text "-help-output"; text "-help-output=0"] initial.
Proof.
  assert (EQ : forall words x v, parse_flags words default_vars = Parsed v -> ch_command x = va_command v -> (forall h, ch_help x h = help_of v h) -> command_line words x).
  { intros words x v P C H. destruct (parsed_line _ _ P) as (o & r & x0 & E & O & A & B & D). exists o, r, x0. cbn in A, B. unfold no_help_change in *. cbn in D.
    rewrite C. split; [exact E|]. split; [exact O|]. split; [exact A|]. split; [exact B|]. intro h. rewrite H. apply D. }
  assert (NH : forall v, va_help_in v = false -> va_help_out v = false -> va_help_tr v = false -> va_help_cook v = false -> forall h, false = help_of v h).
  { intros v A B C D h. unfold help_of. rewrite A, B, C, D. now repeat destruct (bytes_eqb h _). }
  split.
  { eapply EQ; [vm_compute; reflexivity|reflexivity|]. apply NH; reflexivity. }
  split; [apply int_integer; vm_compute; reflexivity|]. split; [apply int_integer; vm_compute; reflexivity|].
  split; [intros z X; apply int_integer in X; vm_compute in X; discriminate|]. split; [intros z X; apply int_integer in X; vm_compute in X; discriminate|].
  split.
  { assert (P : parse_flags [text "-out=jpv"; text "--help"; text "-x"] default_vars = Exit 0) by (vm_compute; reflexivity).
    apply parsed_exit in P as [[_ U]|X]; [exact U|discriminate]. }
  split.
  { intros x C. apply line_parsed in C as (v & P & _). vm_compute in P. discriminate. }
  eapply EQ; [vm_compute; reflexivity|reflexivity|]. apply NH; reflexivity.
Qed.

(** Specification of the command line of jp: the options, and the words that
    spell them. *)
From Coq Require Import String List Arith ZArith NArith Bool.
From Verif Require Import Base Tokens CliModel.
Import ListNotations.
Local Open Scope N_scope.

(* ------------------------------------------------------------------ *)
(** Integers, as Go spells them: decimal, or with a prefix; a zero in front means
    octal; single underscores may stand between digits and after a prefix. *)
Definition digit_in (base b d : N) : Prop :=
  (48 <= b <= 57 /\ d = b - 48 \/ 97 <= b <= 102 /\ d = b - 97 + 10 \/ 65 <= b <= 70 /\ d = b - 65 + 10) /\ d < base.
(** Digits, each of which may have an underscore in front. *)
Inductive grouped (base : N) : bytes -> list N -> Prop :=
| gr_nil : grouped base [] []
| gr_digit : forall b d t ds, digit_in base b d -> grouped base t ds -> grouped base (b :: t) (d :: ds)
| gr_under : forall b d t ds, digit_in base b d -> grouped base t ds -> grouped base (95 :: b :: t) (d :: ds).
Definition in_base (base : N) (ds : list N) : N := fold_left (fun n d => n * base + d) ds 0.
Inductive literal : bytes -> N -> Prop :=
| li_decimal : forall b d t ds, 49 <= b <= 57 -> digit_in 10 b d -> grouped 10 t ds ->
    literal (b :: t) (in_base 10 (d :: ds))
| li_zero : forall t ds, grouped 8 t ds -> literal (48 :: t) (in_base 8 ds)
| li_prefix : forall p base t ds,
    In (p, base) [(98, 2); (66, 2); (111, 8); (79, 8); (120, 16); (88, 16)] (* b B o O x X *) ->
    grouped base t ds -> ds <> [] -> literal (48 :: p :: t) (in_base base ds).
(** An integer of 64 bits. *)
Definition integer (t : bytes) (z : Z) : Prop :=
  (- 2 ^ 63 <= z < 2 ^ 63)%Z /\
  exists sg u n, t = sg ++ u /\ literal u n /\
    (sg = [] /\ z = Z.of_N n \/ sg = [43] /\ z = Z.of_N n \/ sg = [45] /\ z = (- Z.of_N n)%Z).

(** Yes and no. *)
Definition yes_no (t : bytes) (b : bool) : Prop :=
  if b then In t [text "1"; text "t"; text "T"; text "true"; text "TRUE"; text "True"]
  else In t [text "0"; text "f"; text "F"; text "false"; text "FALSE"; text "False"].

(* ------------------------------------------------------------------ *)
(** What the options determine: the options of a command, and whether one of the
    four help texts is asked for. *)
Record choices := mkChoices { ch_command : command; ch_help : bytes -> bool }.
Definition initial : choices :=
  mkChoices (mkCommand (text "auto") (text "auto") [] (text "json") 2 false 60 false false [] []) (fun _ => false).

(** Two commands that differ in one option at most. *)
Inductive ofield := OColor | OIn | OHeader | OOut | OIndent | OCompact | OWidth | OQuote | OStrict | OFile | OArgs.
Definition same_but (f : ofield) (c c' : command) : Prop :=
  (f <> OColor -> cm_color c' = cm_color c) /\ (f <> OIn -> cm_in c' = cm_in c) /\
  (f <> OHeader -> cm_csv_header c' = cm_csv_header c) /\ (f <> OOut -> cm_out c' = cm_out c) /\
  (f <> OIndent -> cm_indent c' = cm_indent c) /\ (f <> OCompact -> cm_compact c' = cm_compact c) /\
  (f <> OWidth -> cm_width c' = cm_width c) /\ (f <> OQuote -> cm_quote c' = cm_quote c) /\
  (f <> OStrict -> cm_strict c' = cm_strict c) /\ (f <> OFile -> cm_file c' = cm_file c) /\
  (f <> OArgs -> cm_args c' = cm_args c).
Definition no_help_change (x x' : choices) : Prop := forall h, ch_help x' h = ch_help x h.

Definition help_names : list bytes :=
  [text "help-input"; text "help-output"; text "help-transforms"; text "help-cookbook"].

(** Options that are on or off. *)
Definition switch (name : bytes) (b : bool) (x x' : choices) : Prop :=
  let c := ch_command x in let c' := ch_command x' in
  (In name help_names /\ c' = c /\ forall h, ch_help x' h = if bytes_eqb h name then b else ch_help x h) \/
  (no_help_change x x' /\
   (In name [text "json-compact"; text "json-lines"] /\ cm_compact c' = b /\ same_but OCompact c c' \/
    In name [text "jpv-quote-keys"; text "quotekeys"] /\ cm_quote c' = b /\ same_but OQuote c c' \/
    name = text "jsonpath-strict" /\ cm_strict c' = b /\ same_but OStrict c c')).
(** Options with a value. *)
Definition valued (name value : bytes) (x x' : choices) : Prop :=
  let c := ch_command x in let c' := ch_command x' in
  no_help_change x x' /\
  (In name [text "json-indent"; text "indent"] /\ integer value (cm_indent c') /\ same_but OIndent c c' \/
   In name [text "json-compact-width"; text "compactwidth"] /\ integer value (cm_width c') /\ same_but OWidth c c' \/
   name = text "color" /\ cm_color c' = value /\ same_but OColor c c' \/
   name = text "in" /\ cm_in c' = value /\ same_but OIn c c' \/
   name = text "out" /\ cm_out c' = value /\ same_but OOut c c' \/
   name = text "csv-header" /\ cm_csv_header c' = value /\ same_but OHeader c c' \/
   name = text "file" /\ cm_file c' = value /\ same_but OFile c c').
(** The two old options for colours; a value that is given is not looked at. *)
Definition colours (name : bytes) (x x' : choices) : Prop :=
  let c := ch_command x in let c' := ch_command x' in
  no_help_change x x' /\ same_but OColor c c' /\
  (name = text "colors" /\ cm_color c' = text "always" \/ name = text "nocolors" /\ cm_color c' = text "never").

(** The words of one option; there may be one dash or two. *)
Inductive option_words : list bytes -> choices -> choices -> Prop :=
| ow_switch : forall d name x x', In d [text "-"; text "--"] -> switch name true x x' -> option_words [d ++ name] x x'
| ow_switch_value : forall d name value b x x', In d [text "-"; text "--"] -> yes_no value b -> switch name b x x' ->
    option_words [d ++ name ++ text "=" ++ value] x x'
| ow_colours : forall d name x x', In d [text "-"; text "--"] -> colours name x x' -> option_words [d ++ name] x x'
| ow_colours_value : forall d name value x x', In d [text "-"; text "--"] -> colours name x x' ->
    option_words [d ++ name ++ text "=" ++ value] x x'
| ow_next : forall d name value x x', In d [text "-"; text "--"] -> valued name value x x' -> option_words [d ++ name; value] x x'
| ow_value : forall d name value x x', In d [text "-"; text "--"] -> valued name value x x' ->
    option_words [d ++ name ++ text "=" ++ value] x x'.
(** Options, of which later ones overrule earlier ones. *)
Inductive options : list bytes -> choices -> choices -> Prop :=
| os_none : forall x, options [] x x
| os_more : forall w ws x x' x'', option_words w x x' -> options ws x' x'' -> options (w ++ ws) x x''.
(** After the options: two dashes and the arguments, or the arguments, of which
    the first is a single byte or does not begin with a dash. *)
Inductive arguments : list bytes -> list bytes -> Prop :=
| ag_dashes : forall args, arguments (text "--" :: args) args
| ag_none : arguments [] []
| ag_words : forall a args, (forall b r, a <> 45 :: b :: r) -> arguments (a :: args) (a :: args).
(** The words [words] make the choices [x]. *)
Definition command_line (words : list bytes) (x : choices) : Prop :=
  exists opts rest x0, words = opts ++ rest /\ options opts initial x0 /\ arguments rest (cm_args (ch_command x)) /\
    same_but OArgs (ch_command x0) (ch_command x) /\ no_help_change x0 x.
(** The words ask for the usage: options and then -h or -help, perhaps with a
    value. *)
Definition asks_usage (words : list bytes) : Prop :=
  exists opts w rest x0 d name, words = opts ++ w :: rest /\ options opts initial x0 /\
    In d [text "-"; text "--"] /\ In name [text "h"; text "help"] /\ (w = d ++ name \/ exists v, w = d ++ name ++ text "=" ++ v).

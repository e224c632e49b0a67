(** Model of /repo/cmd/jp/main.go, lines 44-118: from the words of the command
    line to the values of the flags.  The package flag of the standard library is
    not in the repository; its functions are modelled from their documented
    behaviour and cited by name. *)
From Coq Require Import String List Arith ZArith NArith Bool.
From Verif Require Import Base Tokens ScannerModel MainModel CliModel.
Import ListNotations.
Local Open Scope N_scope.

(* ------------------------------------------------------------------ *)
(** strconv.ParseInt(s, 0, 64). *)

(** strconv.lower: [c | 32], which differs from this for bytes that are no
    letters before and after. *)
Definition lower (c : N) : N := if (65 <=? c) && (c <=? 90) then c + 32 else c.

(** The value of a digit, in the loop of strconv.ParseUint. *)
Definition digit_of (c : N) : option N :=
  if (48 <=? c) && (c <=? 57) then Some (c - 48)
  else if (97 <=? lower c) && (lower c <=? 122) then Some (lower c - 97 + 10)
  else None.

(** The loop of strconv.ParseUint; the result is the number and whether there
    were underscores.  Numbers are unbounded here: an overflow ends the call of
    ParseInt with an error, like a number out of range. *)
Fixpoint uint_loop (base : N) (s : bytes) (n : N) (underscores : bool) : option (N * bool) :=
  match s with
  | [] => Some (n, underscores)
  | c :: s' =>
      if c =? 95 then uint_loop base s' n true
      else match digit_of c with
           | None => None
           | Some d => if base <=? d then None else uint_loop base s' (n * base + d) underscores
           end
  end.

(** strconv.underscoreOK: the loop; [SDigit] is ['0'], [SUnder] is ['_'],
    [SOther] is ['!'] or the initial ['^']. *)
Inductive saw := SDigit | SUnder | SOther.
Fixpoint under_loop (hex : bool) (w : saw) (s : bytes) : bool :=
  match s with
  | [] => match w with SUnder => false | _ => true end
  | c :: s' =>
      if (48 <=? c) && (c <=? 57) || hex && (97 <=? lower c) && (lower c <=? 102) then under_loop hex SDigit s'
      else if c =? 95 then match w with SDigit => under_loop hex SUnder s' | _ => false end
      else match w with SUnder => false | _ => under_loop hex SOther s' end
  end.
Definition underscore_ok (s : bytes) : bool :=
  match s with
  | 48 :: p :: s' =>
      if (lower p =? 98) || (lower p =? 111) || (lower p =? 120) then under_loop (lower p =? 120) SDigit s'
      else under_loop false SOther s
  | _ => under_loop false SOther s
  end.

(** strconv.ParseUint(s, 0, 64): the base and what follows the prefix. *)
Definition base_of (s : bytes) : N * bytes :=
  match s with
  | 48 :: p :: ((_ :: _) as s') =>
      if lower p =? 98 then (2, s')
      else if lower p =? 111 then (8, s')
      else if lower p =? 120 then (16, s')
      else (8, p :: s')
  | 48 :: s' => (8, s')
  | _ => (10, s)
  end.
Definition parse_uint (s : bytes) : option N :=
  match s with
  | [] => None
  | _ =>
      let '(base, s') := base_of s in
      match uint_loop base s' 0 false with
      | None => None
      | Some (n, underscores) => if underscores && negb (underscore_ok s) then None else Some n
      end
  end.

(** strconv.ParseInt(s, 0, strconv.IntSize). *)
Definition parse_int0 (s : bytes) : option Z :=
  let '(neg, s') := match s with 43 :: s' => (false, s') | 45 :: s' => (true, s') | _ => (false, s) end in
  match parse_uint s' with
  | None => None
  | Some un =>
      if neg then if (Z.of_N un <=? 2 ^ 63)%Z then Some (- Z.of_N un)%Z else None
      else if (Z.of_N un <? 2 ^ 63)%Z then Some (Z.of_N un) else None
  end.

(** strconv.ParseBool. *)
Definition parse_bool (s : bytes) : option bool :=
  if existsb (bytes_eqb s) [text "1"; text "t"; text "T"; text "true"; text "TRUE"; text "True"] then Some true
  else if existsb (bytes_eqb s) [text "0"; text "f"; text "F"; text "false"; text "FALSE"; text "False"] then Some false
  else None.

(* ------------------------------------------------------------------ *)
(** main.go:44-57: the variables.  The four booleans are helpInput, helpOutput,
    helpTransforms and helpCookbook. *)
Record vars := mkVars {
  va_command : command;
  va_help_in : bool; va_help_out : bool; va_help_tr : bool; va_help_cook : bool
}.
Definition on_command (f : command -> command) (v : vars) : vars :=
  mkVars (f (va_command v)) (va_help_in v) (va_help_out v) (va_help_tr v) (va_help_cook v).
Definition set_color x c := mkCommand x (cm_in c) (cm_csv_header c) (cm_out c) (cm_indent c) (cm_compact c) (cm_width c) (cm_quote c) (cm_strict c) (cm_file c) (cm_args c).
Definition set_in x c := mkCommand (cm_color c) x (cm_csv_header c) (cm_out c) (cm_indent c) (cm_compact c) (cm_width c) (cm_quote c) (cm_strict c) (cm_file c) (cm_args c).
Definition set_csv_header x c := mkCommand (cm_color c) (cm_in c) x (cm_out c) (cm_indent c) (cm_compact c) (cm_width c) (cm_quote c) (cm_strict c) (cm_file c) (cm_args c).
Definition set_out x c := mkCommand (cm_color c) (cm_in c) (cm_csv_header c) x (cm_indent c) (cm_compact c) (cm_width c) (cm_quote c) (cm_strict c) (cm_file c) (cm_args c).
Definition set_indent x c := mkCommand (cm_color c) (cm_in c) (cm_csv_header c) (cm_out c) x (cm_compact c) (cm_width c) (cm_quote c) (cm_strict c) (cm_file c) (cm_args c).
Definition set_compact x c := mkCommand (cm_color c) (cm_in c) (cm_csv_header c) (cm_out c) (cm_indent c) x (cm_width c) (cm_quote c) (cm_strict c) (cm_file c) (cm_args c).
Definition set_width x c := mkCommand (cm_color c) (cm_in c) (cm_csv_header c) (cm_out c) (cm_indent c) (cm_compact c) x (cm_quote c) (cm_strict c) (cm_file c) (cm_args c).
Definition set_quote x c := mkCommand (cm_color c) (cm_in c) (cm_csv_header c) (cm_out c) (cm_indent c) (cm_compact c) (cm_width c) x (cm_strict c) (cm_file c) (cm_args c).
Definition set_strict x c := mkCommand (cm_color c) (cm_in c) (cm_csv_header c) (cm_out c) (cm_indent c) (cm_compact c) (cm_width c) (cm_quote c) x (cm_file c) (cm_args c).
Definition set_file x c := mkCommand (cm_color c) (cm_in c) (cm_csv_header c) (cm_out c) (cm_indent c) (cm_compact c) (cm_width c) (cm_quote c) (cm_strict c) x (cm_args c).
Definition set_args x c := mkCommand (cm_color c) (cm_in c) (cm_csv_header c) (cm_out c) (cm_indent c) (cm_compact c) (cm_width c) (cm_quote c) (cm_strict c) (cm_file c) x.

(** main.go:66-98: the default values. *)
Definition default_vars : vars :=
  mkVars (mkCommand (text "auto") (text "auto") [] (text "json") 2 false 60 false false [] []) false false false false.

(** The values of flags: BoolVar, IntVar, StringVar and BoolFunc, with what their
    methods Set do. *)
Inductive flag_value :=
| FBool (set : bool -> vars -> vars)
| FInt (set : Z -> vars -> vars)
| FString (set : bytes -> vars -> vars)
| FBoolFunc (set : vars -> vars).

(** main.go:66-98: the flags. *)
Definition flags : list (bytes * flag_value) := [
  (text "help-input", FBool (fun b v => mkVars (va_command v) b (va_help_out v) (va_help_tr v) (va_help_cook v)));
  (text "help-output", FBool (fun b v => mkVars (va_command v) (va_help_in v) b (va_help_tr v) (va_help_cook v)));
  (text "help-transforms", FBool (fun b v => mkVars (va_command v) (va_help_in v) (va_help_out v) b (va_help_cook v)));
  (text "help-cookbook", FBool (fun b v => mkVars (va_command v) (va_help_in v) (va_help_out v) (va_help_tr v) b));
  (text "json-indent", FInt (fun z => on_command (set_indent z)));
  (text "json-compact", FBool (fun b => on_command (set_compact b)));
  (text "json-lines", FBool (fun b => on_command (set_compact b)));
  (text "json-compact-width", FInt (fun z => on_command (set_width z)));
  (text "jpv-quote-keys", FBool (fun b => on_command (set_quote b)));
  (text "color", FString (fun s => on_command (set_color s)));
  (text "out", FString (fun s => on_command (set_out s)));
  (text "in", FString (fun s => on_command (set_in s)));
  (text "csv-header", FString (fun s => on_command (set_csv_header s)));
  (text "jsonpath-strict", FBool (fun b => on_command (set_strict b)));
  (text "indent", FInt (fun z => on_command (set_indent z)));
  (text "compactwidth", FInt (fun z => on_command (set_width z)));
  (text "quotekeys", FBool (fun b => on_command (set_quote b)));
  (text "colors", FBoolFunc (on_command (set_color (text "always"))));
  (text "nocolors", FBoolFunc (on_command (set_color (text "never"))));
  (text "file", FString (fun s => on_command (set_file s)))
].
Fixpoint lookup (name : bytes) (l : list (bytes * flag_value)) : option flag_value :=
  match l with
  | [] => None
  | (n, f) :: r => if bytes_eqb name n then Some f else lookup name r
  end.

(** flag.FlagSet.parseOne: the loop that looks for an equals sign, from the
    second byte of the name. *)
Fixpoint cut_at_equals (s : bytes) : bytes * option bytes :=
  match s with
  | [] => ([], None)
  | b :: s' =>
      if b =? 61 then ([], Some s')
      else let '(n, v) := cut_at_equals s' in (b :: n, v)
  end.

(** The end of flag.Parse: the values and flag.Args(), or os.Exit (0 after the
    usage was asked for, 2 after an error). *)
Inductive parsed :=
| Parsed (v : vars)
| Exit (status : Z).

Definition exit_usage : parsed := Exit 0.
Definition exit_error : parsed := Exit 2.

(** flag.FlagSet.Args. *)
Definition with_args (args : list bytes) (v : vars) : vars := on_command (set_args args) v.

(** flag.FlagSet.Parse and parseOne. *)
Fixpoint parse_flags (words : list bytes) (v : vars) : parsed :=
  match words with
  | [] => Parsed (with_args [] v)
  | s :: args =>
      let flag_named (name : bytes) : parsed :=
        match name with
        | [] => exit_error
        | b :: name' =>
            if (b =? 45) || (b =? 61) then exit_error
            else
              let '(n, value) := cut_at_equals name' in
              match lookup (b :: n) flags with
              | None => if bytes_eqb (b :: n) (text "help") || bytes_eqb (b :: n) (text "h") then exit_usage else exit_error
              | Some (FBool set) =>
                  match parse_bool (match value with Some x => x | None => text "true" end) with
                  | Some x => parse_flags args (set x v)
                  | None => exit_error
                  end
              | Some (FBoolFunc set) => parse_flags args (set v)
              | Some (FInt set) =>
                  match value with
                  | Some x => match parse_int0 x with Some z => parse_flags args (set z v) | None => exit_error end
                  | None =>
                      match args with
                      | [] => exit_error
                      | x :: args' => match parse_int0 x with Some z => parse_flags args' (set z v) | None => exit_error end
                      end
                  end
              | Some (FString set) =>
                  match value with
                  | Some x => parse_flags args (set x v)
                  | None =>
                      match args with
                      | [] => exit_error
                      | x :: args' => parse_flags args' (set x v)
                      end
                  end
              end
        end in
      match s with
      | 45 :: 45 :: [] => Parsed (with_args args v)
      | 45 :: 45 :: name => flag_named name
      | 45 :: ((_ :: _) as name) => flag_named name
      | _ => Parsed (with_args words v)
      end
  end.

(** main.go:32-291: the process that is started with the words [words].  The
    help texts (lines 103-118) go to standard error. *)
Definition jp_main float_text csv_records find grow (tty epipe : bool) (room : option nat)
    (words : list bytes) (input : reader) (oc : outcome) : Prop :=
  match parse_flags words default_vars with
  | Exit status => oc = mkOutcome [] status
  | Parsed v =>
      if va_help_in v || va_help_out v || va_help_tr v || va_help_cook v then oc = mkOutcome [] 0
      else jp float_text csv_records find grow tty epipe room (va_command v) input oc
  end.

(** Model of /repo/cmd/jp/main.go, lines 28-291: the command jp as a whole, from
    the values of its flags and arguments to what it leaves behind.  Left out: how
    the package flag gets these values from the command line, the help texts
    (lines 103-118), what is written to standard error, and crashes: a panic in
    the goroutine of the decoder or of a transformer ends the process whatever
    main is doing, so the relation [jp] has no outcome for such runs. *)
From Coq Require Import String Ascii List Arith ZArith NArith Bool.
From Verif Require Import Base Tokens ScannerModel ProgModel JsonDecModel P_JsonDec JpvDecModel P_Jpv CsvModel PrinterModel
  FormatModel TransformModel IterModel PathModel PathTop CompileModel ParseModel MainModel P_Main P_JpQuery P_Split.
Import ListNotations.
Local Open Scope string_scope.

(** The bytes of a string constant of the program. *)
Definition text (s : string) : bytes := map N_of_ascii (list_ascii_of_string s).

(** main.go:48-60, 75-98: the values of the flags (after [flag.Parse]) and the
    arguments. *)
Record command := mkCommand {
  cm_color : bytes;          (* -color; -colors and -nocolors set it, too *)
  cm_in : bytes;             (* -in *)
  cm_csv_header : bytes;     (* -csv-header *)
  cm_out : bytes;            (* -out *)
  cm_indent : Z;             (* -json-indent, -indent *)
  cm_compact : bool;         (* -json-compact, -json-lines *)
  cm_width : Z;              (* -json-compact-width, -compactwidth *)
  cm_quote : bool;           (* -jpv-quote-keys, -quotekeys *)
  cm_strict : bool;          (* -jsonpath-strict *)
  cm_file : bytes;           (* -file *)
  cm_args : list bytes       (* flag.Args() *)
}.

(** main.go:326-363 [defaultColorizer]: DimWhite, Yellow, White and Green for
    null, booleans, numbers and strings, BrightBlue for keys. *)
Definition default_colorizer : colorizer :=
  let code (s : string) : bytes := 27%N :: text s in
  mkColorizer (code "[34;1m") (code "[37;2m") (code "[33m") (code "[37m") (code "[32m") (code "[0m").

(** main.go:59-61, 120-130: [Some None] is no colours, [None] a fatal error. *)
Definition choose_color (tty : bool) (mode : bytes) : option (option colorizer) :=
  if bytes_eqb mode (text "always") then Some (Some default_colorizer)
  else if bytes_eqb mode (text "never") then Some None
  else if bytes_eqb mode (text "auto") then Some (if tty then Some default_colorizer else None)
  else None.

(** main.go:304-310: the names of the formats that are guessed. *)
Definition format_name (f : format) : bytes :=
  match f with
  | FJpv => text "jpv"
  | FJson => text "json"
  | FCsvHeader => text "csv-with-header"
  | FCsv => text "csv"
  end.

Local Close Scope string_scope.
(** strings.Split(s, ",") of the standard library. *)
Fixpoint split_commas (s : bytes) : list bytes :=
  match s with
  | [] => [[]]
  | b :: s' =>
      if N.eqb b 44 then [] :: split_commas s'
      else match split_commas s' with w :: ws => (b :: w) :: ws | [] => [[b]] end
  end.

(** main.go:168-190: the decoder; for CSV RecordsProduceObjects, HasHeader and
    the names given to SetFieldNames. *)
Inductive source :=
| SrcJson
| SrcJpv
| SrcCsv (objects header : bool) (named : list bytes).

Definition empty (s : bytes) : bool := match s with [] => true | _ => false end.

(** main.go:142-190: the decoder and its input; [None] is a fatal error. *)
Definition choose_source (c : command) (input : reader) : option (source * reader) :=
  match (if bytes_eqb (cm_in c) (text "auto")
         then match detect input with Some (f, input') => Some (format_name f, input') | None => None end
         else Some (cm_in c, input)) with
  | None => None
  | Some (name, input') =>
      if negb (empty (cm_csv_header c)) && (bytes_eqb name (text "csv-with-header") || bytes_eqb name (text "csvh")) then None
      else if bytes_eqb name (text "json") then Some (SrcJson, input')
      else if bytes_eqb name (text "jpv") || bytes_eqb name (text "path") then Some (SrcJpv, input')
      else if bytes_eqb name (text "csv") then
        if empty (cm_csv_header c) then Some (SrcCsv false false [], input')
        else Some (SrcCsv true false (split_commas (cm_csv_header c)), input')
      else if bytes_eqb name (text "csv-with-header") || bytes_eqb name (text "csvh") || bytes_eqb name (text "csv-header") then
        Some (SrcCsv true true [], input')
      else None
  end.

(** main.go:228-245: whether the encoder is that of JPV; [None] is a fatal
    error. *)
Definition choose_encoder (name : bytes) : option bool :=
  if bytes_eqb name (text "json") then Some false
  else if bytes_eqb name (text "jpv") || bytes_eqb name (text "path") then Some true
  else None.

Section Jp.
(** strconv.FormatFloat on the numbers in queries, as in GrammarModel.v. *)
Variable float_text : GoLiteral.float -> bytes.

(** main.go:258-291 [parseTransformer], with the query read and compiled. *)
Inductive stage :=
| StSplit
| StJoin
| StTrace
| StDepth (max : Z)
| StQuery (r : runner).
Definition stage_of (strict : bool) (arg : bytes) : option stage :=
  match parse_transformer arg with
  | None => None
  | Some TrSplit => Some StSplit
  | Some TrJoin => Some StJoin
  | Some TrTrace => Some StTrace
  | Some (TrDepth z) => Some (StDepth z)
  | Some (TrQuery s) =>
      match query_of_string float_text s with
      | None => None
      | Some q => match compile strict q with Some r => Some (StQuery r) | None => None end
      end
  end.

(** main.go:200-206: the loop over the arguments; the first error is fatal. *)
Fixpoint stages_of (strict : bool) (args : list bytes) : option (list stage) :=
  match args with
  | [] => Some []
  | a :: args' =>
      match stage_of strict a with
      | None => None
      | Some s => match stages_of strict args' with Some l => Some (s :: l) | None => None end
      end
  end.

(** main.go:118-245: all that is decided before the first token is written. *)
Record plan := mkPlan { pl_source : source; pl_input : reader; pl_stages : list stage; pl_options : jp_options }.
Definition prepare (tty : bool) (c : command) (input : reader) : option plan :=
  match choose_color tty (cm_color c) with
  | None => None
  | Some color =>
      if empty (cm_file c) then
        match choose_source c input with
        | None => None
        | Some (src, input') =>
            match stages_of (cm_strict c) (cm_args c) with
            | None => None
            | Some sts =>
                match choose_encoder (cm_out c) with
                | None => None
                | Some jpv =>
                    Some (mkPlan src input' sts
                      (mkJpOptions jpv color (if cm_compact c then -1 else cm_indent c) (cm_width c) (cm_quote c) tty))
                end
            end
        end
      else None
  end.

(** encoding/csv of the standard library: the records read from an input with
    these bytes and this end, and whether an error follows them.  (That this does
    not depend on the pieces in which the bytes arrive is assumed.) *)
Variable csv_records : bytes -> rerr -> list (list bytes) * bool.
Definition csv_read (r : reader) : list (list bytes) * bool := csv_records (concat (rd_chunks r)) (rd_fin r).

(** internal/scanner/scanner.go:45-47, 239: the size of the buffer of a scanner. *)
Definition jp_scanner : nat := Z.to_nat 8192.

(** main.go:192-198: the decoder sends the tokens [ts]; what it returns is
    written to standard error at most. *)
Definition source_sends (src : source) (input : reader) (ts : list token) : Prop :=
  match src with
  | SrcJson => exists x, decodes input jp_scanner ts x
  | SrcJpv => exists x, decodes_jpv input jp_scanner ts x
  | SrcCsv objects header named =>
      exists x, decode_csv jp_scanner objects header named (fst (csv_read input)) (snd (csv_read input)) = Ok (ts, x)
  end.

Variable find : bytes -> bytes -> option (nat * nat).
Variable grow : Z -> Z -> Z.

(** One transformer on its own: it turns the tokens [ts] into [out]. *)
Definition stage_turns (s : stage) (ts out : list token) : Prop :=
  match s with
  | StSplit => exists n0, forall n, n0 <= n -> exists f0 h', forall f, f0 <= f -> irun grow f (split n) (IterModel.start ts) = Ok (h', out)
  | StJoin => out = join_stream ts
  | StTrace => out = trace_stream ts
  | StDepth z => out = max_depth_filter z ts
  | StQuery r => turns find grow r ts out
  end.
(** main.go:205: one after the other (each in its goroutine; what arrives does
    not depend on the schedule, C25). *)
Inductive stages_turn : list stage -> list token -> list token -> Prop :=
| st_nil : forall ts, stages_turn [] ts ts
| st_cons : forall s l ts mid out, stage_turns s ts mid -> stages_turn l mid out -> stages_turn (s :: l) ts out.

(** The process: [tty] tells whether standard output is a terminal, which takes
    [room] bytes and then fails, with EPIPE if [epipe].  A fatal error comes
    before anything is written (os.Exit(1), lines 321-324). *)
Definition jp (tty epipe : bool) (room : option nat) (c : command) (input : reader) (oc : outcome) : Prop :=
  match prepare tty c input with
  | None => oc = mkOutcome [] 1
  | Some p =>
      exists ts out, source_sends (pl_source p) (pl_input p) ts /\
        stages_turn (pl_stages p) ts out /\ leaves_behind (pl_options p) epipe room out oc
  end.
End Jp.

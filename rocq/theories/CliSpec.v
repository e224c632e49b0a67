(** Specification of the command jp: which commands can be carried out, which
    values an input holds, and what the arguments make of values. *)
From Coq Require Import String List Arith ZArith NArith Bool.
From Verif Require Import Base Tokens ScannerModel JsonSpec JsonDecModel P_JsonDec FormatSpec CsvSpec P_Csv EncSpec
  CursorModel P_Transform P_Split PathAst PathTypes PathSpec PathTame GrammarModel GrammarSpec ParseModel QuerySyntax SyntaxText P_Ordinary
  PrinterModel MainModel P_Main P_JpQuery CliModel.
Import ListNotations.

(* ------------------------------------------------------------------ *)
(** The input format. *)

(** [begins rd start]: the first read of at most 40 bytes gives [start] and no
    error. *)
Definition begins (rd : reader) (start : bytes) : Prop :=
  exists c cs, rd_chunks rd = c :: cs /\ start = firstn 40 c /\
    (cs = [] -> rd_with rd = true -> 40 < length c).
(** The format that is guessed from the beginning of the input. *)
Inductive guessed : bytes -> bytes -> Prop :=
| gs_nothing : guessed [] (text "jpv")
| gs_json : forall b r, b = 123%N \/ b = 91%N -> guessed (b :: r) (text "json")
| gs_header : forall s, header_line s -> guessed s (text "csv-with-header")
| gs_csv : forall s, csv_line csv_field s -> ~ header_line s ->
    (forall b r, s = b :: r -> b <> 123%N /\ b <> 91%N) -> guessed s (text "csv").
Definition input_format (c : command) (rd : reader) (name : bytes) : Prop :=
  cm_in c <> text "auto" /\ name = cm_in c \/
  cm_in c = text "auto" /\ exists start, begins rd start /\ guessed start name.

(* ------------------------------------------------------------------ *)
(** Commands that can be carried out. *)

(** An argument is split, join, trace, depth=N or a query that can be read and is
    well typed. *)
Definition known_argument (float_text : GoLiteral.float -> bytes) (a : bytes) : Prop :=
  a = text "split" \/ a = text "join" \/ a = text "trace" \/
  (exists t z, a = text "depth=" ++ t /\ int64_text t z) \/
  (exists r q, a = text "$" ++ r /\ query_of_string float_text a = Some q /\ typed_query q).
Definition acceptable float_text (c : command) (rd : reader) : Prop :=
  In (cm_color c) [text "auto"; text "always"; text "never"] /\
  cm_file c = [] /\
  (exists name, input_format c rd name /\
     In name [text "json"; text "jpv"; text "path"; text "csv"; text "csv-with-header"; text "csvh"; text "csv-header"] /\
     (cm_csv_header c <> [] -> name <> text "csv-with-header" /\ name <> text "csvh")) /\
  Forall (known_argument float_text) (cm_args c) /\
  In (cm_out c) [text "json"; text "jpv"; text "path"].

(** The options of the output. *)
Definition output_options (tty : bool) (c : command) : jp_options :=
  mkJpOptions (negb (bytes_eqb (cm_out c) (text "json")))
    (if bytes_eqb (cm_color c) (text "always") || bytes_eqb (cm_color c) (text "auto") && tty then Some default_colorizer else None)
    (if cm_compact c then -1 else cm_indent c) (cm_width c) (cm_quote c) tty.
(** JSON without colours. *)
Definition plain_json (tty : bool) (c : command) : Prop :=
  cm_out c = text "json" /\ (cm_color c = text "never" \/ cm_color c = text "auto" /\ tty = false).

(* ------------------------------------------------------------------ *)
(** The values in the input. *)

(** [listed names s]: [s] is the list of [names], separated by commas. *)
Definition listed (names : list bytes) (s : bytes) : Prop :=
  exists n ns, names = n :: ns /\ s = n ++ flat_map (fun m => 44%N :: m) ns /\ Forall (fun m => ~ In 44%N m) names.

(** A JSON text: its values. *)
Definition json_input (c : command) (rd : reader) (vs : list jval) : Prop :=
  input_format c rd (text "json") /\ exists t, delivers rd t /\ stext true ws_separated vs t.
(** CSV: a value for each record.  [records] are those that encoding/csv gives;
    the first is the header for csv-with-header. *)
Definition csv_input (records : list (list bytes)) (c : command) (rd : reader) (vs : list jval) : Prop :=
  (input_format c rd (text "csv") /\ cm_csv_header c = [] /\ Forall2 (record_value false []) records vs) \/
  (input_format c rd (text "csv") /\ exists names, cm_csv_header c <> [] /\ listed names (cm_csv_header c) /\
     Forall2 (record_value true names) records vs) \/
  (exists name, input_format c rd name /\
     (In name [text "csv-with-header"; text "csvh"] /\ cm_csv_header c = [] \/ name = text "csv-header") /\
     Forall2 (record_value true (hd [] records)) (tl records) vs).

(* ------------------------------------------------------------------ *)
(** What an argument makes of the values [vs]. *)
Section Applies.
Variable float_text : GoLiteral.float -> bytes.
Variable matches : bytes -> bytes -> Prop.
Variable strict : bool.
Inductive applies : bytes -> list jval -> list jval -> Prop :=
| ap_split : forall vs, applies (text "split") vs (flat_map spread vs)
| ap_join : forall vs, applies (text "join") vs [JArr vs false]
| ap_trace : forall vs, applies (text "trace") vs []
| ap_depth : forall t n vs, int64_text t (Z.of_nat n) -> applies (text "depth=" ++ t) vs (map (truncate n) vs)
| ap_negative_depth : forall t z vs, int64_text t z -> (z < 0)%Z -> applies (text "depth=" ++ t) vs []
| ap_query : forall r segs vs nodelists,
    (* the query that the argument spells (C54), if it is well typed and of the
       kind of C34 *)
    let q := JQuery true segs in
    query_of_string float_text (text "$" ++ r) = Some q -> typed_query q -> ordinary q -> Forall clean vs ->
    Forall2 (fun x l => nodes matches strict x q x l) vs nodelists ->
    applies (text "$" ++ r) vs (concat nodelists).
(** All arguments, from left to right.  The values that arrive anywhere have less
    than 2^63-1 tokens. *)
Inductive applied : list bytes -> list jval -> list jval -> Prop :=
| ad_nil : forall vs, applied [] vs vs
| ad_cons : forall a args vs mid ws, (Z.of_nat (length (stream vs)) < maxint)%Z ->
    applies a vs mid -> applied args mid ws -> applied (a :: args) vs ws.
End Applies.
Definition without_depth (args : list bytes) : Prop := Forall (fun a => forall t, a <> text "depth=" ++ t) args.

(** Specification of tables: CSV files with a header line. *)
From Coq Require Import String List ZArith NArith Bool.
From Verif Require Import Base Tokens JsonSpec ScalarSpec GoLiteral CsvSpec PathSpec CursorModel CliModel CliSpec ScannerModel.
Import ListNotations.

(** Text in UTF-8 without control characters other than line feeds. *)
Definition legible (f : bytes) : Prop :=
  exists u, f = flat_map utf8 u /\ Forall (fun c => unicode c /\ (32 <= c \/ c = 10)%N) u.
(** A number that has a float64. *)
Definition in_float_range (f : bytes) : Prop :=
  exists n m e, num_value f n m e /\ float_of_decimal (mkDec n m e) <> None.
(** A cell of a table: nothing, a number, or a text that is not made of digits,
    signs, points, e and E only (see C21 for those). *)
Definition cell (f : bytes) : Prop :=
  f = [] \/ in_float_range f \/ legible f /\ ~ Forall numeric_byte f.

(** A table: the names of the columns are different, all rows have a cell for each
    column, and there are less than 2^51 or so cells. *)
Definition table (names : list bytes) (rows : list (list bytes)) : Prop :=
  Forall legible names /\ NoDup names /\
  Forall (fun row => length row = length names /\ Forall cell row) rows /\
  (Z.of_nat (length rows) * (2 * Z.of_nat (length names) + 2) < 2 ^ 53 - 2)%Z.

(** The value of a row: an object with a member for each column. *)
Definition row_value (names : list bytes) (row : list bytes) (v : jval) : Prop :=
  exists ms, v = JObj ms false /\
    Forall2 (fun nf m => string_of (fst nf) (fst m) /\ exists s, snd m = JScalar s /\ field_value (snd nf) s) (combine names row) ms.
(** The value of the cell in column [i]. *)
Definition at_column (i : nat) (row : list bytes) (v : jval) : Prop :=
  exists f s, nth_error row i = Some f /\ field_value f s /\ v = JScalar s.

(** A command that reads a table: the first line is the header. *)
Definition reads_table (c : command) (rd : reader) : Prop :=
  cm_csv_header c = [] /\
  exists name, input_format c rd name /\ In name [text "csv-with-header"; text "csvh"; text "csv-header"].

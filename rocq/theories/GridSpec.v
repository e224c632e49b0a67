(** Specification of grids: CSV files without a header line. *)
From Coq Require Import String List ZArith NArith Bool.
From Verif Require Import Base Tokens JsonSpec CsvSpec CliModel CliSpec ScannerModel TableSpec.
Import ListNotations.

(** Rows of [w] cells each, less than 2^53 or so in all. *)
Definition grid (w : nat) (rows : list (list bytes)) : Prop :=
  Forall (fun row => length row = w /\ Forall cell row) rows /\
  (Z.of_nat (length rows) * (Z.of_nat w + 2) < 2 ^ 53 - 2)%Z.

(** The value of a row: an array with an item for each cell. *)
Definition row_array (row : list bytes) (v : jval) : Prop :=
  exists l, v = JArr l false /\ Forall2 (fun f x => exists s, x = JScalar s /\ field_value f s) row l.

(** A command that reads a grid: all lines are rows. *)
Definition reads_grid (c : command) (rd : reader) : Prop :=
  cm_csv_header c = [] /\ input_format c rd (text "csv").

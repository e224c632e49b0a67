(** Model of /repo/internal/format: printers and colorizers. *)
From Coq Require Import List ZArith NArith Bool.
From Verif Require Import Base Tokens.

(** Calls of the methods of the interface Printer (printer.go:28-34). *)
Inductive pcall :=
| PBytes (b : bytes)
| PIndent
| PDedent
| PNewLine
| PReset.

(** What a DefaultPrinter asks of its io.Writer and Flusher. *)
Inductive wop :=
| WWrite (b : bytes)
| WFlush.

Section Printer.
(** printer.go:75-80: the fields IndentSize and (Flusher != nil). *)
Variable size : Z.
Variable flusher : bool.

(** printer.go:84-92 [writeNL]. *)
Definition write_nl : list wop :=
  WWrite [10%N] :: if flusher then [WFlush] else [].

(** printer.go:96-107 [NewLine]. *)
Definition new_line (level : Z) : list wop :=
  if (size <? 0)%Z then []
  else write_nl ++ repeat (WWrite [32%N]) (Z.to_nat (size * level)).

(** printer.go:110-132: one call; the new indentation level. *)
Definition printer_call (level : Z) (c : pcall) : list wop * Z :=
  match c with
  | PBytes b => ([WWrite b], level)
  | PIndent => (new_line (level + 1), (level + 1)%Z)
  | PDedent => (new_line (level - 1), (level - 1)%Z)
  | PNewLine => (new_line level, level)
  | PReset => (write_nl, 0%Z)
  end.

Fixpoint printer_run (level : Z) (cs : list pcall) : list wop :=
  match cs with
  | [] => []
  | c :: r => let '(ws, level') := printer_call level c in ws ++ printer_run level' r
  end.
End Printer.

(** The bytes received by a writer that never fails. *)
Fixpoint written (ws : list wop) : bytes :=
  match ws with
  | [] => []
  | WWrite b :: r => b ++ written r
  | WFlush :: r => written r
  end.

(** A writer (with its flusher) that fails at its [k]-th operation, after
    having written [part] bytes of it if it is a write ([None]: it never
    fails): the bytes written and whether it failed.  After the first failure
    the printer makes no further call, because it panics. *)
Definition failing_write (fail : option (nat * nat)) (ws : list wop) : bytes * bool :=
  match fail with
  | None => (written ws, false)
  | Some (k, part) =>
      match nth_error ws k with
      | None => (written ws, false)
      | Some (WWrite b) => (written (firstn k ws) ++ firstn part b, true)
      | Some WFlush => (written (firstn k ws), true)
      end
  end.

(** colorizer.go:5-9 [Colorizer]; the array of four codes is indexed by the
    scalar type (token/tokens.go: Null, Boolean, Number, String). *)
Record colorizer := mkColorizer {
  co_key : bytes;
  co_null : bytes;
  co_bool : bytes;
  co_num : bytes;
  co_str : bytes;
  co_reset : bytes
}.

(** colorizer.go:11-16 [ScalarColorCode]. *)
Definition scalar_color (c : colorizer) (s : scalar) : bytes :=
  if sc_key s then co_key c
  else match sc_type s with
       | TNull => co_null c
       | TBool => co_bool c
       | TNum => co_num c
       | TStr => co_str c
       end.

(** colorizer.go:18-26 [PrintScalar]; [None] is the nil Colorizer. *)
Definition print_scalar (c : option colorizer) (s : scalar) : list pcall :=
  match c with
  | None => [PBytes (sc_bytes s)]
  | Some co => [PBytes (scalar_color co s); PBytes (sc_bytes s); PBytes (co_reset co)]
  end.

(** A jp command that waits for input: what has happened when standard input has
    delivered some bytes and has no more for the time being. *)
From Coq Require Import List Arith ZArith NArith Bool.
From Verif Require Import Base Tokens ScannerModel ProgModel JsonDecModel PrinterModel JsonEncModel MainModel.

(** A reader that has delivered some chunks.  When it is asked for more the call
    does not return; here it returns an error. *)
Definition delivering (chunks : list bytes) : reader := mkReader chunks RdFail false.

(** internal/scanner/scanner.go:81-92: an error is stored when a call of the
    reader has returned one, here: when the reader has been asked for more than it
    has delivered.  The method that asked does not return. *)
Definition asked (s : cst) : bool := match c_err s with Some _ => true | None => false end.

(** As [prun] (ProgModel.v) with [cstep], up to the first call of a scanner method
    that asks the reader for more than it has delivered: the tokens sent so far and,
    if there is no such call, the end of the program. *)
Fixpoint wait_run {A} (s : cst) (p : prog A) : list token * res (option (cst * A)) :=
  match p with
  | Ret a => ([], Ok (Some (s, a)))
  | Op o k => match cstep s o with
              | Ok (s1, x) => if asked s1 then ([], Ok None) else wait_run s1 (k x)
              | Panic => ([], Panic)
              | OutOfFuel => ([], OutOfFuel)
              end
  | Emit t k => let '(ts, r) := wait_run s k in (t :: ts, r)
  | Stuck => ([], OutOfFuel)
  end.

(** encoding/json/decoder.go:19-37 on a reader that has delivered the chunks. *)
Definition decode_waiting (fuel : nat) (chunks : list bytes) (size : nat) : list token * bool :=
  match wait_run (new_scanner (delivering chunks) size) (produce fuel) with
  | (ts, Ok None) => (ts, true)
  | (ts, _) => (ts, false)
  end.

(** main.go:208-256, when the output stage has received the tokens [ts] and waits
    for the next one: what standard output has got.  The encoder makes no call
    after the last token: in the model it ends there, as if the channel had been
    closed, without a call (JsonEncModel.v, [obj_advance_l], [arr_advance_l] and
    [consume_loop] on the empty list).  The buffer is not flushed, which is done
    only when main returns. *)
Definition on_stdout (fuel : nat) (o : jp_options) (ts : list token) : res bytes :=
  do (w, _) <- put_all jp_buffer (new_bufw None) (printer_run (jo_indent o) (jo_tty o) 0 (fst (encode_calls fuel o ts))) ;
  Ok (dv_got (bw_dev w)).

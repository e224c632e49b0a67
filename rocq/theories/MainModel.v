(** Model of /repo/cmd/jp/main.go: what becomes of the output and of the exit
    status.  Flags and usage texts are left out. *)
From Coq Require Import List Arith ZArith NArith Bool.
From Verif Require Import Base Tokens PrinterModel JsonEncModel JpvEncModel GrammarModel.

(* ------------------------------------------------------------------ *)
(** Standard output: a device that takes [dv_room] more bytes ([None]: any
    number) and then fails, with the part of the write that had room. *)
Record device := mkDev { dv_got : bytes; dv_room : option nat }.
Definition dev_write (d : device) (b : bytes) : device * nat * bool :=
  match dv_room d with
  | None => (mkDev (dv_got d ++ b) None, length b, false)
  | Some k =>
      if length b <=? k then (mkDev (dv_got d ++ b) (Some (k - length b)), length b, false)
      else (mkDev (dv_got d ++ firstn k b) (Some 0), k, true)
  end.

(** bufio.Writer of the standard library (main.go:209 [bufio.NewWriter]): the
    bytes buffered, whether an error has occurred (it is kept), the device. *)
Record bufw := mkBw { bw_buf : bytes; bw_err : bool; bw_dev : device }.
Definition new_bufw (room : option nat) : bufw := mkBw [] false (mkDev [] room).

(** bufio.Writer.Flush. *)
Definition bw_flush (w : bufw) : bufw :=
  if bw_err w then w
  else match bw_buf w with
       | [] => w
       | _ :: _ =>
           let '(d, n, e) := dev_write (bw_dev w) (bw_buf w) in
           if e then mkBw (skipn n (bw_buf w)) true d else mkBw [] false d
       end.

Section Bufio.
(** The size of the buffer: 4096, see [jp_buffer]. *)
Variable size : nat.

(** bufio.Writer.Write: the loop is run at most twice, [fuel] is 3. *)
Fixpoint bw_write_loop (fuel : nat) (w : bufw) (p : bytes) : res bufw :=
  match fuel with
  | O => OutOfFuel
  | S f =>
      if (size - length (bw_buf w) <? length p) && negb (bw_err w) then
        match bw_buf w with
        | [] =>
            let '(d, n, e) := dev_write (bw_dev w) p in
            bw_write_loop f (mkBw [] e d) (skipn n p)
        | _ :: _ =>
            let n := size - length (bw_buf w) in
            bw_write_loop f (bw_flush (mkBw (bw_buf w ++ firstn n p) false (bw_dev w))) (skipn n p)
        end
      else if bw_err w then Ok w
      else Ok (mkBw (bw_buf w ++ p) false (bw_dev w))
  end.
Definition bw_write (w : bufw) (p : bytes) : res bufw := bw_write_loop 3 w p.

(** The operations of the printer on the writer, up to the first that fails
    (then the printer panics, internal/format/printer.go:84-136); whether one
    has failed. *)
Fixpoint put_all (w : bufw) (ws : list wop) : res (bufw * bool) :=
  match ws with
  | [] => Ok (w, false)
  | o :: r =>
      do w1 <- match o with WWrite b => bw_write w b | WFlush => Ok (bw_flush w) end ;
      if bw_err w1 then Ok (w1, true) else put_all w1 r
  end.

(** What the process leaves behind: the bytes standard output has taken and the
    exit status. *)
Record outcome := mkOutcome { oc_stdout : bytes; oc_status : Z }.

(** main.go:209-256: the end of main, from the printer calls [cs] that the
    encoder makes and the way it ends.  [epipe]: a failure of standard output is
    EPIPE.  When main returns, the deferred calls flush the buffer (line 210; the
    error is ignored) and report a panic, if any (lines 38-42): the status is 0.
    [fatalError] (321-324) calls os.Exit(1), which runs no deferred call. *)
Definition jp_end {A} (indent : Z) (flusher epipe : bool) (room : option nat) (cs : list pcall) (o : eout A) : res outcome :=
  match o with
  | EFuel => OutOfFuel
  | _ =>
      do (w, failed) <- put_all (new_bufw room) (printer_run indent flusher 0 cs) ;
      if failed && negb epipe then Ok (mkOutcome (dv_got (bw_dev w)) 1)
      else Ok (mkOutcome (dv_got (bw_dev (bw_flush w))) 0)
  end.
End Bufio.

(** bufio.NewWriter: defaultBufSize. *)
Definition jp_buffer : nat := Z.to_nat 4096.

(** main.go:212-245: how the output is to be written.  [jo_tty]: standard output
    is a terminal, and then the printer has a Flusher (lines 224-226). *)
Record jp_options := mkJpOptions {
  jo_jpv : bool;                (* -out: jpv or json *)
  jo_color : option colorizer;
  jo_indent : Z;                (* -json-indent, or -1 with -json-compact (213-216) *)
  jo_width : Z;                 (* -json-compact-width *)
  jo_quote : bool;              (* -jpv-quote-keys *)
  jo_tty : bool
}.
Definition encode_calls (fuel : nat) (o : jp_options) : enc unit :=
  if jo_jpv o then jconsume_loop (jo_color o) (jo_quote o) fuel
  else consume_loop (jo_color o) (jo_width o) 2 fuel.

(** main.go:208-256 on the stream of tokens [ts]. *)
Definition jp_output (fuel : nat) (o : jp_options) (epipe : bool) (room : option nat) (ts : list token) : res outcome :=
  let '(cs, e) := encode_calls fuel o ts in
  jp_end jp_buffer (jo_indent o) (jo_tty o) epipe room cs e.

(* ------------------------------------------------------------------ *)
(** main.go:258-291 [parseTransformer]: which transformer an argument stands
    for; [None] is an error.  Reading the query is modelled in GrammarModel.v. *)
Inductive transformer :=
| TrSplit
| TrJoin
| TrTrace
| TrDepth (max : Z)
| TrQuery (query : bytes).

(** strings.HasPrefix and strings.TrimPrefix. *)
Fixpoint trim_prefix (pre s : bytes) : option bytes :=
  match pre, s with
  | [], _ => Some s
  | a :: pre', b :: s' => if N.eqb a b then trim_prefix pre' s' else None
  | _ :: _, [] => None
  end.

Definition split_bytes : bytes := [115; 112; 108; 105; 116]%N.
Definition join_bytes : bytes := [106; 111; 105; 110]%N.
Definition trace_bytes : bytes := [116; 114; 97; 99; 101]%N.
Definition dot_bytes : bytes := [46]%N.
Definition depth_bytes : bytes := [100; 101; 112; 116; 104; 61]%N.
Definition dollar_bytes : bytes := [36]%N.

Definition parse_transformer (arg : bytes) : option transformer :=
  if bytes_eqb arg split_bytes then Some TrSplit
  else if bytes_eqb arg join_bytes then Some TrJoin
  else if bytes_eqb arg trace_bytes then Some TrTrace
  else match trim_prefix dot_bytes arg with
  | Some _ => None (* main.go:268-275: the old syntax, with three dots or one *)
  | None =>
      match trim_prefix depth_bytes arg with
      | Some d => match go_parse_int d with Some z => Some (TrDepth z) | None => None end
      | None => match trim_prefix dollar_bytes arg with Some _ => Some (TrQuery arg) | None => None end
      end
  end.

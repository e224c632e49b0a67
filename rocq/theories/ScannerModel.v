(** Model of /repo/internal/scanner/scanner.go: a buffered scanner over an
    io.Reader. *)
From Coq Require Import List Arith NArith Bool Lia.
From Verif Require Import Base.

(** scanner.go:8-11 [Pos]. *)
Record pos := mkPos { line : nat; col : nat }.

(** The error that ends a reader's data: [io.EOF] or any other error. *)
Inductive rerr := RdEOF | RdFail.

(** An [io.Reader].  [rd_chunks] are the byte chunks it will deliver, one per
    call (a chunk that does not fit in the caller's slice is delivered over
    several calls; an empty chunk is a call that returns 0, nil).  After the
    last chunk every call returns 0 bytes and the error [rd_fin]; if [rd_with]
    the error is already returned together with the last chunk. *)
Record reader := mkReader {
  rd_chunks : list bytes;
  rd_fin : rerr;
  rd_with : bool
}.

(** [reader.Read(p)] with [len p = k]: the bytes, the error if any, and the
    reader afterwards. *)
Definition reader_read (r : reader) (k : nat) : bytes * option rerr * reader :=
  match rd_chunks r with
  | [] => ([], Some (rd_fin r), r)
  | c :: cs =>
      if length c <=? k then
        match cs with
        | [] => (c, if rd_with r then Some (rd_fin r) else None,
                 mkReader [] (rd_fin r) (rd_with r))
        | _ => (c, None, mkReader cs (rd_fin r) (rd_with r))
        end
      else (firstn k c, None, mkReader (skipn k c :: cs) (rd_fin r) (rd_with r))
  end.

(** The operations of a scanner, as used by the decoders. *)
Inductive sop :=
| SRead | SPeek | SSkipPeek | SSkipRead | SBack | SStart | SEnd | SPos.

(** What an operation returns. [OB b] is [(b, nil)], [OErr] is [(0, err)]. *)
Inductive sobs :=
| OB (b : N)
| OErr
| OUnit
| OTok (t : bytes)
| OPos (p : pos).

(** scanner.go:243. *)
Definition EOFb : N := 255%N.

(** scanner.go:236-240. *)
Definition lookBackSize : nat := 1.
Definition maxConsecutiveEmptyReads : nat := 100.

(** scanner.go:13-43 [Scanner].  [c_ts = None] stands for
    [tokenStartIndex = -1], [c_prev = None] for [prevPos.Line = -1] (then
    [prevPos.Col] is never read), [c_parts = []] for [tokenParts == nil]. *)
Record cst := mkCst {
  c_rd : reader;
  c_buf : bytes;
  c_fill : nat;
  c_cur : nat;
  c_pos : pos;
  c_prev : option pos;
  c_ts : option nat;
  c_parts : list bytes;
  c_err : option (option rerr);   (* Some None is io.ErrNoProgress *)
  c_eof : nat
}.

(** scanner.go:49-56 [NewScannerSize]. *)
Definition new_scanner (r : reader) (size : nat) : cst :=
  mkCst r (repeat 0%N size) 0 0 (mkPos 0 0) None None [] None 0.

(** [s.buf[i:j]]. *)
Definition slice {A} (l : list A) (i j : nat) : list A := firstn (j - i) (skipn i l).

(** scanner.go:59-80: make room in a full buffer. *)
Definition shift_buf (s : cst) : cst :=
  if Nat.eqb (c_fill s) (length (c_buf s)) then
    let '(base, ts, parts) :=
      match c_ts s with
      | Some (S t) => (S t, Some 0, c_parts s)
      | ts =>
          if lookBackSize <=? c_cur s then
            let base := c_cur s - lookBackSize in
            match ts with
            | Some _ => (base, ts, c_parts s ++ [firstn base (c_buf s)])
            | None => (base, ts, c_parts s)
            end
          else (0, ts, c_parts s)
      end in
    if Nat.eqb base 0 then
      mkCst (c_rd s) (c_buf s) (c_fill s) (c_cur s) (c_pos s) (c_prev s) ts parts (c_err s) (c_eof s)
    else
      mkCst (c_rd s) (go_copy (c_buf s) (slice (c_buf s) base (c_fill s)))
            (c_fill s - base) (c_cur s - base) (c_pos s) (c_prev s) ts parts
            (c_err s) (c_eof s)
  else s.

Definition set_err (s : cst) (e : option rerr) : cst :=
  mkCst (c_rd s) (c_buf s) (c_fill s) (c_cur s) (c_pos s) (c_prev s) (c_ts s)
        (c_parts s) (Some e) (c_eof s).

(** scanner.go:81-92: the read loop; [i] counts down. *)
Fixpoint fill_loop (i : nat) (s : cst) : cst :=
  match i with
  | O => set_err s None
  | S i' =>
      let '(d, e, r) := reader_read (c_rd s) (length (c_buf s) - c_fill s) in
      let s1 := mkCst r (firstn (c_fill s) (c_buf s) ++ d
                           ++ skipn (c_fill s + length d) (c_buf s))
                      (c_fill s + length d) (c_cur s) (c_pos s) (c_prev s) (c_ts s)
                      (c_parts s) (c_err s) (c_eof s) in
      match e with
      | Some er => set_err s1 (Some er)
      | None => if 0 <? length d then s1 else fill_loop i' s1
      end
  end.

(** scanner.go:58-93 [fillBuf]. *)
Definition fill_buf (s : cst) : cst := fill_loop maxConsecutiveEmptyReads (shift_buf s).

(** scanner.go:102-109: position after reading [b]. *)
Definition bump_pos (p : pos) (b : N) : pos :=
  if N.eqb b 10 then mkPos (S (line p)) 0
  else if N.ltb b 192 then mkPos (line p) (S (col p))
  else p.

(** scanner.go:182-187 [errOrEOF].  (A nil error with no data cannot occur
    after [fillBuf]; it would return (0, nil).) *)
Definition err_or_eof (s : cst) : sobs :=
  match c_err s with
  | Some (Some RdEOF) => OB EOFb
  | Some _ => OErr
  | None => OB 0
  end.

(** scanner.go:95-118 [Read]. *)
Definition c_read (s0 : cst) : res (cst * sobs) :=
  let s := if c_fill s0 <=? c_cur s0 then fill_buf s0 else s0 in
  if c_cur s <? c_fill s then
    match nth_error (c_buf s) (c_cur s) with
    | None => Panic
    | Some b =>
        Ok (mkCst (c_rd s) (c_buf s) (c_fill s) (S (c_cur s)) (bump_pos (c_pos s) b)
                  (Some (c_pos s)) (c_ts s) (c_parts s) (c_err s) (c_eof s), OB b)
    end
  else
    match c_err s with
    | Some (Some RdEOF) =>
        Ok (mkCst (c_rd s) (c_buf s) (c_fill s) (c_cur s) (c_pos s) (c_prev s) (c_ts s)
                  (c_parts s) (c_err s) (S (c_eof s)), OB EOFb)
    | Some _ => Ok (s, OErr)
    | None => Ok (s, OB 0)
    end.

(** scanner.go:120-126 [StartToken]. *)
Definition c_start (s : cst) : res (cst * sobs) :=
  match c_ts s with
  | Some _ => Panic
  | None =>
      Ok (mkCst (c_rd s) (c_buf s) (c_fill s) (c_cur s) (c_pos s) (c_prev s)
                (Some (c_cur s)) (c_parts s) (c_err s) (c_eof s), OPos (c_pos s))
  end.

(** scanner.go:132-154 [EndToken]. *)
Definition c_end (s : cst) : res (cst * sobs) :=
  match c_ts s with
  | None => Panic
  | Some t =>
      if (t <=? c_cur s) && (c_cur s <=? length (c_buf s)) then
        let tok := concat (c_parts s) ++ slice (c_buf s) t (c_cur s) in
        Ok (mkCst (c_rd s) (c_buf s) (c_fill s) (c_cur s) (c_pos s) (c_prev s)
                  None [] (c_err s) (c_eof s), OTok tok)
      else Panic
  end.

(** scanner.go:156-170 [Back]. *)
Definition c_back (s : cst) : res (cst * sobs) :=
  if (c_cur s <=? 0) || (match c_ts s with Some t => c_cur s <=? t | None => false end)
  then Panic
  else
    match c_prev s with
    | None => Panic
    | Some pr =>
        match c_eof s with
        | S e => Ok (mkCst (c_rd s) (c_buf s) (c_fill s) (c_cur s) (c_pos s) (c_prev s)
                           (c_ts s) (c_parts s) (c_err s) e, OUnit)
        | O => Ok (mkCst (c_rd s) (c_buf s) (c_fill s) (c_cur s - 1) pr None
                         (c_ts s) (c_parts s) (c_err s) 0, OUnit)
        end
    end.

(** scanner.go:172-180 [Peek]. *)
Definition c_peek (s0 : cst) : res (cst * sobs) :=
  let s := if c_fill s0 <=? c_cur s0 then fill_buf s0 else s0 in
  if c_cur s <? c_fill s then
    match nth_error (c_buf s) (c_cur s) with
    | None => Panic
    | Some b => Ok (s, OB b)
    end
  else Ok (s, err_or_eof s).

(** scanner.go:196: the blank bytes other than newline. *)
Definition is_blank (b : N) : bool := N.eqb b 32 || N.eqb b 9 || N.eqb b 13.

(** scanner.go:191-202: scan the buffered bytes [l] for the first byte that is
    not white space; result: how many bytes were skipped, the byte found, the
    position reached. *)
Fixpoint skip_scan (l : bytes) (n : nat) (p : pos) : nat * option N * pos :=
  match l with
  | [] => (n, None, p)
  | b :: r =>
      if N.eqb b 10 then skip_scan r (S n) (mkPos (S (line p)) 0)
      else if is_blank b then skip_scan r (S n) (mkPos (line p) (S (col p)))
      else (n, Some b, p)
  end.

(** scanner.go:189-209 [SkipSpaceAndPeek] ([rd = false]) and 211-234
    [SkipSpaceAndRead] ([rd = true]).  The loop ends because each turn that
    does not return has received at least one byte. *)
Fixpoint skip_loop (fuel : nat) (rd : bool) (s : cst) : res (cst * sobs) :=
  match fuel with
  | O => OutOfFuel
  | S f =>
      let '(n, ob, p) := skip_scan (slice (c_buf s) (c_cur s) (c_fill s)) 0 (c_pos s) in
      match ob with
      | Some b =>
          if rd then
            let p' := if N.ltb b 192 then mkPos (line p) (S (col p)) else p in
            Ok (mkCst (c_rd s) (c_buf s) (c_fill s) (c_cur s + n + 1) p' (c_prev s)
                      (c_ts s) (c_parts s) (c_err s) (c_eof s), OB b)
          else
            Ok (mkCst (c_rd s) (c_buf s) (c_fill s) (c_cur s + n) p (c_prev s)
                      (c_ts s) (c_parts s) (c_err s) (c_eof s), OB b)
      | None =>
          let s1 := fill_buf (mkCst (c_rd s) (c_buf s) (c_fill s) (c_fill s) p (c_prev s)
                                    (c_ts s) (c_parts s) (c_err s) (c_eof s)) in
          if c_fill s1 <=? c_cur s1 then Ok (s1, err_or_eof s1)
          else skip_loop f rd s1
      end
  end.

(** Enough turns for the data that remains. *)
Definition skip_fuel (s : cst) : nat :=
  S (length (concat (rd_chunks (c_rd s))) + 1).

Definition cstep (s : cst) (o : sop) : res (cst * sobs) :=
  match o with
  | SRead => c_read s
  | SPeek => c_peek s
  | SSkipPeek => skip_loop (skip_fuel s) false s
  | SSkipRead => skip_loop (skip_fuel s) true s
  | SBack => c_back s
  | SStart => c_start s
  | SEnd => c_end s
  | SPos => Ok (s, OPos (c_pos s))
  end.

Fixpoint crun (s : cst) (ops : list sop) : res (cst * list sobs) :=
  match ops with
  | [] => Ok (s, [])
  | o :: r =>
      do x <- cstep s o ;
      do y <- crun (fst x) r ;
      Ok (fst y, snd x :: snd y)
  end.

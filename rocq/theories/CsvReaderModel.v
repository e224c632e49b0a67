(** Model of the csv.Reader of the standard library, as /repo/encoding/csv/decoder.go
    uses it (lines 25-27 and 34-40: the default settings of csv.NewReader, so the
    comma is ',', there are no comments, LazyQuotes and TrimLeadingSpace are off and
    FieldsPerRecord is 0).  The package is not in the repository; its functions are
    modelled from its published source and cited by name. *)
From Coq Require Import List NArith Bool.
From Verif Require Import Base Tokens ScannerModel.
Import ListNotations.
Local Open Scope N_scope.

(** bufio.Reader.ReadSlice('\n'): up to the first line feed, or all of the input. *)
Fixpoint cut_line (t : bytes) : bytes * bytes :=
  match t with
  | [] => ([], [])
  | b :: t' => if b =? 10 then ([10], t') else let '(l, r) := cut_line t' in (b :: l, r)
  end.
(** The number of bytes of the line end of a line (lengthNL), and the line without it. *)
Definition ends_lf (l : bytes) : bool := last l 0 =? 10.
Definition chomp (l : bytes) : bytes := if ends_lf l then removelast l else l.

(** Reader.readLine: the line, the error and what is left of the input, which ends
    with the error [fin].  A carriage return before the line feed is dropped, and one
    at the end of the input. *)
Definition drop_cr (l : bytes) : bytes := if last l 0 =? 13 then removelast l else l.
Definition read_line (fin : rerr) (t : bytes) : bytes * option rerr * bytes :=
  match t with
  | [] => ([], Some fin, [])
  | _ =>
      let '(line, rest) := cut_line t in
      if ends_lf line then (drop_cr (removelast line) ++ [10], None, rest)
      else match fin with
           | RdEOF => (drop_cr line, None, rest)
           | RdFail => (line, Some RdFail, rest)
           end
  end.

(** bytes.IndexByte: what is before and after the first [c]. *)
Fixpoint cut_at (c : N) (l : bytes) : option (bytes * bytes) :=
  match l with
  | [] => None
  | b :: l' => if b =? c then Some ([], l') else match cut_at c l' with Some (p, q) => Some (b :: p, q) | None => None end
  end.

(** Reader.readRecord, the loop parseField.  [quoted]: the bytes of the field so far
    within quotes; [None] is the beginning of a field.  [err] is errRead.  The result
    is the record, or [None] for an error, and the rest of the input. *)
Fixpoint scan_fields (fuel : nat) (fin : rerr) (quoted : option bytes) (line : bytes) (err : option rerr) (t : bytes) (dst : list bytes)
  : res (option (list bytes * bytes)) :=
  match fuel with
  | O => OutOfFuel
  | S n =>
      let finish (dst : list bytes) : res (option (list bytes * bytes)) :=
        Ok (match err with None => Some (dst, t) | Some _ => None end) in
      match quoted with
      | None =>
          match line with
          | 34 :: line' => scan_fields n fin (Some []) line' err t dst
          | _ =>
              match cut_at 44 line with
              | Some (f, line') =>
                  if existsb (N.eqb 34) f then Ok None (* ErrBareQuote *)
                  else scan_fields n fin None line' err t (dst ++ [f])
              | None =>
                  if existsb (N.eqb 34) (chomp line) then Ok None
                  else finish (dst ++ [chomp line])
              end
          end
      | Some buf =>
          match cut_at 34 line with
          | Some (p, line') =>
              match line' with
              | 34 :: line'' => scan_fields n fin (Some (buf ++ p ++ [34])) line'' err t dst
              | 44 :: line'' => scan_fields n fin None line'' err t (dst ++ [buf ++ p])
              | [] => finish (dst ++ [buf ++ p])
              | [10] => finish (dst ++ [buf ++ p])
              | _ => Ok None (* ErrQuote *)
              end
          | None =>
              match line with
              | [] => Ok None (* ErrQuote, or errRead *)
              | _ =>
                  match err with
                  | Some _ => Ok None
                  | None =>
                      let '(line', err', t') := read_line fin t in
                      scan_fields n fin (Some (buf ++ line)) line' (match err' with Some RdEOF => None | _ => err' end) t' dst
                  end
              end
          end
      end
  end.

(** Reader.readRecord: empty lines are skipped. *)
Inductive record_read := RecEnd | RecFail | Rec (r : list bytes) (rest : bytes).
Fixpoint read_record (fuel : nat) (fin : rerr) (t : bytes) : res record_read :=
  match fuel with
  | O => OutOfFuel
  | S n =>
      let '(line, err, t') := read_line fin t in
      match err with
      | Some RdEOF => Ok RecEnd
      | _ =>
          if match err with None => true | _ => false end && match line with [] => true | [10] => true | _ => false end
          then read_record n fin t'
          else
            do x <- scan_fields (S (length line + length t')) fin None line err t' [] ;
            Ok (match x with Some (r, t'') => Rec r t'' | None => RecFail end)
      end
  end.

(** The calls of Read in Decoder.Produce (decoder.go:33-48), until one fails.  The
    number of fields of the first record is expected of the others
    (FieldsPerRecord); [true]: the error is not io.EOF. *)
Fixpoint read_all (fuel : nat) (fin : rerr) (width : option nat) (t : bytes) : res (list (list bytes) * bool) :=
  match fuel with
  | O => OutOfFuel
  | S n =>
      do x <- read_record (S (length t)) fin t ;
      match x with
      | RecEnd => Ok ([], false)
      | RecFail => Ok ([], true)
      | Rec r t' =>
          if match width with None => true | Some w => Nat.eqb (length r) w end
          then do y <- read_all n fin (Some (length r)) t' ; Ok (r :: fst y, snd y)
          else Ok ([], true) (* ErrFieldCount *)
      end
  end.
Definition csv_reader (t : bytes) (fin : rerr) : list (list bytes) * bool :=
  match read_all (S (length t)) fin None t with
  | Ok x => x
  | _ => ([], true)
  end.

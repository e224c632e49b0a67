(** Model of the detection of the input format in /repo/cmd/jp/main.go. *)
From Coq Require Import List NArith Bool.
From Verif Require Import Base ScannerModel.
Local Open Scope N_scope.

(** Regular expressions of Go's package regexp, those used here: [RSet] is a
    character class, [REnd] is [$].  The classes are sets of bytes: a negated
    class matches the bytes of a multi-byte character one by one, which makes no
    difference under a star. *)
Inductive re :=
| RNone | REmpty | RSet (p : N -> bool) | RCat (r q : re) | RAlt (r q : re) | RStar (r : re) | REnd.

(** Does [r] match the empty string; [fin] tells if it is at the end of the
    text. *)
Fixpoint nullable (fin : bool) (r : re) : bool :=
  match r with
  | RNone | RSet _ => false
  | REmpty | RStar _ => true
  | RCat r q => nullable fin r && nullable fin q
  | RAlt r q => nullable fin r || nullable fin q
  | REnd => fin
  end.
(** What is left of [r] after the byte [b]. *)
Fixpoint deriv (b : N) (r : re) : re :=
  match r with
  | RNone | REmpty | REnd => RNone
  | RSet p => if p b then REmpty else RNone
  | RCat r q => if nullable false r then RAlt (RCat (deriv b r) q) (deriv b q) else RCat (deriv b r) q
  | RAlt r q => RAlt (deriv b r) (deriv b q)
  | RStar r => RCat (deriv b r) (RStar r)
  end.
(** [regexp.Match] of a pattern that starts with [^]: some beginning of the text
    matches. *)
Fixpoint re_match (r : re) (s : bytes) : bool :=
  match s with
  | [] => nullable true r
  | b :: s' => nullable false r || re_match (deriv b r) s'
  end.

Definition is (c : N) (b : N) : bool := N.eqb b c.
Definition letter (b : N) : bool := (65 <=? b) && (b <=? 90) || (97 <=? b) && (b <=? 122).
Definition name_char (b : N) : bool := letter b || (b =? 95) || (48 <=? b) && (b <=? 57) || (b =? 45).
Definition RPlus (r : re) : re := RCat r (RStar r).
Definition ROpt (r : re) : re := RAlt r REmpty.
Definition RChr (c : N) : re := RSet (is c).

Inductive format := FJpv | FJson | FCsvHeader | FCsv.

(** main.go:305-310: the variable formatGuessers. *)
Definition line_end : re := RAlt (RChr 10) (RCat (ROpt (RChr 44)) REnd).
Definition re_jpv : re := REnd.
Definition re_json : re := RSet (fun b => is 123 b || is 91 b).
Definition re_name : re := RCat (RSet letter) (RStar (RSet name_char)).
Definition re_csv_header : re := RCat re_name (RCat (RPlus (RCat (RChr 44) re_name)) line_end).
Definition bare : re := RStar (RSet (fun b => negb (is 44 b || is 34 b || is 10 b))).
Definition quoted : re := RCat (RChr 34) (RCat (RStar (RSet (fun b => negb (is 34 b)))) (RChr 34)).
Definition re_csv : re := RCat (RAlt bare quoted) (RCat (RPlus (RAlt (RCat (RChr 44) bare) (RCat (RChr 44) quoted))) line_end).
Definition guessers : list (format * re) :=
  [(FJpv, re_jpv); (FJson, re_json); (FCsvHeader, re_csv_header); (FCsv, re_csv)].

(** main.go:312-319 [guessFormat]. *)
Fixpoint guess_loop (l : list (format * re)) (start : bytes) : option format :=
  match l with
  | [] => None
  | (f, r) :: l' => if re_match r start then Some f else guess_loop l' start
  end.
Definition guess_format (start : bytes) : option format := guess_loop guessers start.

(** main.go:146-161 [main], the part for the input format auto: the format and the input
    for the decoder, or nothing if the program ends with an error.  The input is
    what was read to guess, followed by the rest (io.MultiReader). *)
Definition detect (input : reader) : option (format * reader) :=
  let '(start, err, input') := reader_read input 40 in
  match err with
  | Some _ => None
  | None =>
      match guess_format start with
      | None => None
      | Some f => Some (f, mkReader (start :: rd_chunks input') (rd_fin input') (rd_with input'))
      end
  end.

(** Model of /repo/encoding/json/decoder.go. *)
From Coq Require Import List NArith Bool.
From Verif Require Import Base Tokens ScannerModel ProgModel.
Local Open Scope prog_scope.
Local Open Scope N_scope.

(** internal/scanner/charutil.go:3-17. *)
Definition is_alpha (b : N) : bool :=
  (97 <=? b) && (b <=? 122) || (65 <=? b) && (b <=? 90) || (b =? 95).
Definition is_digit (b : N) : bool := (48 <=? b) && (b <=? 57).
Definition is_alnum (b : N) : bool := is_alpha b || is_digit b.
Definition is_ctrl (b : N) : bool := b <? 32.

(** decoder.go:95-109 [checkEOF]. *)
Definition check_eof (r : dres N) : dres N :=
  match r with
  | DErr e => DErr e
  | DOk b => if b =? EOFb then DErr DEof else DOk b
  end.

Definition op_byte_eof (o : sop) : prog (dres N) :=
  let! r := op_byte o in Ret (check_eof r).

(** decoder.go:218-229 [UnexpectedByte]: always returns an error. *)
Definition unexpected_byte {A} : prog (dres A) :=
  let! _ := op_unit SPos in
  let! r := op_byte SRead in
  match r with
  | DErr e => Ret (DErr e)
  | DOk _ => Ret (DErr DSyntax)
  end.

(** decoder.go:206-216 [ExpectByte]. *)
Definition expect_byte (xb : N) : prog (dres unit) :=
  try! b := op_byte SRead in
  if b =? xb then Ret (DOk tt)
  else let! _ := op_unit SBack in unexpected_byte.

(** decoder.go:374-381 [checkBytes]. *)
Fixpoint check_bytes (l : bytes) : prog (dres unit) :=
  match l with
  | [] => Ret (DOk tt)
  | xb :: r => try! _ := expect_byte xb in check_bytes r
  end.

(** decoder.go:261. *)
Definition is_hex (b : N) : bool :=
  (48 <=? b) && (b <=? 57) || (97 <=? b) && (b <=? 102) || (65 <=? b) && (b <=? 70).

(** decoder.go:256-265: the four hexadecimal digits of a \u escape. *)
Fixpoint hex_digits (n : nat) : prog (dres unit) :=
  match n with
  | O => Ret (DOk tt)
  | S n' =>
      try! b := op_byte_eof SRead in
      if is_hex b then hex_digits n'
      else let! _ := op_unit SBack in unexpected_byte
  end.

(** decoder.go:253: the one-letter escapes. *)
Definition is_esc_letter (x : N) : bool :=
  (x =? 34) || (x =? 92) || (x =? 47) || (x =? 98) || (x =? 102) ||
  (x =? 110) || (x =? 114) || (x =? 116).

(** decoder.go:237-291: the loop of [ParseString]; state variables isAlnum,
    isUnescaped, firstChar. *)
Fixpoint string_loop (fuel : nat) (al un fst : bool) : prog (dres scalar) :=
  match fuel with
  | O => Stuck
  | S f =>
      try! b := op_byte_eof SRead in
      if b =? 92 then
        try! x := op_byte_eof SRead in
        if is_esc_letter x then string_loop f al false fst
        else if x =? 117 then
          try! _ := hex_digits 4 in string_loop f al false fst
        else string_loop f al false fst
      else if b =? 34 then
        let! t := end_token in
        Ret (DOk (mkScalar t TStr false al un))
      else if is_ctrl b then
        let! _ := op_unit SBack in unexpected_byte
      else if al then
        (if fst then string_loop f (is_alpha b) un false
         else string_loop f (is_alnum b) un fst)
      else string_loop f al un fst
  end.

(** decoder.go:231-292 [ParseString]. *)
Definition parse_string (fuel : nat) : prog (dres scalar) :=
  let! _ := op_unit SStart in
  try! _ := expect_byte 34 in
  string_loop fuel true true true.

(** decoder.go:360-372 [ReadDigits]: the byte that ends the digits and their
    number. *)
Fixpoint read_digits (fuel : nat) (n : nat) : prog (dres (N * nat)) :=
  match fuel with
  | O => Stuck
  | S f =>
      try! b := op_byte SRead in
      if (b =? EOFb) || negb (is_digit b) then Ret (DOk (b, n))
      else read_digits f (S n)
  end.

(** decoder.go:338-357: exponent part and end of [ParseNumber]. *)
Definition number_exp (fuel : nat) (b : N) : prog (dres scalar) :=
  let fin :=
    let! _ := op_unit SBack in
    let! t := end_token in
    Ret (DOk (new_scalar TNum t)) in
  if (b =? 101) || (b =? 69) then
    try! b := op_byte SPeek in
    let! _ := (if (b =? 45) || (b =? 43) then op_unit SRead else Ret tt) in
    try! (_, n) := read_digits fuel 0 in
    if Nat.eqb n 0 then let! _ := op_unit SBack in unexpected_byte
    else fin
  else fin.

(** decoder.go:326-336: fraction part of [ParseNumber]. *)
Definition number_frac (fuel : nat) (b : N) : prog (dres scalar) :=
  if b =? 46 then
    try! (b, n) := read_digits fuel 0 in
    if Nat.eqb n 0 then let! _ := op_unit SBack in unexpected_byte
    else number_exp fuel b
  else number_exp fuel b.

(** decoder.go:295-358 [ParseNumber].  When Read returns an error its byte is
    0, so the test for '-' fails and the error is returned by line 304. *)
Definition parse_number (fuel : nat) : prog (dres scalar) :=
  let! _ := op_unit SStart in
  try! b := op_byte SRead in
  try! b := (if b =? 45 then op_byte_eof SRead else Ret (check_eof (DOk b))) in
  if b =? 48 then
    try! b := op_byte SRead in number_frac fuel b
  else if (49 <=? b) && (b <=? 57) then
    try! (b, _) := read_digits fuel 0 in number_frac fuel b
  else let! _ := op_unit SBack in unexpected_byte.

(** [out <- t; return nil]. *)
Definition emit_ok (t : token) : prog (dres unit) := Emit t (Ret (DOk tt)).

(** [key.TypeAndFlags |= token.KeyMask] (decoder.go:171). *)
Definition as_key (s : scalar) : scalar :=
  mkScalar (sc_bytes s) (sc_type s) true (sc_alnum s) (sc_unesc s).

(** decoder.go:41-93 [ParseValue], 111-148 [parseArray] (with its loop 128-147),
    150-204 [parseObject] (with its loop 166-203).  One fuel bounds both the
    nesting and the loops. *)
Fixpoint parse_value (fuel : nat) : prog (dres unit) :=
  match fuel with
  | O => Stuck
  | S f =>
      try! b := op_byte_eof SSkipPeek in
      if b =? 34 then
        try! s := parse_string f in emit_ok (TScalar s)
      else if b =? 91 then
        try! _ := expect_byte 91 in
        Emit TStartArr
          (try! b := op_byte_eof SSkipPeek in
           if b =? 93 then let! _ := op_unit SRead in emit_ok TEndArr
           else array_loop f)
      else if b =? 123 then
        try! _ := expect_byte 123 in
        Emit TStartObj
          (try! b := op_byte_eof SSkipPeek in
           if b =? 125 then let! _ := op_unit SRead in emit_ok TEndObj
           else object_loop f)
      else if b =? 116 then
        try! _ := check_bytes true_bytes in emit_ok (TScalar true_scalar)
      else if b =? 102 then
        try! _ := check_bytes false_bytes in emit_ok (TScalar false_scalar)
      else if b =? 110 then
        try! _ := check_bytes null_bytes in emit_ok (TScalar null_scalar)
      else if (b =? 45) || ((48 <=? b) && (b <=? 57)) then
        try! s := parse_number f in emit_ok (TScalar s)
      else unexpected_byte
  end
with array_loop (fuel : nat) : prog (dres unit) :=
  match fuel with
  | O => Stuck
  | S f =>
      try! _ := parse_value f in
      try! b := op_byte_eof SSkipPeek in
      if b =? 93 then let! _ := op_unit SRead in emit_ok TEndArr
      else if b =? 44 then let! _ := op_unit SRead in array_loop f
      else unexpected_byte
  end
with object_loop (fuel : nat) : prog (dres unit) :=
  match fuel with
  | O => Stuck
  | S f =>
      try! key := parse_string f in
      Emit (TScalar (as_key key))
        (try! b := op_byte_eof SSkipPeek in
         if b =? 58 then
           let! _ := op_unit SRead in
           try! _ := parse_value f in
           try! b := op_byte_eof SSkipPeek in
           if b =? 125 then let! _ := op_unit SRead in emit_ok TEndObj
           else if b =? 44 then
             let! _ := op_unit SRead in
             try! _ := op_byte_eof SSkipPeek in
             object_loop f
           else unexpected_byte
         else unexpected_byte)
  end.

(** decoder.go:26-37 [Produce].  It is the only loop over the whole input. *)
Fixpoint produce (fuel : nat) : prog (dres unit) :=
  match fuel with
  | O => Stuck
  | S f =>
      try! b := op_byte SSkipPeek in
      if b =? EOFb then Ret (DOk tt)
      else try! _ := parse_value f in produce f
  end.

(** decoder.go:19-37: [NewDecoder(in).Produce(out)] with a scanner buffer of
    [size] bytes: the tokens sent on [out] and the error returned. *)
Definition decode_json (fuel : nat) (r : reader) (size : nat) : res (list token * dres unit) :=
  match prun cstep (new_scanner r size) (produce fuel) with
  | Ok (_, ts, x) => Ok (ts, x)
  | Panic => Panic
  | OutOfFuel => OutOfFuel
  end.

(** Go's decoding of JSON literals, used by /repo/token/tokens.go:196-203
    (parseJsonLiteralBytes).

    This is not code of the repository: [go_string] and [go_number] model what
    encoding/json's Decoder.Token returns for a string and for a number literal
    (encoding/json/scanner.go, unquote in encoding/json/decode.go,
    strconv.ParseFloat), as documented.  [None] is an error, on which
    parseJsonLiteralBytes panics.  Bytes after the literal are ignored, as
    Decoder.Token does. *)
From Coq Require Import List ZArith NArith Bool.
From Verif Require Import Base.
Local Open Scope N_scope.

(* ------------------------------------------------------------------ *)
(** Strings. *)

(** unicode/utf8 EncodeRune, for code points that are not surrogates. *)
Definition utf8_encode (c : N) : bytes :=
  if c <? 128 then [c]
  else if c <? 2048 then [192 + c / 64; 128 + c mod 64]
  else if c <? 65536 then [224 + c / 4096; 128 + (c / 64) mod 64; 128 + c mod 64]
  else [240 + c / 262144; 128 + (c / 4096) mod 64; 128 + (c / 64) mod 64; 128 + c mod 64].

(** U+FFFD, the replacement character. *)
Definition replacement : bytes := [239; 191; 189].

Definition cont (b : N) : bool := (128 <=? b) && (b <=? 191).
Definition between (lo hi b : N) : bool := (lo <=? b) && (b <=? hi).

(** unicode/utf8 DecodeRune on a list that starts with a byte from 0x80 on: the
    number of bytes of the character at the start, 0 if there is none. *)
Definition rune_len (l : bytes) : nat :=
  match l with
  | b0 :: b1 :: r =>
      if between 194 223 b0 && cont b1 then 2%nat
      else match r with
      | b2 :: r' =>
          if (b0 =? 224) && between 160 191 b1 && cont b2
             || between 225 236 b0 && cont b1 && cont b2
             || (b0 =? 237) && between 128 159 b1 && cont b2
             || between 238 239 b0 && cont b1 && cont b2 then 3%nat
          else match r' with
          | b3 :: _ =>
              if (b0 =? 240) && between 144 191 b1 && cont b2 && cont b3
                 || between 241 243 b0 && cont b1 && cont b2 && cont b3
                 || (b0 =? 244) && between 128 143 b1 && cont b2 && cont b3 then 4%nat
              else 0%nat
          | [] => 0%nat
          end
      | [] => 0%nat
      end
  | _ => 0%nat
  end.

(** The value of a hexadecimal digit. *)
Definition hex_val (b : N) : option N :=
  if between 48 57 b then Some (b - 48)
  else if between 97 102 b then Some (b - 87)
  else if between 65 70 b then Some (b - 55)
  else None.

Definition hex4 (a b c d : N) : option N :=
  match hex_val a, hex_val b, hex_val c, hex_val d with
  | Some x, Some y, Some z, Some w => Some (((x * 16 + y) * 16 + z) * 16 + w)
  | _, _, _, _ => None
  end.

(** unicode/utf16: surrogates and the character of a pair. *)
Definition surrogate (c : N) : bool := between 55296 57343 c.
Definition pair_value (hi lo : N) : option N :=
  if between 55296 56319 hi && between 56320 57343 lo
  then Some (65536 + (hi - 55296) * 1024 + (lo - 56320)) else None.

(** The byte a one-letter escape stands for. *)
Definition escape_val (b : N) : option N :=
  if (b =? 34) || (b =? 92) || (b =? 47) then Some b
  else if b =? 98 then Some 8 else if b =? 102 then Some 12
  else if b =? 110 then Some 10 else if b =? 114 then Some 13
  else if b =? 116 then Some 9 else None.

Definition opt_app (p : bytes) (o : option bytes) : option bytes :=
  match o with Some q => Some (p ++ q) | None => None end.

(** After the opening quote. *)
Fixpoint go_unquote (fuel : nat) (l : bytes) : option bytes :=
  match fuel with
  | O => None
  | S f =>
      match l with
      | [] => None
      | b :: r =>
          if b =? 34 then Some []
          else if b =? 92 then
            match r with
            | x :: r1 =>
                if x =? 117 then
                  match r1 with
                  | a :: b :: c :: d :: r2 =>
                      match hex4 a b c d with
                      | None => None
                      | Some u =>
                          if surrogate u then
                            match r2 with
                            | s :: t :: a' :: b' :: c' :: d' :: r3 =>
                                match (if (s =? 92) && (t =? 117) then hex4 a' b' c' d' else None) with
                                | Some u' =>
                                    match pair_value u u' with
                                    | Some p => opt_app (utf8_encode p) (go_unquote f r3)
                                    | None => opt_app replacement (go_unquote f r2)
                                    end
                                | None => opt_app replacement (go_unquote f r2)
                                end
                            | _ => opt_app replacement (go_unquote f r2)
                            end
                          else opt_app (utf8_encode u) (go_unquote f r2)
                      end
                  | _ => None
                  end
                else match escape_val x with
                     | Some v => opt_app [v] (go_unquote f r1)
                     | None => None
                     end
            | [] => None
            end
          else if b <? 32 then None
          else if b <? 128 then opt_app [b] (go_unquote f r)
          else match rune_len l with
               | O => opt_app replacement (go_unquote f r)
               | n => opt_app (firstn n l) (go_unquote f (skipn n l))
               end
      end
  end.

Definition go_string (l : bytes) : option bytes :=
  match l with
  | 34 :: r => go_unquote (S (length r)) r
  | _ => None
  end.

(* ------------------------------------------------------------------ *)
(** Numbers. *)

Definition dig (b : N) : bool := between 48 57 b.

Fixpoint span_digits (l : bytes) : bytes * bytes :=
  match l with
  | b :: r => if dig b then let '(d, s) := span_digits r in (b :: d, s) else ([], l)
  | [] => ([], [])
  end.

Definition digits_value (ds : bytes) : N := fold_left (fun a d => a * 10 + (d - 48)) ds 0.

(** Integer part, fraction digits, exponent, of a number without sign. *)
Definition scan_int (l : bytes) : option (bytes * bytes) :=
  match l with
  | 48 :: r => Some ([48], r)
  | _ => match span_digits l with
         | ([], _) => None
         | p => Some p
         end
  end.

Definition scan_frac (l : bytes) : option (bytes * bytes) :=
  match l with
  | 46 :: r => match span_digits r with
               | ([], _) => None
               | p => Some p
               end
  | _ => Some ([], l)
  end.

Definition scan_exp (l : bytes) : option Z :=
  match l with
  | e :: r =>
      if (e =? 101) || (e =? 69) then
        let '(neg, r1) := match r with
                          | 45 :: r' => (true, r')
                          | 43 :: r' => (false, r')
                          | _ => (false, r)
                          end in
        match span_digits r1 with
        | ([], _) => None
        | (ds, _) => let n := Z.of_N (digits_value ds) in Some (if neg : bool then (- n)%Z else n)
        end
      else Some 0%Z
  | [] => Some 0%Z
  end.

(** The number [(-1)^neg * m * 10^e] a literal stands for. *)
Record decimal := mkDec { d_neg : bool; d_m : Z; d_e : Z }.

Definition scan_number (l : bytes) : option decimal :=
  let '(neg, l1) := match l with 45 :: r => (true, r) | _ => (false, l) end in
  match scan_int l1 with
  | None => None
  | Some (i, l2) =>
      match scan_frac l2 with
      | None => None
      | Some (f, l3) =>
          match scan_exp l3 with
          | None => None
          | Some e => Some (mkDec neg (Z.of_N (digits_value (i ++ f))) (e - Z.of_nat (length f)))
          end
      end
  end.

Local Open Scope Z_scope.

(** Round the quotient [p / q] to an integer, ties to even. *)
Definition div_even (p q : Z) : Z :=
  let d := p / q in
  let r := p - d * q in
  if 2 * r <? q then d
  else if q <? 2 * r then d + 1
  else if Z.even d then d else d + 1.

(** strconv.ParseFloat(s, 64): the float64 nearest to [p / q] (with [p > 0],
    [q > 0]), ties to even, as mantissa and exponent of two; [None] when out of
    range.  The pair is unique: [2^52 <= mantissa < 2^53], or the exponent is
    -1074. *)
Definition float_round (p q : Z) : option (Z * Z) :=
  let k0 := Z.max (Z.log2 p - Z.log2 q - 53) (-1074) in
  let scaled k := if 0 <=? k then (p, q * 2 ^ k) else (p * 2 ^ (- k), q) in
  let k := let '(a, b) := scaled k0 in if 2 ^ 53 <=? a / b then k0 + 1 else k0 in
  let '(a, b) := scaled k in
  let m := div_even a b in
  let '(m, k) := if m =? 2 ^ 53 then (2 ^ 52, k + 1) else (m, k) in
  if 971 <? k then None else Some (m, k).

(** A float64, up to the sign of zero (which == ignores). *)
Definition float := (bool * (Z * Z))%type.
Definition float_zero : float := (false, (0, 0)).

Definition float_of_decimal (d : decimal) : option float :=
  if d_m d =? 0 then Some float_zero
  else
    let '(p, q) := if 0 <=? d_e d then (d_m d * 10 ^ d_e d, 1) else (d_m d, 10 ^ (- d_e d)) in
    match float_round p q with
    | Some (0, _) => Some float_zero
    | Some x => Some (d_neg d, x)
    | None => None
    end.

Definition go_number (l : bytes) : option float :=
  match scan_number l with
  | Some d => float_of_decimal d
  | None => None
  end.

Definition float_eqb (a b : float) : bool :=
  Bool.eqb (fst a) (fst b) && (fst (snd a) =? fst (snd b)) && (snd (snd a) =? snd (snd b)).

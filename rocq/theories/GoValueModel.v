(** Model of the conversions between Go values and scalars in /repo/token/tokens.go. *)
From Coq Require Import List ZArith NArith Bool.
From Verif Require Import Base Tokens GoLiteral ScalarModel JpvEncModel GrammarModel.
Import ListNotations.
Local Open Scope N_scope.

(** Go values: nil, bool, int and int64, float64, string, and all others.  A float64
    is finite, without the sign of zero (see GoLiteral.v). *)
Inductive go_value :=
| GoNil
| GoBool (b : bool)
| GoInt (z : Z)
| GoFloat (f : float)
| GoString (s : bytes)
| GoOther.

(** json.Encoder on a string of any bytes (not code of the repository; see
    [encode_string] in GrammarModel.v for strings in UTF-8): a byte that is not part
    of a character is written as the escape of U+FFFD. *)
Definition encode_rune (c : bytes) : bytes :=
  match c with
  | [226; 128; d] => if (d =? 168) || (d =? 169) then [92; 117; 50; 48; 50; d - 112] else c
  | _ => c
  end.
Fixpoint encode_bytes (fuel : nat) (s : bytes) : bytes :=
  match fuel with
  | O => []
  | S n =>
      match s with
      | [] => []
      | b :: r =>
          if b <? 128 then encode_char b ++ encode_bytes n r
          else match rune_len s with
               | O => [92; 117; 102; 102; 102; 100] ++ encode_bytes n r
               | k => encode_rune (firstn k s) ++ encode_bytes n (skipn k s)
               end
      end
  end.

(** tokens.go:233-242 [StringScalar]. *)
Definition string_scalar_bytes (s : bytes) : scalar := new_scalar TStr (34 :: encode_bytes (length s) s ++ [34]).
(** strconv.FormatInt(n, 10). *)
Definition format_int (z : Z) : bytes := (if (z <? 0)%Z then [45] else []) ++ itoa (Z.to_N (Z.abs z)).
(** tokens.go:248-250 [Int64Scalar]. *)
Definition int_scalar_of (z : Z) : scalar := new_scalar TNum (format_int z).
(** tokens.go:252-257 [BoolScalar], with the scalars of lines 227-231. *)
Definition bool_scalar (b : bool) : scalar := new_scalar TBool (if b then true_bytes else false_bytes).

Section Floats.
(** strconv.FormatFloat(x, 'g', -1, 64). *)
Variable float_text : float -> bytes.
(** tokens.go:259-278 [ToScalar], with [Float64Scalar] (lines 244-246); [None] is
    the error. *)
Definition to_scalar (v : go_value) : option scalar :=
  match v with
  | GoNil => Some (new_scalar TNull null_bytes)
  | GoString s => Some (string_scalar_bytes s)
  | GoFloat f => Some (new_scalar TNum (float_text f))
  | GoInt z => Some (int_scalar_of z)
  | GoBool b => Some (bool_scalar b)
  | GoOther => None
  end.
End Floats.

(** tokens.go:196-203 [parseJsonLiteralBytes]: what Decoder.Token returns; bytes
    after the literal are not looked at.  Simplification: none of the scalars begins
    with white space or a bracket, for which Token has other results; here they are
    panics. *)
Definition begins (p l : bytes) : bool := bytes_eqb p (firstn (length p) l).
Definition parse_literal (l : bytes) : res go_value :=
  match l with
  | b :: _ =>
      if b =? 34 then match go_string l with Some x => Ok (GoString x) | None => Panic end
      else if (b =? 45) || dig b then match go_number l with Some x => Ok (GoFloat x) | None => Panic end
      else if begins null_bytes l then Ok GoNil
      else if begins true_bytes l then Ok (GoBool true)
      else if begins false_bytes l then Ok (GoBool false)
      else Panic
  | [] => Panic
  end.
(** tokens.go:188-193 [ToGo]; the slice expression needs two bytes. *)
Definition to_go (s : scalar) : res go_value :=
  if sc_unesc s then
    match sc_bytes s with
    | _ :: ((_ :: _) as r) => Ok (GoString (removelast r))
    | _ => Panic
    end
  else parse_literal (sc_bytes s).

(** Model of the methods of token.Scalar in /repo/token/tokens.go. *)
From Coq Require Import List ZArith NArith Bool.
From Verif Require Import Base Tokens GoLiteral.

(** tokens.go:196-203 [parseJsonLiteralBytes] on a string and on a number
    literal; the result of == on two such values. *)
Definition literal_strings_equal (a b : bytes) : res bool :=
  match go_string a, go_string b with
  | Some x, Some y => Ok (bytes_eqb x y)
  | _, _ => Panic
  end.
Definition literal_numbers_equal (a b : bytes) : res bool :=
  match go_number a, go_number b with
  | Some x, Some y => Ok (float_eqb x y)
  | _, _ => Panic
  end.

(** tokens.go:149-178 [Scalar.Equal], for non-nil scalars. *)
Definition scalar_equal (s t : scalar) : res bool :=
  if negb (stype_eqb (sc_type s) (sc_type t)) then Ok false
  else match sc_type s with
  | TNull => Ok true
  | TBool =>
      match sc_bytes s, sc_bytes t with
      | x :: _, y :: _ => Ok (N.eqb x y)
      | _, _ => Panic
      end
  | TStr =>
      if bytes_eqb (sc_bytes s) (sc_bytes t) then Ok true
      else if sc_unesc s && sc_unesc t then Ok false
      else literal_strings_equal (sc_bytes s) (sc_bytes t)
  | TNum =>
      if bytes_eqb (sc_bytes s) (sc_bytes t) then Ok true
      else literal_numbers_equal (sc_bytes s) (sc_bytes t)
  end.

(** tokens.go:181-186 [ToString]; panics if not a string.  The slice expression
    [s.Bytes[1 : len(s.Bytes)-1]] needs two bytes. *)
Definition to_string (s : scalar) : res bytes :=
  if sc_unesc s then
    match sc_bytes s with
    | _ :: ((_ :: _) as r) => Ok (removelast r)
    | _ => Panic
    end
  else match go_string (sc_bytes s) with
       | Some x => Ok x
       | None => Panic
       end.

(** tokens.go:109-114 [EqualsString]. *)
Definition equals_string (s : scalar) (str : bytes) : res bool :=
  match sc_type s with
  | TStr => do x <- to_string s ; Ok (bytes_eqb x str)
  | _ => Ok false
  end.

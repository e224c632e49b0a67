(** Specification of CSV text, after RFC 4180. *)
From Coq Require Import List NArith.
From Verif Require Import Base Tokens.
Import ListNotations.
Local Open Scope N_scope.

(** Lines may end with CR LF instead of LF; then they are read as if they ended with
    LF, also within quotes.  One CR at the very end is not read either. *)
Fixpoint unix (t : bytes) : bytes :=
  match t with
  | [] => []
  | 13 :: [] => []
  | 13 :: ((10 :: _) as t') => unix t'
  | b :: t' => b :: unix t'
  end.

(** The text of a field: the bytes of the field as they are, without quotation marks,
    commas and line feeds, or any bytes between quotation marks, where quotation marks
    are doubled. *)
Definition doubled (f : bytes) : bytes := flat_map (fun b => if b =? 34 then [34; 34] else [b]) f.
Inductive field_text : bytes -> bytes -> Prop :=
| ft_plain : forall f, (forall b, In b f -> b <> 34 /\ b <> 44 /\ b <> 10) -> field_text f f
| ft_quoted : forall f, field_text f (34 :: doubled f ++ [34]).
(** A record: one or more fields, with commas between them. *)
Inductive record_text : list bytes -> bytes -> Prop :=
| rt_one : forall f t, field_text f t -> record_text [f] t
| rt_more : forall f t r u, field_text f t -> record_text r u -> record_text (f :: r) (t ++ 44 :: u).
(** The records of a text: a line feed after each, the last may be without; empty
    lines are no records. *)
Inductive records_text : list (list bytes) -> bytes -> Prop :=
| rs_nil : records_text [] []
| rs_blank : forall rs u, records_text rs u -> records_text rs (10 :: u)
| rs_last : forall r t, record_text r t -> t <> [] -> records_text [r] t
| rs_record : forall r t rs u, record_text r t -> t <> [] -> records_text rs u -> records_text (r :: rs) (t ++ 10 :: u).
(** All records have the same number of fields. *)
Definition rectangular (rs : list (list bytes)) : Prop := exists n, Forall (fun r => length r = n) rs.

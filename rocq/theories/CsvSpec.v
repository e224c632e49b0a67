(** Specification of CSV decoding. *)
From Coq Require Import List ZArith NArith Bool.
From Verif Require Import Base Tokens JsonSpec ScalarSpec.
Local Open Scope N_scope.

(** The contents of the string literal for a text: quotation marks, backslashes
    and line feeds are escaped.  A literal with escapes is not marked as one
    without; names of letters, digits and underscores (and the empty string) are
    marked as such. *)
Definition escaped_byte (b : N) : bytes :=
  if b =? 34 then [92; 34] else if b =? 92 then [92; 92] else if b =? 10 then [92; 110] else [b].
Definition escaped (t : bytes) : bytes := flat_map escaped_byte t.
Definition string_of (t : bytes) (s : scalar) : Prop :=
  sc_type s = TStr /\ sc_bytes s = 34 :: escaped t ++ [34] /\ (sc_unesc s = true -> escaped t = t) /\
  (sc_alnum s = true <-> t = [] \/ identifier t = true).

(** What a field should become. *)
Inductive field_value : bytes -> scalar -> Prop :=
| fv_null : field_value [] null_scalar
| fv_true : field_value true_bytes true_scalar
| fv_false : field_value false_bytes false_scalar
| fv_number : forall f, number_text f -> field_value f (new_scalar TNum f)
| fv_text : forall f s, f <> [] -> f <> true_bytes -> f <> false_bytes -> ~ number_text f ->
    string_of f s -> field_value f s.

(** Bytes that occur in numbers. *)
Definition numeric_byte (b : N) : Prop := digit b \/ In b [46; 101; 69; 43; 45].

(** What a field becomes: a field that only starts with a number, without being
    one, may lose the rest. *)
Definition decoded_value (f : bytes) (s : scalar) : Prop :=
  field_value f s \/
  exists t r, f = t ++ r /\ r <> [] /\ number_text t /\ ~ number_text f /\ Forall numeric_byte f /\ s = new_scalar TNum t.

(** Some number begins with [t]. *)
Definition begins_number (t : bytes) : Prop := exists w, number_text (t ++ w).
(** [t] is a number at the beginning of [f] that the next byte of [f] does not
    continue: no number begins with [t] and this byte. *)
Definition number_part (f t : bytes) : Prop :=
  exists r, f = t ++ r /\ number_text t /\ forall b r', r = b :: r' -> ~ begins_number (t ++ [b]).

(** The name of the [i]-th field (from 0). *)
Definition names_field (names : list bytes) (i : nat) (n : bytes) : Prop :=
  match nth_error names i with
  | Some h => n = h
  | None => exists ds, int_text ds /\ nat_digits 0 ds = Z.of_nat (S i) /\
              n = [102; 105; 101; 108; 100; 95] ++ ds            (* field_ *)
  end.

(** The members for the fields from the [i]-th. *)
Inductive members_for (names : list bytes) : nat -> list bytes -> list (scalar * jval) -> Prop :=
| mf_nil : forall i, members_for names i [] []
| mf_cons : forall i f r n k s ms, names_field names i n -> string_of n k -> decoded_value f s ->
    members_for names (S i) r ms -> members_for names i (f :: r) ((k, JScalar s) :: ms).

(** The value for a record. *)
Definition record_value (objects : bool) (names : list bytes) (r : list bytes) (v : jval) : Prop :=
  if objects then exists ms, v = JObj ms false /\ members_for names 0 r ms
  else exists l, v = JArr l false /\ Forall2 (fun f x => exists s, x = JScalar s /\ decoded_value f s) r l.

(** Specification of what a JSON encoder writes. *)
From Coq Require Import List NArith Bool.
From Verif Require Import Base Tokens JsonSpec.
Local Open Scope N_scope.

(** The mark of an elided collection: three dots. *)
Definition dots (e : bool) : bytes := if e then [46; 46; 46] else [].

(** [ptext v t]: [t] is [v] written out: each scalar as its own bytes, commas
    and colons and brackets as in JSON, with any white space between these, and
    three dots at the end of an elided collection.  Scalars are not constrained
    here. *)
Inductive ptext : jval -> bytes -> Prop :=
| pt_scalar : forall s, ptext (JScalar s) (sc_bytes s)
| pt_arr0 : forall e w1 w2, ws w1 -> ws w2 -> ptext (JArr [] e) (91 :: (w1 ++ dots e ++ w2) ++ [93])
| pt_arr : forall v l e w t r, ws w -> ptext v t -> ptail l e r ->
    ptext (JArr (v :: l) e) (91 :: (w ++ t ++ r) ++ [93])
| pt_obj0 : forall e w1 w2, ws w1 -> ws w2 -> ptext (JObj [] e) (123 :: (w1 ++ dots e ++ w2) ++ [125])
| pt_obj : forall k v l e w w1 w2 t r, ws w -> ws w1 -> ws w2 -> ptext v t -> qtail l e r ->
    ptext (JObj ((k, v) :: l) e) (123 :: (w ++ sc_bytes k ++ w1 ++ 58 :: w2 ++ t ++ r) ++ [125])
(** What follows an item of an array. *)
with ptail : list jval -> bool -> bytes -> Prop :=
| tl_nil : forall e w1 w2, ws w1 -> ws w2 -> ptail [] e (w1 ++ dots e ++ w2)
| tl_cons : forall v l e w w' t r, ws w -> ws w' -> ptext v t -> ptail l e r ->
    ptail (v :: l) e (w ++ 44 :: w' ++ t ++ r)
(** What follows a member of an object. *)
with qtail : list (scalar * jval) -> bool -> bytes -> Prop :=
| ql_nil : forall e w1 w2, ws w1 -> ws w2 -> qtail [] e (w1 ++ dots e ++ w2)
| ql_cons : forall k v l e w w' w1 w2 t r, ws w -> ws w' -> ws w1 -> ws w2 ->
    ptext v t -> qtail l e r ->
    qtail ((k, v) :: l) e (w ++ 44 :: w' ++ sc_bytes k ++ w1 ++ 58 :: w2 ++ t ++ r).

Scheme ptext_mind := Minimality for ptext Sort Prop
  with ptail_mind := Minimality for ptail Sort Prop
  with qtail_mind := Minimality for qtail Sort Prop.
Combined Scheme ptext_tails_ind from ptext_mind, ptail_mind, qtail_mind.

(** A scalar whose bytes are a JSON literal of its type; strings as the decoder
    accepts them ([strict = false]) or as RFC 8259 has them ([strict = true]). *)
Definition valid_scalar (strict : bool) (s : scalar) : Prop :=
  match sc_type s with
  | TNull => sc_bytes s = null_bytes
  | TBool => sc_bytes s = true_bytes \/ sc_bytes s = false_bytes
  | TNum => number_text (sc_bytes s)
  | TStr => string_text strict (sc_bytes s)
  end.

(** Values whose scalars are valid, whose keys are strings, and nothing of
    which is elided. *)
Inductive valid (strict : bool) : jval -> Prop :=
| va_scalar : forall s, valid_scalar strict s -> valid strict (JScalar s)
| va_arr : forall l, Forall (valid strict) l -> valid strict (JArr l false)
| va_obj : forall l,
    Forall (fun m => string_text strict (sc_bytes (fst m)) /\ valid strict (snd m)) l ->
    valid strict (JObj l false).

(** The same value with the flags (key, alphanumeric, unescaped) that decoding
    gives to scalars. *)
Definition contents (b : bytes) : bytes := removelast (tl b).
Definition canon_scalar (s : scalar) : scalar :=
  match sc_type s with
  | TStr => string_scalar (contents (sc_bytes s))
  | t => new_scalar t (sc_bytes s)
  end.
Fixpoint canon (v : jval) : jval :=
  match v with
  | JScalar s => JScalar (canon_scalar s)
  | JArr l e => JArr (map canon l) e
  | JObj l e => JObj (map (fun m => (key_scalar (contents (sc_bytes (fst m))), canon (snd m))) l) e
  end.

(** Induction over values. *)
Lemma jval_induction : forall P : jval -> Prop,
  (forall s, P (JScalar s)) ->
  (forall l e, Forall P l -> P (JArr l e)) ->
  (forall l e, Forall (fun m => P (snd m)) l -> P (JObj l e)) ->
  forall v, P v.
Proof.
  intros P HS HA HO. fix IH 1. intros [s|l e|l e].
  - apply HS.
  - apply HA. induction l as [|v l IHl]; constructor; [apply IH|apply IHl].
  - apply HO. induction l as [|[k v] l IHl]; constructor; [apply IH|apply IHl].
Qed.

(** Specification: values that are the same but for the flags with which the
    decoders describe the spelling of strings (is it a key, alphanumeric, without
    escapes).  The flags differ between the decoders of JSON, JPV and CSV. *)
From Coq Require Import List.
From Verif Require Import Base Tokens JsonSpec.

Definition alike_scalar (s t : scalar) : Prop := sc_type s = sc_type t /\ sc_bytes s = sc_bytes t.
Inductive alike : jval -> jval -> Prop :=
| al_scalar : forall s t, alike_scalar s t -> alike (JScalar s) (JScalar t)
| al_array : forall l l' e, Forall2 alike l l' -> alike (JArr l e) (JArr l' e)
| al_object : forall l l' e, Forall2 (fun m m' => alike_scalar (fst m) (fst m') /\ alike (snd m) (snd m')) l l' ->
    alike (JObj l e) (JObj l' e).

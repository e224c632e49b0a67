(** Specification of the values of strings and numbers of Go. *)
From Coq Require Import List ZArith NArith.
From Verif Require Import Base GoLiteral JsonSpec ScalarSpec.
Import ListNotations.

(** The characters of a string of any bytes: where it is UTF-8 those, and U+FFFD for
    each byte at which no character begins. *)
Inductive characters_of : bytes -> list N -> Prop :=
| co_nil : characters_of [] []
| co_char : forall c l u, unicode c -> characters_of l u -> characters_of (utf8 c ++ l) (c :: u)
| co_bad : forall b l u, (forall c l', unicode c -> b :: l <> utf8 c ++ l') -> characters_of l u -> characters_of (b :: l) (65533%N :: u).

(** The float [f] is the integer [z]: (-1)^neg * m * 2^k with k <= 0. *)
Definition float_is (f : float) (z : Z) : Prop :=
  let '(neg, (m, k)) := f in (k <= 0 /\ (if neg then - m else m) = z * 2 ^ (- k))%Z.

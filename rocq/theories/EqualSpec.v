(** Specification: when two JSON values are the same value. *)
From Coq Require Import List ZArith NArith Bool Permutation.
From Verif Require Import Base Tokens JsonSpec ScalarSpec GoLiteral.

(** Scalars: null and null; the same boolean; strings of the same characters;
    numbers whose nearest float64 is the same ([float_of_decimal]). *)
Definition same_scalar_value (s t : scalar) : Prop :=
  sc_type s = sc_type t /\
  match sc_type s with
  | TNull => True
  | TBool => sc_bytes s = sc_bytes t
  | TStr => exists c c' u, sc_bytes s = 34%N :: c ++ [34%N] /\ sc_bytes t = 34%N :: c' ++ [34%N] /\ denotes c u /\ denotes c' u
  | TNum => exists n m e n' m' e', num_value (sc_bytes s) n m e /\ num_value (sc_bytes t) n' m' e' /\
      float_of_decimal (mkDec n m e) = float_of_decimal (mkDec n' m' e')
  end.

(** Values, given when two scalars are the same: arrays item by item, objects
    as maps: the members of one can be put in the order of those of the other so
    that keys and values are the same.  An elided end is not part of the value. *)
Section Same.
  Variable R : scalar -> scalar -> Prop.
  Inductive same_by : jval -> jval -> Prop :=
  | same_scalar : forall s t, R s t -> same_by (JScalar s) (JScalar t)
  | same_array : forall l1 e1 l2 e2, same_items l1 l2 -> same_by (JArr l1 e1) (JArr l2 e2)
  | same_object : forall l1 e1 l2 e2 l, Permutation l l2 -> same_members l1 l -> same_by (JObj l1 e1) (JObj l2 e2)
  with same_items : list jval -> list jval -> Prop :=
  | si_nil : same_items [] []
  | si_cons : forall x y l1 l2, same_by x y -> same_items l1 l2 -> same_items (x :: l1) (y :: l2)
  with same_members : list (scalar * jval) -> list (scalar * jval) -> Prop :=
  | sm_nil : same_members [] []
  | sm_cons : forall k x k' y l1 l2, R k k' -> same_by x y -> same_members l1 l2 ->
      same_members ((k, x) :: l1) ((k', y) :: l2).
End Same.

Definition same : jval -> jval -> Prop := same_by same_scalar_value.

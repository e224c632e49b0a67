(** Specification of values whose leaves are changed. *)
From Coq Require Import List Bool.
From Verif Require Import Base Tokens JsonSpec EncSpec.
Import ListNotations.

Definition is_leaf (v : jval) : Prop := match v with JScalar _ | JArr [] _ | JObj [] _ => True | _ => False end.
(** A leaf that can be written: a valid literal or an empty collection. *)
Definition new_leaf (v : jval) : Prop := is_leaf v /\ valid true v.

(** Values with the same collections and the same keys; their leaves may differ. *)
Inductive same_shape : jval -> jval -> Prop :=
| sh_leaf : forall v v', is_leaf v -> is_leaf v' -> same_shape v v'
| sh_arr : forall l l' e, Forall2 same_shape l l' -> same_shape (JArr l e) (JArr l' e)
| sh_obj : forall l l' e, Forall2 (fun m m' => fst m' = fst m /\ same_shape (snd m) (snd m')) l l' ->
    same_shape (JObj l e) (JObj l' e).

(** C68: what it means that a selector counts from the end of an array, and that
    the items of arrays are small. *)
From Coq Require Import List ZArith.
From Verif Require Import Base Tokens JsonSpec PathAst P_Select.
Import ListNotations.

(** The selector has to see [N] items at a time to know which are the last ones:
    [[-N]], [[-N:]], [[-N:-b]] with [b] below [N], [[:-N:st]] and [[a:-N:st]]. *)
Definition from_end (s : jselector) (N : nat) : Prop :=
  let last := (- Z.of_nat N)%Z in
  0 < N /\ safe last /\
  match s with
  | JIndex i => i = last
  | JSlice (Some a) None st => a = last /\ st = 1%Z
  | JSlice (Some a) (Some b) st => (a = last /\ (a < b < 0)%Z /\ st = 1%Z) \/ ((0 <= a)%Z /\ safe a /\ b = last /\ (0 < st)%Z)
  | JSlice None (Some b) st => b = last /\ (0 < st)%Z
  | _ => False
  end.

(** The value [u] is [v] or is somewhere inside it. *)
Inductive part (u : jval) : jval -> Prop :=
| pt_here : part u u
| pt_arr : forall l e x, In x l -> part u x -> part u (JArr l e)
| pt_obj : forall l e k x, In (k, x) l -> part u x -> part u (JObj l e).

(** In the arrays of [v], [n] consecutive items never have more than [M] tokens
    together. *)
Definition narrow (n M : nat) (v : jval) : Prop :=
  forall l e, part (JArr l e) v -> forall before some after, l = before ++ some ++ after -> length some <= n -> length (flat_map toks some) <= M.
(** The items of the arrays of [v] have at most [T] tokens each. *)
Definition small_items (T : nat) (v : jval) : Prop := forall l e, part (JArr l e) v -> Forall (fun x => length (toks x) <= T) l.

(** Specification for C58: what is kept of the input while a query runs, and
    which pieces of the input are written. *)
From Coq Require Import List ZArith Bool.
From Verif Require Import Base Tokens CursorModel IterModel PathAst StreamSpec.

(** The heaps (IterModel.v) that a program goes through, one after each call.
    What is kept of the input is in the pools of the heap. *)
Section Growth.
Variable grow : Z -> Z -> Z.
Definition next {A} (m : hm A) (h : heap) (f : A -> heap -> list heap) : list heap :=
  match m h with Ok (h', a) => h' :: f a h' | _ => [] end.
Fixpoint heaps {A} (n : nat) (p : iprog A) (h : heap) : list heap :=
  match p with
  | IRet _ | IPanic | IFuel => []
  | IAdvance v k => next (ldo c <- coll_of v ; advance grow n c) h (fun b => heaps n (k b))
  | ICurrent v k => next (current_value v) h (fun x => heaps n (k x))
  | IKeyVal v k => next (current_key_val v) h (fun x => heaps n (k x))
  | IClone v k => next (clone grow v) h (fun x => heaps n (k x))
  | IDetach v k => next (detach grow v) h (fun _ => heaps n k)
  | ICopy v k => next (copy grow n v) h (fun ts => heaps n (k ts))
  | IDiscard v k => next (discard grow n v) h (fun _ => heaps n k)
  | IIterNew d k => next (iter_from_data d) h (fun i => heaps n (k i))
  | IIterAdvance i k => next (iter_advance grow n i) h (fun b => heaps n (k b))
  | IIterCurrent i k => next (iter_current i) h (fun x => heaps n (k x))
  | IIterClone i k => next (iter_clone grow i) h (fun j => heaps n (k j))
  | IIterDetach i k => next (iter_detach grow i) h (fun _ => heaps n k)
  end.

End Growth.

(** The entries of the log are pieces of [ts], from left to right, each logged
    when the tokens up to its end, and no more, have been received. *)
Inductive pieces : list token -> list (list token * list token) -> Prop :=
| pieces_nil : forall ts, pieces ts []
| pieces_cons : forall before piece rest E, pieces rest E -> pieces (before ++ piece ++ rest) ((piece, rest) :: E).

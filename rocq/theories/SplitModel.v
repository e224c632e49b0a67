(** Model of value transformers: AsStreamTransformer in
    /repo/iterator/transformer.go and ExplodeArray in /repo/transform/builtin.go,
    as programs that use the operations of IterModel.v.  The result of a program
    is the list of tokens it puts in the output stream.  [n] bounds the loops. *)
From Coq Require Import List ZArith Bool.
From Verif Require Import Base Tokens IterModel EqualModel.
Open Scope iprog_scope.

(** transform/builtin.go:64-67: the loop over the items of an array. *)
Fixpoint explode_items (n : nat) (v : value) : iprog (list token) :=
  match n with
  | O => IFuel
  | S m =>
      IAdvance v (fun b =>
        if b then
          ICurrent v (fun o => ilet c <- need o ;
          ICopy c (fun ts =>
          ilet r <- explode_items m v ;
          IRet (ts ++ r)))
        else IRet [])
  end.

(** transform/builtin.go:62-72 [ExplodeArray.TransformValue]. *)
Definition explode (n : nat) (v : value) : iprog (list token) :=
  match v with
  | VArr _ => explode_items n v
  | _ => ICopy v (fun ts => IRet ts)
  end.

(** iterator/transformer.go:22-27 [valueTransformerAdapter.Transform], from line
    24 on; [i] is the iterator on the input stream. *)
Fixpoint transform_values (tv : value -> iprog (list token)) (n : nat) (i : nat) : iprog (list token) :=
  match n with
  | O => IFuel
  | S m =>
      IIterAdvance i (fun b =>
        if b then
          IIterCurrent i (fun o => ilet v <- need o ;
          ilet ts <- tv v ;
          ilet r <- transform_values tv m i ;
          IRet (ts ++ r))
        else IRet [])
  end.

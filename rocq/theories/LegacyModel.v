(** Model of /repo/internal/legacy/transformers.go: the deprecated value
    transformers, as programs that use the operations of IterModel.v.  The result
    of a program is the list of tokens it puts in the output stream.  [n] bounds
    the loops and the recursion. *)
From Coq Require Import List ZArith Bool.
From Verif Require Import Base Tokens ScalarModel IterModel EqualModel.
Open Scope iprog_scope.

Section Loops.
(** legacy/transformers.go:28-29 and 62-63: [for obj.Advance()] with
    [obj.CurrentKeyVal()]; [body] is what is done with the key and the value. *)
Variable body : scalar -> value -> iprog (list token).
Fixpoint each_member (n : nat) (v : value) : iprog (list token) :=
  match n with
  | O => IFuel
  | S m =>
      IAdvance v (fun b =>
        if b then
          IKeyVal v (fun kv =>
          ilet k <- need (fst kv) ; ilet c <- need (snd kv) ;
          ilet ts <- body k c ;
          ilet r <- each_member m v ;
          IRet (ts ++ r))
        else IRet [])
  end.

(** legacy/transformers.go:55-57: [for v.Advance()] with [v.CurrentValue()]. *)
Variable item : value -> iprog (list token).
Fixpoint each_item (n : nat) (v : value) : iprog (list token) :=
  match n with
  | O => IFuel
  | S m =>
      IAdvance v (fun b =>
        if b then
          ICurrent v (fun o => ilet c <- need o ;
          ilet ts <- item c ;
          ilet r <- each_item m v ;
          IRet (ts ++ r))
        else IRet [])
  end.
End Loops.

(** legacy/transformers.go:26-35 [KeyExtractor.TransformValue]. *)
Definition key_extract (key : bytes) (n : nat) (v : value) : iprog (list token) :=
  match v with
  | VObj _ =>
      each_member (fun k c =>
        ilet e <- of_res (equals_string k key) ;
        if e then ICopy c (fun ts => IRet ts) else IRet []) n v
  | _ => IRet []
  end.

(** legacy/transformers.go:50-70 [DeepKeyExtractor.TransformValue] and
    [transformObject]. *)
Fixpoint deep_key_extract (key : bytes) (n : nat) (v : value) : iprog (list token) :=
  match n with
  | O => IFuel
  | S m =>
      match v with
      | VObj _ =>
          each_member (fun k c =>
            ilet e <- of_res (equals_string k key) ;
            if e then ICopy c (fun ts => IRet ts) else deep_key_extract key m c) n v
      | VArr _ => each_item (deep_key_extract key m) n v
      | VScalar _ => IRet []
      end
  end.

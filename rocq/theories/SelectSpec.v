(** Specification: the indices RFC 9535 (sections 2.3.3 and 2.3.4) selects from
    an array of [len] items, in order. *)
From Coq Require Import List ZArith Bool.
From Verif Require Import Base.
Local Open Scope Z_scope.

(** 2.3.4.2.2: Normalize. *)
Definition normalize (i len : Z) : Z := if 0 <=? i then i else len + i.

Definition rfc_index (i len : Z) : list Z :=
  let n := normalize i len in
  if (0 <=? n) && (n <? len) then [n] else [].

(** 2.3.4.2.1: the default bounds; 2.3.4.2.2: Bounds. *)
Definition default (o : option Z) (d : Z) : Z := match o with Some z => z | None => d end.
Definition bounds (start stop : option Z) (step len : Z) : Z * Z :=
  let ns := normalize (default start (if 0 <=? step then 0 else len - 1)) len in
  let ne := normalize (default stop (if 0 <=? step then len else - len - 1)) len in
  if 0 <=? step
  then (Z.min (Z.max ns 0) len, Z.min (Z.max ne 0) len)
  else (Z.min (Z.max ne (-1)) (len - 1), Z.min (Z.max ns (-1)) (len - 1)).

(** The loops of 2.3.4.2.2; [k] bounds the number of rounds. *)
Fixpoint go_up (k : nat) (i upper step : Z) : list Z :=
  match k with
  | O => []
  | S k' => if i <? upper then i :: go_up k' (i + step) upper step else []
  end.
Fixpoint go_down (k : nat) (i lower step : Z) : list Z :=
  match k with
  | O => []
  | S k' => if lower <? i then i :: go_down k' (i + step) lower step else []
  end.
Definition rfc_slice (start stop : option Z) (step : Z) (len : nat) : list Z :=
  let '(lower, upper) := bounds start stop step (Z.of_nat len) in
  if 0 <? step then go_up len lower upper step
  else if step <? 0 then go_down len upper lower step
  else [].

(** Model of the index arithmetic of the JSONPath selectors:
    /repo/transform/jsonpath/selectorrunners.go and compileSliceSelector in
    compiler.go. *)
From Coq Require Import List ZArith Bool.
From Verif Require Import Base.
Local Open Scope Z_scope.

(** Go's int64 arithmetic wraps around. *)
Definition i64 (z : Z) : Z := (z + 2 ^ 63) mod 2 ^ 64 - 2 ^ 63.
Definition min64 : Z := - 2 ^ 63.
Definition max64 : Z := 2 ^ 63 - 1.

(** selectorrunners.go:300-329 [Decision]: the three bits. *)
Record decision := mkDecision { d_yes : bool; d_no : bool; d_nomore : bool }.
Definition dont_know := mkDecision false false false.
Definition yes := mkDecision true false false.
Definition no := mkDecision false true false.
Definition yes_last := mkDecision true false true.
Definition no_more := mkDecision false true true.

(** The selector runners that only look at the position: 81-99
    [DefaultSelectorRunner], 139-142 [IndexSelectorRunner], 176-179
    [SliceSelectorRunner], 226-229 [ReverseSliceSelectorRunner]. *)
Inductive position :=
| PDefault
| PIndex (i : Z)
| PSlice (start stop step : Z)
| PReverse (start stop step : Z).

(** 84-86, 145-150, 183-193, 233-255 [Lookahead]. *)
Definition lookahead (p : position) : Z :=
  match p with
  | PDefault => 0
  | PIndex i => if i <? 0 then i64 (- i) else 0
  | PSlice start stop step =>
      let l := i64 (- start) in
      let l := if l <? i64 (- stop) then i64 (- stop) else l in
      if 0 <? l then l else 0
  | PReverse start stop step =>
      let l := i64 (- start) in
      let l := if l <? i64 (- stop) then i64 (- stop) else l in
      let l := if (start <? 0) && (i64 (- stop) <=? 0) && (step <? -1) then max64 else l in
      if 0 <? l then l else 0
  end.

(** The offset of the current item from a bound, 153-157, 197-206, 260-269. *)
Definition offset (bound index neg : Z) : Z :=
  if bound <? 0 then i64 (neg - bound) else i64 (index - bound).

(** 89-91, 152-167, 196-215, 259-279 [SelectsFromIndex]; % is [Z.rem]. *)
Definition selects_from_index (p : position) (index neg : Z) : decision :=
  match p with
  | PDefault => no_more
  | PIndex i =>
      let o := offset i index neg in
      if 0 <? o then no_more else if o =? 0 then yes_last else no
  | PSlice start stop step =>
      let so := offset start index neg in
      let eo := offset stop index neg in
      if 0 <=? eo then no_more
      else if (0 <=? so) && (Z.rem so step =? 0) then yes else no
  | PReverse start stop step =>
      let so := offset start index neg in
      let eo := offset stop index neg in
      if 0 <? so then no_more
      else if (0 <? eo) && (Z.rem so step =? 0) then yes else no
  end.

(** 97-99, 282-284 [ReversesSelection]. *)
Definition reverses (p : position) : bool := match p with PReverse _ _ _ => true | _ => false end.

(** compiler.go:212-267 [compileSliceSelector]; [None] is a bound left out. *)
Definition or_else (o : option Z) (d : Z) : Z := match o with Some z => z | None => d end.
Definition compile_slice (start stop : option Z) (step : Z) : position :=
  if step =? 0 then PDefault
  else if step <? 0 then
    let a := or_else start (-1) in
    let b := or_else stop min64 in
    if (0 <=? a) && (a <=? b) || (b <? 0) && (a <=? b) then PDefault else PReverse a b step
  else
    let a := or_else start 0 in
    let b := or_else stop max64 in
    if (0 <=? b) && (b <=? a) || (a <? 0) && (b <=? a) then PDefault else PSlice a b step.

(** segmentrunner.go:99-117, 133-137 (and the same in 188-206, 229-233, and
    comparableevaluators.go:93-120): the variable negIndex when the item [index]
    of an array of [len] items is considered, with the lookahead [n].
    First the loop at 106-108: [left] items left for the variable ahead. *)
Fixpoint look (n : Z) (left : nat) (neg : Z) : nat * Z :=
  match left with
  | O => (O, neg)
  | S l => if 0 <=? i64 (neg + n) then look n l (i64 (neg - 1)) else (left, neg)
  end.
Definition start_look (n : Z) (len : nat) (no_lookahead : Z) : nat * Z :=
  if 0 <? n then look n len 0 else (O, no_lookahead).
(** 135-137. *)
Definition step_look (n : Z) (s : nat * Z) : nat * Z :=
  if 0 <? n then
    match s with
    | (O, neg) => (O, i64 (neg + 1))
    | (S l, neg) => (l, neg)
    end
  else s.

(** The indices selected from an array of [len] items: the loop at 119-151 for
    a single selector, as far as it does not depend on the values; a selector
    that is done (segmentrunner.go:331-352) is not asked again. *)
Fixpoint select_from (p : position) (n : Z) (items : nat) (index : Z) (s : nat * Z) : list Z :=
  match items with
  | O => []
  | S k =>
      let d := selects_from_index p index (snd s) in
      (if d_yes d then [index] else []) ++
      (if d_nomore d then [] else select_from p n k (i64 (index + 1)) (step_look n s))
  end.
Definition select (p : position) (len : nat) : list Z :=
  let n := lookahead p in
  let l := select_from p n len 0 (start_look n len (min64 + 1)) in
  if reverses p then rev l else l.

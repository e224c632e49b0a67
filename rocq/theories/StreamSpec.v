(** Specification for C42: the queries that can be answered while the input is
    being read. *)
From Coq Require Import List ZArith NArith Bool.
From Verif Require Import Base Tokens JsonSpec PathAst PathSpec.

(** Queries in which [$] is not used for filters. *)
Fixpoint lone_query (q : jquery) : Prop :=
  match q with JQuery _ segs => all lone_segment segs end
with lone_segment (seg : jsegment) : Prop :=
  match seg with JSegment _ sels => all lone_selector sels end
with lone_selector (s : jselector) : Prop :=
  match s with JFilter c => lone_logical c | _ => True end
with lone_logical (c : jlogical) : Prop :=
  match c with
  | JOr l => all lone_logical l
  | JAnd l => all lone_logical l
  | JNot c' => lone_logical c'
  | JCompare a _ b => lone_value a /\ lone_value b
  | JTest q => (match q with JQuery root _ => root = false end) /\ lone_query q
  | JTestCall f => lone_call f
  end
with lone_value (a : jcomparable) : Prop :=
  match a with
  | JLit _ => True
  | JSing (JSingular root _) => root = false
  | JValueCall f => lone_call f
  end
with lone_call (f : jcall) : Prop :=
  match f with JCall _ args => all lone_arg args end
with lone_arg (a : jarg) : Prop :=
  match a with
  | JArgLit _ => True
  | JArgQuery q => (match q with JQuery root _ => root = false end) /\ lone_query q
  | JArgLogical c => lone_logical c
  | JArgCall f => lone_call f
  end.

(** Selectors for which the items of an array need not be counted from its end
    nor put in another order. *)
Definition from_start (z : Z) : Prop := (0 <= z < 2 ^ 53)%Z.
Definition from_start_opt (o : option Z) : Prop := match o with Some z => from_start z | None => True end.
Definition onward (s : jselector) : Prop :=
  match s with
  | JIndex i => from_start i
  | JSlice start stop step => from_start_opt start /\ from_start_opt stop /\ (0 <= step)%Z
  | _ => True
  end.

(** A collection: its tokens up to the end of its last item, and what is left. *)
Definition collection (x : jval) : Prop := match x with JScalar _ => False | _ => True end.
Definition opened (x : jval) : list token :=
  match x with
  | JScalar s => [TScalar s]
  | JArr l _ => TStartArr :: flat_map toks l
  | JObj l _ => TStartObj :: flat_map (fun m => TScalar (fst m) :: toks (snd m)) l
  end.

(** Such a collection may be the last item of another, and so on: the tokens of
    [x], up to the end of the last item of a collection at most [d] levels
    inside [x]. *)
Inductive open_at : nat -> jval -> list token -> Prop :=
| oa_here : forall d x, collection x -> open_at d x (opened x)
| oa_arr : forall d l y e ts, open_at d y ts -> open_at (S d) (JArr (l ++ [y]) e) (TStartArr :: flat_map toks l ++ ts)
| oa_obj : forall d l k y e ts, open_at d y ts ->
    open_at (S d) (JObj (l ++ [(k, y)]) e) (TStartObj :: flat_map (fun m => TScalar (fst m) :: toks (snd m)) l ++ TScalar k :: ts).

(** Child segments with one selector, which is not a filter and does not count
    from the end of arrays. *)
Definition direct_selector (s : jselector) : Prop := onward s /\ match s with JFilter _ => False | _ => True end.
Definition direct_segment (seg : jsegment) : Prop := exists s, seg = JSegment false [s] /\ direct_selector s.

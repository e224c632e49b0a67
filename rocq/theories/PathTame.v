(** Specification: the queries and values for which the results are claimed to be
    those of PathSpec.v.  What is left out here is where the program departs from
    RFC 9535; the theorems [*_refuted] in P_PathRefuted.v show that it does. *)
From Coq Require Import List ZArith NArith Bool.
From Verif Require Import Base Tokens JsonSpec CursorModel P_Scalar P_Equal SelectSpec P_Select PathAst PathSpec.

Definition scalar_node (x : jval) : Prop := match x with JScalar _ => True | _ => False end.

(** A selector that does not put the nodes in reverse order. *)
Definition forward (s : jselector) : bool := match s with JSlice _ _ step => (0 <=? step)%Z | _ => true end.
Definition single (sels : list jselector) : Prop := match sels with [s] => forward s = true | _ => False end.
Definition reverses_some (seg : jsegment) : bool := match seg with JSegment _ sels => existsb (fun s => negb (forward s)) sels end.

(** Descendant segments with a single selector. *)
Definition simple_segment (seg : jsegment) : Prop := match seg with JSegment desc sels => desc = true -> single sels end.
(** Segments with a single selector. *)
Definition plain_segment (seg : jsegment) : Prop := match seg with JSegment _ sels => single sels end.
Definition simple (q : jquery) : Prop := match q with JQuery _ segs => Forall simple_segment segs end.
Definition plain (q : jquery) : Prop := match q with JQuery _ segs => Forall plain_segment segs end.

(** Does the argument of the function have to be a nodelist? *)
Definition takes_nodes (name : bytes) : bool := bytes_eqb name n_count || bytes_eqb name n_value.

(** Queries that start at the current node. *)
Definition relative (a : jarg) : Prop := match a with JArgQuery (JQuery false _) => True | _ => False end.

(** The steps of a query that has a single node at most. *)
Fixpoint singular_steps (segs : list jsegment) : option (list jstep) :=
  match segs with
  | [] => Some []
  | JSegment false [JName n] :: r => option_map (cons (JStepName n)) (singular_steps r)
  | JSegment false [JIndex i] :: r => option_map (cons (JStepIndex i)) (singular_steps r)
  | _ => None
  end.
(** Numbers in queries are those the parser accepts (parse_literals.go:16-25). *)
Definition safe_step (s : jstep) : Prop := match s with JStepIndex i => safe i | _ => True end.

Section Tame.
  Variable matches : bytes -> bytes -> Prop.
  (** Where Go's regular expressions find a pattern in a string. *)
  Variable find : bytes -> bytes -> option (nat * nat).
  Variable strict : bool.
  Variable root : jval.

  (** Where the query is evaluated for the current node [x]. *)
  Fixpoint tame_query (q : jquery) (x : jval) : Prop :=
    match q with
    | JQuery r segs =>
        (fix go (segs : list jsegment) (x : jval) : Prop :=
           match segs with
           | [] => True
           | seg :: rest =>
               tame_segment seg x /\
               (* reversed slices only at the end of a query, and on scalars *)
               (reverses_some seg = true -> rest = [] /\ forall l, segment_nodes matches strict root seg x l -> Forall scalar_node l) /\
               forall l, segment_nodes matches strict root seg x l -> forall y, In y l -> go rest y
           end) segs (if r then root else x)
    end
  with tame_segment (seg : jsegment) (x : jval) : Prop :=
    match seg with
    | JSegment desc sels =>
        if desc then forall y, In y (descendants x) -> all (fun s => tame_selector s y) sels
        else all (fun s => tame_selector s x) sels
    end
  with tame_selector (s : jselector) (x : jval) : Prop :=
    match s with
    | JIndex i => safe i
    | JSlice start stop step =>
        safe_opt start /\ safe_opt stop /\
        (* see C32 *)
        match start with
        | Some a =>
            let len := Z.of_nat (length (children x)) in
            (step = 1 \/ step = -1 \/ 0 <= step /\ - len <= a \/ step <= 0 /\ a < len)%Z
        | None => True
        end
    | JFilter c => forall y, In y (children x) -> tame_logical c y
    | _ => True
    end
  with tame_logical (c : jlogical) (x : jval) : Prop :=
    match c with
    | JOr l => all (fun c' => tame_logical c' x) l
    | JAnd l => all (fun c' => tame_logical c' x) l
    | JNot c' => tame_logical c' x
    | JCompare a _ b => tame_value a x /\ tame_value b x
    | JTest q => plain q /\ tame_query q x
    | JTestCall f => tame_call f x
    end
  with tame_value (a : jcomparable) (x : jval) : Prop :=
    match a with
    | JLit s => decent s
    | JSing (JSingular _ l) => Forall safe_step l
    | JValueCall f => tame_call f x
    end
  with tame_call (f : jcall) (x : jval) : Prop :=
    match f with
    | JCall name args =>
        all (fun a => tame_arg a x) args /\
        match args with
        | [a] =>
            (name = n_length -> forall v, arg_value matches strict root a x v ->
               match v with Some (JArr l _) => relative a | Some (JObj l _) => l = [] /\ relative a
               | Some (JScalar s) => forall u, characters s u -> (Z.of_nat (length u) < 2 ^ 53)%Z | None => True end) /\
            (name = n_count -> (match a with JArgQuery q => simple q | _ => True end) /\
               forall l, arg_nodes matches strict root a x l -> (Z.of_nat (length l) < 2 ^ 53)%Z) /\
            (name = n_value -> (match a with JArgQuery q => plain q | _ => True end) /\
               forall y, arg_nodes matches strict root a x [y] -> scalar_node y)
        | [a; b] => forall u v t p, arg_value matches strict root a x u -> arg_value matches strict root b x v -> text_of u t -> text_of v p ->
            (name = n_match -> (find p t = Some (0, length t) <-> matches p t)) /\
            (name = n_search -> (find p t <> None <-> exists t1 t2 t3, t = t1 ++ t2 ++ t3 /\ matches p t2))
        | _ => True
        end
    end
  with tame_arg (a : jarg) (x : jval) : Prop :=
    match a with
    | JArgLit s => decent s
    | JArgQuery q => tame_query q x /\ (forall l, match q with JQuery _ segs => singular_steps segs end = Some l -> Forall safe_step l)
    | JArgCall f => tame_call f x
    | JArgLogical c => True
    end.
End Tame.

(** The queries inside filters that start at the root: [P] holds for those that
    are used as a value, [Q] for the others. *)
Section Inner.
  Variable P : jsingular -> Prop.
  Variable Q : jquery -> Prop.
  Definition absolute (q : jquery) : bool := match q with JQuery r _ => r end.

  Fixpoint inner_query (q : jquery) : Prop :=
    match q with JQuery _ segs => all inner_segment segs end
  with inner_segment (seg : jsegment) : Prop :=
    match seg with JSegment _ sels => all inner_selector sels end
  with inner_selector (s : jselector) : Prop :=
    match s with JFilter c => inner_logical c | _ => True end
  with inner_logical (c : jlogical) : Prop :=
    match c with
    | JOr l => all inner_logical l
    | JAnd l => all inner_logical l
    | JNot c' => inner_logical c'
    | JCompare a _ b => inner_value a /\ inner_value b
    | JTest q => (absolute q = true -> Q q) /\ inner_query q
    | JTestCall f => inner_call f
    end
  with inner_value (a : jcomparable) : Prop :=
    match a with
    | JLit _ => True
    | JSing (JSingular r l) => r = true -> P (JSingular r l)
    | JValueCall f => inner_call f
    end
  with inner_call (f : jcall) : Prop :=
    match f with JCall name args => all (inner_arg (takes_nodes name)) args end
  with inner_arg (nodes : bool) (a : jarg) : Prop :=
    match a with
    | JArgLit _ => True
    | JArgQuery q =>
        if nodes then (absolute q = true -> Q q) /\ inner_query q
        else match q with
             | JQuery true segs => forall l, singular_steps segs = Some l -> P (JSingular true l)
             | JQuery false _ => True
             end
    | JArgLogical c => True
    | JArgCall f => inner_call f
    end.
End Inner.

(** The values: scalars that have a JSON value, the keys of an object are strings
    and different, and there are less than 2^53 tokens. *)
Definition string_keys (x : jval) : Prop :=
  forall l e m, In (JObj l e) (descendants x) -> In m l -> sc_type (fst m) = TStr.
Definition clean (x : jval) : Prop :=
  comparable x /\ string_keys x /\ (Z.of_nat (length (toks x)) < 2 ^ 53)%Z.

(** A query, for the value [x] of the input. *)
Definition tame matches find (strict : bool) (q : jquery) (x : jval) : Prop :=
  simple q /\ tame_query matches find strict x q x /\
  inner_query
    (fun sq => ~ scalar_node x /\ match sq with JSingular _ l => Forall safe_step l end /\ exists y, singular_node x sq x (Some y))
    (fun q' => ~ scalar_node x /\ simple q' /\ tame_query matches find strict x q' x /\
               forall l, nodes matches strict x q' x l -> (Z.of_nat (length (stream l)) < maxint)%Z) q.

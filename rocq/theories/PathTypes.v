(** Specification: the well-typedness of function expressions (RFC 9535, 2.4.1
    and 2.4.3) for the functions of 2.4.4 to 2.4.8. *)
From Coq Require Import List ZArith NArith Bool.
From Verif Require Import Base Tokens PathAst PathSpec.

Inductive type := ValueType | LogicalType | NodesType.

(** The declared types of a function's parameters and of its result. *)
Definition declared (name : bytes) (params : list type) (result : type) : Prop :=
  (name = n_length /\ params = [ValueType] /\ result = ValueType) \/
  (name = n_count /\ params = [NodesType] /\ result = ValueType) \/
  (name = n_match /\ params = [ValueType; ValueType] /\ result = LogicalType) \/
  (name = n_search /\ params = [ValueType; ValueType] /\ result = LogicalType) \/
  (name = n_value /\ params = [NodesType] /\ result = ValueType).

(** 2.3.5.1: a query that has at most one node: names and indexes only. *)
Definition singular_query (q : jquery) : Prop :=
  match q with
  | JQuery _ segs => Forall (fun seg => match seg with
                                        | JSegment false [JName _] | JSegment false [JIndex _] => True
                                        | _ => False
                                        end) segs
  end.

Fixpoint typed_query (q : jquery) : Prop :=
  match q with JQuery _ segs => all typed_segment segs end
with typed_segment (seg : jsegment) : Prop :=
  match seg with JSegment _ sels => all typed_selector sels end
with typed_selector (s : jselector) : Prop :=
  match s with JFilter c => typed_logical c | _ => True end
with typed_logical (c : jlogical) : Prop :=
  match c with
  | JOr l => all typed_logical l
  | JAnd l => all typed_logical l
  | JNot c' => typed_logical c'
  | JCompare a _ b => typed_comparable a /\ typed_comparable b
  | JTest q => typed_query q
  (* a test: the result is a LogicalType or a NodesType *)
  | JTestCall f => typed_call f LogicalType \/ typed_call f NodesType
  end
with typed_comparable (a : jcomparable) : Prop :=
  match a with
  | JValueCall f => typed_call f ValueType
  | _ => True
  end
with typed_call (f : jcall) (result : type) : Prop :=
  match f with
  | JCall name args => exists params, declared name params result /\ each typed_arg args params
  end
with typed_arg (a : jarg) (t : type) : Prop :=
  match a, t with
  | JArgLit _, ValueType => True
  | JArgQuery q, ValueType => singular_query q
  | JArgQuery q, (LogicalType | NodesType) => typed_query q
  | JArgLogical c, LogicalType => typed_logical c
  | JArgCall f, LogicalType => typed_call f LogicalType \/ typed_call f NodesType
  | JArgCall f, _ => typed_call f t
  | _, _ => False
  end.

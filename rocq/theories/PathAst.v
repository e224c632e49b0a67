(** Model of the abstract syntax of JSONPath queries in
    /repo/internal/jsonpath/ast/ast.go. *)
From Coq Require Import List ZArith NArith Bool.
From Verif Require Import Base Tokens.

(** ast.go:122-131 [ComparisonOp]. *)
Inductive jop := OpEq | OpNe | OpLe | OpGe | OpLt | OpGt.

(** ast.go:145-161 [SingularQuery]; [root] is true for RootNodeIdentifier. *)
Inductive jstep := JStepName (name : bytes) | JStepIndex (i : Z).
Inductive jsingular := JSingular (root : bool) (steps : list jstep).

(** ast.go:14-17 [Query]; 45-48 [Segment]; 54-79 [Selector]; 85-110
    [LogicalExpr]; 116-120 [Comparable]; 167-181 [FunctionExpr].
    Simplification: a literal (137-139) is the scalar that token.ToScalar
    (compiler.go:309) makes of its value. *)
Inductive jquery :=
| JQuery (root : bool) (segs : list jsegment)
with jsegment :=
| JSegment (descendants : bool) (sels : list jselector)
with jselector :=
| JName (name : bytes)
| JWild
| JIndex (i : Z)
| JSlice (start stop : option Z) (step : Z)
| JFilter (c : jlogical)
with jlogical :=
| JOr (l : list jlogical)
| JAnd (l : list jlogical)
| JNot (c : jlogical)
| JCompare (a : jcomparable) (op : jop) (b : jcomparable)
| JTest (q : jquery)
| JTestCall (f : jcall)
with jcomparable :=
| JLit (s : scalar)
| JSing (q : jsingular)
| JValueCall (f : jcall)
with jcall :=
| JCall (name : bytes) (args : list jarg)
with jarg :=
| JArgLit (s : scalar)
| JArgQuery (q : jquery)
| JArgLogical (c : jlogical)
| JArgCall (f : jcall).

(** The names of the functions of the default registry (function.go:67-98). *)
Definition n_length : bytes := [108; 101; 110; 103; 116; 104]%N.
Definition n_count : bytes := [99; 111; 117; 110; 116]%N.
Definition n_match : bytes := [109; 97; 116; 99; 104]%N.
Definition n_search : bytes := [115; 101; 97; 114; 99; 104]%N.
Definition n_value : bytes := [118; 97; 108; 117; 101]%N.

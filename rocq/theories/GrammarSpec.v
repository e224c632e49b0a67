(** Specification: which concrete queries are valid, and which abstract query a
    concrete one stands for (RFC 9535, sections 2.1 and 2.3). *)
From Coq Require Import List ZArith NArith Bool.
From Verif Require Import Base Tokens JsonSpec ScalarSpec GoLiteral PathAst PathSpec GrammarModel.
Local Open Scope N_scope.

(* ------------------------------------------------------------------ *)
(** Tokens. *)

(** 2.3.3.1: int = "0" / (["-"] DIGIT1 *DIGIT), and its value. *)
Definition int_value (t : bytes) (z : Z) : Prop :=
  t = [48] /\ z = 0%Z \/
  exists d ds, 49 <= d <= 57 /\ Forall digit ds /\
    (t = d :: ds /\ z = nat_digits 0 (d :: ds) \/ t = 45 :: d :: ds /\ z = (- nat_digits 0 (d :: ds))%Z).

(** 2.1: integers are in the I-JSON range. *)
Definition in_range (z : Z) : Prop := (- (2 ^ 53 - 1) <= z <= 2 ^ 53 - 1)%Z.

(** 2.3.1.1: the contents of a string in single quotes, and their value. *)
Inductive denotes_single : bytes -> list N -> Prop :=
| sq_nil : denotes_single [] []
| sq_char : forall c l u, unicode c -> 32 <= c -> c <> 39 -> c <> 92 -> denotes_single l u ->
    denotes_single (utf8 c ++ l) (c :: u)
| sq_quote : forall l u, denotes_single l u -> denotes_single (92 :: 39 :: l) (39 :: u)
| sq_letter : forall b v l u, letter_value b v -> b <> 34 -> denotes_single l u -> denotes_single (92 :: b :: l) (v :: u)
| sq_hex : forall a b c d v l u, hex_number a b c d v -> unicode v -> denotes_single l u ->
    denotes_single (92 :: 117 :: a :: b :: c :: d :: l) (v :: u)
| sq_pair : forall a b c d v a' b' c' d' v' l u,
    hex_number a b c d v -> hex_number a' b' c' d' v' ->
    55296 <= v < 56320 -> 56320 <= v' < 57344 -> denotes_single l u ->
    denotes_single (92 :: 117 :: a :: b :: c :: d :: 92 :: 117 :: a' :: b' :: c' :: d' :: l)
                   ((65536 + (v - 55296) * 1024 + (v' - 56320)) :: u).

(** The characters that a string literal stands for. *)
Definition string_value (s : gstring) (u : list N) : Prop :=
  match s with
  | GDouble t => exists c, t = 34 :: c ++ [34] /\ denotes c u
  | GSingle t => exists c, t = 39 :: c ++ [39] /\ denotes_single c u
  end.

(* ------------------------------------------------------------------ *)
(** Something about every token of a query.  When [deep] is false, what is inside
    the brackets of ..[ ] is ignored. *)
Inductive kind := KInt | KNumber | KDot | KDotDot | KOp | KFun.
Section Tokens.
  Variable tok : kind -> bytes -> Prop.
  Variable str : gstring -> Prop.
  Variable deep : bool.

  Definition on_opt (o : option bytes) : Prop := match o with Some t => tok KInt t | None => True end.
  Definition on_literal (l : gliteral) : Prop :=
    match l with GNumber t => tok KNumber t | GString s => str s | _ => True end.
  Definition on_step (s : gstep) : Prop :=
    match s with GStepName n => str n | GStepDot t => tok KDot t | GStepIndex t => tok KInt t end.
  Fixpoint on_query (q : gquery) : Prop :=
    match q with GQuery _ segs => all on_segment segs end
  with on_segment (seg : gsegment) : Prop :=
    match seg with
    | GBracket a rest => on_selector a /\ all on_selector rest
    | GDescBracket a rest => if deep then on_selector a /\ all on_selector rest else True
    | GDotName t => tok KDot t
    | GDescName t => tok KDotDot t
    | GDotWild | GDescWild => True
    end
  with on_selector (s : gselector) : Prop :=
    match s with
    | GName n => str n
    | GWild => True
    | GSlice a b c => on_opt a /\ on_opt b /\ on_opt c
    | GIndex t => tok KInt t
    | GFilter e => on_or e
    end
  with on_or (e : gor) : Prop :=
    match e with GOr a rest => on_and a /\ all on_and rest end
  with on_and (e : gand) : Prop :=
    match e with GAnd a rest => on_basic a /\ all on_basic rest end
  with on_basic (e : gbasic) : Prop :=
    match e with
    | GParen _ e' => on_or e'
    | GCompare a t b => on_comparable a /\ tok KOp t /\ on_comparable b
    | GTestQuery _ q => on_query q
    | GTestCall _ f => on_call f
    end
  with on_comparable (a : gcomparable) : Prop :=
    match a with
    | GLit l => on_literal l
    | GSing _ steps => all on_step steps
    | GValueCall f => on_call f
    end
  with on_call (f : gcall) : Prop :=
    match f with GCall t args => tok KFun t /\ all on_arg args end
  with on_arg (a : garg) : Prop :=
    match a with
    | GArgLit l => on_literal l
    | GArgQuery q => on_query q
    | GArgLogical e => on_or e
    | GArgCall f => on_call f
    end.
End Tokens.

(** What the tokeniser (parser/lexer.go:9-67) lets through. *)
Definition lexed_token (k : kind) (t : bytes) : Prop :=
  match k with
  | KInt => exists z, int_value t z
  | KNumber => exists neg m e, num_value t neg m e
  | KDot => exists name, t = 46 :: name
  | KDotDot => exists name, t = 46 :: 46 :: name
  | KOp => In t [[61; 61]; [33; 61]; [60; 61]; [62; 61]; [60]; [62]]
  | KFun => exists name, t = name ++ [40]
  end.
Definition lexed (q : gquery) : Prop := on_query lexed_token (fun s => exists u, string_value s u) true q.

(** Every integer is in range; [valid false] does not look inside ..[ ]. *)
Definition valid_token (k : kind) (t : bytes) : Prop :=
  match k with KInt => exists z, int_value t z /\ in_range z | _ => True end.
Definition valid (deep : bool) (q : gquery) : Prop := on_query valid_token (fun _ => True) deep q.

(** Every number literal is in the range of float64. *)
Definition float_token (k : kind) (t : bytes) : Prop :=
  match k with KNumber => go_number t <> None | _ => True end.
Definition floats (q : gquery) : Prop := on_query float_token (fun _ => True) true q.

(* ------------------------------------------------------------------ *)
(** The abstract query. *)
Section Reads.
  Variable float_text : float -> bytes.

  Definition reads_name (s : gstring) (name : bytes) : Prop :=
    exists u, string_value s u /\ name = flat_map utf8 u.
  Definition reads_literal (l : gliteral) (s : scalar) : Prop :=
    match l with
    | GNumber t => exists x, go_number t = Some x /\ s = new_scalar TNum (float_text x)
    (* the scalar has the value of the literal *)
    | GString t => exists u c, string_value t u /\ denotes c u /\ s = new_scalar TStr (34 :: c ++ [34])
    | GBool b => s = new_scalar TBool (if b then [116; 114; 117; 101] else [102; 97; 108; 115; 101])
    | GNull => s = new_scalar TNull [110; 117; 108; 108]
    end.
  Definition reads_step (s : gstep) (j : jstep) : Prop :=
    match s, j with
    | GStepName n, JStepName name => reads_name n name
    | GStepDot t, JStepName name => t = 46 :: name
    | GStepIndex t, JStepIndex i => int_value t i
    | _, _ => False
    end.
  Definition reads_int (o : option bytes) (j : option Z) : Prop :=
    match o, j with
    | Some t, Some z => int_value t z
    | None, None => True
    | _, _ => False
    end.
  Definition reads_op (t : bytes) (op : jop) : Prop :=
    In (t, op) [([61; 61], OpEq); ([33; 61], OpNe); ([60; 61], OpLe); ([62; 61], OpGe); ([60], OpLt); ([62], OpGt)].
  (** One operand stands for itself. *)
  Definition reads_list {A} (R : A -> jlogical -> Prop) (join : list jlogical -> jlogical) (a : A) (rest : list A) (j : jlogical) : Prop :=
    match rest with
    | [] => R a j
    | _ => exists a' l, R a a' /\ each R rest l /\ j = join (a' :: l)
    end.
  Definition reads_not (neg : bool) (R : jlogical -> Prop) (j : jlogical) : Prop :=
    if neg then exists c, R c /\ j = JNot c else R j.

  Fixpoint reads_query (q : gquery) (j : jquery) : Prop :=
    match q, j with GQuery root segs, JQuery root' segs' => root = root' /\ each reads_segment segs segs' end
  with reads_segment (seg : gsegment) (j : jsegment) : Prop :=
    match seg, j with
    | GBracket a rest, JSegment false (a' :: l) => reads_selector a a' /\ each reads_selector rest l
    | GDescBracket a rest, JSegment true (a' :: l) => reads_selector a a' /\ each reads_selector rest l
    | GDotWild, JSegment false [JWild] => True
    | GDescWild, JSegment true [JWild] => True
    | GDotName t, JSegment false [JName name] => t = 46 :: name
    | GDescName t, JSegment true [JName name] => t = 46 :: 46 :: name
    | _, _ => False
    end
  with reads_selector (s : gselector) (j : jselector) : Prop :=
    match s, j with
    | GName n, JName name => reads_name n name
    | GWild, JWild => True
    | GSlice a b c, JSlice start stop step =>
        reads_int a start /\ reads_int b stop /\ match c with Some t => int_value t step | None => step = 1%Z end
    | GIndex t, JIndex i => int_value t i
    | GFilter e, JFilter c => reads_or e c
    | _, _ => False
    end
  with reads_or (e : gor) (j : jlogical) : Prop :=
    match e with GOr a rest => reads_list reads_and JOr a rest j end
  with reads_and (e : gand) (j : jlogical) : Prop :=
    match e with GAnd a rest => reads_list reads_basic JAnd a rest j end
  with reads_basic (e : gbasic) (j : jlogical) : Prop :=
    match e with
    | GParen neg e' => reads_not neg (reads_or e') j
    | GCompare a t b => exists a' op b', reads_comparable a a' /\ reads_op t op /\ reads_comparable b b' /\ j = JCompare a' op b'
    | GTestQuery neg q => reads_not neg (fun c => exists q', reads_query q q' /\ c = JTest q') j
    | GTestCall neg f => reads_not neg (fun c => exists f', reads_call f f' /\ c = JTestCall f') j
    end
  with reads_comparable (a : gcomparable) (j : jcomparable) : Prop :=
    match a, j with
    | GLit l, JLit s => reads_literal l s
    | GSing root steps, JSing (JSingular root' l) => root = root' /\ each reads_step steps l
    | GValueCall f, JValueCall f' => reads_call f f'
    | _, _ => False
    end
  with reads_call (f : gcall) (j : jcall) : Prop :=
    match f, j with GCall t args, JCall name args' => t = name ++ [40] /\ each reads_arg args args' end
  with reads_arg (a : garg) (j : jarg) : Prop :=
    match a, j with
    | GArgLit l, JArgLit s => reads_literal l s
    | GArgQuery q, JArgQuery q' => reads_query q q'
    | GArgLogical e, JArgLogical c => reads_or e c
    | GArgCall f, JArgCall f' => reads_call f f'
    | _, _ => False
    end.
End Reads.

(* ------------------------------------------------------------------ *)
(** Something about every integer and literal of an abstract query. *)
Section Parts.
  Variable int : Z -> Prop.
  Variable lit : scalar -> Prop.

  Definition part_opt (o : option Z) : Prop := match o with Some z => int z | None => True end.
  Definition part_step (s : jstep) : Prop := match s with JStepName _ => True | JStepIndex i => int i end.
  Fixpoint part_query (q : jquery) : Prop :=
    match q with JQuery _ segs => all part_segment segs end
  with part_segment (seg : jsegment) : Prop :=
    match seg with JSegment _ sels => all part_selector sels end
  with part_selector (s : jselector) : Prop :=
    match s with
    | JName _ | JWild => True
    | JIndex i => int i
    | JSlice a b c => part_opt a /\ part_opt b /\ int c
    | JFilter c => part_logical c
    end
  with part_logical (c : jlogical) : Prop :=
    match c with
    | JOr l | JAnd l => all part_logical l
    | JNot c' => part_logical c'
    | JCompare a _ b => part_comparable a /\ part_comparable b
    | JTest q => part_query q
    | JTestCall f => part_call f
    end
  with part_comparable (a : jcomparable) : Prop :=
    match a with
    | JLit s => lit s
    | JSing (JSingular _ l) => all part_step l
    | JValueCall f => part_call f
    end
  with part_call (f : jcall) : Prop :=
    match f with JCall _ args => all part_arg args end
  with part_arg (a : jarg) : Prop :=
    match a with
    | JArgLit s => lit s
    | JArgQuery q => part_query q
    | JArgLogical c => part_logical c
    | JArgCall f => part_call f
    end.
End Parts.

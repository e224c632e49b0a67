(** Model of /repo/transform/jsonpath/compiler.go: from the syntax of a query
    (PathAst.v) to what the runner runs (PathModel.v).

    [None] is an error, whose text is left out.  The state of the compiler
    (compiler.go:55-62) is the pair of tables of inner queries, which is passed
    on. *)
From Coq Require Import List ZArith NArith Bool.
From Verif Require Import Base Tokens SelectModel PathModel PathAst.

Notation "'let?' ( x , t ) := m 'in' f" := (match m with Some (x, t) => f | None => None end)
  (at level 200, x pattern, t name, m at level 100, f at level 200, right associativity).

(** compiler.go:44-52, 55-62. *)
Record tables := mkTables { tb_sing : list (jsingular * list ssel); tb_inner : list (jquery * query) }.

(** reflect.DeepEqual on queries (compiler.go:101, 331).  Simplifications: a nil
    slice is not told apart from an empty one; two literals are equal when their
    scalars are (Go's == does not tell 0 from -0). *)
Definition scalar_eqb (s t : scalar) : bool :=
  bytes_eqb (sc_bytes s) (sc_bytes t) && stype_eqb (sc_type s) (sc_type t) && Bool.eqb (sc_key s) (sc_key t) &&
  Bool.eqb (sc_alnum s) (sc_alnum t) && Bool.eqb (sc_unesc s) (sc_unesc t).
Definition oz_eqb (a b : option Z) : bool :=
  match a, b with Some x, Some y => Z.eqb x y | None, None => true | _, _ => false end.
Definition op_eqb (a b : jop) : bool :=
  match a, b with
  | OpEq, OpEq | OpNe, OpNe | OpLe, OpLe | OpGe, OpGe | OpLt, OpLt | OpGt, OpGt => true
  | _, _ => false
  end.
Section Eqb.
  Context {A : Type}.
  Variable f : A -> A -> bool.
  Fixpoint list_eqb (l l' : list A) : bool :=
    match l, l' with
    | [], [] => true
    | a :: r, b :: r' => f a b && list_eqb r r'
    | _, _ => false
    end.
End Eqb.
Definition step_eqb (a b : jstep) : bool :=
  match a, b with
  | JStepName n, JStepName m => bytes_eqb n m
  | JStepIndex i, JStepIndex j => Z.eqb i j
  | _, _ => false
  end.
Definition singular_eqb (a b : jsingular) : bool :=
  match a, b with JSingular r l, JSingular r' l' => Bool.eqb r r' && list_eqb step_eqb l l' end.
Fixpoint query_eqb (a b : jquery) : bool :=
  match a, b with JQuery r l, JQuery r' l' => Bool.eqb r r' && list_eqb segment_eqb l l' end
with segment_eqb (a b : jsegment) : bool :=
  match a, b with JSegment d l, JSegment d' l' => Bool.eqb d d' && list_eqb selector_eqb l l' end
with selector_eqb (a b : jselector) : bool :=
  match a, b with
  | JName n, JName m => bytes_eqb n m
  | JWild, JWild => true
  | JIndex i, JIndex j => Z.eqb i j
  | JSlice s e p, JSlice s' e' p' => oz_eqb s s' && oz_eqb e e' && Z.eqb p p'
  | JFilter c, JFilter d => logical_eqb c d
  | _, _ => false
  end
with logical_eqb (a b : jlogical) : bool :=
  match a, b with
  | JOr l, JOr l' => list_eqb logical_eqb l l'
  | JAnd l, JAnd l' => list_eqb logical_eqb l l'
  | JNot c, JNot d => logical_eqb c d
  | JCompare x o y, JCompare x' o' y' => comparable_eqb x x' && op_eqb o o' && comparable_eqb y y'
  | JTest q, JTest r => query_eqb q r
  | JTestCall f, JTestCall g => call_eqb f g
  | _, _ => false
  end
with comparable_eqb (a b : jcomparable) : bool :=
  match a, b with
  | JLit s, JLit t => scalar_eqb s t
  | JSing q, JSing r => singular_eqb q r
  | JValueCall f, JValueCall g => call_eqb f g
  | _, _ => false
  end
with call_eqb (a b : jcall) : bool :=
  match a, b with JCall n l, JCall m l' => bytes_eqb n m && list_eqb arg_eqb l l' end
with arg_eqb (a b : jarg) : bool :=
  match a, b with
  | JArgLit s, JArgLit t => scalar_eqb s t
  | JArgQuery q, JArgQuery r => query_eqb q r
  | JArgLogical c, JArgLogical d => logical_eqb c d
  | JArgCall f, JArgCall g => call_eqb f g
  | _, _ => false
  end.

(** compiler.go:100-104, 330-334: the index of an entry. *)
Fixpoint find_entry {A B} (same : A -> bool) (l : list (A * B)) (i : nat) : option nat :=
  match l with
  | [] => None
  | (a, _) :: r => if same a then Some i else find_entry same r (S i)
  end.

(** ast.go:19-36 [AsSingularQuery]. *)
Fixpoint as_steps (segs : list jsegment) : option (list jstep) :=
  match segs with
  | [] => Some []
  | JSegment false [JName n] :: r => match as_steps r with Some l => Some (JStepName n :: l) | None => None end
  | JSegment false [JIndex i] :: r => match as_steps r with Some l => Some (JStepIndex i :: l) | None => None end
  | _ => None
  end.
Definition as_singular (q : jquery) : option jsingular :=
  match q with
  | JQuery r segs => match as_steps segs with Some l => Some (JSingular r l) | None => None end
  end.

(** compiler.go:348-357 [compileSingularQuerySegment]. *)
Definition compile_step (s : jstep) : ssel := match s with JStepName n => SSName n | JStepIndex i => SSIndex i end.
(** compiler.go:323-346 [compileSingularQuery]. *)
Definition compile_singular (q : jsingular) (t : tables) : operand * tables :=
  match q with
  | JSingular false l => (MSing (map compile_step l), t)
  | JSingular true l =>
      match find_entry (fun e => singular_eqb e q) (tb_sing t) 0 with
      | Some i => (MInner i, t)
      | None => (MInner (length (tb_sing t)), mkTables (tb_sing t ++ [(q, map compile_step l)]) (tb_inner t))
      end
  end.

(** function.go:61-63 [GetFunctionDef] in the default registry, 67-98. *)
Definition lookup (name : bytes) : option fname :=
  if bytes_eqb name n_length then Some FLength
  else if bytes_eqb name n_count then Some FCount
  else if bytes_eqb name n_match then Some FMatch
  else if bytes_eqb name n_search then Some FSearch
  else if bytes_eqb name n_value then Some FValue
  else None.
(** function.go:27-29 [ConvertsTo]. *)
Definition converts_to (a b : ftype) : bool :=
  match a, b with
  | TyValue, TyValue | TyLogical, TyLogical | TyNodes, TyNodes | TyNodes, TyLogical => true
  | _, _ => false
  end.

(** compiler.go:121-134: the lookahead of a segment. *)
Definition max_lookahead (sels : list selector) : Z :=
  fold_left (fun l s => if (l <? sel_lookahead s)%Z then sel_lookahead s else l) sels 0%Z.

(** compiler.go:91-117 [compileInnerQuery]; [compile] is [compileQuery] on [q]. *)
Definition compile_inner (q : jquery) (compile : tables -> option (query * tables)) (t : tables) : option (query * tables) :=
  match q with
  | JQuery false _ => compile t
  | JQuery true _ =>
      match find_entry (fun e => query_eqb e q) (tb_inner t) 0 with
      | Some i => Some (QInner i, t)
      | None =>
          let? (r, t1) := compile t in
          Some (QInner (length (tb_inner t1)), mkTables (tb_sing t1) (tb_inner t1 ++ [(q, r)]))
      end
  end.

(** compiler.go:269-304: the flags of a comparison, and whether the operands are
    swapped. *)
Definition op_flags (op : jop) : bool * bool * bool * bool :=
  match op with
  | OpEq => (true, false, false, false)
  | OpNe => (true, false, true, false)
  | OpLe => (true, true, false, false)
  | OpGe => (true, true, false, true)
  | OpLt => (false, true, false, false)
  | OpGt => (false, true, false, true)
  end.

(** The loops at compiler.go:123-134 and 200-210. *)
Section Lists.
  Context {A B : Type}.
  Variable f : A -> tables -> option (B * tables).
  Fixpoint compile_list (l : list A) (t : tables) : option (list B * tables) :=
    match l with
    | [] => Some ([], t)
    | a :: r =>
        let? (b, t1) := f a t in
        let? (r', t2) := compile_list r t1 in
        Some (b :: r', t2)
    end.
  (** 371-378: the arguments of a function, with the types expected. *)
  Variable g : A -> ftype -> tables -> option (B * tables).
  Fixpoint compile_args (l : list A) (tys : list ftype) (t : tables) : option (list B * tables) :=
    match l, tys with
    | [], [] => Some ([], t)
    | a :: r, ty :: tys' =>
        let? (b, t1) := g a ty t in
        let? (r', t2) := compile_args r tys' t1 in
        Some (b :: r', t2)
    | _, _ => None
    end.
  (** 78-83: the segments from the last to the first. *)
  Variable h : A -> option B -> tables -> option (B * tables).
  Fixpoint compile_segments (l : list A) (t : tables) : option (option B * tables) :=
    match l with
    | [] => Some (None, t)
    | a :: r =>
        let? (following, t1) := compile_segments r t in
        let? (b, t2) := h a following t1 in
        Some (Some b, t2)
    end.
End Lists.

Section Compile.
  (** WithStrictMode, 18-22. *)
  Variable strict : bool.

  (** 76-89 [compileQuery]; 119-142 [compileSegment]; 144-164
      [compileSelector]; 166-198 [compileCondition]; 269-304
      [compileComparison]; 306-321 [compileComparable]; 359-383
      [compileFunctionExpr]; 385-431 [compileFunctionArg]. *)
  Fixpoint compile_query (q : jquery) (t : tables) : option (query * tables) :=
    match q with
    | JQuery _ segs =>
        let? (first, t1) := compile_segments compile_segment segs t in
        Some (QFirst first, t1)
    end
  with compile_segment (seg : jsegment) (following : option segment) (t : tables) : option (segment * tables) :=
    match seg with
    | JSegment desc sels =>
        let? (l, t1) := compile_list compile_selector sels t in
        Some (Seg l (max_lookahead l) desc strict following, t1)
    end
  with compile_selector (s : jselector) (t : tables) : option (selector * tables) :=
    match s with
    | JName n => Some (SName n, t)
    | JWild => Some (SWild, t)
    | JIndex i => Some (SPos (PIndex i), t)
    | JSlice start stop step => Some (SPos (compile_slice start stop step), t)
    | JFilter c => let? (c', t1) := compile_cond c t in Some (SFilter c', t1)
    end
  with compile_cond (c : jlogical) (t : tables) : option (cond * tables) :=
    match c with
    | JOr l => let? (l', t1) := compile_list compile_cond l t in Some (COr l', t1)
    | JAnd l => let? (l', t1) := compile_list compile_cond l t in Some (CAnd l', t1)
    | JNot c' => let? (d, t1) := compile_cond c' t in Some (CNot d, t1)
    | JCompare a op b =>
        let? (a', t1) := compile_comparable a t in
        let? (b', t2) := compile_comparable b t1 in
        let '(eq, lt, neg, swap) := op_flags op in
        Some (if swap then CComp b' eq lt neg a' else CComp a' eq lt neg b', t2)
    | JTest q => let? (r, t1) := compile_inner q (compile_query q) t in Some (CQuery r, t1)
    | JTestCall f => let? ((g, args), t1) := compile_call f TyLogical t in Some (CFun g args, t1)
    end
  with compile_comparable (a : jcomparable) (t : tables) : option (operand * tables) :=
    match a with
    | JLit s => Some (MLit s, t)
    | JSing q => Some (compile_singular q t)
    | JValueCall f => let? ((g, args), t1) := compile_call f TyValue t in Some (MFun g args, t1)
    end
  with compile_call (f : jcall) (ty : ftype) (t : tables) : option ((fname * list arg) * tables) :=
    match f with
    | JCall name args =>
        match lookup name with
        | None => None
        | Some g =>
            if negb (converts_to (output_type g) ty) then None
            else if negb (length args =? length (input_types g))%nat then None
            else let? (l, t1) := compile_args compile_arg args (input_types g) t in Some ((g, l), t1)
        end
    end
  (** (No function of the registry returns nodes.) *)
  with compile_arg (a : jarg) (ty : ftype) (t : tables) : option (arg * tables) :=
    match a with
    | JArgLit s => match ty with TyValue => Some (AVal (MLit s), t) | _ => None end
    | JArgQuery q =>
        match ty with
        | TyValue => match as_singular q with
                     | Some sq => let '(m, t1) := compile_singular sq t in Some (AVal m, t1)
                     | None => None
                     end
        | _ => let? (r, t1) := compile_inner q (compile_query q) t in Some (ANodes r, t1)
        end
    | JArgLogical c =>
        match ty with
        | TyLogical => let? (c', t1) := compile_cond c t in Some (ALog c', t1)
        | _ => None
        end
    | JArgCall f =>
        let? ((g, args), t1) := compile_call f ty t in
        match ty with
        | TyValue => Some (AVal (MFun g args), t1)
        | TyLogical => Some (ALog (CFun g args), t1)
        | TyNodes => None
        end
    end.

  (** 25-42 [CompileQuery], 64-74 [getInnerQueries]. *)
  Definition compile (q : jquery) : option runner :=
    let? (r, t) := compile_query q (mkTables [] []) in
    Some (mkRunner r (map snd (tb_sing t)) (map snd (tb_inner t))).
End Compile.

(** Model of the reading of JSONPath query strings:
    /repo/internal/jsonpath/jsonpath.go, parser/grammar.go and
    parser/parse_literals.go.

    The tokeniser (parser/lexer.go) and the parser, which fills the structures
    of grammar.go, are made by the library github.com/arnodel/grammar: here they are
    parameters of [parse_query_string]; they are modelled in LexModel.v and
    ParseModel.v.  So is the text
    that strconv.FormatFloat makes of a number (token.Float64Scalar,
    /repo/token/tokens.go:244-246). *)
From Coq Require Import List ZArith NArith Bool.
From Verif Require Import Base Tokens GoLiteral PathAst.
Local Open Scope N_scope.

(** [try! x := o in k]: errors end the computation. *)
Notation "'try!' x := o 'in' k" := (match o with Some x => k | None => None end)
  (at level 200, x pattern, k at level 200).

Section EachOpt.
  Context {A B : Type} (f : A -> option B).
  (** The loops over the parts of a structure, for example grammar.go:22-28. *)
  Fixpoint each_opt (l : list A) : option (list B) :=
    match l with
    | [] => Some []
    | a :: r => try! b := f a in try! r' := each_opt r in Some (b :: r')
    end.
End EachOpt.

(* ------------------------------------------------------------------ *)
(** parse_literals.go. *)

(** strconv.ParseInt(s, 10, 64) on an optional sign and digits. *)
Definition digits_int (ds : bytes) : option Z :=
  match ds with
  | [] => None
  | _ => if forallb (fun d => (48 <=? d) && (d <=? 57)) ds
         then Some (fold_left (fun acc d => (acc * 10 + (Z.of_N d - 48))%Z) ds 0%Z)
         else None
  end.
Definition go_parse_int (s : bytes) : option Z :=
  try! n := match s with
            | 45 :: r => option_map Z.opp (digits_int r)
            | 43 :: r => digits_int r
            | _ => digits_int s
            end in
  if (2 ^ 63 <=? n)%Z || (n <? - 2 ^ 63)%Z then None else Some n.

(** parse_literals.go:11-14. *)
Definition max_safe_int : Z := 9007199254740991.
Definition min_safe_int : Z := -9007199254740991.

(** parse_literals.go:16-25 [parseInt]. *)
Definition parse_int (s : bytes) : option Z :=
  try! n := go_parse_int s in
  if (max_safe_int <? n)%Z || (n <? min_safe_int)%Z then None else Some n.

(** parse_literals.go:27-33 [parseDoubleQuotedString]. *)
Definition parse_double_quoted (s : bytes) : option bytes := go_string s.

(** strings.ReplaceAll of a backslash and a quote by the quote, and of a double
    quote by a backslash and a double quote. *)
Fixpoint unescape_single (s : bytes) : bytes :=
  match s with
  | [] => []
  | b :: r =>
      match r with
      | c :: r' => if (b =? 92) && (c =? 39) then 39 :: unescape_single r' else b :: unescape_single r
      | [] => [b]
      end
  end.
Fixpoint escape_double (s : bytes) : bytes :=
  match s with
  | [] => []
  | b :: r => if b =? 34 then 92 :: 34 :: escape_double r else b :: escape_double r
  end.

(** parse_literals.go:35-44 [parseSingleQuotedString]; [s[1:len(s)-1]] is
    [removelast (tl s)]. *)
Definition parse_single_quoted (s : bytes) : option bytes :=
  parse_double_quoted (34 :: escape_double (unescape_single (removelast (tl s))) ++ [34]).

(** parse_literals.go:46-52 [parseNumber]. *)
Definition parse_number_literal (s : bytes) : option float := go_number s.

(** json.Encoder on a string (used by token.StringScalar,
    /repo/token/tokens.go:233-242), without the line end.  Not code of the
    repository: characters below 0x20, the quote, the backslash, the characters
    of HTML (less than, greater than, ampersand) and U+2028, U+2029 are escaped.
    Simplification: only for strings in UTF-8, which decoded strings are. *)
Definition hex_char (d : N) : N := if d <? 10 then 48 + d else 87 + d.
Definition encode_char (b : N) : bytes :=
  if (b =? 92) || (b =? 34) then [92; b]
  else if b =? 8 then [92; 98]
  else if b =? 12 then [92; 102]
  else if b =? 10 then [92; 110]
  else if b =? 13 then [92; 114]
  else if b =? 9 then [92; 116]
  else if (b <? 32) || (b =? 60) || (b =? 62) || (b =? 38) then [92; 117; 48; 48; hex_char (b / 16); hex_char (b mod 16)]
  else [b].
Fixpoint encode_string (s : bytes) : bytes :=
  match s with
  | [] => []
  | b :: r =>
      if b <? 128 then encode_char b ++ encode_string r
      else match r with
           | c :: d :: r' =>
               if (b =? 226) && (c =? 128) && ((d =? 168) || (d =? 169))
               then [92; 117; 50; 48; 50; d - 112] ++ encode_string r'
               else b :: encode_string r
           | _ => b :: encode_string r
           end
  end.

(** tokens.go:233-242 [StringScalar]. *)
Definition string_scalar_of (s : bytes) : scalar := new_scalar TStr (34 :: encode_string s ++ [34]).

(* ------------------------------------------------------------------ *)
(** The structures of grammar.go: concrete syntax.  Tokens are their texts;
    tokens that are always the same are left out. *)

(** grammar.go:70-74 [StringLiteral]. *)
Inductive gstring := GDouble (tok : bytes) | GSingle (tok : bytes).
(** grammar.go:375-381 [Literal]. *)
Inductive gliteral := GNumber (tok : bytes) | GString (s : gstring) | GBool (b : bool) | GNull.
(** grammar.go:472-477 [SingularQuerySegment]. *)
Inductive gstep := GStepName (s : gstring) | GStepDot (tok : bytes) | GStepIndex (tok : bytes).

(** grammar.go: 15-19 [Query] and 296-300 [RelQuery]; 601-605 [Segment] with 618-622
    [ChildSegment], 644-649 [DescendantSegment], 674-680, 699-705, 724-734; 36-43
    [Selector] with 87-93 [SliceSelector], 122-126, 128-132; 142-146
    [LogicalExpr]; 174-178 [LogicalAndExpr]; 206-211 [BasicExpr] with 226-232,
    245-249, 262-266, 279-283, 317-322; 355-360 [Comparable]; 523-528
    [FunctionExpr] with 542-546; 574-580 [FunctionArgument]. *)
Inductive gquery :=
| GQuery (root : bool) (segs : list gsegment)
with gsegment :=
| GBracket (first : gselector) (rest : list gselector)
| GDotWild
| GDotName (tok : bytes)
| GDescBracket (first : gselector) (rest : list gselector)
| GDescWild
| GDescName (tok : bytes)
with gselector :=
| GName (s : gstring)
| GWild
| GSlice (start stop step : option bytes)
| GIndex (tok : bytes)
| GFilter (e : gor)
with gor :=
| GOr (first : gand) (rest : list gand)
with gand :=
| GAnd (first : gbasic) (rest : list gbasic)
with gbasic :=
| GParen (not : bool) (e : gor)
| GCompare (a : gcomparable) (op : bytes) (b : gcomparable)
| GTestQuery (not : bool) (q : gquery)
| GTestCall (not : bool) (f : gcall)
with gcomparable :=
| GLit (l : gliteral)
| GSing (root : bool) (steps : list gstep)
| GValueCall (f : gcall)
with gcall :=
| GCall (tok : bytes) (args : list garg)
with garg :=
| GArgLit (l : gliteral)
| GArgQuery (q : gquery)
| GArgLogical (e : gor)
| GArgCall (f : gcall).

Section Convert.
  (** strconv.FormatFloat(x, 'g', -1, 64). *)
  Variable float_text : float -> bytes.

  (** grammar.go:76-85 [StringLiteral.CompileToString]. *)
  Definition to_string_literal (s : gstring) : option bytes :=
    match s with GDouble t => parse_double_quoted t | GSingle t => parse_single_quoted t end.

  (** grammar.go:383-411 [CompileToLiteral], and token.ToScalar
      (/repo/token/tokens.go:259-277) on the value. *)
  Definition to_literal (l : gliteral) : option scalar :=
    match l with
    | GNumber t => try! x := parse_number_literal t in Some (new_scalar TNum (float_text x))
    | GString s => try! v := to_string_literal s in Some (string_scalar_of v)
    | GBool true => Some (new_scalar TBool [116; 114; 117; 101])
    | GBool false => Some (new_scalar TBool [102; 97; 108; 115; 101])
    | GNull => Some (new_scalar TNull [110; 117; 108; 108])
    end.

  (** grammar.go:479-491, 500-506, 515-521; [TokValue[1:]] is [tl]. *)
  Definition to_step (s : gstep) : option jstep :=
    match s with
    | GStepName n => try! v := to_string_literal n in Some (JStepName v)
    | GStepDot t => Some (JStepName (tl t))
    | GStepIndex t => try! i := parse_int t in Some (JStepIndex i)
    end.

  Definition to_int_opt (o : option bytes) : option (option Z) :=
    match o with
    | None => Some None
    | Some t => try! i := parse_int t in Some (Some i)
    end.

  (** grammar.go:325-339: the operator. *)
  Definition to_op (op : bytes) : jop :=
    if bytes_eqb op [61; 61] then OpEq
    else if bytes_eqb op [33; 61] then OpNe
    else if bytes_eqb op [60; 61] then OpLe
    else if bytes_eqb op [62; 61] then OpGe
    else if bytes_eqb op [60] then OpLt
    else if bytes_eqb op [62] then OpGt
    else OpEq.

  (** grammar.go:21-34, 302-315 [CompileToQuery]. *)
  Fixpoint to_query (q : gquery) : option jquery :=
    match q with
    | GQuery root segs => try! l := each_opt to_segment segs in Some (JQuery root l)
    end
  (** grammar.go:607-616, 624-642, 651-672, 682-697, 707-722, 736-748
      [CompileToSegment], [CompileToSelectors].  The error of the
      selectors of a descendant segment is lost (665-667): the segment is then
      ast.Segment{}, a child segment without selectors. *)
  with to_segment (seg : gsegment) : option jsegment :=
    match seg with
    | GBracket a rest =>
        try! a' := to_selector a in
        try! l := each_opt to_selector rest in Some (JSegment false (a' :: l))
    | GDotWild => Some (JSegment false [JWild])
    | GDotName t => Some (JSegment false [JName (tl t)])
    | GDescBracket a rest =>
        match (try! a' := to_selector a in try! l := each_opt to_selector rest in Some (a' :: l)) with
        | Some sels => Some (JSegment true sels)
        | None => Some (JSegment false [])
        end
    | GDescWild => Some (JSegment true [JWild])
    | GDescName t => Some (JSegment true [JName (tl (tl t))])
    end
  (** grammar.go:45-68, 95-120, 134-140 [CompileToSelector]. *)
  with to_selector (s : gselector) : option jselector :=
    match s with
    | GName n => try! v := to_string_literal n in Some (JName v)
    | GWild => Some JWild
    | GSlice start stop step =>
        try! a := to_int_opt start in
        try! b := to_int_opt stop in
        try! c := to_int_opt step in
        Some (JSlice a b match c with Some z => z | None => 1%Z end)
    | GIndex t => try! i := parse_int t in Some (JIndex i)
    | GFilter e => try! c := to_or e in Some (JFilter c)
    end
  (** grammar.go:148-166 [LogicalExpr.CompileToLogicalExpr]. *)
  with to_or (e : gor) : option jlogical :=
    match e with
    | GOr a rest =>
        try! a' := to_and a in
        match rest with
        | [] => Some a'
        | _ => try! l := each_opt to_and rest in Some (JOr (a' :: l))
        end
    end
  (** grammar.go:180-198 [LogicalAndExpr.CompileToLogicalExpr]. *)
  with to_and (e : gand) : option jlogical :=
    match e with
    | GAnd a rest =>
        try! a' := to_basic a in
        match rest with
        | [] => Some a'
        | _ => try! l := each_opt to_basic rest in Some (JAnd (a' :: l))
        end
    end
  (** grammar.go:213-224, 234-243, 251-260, 268-277, 285-294, 324-353. *)
  with to_basic (e : gbasic) : option jlogical :=
    match e with
    | GParen neg e' => try! c := to_or e' in Some (if neg : bool then JNot c else c)
    | GCompare a op b =>
        try! a' := to_comparable a in
        try! b' := to_comparable b in Some (JCompare a' (to_op op) b')
    | GTestQuery neg q => try! q' := to_query q in Some (if neg : bool then JNot (JTest q') else JTest q')
    | GTestCall neg f => try! f' := to_call f in Some (if neg : bool then JNot (JTestCall f') else JTestCall f')
    end
  (** grammar.go:362-373, and 419-428, 436-470 for singular queries. *)
  with to_comparable (a : gcomparable) : option jcomparable :=
    match a with
    | GLit l => try! s := to_literal l in Some (JLit s)
    | GSing root steps => try! l := each_opt to_step steps in Some (JSing (JSingular root l))
    | GValueCall f => try! f' := to_call f in Some (JValueCall f')
    end
  (** grammar.go:530-540, 548-566.  The error of the arguments is lost (532-534):
      the call is then ast.FunctionExpr{}, which has an empty name. *)
  with to_call (f : gcall) : option jcall :=
    match f with
    | GCall t args =>
        match each_opt to_arg args with
        | Some l => Some (JCall (removelast t) l)
        | None => Some (JCall [] [])
        end
    end
  (** grammar.go:582-599 [CompileToFunctionArgument]. *)
  with to_arg (a : garg) : option jarg :=
    match a with
    | GArgLit l => try! s := to_literal l in Some (JArgLit s)
    | GArgQuery q => try! q' := to_query q in Some (JArgQuery q')
    | GArgLogical e => try! c := to_or e in Some (JArgLogical c)
    | GArgCall f => try! f' := to_call f in Some (JArgCall f')
    end.

  (** The tokens of a string, or an error; the structure that the parser makes of
      tokens and the tokens after it, or an error. *)
  Context {tok : Type}.
  Variable tokenise : bytes -> option (list tok).
  Variable parse : list tok -> option (gquery * list tok).

  (** jsonpath.go:12-27 [ParseQueryString].  When parsing fails, the error that is
      returned is that of the tokeniser, which is nil (20-22): the result is
      ast.Query{}, without an error. *)
  Definition parse_query_string (s : bytes) : option jquery :=
    match tokenise s with
    | None => None
    | Some ts =>
        match parse ts with
        | None => Some (JQuery true [])
        | Some (q, []) => to_query q
        | Some (_, _ :: _) => None
        end
    end.
End Convert.

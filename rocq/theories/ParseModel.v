(** Model of the parser of JSONPath queries: the grammar that the structures of
    /repo/internal/jsonpath/parser/grammar.go describe.

    The structures are read by grammar.Parse, which is not part of the repository
    and whose source is not available here.  Assumption, from the names and the
    use of the library: the fields of a structure with [grammar.Seq] are parsed
    one after the other; of the fields of a structure with [grammar.OneOf] the
    first one that can be parsed is taken; a pointer in a Seq is optional; a slice
    is parsed as often as possible; a token must have one of the types, and the
    text, in its tag; a choice that was made is not reconsidered. *)
From Coq Require Import List NArith Bool.
From Verif Require Import Base LexModel GrammarModel.
Local Open Scope N_scope.

(** The result of a parser: the structure and the tokens after it, or a failure.
    [PFuel]: the fuel of the model does not suffice. *)
Inductive presult (A : Type) := POk (a : A) (rest : list lextok) | PFail | PFuel.
Arguments POk {A} a rest.
Arguments PFail {A}.
Arguments PFuel {A}.
Definition parser (A : Type) : Type := list lextok -> presult A.

Definition pbind {A B} (m : presult A) (f : A -> list lextok -> presult B) : presult B :=
  match m with POk a rest => f a rest | PFail => PFail | PFuel => PFuel end.
Notation "'let!' ( x , r ) := m 'in' k" := (pbind m (fun x r => k))
  (at level 200, x pattern, r name, k at level 200).

(** Seq: one after the other; [pret] ends it. *)
Definition pret {A} (a : A) : parser A := fun ts => POk a ts.
(** OneOf: the first one. *)
Definition por {A} (p q : parser A) : parser A :=
  fun ts => match p ts with PFail => q ts | x => x end.
(** The structure around a field. *)
Definition pmap {A B} (f : A -> B) (p : parser A) : parser B :=
  fun ts => let! (a, r) := p ts in POk (f a) r.
(** Pointers in a Seq. *)
Definition popt {A} (p : parser A) : parser (option A) :=
  fun ts => match p ts with POk a r => POk (Some a) r | PFail => POk None ts | PFuel => PFuel end.
(** Slices; every repeated structure has at least one token. *)
Fixpoint pmany_n {A} (p : parser A) (n : nat) (ts : list lextok) : presult (list A) :=
  match n with
  | O => PFuel
  | S n' =>
      match p ts with
      | POk a r => let! (l, r') := pmany_n p n' r in POk (a :: l) r'
      | PFail => POk [] ts
      | PFuel => PFuel
      end
  end.
Definition pmany {A} (p : parser A) : parser (list A) := fun ts => pmany_n p (S (length ts)) ts.

(** Tokens: [tok:"type"] and [tok:"op,text"]. *)
Definition lextype_eqb (a b : lextype) : bool :=
  match a, b with
  | LxBlank, LxBlank | LxNull, LxNull | LxBool, LxBool | LxFun, LxFun | LxCmp, LxCmp | LxDesc, LxDesc | LxMember, LxMember
  | LxOp, LxOp | LxInt, LxInt | LxNumber, LxNumber | LxDouble, LxDouble | LxSingle, LxSingle => true
  | _, _ => false
  end.
Definition ptok (ty : lextype) : parser bytes :=
  fun ts => match ts with
            | (ty', text) :: r => if lextype_eqb ty ty' then POk text r else PFail
            | [] => PFail
            end.
Definition pop (op : bytes) : parser unit :=
  fun ts => match ts with
            | (ty', text) :: r => if lextype_eqb LxOp ty' && bytes_eqb op text then POk tt r else PFail
            | [] => PFail
            end.

(** Operators. *)
Definition op_dollar : bytes := [36].
Definition op_at : bytes := [64].
Definition op_star : bytes := [42].
Definition op_colon : bytes := [58].
Definition op_question : bytes := [63].
Definition op_not : bytes := [33].
Definition op_open : bytes := [40].
Definition op_close : bytes := [41].
Definition op_open_square : bytes := [91].
Definition op_close_square : bytes := [93].
Definition op_comma : bytes := [44].
Definition op_and : bytes := [38; 38].
Definition op_or : bytes := [124; 124].
Definition op_dot_star : bytes := [46; 42].
Definition op_desc_star : bytes := [46; 46; 42].
Definition op_desc_open : bytes := [46; 46; 91].

(** grammar.go:70-74 [StringLiteral]. *)
Definition p_string : parser gstring :=
  por (pmap GDouble (ptok LxDouble)) (pmap GSingle (ptok LxSingle)).

(** grammar.go:375-381 [Literal]; the text of a bool token is true or false (388-398). *)
Definition p_literal : parser gliteral :=
  por (por (pmap GNumber (ptok LxInt)) (pmap GNumber (ptok LxNumber)))
  (por (pmap GString p_string)
  (por (pmap (fun t => GBool (bytes_eqb t [116; 114; 117; 101])) (ptok LxBool))
       (pmap (fun _ => GNull) (ptok LxNull)))).

(** grammar.go:493-498 [BracketNameSegment], 508-513 [IndexSegment]. *)
Definition p_bracket_name : parser gstep := fun ts =>
  let! (_, r1) := pop op_open_square ts in
  let! (s, r2) := p_string r1 in
  let! (_, r3) := pop op_close_square r2 in POk (GStepName s) r3.
Definition p_index_segment : parser gstep := fun ts =>
  let! (_, r1) := pop op_open_square ts in
  let! (t, r2) := ptok LxInt r1 in
  let! (_, r3) := pop op_close_square r2 in POk (GStepIndex t) r3.
(** grammar.go:472-477 [SingularQuerySegment]. *)
Definition p_step : parser gstep :=
  por p_bracket_name (por (pmap GStepDot (ptok LxMember)) p_index_segment).
(** grammar.go:413-417 [SingularQuery], 430-434, 451-455. *)
Definition p_rel_singular : parser (bool * list gstep) := fun ts =>
  let! (_, r1) := pop op_at ts in
  let! (l, r2) := pmany p_step r1 in POk (false, l) r2.
Definition p_abs_singular : parser (bool * list gstep) := fun ts =>
  let! (_, r1) := pop op_dollar ts in
  let! (l, r2) := pmany p_step r1 in POk (true, l) r2.
Definition p_singular : parser (bool * list gstep) := por p_rel_singular p_abs_singular.

(** grammar.go:122-126 [SliceStep]; the step is optional. *)
Definition p_slice_step : parser (option bytes) := fun ts =>
  let! (_, r1) := pop op_colon ts in popt (ptok LxInt) r1.
(** grammar.go:87-93 [SliceSelector]. *)
Definition p_slice : parser gselector := fun ts =>
  let! (a, r1) := popt (ptok LxInt) ts in
  let! (_, r2) := pop op_colon r1 in
  let! (b, r3) := popt (ptok LxInt) r2 in
  let! (c, r4) := popt p_slice_step r3 in
  POk (GSlice a b match c with Some (Some t) => Some t | _ => None end) r4.

Section Bodies.
  (** The parsers of [LogicalExpr] and [FunctionExpr], which can occur in
      themselves. *)
  Variable rec_or : parser gor.
  Variable rec_call : parser gcall.

  (** grammar.go:128-132 [FilterSelector]. *)
  Definition p_filter : parser gselector := fun ts =>
    let! (_, r1) := pop op_question ts in
    let! (e, r2) := rec_or r1 in POk (GFilter e) r2.
  (** grammar.go:36-43 [Selector]. *)
  Definition p_selector : parser gselector :=
    por (pmap GName p_string)
    (por (pmap (fun _ => GWild) (pop op_star))
    (por p_slice
    (por (pmap GIndex (ptok LxInt))
         p_filter))).

  (** grammar.go:724-728 [SelectorRest]. *)
  Definition p_selector_rest : parser gselector := fun ts =>
    let! (_, r1) := pop op_comma ts in p_selector r1.
  (** grammar.go:674-680 [BracketedSelection] and 699-705
      [DescendantBracketedSelection], which differ in the first token. *)
  Definition p_bracketed (open : bytes) (f : gselector -> list gselector -> gsegment) : parser gsegment := fun ts =>
    let! (_, r1) := pop open ts in
    let! (a, r2) := p_selector r1 in
    let! (l, r3) := pmany p_selector_rest r2 in
    let! (_, r4) := pop op_close_square r3 in POk (f a l) r4.
  (** grammar.go:730-734 [DotSelection]. *)
  Definition p_dot_selection : parser gsegment :=
    por (pmap (fun _ => GDotWild) (pop op_dot_star)) (pmap GDotName (ptok LxMember)).
  (** grammar.go:618-622 [ChildSegment]. *)
  Definition p_child_segment : parser gsegment := por (p_bracketed op_open_square GBracket) p_dot_selection.
  (** grammar.go:644-649 [DescendantSegment]. *)
  Definition p_descendant_segment : parser gsegment :=
    por (p_bracketed op_desc_open GDescBracket)
    (por (pmap (fun _ => GDescWild) (pop op_desc_star)) (pmap GDescName (ptok LxDesc))).
  (** grammar.go:601-605 [Segment]. *)
  Definition p_segment : parser gsegment := por p_child_segment p_descendant_segment.

  (** grammar.go:15-19 [Query], 296-300 [RelQuery], 279-283 [FilterQuery]. *)
  Definition p_query : parser gquery := fun ts =>
    let! (_, r1) := pop op_dollar ts in
    let! (l, r2) := pmany p_segment r1 in POk (GQuery true l) r2.
  Definition p_rel_query : parser gquery := fun ts =>
    let! (_, r1) := pop op_at ts in
    let! (l, r2) := pmany p_segment r1 in POk (GQuery false l) r2.
  Definition p_filter_query : parser gquery := por p_rel_query p_query.

  (** grammar.go:574-580 [FunctionArgument]. *)
  Definition p_argument : parser garg :=
    por (pmap GArgLit p_literal)
    (por (pmap GArgQuery p_filter_query)
    (por (pmap GArgCall rec_call)
         (pmap GArgLogical rec_or))).
  (** grammar.go:568-572 [FunctionExprArgumentsRest], 542-546
      [FunctionExprArguments]. *)
  Definition p_argument_rest : parser garg := fun ts =>
    let! (_, r1) := pop op_comma ts in p_argument r1.
  Definition p_arguments : parser (list garg) := fun ts =>
    let! (a, r1) := p_argument ts in
    let! (l, r2) := pmany p_argument_rest r1 in POk (a :: l) r2.
  (** grammar.go:523-528 [FunctionExpr]. *)
  Definition p_call_body : parser gcall := fun ts =>
    let! (t, r1) := ptok LxFun ts in
    let! (o, r2) := popt p_arguments r1 in
    let! (_, r3) := pop op_close r2 in
    POk (GCall t match o with Some l => l | None => [] end) r3.

  (** grammar.go:355-360 [Comparable], 317-322 [ComparisonExpr]. *)
  Definition p_comparable : parser gcomparable :=
    por (pmap GLit p_literal)
    (por (pmap (fun s => GSing (fst s) (snd s)) p_singular)
         (pmap GValueCall rec_call)).
  Definition p_comparison : parser gbasic := fun ts =>
    let! (a, r1) := p_comparable ts in
    let! (op, r2) := ptok LxCmp r1 in
    let! (b, r3) := p_comparable r2 in POk (GCompare a op b) r3.
  Definition is_some {A} (o : option A) : bool := match o with Some _ => true | None => false end.
  (** grammar.go:226-232 [ParenExpr]. *)
  Definition p_paren : parser gbasic := fun ts =>
    let! (o, r1) := popt (pop op_not) ts in
    let! (_, r2) := pop op_open r1 in
    let! (e, r3) := rec_or r2 in
    let! (_, r4) := pop op_close r3 in POk (GParen (is_some o) e) r4.
  (** grammar.go:245-249 [TestExpr], 262-266 [BasicTestExpr]. *)
  Definition p_test : parser gbasic := fun ts =>
    let! (o, r1) := popt (pop op_not) ts in
    por (pmap (GTestQuery (is_some o)) p_filter_query) (pmap (GTestCall (is_some o)) rec_call) r1.
  (** grammar.go:206-211 [BasicExpr]. *)
  Definition p_basic : parser gbasic := por p_paren (por p_comparison p_test).

  (** grammar.go:200-204 [LogicalAndRest], 174-178 [LogicalAndExpr]. *)
  Definition p_and_rest : parser gbasic := fun ts =>
    let! (_, r1) := pop op_and ts in p_basic r1.
  Definition p_and : parser gand := fun ts =>
    let! (a, r1) := p_basic ts in
    let! (l, r2) := pmany p_and_rest r1 in POk (GAnd a l) r2.
  (** grammar.go:168-172 [LogicalOrRest], 142-146 [LogicalExpr]. *)
  Definition p_or_rest : parser gand := fun ts =>
    let! (_, r1) := pop op_or ts in p_and r1.
  Definition p_or_body : parser gor := fun ts =>
    let! (a, r1) := p_and ts in
    let! (l, r2) := pmany p_or_rest r1 in POk (GOr a l) r2.
End Bodies.

(** [n] bounds how deeply they are nested. *)
Fixpoint p_or (n : nat) (ts : list lextok) : presult gor :=
  match n with O => PFuel | S n' => p_or_body (p_or n') (p_call n') ts end
with p_call (n : nat) (ts : list lextok) : presult gcall :=
  match n with O => PFuel | S n' => p_call_body (p_or n') (p_call n') ts end.

(** jsonpath.go:19: [grammar.Parse(&query, stream)].  That the fuel suffices is
    proved in ParseProofs.v. *)
Definition parse_query (ts : list lextok) : option (gquery * list lextok) :=
  let n := S (S (2 * length ts)) in
  match p_query (p_or n) ts with POk q rest => Some (q, rest) | _ => None end.

(** jsonpath.go:12-27 [ParseQueryString]. *)
Definition query_of_string (float_text : GoLiteral.float -> bytes) (s : bytes) : option PathAst.jquery :=
  parse_query_string float_text tokenise_query parse_query s.

(** jsonpath.go:29-40 [ParseQueryStringStrict]: the patterns ^\s and \s$. *)
Definition query_of_string_strict (float_text : GoLiteral.float -> bytes) (s : bytes) : option PathAst.jquery :=
  if match s with b :: _ => is_space b | [] => false end then None
  else if match rev s with b :: _ => is_space b | [] => false end then None
  else query_of_string float_text s.

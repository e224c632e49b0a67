(** Specification: the grammar of RFC 9535 (Appendix A), as the texts of the
    concrete queries of GrammarModel.v. *)
From Coq Require Import List NArith ZArith Bool.
From Verif Require Import Base JsonSpec ScalarSpec GrammarModel GrammarSpec LexModel ParseModel.
Local Open Scope N_scope.

(** Languages. *)
Section Languages.
  Context {sym : Type}.
  Definition lang : Type := list sym -> Prop.
  Definition nothing : lang := fun t => t = [].
  Definition cat (a b : lang) : lang := fun t => exists x y, t = x ++ y /\ a x /\ b y.
  Definition either (a b : lang) : lang := fun t => a t \/ b t.
  Section Listing.
    Context {A : Type} (R : A -> lang).
    Fixpoint every (l : list A) : lang :=
      match l with [] => nothing | a :: r => cat (R a) (every r) end.
  End Listing.
End Languages.
Infix ";;" := cat (at level 60, right associativity).

(** The grammar.  The terminals are the tokens of LexModel.v; [term] gives their
    texts and [S] is the optional blank space of RFC 9535.  [log] says which
    logical expressions can be arguments of functions. *)
Section Grammar.
  Context {sym : Type}.
  Variable term : lextok -> @lang sym.
  Variable S : @lang sym.
  Variable log : gor -> Prop.

  Definition op (text : bytes) : lang := term (LxOp, text).
  Definition int (t : bytes) : lang := term (LxInt, t).
  (** 2.3.1.1: string-literal *)
  Definition x_string (s : gstring) : lang :=
    match s with GDouble t => term (LxDouble, t) | GSingle t => term (LxSingle, t) end.
  (** 2.3.5.1: literal = number / string-literal / true / false / null *)
  Definition x_literal (l : gliteral) : lang :=
    match l with
    | GNumber t => either (term (LxInt, t)) (term (LxNumber, t))
    | GString s => x_string s
    | GBool true => term (LxBool, [116; 114; 117; 101])
    | GBool false => term (LxBool, [102; 97; 108; 115; 101])
    | GNull => term (LxNull, [110; 117; 108; 108])
    end.
  (** 2.3.5.1: name-segment = ("[" name-selector "]") / ("." member-name-shorthand),
      index-segment = "[" index-selector "]" *)
  Definition x_step (s : gstep) : lang :=
    match s with
    | GStepName n => op op_open_square ;; x_string n ;; op op_close_square
    | GStepDot t => term (LxMember, t)
    | GStepIndex t => op op_open_square ;; int t ;; op op_close_square
    end.
  Definition x_root (root : bool) : lang := op (if root then op_dollar else op_at).
  (** 2.3.4.1: slice-selector = [start S] ":" S [end S] [":" [S step ]] *)
  Definition x_bound (o : option bytes) : lang := match o with Some t => int t ;; S | None => nothing end.
  Definition x_slice_step (o : option bytes) : lang :=
    match o with
    | Some t => op op_colon ;; S ;; int t
    | None => either nothing (op op_colon)
    end.
  (** logical-not-op S, or nothing *)
  Definition x_not (not : bool) : lang := if not then op op_not ;; S else nothing.

  (** 2.1.1: jsonpath-query = root-identifier segments, segments = *(S segment);
      2.3.5.1: rel-query = current-node-identifier segments *)
  Fixpoint x_query (q : gquery) : lang :=
    match q with GQuery root segs => x_root root ;; every (fun g => S ;; x_segment g) segs end
  (** 2.5.1.1, 2.5.2.1:
      bracketed-selection = "[" S selector *(S "," S selector) S "]" *)
  with x_segment (g : gsegment) : lang :=
    match g with
    | GBracket a rest =>
        op op_open_square ;; S ;; x_selector a ;; every (fun s => S ;; op op_comma ;; S ;; x_selector s) rest ;; S ;; op op_close_square
    | GDotWild => op op_dot_star
    | GDotName t => term (LxMember, t)
    | GDescBracket a rest =>
        op op_desc_open ;; S ;; x_selector a ;; every (fun s => S ;; op op_comma ;; S ;; x_selector s) rest ;; S ;; op op_close_square
    | GDescWild => op op_desc_star
    | GDescName t => term (LxDesc, t)
    end
  (** 2.3: selector *)
  with x_selector (s : gselector) : lang :=
    match s with
    | GName n => x_string n
    | GWild => op op_star
    | GSlice a b c => x_bound a ;; op op_colon ;; S ;; x_bound b ;; x_slice_step c
    | GIndex t => int t
    | GFilter e => op op_question ;; S ;; x_or e
    end
  (** 2.3.5.1: logical-or-expr = logical-and-expr *(S "||" S logical-and-expr) *)
  with x_or (e : gor) : lang :=
    match e with GOr a rest => x_and a ;; every (fun x => S ;; op op_or ;; S ;; x_and x) rest end
  (** logical-and-expr = basic-expr *(S "&&" S basic-expr) *)
  with x_and (e : gand) : lang :=
    match e with GAnd a rest => x_basic a ;; every (fun x => S ;; op op_and ;; S ;; x_basic x) rest end
  (** paren-expr, comparison-expr = comparable S comparison-op S comparable,
      test-expr = [logical-not-op S] (filter-query / function-expr) *)
  with x_basic (e : gbasic) : lang :=
    match e with
    | GParen n e' => x_not n ;; op op_open ;; S ;; x_or e' ;; S ;; op op_close
    | GCompare a t b => x_comparable a ;; S ;; term (LxCmp, t) ;; S ;; x_comparable b
    | GTestQuery n q => x_not n ;; x_query q
    | GTestCall n f => x_not n ;; x_call f
    end
  (** comparable = literal / singular-query / function-expr;
      singular-query-segments = *(S (name-segment / index-segment)) *)
  with x_comparable (a : gcomparable) : lang :=
    match a with
    | GLit l => x_literal l
    | GSing root steps => x_root root ;; every (fun s => S ;; x_step s) steps
    | GValueCall f => x_call f
    end
  (** 2.4: function-expr = function-name "(" S [function-argument
      *(S "," S function-argument)] S ")" *)
  with x_call (f : gcall) : lang :=
    match f with
    | GCall t args =>
        term (LxFun, t) ;; S ;;
        match args with
        | [] => nothing
        | a :: rest => x_argument a ;; every (fun x => S ;; op op_comma ;; S ;; x_argument x) rest
        end ;; S ;; op op_close
    end
  with x_argument (a : garg) : lang :=
    match a with
    | GArgLit l => x_literal l
    | GArgQuery q => x_query q
    | GArgLogical e => fun t => log e /\ x_or e t
    | GArgCall f => x_call f
    end.
End Grammar.

(* ------------------------------------------------------------------ *)
(** The texts of the terminals. *)

(** 2.5.1.1: member-name-shorthand = name-first *name-char; name-first = ALPHA /
    "_" / %x80-D7FF / %xE000-10FFFF; name-char = name-first / DIGIT *)
Definition first_char (c : N) : Prop := 97 <= c <= 122 \/ 65 <= c <= 90 \/ c = 95 \/ 128 <= c /\ unicode c.
Definition next_char (c : N) : Prop := first_char c \/ 48 <= c <= 57.
Definition member_name (t : bytes) : Prop :=
  exists c u, t = flat_map utf8 (c :: u) /\ first_char c /\ Forall next_char u.
(** 2.4: function-name = function-name-first *function-name-char.  The names null,
    true and false, which are no names of functions that exist, are left out. *)
Definition function_name (t : bytes) : Prop :=
  (exists c u, t = c :: u /\ 97 <= c <= 122 /\ Forall (fun b => 97 <= b <= 122 \/ b = 95 \/ 48 <= b <= 57) u) /\
  ~ In t [[110; 117; 108; 108]; [116; 114; 117; 101]; [102; 97; 108; 115; 101]].

Definition operators : list bytes :=
  [op_dollar; op_at; op_star; op_colon; op_question; op_not; op_open; op_close; op_open_square; op_close_square; op_comma;
   op_and; op_or; op_dot_star; op_desc_star; op_desc_open].

Definition terminal (k : lextok) : Prop :=
  let '(ty, t) := k in
  match ty with
  | LxBlank => False
  | LxNull => t = [110; 117; 108; 108]
  | LxBool => t = [116; 114; 117; 101] \/ t = [102; 97; 108; 115; 101]
  | LxOp => In t operators
  | LxFun => exists name, t = name ++ [40] /\ function_name name
  | LxCmp => In t [[61; 61]; [33; 61]; [60; 61]; [62; 61]; [60]; [62]]
  | LxDesc => exists name, t = 46 :: 46 :: name /\ member_name name
  | LxMember => exists name, t = 46 :: name /\ member_name name
  | LxInt => exists z, int_value t z
  (* number = (int / "-0") [ frac ] [ exp ]: as in JSON *)
  | LxNumber => number_text t
  | LxDouble => exists u, string_value (GDouble t) u
  | LxSingle => exists u, string_value (GSingle t) u
  end.

(** B = %x20 / %x09 / %x0A / %x0D; S = *B.  Go's \s also has the form feed. *)
Definition blank (b : N) : Prop := b = 32 \/ b = 9 \/ b = 10 \/ b = 13.
Definition lax_blank (b : N) : Prop := blank b \/ b = 12.

(** RFC 9535: [t] is a text of the query [q]. *)
Definition rfc_text (k : lextok) : lang := fun t => terminal k /\ t = snd k.
Definition rfc_query (log : gor -> Prop) (q : gquery) (t : bytes) : Prop :=
  (exists segs, q = GQuery true segs) /\ x_query rfc_text (Forall blank) log q t.

(** The same with any blank space after every token and before the first one. *)
Definition lax_text (k : lextok) : lang := fun t => exists w, terminal k /\ Forall lax_blank w /\ t = snd k ++ w.
Definition lax_query (log : gor -> Prop) (q : gquery) (t : bytes) : Prop :=
  (exists segs, q = GQuery true segs) /\ cat (Forall lax_blank) (x_query lax_text nothing log q) t.

(** A logical expression that begins with a parenthesis or with a negation. *)
Definition marked (e : gor) : Prop :=
  match e with GOr (GAnd b _) _ => match b with GParen _ _ | GTestQuery true _ | GTestCall true _ => True | _ => False end end.

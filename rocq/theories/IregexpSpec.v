(** Specification: I-Regexp (RFC 9485), its syntax and its meaning, and the
    meaning of the same syntax in Go. *)
From Coq Require Import List ZArith NArith Bool.
From Verif Require Import Base ScalarSpec.
Local Open Scope N_scope.

(* ------------------------------------------------------------------ *)
(** Syntax: RFC 9485 section 4.  Characters are code points. *)

(** QuantExact: the digits. *)
Inductive quant :=
| QOne                                  (* no quantifier *)
| QStar | QPlus | QOpt
| QExact (n : list N)                   (* {n} *)
| QFrom (n : list N)                    (* {n,} *)
| QBetween (n m : list N).              (* {n,m} *)

(** SingleCharEsc is a backslash and the character; charClassEsc is \p{name} or
    \P{name}. *)
Inductive cchar := CChar (c : N) | CEsc (c : N).
Inductive citem := CSingle (c : cchar) | CRange (a b : cchar) | CCat (compl : bool) (name : list N).
(** charClassExpr: [^], a dash at the start, the items, a dash at the end. *)
Record cclass := mkClass { c_neg : bool; c_first : bool; c_items : list citem; c_last : bool }.

Inductive regexp := RBranch (b : branch) | ROr (b : branch) (r : regexp)
with branch := BNil | BCons (p : piece) (b : branch)
with piece := Piece (a : atom) (q : quant)
with atom := AChar (c : N) | ADot | AEsc (c : N) | ACat (compl : bool) (name : list N) | AClass (k : cclass) | AGroup (r : regexp).

(** Which characters may be where. *)
Definition digits (l : list N) : Prop := l <> [] /\ Forall (fun c => 48 <= c <= 57) l.
Definition letters (l : list N) : Prop := Forall (fun c => 97 <= c <= 122 \/ 65 <= c <= 90) l.
Definition escapable (c : N) : Prop := In c [40; 41; 42; 43; 45; 46; 63; 91; 92; 93; 94; 110; 114; 116; 123; 124; 125].
(** Not one of ( ) * + . ? [ \ ] { | } *)
Definition normal (c : N) : Prop := unicode c /\ ~ In c [40; 41; 42; 43; 46; 63; 91; 92; 93; 123; 124; 125].
(** Not one of - [ \ ] *)
Definition class_normal (c : N) : Prop := unicode c /\ ~ In c [45; 91; 92; 93].

Definition ok_quant (q : quant) : Prop :=
  match q with QExact n => digits n | QFrom n => digits n | QBetween n m => digits n /\ digits m | _ => True end.
Definition ok_cchar (c : cchar) : Prop := match c with CChar c => class_normal c | CEsc c => escapable c end.
Definition ok_item (i : citem) : Prop :=
  match i with CSingle c => ok_cchar c | CRange a b => ok_cchar a /\ ok_cchar b | CCat _ name => letters name end.
Definition ok_class (k : cclass) : Prop :=
  Forall ok_item (c_items k) /\ (c_first k = true \/ c_items k <> []) /\
  (* [^ is always the start of a negated class *)
  (c_neg k = false -> c_first k = false -> match c_items k with CSingle (CChar c) :: _ | CRange (CChar c) _ :: _ => c <> 94 | _ => True end).
Fixpoint ok_regexp (r : regexp) : Prop :=
  match r with RBranch b => ok_branch b | ROr b r => ok_branch b /\ ok_regexp r end
with ok_branch (b : branch) : Prop := match b with BNil => True | BCons p b => ok_piece p /\ ok_branch b end
with ok_piece (p : piece) : Prop := match p with Piece a q => ok_atom a /\ ok_quant q end
with ok_atom (a : atom) : Prop :=
  match a with
  | AChar c => normal c
  | ADot => True
  | AEsc c => escapable c
  | ACat _ name => letters name
  | AClass k => ok_class k
  | AGroup r => ok_regexp r
  end.

(** How it is written. *)
Definition show_quant (q : quant) : list N :=
  match q with
  | QOne => [] | QStar => [42] | QPlus => [43] | QOpt => [63]
  | QExact n => [123] ++ n ++ [125]
  | QFrom n => [123] ++ n ++ [44; 125]
  | QBetween n m => [123] ++ n ++ [44] ++ m ++ [125]
  end.
Definition show_cat (compl : bool) (name : list N) : list N := [92; if compl then 80 else 112; 123] ++ name ++ [125].
Definition show_cchar (c : cchar) : list N := match c with CChar c => [c] | CEsc c => [92; c] end.
Definition show_item (i : citem) : list N :=
  match i with CSingle c => show_cchar c | CRange a b => show_cchar a ++ [45] ++ show_cchar b | CCat compl name => show_cat compl name end.
Definition dash (b : bool) : list N := if b then [45] else [].
Definition show_class (k : cclass) : list N :=
  [91] ++ (if c_neg k then [94] else []) ++ dash (c_first k) ++ flat_map show_item (c_items k) ++ dash (c_last k) ++ [93].
Fixpoint show_regexp (r : regexp) : list N :=
  match r with RBranch b => show_branch b | ROr b r => show_branch b ++ [124] ++ show_regexp r end
with show_branch (b : branch) : list N := match b with BNil => [] | BCons p b => show_piece p ++ show_branch b end
with show_piece (p : piece) : list N := match p with Piece a q => show_atom a ++ show_quant q end
with show_atom (a : atom) : list N :=
  match a with
  | AChar c => [c]
  | ADot => [46]
  | AEsc c => [92; c]
  | ACat compl name => show_cat compl name
  | AClass k => show_class k
  | AGroup r => [40] ++ show_regexp r ++ [41]
  end.

(** In bytes. *)
Definition encoded (u : list N) : bytes := flat_map utf8 u.
Definition pattern_of (r : regexp) : bytes := encoded (show_regexp r).

(* ------------------------------------------------------------------ *)
(** Meaning. *)
Section Meaning.
  (** The characters of a Unicode category. *)
  Variable category : list N -> N -> Prop.

  Definition number (l : list N) : nat := fold_left (fun a d => 10 * a + N.to_nat (d - 48))%nat l 0%nat.
  Definition times (q : quant) (n : nat) : Prop :=
    match q with
    | QOne => n = 1 | QStar => True | QPlus => 1 <= n | QOpt => n <= 1
    | QExact k => n = number k | QFrom k => number k <= n | QBetween k m => number k <= n <= number m
    end%nat.
  Definition esc_char (c : N) : N := if c =? 110 then 10 else if c =? 114 then 13 else if c =? 116 then 9 else c.
  Definition in_cat (compl : bool) (name : list N) (c : N) : Prop := if compl then ~ category name c else category name c.
  Definition cchar_char (x : cchar) : N := match x with CChar c => c | CEsc c => esc_char c end.
  Definition in_item (i : citem) (c : N) : Prop :=
    match i with
    | CSingle x => c = cchar_char x
    | CRange a b => cchar_char a <= c <= cchar_char b
    | CCat compl name => in_cat compl name c
    end.
  Definition listed (k : cclass) (c : N) : Prop :=
    c = 45 /\ (c_first k = true \/ c_last k = true) \/ Exists (fun i => in_item i c) (c_items k).
  Definition in_class_of (k : cclass) (c : N) : Prop := if c_neg k then ~ listed k c else listed k c.

  (** I-Regexp: the regular expression matches all of [s]. *)
  Fixpoint lang (r : regexp) (s : list N) : Prop :=
    match r with RBranch b => lang_branch b s | ROr b r => lang_branch b s \/ lang r s end
  with lang_branch (b : branch) (s : list N) : Prop :=
    match b with BNil => s = [] | BCons p b => exists s1 s2, s = s1 ++ s2 /\ lang_piece p s1 /\ lang_branch b s2 end
  with lang_piece (p : piece) (s : list N) : Prop :=
    match p with Piece a q => exists ss, times q (length ss) /\ s = concat ss /\ Forall (fun x => lang_atom a x) ss end
  with lang_atom (a : atom) (s : list N) : Prop :=
    match a with
    | AChar c => s = [c]
    | ADot => exists c, s = [c] /\ c <> 10 /\ c <> 13
    | AEsc c => s = [esc_char c]
    | ACat compl name => exists c, s = [c] /\ in_cat compl name c
    | AClass k => exists c, s = [c] /\ in_class_of k c
    | AGroup r => lang r s
    end.

  (** Go (RE2 syntax): the regular expression matches [s], between [pre] and
      [post].  The differences are the dot, which matches all characters but
      newlines, and the characters ^ and $, which match at the start and the end
      of the text. *)
  Fixpoint go_lang (r : regexp) (pre s post : list N) : Prop :=
    match r with RBranch b => go_branch b pre s post | ROr b r => go_branch b pre s post \/ go_lang r pre s post end
  with go_branch (b : branch) (pre s post : list N) : Prop :=
    match b with BNil => s = [] | BCons p b => exists s1 s2, s = s1 ++ s2 /\ go_piece p pre s1 (s2 ++ post) /\ go_branch b (pre ++ s1) s2 post end
  with go_piece (p : piece) (pre s post : list N) : Prop :=
    match p with
    | Piece a q => exists n, times q n /\
        (fix repeated (n : nat) (pre s : list N) : Prop :=
           match n with
           | O => s = []
           | S n => exists s1 s2, s = s1 ++ s2 /\ go_atom a pre s1 (s2 ++ post) /\ repeated n (pre ++ s1) s2
           end) n pre s
    end
  with go_atom (a : atom) (pre s post : list N) : Prop :=
    match a with
    | AChar c => if c =? 94 then s = [] /\ pre = [] else if c =? 36 then s = [] /\ post = [] else s = [c]
    | ADot => exists c, s = [c] /\ c <> 10
    | AEsc c => s = [esc_char c]
    | ACat compl name => exists c, s = [c] /\ in_cat compl name c
    | AClass k => exists c, s = [c] /\ in_class_of k c
    | AGroup r => go_lang r pre s post
    end.
End Meaning.

(** No ^ and no $ outside of classes. *)
Fixpoint no_anchor (r : regexp) : Prop :=
  match r with RBranch b => no_anchor_branch b | ROr b r => no_anchor_branch b /\ no_anchor r end
with no_anchor_branch (b : branch) : Prop := match b with BNil => True | BCons p b => no_anchor_piece p /\ no_anchor_branch b end
with no_anchor_piece (p : piece) : Prop := match p with Piece a _ => no_anchor_atom a end
with no_anchor_atom (a : atom) : Prop :=
  match a with AChar c => c <> 94 /\ c <> 36 | AGroup r => no_anchor r | _ => True end.

(** The string [p] is an I-Regexp that matches the string [t]. *)
Definition iregexp_matches (category : list N -> N -> Prop) (p t : bytes) : Prop :=
  exists r u, ok_regexp r /\ p = pattern_of r /\ Forall unicode u /\ t = encoded u /\ lang category r u.

(** What is assumed of Go's package regexp: where a pattern of this syntax that
    compiles is found there is a match, and when it is not found there is none.
    The positions are those of bytes. *)
Definition go_regexp (category : list N -> N -> Prop) {R} (go_compile : bytes -> option R) (find_index : R -> bytes -> option (nat * nat)) : Prop :=
  forall g re, ok_regexp g -> go_compile (pattern_of g) = Some re -> forall u, Forall unicode u ->
    match find_index re (encoded u) with
    | Some (i, j) => exists u1 u2 u3, u = u1 ++ u2 ++ u3 /\ i = length (encoded u1) /\ j = length (encoded (u1 ++ u2)) /\ go_lang category g u1 u2 u3
    | None => forall u1 u2 u3, u = u1 ++ u2 ++ u3 -> ~ go_lang category g u1 u2 u3
    end.

(** Model of /repo/internal/jsonpath/iregexp/iregexp.go and of its use in
    /repo/transform/jsonpath/function.go. *)
From Coq Require Import List ZArith NArith Arith Bool.
From Verif Require Import Base GoLiteral.
Local Open Scope N_scope.

(** The replacement of a dot, iregexp.go:28. *)
Definition dot_class : bytes := [91; 94; 92; 110; 92; 114; 93].

(** The number of bytes of the rune at the start of [l], as [range] goes over a
    string: a byte that starts no character is a rune. *)
Definition rune_size (l : bytes) : nat :=
  match l with
  | [] => 0%nat
  | b :: _ => if b <? 128 then 1%nat else match rune_len l with O => 1%nat | k => k end
  end.

(** The variables of [iregexpString]. *)
Record scan := mkScan { in_class : bool; escaped : bool; last_index : nat; builder : bytes }.

(** iregexp.go:14-31, the body of the loop, for the rune at index [i] of [ptn];
    [b] is its first byte.  The runes of the cases have one byte, and no other
    rune starts with one of these bytes. *)
Definition scan_rune (ptn : bytes) (i : nat) (b : N) (s : scan) : scan :=
  if escaped s then mkScan (in_class s) false (last_index s) (builder s)
  else if b =? 92 then mkScan (in_class s) true (last_index s) (builder s)
  else if b =? 91 then mkScan true (escaped s) (last_index s) (builder s)
  else if b =? 93 then mkScan false (escaped s) (last_index s) (builder s)
  else if b =? 46 then
    if in_class s then s
    else mkScan (in_class s) (escaped s) (S i)
           (builder s ++ firstn (i - last_index s) (skipn (last_index s) ptn) ++ dot_class)
  else s.

(** iregexp.go:13-32, the loop: [l] is the rest of [ptn] from index [i] on, whose
    first [skip] bytes belong to the rune before. *)
Fixpoint scan_runes (ptn l : bytes) (skip i : nat) (s : scan) : scan :=
  match l with
  | [] => s
  | b :: r =>
      match skip with
      | S k => scan_runes ptn r k (S i) s
      | O => scan_runes ptn r (pred (rune_size l)) (S i) (scan_rune ptn i b s)
      end
  end.

(** iregexp.go:8-40 *)
Definition iregexp_string (ptn : bytes) : bytes :=
  let s := scan_runes ptn ptn 0 0 (mkScan false false 0 []) in
  if (last_index s =? 0)%nat then ptn
  else if (last_index s <? length ptn)%nat then builder s ++ skipn (last_index s) ptn
  else builder s.

Section Regexp.
  (** Go's package regexp: what a pattern compiles to ([None]: an error), and
      where a compiled pattern is found in a string. *)
  Variable R : Type.
  Variable go_compile : bytes -> option R.
  Variable find_index : R -> bytes -> option (nat * nat).

  (** iregexp.go:55 [knownIRegexps]; [None] is the nil pointer. *)
  Definition known := list (bytes * option R).
  Fixpoint lookup (k : bytes) (m : known) : option (option R) :=
    match m with
    | [] => None
    | (k', re) :: r => if bytes_eqb k k' then Some re else lookup k r
    end.

  (** iregexp.go:42-53 [Compile]: the pointer, and whether there is no error. *)
  Definition iregexp_compile (ptn : bytes) (m : known) : known * (option R * bool) :=
    match lookup ptn m with
    | Some re => (m, (re, true))
    | None =>
        let p := iregexp_string ptn in
        match go_compile p with
        | None => ((p, None) :: m, (None, false))
        | Some re => (m, (Some re, true))
        end
    end.

  (** function.go:155-171: the part of [matchIndex] that looks for the pattern;
      the method of a nil pointer panics. *)
  Definition find_pattern (ptn subject : bytes) (m : known) : res (known * option (nat * nat)) :=
    let '(m', (re, ok)) := iregexp_compile ptn m in
    if ok then match re with Some re => Ok (m', find_index re subject) | None => Panic end
    else Ok (m', None).

  (** A sequence of such calls, as the filters of a query make them. *)
  Fixpoint find_patterns (l : list (bytes * bytes)) (m : known) : res (list (option (nat * nat))) :=
    match l with
    | [] => Ok []
    | (ptn, subject) :: r =>
        do (m', x) <- find_pattern ptn subject m ;
        do xs <- find_patterns r m' ; Ok (x :: xs)
    end.

  (** Without the cache: the oracle [find] of PathModel.v. *)
  Definition find_once (ptn subject : bytes) : option (nat * nat) :=
    match go_compile (iregexp_string ptn) with Some re => find_index re subject | None => None end.
End Regexp.

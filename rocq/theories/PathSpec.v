(** Specification: the nodes a JSONPath query selects, from RFC 9535.

    A query is the syntax of PathAst.v.  The meaning is given as relations, so
    that a filter can depend on propositions: [nodes q x l] says that [l] is the
    nodelist of the query [q] for the current node [x]. *)
From Coq Require Import List ZArith NArith Bool.
From Verif Require Import Base Tokens JsonSpec ScalarSpec GoLiteral EqualSpec SelectSpec JpvEncModel PathAst.

(** The children of a node, in order. *)
Definition children (x : jval) : list jval :=
  match x with JScalar _ => [] | JArr l _ => l | JObj l _ => map snd l end.
(** A node and its descendants, parents first (2.5.2.2). *)
Fixpoint descendants (x : jval) : list jval :=
  x :: match x with
       | JScalar _ => []
       | JArr l _ => flat_map descendants l
       | JObj l _ => flat_map (fun m => descendants (snd m)) l
       end.

(** The characters of a string, and its UTF-8 encoding. *)
Definition characters (s : scalar) (u : list N) : Prop :=
  sc_type s = TStr /\ exists c, sc_bytes s = 34%N :: c ++ [34%N] /\ denotes c u.
Definition spells (s : scalar) (name : bytes) : Prop := exists u, characters s u /\ name = flat_map utf8 u.

(** [kept P i l is]: [is] are the positions, counted from [i], of the elements of
    [l] that have the property [P]. *)
Inductive kept {A} (P : A -> Prop) : nat -> list A -> list nat -> Prop :=
| kept_nil : forall i, kept P i [] []
| kept_yes : forall i a l is, P a -> kept P (S i) l is -> kept P i (a :: l) (i :: is)
| kept_no : forall i a l is, ~ P a -> kept P (S i) l is -> kept P i (a :: l) is.
(** The elements at these positions. *)
Definition pick {A} (l : list A) (is : list nat) : list A :=
  flat_map (fun i => match nth_error l i with Some a => [a] | None => [] end) is.

(** [R] holds between the elements of two lists; of some or all of a list. *)
Section Lists.
  Context {A B : Type}.
  Variable R : A -> B -> Prop.
  Fixpoint each (l : list A) (l' : list B) : Prop :=
    match l, l' with
    | [], [] => True
    | a :: r, b :: r' => R a b /\ each r r'
    | _, _ => False
    end.
  Variable P : A -> Prop.
  Fixpoint some (l : list A) : Prop := match l with [] => False | a :: r => P a \/ some r end.
  Fixpoint all (l : list A) : Prop := match l with [] => True | a :: r => P a /\ all r end.
End Lists.

(** The order in which the default mode gives the results of a descendant
    segment: that of the document.  [R x is] says which children of [x] are
    selected; each selected child comes (as often as it is selected) before what
    is selected below it, and after what is selected in the children before it. *)
Fixpoint merge (i : nat) (is : list nat) (l : list jval) (below : list (list jval)) : list jval :=
  match l, below with
  | y :: l', b :: below' => repeat y (count_occ Nat.eq_dec is i) ++ b ++ merge (S i) is l' below'
  | _, _ => []
  end.
Inductive walk (R : jval -> list nat -> Prop) : jval -> list jval -> Prop :=
| walk_node : forall x is below, R x is -> Forall2 (walk R) (children x) below ->
    walk R x (merge 0 is (children x) below).

(** 2.3.5.2.2: comparisons.  [None] is the empty nodelist or Nothing. *)
Definition equal_values (a b : option jval) : Prop :=
  match a, b with
  | None, None => True
  | Some x, Some y => same x y
  | _, _ => False
  end.
(** A float64 is [(-1)^s * m * 2^k]. *)
Definition float_less (a b : float) : Prop :=
  let '(sa, (ma, ka)) := a in
  let '(sb, (mb, kb)) := b in
  let signed (s : bool) (m : Z) := if s then (- m)%Z else m in
  exists k, (k <= ka)%Z /\ (k <= kb)%Z /\ (signed sa (ma * 2 ^ (ka - k)) < signed sb (mb * 2 ^ (kb - k)))%Z.
Inductive chars_less : list N -> list N -> Prop :=
| cl_end : forall c v, chars_less [] (c :: v)
| cl_less : forall c d u v, (c < d)%N -> chars_less (c :: u) (d :: v)
| cl_same : forall c u v, chars_less u v -> chars_less (c :: u) (c :: v).
Definition less_values (a b : option jval) : Prop :=
  match a, b with
  | Some (JScalar s), Some (JScalar t) =>
      (sc_type s = TNum /\ sc_type t = TNum /\
         exists n m e n' m' e' f g, num_value (sc_bytes s) n m e /\ num_value (sc_bytes t) n' m' e' /\
           float_of_decimal (mkDec n m e) = Some f /\ float_of_decimal (mkDec n' m' e') = Some g /\ float_less f g) \/
      (exists u v, characters s u /\ characters t v /\ chars_less u v)
  | _, _ => False
  end.
Definition compares (a : option jval) (op : jop) (b : option jval) : Prop :=
  match op with
  | OpEq => equal_values a b
  | OpNe => ~ equal_values a b
  | OpLt => less_values a b
  | OpLe => less_values a b \/ equal_values a b
  | OpGt => less_values b a
  | OpGe => less_values b a \/ equal_values a b
  end.

(** 2.4.4, 2.4.5: an integer as a value; the length of a value. *)
Definition number (n : nat) : jval := JScalar (new_scalar TNum (itoa (N.of_nat n))).
Definition length_value (a o : option jval) : Prop :=
  match a with
  | None => o = None
  | Some (JArr l _) => o = Some (number (length l))
  | Some (JObj l _) => o = Some (number (length l))
  | Some (JScalar s) =>
      (exists u, characters s u /\ o = Some (number (length u))) \/ (sc_type s <> TStr /\ o = None)
  end.

Section Spec.
  (** RFC 9485: [matches p s] says that the pattern [p] matches the string [s]. *)
  Variable matches : bytes -> bytes -> Prop.
  (** Whether the results of descendant segments are in the order of 2.5.2.2, or
      in the order of the document. *)
  Variable strict : bool.
  (** The query argument, $. *)
  Variable root : jval.

  (** 2.4.6, 2.4.7. *)
  Definition text_of (o : option jval) (b : bytes) : Prop :=
    match o with Some (JScalar s) => spells s b | _ => False end.
  Definition full_match (a b : option jval) : Prop :=
    exists t p, text_of a t /\ text_of b p /\ matches p t.
  Definition part_match (a b : option jval) : Prop :=
    exists t1 t t2 p, text_of a (t1 ++ t ++ t2) /\ text_of b p /\ matches p t.

  (** 2.3.1, 2.3.3: the step of a singular query. *)
  Definition step (s : jstep) (x : jval) (o : option jval) : Prop :=
    match s, x with
    | JStepName name, JObj l _ =>
        exists is, kept (fun m => spells (fst m) name) 0 l is /\ o = nth_error (pick (map snd l) is) 0
    | JStepIndex i, JArr l _ => o = nth_error (pick l (map Z.to_nat (rfc_index i (Z.of_nat (length l))))) 0
    | _, _ => o = None
    end.
  Fixpoint steps (l : list jstep) (x : jval) (o : option jval) : Prop :=
    match l with
    | [] => o = Some x
    | s :: r => exists o', step s x o' /\ match o' with Some y => steps r y o | None => o = None end
    end.
  Definition singular_node (q : jsingular) (x : jval) (o : option jval) : Prop :=
    match q with JSingular r l => steps l (if r then root else x) o end.

  (** 2.2, 2.5: the nodelist of a query.  2.3: the positions of the children a
      selector selects.  2.3.5: filters.  2.4: functions. *)
  Fixpoint nodes (q : jquery) (x : jval) (l : list jval) : Prop :=
    match q with
    | JQuery r segs =>
        (fix go (segs : list jsegment) (xs l : list jval) : Prop :=
           match segs with
           | [] => l = xs
           | seg :: rest => exists ls, Forall2 (segment_nodes seg) xs ls /\ go rest (concat ls) l
           end) segs [if r then root else x] l
    end
  with segment_nodes (seg : jsegment) (x : jval) (l : list jval) : Prop :=
    match seg with
    | JSegment desc sels =>
        let chosen x is := exists iss, each (fun s => selects s x) sels iss /\ is = concat iss in
        let child x l := exists is, chosen x is /\ l = pick (children x) is in
        if desc then
          if strict then exists ls, Forall2 child (descendants x) ls /\ l = concat ls
          else walk chosen x l
        else child x l
    end
  with selects (s : jselector) (x : jval) (is : list nat) : Prop :=
    match s with
    | JName name =>
        match x with JObj l _ => kept (fun m => spells (fst m) name) 0 l is | _ => is = [] end
    | JWild => is = seq 0 (length (children x))
    | JIndex i =>
        match x with JArr l _ => is = map Z.to_nat (rfc_index i (Z.of_nat (length l))) | _ => is = [] end
    | JSlice start stop step =>
        match x with JArr l _ => is = map Z.to_nat (rfc_slice start stop step (length l)) | _ => is = [] end
    | JFilter c => kept (holds c) 0 (children x) is
    end
  with holds (c : jlogical) (x : jval) : Prop :=
    match c with
    | JOr l => some (fun c' => holds c' x) l
    | JAnd l => all (fun c' => holds c' x) l
    | JNot c' => ~ holds c' x
    | JCompare a op b => exists u v, value a x u /\ value b x v /\ compares u op v
    | JTest q => exists y l, nodes q x (y :: l)
    | JTestCall f => call_holds f x
    end
  with value (a : jcomparable) (x : jval) (o : option jval) : Prop :=
    match a with
    | JLit s => o = Some (JScalar s)
    | JSing q => singular_node q x o
    | JValueCall f => call_value f x o
    end
  with call_value (f : jcall) (x : jval) (o : option jval) : Prop :=
    match f with
    | JCall name args =>
        match args with
        | [a] =>
            (name = n_length /\ exists v, arg_value a x v /\ length_value v o) \/
            (name = n_count /\ exists l, arg_nodes a x l /\ o = Some (number (length l))) \/
            (name = n_value /\ exists l, arg_nodes a x l /\ o = match l with [y] => Some y | _ => None end)
        | _ => False
        end
    end
  with call_holds (f : jcall) (x : jval) : Prop :=
    match f with
    | JCall name args =>
        match args with
        | [a; b] =>
            exists u v, arg_value a x u /\ arg_value b x v /\
              (name = n_match /\ full_match u v \/ name = n_search /\ part_match u v)
        | _ => False
        end
    end
  with arg_value (a : jarg) (x : jval) (o : option jval) : Prop :=
    match a with
    | JArgLit s => o = Some (JScalar s)
    | JArgQuery q => nodes q x [] /\ o = None \/ exists y, nodes q x [y] /\ o = Some y
    | JArgCall f => call_value f x o
    | JArgLogical _ => False
    end
  with arg_nodes (a : jarg) (x : jval) (l : list jval) : Prop :=
    match a with JArgQuery q => nodes q x l | _ => False end.
End Spec.

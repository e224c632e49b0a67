(** Model of /repo/encoding/json/encoder.go. *)
From Coq Require Import List ZArith NArith Bool.
From Verif Require Import Base Tokens PrinterModel.

(** A computation that reads tokens from the input channel and calls the
    methods of a printer: the calls made, and how it ended.  No result of a
    printer call influences the computation, except that a failing printer
    panics, i.e. cuts the list of calls (see [consume_json]). *)
Inductive eout (A : Type) :=
| EDone (a : A) (rest : list token)
| EPanic                 (* a Go panic that is not a PrinterError *)
| EFuel.                 (* model only: loop bound exhausted *)
Arguments EDone {A} a rest.
Arguments EPanic {A}.
Arguments EFuel {A}.

Definition enc (A : Type) : Type := list token -> list pcall * eout A.

Definition eret {A} (a : A) : enc A := fun ts => ([], EDone a ts).
Definition epanic {A} : enc A := fun _ => ([], EPanic).
Definition efuel {A} : enc A := fun _ => ([], EFuel).
Definition ecalls (cs : list pcall) : enc unit := fun ts => (cs, EDone tt ts).
Definition enext : enc (option token) :=
  fun ts => match ts with [] => ([], EDone None []) | t :: r => ([], EDone (Some t) r) end.
Definition ebnd {A B} (m : enc A) (f : A -> enc B) : enc B :=
  fun ts => match m ts with
            | (cs, EDone a r) => let '(cs', o) := f a r in (cs ++ cs', o)
            | (cs, EPanic) => (cs, EPanic)
            | (cs, EFuel) => (cs, EFuel)
            end.
Declare Scope enc_scope.
Delimit Scope enc_scope with enc.
Notation "'let*' x := m 'in' f" := (ebnd m (fun x => f))
  (at level 200, x pattern, m at level 100, f at level 200) : enc_scope.
Notation "m ;* f" := (ebnd m (fun _ => f)) (at level 95, right associativity) : enc_scope.
Local Open Scope enc_scope.

(** A value under the iterator: a scalar, or a collection whose start token
    has been read and whose contents are next on the stream.

    iterator/streamiterator.go: before moving on, Advance discards the current
    value; in the encoder that value is a scalar or has been written, i.e. read
    to its end ([done]), and Discard does nothing (line 126).  The discarding
    of unread values is modelled in IterModel.v. *)
Inductive evalue := EScalar (s : scalar) | EObject | EArray.

(** streamiterator.go:390-406 [nextStreamedValue]. *)
Definition next_value (t : token) : enc evalue :=
  match t with
  | TStartArr => eret EArray
  | TStartObj => eret EObject
  | TScalar s => eret (EScalar s)
  | _ => epanic
  end.

(** streamiterator.go:222-253 [Object.Advance]: the next key and value if any,
    and whether an elision was met.  The recursive call for an elision is
    bounded by the number of tokens left. *)
Fixpoint obj_advance_l (ts : list token) (el : bool)
  : list pcall * eout (option (scalar * evalue) * bool) :=
  match ts with
  | [] => ([], EPanic)
  | TScalar k :: r =>
      match r with
      | [] => ([], EPanic)
      | t :: r' =>
          match next_value t r' with
          | (cs, EDone v r'') => (cs, EDone (Some (k, v), el) r'')
          | (cs, EPanic) => (cs, EPanic)
          | (cs, EFuel) => (cs, EFuel)
          end
      end
  | TEndObj :: r => ([], EDone (None, el) r)
  | TElision :: r => obj_advance_l r true
  | _ :: _ => ([], EPanic)
  end.
Definition obj_advance : enc (option (scalar * evalue) * bool) := fun ts => obj_advance_l ts false.

(** streamiterator.go:342-366 [Array.Advance]. *)
Fixpoint arr_advance_l (ts : list token) (el : bool)
  : list pcall * eout (option evalue * bool) :=
  match ts with
  | [] => ([], EPanic)
  | TEndArr :: r => ([], EDone (None, el) r)
  | TElision :: r => arr_advance_l r true
  | t :: r =>
      match next_value t r with
      | (cs, EDone v r') => (cs, EDone (Some v, el) r')
      | (cs, EPanic) => (cs, EPanic)
      | (cs, EFuel) => (cs, EFuel)
      end
  end.
Definition arr_advance : enc (option evalue * bool) := fun ts => arr_advance_l ts false.

(** encoder.go:262-271. *)
Definition elision_bytes : bytes := [46; 46; 46]%N.
Definition open_object_bytes : bytes := [123%N].
Definition close_object_bytes : bytes := [125%N].
Definition open_array_bytes : bytes := [91%N].
Definition close_array_bytes : bytes := [93%N].
Definition item_separator_bytes : bytes := [44%N].
Definition compact_item_separator_bytes : bytes := [44; 32]%N.
Definition key_value_separator_bytes : bytes := [58; 32]%N.

Definition pb (b : bytes) : enc unit := ecalls [PBytes b].

Section Encoder.
(** encoder.go:13-18 [Encoder]: the fields. *)
Variable col : option colorizer.
Variable width_limit : Z.       (* CompactWidthLimit *)
Variable max_items : Z.         (* CompactObjectMaxItems *)

Definition pscalar (s : scalar) : enc unit := ecalls (print_scalar col s).

Definition zlen (b : bytes) : Z := Z.of_nat (length b).

(** encoder.go:97-106: the loop that collects the pending items of an object;
    result: the pending items, [compact], [obj.Elided()]. *)
Fixpoint collect_items (fuel : nat) (pending : list (scalar * evalue)) (total : Z) (el : bool)
  : enc (list (scalar * evalue) * bool * bool) :=
  match fuel with
  | O => efuel
  | S f =>
      let* (nx, el1) := obj_advance in
      let el' := el || el1 in
      match nx with
      | None => eret (pending, true, el')
      | Some (k, v) =>
          let pending' := pending ++ [(k, v)] in
          match v with
          | EScalar s =>
              let total' := (total + (zlen (sc_bytes k) + zlen (sc_bytes s) + 4))%Z in
              if (Z.of_nat (length pending') <=? max_items)%Z && (total' <=? width_limit)%Z
              then collect_items f pending' total' el'
              else eret (pending', false, el')
          | _ => eret (pending', false, el')
          end
      end
  end.

(** encoder.go:216-221 and 240-245: write the compact items; [writeValue] of a
    scalar prints it. *)
Fixpoint write_items (first : bool) (items : list scalar) : enc unit :=
  match items with
  | [] => eret tt
  | s :: r =>
      (if first then eret tt else pb compact_item_separator_bytes) ;*
      pscalar s ;*
      write_items false r
  end.

(** encoder.go:38-58 [writeValue], 60-86 [writeObject], 88-150
    [writeObjectCompact], 152-176 [writeArray], 194-259 [writeArrayCompact].
    One fuel bounds nesting and loops. *)
Fixpoint write_value (fuel : nat) (v : evalue) : enc unit :=
  match fuel with
  | O => efuel
  | S f =>
      match v with
      | EScalar s => pscalar s
      | EObject =>
          if (0 <? max_items)%Z then write_object_compact f
          else pb open_object_bytes ;* object_items f true false
      | EArray =>
          if (0 <? width_limit)%Z
          then pb open_array_bytes ;* array_items_compact f [] (-2)%Z true false
          else pb open_array_bytes ;* array_items f true false
      end
  end

(** encoder.go:63-85: the loop of writeObject and what follows it. *)
with object_items (fuel : nat) (first el : bool) : enc unit :=
  match fuel with
  | O => efuel
  | S f =>
      let* (nx, el1) := obj_advance in
      let el' := el || el1 in
      match nx with
      | Some (k, v) =>
          (if first then ecalls [PIndent]
           else pb item_separator_bytes ;* ecalls [PNewLine]) ;*
          pscalar k ;*
          pb key_value_separator_bytes ;*
          write_value f v ;*
          object_items f false el'
      | None =>
          (if el' then
             (if first then eret tt else ecalls [PNewLine]) ;* pb elision_bytes
           else eret tt) ;*
          (if first then eret tt else ecalls [PDedent]) ;*
          pb close_object_bytes
      end
  end

(** encoder.go:111-118 ([sep] = ", ") and 124-132 ([sep] = "," NewLine): write
    the pending items. *)
with write_pending (fuel : nat) (compact first : bool) (items : list (scalar * evalue)) : enc unit :=
  match fuel with
  | O => efuel
  | S f =>
      match items with
      | [] => eret tt
      | (k, v) :: r =>
          (if first then eret tt
           else if compact then pb compact_item_separator_bytes
           else pb item_separator_bytes ;* ecalls [PNewLine]) ;*
          pscalar k ;*
          pb key_value_separator_bytes ;*
          write_value f v ;*
          write_pending f compact false r
      end
  end

(** encoder.go:88-150. *)
with write_object_compact (fuel : nat) : enc unit :=
  match fuel with
  | O => efuel
  | S f =>
      let* (pending, compact, el) := collect_items f [] (-2)%Z false in
      pb open_object_bytes ;*
      (if compact then
         write_pending f true true pending ;*
         (if el then pb elision_bytes else eret tt)
       else
         ecalls [PIndent] ;*
         write_pending f false true pending ;*
         object_rest f el) ;*
      pb close_object_bytes
  end

(** encoder.go:133-148: the items after the pending ones. *)
with object_rest (fuel : nat) (el : bool) : enc unit :=
  match fuel with
  | O => efuel
  | S f =>
      let* (nx, el1) := obj_advance in
      let el' := el || el1 in
      match nx with
      | Some (k, v) =>
          pb item_separator_bytes ;* ecalls [PNewLine] ;*
          pscalar k ;*
          pb key_value_separator_bytes ;*
          write_value f v ;*
          object_rest f el'
      | None =>
          (if el' then ecalls [PNewLine] ;* pb elision_bytes else eret tt) ;*
          ecalls [PDedent]
      end
  end

(** encoder.go:155-175: the loop of writeArray and what follows it. *)
with array_items (fuel : nat) (first el : bool) : enc unit :=
  match fuel with
  | O => efuel
  | S f =>
      let* (nx, el1) := arr_advance in
      let el' := el || el1 in
      match nx with
      | Some v =>
          (if first then ecalls [PIndent]
           else pb item_separator_bytes ;* ecalls [PNewLine]) ;*
          write_value f v ;*
          array_items f false el'
      | None =>
          (if el' then
             (if first then eret tt else ecalls [PNewLine]) ;* pb elision_bytes
           else eret tt) ;*
          (if first then eret tt else ecalls [PDedent]) ;*
          pb close_array_bytes
      end
  end

(** encoder.go:199-258: the loop of writeArrayCompact and what follows it;
    state: compactItems (scalars), totalWidth, firstItem.  The goto of line 226
    jumps to line 205; there the test is repeated, and if it fails again
    firstItem is false and compactItems empty. *)
with array_items_compact (fuel : nat) (items : list scalar) (total : Z) (first el : bool)
  : enc unit :=
  match fuel with
  | O => efuel
  | S f =>
      let* (nx, el1) := arr_advance in
      let el' := el || el1 in
      match nx with
      | Some v =>
          let total' := match v with
                        | EScalar s => (total + (zlen (sc_bytes s) + 2))%Z
                        | _ => total
                        end in
          let start := if first then ecalls [PIndent]
                       else pb item_separator_bytes ;* ecalls [PNewLine] in
          match v with
          | EScalar s =>
              if (total' <=? width_limit)%Z then
                array_items_compact f (items ++ [s]) total' first el'
              else
                match items with
                | [] => start ;* write_value f v ;* array_items_compact f [] total' false el'
                | _ =>
                    start ;* write_items true items ;*
                    let total2 := zlen (sc_bytes s) in
                    if (total2 <=? width_limit)%Z then
                      array_items_compact f [s] total2 false el'
                    else
                      pb item_separator_bytes ;* ecalls [PNewLine] ;*
                      write_value f v ;* array_items_compact f [] total2 false el'
                end
          | _ =>
              match items with
              | [] => start ;* write_value f v ;* array_items_compact f [] total' false el'
              | _ =>
                  start ;* write_items true items ;*
                  pb item_separator_bytes ;* ecalls [PNewLine] ;*
                  write_value f v ;* array_items_compact f [] (-2)%Z false el'
              end
          end
      | None =>
          (match items with
           | [] => eret tt
           | _ =>
               (if first then eret tt
                else pb item_separator_bytes ;* ecalls [PNewLine]) ;*
               write_items true items
           end) ;*
          (if el' then
             (if first then eret tt else ecalls [PNewLine]) ;* pb elision_bytes
           else eret tt) ;*
          (if first then eret tt else ecalls [PDedent]) ;*
          pb close_array_bytes
      end
  end.

(** encoder.go:32-35: the loop of Consume; iterator/streamiterator.go:19-30
    [Iterator.Advance]. *)
Fixpoint consume_loop (fuel : nat) : enc unit :=
  match fuel with
  | O => efuel
  | S f =>
      let* nx := enext in
      match nx with
      | None => eret tt
      | Some t =>
          let* v := next_value t in
          write_value f v ;*
          ecalls [PReset] ;*
          consume_loop f
      end
  end.
End Encoder.

(** Result of Consume: nil, a printer error, or a panic. *)
Inductive consumed := CNil | CPrinterError | CPanic | CFuel.

(** encoder.go:29-37 [Consume] on a DefaultPrinter (internal/format/printer.go)
    over a writer that may fail: the bytes written and the result.
    printer.go:39-48 [CatchPrinterError]: a printer panic becomes an error,
    other panics go on. *)
Definition consume_json (fuel : nat) (col : option colorizer) (width_limit max_items size : Z)
    (flusher : bool) (fail : option (nat * nat)) (ts : list token) : bytes * consumed :=
  let '(cs, o) := consume_loop col width_limit max_items fuel ts in
  match failing_write fail (printer_run size flusher 0 cs) with
  | (out, true) => (out, CPrinterError)
  | (out, false) =>
      (out, match o with EDone _ _ => CNil | EPanic => CPanic | EFuel => CFuel end)
  end.

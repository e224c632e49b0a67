(** Model of /repo/encoding/jpv/encoder.go. *)
From Coq Require Import List ZArith NArith Bool.
From Verif Require Import Base Tokens PrinterModel JsonEncModel.
Local Open Scope enc_scope.

(** strconv.Itoa on nonnegative numbers. *)
Fixpoint itoa_loop (fuel : nat) (n : N) (acc : bytes) : bytes :=
  match fuel with
  | O => acc
  | S f =>
      let acc' := (48 + n mod 10)%N :: acc in
      if (n <? 10)%N then acc' else itoa_loop f (n / 10)%N acc'
  end.
Definition itoa (n : N) : bytes := itoa_loop (S (N.size_nat n)) n [].

(** internal/format/colorizer.go:28-40 [PrintSuccintScalar]; the slice
    expression of line 33 panics on less than two bytes. *)
Definition print_succinct (c : option colorizer) (s : scalar) : enc unit :=
  let pre := match c with Some co => [PBytes (scalar_color co s)] | None => [] end in
  let post := match c with Some co => [PBytes (co_reset co)] | None => [] end in
  if sc_alnum s then
    match sc_bytes s with
    | _ :: ((_ :: _) as r) => ecalls (pre ++ [PBytes (removelast r)] ++ post)
    | _ => ecalls pre ;* epanic
    end
  else ecalls (pre ++ [PBytes (sc_bytes s)] ++ post).

(** encoder.go:130-142. *)
Definition path_value_separator_bytes : bytes := [32; 61; 32]%N.
Definition path_root_bytes : bytes := [36%N].
Definition empty_object_bytes : bytes := [123; 125]%N.
Definition elided_object_bytes : bytes := [123; 46; 46; 46; 125]%N.
Definition empty_array_bytes : bytes := [91; 93]%N.
Definition elided_array_bytes : bytes := [91; 46; 46; 46; 93]%N.

Section Encoder.
(** encoder.go:15-22 [Encoder]: the Colorizer and AlwaysQuoteKeys.  The field
    path is passed along; it is restored by popKey. *)
Variable col : option colorizer.
Variable quote : bool.

(** encoder.go:109-117: the loop of [writePath]. *)
Fixpoint write_keys (path : list scalar) : enc unit :=
  match path with
  | [] => eret tt
  | key :: r =>
      (if sc_alnum key && negb quote then pb [46%N] ;* print_succinct col key
       else pb [91%N] ;* ecalls (print_scalar col key) ;* pb [93%N]) ;*
      write_keys r
  end.

(** encoder.go:107-119 [writePath]. *)
Definition write_path (path : list scalar) : enc unit :=
  pb path_root_bytes ;* write_keys path ;* pb path_value_separator_bytes.

(** encoder.go:66-76 and 88-98: a collection that is empty or elided. *)
Definition write_collection_end (path : list scalar) (empty el : bool) (e0 e1 : bytes) : enc unit :=
  if el || empty then
    write_path path ;*
    (if negb el then pb e0 else if negb empty then pb elision_bytes else pb e1) ;*
    ecalls [PNewLine]
  else eret tt.

(** encoder.go:44-55 [writeValue], 57-77 [writeObject], 79-99 [writeArray],
    101-105 [writeScalar].  One fuel bounds nesting and loops. *)
Fixpoint jwrite_value (fuel : nat) (path : list scalar) (v : evalue) : enc unit :=
  match fuel with
  | O => efuel
  | S f =>
      match v with
      | EScalar s => write_path path ;* ecalls (print_scalar col s) ;* ecalls [PNewLine]
      | EObject => jobject_items f path 0 false
      | EArray => jarray_items f path 0 false
      end
  end
with jobject_items (fuel : nat) (path : list scalar) (count : N) (el : bool) : enc unit :=
  match fuel with
  | O => efuel
  | S f =>
      let* (nx, el1) := obj_advance in
      let el' := el || el1 in
      match nx with
      | Some (key, v) =>
          jwrite_value f (path ++ [key]) v ;*
          jobject_items f path (count + 1) el'
      | None =>
          write_collection_end path (N.eqb count 0) el' empty_object_bytes elided_object_bytes
      end
  end
with jarray_items (fuel : nat) (path : list scalar) (index : N) (el : bool) : enc unit :=
  match fuel with
  | O => efuel
  | S f =>
      let* (nx, el1) := arr_advance in
      let el' := el || el1 in
      match nx with
      | Some v =>
          jwrite_value f (path ++ [new_key TNum (itoa index)]) v ;*
          jarray_items f path (index + 1) el'
      | None =>
          write_collection_end path (N.eqb index 0) el' empty_array_bytes elided_array_bytes
      end
  end.

(** encoder.go:36-40: the loop of Consume. *)
Fixpoint jconsume_loop (fuel : nat) : enc unit :=
  match fuel with
  | O => efuel
  | S f =>
      let* nx := enext in
      match nx with
      | None => eret tt
      | Some t =>
          let* v := next_value t in
          jwrite_value f [] v ;*
          ecalls [PReset] ;*
          jconsume_loop f
      end
  end.
End Encoder.

(** encoder.go:33-42 [Consume] on a DefaultPrinter over a writer that may
    fail. *)
Definition consume_jpv (fuel : nat) (col : option colorizer) (quote : bool) (size : Z)
    (flusher : bool) (fail : option (nat * nat)) (ts : list token) : bytes * consumed :=
  let '(cs, o) := jconsume_loop col quote fuel ts in
  match failing_write fail (printer_run size flusher 0 cs) with
  | (out, true) => (out, CPrinterError)
  | (out, false) =>
      (out, match o with EDone _ _ => CNil | EPanic => CPanic | EFuel => CFuel end)
  end.

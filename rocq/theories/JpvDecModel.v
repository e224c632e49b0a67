(** Model of /repo/encoding/jpv/decoder.go. *)
From Coq Require Import List NArith Bool.
From Verif Require Import Base Tokens ScalarModel ScannerModel ProgModel JsonDecModel.
Local Open Scope prog_scope.

(** Result of a function of the decoder: a value, an error, or a panic raised
    by the decoder itself (panics of the scanner end the run, see [prun]). *)
Inductive jres (A : Type) : Type := JOk (a : A) | JErr (e : derr) | JPanic.
Arguments JOk {A} a.
Arguments JErr {A} e.
Arguments JPanic {A}.

Definition jlift {A} (r : dres A) : jres A :=
  match r with DOk a => JOk a | DErr e => JErr e end.

Definition jbind {A B} (m : prog (jres A)) (f : A -> prog (jres B)) : prog (jres B) :=
  pbind m (fun r => match r with
                    | JOk a => f a
                    | JErr e => Ret (JErr e)
                    | JPanic => Ret JPanic
                    end).
Definition jbindd {A B} (m : prog (dres A)) (f : A -> prog (jres B)) : prog (jres B) :=
  pbind m (fun r => match r with
                    | DOk a => f a
                    | DErr e => Ret (JErr e)
                    end).
Notation "'jtry!' x := m 'in' f" := (jbind m (fun x => f))
  (at level 200, x pattern, m at level 100, f at level 200) : prog_scope.
Notation "'dtry!' x := m 'in' f" := (jbindd m (fun x => f))
  (at level 200, x pattern, m at level 100, f at level 200) : prog_scope.

(** [return json.UnexpectedByte(...)] after Back. *)
Definition back_unexpected {A} : prog (jres A) :=
  let! _ := op_unit SBack in
  let! r := @unexpected_byte A in Ret (jlift r).

(** decoder.go:222-233: the loop that reads a name after a dot. *)
Fixpoint name_loop (fuel : nat) : prog (jres bytes) :=
  match fuel with
  | O => Stuck
  | S f =>
      dtry! b := op_byte_eof SRead in
      if is_alnum b then name_loop f
      else
        let! _ := op_unit SBack in
        let! t := end_token in Ret (JOk t)
  end.

(** decoder.go:228-230: the key of a name. *)
Definition name_key (t : bytes) : scalar := mkScalar (34%N :: t ++ [34%N]) TStr true true false.

(** decoder.go:171-241 [parsePath]. *)
Fixpoint parse_path (fuel : nat) (path : list scalar) : prog (jres (list scalar)) :=
  match fuel with
  | O => Stuck
  | S f =>
      dtry! b := op_byte_eof SRead in
      if N.eqb b 91 then
        dtry! b := op_byte_eof SPeek in
        if N.eqb b 34 then
          dtry! s := parse_string f in
          dtry! b := op_byte_eof SRead in
          if N.eqb b 93 then parse_path f (path ++ [as_key s]) else Ret (JErr DSyntax)
        else
          let! _ := op_unit SStart in
          dtry! (b, n) := read_digits f 0 in
          if Nat.eqb n 0 then back_unexpected
          else
            let! t := end_token in
            if N.eqb b 93 then parse_path f (path ++ [new_key TNum t]) else Ret (JErr DSyntax)
      else if N.eqb b 46 then
        let! _ := op_unit SStart in
        dtry! b := op_byte_eof SRead in
        if is_alpha b then
          jtry! t := name_loop f in
          parse_path f (path ++ [name_key t])
        else back_unexpected
      else
        let! _ := op_unit SBack in Ret (JOk path)
  end.

(** decoder.go:121-134 [unwindPath]: the tokens it emits.  Keys are numbers and
    strings only (parsePath makes no others), so the panic of line 130 cannot
    happen; the model emits nothing there. *)
Definition close_token (k : scalar) : list token :=
  match sc_type k with TStr => [TEndObj] | TNum => [TEndArr] | _ => [] end.
Definition unwind_path (path : list scalar) (in_collection : bool) : list token :=
  flat_map close_token (rev (if in_collection then tl path else path)).

(** decoder.go:136-153 [followPath]. *)
Definition open_tokens (k : scalar) (in_collection : bool) : list token :=
  match sc_type k with
  | TStr => (if in_collection then [] else [TStartObj]) ++ [TScalar k]
  | TNum => if in_collection then [] else [TStartArr]
  | _ => []
  end.
Definition follow_path (path : list scalar) (in_collection : bool) : list token :=
  match path with
  | [] => []
  | k :: r => open_tokens k in_collection ++ flat_map (fun k => open_tokens k false) r
  end.

(** decoder.go:94-107: the loop of [updatePath].  Line 96 indexes newPath
    before line 97 checks the index. *)
Fixpoint divergence (last new : list scalar) (i : nat) : jres (option nat) :=
  match last with
  | [] => JOk None
  | key :: last' =>
      match new with
      | [] => JPanic
      | nkey :: new' =>
          match scalar_equal key nkey with
          | Ok true => divergence last' new' (S i)
          | Ok false =>
              if stype_eqb (sc_type key) (sc_type nkey) then JOk (Some i) else JErr DSyntax
          | _ => JPanic
          end
      end
  end.

(** decoder.go:88-119 [updatePath]: the tokens emitted. *)
Definition update_path (last new : list scalar) : jres (list token) :=
  match last with
  | [] => JOk (follow_path new false)
  | _ =>
      match divergence last new 0 with
      | JOk (Some i) => JOk (unwind_path (skipn i last) true ++ follow_path (skipn i new) true)
      | JOk None => JErr DSyntax
      | JErr e => JErr e
      | JPanic => JPanic
      end
  end.

Fixpoint emit_all {A} (ts : list token) (k : prog A) : prog A :=
  match ts with
  | [] => k
  | t :: r => Emit t (emit_all r k)
  end.

(** decoder.go:62-86 [parseLine]: the result and the new value of lastPath. *)
Definition parse_line (fuel : nat) (last : list scalar) : prog (jres unit * list scalar) :=
  let! r := expect_byte 36%N in
  match r with
  | DErr e => Ret (JErr e, last)
  | DOk _ =>
      let! r := parse_path fuel [] in
      match r with
      | JErr e => Ret (JErr e, last)
      | JPanic => Ret (JPanic, last)
      | JOk path =>
          let! r := op_byte_eof SSkipRead in
          match r with
          | DErr e => Ret (JErr e, last)
          | DOk b =>
              if N.eqb b 61 then
                match update_path last path with
                | JErr e => Ret (JErr e, last)
                | JPanic => Ret (JPanic, last)
                | JOk ts =>
                    emit_all ts
                      (let! r := parse_value fuel in Ret (jlift r, path))
                end
              else
                let! r := @back_unexpected unit in Ret (r, last)
          end
      end
  end.

(** decoder.go:46-60 [Produce]; the deferred call emits the closing tokens
    however the loop ends. *)
Fixpoint jproduce (fuel : nat) (last : list scalar) : prog (jres unit) :=
  match fuel with
  | O => Stuck
  | S f =>
      let fin x l := emit_all (unwind_path l false) (Ret x) in
      let! r := op_byte SSkipPeek in
      match r with
      | DErr e => fin (JErr e) last
      | DOk b =>
          if N.eqb b EOFb then fin (JOk tt) last
          else
            let! (r, last') := parse_line f last in
            match r with
            | JOk _ => jproduce f last'
            | x => fin x last'
            end
      end
  end.

(** decoder.go:40-60: [NewDecoder(in).Produce(out)]: the tokens sent on [out]
    and the error returned. *)
Definition decode_jpv (fuel : nat) (r : reader) (size : nat) : res (list token * dres unit) :=
  match prun cstep (new_scanner r size) (jproduce fuel []) with
  | Ok (_, ts, JOk _) => Ok (ts, DOk tt)
  | Ok (_, ts, JErr e) => Ok (ts, DErr e)
  | Ok (_, _, JPanic) => Panic
  | Panic => Panic
  | OutOfFuel => OutOfFuel
  end.

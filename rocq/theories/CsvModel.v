(** Model of /repo/encoding/csv/decoder.go.

    The Go standard library's csv.Reader is not modelled: its sequence of
    results (records, then io.EOF or an error) is a parameter. *)
From Coq Require Import List NArith Bool.
From Verif Require Import Base Tokens ScannerModel ProgModel JsonDecModel JpvEncModel.

Definition field := bytes.
Definition record := list field.

(** [a[i] = b], which panics when [i] is out of range. *)
Fixpoint array_set (a : bytes) (i : nat) (b : N) : res bytes :=
  match a, i with
  | [], _ => Panic
  | _ :: r, O => Ok (b :: r)
  | x :: r, S i' => do r' <- array_set r i' b ; Ok (x :: r')
  end.

(** decoder.go:139-145 [simpleCSVFieldToStringScalar]. *)
Definition simple_string_scalar (f : field) : scalar := new_scalar TStr (34%N :: f ++ [34%N]).

(** decoder.go:151-163: the loop of [csvFieldToStringScalar] and the byte
    written after it. *)
Fixpoint escape_loop (f : field) (a : bytes) (i : nat) : res bytes :=
  match f with
  | [] => array_set a i 34%N
  | b :: r =>
      if N.eqb b 92 || N.eqb b 34 then
        do a1 <- array_set a i 92%N ;
        do a2 <- array_set a1 (S i) b ; escape_loop r a2 (S (S i))
      else if N.eqb b 10 then
        do a1 <- array_set a i 92%N ;
        do a2 <- array_set a1 (S i) 110%N ; escape_loop r a2 (S (S i))
      else
        do a1 <- array_set a i b ; escape_loop r a1 (S i)
  end.
(** decoder.go:147-165 [csvFieldToStringScalar]. *)
Definition string_scalar_escaped (f : field) (escape_count : nat) : res scalar :=
  do a <- array_set (repeat 0%N (length f + escape_count + 2)) 0 34%N ;
  do a' <- escape_loop f a 1 ;
  Ok (new_scalar TStr a').

(** decoder.go:108. *)
Definition number_byte (b : N) : bool :=
  is_digit b || N.eqb b 46 || N.eqb b 101 || N.eqb b 69 || N.eqb b 43 || N.eqb b 45.

(** decoder.go:96-110: the loop that classifies the bytes of a field; [i0] says
    that i = 0. *)
Fixpoint classify (f : field) (i0 alnum could_be_number : bool) (escapes : nat) : bool * bool * nat :=
  match f with
  | [] => (alnum, could_be_number, escapes)
  | b :: r =>
      let esc := N.eqb b 34 || N.eqb b 10 || N.eqb b 92 in
      let alnum' := if esc then alnum else if i0 then is_alpha b else alnum && is_alnum b in
      classify r false alnum' (could_be_number && number_byte b) (if esc then S escapes else escapes)
  end.

(** decoder.go:115-121: ParseNumber on a strings.Reader, through a scanner with
    a buffer of [size] bytes (8192 in the code); [reader.Len()] is the number of
    bytes that the scanner has not fetched. *)
Definition field_number (size : nat) (f : field) : res (option scalar) :=
  match prun cstep (new_scanner (mkReader [f] RdEOF false) size) (parse_number (S (length f))) with
  | Ok (c, _, DOk s) =>
      Ok (if Nat.eqb (length (concat (rd_chunks (c_rd c)))) 0 then Some s else None)
  | Ok (_, _, DErr _) => Ok None
  | Panic => Panic
  | OutOfFuel => OutOfFuel
  end.

(** decoder.go:84-137 [fieldToScalar]. *)
Definition field_to_scalar (size : nat) (f : field) (header : bool) : res scalar :=
  let general :=
    let '(alnum, number, escapes) := classify f true true (negb header) 0 in
    match escapes with
    | S _ => string_scalar_escaped f escapes
    | O =>
        let plain := mkScalar (sc_bytes (simple_string_scalar f)) TStr header alnum false in
        if number then
          do n <- field_number size f ;
          match n with Some s => Ok s | None => Ok plain end
        else Ok plain
    end in
  if header then general
  else if bytes_eqb f [] then Ok null_scalar
  else if bytes_eqb f true_bytes then Ok true_scalar
  else if bytes_eqb f false_bytes then Ok false_scalar
  else general.

(** decoder.go:51-55 [SetFieldNames]. *)
Fixpoint set_field_names (size : nat) (names : list scalar) (r : record) : res (list scalar) :=
  match r with
  | [] => Ok names
  | f :: r' => do s <- field_to_scalar size f true ; set_field_names size (names ++ [s]) r'
  end.

(** decoder.go:77: [fmt.Sprintf("field_%d", j+1)]. *)
Definition default_name (j : nat) : field := [102; 105; 101; 108; 100; 95]%N ++ itoa (N.of_nat (S j)).

(** decoder.go:76-78: the loop of [getFieldName], [n] turns. *)
Fixpoint extend_names (size : nat) (names : list scalar) (n : nat) : res (list scalar) :=
  match n with
  | O => Ok names
  | S n' =>
      do s <- field_to_scalar size (default_name (length names)) true ;
      extend_names size (names ++ [s]) n'
  end.

(** decoder.go:74-81 [getFieldName]: the name and the new fieldNames. *)
Definition get_field_name (size : nat) (names : list scalar) (i : nat) : res (scalar * list scalar) :=
  do names' <- extend_names size names (S i - length names) ;
  match nth_error names' i with
  | Some s => Ok (s, names')
  | None => Panic
  end.

(** decoder.go:60-63: the members of an object. *)
Fixpoint object_fields (size : nat) (names : list scalar) (i : nat) (r : record) : res (list token * list scalar) :=
  match r with
  | [] => Ok ([], names)
  | f :: r' =>
      do kn <- get_field_name size names i ;
      do s <- field_to_scalar size f false ;
      do tn <- object_fields size (snd kn) (S i) r' ;
      Ok (TScalar (fst kn) :: TScalar s :: fst tn, snd tn)
  end.

(** decoder.go:67-69: the items of an array. *)
Fixpoint array_fields (size : nat) (r : record) : res (list token) :=
  match r with
  | [] => Ok []
  | f :: r' =>
      do s <- field_to_scalar size f false ;
      do ts <- array_fields size r' ;
      Ok (TScalar s :: ts)
  end.

(** decoder.go:57-72 [produceRecord]. *)
Definition produce_record (size : nat) (objects : bool) (names : list scalar) (r : record) : res (list token * list scalar) :=
  if objects then
    do tn <- object_fields size names 0 r ;
    Ok ([TStartObj] ++ fst tn ++ [TEndObj], snd tn)
  else
    do ts <- array_fields size r ;
    Ok ([TStartArr] ++ ts ++ [TEndArr], names).

(** decoder.go:29-48: the loop of [Produce] on the remaining records. *)
Fixpoint produce_records (size : nat) (objects header : bool) (names : list scalar) (count : nat)
    (rs : list record) : res (list token) :=
  match rs with
  | [] => Ok []
  | r :: rs' =>
      if Nat.ltb 0 count || negb header then
        do tn <- produce_record size objects names r ;
        do ts <- produce_records size objects header (snd tn) (S count) rs' ;
        Ok (fst tn ++ ts)
      else
        do names' <- set_field_names size names r ;
        produce_records size objects header names' (S count) rs'
  end.

(** decoder.go:29-48 [Produce]: [failed] says that the csv.Reader ends with an
    error rather than io.EOF; [named] are the names given to SetFieldNames. *)
Definition decode_csv (size : nat) (objects header : bool) (named : record) (rs : list record)
    (failed : bool) : res (list token * dres unit) :=
  do names <- set_field_names size [] named ;
  do ts <- produce_records size objects header names 0 rs ;
  Ok (ts, if failed then DErr DIo else DOk tt).

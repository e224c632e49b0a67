(** Specification of the text that jp prints as JPV, character by character. *)
From Coq Require Import List ZArith NArith Bool.
From Verif Require Import Base Tokens JsonSpec EncSpec ScalarSpec PrinterModel JpvSpec.
Local Open Scope N_scope.

(** The colour of a scalar: that of the keys, or the one of its type. *)
Definition colour (co : colorizer) (s : scalar) : bytes :=
  if sc_key s then co_key co
  else match sc_type s with
       | TNull => co_null co
       | TBool => co_bool co
       | TNum => co_num co
       | TStr => co_str co
       end.

(** [t] in the colour of [s], if there are colours. *)
Definition in_colour (c : option colorizer) (s : scalar) (t : bytes) : bytes :=
  match c with
  | None => t
  | Some co => colour co s ++ t ++ co_reset co
  end.
(** [t] in the colour of the keys. *)
Definition in_key_colour (c : option colorizer) (t : bytes) : bytes :=
  match c with
  | None => t
  | Some co => co_key co ++ t ++ co_reset co
  end.

(** A path leads through members and items. *)
Inductive pstep :=
| PMember (k : scalar)
| PItem (i : N).

(** [.name], without the quotes, for the keys that are flagged as alphanumeric
    unless all keys are quoted; ["name"] in brackets for the other ones; the
    index, in decimal, in brackets. *)
Inductive pstep_text (c : option colorizer) (quote : bool) : pstep -> bytes -> Prop :=
| pt_name : forall k, sc_alnum k = true -> quote = false ->
    pstep_text c quote (PMember k) (46 :: in_colour c k (contents (sc_bytes k)))
| pt_quoted : forall k, (sc_alnum k = false \/ quote = true) ->
    pstep_text c quote (PMember k) (91 :: in_colour c k (sc_bytes k) ++ [93])
| pt_item : forall i ds, int_text ds -> nat_digits 0 ds = Z.of_N i ->
    pstep_text c quote (PItem i) (91 :: in_key_colour c ds ++ [93]).

Inductive ppath_text (c : option colorizer) (quote : bool) : list pstep -> bytes -> Prop :=
| pp_root : ppath_text c quote [] []
| pp_step : forall s p t r, pstep_text c quote s t -> ppath_text c quote p r ->
    ppath_text c quote (s :: p) (t ++ r).

(** A line: a path and the text on the right of the equals sign. *)
Definition pline := (list pstep * bytes)%type.
Definition under (s : pstep) (l : pline) : pline := (s :: fst l, snd l).

(** The line of a collection itself: empty collections have one and so have
    collections with parts left out; the other ones have none. *)
Definition own_line (left right : bytes) (empty elided : bool) : list pline :=
  match empty, elided with
  | true, false => [([], left ++ right)]
  | true, true => [([], left ++ [46; 46; 46] ++ right)]
  | false, true => [([], [46; 46; 46])]
  | false, false => []
  end.

(** The lines of a value, in order. *)
Fixpoint value_lines (c : option colorizer) (v : jval) : list pline :=
  match v with
  | JScalar s => [([], in_colour c s (sc_bytes s))]
  | JArr l e =>
      imap (fun i x => map (under (PItem i)) (value_lines c x)) 0 l
      ++ own_line [91] [93] (match l with [] => true | _ => false end) e
  | JObj l e =>
      flat_map (fun m => map (under (PMember (fst m))) (value_lines c (snd m))) l
      ++ own_line [123] [125] (match l with [] => true | _ => false end) e
  end.

Definition pline_text (c : option colorizer) (quote : bool) (l : pline) (t : bytes) : Prop :=
  exists p, ppath_text c quote (fst l) p /\ t = 36 :: p ++ [32; 61; 32] ++ snd l.

(** The text of a value: its lines, each ended by [e], then a newline. *)
Definition value_text (c : option colorizer) (quote : bool) (e : bytes) (v : jval) (t : bytes) : Prop :=
  exists lines, Forall2 (pline_text c quote) (value_lines c v) lines /\
    t = flat_map (fun l => l ++ e) lines ++ [10].

(** The keys that are printed without their quotes have quotes. *)
Inductive quotes_to_drop (quote : bool) : jval -> Prop :=
| qd_scalar : forall s, quotes_to_drop quote (JScalar s)
| qd_arr : forall l e, Forall (quotes_to_drop quote) l -> quotes_to_drop quote (JArr l e)
| qd_obj : forall l e,
    Forall (fun m => (sc_alnum (fst m) = true -> quote = false -> (2 <= length (sc_bytes (fst m)))%nat) /\
                     quotes_to_drop quote (snd m)) l ->
    quotes_to_drop quote (JObj l e).

(** Specification: JSON values, their token streams, and the RFC 8259 grammar. *)
From Coq Require Import List NArith Bool.
From Verif Require Import Base Tokens.
Local Open Scope N_scope.

(** A JSON value as it appears in a token stream.  A collection can be elided:
    its (remaining) contents have been removed. *)
Inductive jval :=
| JScalar (s : scalar)
| JArr (items : list jval) (elided : bool)
| JObj (members : list (scalar * jval)) (elided : bool).

Definition elision (e : bool) : list token := if e then [TElision] else [].

(** The token stream of a value. *)
Fixpoint toks (v : jval) : list token :=
  match v with
  | JScalar s => [TScalar s]
  | JArr l e => TStartArr :: flat_map toks l ++ elision e ++ [TEndArr]
  | JObj l e =>
      TStartObj :: flat_map (fun m => TScalar (fst m) :: toks (snd m)) l
        ++ elision e ++ [TEndObj]
  end.

(** The token stream of a sequence of values. *)
Definition stream (vs : list jval) : list token := flat_map toks vs.

(** RFC 8259 section 2: white space. *)
Definition ws_byte (b : N) : Prop := b = 32 \/ b = 9 \/ b = 10 \/ b = 13.
Definition ws (l : bytes) : Prop := Forall ws_byte l.

(** RFC 8259 section 6: numbers. *)
Definition digit (b : N) : Prop := 48 <= b <= 57.
Definition digits1 (l : bytes) : Prop := l <> [] /\ Forall digit l.
Definition int_text (l : bytes) : Prop :=
  l = [48] \/ exists d ds, l = d :: ds /\ 49 <= d <= 57 /\ Forall digit ds.
Definition frac_text (l : bytes) : Prop :=
  l = [] \/ exists ds, l = 46 :: ds /\ digits1 ds.
Definition exp_text (l : bytes) : Prop :=
  l = [] \/ exists e sg ds, l = e :: sg ++ ds /\ (e = 101 \/ e = 69) /\
              (sg = [] \/ sg = [43] \/ sg = [45]) /\ digits1 ds.
Definition number_text (l : bytes) : Prop :=
  exists sg i f e, l = sg ++ i ++ f ++ e /\ (sg = [] \/ sg = [45]) /\
    int_text i /\ frac_text f /\ exp_text e.

(** RFC 8259 section 7: strings.  Bytes from 0x80 on are not constrained,
    except that 0xFF, which never occurs in UTF-8, is excluded.  With
    [strict = false] a backslash may be followed by any byte but u (and 0xFF). *)
Definition plain_byte (b : N) : Prop := 32 <= b /\ b <> 34 /\ b <> 92 /\ b <> 255.
Definition hex (b : N) : Prop := 48 <= b <= 57 \/ 97 <= b <= 102 \/ 65 <= b <= 70.
Definition escape_letter (b : N) : Prop :=
  In b [34; 92; 47; 98; 102; 110; 114; 116].

Inductive chars (strict : bool) : bytes -> Prop :=
| ch_nil : chars strict []
| ch_plain : forall b l, plain_byte b -> chars strict l -> chars strict (b :: l)
| ch_esc : forall b l, escape_letter b -> chars strict l -> chars strict (92 :: b :: l)
| ch_u : forall a b c d l, hex a -> hex b -> hex c -> hex d -> chars strict l ->
    chars strict (92 :: 117 :: a :: b :: c :: d :: l)
| ch_any : forall b l, strict = false -> b <> 117 -> b <> 255 -> chars strict l ->
    chars strict (92 :: b :: l).

Definition string_text (strict : bool) (l : bytes) : Prop :=
  exists c, l = 34 :: c ++ [34] /\ chars strict c.

(** The characters of a string literal that are not part of an escape. *)
Fixpoint unescaped_chars (c : bytes) : bytes :=
  match c with
  | [] => []
  | b :: r =>
      if b =? 92 then
        match r with
        | [] => []
        | x :: r' =>
            if x =? 117 then
              match r' with
              | _ :: _ :: _ :: _ :: r'' => unescaped_chars r''
              | _ => []
              end
            else unescaped_chars r'
        end
      else b :: unescaped_chars r
  end.

Definition has_escape (c : bytes) : bool := existsb (N.eqb 92) c.

Definition alpha_byte (b : N) : bool :=
  (65 <=? b) && (b <=? 90) || (97 <=? b) && (b <=? 122) || (b =? 95).
Definition alnum_byte (b : N) : bool := alpha_byte b || (48 <=? b) && (b <=? 57).

(** [A-Za-z_][A-Za-z0-9_]* *)
Definition identifier (c : bytes) : bool :=
  match c with [] => false | b :: r => alpha_byte b && forallb alnum_byte r end.

(** The flags the decoder gives to a string with contents [c] (see C12: the
    alnum flag ignores escapes and is set on the empty string). *)
Definition decoded_alnum (c : bytes) : bool :=
  match unescaped_chars c with [] => true | u => identifier u end.

Definition string_scalar (c : bytes) : scalar :=
  mkScalar (34 :: c ++ [34]) TStr false (decoded_alnum c) (negb (has_escape c)).
Definition key_scalar (c : bytes) : scalar :=
  mkScalar (34 :: c ++ [34]) TStr true (decoded_alnum c) (negb (has_escape c)).

(** RFC 8259 sections 3-5: [vtext strict v t] says that [t] is a text of [v]
    (without surrounding white space). *)
Inductive vtext (strict : bool) : jval -> bytes -> Prop :=
| vt_null : vtext strict (JScalar null_scalar) null_bytes
| vt_true : vtext strict (JScalar true_scalar) true_bytes
| vt_false : vtext strict (JScalar false_scalar) false_bytes
| vt_num : forall l, number_text l -> vtext strict (JScalar (new_scalar TNum l)) l
| vt_str : forall c, chars strict c ->
    vtext strict (JScalar (string_scalar c)) (34 :: c ++ [34])
| vt_arr0 : forall w, ws w -> vtext strict (JArr [] false) (91 :: w ++ [93])
| vt_arr : forall l t, elems strict l t -> vtext strict (JArr l false) (91 :: t ++ [93])
| vt_obj0 : forall w, ws w -> vtext strict (JObj [] false) (123 :: w ++ [125])
| vt_obj : forall l t, members strict l t -> vtext strict (JObj l false) (123 :: t ++ [125])
with elems (strict : bool) : list jval -> bytes -> Prop :=
| el_one : forall w1 v t w2, ws w1 -> vtext strict v t -> ws w2 ->
    elems strict [v] (w1 ++ t ++ w2)
| el_cons : forall w1 v t w2 l r, ws w1 -> vtext strict v t -> ws w2 ->
    elems strict l r -> elems strict (v :: l) (w1 ++ t ++ w2 ++ 44 :: r)
with members (strict : bool) : list (scalar * jval) -> bytes -> Prop :=
| me_one : forall w1 c w2 w3 v t w4, ws w1 -> chars strict c -> ws w2 -> ws w3 ->
    vtext strict v t -> ws w4 ->
    members strict [(key_scalar c, v)]
      (w1 ++ (34 :: c ++ [34]) ++ w2 ++ 58 :: w3 ++ t ++ w4)
| me_cons : forall w1 c w2 w3 v t w4 l r, ws w1 -> chars strict c -> ws w2 -> ws w3 ->
    vtext strict v t -> ws w4 -> members strict l r ->
    members strict ((key_scalar c, v) :: l)
      (w1 ++ (34 :: c ++ [34]) ++ w2 ++ 58 :: w3 ++ t ++ w4 ++ 44 :: r).

Scheme vtext_mind := Minimality for vtext Sort Prop
  with elems_mind := Minimality for elems Sort Prop
  with members_mind := Minimality for members Sort Prop.
Combined Scheme vtext_elems_members_ind from vtext_mind, elems_mind, members_mind.

(** A text of a sequence of values; [sep t r] constrains what may follow the
    text [t] of a value. *)
Inductive stext (strict : bool) (sep : bytes -> bytes -> Prop) : list jval -> bytes -> Prop :=
| st_nil : forall w, ws w -> stext strict sep [] w
| st_cons : forall w v t vs r, ws w -> vtext strict v t -> sep t r ->
    stext strict sep vs r -> stext strict sep (v :: vs) (w ++ t ++ r).

(** Values are separated by white space (or end the text). *)
Definition ws_separated (t r : bytes) : Prop :=
  r = [] \/ exists b r', r = b :: r' /\ ws_byte b.

(** No separation required. *)
Definition juxtaposed (t r : bytes) : Prop := True.

(** Weaker: a number is not directly followed by a byte that could continue
    it. *)
Definition ends_in_digit (t : bytes) : Prop := exists t' d, t = t' ++ [d] /\ digit d.
Definition continues_number (b : N) : Prop := digit b \/ b = 46 \/ b = 101 \/ b = 69.
Definition delimited (t r : bytes) : Prop :=
  ends_in_digit t -> forall b r', r = b :: r' -> ~ continues_number b.

(** The scalars a decoder may produce, with their flags. *)
Definition literal (strict : bool) (s : scalar) : Prop :=
  In s [null_scalar; true_scalar; false_scalar] \/
  (exists l, number_text l /\ s = new_scalar TNum l) \/
  (exists c, chars strict c /\ (s = string_scalar c \/ s = key_scalar c)).

(** [spells ts p]: the bytes [p] are those of the tokens [ts], in order, each
    scalar with its own bytes, with only white space, commas and colons
    between them. *)
Definition gap_byte (b : N) : Prop := ws_byte b \/ b = 44 \/ b = 58.
Inductive spells (strict : bool) : list token -> bytes -> Prop :=
| sp_nil : spells strict [] []
| sp_gap : forall b ts p, gap_byte b -> spells strict ts p -> spells strict ts (b :: p)
| sp_lit : forall s ts p, literal strict s -> spells strict ts p ->
    spells strict (TScalar s :: ts) (sc_bytes s ++ p)
| sp_sarr : forall ts p, spells strict ts p -> spells strict (TStartArr :: ts) (91 :: p)
| sp_earr : forall ts p, spells strict ts p -> spells strict (TEndArr :: ts) (93 :: p)
| sp_sobj : forall ts p, spells strict ts p -> spells strict (TStartObj :: ts) (123 :: p)
| sp_eobj : forall ts p, spells strict ts p -> spells strict (TEndObj :: ts) (125 :: p).

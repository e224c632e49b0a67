(** Specification: beginnings of JSON texts, and the tokens that are complete in
    them. *)
From Coq Require Import List NArith.
From Verif Require Import Base Tokens JsonSpec.

(** Items or members, each with the comma after it. *)
Inductive items : list jval -> bytes -> Prop :=
| it_nil : items [] []
| it_cons : forall w1 v t w2 l r, ws w1 -> vtext true v t -> ws w2 -> items l r ->
    items (v :: l) (w1 ++ t ++ w2 ++ 44%N :: r).
Inductive fields : list (scalar * jval) -> bytes -> Prop :=
| fi_nil : fields [] []
| fi_cons : forall w1 c w2 w3 v t w4 l r, ws w1 -> chars true c -> ws w2 -> ws w3 -> vtext true v t -> ws w4 -> fields l r ->
    fields ((key_scalar c, v) :: l) (w1 ++ (34%N :: c ++ [34%N]) ++ w2 ++ 58%N :: w3 ++ t ++ w4 ++ 44%N :: r).

Definition member_toks (m : scalar * jval) : list token := TScalar (fst m) :: toks (snd m).

(** [opened ts u]: [u] begins an array or an object and stops before its end; the
    tokens that are complete in it are [ts]. *)
Inductive opened : list token -> bytes -> Prop :=
| op_array : forall w l t ts u, ws w -> items l t -> begun ts u -> opened (TStartArr :: flat_map toks l ++ ts) (w ++ 91%N :: t ++ u)
| op_object : forall w l t ts u, ws w -> fields l t -> begun_member ts u -> opened (TStartObj :: flat_map member_toks l ++ ts) (w ++ 123%N :: t ++ u)
(** What is there of an item: nothing, all of it, or a beginning.  A number is not
    complete before the byte after it is there. *)
with begun : list token -> bytes -> Prop :=
| be_none : forall w, ws w -> begun [] w
| be_whole : forall w v t w2, ws w -> vtext true v t -> ws w2 -> (ends_in_digit t -> w2 <> []) -> begun (toks v) (w ++ t ++ w2)
| be_opened : forall ts u, opened ts u -> begun ts u
with begun_member : list token -> bytes -> Prop :=
| bm_none : forall w, ws w -> begun_member [] w
| bm_key : forall w c w2, ws w -> chars true c -> ws w2 -> begun_member [TScalar (key_scalar c)] (w ++ (34%N :: c ++ [34%N]) ++ w2)
| bm_value : forall w c w2 ts u, ws w -> chars true c -> ws w2 -> begun ts u ->
    begun_member (TScalar (key_scalar c) :: ts) (w ++ (34%N :: c ++ [34%N]) ++ w2 ++ 58%N :: u).

(** [received ts t]: [t] begins a text of values; the tokens that are complete in
    it are [ts]. *)
Inductive received : list token -> bytes -> Prop :=
| re_none : forall w, ws w -> received [] w
| re_opened : forall ts t, opened ts t -> received ts t
| re_value : forall w v t ts r, ws w -> vtext true v t -> (ends_in_digit t -> exists b r', r = b :: r' /\ ~ continues_number b) ->
    received ts r -> received (toks v ++ ts) (w ++ t ++ r).

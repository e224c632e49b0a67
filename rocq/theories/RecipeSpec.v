(** Specification: the recipes of 'jp -help cookbook' (cmd/jp/main.go:723-890), as
    what they make of one value.  A recipe is a query of the form
    $.name.name...END, where END is nothing or one of [:N], [-N:], [N], [*],
    [?TEST], ..name and ..[?TEST]. *)
From Coq Require Import String List ZArith NArith Bool.
From Verif Require Import Base Tokens JsonSpec ScalarSpec GoLiteral CursorModel PathSpec GrammarModel GrammarSpec QuerySyntax CliModel PathTame.
Import ListNotations.

(** [sifted P l m]: [m] are the elements of [l] that have the property [P], in order. *)
Inductive sifted {A} (P : A -> Prop) : list A -> list A -> Prop :=
| sf_nil : sifted P [] []
| sf_yes : forall a l m, P a -> sifted P l m -> sifted P (a :: l) (a :: m)
| sf_no : forall a l m, ~ P a -> sifted P l m -> sifted P (a :: l) m.

(** The items of an array; the items of an array or the values of the members of
    an object; the values of the members with this name. *)
Definition items (x : jval) : list jval := match x with JArr l _ => l | _ => [] end.
Definition contents (x : jval) : list jval :=
  match x with JScalar _ => [] | JArr l _ => l | JObj l _ => map snd l end.
Definition member (name : bytes) (x : jval) (ys : list jval) : Prop :=
  match x with
  | JObj l _ => exists ms, sifted (fun m => spells (fst m) name) l ms /\ ys = map snd ms
  | _ => ys = []
  end.
(** The value of the member with this name: the first, should there be more. *)
Definition has_member (name : bytes) (x y : jval) : Prop := exists ys, member name x (y :: ys).
(** What is found at .name.name... *)
Fixpoint under (names : list bytes) (x : jval) (ys : list jval) : Prop :=
  match names with
  | [] => ys = [x]
  | name :: rest => exists zs lists, member name x zs /\ Forall2 (under rest) zs lists /\ ys = concat lists
  end.
Definition dotted (names : list bytes) : bytes := flat_map (fun name => text "." ++ name) names.

(** What is below a value and has the property [P], in the order of the text.  [P]
    is about the name of a member (nothing for items) and the value. *)
Definition entries (x : jval) : list (option scalar * jval) :=
  match x with
  | JScalar _ => []
  | JArr l _ => map (fun y => (None, y)) l
  | JObj l _ => map (fun m => (Some (fst m), snd m)) l
  end.
Inductive below (P : option scalar -> jval -> Prop) : jval -> list jval -> Prop :=
| below_value : forall x l, below_all P (entries x) l -> below P x l
with below_all (P : option scalar -> jval -> Prop) : list (option scalar * jval) -> list jval -> Prop :=
| below_nil : below_all P [] []
| below_yes : forall k y r a b, P k y -> below P y a -> below_all P r b -> below_all P ((k, y) :: r) (y :: a ++ b)
| below_no : forall k y r a b, ~ P k y -> below P y a -> below_all P r b -> below_all P ((k, y) :: r) (a ++ b).
Definition called (name : bytes) (k : option scalar) (y : jval) : Prop := exists s, k = Some s /\ spells s name.

(** The number [y], as a float64. *)
Definition float_value (y : jval) (f : GoLiteral.float) : Prop :=
  exists s n m e, y = JScalar s /\ sc_type s = TNum /\ num_value (sc_bytes s) n m e /\ float_of_decimal (mkDec n m e) = Some f.

Section Recipes.
  (** strconv.FormatFloat, with which the literals of queries are written. *)
  Variable float_text : GoLiteral.float -> bytes.
  Definition written_back (f : GoLiteral.float) : Prop :=
    exists n m e, num_value (float_text f) n m e /\ float_of_decimal (mkDec n m e) = Some f.

  (** [test t P]: the text [t] asks for the property [P]. *)
  Inductive test : bytes -> (jval -> Prop) -> Prop :=
  | t_has : forall name, member_name name ->
      test (text "@." ++ name) (fun z => exists y, has_member name z y)
  | t_bool : forall name (b : bool) t, member_name name -> t = text (if b then "true" else "false") ->
      test (text "@." ++ name ++ text " == " ++ t)
        (fun z => exists s, has_member name z (JScalar s) /\ sc_type s = TBool /\ sc_bytes s = t)
  | t_string : forall name c u, member_name name -> denotes c u ->
      test (text "@." ++ name ++ text " == """ ++ c ++ text """")
        (fun z => exists s, has_member name z (JScalar s) /\ characters s u)
  | t_greater : forall name t n m e g, member_name name ->
      number_text t -> num_value t n m e -> float_of_decimal (mkDec n m e) = Some g -> written_back g ->
      test (text "@." ++ name ++ text " > " ++ t)
        (fun z => exists y f, has_member name z y /\ float_value y f /\ float_less g f)
  | t_less : forall name t n m e g, member_name name ->
      number_text t -> num_value t n m e -> float_of_decimal (mkDec n m e) = Some g -> written_back g ->
      test (text "@." ++ name ++ text " < " ++ t)
        (fun z => exists y f, has_member name z y /\ float_value y f /\ float_less f g).

  Variable strict : bool.
  (** The end of a recipe, and what it makes of a value. *)
  Inductive ending : bytes -> (jval -> list jval -> Prop) -> Prop :=
  | e_nothing : ending [] (fun y l => l = [y])
  | e_head : forall t n, int_value t (Z.of_nat n) -> in_range (Z.of_nat n) ->
      ending (text "[:" ++ t ++ text "]") (fun y l => l = firstn n (items y))
  | e_tail : forall t n, int_value t (- Z.of_nat n) -> in_range (- Z.of_nat n) -> 0 < n ->
      ending (text "[" ++ t ++ text ":]") (fun y l => l = skipn (length (items y) - n) (items y))
  | e_item : forall t n, int_value t (Z.of_nat n) -> in_range (Z.of_nat n) ->
      ending (text "[" ++ t ++ text "]") (fun y l => l = firstn 1 (skipn n (items y)))
  | e_all : ending (text "[*]") (fun y l => l = contents y)
  | e_filter : forall t P, test t P ->
      ending (text "[?" ++ t ++ text "]") (fun y l => sifted P (contents y) l)
  (* with -strict the order is another *)
  | e_below : forall name, member_name name -> strict = false ->
      ending (text ".." ++ name) (fun y l => below (called name) y l)
  | e_below_filter : forall t P, test t P -> strict = false ->
      ending (text "..[?" ++ t ++ text "]") (fun y l => below (fun _ => P) y l).
  (** [recipe a R]: the argument [a] replaces the value [x] by the values [l] with
      [R x l]. *)
  Inductive recipe : bytes -> (jval -> list jval -> Prop) -> Prop :=
  | recipe_of : forall names e R, Forall member_name names -> ending e R ->
      recipe (text "$" ++ dotted names ++ e)
        (fun x l => exists ys lists, under names x ys /\ Forall2 R ys lists /\ l = concat lists).

  (** Recipes, split and join, one after the other.  [clean] values have different
      names in each object, numbers in the range of float64 and less than 2^53
      tokens. *)
  Inductive follows : list bytes -> list jval -> list jval -> Prop :=
  | fw_nil : forall vs, follows [] vs vs
  | fw_split : forall args vs ws, (Z.of_nat (length (stream vs)) < maxint)%Z ->
      follows args (flat_map (fun x => match x with JArr l _ => l | _ => [x] end) vs) ws -> follows (text "split" :: args) vs ws
  | fw_join : forall args vs ws, (Z.of_nat (length (stream vs)) < maxint)%Z ->
      follows args [JArr vs false] ws -> follows (text "join" :: args) vs ws
  | fw_recipe : forall a R args vs lists ws, (Z.of_nat (length (stream vs)) < maxint)%Z -> Forall clean vs ->
      recipe a R -> Forall2 R vs lists -> follows args (concat lists) ws -> follows (a :: args) vs ws.
End Recipes.

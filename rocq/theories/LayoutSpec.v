(** Specification of the layout of JSON output: line breaks, indentation, and what
    is written on one line. *)
From Coq Require Import List ZArith NArith Bool.
From Verif Require Import Base Tokens JsonSpec EncSpec PrinterModel.

(** A scalar in its colours: that of keys or that of its type. *)
Definition painted (col : option colorizer) (s : scalar) : bytes :=
  match col with
  | None => sc_bytes s
  | Some c => (if sc_key s then co_key c
               else match sc_type s with TNull => co_null c | TBool => co_bool c | TNum => co_num c | TStr => co_str c end)
              ++ sc_bytes s ++ co_reset c
  end.

Section Layout.
Variable paint : scalar -> bytes.   (* a scalar with its colour codes, if any *)
Variable width : Z.                 (* -json-compact-width *)
Variable most : Z.                  (* the greatest number of members of an object on one line *)
Variable indent : Z.                (* spaces for each level; negative: no line breaks *)

(** A line break at depth [d]. *)
Definition break (d : Z) : bytes := if (indent <? 0)%Z then [] else 10%N :: repeat 32%N (Z.to_nat (indent * d)).

Fixpoint join (sep : bytes) (l : list bytes) : bytes :=
  match l with
  | [] => []
  | [t] => t
  | t :: r => t ++ sep ++ join sep r
  end.
Definition comma_space : bytes := [44; 32]%N.
Definition colon_space : bytes := [58; 32]%N.

(** The width of a scalar; collections have none. *)
Definition scalar_width (v : jval) : option Z :=
  match v with JScalar s => Some (Z.of_nat (length (sc_bytes s))) | _ => None end.
(** The width of some items on one line, with a comma and a space between them,
    without brackets; [None] if there is a collection among them. *)
Fixpoint line_width (ws : list (option Z)) : option Z :=
  match ws with
  | [] => Some (-2)%Z
  | Some n :: r => match line_width r with Some m => Some (n + 2 + m)%Z | None => None end
  | None :: _ => None
  end.
Definition fits (ws : list (option Z)) : bool :=
  match line_width ws with Some n => (n <=? width)%Z | None => false end.

(** Where the lines of a broken array begin and end.  Items that fit are put on
    the same line; a collection is on a line of its own, and so are all items from
    the first scalar on that is itself too wide. *)
Fixpoint rows (line : list bytes) (w : Z) (items : list (option Z * bytes)) : list (list bytes) :=
  let closed := match line with [] => [] | _ => [line] end in
  match items with
  | [] => closed
  | (None, t) :: r => closed ++ [t] :: rows [] 0 r
  | (Some n, t) :: r =>
      if (width <? n)%Z then closed ++ map (fun x => [snd x]) items
      else match line with
           | [] => rows [t] n r
           | _ => if (w + 2 + n <=? width)%Z then rows (line ++ [t]) (w + 2 + n) r else line :: rows [t] n r
           end
  end.
Definition array_rows (items : list (option Z * bytes)) : list (list bytes) :=
  if (0 <? width)%Z then rows [] 0 items else map (fun x => [snd x]) items.

(** The lines of a broken collection between its brackets. *)
Definition broken (d : Z) (lines : list bytes) (elided : bool) : bytes :=
  break (d + 1) ++ join (44%N :: break (d + 1)) lines ++ (if elided then break (d + 1) ++ [46; 46; 46]%N else []) ++ break d.
Definition empty {A} (l : list A) : bool := match l with [] => true | _ => false end.

Definition array_inline (l : list jval) : bool := empty l || ((0 <? width)%Z && fits (map scalar_width l)).
(** The width of a key, a colon, a space and a scalar. *)
Definition member_width (m : scalar * jval) : option Z :=
  match scalar_width (snd m) with Some n => Some (Z.of_nat (length (sc_bytes (fst m))) + 2 + n)%Z | None => None end.
Definition object_inline (l : list (scalar * jval)) : bool :=
  empty l || ((Z.of_nat (length l) <=? most)%Z && fits (map member_width l)).

Fixpoint layout (d : Z) (v : jval) : bytes :=
  match v with
  | JScalar s => paint s
  | JArr l e =>
      91%N :: (if array_inline l then join comma_space (map (layout d) l) ++ dots e
               else broken d (map (join comma_space) (array_rows (map (fun x => (scalar_width x, layout (d + 1) x)) l))) e) ++ [93%N]
  | JObj l e =>
      123%N :: (if object_inline l then join comma_space (map (fun m => paint (fst m) ++ colon_space ++ layout d (snd m)) l) ++ dots e
                else broken d (map (fun m => paint (fst m) ++ colon_space ++ layout (d + 1) (snd m)) l) e) ++ [125%N]
  end.
End Layout.

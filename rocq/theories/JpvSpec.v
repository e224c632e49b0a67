(** Specification of the JPV format: one line per leaf of a JSON value. *)
From Coq Require Import List ZArith NArith Bool.
From Verif Require Import Base Tokens JsonSpec EncSpec ScalarSpec.
Local Open Scope N_scope.

(** A step of a path: [.name], ["quoted"] in brackets or an index in brackets. *)
Inductive jstep :=
| SName (c : bytes)
| SQuoted (c : bytes)
| SIndex (n : N).

Inductive step_text : jstep -> bytes -> Prop :=
| tx_name : forall c, identifier c = true -> step_text (SName c) (46 :: c)
| tx_quoted : forall c, chars false c -> step_text (SQuoted c) (91 :: 34 :: c ++ [34; 93])
| tx_index : forall n ds, int_text ds -> nat_digits 0 ds = Z.of_N n ->
    step_text (SIndex n) (91 :: ds ++ [93]).

Inductive path_text : list jstep -> bytes -> Prop :=
| tx_root : path_text [] []
| tx_step : forall s p t r, step_text s t -> path_text p r -> path_text (s :: p) (t ++ r).

(** The step that leads to the member with key [k]; names that are flagged as
    alphanumeric are not quoted, unless [quote]. *)
Definition key_step (quote : bool) (k : scalar) : jstep :=
  let c := contents (sc_bytes k) in
  if sc_alnum k && negb quote then SName c else SQuoted c.

(** [imap f n [x0; x1; ...] = f n x0 ++ f (n + 1) x1 ++ ...] *)
Definition imap {A B} (f : N -> A -> list B) : N -> list A -> list B :=
  fix go (n : N) (l : list A) : list B :=
    match l with
    | [] => []
    | x :: r => f n x ++ go (n + 1) r
    end.

(** The leaves of a value (scalars and empty collections) with their paths. *)
Definition line := (list jstep * jval)%type.
Definition below (s : jstep) (l : line) : line := (s :: fst l, snd l).

Fixpoint leaves (quote : bool) (v : jval) : list line :=
  match v with
  | JScalar _ => [([], v)]
  | JArr l _ =>
      match l with
      | [] => [([], v)]
      | _ => imap (fun i x => map (below (SIndex i)) (leaves quote x)) 0 l
      end
  | JObj l _ =>
      match l with
      | [] => [([], v)]
      | _ => flat_map (fun m => map (below (key_step quote (fst m))) (leaves quote (snd m))) l
      end
  end.

(** The text of a line: [$], the path, [ = ] and the leaf. *)
Definition leaf_text (v : jval) (t : bytes) : Prop :=
  match v with
  | JScalar s => t = sc_bytes s
  | JArr [] _ => t = [91; 93]
  | JObj [] _ => t = [123; 125]
  | _ => False
  end.
Definition line_text (l : line) (t : bytes) : Prop :=
  exists p x, path_text (fst l) p /\ leaf_text (snd l) x /\ t = 36 :: p ++ [32; 61; 32] ++ x.

(** The value restricted to the leaves whose path satisfies [keep]: other
    leaves are removed, and so are collections in which nothing is left. *)
Fixpoint restrict (quote : bool) (keep : list jstep -> bool) (v : jval) : option jval :=
  let opt (o : option jval) : list jval := match o with Some x => [x] | None => [] end in
  match v with
  | JScalar _ => if keep [] then Some v else None
  | JArr l e =>
      match l with
      | [] => if keep [] then Some v else None
      | _ =>
          match imap (fun i x => opt (restrict quote (fun p => keep (SIndex i :: p)) x)) 0 l with
          | [] => None
          | l' => Some (JArr l' e)
          end
      end
  | JObj l e =>
      match l with
      | [] => if keep [] then Some v else None
      | _ =>
          match flat_map (fun m =>
                  map (fun x => (fst m, x))
                    (opt (restrict quote (fun p => keep (key_step quote (fst m) :: p)) (snd m)))) l with
          | [] => None
          | l' => Some (JObj l' e)
          end
      end
  end.

(** Keys with different values. *)
Definition differ (k k' : scalar) : Prop :=
  exists u u', denotes (contents (sc_bytes k)) u /\ denotes (contents (sc_bytes k')) u' /\ u <> u'.
Fixpoint adjacent_differ (ks : list scalar) : Prop :=
  match ks with
  | k :: ((k' :: _) as r) => differ k k' /\ adjacent_differ r
  | _ => True
  end.
Definition all_differ (ks : list scalar) : Prop := ForallOrdPairs differ ks.

(** Values that JPV can represent: scalars are valid literals, nothing is
    elided, a key flagged as alphanumeric is an identifier (unless all keys are
    quoted), indices are below 2^53, and the keys of an object satisfy [R]. *)
Inductive representable (R : list scalar -> Prop) (quote : bool) : jval -> Prop :=
| rp_scalar : forall s, valid_scalar false s -> representable R quote (JScalar s)
| rp_arr : forall l, Forall (representable R quote) l -> (Z.of_nat (length l) < 2 ^ 53)%Z ->
    representable R quote (JArr l false)
| rp_obj : forall l,
    Forall (fun m => sc_type (fst m) = TStr /\ string_text false (sc_bytes (fst m)) /\
                     (sc_alnum (fst m) = true -> quote = false ->
                      identifier (contents (sc_bytes (fst m))) = true) /\
                     representable R quote (snd m)) l ->
    R (map fst l) ->
    representable R quote (JObj l false).

(** The value with the flags that the JPV decoder gives to scalars. *)
Definition step_key (s : jstep) : scalar :=
  match s with
  | SName c => mkScalar (34 :: c ++ [34]) TStr true true false
  | SQuoted c => key_scalar c
  | SIndex _ => null_scalar
  end.
Fixpoint jpv_canon (quote : bool) (v : jval) : jval :=
  match v with
  | JScalar s => JScalar (canon_scalar s)
  | JArr l e => JArr (map (jpv_canon quote) l) e
  | JObj l e => JObj (map (fun m => (step_key (key_step quote (fst m)), jpv_canon quote (snd m))) l) e
  end.

(** A value without flags. *)
Definition unflag (s : scalar) : scalar := mkScalar (sc_bytes s) (sc_type s) false false false.
Definition unflag_token (t : token) : token :=
  match t with TScalar s => TScalar (unflag s) | t => t end.

(** Specification of iterators: every handle reads its own, immutable JSON
    value.

    The state of a program that uses iterators is here a table of handles.  A
    handle knows the JSON value it stands for and how far it has been read;
    there are no streams, cursors or pools.  [None] is the answer to a use that
    the API does not allow: a child of a collection that has moved on, the copy
    or clone of a value already started, a detached clone. *)
From Coq Require Import List ZArith Arith Bool.
From Verif Require Import Base Tokens JsonSpec CursorModel IterModel.

(** The items of a collection, with their keys in the case of an object. *)
Definition items (v : jval) : list (option scalar * jval) :=
  match v with
  | JScalar _ => []
  | JArr l _ => map (fun x => (None, x)) l
  | JObj l _ => map (fun m => (Some (fst m), snd m)) l
  end.

(** [SFresh]: not started.  [SAt k child rest]: at the item [child] (with key
    [k]), the items [rest] are still to come.  [SDone]: finished.  [SDead]: not
    to be used any more. *)
Inductive sstate :=
| SFresh
| SAt (k : option scalar) (child : value) (rest : list (option scalar * jval))
| SDone
| SDead.

(** [s_root]: made by Clone, hence not a child of anything. *)
Record shandle := mkSh { s_val : jval; s_root : bool; s_state : sstate }.

(** An iterator: the values to come and the current one; or at the end. *)
Inductive sistate :=
| SIAt (rest : list jval) (cur : option value)
| SIEnd
| SIDead.
Record siter := mkSi { si_root : bool; si_state : sistate }.

Record sstore := mkSt { st_coll : list shandle; st_iter : list siter }.

Definition is_array (v : jval) : bool := match v with JArr _ _ => true | _ => false end.
Definition is_object (v : jval) : bool := match v with JObj _ _ => true | _ => false end.

(** The handle behind a value. *)
Definition s_get (t : list shandle) (v : value) : option (nat * shandle) :=
  match v with
  | VScalar _ => None
  | VArr c => match nth_error t c with
              | Some h => if is_array (s_val h) then Some (c, h) else None
              | None => None
              end
  | VObj c => match nth_error t c with
              | Some h => if is_object (s_val h) then Some (c, h) else None
              | None => None
              end
  end.

Definition put_state (t : list shandle) (c : nat) (s : sstate) : list shandle :=
  match nth_error t c with
  | Some h => upd t c (mkSh (s_val h) (s_root h) s)
  | None => t
  end.

(** A new handle for a value. *)
Definition alloc (t : list shandle) (root : bool) (v : jval) : list shandle * value :=
  match v with
  | JScalar s => (t, VScalar s)
  | JArr _ _ => (t ++ [mkSh v root SFresh], VArr (length t))
  | JObj _ _ => (t ++ [mkSh v root SFresh], VObj (length t))
  end.

(** When a collection moves on, its current child, the current child of that
    child, and so on, are not to be used any more.  ([lo] and [s_root] only stop
    the walk from leaving the descendants: a child is never a clone and always
    has a greater index than its parent.) *)
Fixpoint kill (n : nat) (lo : nat) (t : list shandle) (v : value) : list shandle :=
  match n with
  | O => t
  | S m =>
      match v with
      | VScalar _ => t
      | VArr c | VObj c =>
          match nth_error t c with
          | None => t
          | Some h =>
              if s_root h || (c <? lo) then t
              else match s_state h with
                   | SAt _ ch _ => kill m (S c) (put_state t c SDead) ch
                   | _ => put_state t c SDead
                   end
          end
      end
  end.
Definition kill_opt (lo : nat) (t : list shandle) (o : option value) : list shandle :=
  match o with Some v => kill (length t) lo t v | None => t end.
Definition child_of (s : sstate) : option value :=
  match s with SAt _ ch _ => Some ch | _ => None end.

(** Move to the next of the items. *)
Definition s_move (t : list shandle) (c : nat) (l : list (option scalar * jval)) : list shandle * bool :=
  match l with
  | [] => (put_state t c SDone, false)
  | (k, x) :: rest =>
      let '(t', ch) := alloc t false x in
      (put_state t' c (SAt k ch rest), true)
  end.

Definition s_advance (t : list shandle) (v : value) : option (list shandle * bool) :=
  match s_get t v with
  | None => None
  | Some (c, h) =>
      match s_state h with
      | SFresh => Some (s_move t c (items (s_val h)))
      | SAt _ ch rest => Some (s_move (kill_opt (S c) t (Some ch)) c rest)
      | SDone => Some (t, false)
      | SDead => None
      end
  end.

Definition s_current (t : list shandle) (v : value) : option (option scalar * option value) :=
  match s_get t v with
  | None => None
  | Some (c, h) =>
      match s_state h with
      | SFresh => Some (None, None)
      | SAt k ch _ => Some (k, Some ch)
      | _ => None
      end
  end.

Definition s_clone (t : list shandle) (v : value) : option (list shandle * value) :=
  match v with
  | VScalar s => Some (t, VScalar s)
  | _ =>
      match s_get t v with
      | None => None
      | Some (c, h) =>
          match s_state h with
          | SFresh => Some (alloc t true (s_val h))
          | _ => None
          end
      end
  end.

Definition s_detach (t : list shandle) (v : value) : option (list shandle) :=
  match v with
  | VScalar s => Some t
  | _ =>
      match s_get t v with
      | None => None
      | Some (c, h) =>
          if s_root h then
            match s_state h with
            | SDead => None
            | s => Some (put_state (kill_opt (S c) t (child_of s)) c SDead)
            end
          else None
      end
  end.

Definition s_copy (t : list shandle) (v : value) : option (list shandle * list token) :=
  match v with
  | VScalar s => Some (t, [TScalar s])
  | _ =>
      match s_get t v with
      | None => None
      | Some (c, h) =>
          match s_state h with
          | SFresh => Some (put_state t c SDone, toks (s_val h))
          | _ => None
          end
      end
  end.

Definition s_discard (t : list shandle) (v : value) : option (list shandle) :=
  match v with
  | VScalar s => Some t
  | _ =>
      match s_get t v with
      | None => None
      | Some (c, h) =>
          match s_state h with
          | SDead => None
          | SDone => Some t
          | s => Some (put_state (kill_opt (S c) t (child_of s)) c SDone)
          end
      end
  end.

(** Iterators. *)
Definition si_advance (st : sstore) (i : nat) : option (sstore * bool) :=
  match nth_error (st_iter st) i with
  | None => None
  | Some x =>
      match si_state x with
      | SIAt rest cur =>
          let t := kill_opt 0 (st_coll st) cur in
          match rest with
          | [] => Some (mkSt t (upd (st_iter st) i (mkSi (si_root x) SIEnd)), false)
          | v :: rest' =>
              let '(t', ch) := alloc t false v in
              Some (mkSt t' (upd (st_iter st) i (mkSi (si_root x) (SIAt rest' (Some ch)))), true)
          end
      | SIEnd => Some (st, false)
      | SIDead => None
      end
  end.
Definition si_current (st : sstore) (i : nat) : option (option value) :=
  match nth_error (st_iter st) i with
  | None => None
  | Some x =>
      match si_state x with
      | SIAt _ cur => Some cur
      | SIEnd => Some None
      | SIDead => None
      end
  end.
Definition si_clone (st : sstore) (i : nat) : option (sstore * nat) :=
  match nth_error (st_iter st) i with
  | None => None
  | Some x =>
      match si_state x with
      | SIAt rest None =>
          Some (mkSt (st_coll st) (st_iter st ++ [mkSi true (SIAt rest None)]), length (st_iter st))
      | _ => None
      end
  end.
Definition si_detach (st : sstore) (i : nat) : option sstore :=
  match nth_error (st_iter st) i with
  | None => None
  | Some x =>
      if si_root x then
        match si_state x with
        | SIAt _ cur => Some (mkSt (kill_opt 0 (st_coll st) cur)
                                   (upd (st_iter st) i (mkSi true SIDead)))
        | SIEnd => Some (mkSt (st_coll st) (upd (st_iter st) i (mkSi true SIDead)))
        | SIDead => None
        end
      else None
  end.

(** Reading a stream of values off its tokens. *)
Fixpoint parse_value (n : nat) (ts : list token) : option (jval * list token) :=
  match n with
  | O => None
  | S m =>
      match ts with
      | TScalar s :: r => Some (JScalar s, r)
      | TStartArr :: r =>
          match parse_items m r with
          | Some (l, e, r') => Some (JArr l e, r')
          | None => None
          end
      | TStartObj :: r =>
          match parse_members m r with
          | Some (l, e, r') => Some (JObj l e, r')
          | None => None
          end
      | _ => None
      end
  end
with parse_items (n : nat) (ts : list token) : option (list jval * bool * list token) :=
  match n with
  | O => None
  | S m =>
      match ts with
      | TEndArr :: r => Some ([], false, r)
      | TElision :: TEndArr :: r => Some ([], true, r)
      | _ =>
          match parse_value m ts with
          | Some (v, r) =>
              match parse_items m r with
              | Some (l, e, r') => Some (v :: l, e, r')
              | None => None
              end
          | None => None
          end
      end
  end
with parse_members (n : nat) (ts : list token) : option (list (scalar * jval) * bool * list token) :=
  match n with
  | O => None
  | S m =>
      match ts with
      | TEndObj :: r => Some ([], false, r)
      | TElision :: TEndObj :: r => Some ([], true, r)
      | TScalar k :: ts' =>
          match parse_value m ts' with
          | Some (v, r) =>
              match parse_members m r with
              | Some (l, e, r') => Some ((k, v) :: l, e, r')
              | None => None
              end
          | None => None
          end
      | _ => None
      end
  end.
Fixpoint parse_stream (n : nat) (ts : list token) : option (list jval) :=
  match n with
  | O => None
  | S m =>
      match ts with
      | [] => Some []
      | _ =>
          match parse_value (length ts) ts with
          | Some (v, r) =>
              match parse_stream m r with Some l => Some (v :: l) | None => None end
          | None => None
          end
      end
  end.

(** (A Go slice has at most [maxint] elements.) *)
Definition si_new (st : sstore) (data : list token) : option (sstore * nat) :=
  match parse_stream (S (length data)) data with
  | Some vs =>
      if (Z.of_nat (length data) <? maxint)%Z
      then Some (mkSt (st_coll st) (st_iter st ++ [mkSi false (SIAt vs None)]), length (st_iter st))
      else None
  | None => None
  end.

(** What a program does. *)
Definition on_coll {A} (st : sstore) (o : option (list shandle * A)) : option (sstore * A) :=
  match o with Some (t, a) => Some (mkSt t (st_iter st), a) | None => None end.
Definition on_coll_ (st : sstore) (o : option (list shandle)) : option (sstore * unit) :=
  match o with Some t => Some (mkSt t (st_iter st), tt) | None => None end.
Definition obind {A B} (o : option (sstore * A)) (f : sstore -> A -> option (sstore * B)) :=
  match o with Some (st, a) => f st a | None => None end.

Fixpoint spec_run {A} (p : iprog A) (st : sstore) : option (sstore * A) :=
  match p with
  | IRet a => Some (st, a)
  | IPanic => None
  | IFuel => None
  | IAdvance v k => obind (on_coll st (s_advance (st_coll st) v)) (fun st' b => spec_run (k b) st')
  | ICurrent v k => match s_current (st_coll st) v with
                    | Some (_, x) => spec_run (k x) st
                    | None => None
                    end
  | IKeyVal v k => match s_current (st_coll st) v with
                   | Some x => spec_run (k x) st
                   | None => None
                   end
  | IClone v k => obind (on_coll st (s_clone (st_coll st) v)) (fun st' x => spec_run (k x) st')
  | IDetach v k => obind (on_coll_ st (s_detach (st_coll st) v)) (fun st' _ => spec_run k st')
  | ICopy v k => obind (on_coll st (s_copy (st_coll st) v)) (fun st' ts => spec_run (k ts) st')
  | IDiscard v k => obind (on_coll_ st (s_discard (st_coll st) v)) (fun st' _ => spec_run k st')
  | IIterNew d k => obind (si_new st d) (fun st' i => spec_run (k i) st')
  | IIterAdvance i k => obind (si_advance st i) (fun st' b => spec_run (k b) st')
  | IIterCurrent i k => match si_current st i with
                        | Some x => spec_run (k x) st
                        | None => None
                        end
  | IIterClone i k => obind (si_clone st i) (fun st' j => spec_run (k j) st')
  | IIterDetach i k => match si_detach st i with
                       | Some st' => spec_run k st'
                       | None => None
                       end
  end.

(** One iterator, not started, on a stream of values. *)
Definition spec_start (vs : list jval) : sstore := mkSt [] [mkSi false (SIAt vs None)].

(** Readers of JSON values: a specification of reading with iterators that
    knows only JSON values, and the programs that do the same with the API.

    A script is a list of commands, each addressed to one of several readers.
    Reader 0 reads a stream of values with an Iterator, the others are the
    clones made on the way, in order. *)
From Coq Require Import List ZArith Bool.
From Verif Require Import Base Tokens JsonSpec IterModel IterSpec.

Inductive cmd :=
| CNext     (* Advance, and look at the current item *)
| CEnter    (* begin to read the current item, an array or object not yet read *)
| CLeave    (* leave the innermost array or object being read, wherever one is in it *)
| CCopy     (* Copy the current item, not yet read *)
| CDiscard  (* Discard the current item, whether some of it has been read or not *)
| CClone    (* Clone the current item, not yet read: this makes a new reader *)
| CDetach.  (* the detach function of the clone *)

Inductive shape := ShScalar (s : scalar) | ShArray | ShObject.
Definition shape_of (x : jval) : shape :=
  match x with JScalar s => ShScalar s | JArr _ _ => ShArray | JObj _ _ => ShObject end.

(** What is seen of a command: the next item, with its key in an object; that
    there is none; the tokens copied; nothing; or the command made no sense and
    was left out. *)
Inductive out :=
| OItem (k : option scalar) (s : shape)
| OEnd
| OToks (ts : list token)
| ODone
| OIgnored.

(* ------------------------------------------------------------------ *)
(** The specification: where a reader is in its value.  [Inside rest c]: inside
    an array or object, the items [rest] are still to come and [c] is the
    current one. *)
Inductive cursor :=
| Nothing
| Unread (x : jval)
| Part
| Inside (rest : list (option scalar * jval)) (c : cursor).

Definition inside (c : cursor) : bool := match c with Inside _ _ => true | _ => false end.
Definition collection (x : jval) : bool := match x with JScalar _ => false | _ => true end.

(** The new position, what is seen, and the value that was cloned, if any. *)
Fixpoint sstep (c : cmd) (s : cursor) : cursor * out * option jval :=
  match s with
  | Nothing => (Nothing, OIgnored, None)
  | Unread x =>
      match c with
      | CEnter => if collection x then (Inside (items x) Nothing, ODone, None) else (Unread x, OIgnored, None)
      | CCopy => (Part, OToks (toks x), None)
      | CDiscard => (Part, ODone, None)
      | CClone => (Unread x, ODone, Some x)
      | _ => (Unread x, OIgnored, None)
      end
  | Part =>
      match c with
      | CDiscard => (Part, ODone, None)
      | _ => (Part, OIgnored, None)
      end
  | Inside rest s' =>
      if inside s' then
        let '(s1, o, n) := sstep c s' in (Inside rest s1, o, n)
      else
        match c with
        | CLeave => (Part, ODone, None)
        | CNext =>
            match rest with
            | [] => (Inside [] Nothing, OEnd, None)
            | (k, x) :: rest' => (Inside rest' (Unread x), OItem k (shape_of x), None)
            end
        | _ => let '(s1, o, n) := sstep c s' in (Inside rest s1, o, n)
        end
  end.

Inductive reader :=
| RStream (rest : list jval) (c : cursor)
| RClone (c : cursor)
| RGone.

Definition rstep (c : cmd) (r : reader) : reader * out * option jval :=
  match r with
  | RGone => (RGone, OIgnored, None)
  | RClone s =>
      match c with
      | CDetach => (RGone, ODone, None)
      | _ => let '(s', o, n) := sstep c s in (RClone s', o, n)
      end
  | RStream rest s =>
      if inside s then let '(s', o, n) := sstep c s in (RStream rest s', o, n)
      else
        match c with
        | CNext =>
            match rest with
            | [] => (RStream [] Nothing, OEnd, None)
            | x :: rest' => (RStream rest' (Unread x), OItem None (shape_of x), None)
            end
        | _ => let '(s', o, n) := sstep c s in (RStream rest s', o, n)
        end
  end.

(** A command changes the reader it is addressed to, and no other. *)
Definition step_readers (rs : list reader) (a : nat * cmd) : list reader * out :=
  match nth_error rs (fst a) with
  | None => (rs, OIgnored)
  | Some r =>
      let '(r', o, n) := rstep (snd a) r in
      (upd rs (fst a) r' ++ match n with Some x => [RClone (Unread x)] | None => [] end, o)
  end.

Fixpoint run_readers (rs : list reader) (l : list (nat * cmd)) : list out :=
  match l with
  | [] => []
  | a :: l' => let '(rs', o) := step_readers rs a in o :: run_readers rs' l'
  end.

Definition readers_of (vs : list jval) : list reader := [RStream vs Nothing].

(* ------------------------------------------------------------------ *)
(** The same with the API.  The program keeps, for each reader, the values it
    has been given by the API. *)
Inductive dcursor :=
| DNothing
| DUnread (v : value)
| DPart (v : value)
| DInside (v : value) (c : dcursor).

Definition dinside (c : dcursor) : bool := match c with DInside _ _ => true | _ => false end.
Definition is_scalar (v : value) : bool := match v with VScalar _ => true | _ => false end.
Definition shape_of_value (v : value) : shape :=
  match v with VScalar s => ShScalar s | VArr _ => ShArray | VObj _ => ShObject end.

Open Scope iprog_scope.

Fixpoint dstep (c : cmd) (d : dcursor) : iprog (dcursor * out * option value) :=
  match d with
  | DNothing => IRet (DNothing, OIgnored, None)
  | DUnread v =>
      match c with
      | CEnter => if is_scalar v then IRet (DUnread v, OIgnored, None) else IRet (DInside v DNothing, ODone, None)
      | CCopy => ICopy v (fun ts => IRet (DPart v, OToks ts, None))
      | CDiscard => IDiscard v (IRet (DPart v, ODone, None))
      | CClone => IClone v (fun w => IRet (DUnread v, ODone, Some w))
      | _ => IRet (DUnread v, OIgnored, None)
      end
  | DPart v =>
      match c with
      | CDiscard => IDiscard v (IRet (DPart v, ODone, None))
      | _ => IRet (DPart v, OIgnored, None)
      end
  | DInside v d' =>
      if dinside d' then
        ilet (d1, o, n) <- dstep c d' ; IRet (DInside v d1, o, n)
      else
        match c with
        | CLeave => IRet (DPart v, ODone, None)
        | CNext =>
            IAdvance v (fun b =>
              if b then
                IKeyVal v (fun kv =>
                  match snd kv with
                  | Some ch => IRet (DInside v (DUnread ch), OItem (fst kv) (shape_of_value ch), None)
                  | None => IPanic
                  end)
              else IRet (DInside v DNothing, OEnd, None))
        | _ => ilet (d1, o, n) <- dstep c d' ; IRet (DInside v d1, o, n)
        end
  end.

(** [DClone v c]: the clone [v], which is the current item of the reader. *)
Inductive dreader :=
| DStream (i : nat) (c : dcursor)
| DClone (v : value) (c : dcursor)
| DGone.

Definition drstep (c : cmd) (r : dreader) : iprog (dreader * out * option value) :=
  match r with
  | DGone => IRet (DGone, OIgnored, None)
  | DClone v d =>
      match c with
      | CDetach => IDetach v (IRet (DGone, ODone, None))
      | _ => ilet (d', o, n) <- dstep c d ; IRet (DClone v d', o, n)
      end
  | DStream i d =>
      if dinside d then ilet (d', o, n) <- dstep c d ; IRet (DStream i d', o, n)
      else
        match c with
        | CNext =>
            IIterAdvance i (fun b =>
              if b then
                IIterCurrent i (fun x =>
                  match x with
                  | Some ch => IRet (DStream i (DUnread ch), OItem None (shape_of_value ch), None)
                  | None => IPanic
                  end)
              else IRet (DStream i DNothing, OEnd, None))
        | _ => ilet (d', o, n) <- dstep c d ; IRet (DStream i d', o, n)
        end
  end.

Definition dstep_readers (rs : list dreader) (a : nat * cmd) : iprog (list dreader * out) :=
  match nth_error rs (fst a) with
  | None => IRet (rs, OIgnored)
  | Some r =>
      ilet (r', o, n) <- drstep (snd a) r ;
      IRet (upd rs (fst a) r' ++ match n with Some v => [DClone v (DUnread v)] | None => [] end, o)
  end.

Fixpoint run_script (rs : list dreader) (l : list (nat * cmd)) : iprog (list out) :=
  match l with
  | [] => IRet []
  | a :: l' =>
      ilet (rs', o) <- dstep_readers rs a ;
      ilet os <- run_script rs' l' ;
      IRet (o :: os)
  end.

(** A script, run on an iterator over a stream of tokens. *)
Definition script (l : list (nat * cmd)) : iprog (list out) := run_script [DStream 0 DNothing] l.

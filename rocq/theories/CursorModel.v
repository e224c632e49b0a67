(** Model of /repo/token/cursor.go: several cursors over one token stream. *)
From Coq Require Import List ZArith Bool.
From Verif Require Import Base Tokens.
Local Open Scope Z_scope.

(** token/cursor.go:175-178 [Cursor].  [cu_att] is [pool != nil]: a cursor
    only ever belongs to the one pool modelled here. *)
Record cursor := mkCursor { cu_att : bool; cu_pos : Z }.

(** token/cursor.go:22-30 [CursorPool].  [p_src] is what [stream.Next()] has
    still to return (a finite stream; after its end [Next] keeps returning
    nil).  [p_cap] is [cap(window)].  Cursors are identified by their index in
    [p_tab], the table of all cursors ever created; [p_curs] is the slice
    [cursors] of registered ones.  The debug data (cursor_debug.go) is left
    out: it only prints. *)
Record pool := mkPool {
  p_src : list token;
  p_win : list token;
  p_cap : Z;
  p_wpos : Z;
  p_catch : Z;
  p_curs : list nat;
  p_tab : list cursor
}.

(** token/cursor.go:9-20. *)
Definition windowCapacityThreshold : Z := 1024.
Definition catchupCountThreshold : Z := 100.
(** [math.MaxInt] on a 64-bit platform. *)
Definition maxint : Z := 9223372036854775807.

(** token/cursor.go:32-38 [NewCursorPool] of a stream that is not a cursor. *)
Definition new_pool (src : list token) : pool := mkPool src [] 0 0 0 [] [].

(** token/cursor.go:40-49 [NewCursorFromData]; the capacity of the caller's
    slice is at least its length.  The window shares the caller's array; the
    sharing itself is not modelled. *)
Definition new_pool_from_data (data : list token) (cap : Z) : pool :=
  mkPool [] data cap 0 0 [0%nat] [mkCursor true 0].

(** Position of a registered cursor. *)
Definition cpos (tab : list cursor) (c : nat) : Z :=
  match nth_error tab c with Some cu => cu_pos cu | None => 0 end.

(** token/cursor.go:78-83: the loop computing [minPos]. *)
Fixpoint min_pos (tab : list cursor) (cs : list nat) (m : Z) : Z :=
  match cs with
  | [] => m
  | c :: r => min_pos tab r (if cpos tab c <? m then cpos tab c else m)
  end.

Definition set_win (p : pool) (w : list token) (cap wpos : Z) : pool :=
  mkPool (p_src p) w cap wpos (p_catch p) (p_curs p) (p_tab p).

(** token/cursor.go:76-112 [advanceWindow]. *)
Definition advance_window (p : pool) : res pool :=
  let m := min_pos (p_tab p) (p_curs p) maxint in
  if m =? maxint then
    Ok (set_win p [] 0 (p_wpos p + Z.of_nat (length (p_win p))))
  else
    let shift := m - p_wpos p in
    if shift <? 0 then Panic
    else if shift =? 0 then Ok p
    else
      let newLen := Z.of_nat (length (p_win p)) - shift in
      let wpos' := p_wpos p + shift in
      do tl <- slice_from (p_win p) shift ;
      if (p_cap p <=? windowCapacityThreshold) || (p_cap p <? newLen * 2) then
        do w <- slice_to (go_copy (p_win p) tl) newLen ;
        Ok (set_win p w (p_cap p) wpos')
      else
        let w := go_copy (repeat TElision (Z.to_nat newLen)) tl in
        Ok (set_win p w newLen wpos').

Definition set_catch (p : pool) (n : Z) : pool :=
  mkPool (p_src p) (p_win p) (p_cap p) (p_wpos p) n (p_curs p) (p_tab p).

(** token/cursor.go:115-121 [updateCatchupCount]. *)
Definition update_catchup (p : pool) (n : Z) : res pool :=
  let p1 := set_catch p (p_catch p + n) in
  if catchupCountThreshold <? p_catch p1
  then advance_window (set_catch p1 0)
  else Ok p1.

Definition set_curs (p : pool) (cs : list nat) : pool :=
  mkPool (p_src p) (p_win p) (p_cap p) (p_wpos p) (p_catch p) cs (p_tab p).
Definition set_tab (p : pool) (t : list cursor) : pool :=
  mkPool (p_src p) (p_win p) (p_cap p) (p_wpos p) (p_catch p) (p_curs p) t.

(** token/cursor.go:123-130 [NewCursor]: the new cursor's identity is the next
    free index of the table. *)
Definition new_cursor (p : pool) : pool * nat :=
  let id := length (p_tab p) in
  let c := mkCursor true (p_wpos p + Z.of_nat (length (p_win p))) in
  (set_tab (set_curs p (p_curs p ++ [id])) (p_tab p ++ [c]), id).

(** token/cursor.go:132-139 [CloneCursor] and 189-194 [Clone]. *)
Definition clone_cursor (p : pool) (c : nat) : option (pool * nat) :=
  match nth_error (p_tab p) c with
  | None => None
  | Some cu =>
      if cu_att cu then
        let id := length (p_tab p) in
        Some (set_tab (set_curs p (p_curs p ++ [id])) (p_tab p ++ [cu]), id)
      else Some (p, c)
  end.

(** token/cursor.go:142-150: the loop of [DetachCursor].  The range expression
    is evaluated once, so the loop runs [k] times (the initial number of
    registered cursors) over the shared array; beyond the current length the
    array holds nil. *)
Fixpoint detach_loop (k i : nat) (c : nat) (pos : Z) (p : pool) : res pool :=
  match k with
  | O => Ok p
  | S k' =>
      match nth_error (p_curs p) i with
      | Some c1 =>
          if Nat.eqb c1 c then
            do p1 <- update_catchup p (pos - p_wpos p) ;
            detach_loop k' (S i) c pos
              (set_curs p1 (firstn i (p_curs p1) ++ skipn (S i) (p_curs p1)))
          else detach_loop k' (S i) c pos p
      | None => detach_loop k' (S i) c pos p
      end
  end.

(** token/cursor.go:141-152 [DetachCursor]. *)
Definition detach_cursor (p : pool) (c : nat) : res pool :=
  let pos := cpos (p_tab p) c in
  do p1 <- detach_loop (length (p_curs p)) 0 c pos p ;
  Ok (set_tab p1 (upd (p_tab p1) c (mkCursor false pos))).

Section Growth.
(** The capacity Go gives a slice of capacity [cap] and length [len] when
    [append] adds one element: left open by the language, hence a parameter. *)
Variable grow : Z -> Z -> Z.

(** token/cursor.go:154-173 [AdvanceCursor]. *)
Definition advance_cursor (p : pool) (c : nat) : res (pool * option token) :=
  let pos := cpos (p_tab p) c in
  let i := pos - p_wpos p in
  let len := Z.of_nat (length (p_win p)) in
  let bump p := set_tab p (upd (p_tab p) c (mkCursor true (pos + 1))) in
  if i <? len then
    do tok <- slice_idx (p_win p) i ;
    do p2 <- update_catchup (bump p) 1 ;
    Ok (p2, Some tok)
  else if len <? i then Panic
  else
    match p_src p with
    | tok :: src' =>
        let cap' := grow (p_cap p) len in
        let p1 := bump p in
        Ok (mkPool src' (p_win p1 ++ [tok]) cap' (p_wpos p1) (p_catch p1)
                   (p_curs p1) (p_tab p1), Some tok)
    | [] =>
        do p1 <- detach_cursor p c ;
        Ok (p1, None)
    end.

(** The public operations on a pool and its cursors. *)
Inductive op :=
| ONew                (* pool.NewCursor() *)
| OClone (c : nat)    (* c.Clone() *)
| ODetach (c : nat)   (* c.Detach() *)
| ONext (c : nat).    (* c.Next() *)

(** What the caller observes. *)
Inductive obs :=
| ObsUnit
| ObsCursor (c : nat)
| ObsToken (t : option token)
| ObsInvalid.         (* the caller named a cursor that does not exist *)

(** token/cursor.go:182-200 [Next], [Clone], [Detach]. *)
Definition step (p : pool) (o : op) : res (pool * obs) :=
  match o with
  | ONew => let '(p', id) := new_cursor p in Ok (p', ObsCursor id)
  | OClone c =>
      match clone_cursor p c with
      | Some (p', id) => Ok (p', ObsCursor id)
      | None => Ok (p, ObsInvalid)
      end
  | ODetach c =>
      match nth_error (p_tab p) c with
      | None => Ok (p, ObsInvalid)
      | Some cu =>
          if cu_att cu then do p' <- detach_cursor p c ; Ok (p', ObsUnit)
          else Ok (p, ObsUnit)
      end
  | ONext c =>
      match nth_error (p_tab p) c with
      | None => Ok (p, ObsInvalid)
      | Some cu =>
          if cu_att cu then
            do r <- advance_cursor p c ;
            Ok (fst r, ObsToken (snd r))
          else Ok (p, ObsToken None)
      end
  end.

(** A history of operations. *)
Fixpoint run (p : pool) (ops : list op) : res (pool * list obs) :=
  match ops with
  | [] => Ok (p, [])
  | o :: r =>
      do s <- step p o ;
      do q <- run (fst s) r ;
      Ok (fst q, snd s :: snd q)
  end.

End Growth.

(** Model of /repo/iterator/streamiterator.go, on a heap.

    The heap holds the token sources (channels or slices), the cursor pools
    built on them, the collections (iterator.Array and iterator.Object) and the
    iterators.  Every Go pointer to one of these is an index into the heap, so
    aliasing is as in the Go program. *)
From Coq Require Import List ZArith Bool.
From Verif Require Import Base Tokens CursorModel.

(** token/tokenstream.go:11-13 [ReadStream]: a channel or slice
    (tokenstream.go:19-47), or a cursor of a pool (cursor.go:175-187). *)
Inductive rstream :=
| RSrc (s : nat)
| RCur (p c : nat).

(** streamiterator.go:47-55 [Value]: a scalar, an array or an object.  A scalar
    is immutable, so the pointer is represented by what it points to. *)
Inductive value :=
| VScalar (s : scalar)
| VArr (id : nat)
| VObj (id : nat).

(** streamiterator.go:103-112 [collectionBase] and 199-202 [Object].  The field
    startItem is determined by the kind of the collection. *)
Record coll := mkColl {
  c_obj : bool;
  c_stream : rstream;
  c_started : bool;
  c_done : bool;
  c_elided : bool;
  c_key : option scalar;
  c_val : option value
}.

(** streamiterator.go:10-13 [Iterator]. *)
Record iter := mkIter { i_stream : rstream; i_val : option value }.

(** [h_src]: for every source the tokens not yet received from it; a closed
    channel and an exhausted slice give nil for ever.  [h_pool]: a pool and the
    source it reads; the component [p_src] of the pool is filled in from
    [h_src] when the pool is used. *)
Record heap := mkHeap {
  h_src : list (list token);
  h_pool : list (nat * pool);
  h_coll : list coll;
  h_iter : list iter
}.

Definition hm (A : Type) := heap -> res (heap * A).
Definition hret {A} (a : A) : hm A := fun h => Ok (h, a).
Definition hpanic {A} : hm A := fun _ => Panic.
Definition hfuel {A} : hm A := fun _ => OutOfFuel.
Definition hbind {A B} (m : hm A) (f : A -> hm B) : hm B :=
  fun h => match m h with
           | Ok (h1, a) => f a h1
           | Panic => Panic
           | OutOfFuel => OutOfFuel
           end.
Declare Scope hm_scope.
Notation "'ldo' x <- m ; f" := (hbind m (fun x => f))
  (at level 200, x pattern, m at level 100, f at level 200) : hm_scope.
Notation "m ;; f" := (hbind m (fun _ => f)) (at level 100, f at level 200, right associativity) : hm_scope.
Open Scope hm_scope.

Definition set_src (h : heap) (s : nat) (l : list token) : heap :=
  mkHeap (upd (h_src h) s l) (h_pool h) (h_coll h) (h_iter h).
Definition set_pool (h : heap) (p : nat) (x : nat * pool) : heap :=
  mkHeap (h_src h) (upd (h_pool h) p x) (h_coll h) (h_iter h).
Definition set_coll (h : heap) (c : nat) (x : coll) : heap :=
  mkHeap (h_src h) (h_pool h) (upd (h_coll h) c x) (h_iter h).
Definition set_iter (h : heap) (i : nat) (x : iter) : heap :=
  mkHeap (h_src h) (h_pool h) (h_coll h) (upd (h_iter h) i x).

(** A pointer is never dangling; the case is there to make the functions
    total. *)
Definition get_coll (c : nat) : hm coll :=
  fun h => match nth_error (h_coll h) c with Some x => Ok (h, x) | None => Panic end.
Definition put_coll (c : nat) (x : coll) : hm unit := fun h => Ok (set_coll h c x, tt).
Definition get_iter (i : nat) : hm iter :=
  fun h => match nth_error (h_iter h) i with Some x => Ok (h, x) | None => Panic end.
Definition put_iter (i : nat) (x : iter) : hm unit := fun h => Ok (set_iter h i x, tt).
Definition new_coll (x : coll) : hm nat :=
  fun h => Ok (mkHeap (h_src h) (h_pool h) (h_coll h ++ [x]) (h_iter h), length (h_coll h)).
Definition new_iter (x : iter) : hm nat :=
  fun h => Ok (mkHeap (h_src h) (h_pool h) (h_coll h) (h_iter h ++ [x]), length (h_iter h)).

Definition with_src (p : pool) (l : list token) : pool :=
  mkPool l (p_win p) (p_cap p) (p_wpos p) (p_catch p) (p_curs p) (p_tab p).

Section Growth.
(** See CursorModel: the capacity Go's append chooses. *)
Variable grow : Z -> Z -> Z.

(** An operation on a cursor of pool [p], which reads the source of the pool. *)
Definition pool_op (p : nat) (o : op) : hm obs :=
  fun h =>
    match nth_error (h_pool h) p with
    | None => Panic
    | Some (s, pl) =>
        match nth_error (h_src h) s with
        | None => Panic
        | Some l =>
            match step grow (with_src pl l) o with
            | Ok (pl', x) => Ok (set_pool (set_src h s (p_src pl')) p (s, pl'), x)
            | Panic => Panic
            | OutOfFuel => OutOfFuel
            end
        end
    end.

(** ReadStream.Next: tokenstream.go:23-25, 37-43, cursor.go:182-187. *)
Definition snext (r : rstream) : hm (option token) :=
  match r with
  | RSrc s => fun h =>
      match nth_error (h_src h) s with
      | None => Panic
      | Some [] => Ok (h, None)
      | Some (t :: l) => Ok (set_src h s l, Some t)
      end
  | RCur p c =>
      ldo x <- pool_op p (ONext c) ;
      match x with ObsToken t => hret t | _ => hpanic end
  end.

(** cursor.go:202-208 [CloneReadStream], with cursor.go:32-38, 123-139. *)
Definition clone_stream (r : rstream) : hm (rstream * rstream) :=
  match r with
  | RSrc s =>
      ldo p <- (fun h => Ok (mkHeap (h_src h) (h_pool h ++ [(s, new_pool [])]) (h_coll h) (h_iter h),
                             length (h_pool h))) ;
      ldo x <- pool_op p ONew ;
      match x with
      | ObsCursor c =>
          ldo y <- pool_op p (OClone c) ;
          match y with ObsCursor c' => hret (RCur p c, RCur p c') | _ => hpanic end
      | _ => hpanic
      end
  | RCur p c =>
      ldo y <- pool_op p (OClone c) ;
      match y with ObsCursor c' => hret (RCur p c, RCur p c') | _ => hpanic end
  end.

(** cursor.go:195-200 [Detach]. *)
Definition detach_stream (r : rstream) : hm unit :=
  match r with
  | RSrc _ => hpanic
  | RCur p c => ldo _ <- pool_op p (ODetach c) ; hret tt
  end.

(** streamiterator.go:389-404 [nextStreamedValue]. *)
Definition next_value (first : token) (r : rstream) : hm value :=
  match first with
  | TStartArr => ldo c <- new_coll (mkColl false r false false false None None) ; hret (VArr c)
  | TStartObj => ldo c <- new_coll (mkColl true r false false false None None) ; hret (VObj c)
  | TScalar s => hret (VScalar s)
  | _ => hpanic
  end.

(** streamiterator.go:133-148 (the loop of [Discard]) and 157-173 (the loop of
    [Copy]): the tokens up to the end of the collection, read one by one.
    [depth] is the Go variable. *)
Fixpoint drain (fuel : nat) (r : rstream) (depth : Z) : hm (list token) :=
  match fuel with
  | O => hfuel
  | S f =>
      ldo x <- snext r ;
      match x with
      | None => hret []
      | Some item =>
          let depth1 := match item with
                        | TStartArr | TStartObj => (depth + 1)%Z
                        | TEndArr | TEndObj => (depth - 1)%Z
                        | _ => depth
                        end in
          if (depth1 <? 0)%Z then hret [item]
          else ldo ts <- drain f r depth1 ; hret (item :: ts)
      end
  end.

Definition set_done (x : coll) : coll :=
  mkColl (c_obj x) (c_stream x) (c_started x) true (c_elided x) (c_key x) (c_val x).
Definition set_elided (x : coll) : coll :=
  mkColl (c_obj x) (c_stream x) (c_started x) (c_done x) true (c_key x) (c_val x).
Definition set_stream (x : coll) (r : rstream) : coll :=
  mkColl (c_obj x) r (c_started x) (c_done x) (c_elided x) (c_key x) (c_val x).
Definition set_current (x : coll) (k : option scalar) (v : value) : coll :=
  mkColl (c_obj x) (c_stream x) true (c_done x) (c_elided x) k (Some v).

(** streamiterator.go:125-149 [collectionBase.Discard] and 65
    [Scalar.Discard]. *)
Fixpoint discard (fuel : nat) (v : value) : hm unit :=
  match fuel with
  | O => hfuel
  | S f =>
      match v with
      | VScalar _ => hret tt
      | VArr c | VObj c =>
          ldo x <- get_coll c ;
          if c_done x then hret tt
          else
            (if c_started x
             then match c_val x with Some v' => discard f v' | None => hpanic end
             else hret tt) ;;
            put_coll c (set_done x) ;;
            ldo _ <- drain f (c_stream x) 0 ; hret tt
      end
  end.

(** streamiterator.go:151-174 [collectionBase.Copy] and 67-69 [Scalar.Copy]:
    the tokens put on the write stream. *)
Definition copy (fuel : nat) (v : value) : hm (list token) :=
  match v with
  | VScalar s => hret [TScalar s]
  | VArr c | VObj c =>
      ldo x <- get_coll c ;
      if c_started x then hpanic
      else
        put_coll c (set_done x) ;;
        ldo ts <- drain fuel (c_stream x) 0 ;
        hret ((if c_obj x then TStartObj else TStartArr) :: ts)
  end.

(** The start of [Advance], streamiterator.go:226-228 and 346-348. *)
Definition discard_current (fuel : nat) (x : coll) : hm unit :=
  if c_started x
  then match c_val x with Some v => discard fuel v | None => hpanic end
  else hret tt.

(** streamiterator.go:222-253 [Object.Advance] and 342-366 [Array.Advance]. *)
Fixpoint advance (fuel : nat) (c : nat) : hm bool :=
  match fuel with
  | O => hfuel
  | S f =>
      ldo x <- get_coll c ;
      if c_done x then hret false
      else
        discard_current f x ;;
        ldo item <- snext (c_stream x) ;
        match item with
        | None => hpanic
        | Some t =>
            if c_obj x then
              match t with
              | TScalar k =>
                  ldo item2 <- snext (c_stream x) ;
                  match item2 with
                  | None => hpanic
                  | Some t2 =>
                      ldo v <- next_value t2 (c_stream x) ;
                      put_coll c (set_current x (Some k) v) ;;
                      hret true
                  end
              | TEndObj => put_coll c (set_done x) ;; hret false
              | TElision => put_coll c (set_elided x) ;; advance f c
              | _ => hpanic
              end
            else
              match t with
              | TEndArr => put_coll c (set_done x) ;; hret false
              | TElision => put_coll c (set_elided x) ;; advance f c
              | _ =>
                  ldo v <- next_value t (c_stream x) ;
                  put_coll c (set_current x None v) ;;
                  hret true
              end
        end
  end.

(** The collection behind a value; scalars have no Advance method. *)
Definition coll_of (v : value) : hm nat :=
  match v with VScalar _ => hpanic | VArr c | VObj c => hret c end.

(** streamiterator.go:180-185 [CurrentValue]; a nil result is [None]. *)
Definition current_value (v : value) : hm (option value) :=
  ldo c <- coll_of v ;
  ldo x <- get_coll c ;
  if c_done x then hpanic else hret (c_val x).

(** streamiterator.go:215-220 [CurrentKeyVal]. *)
Definition current_key_val (v : value) : hm (option scalar * option value) :=
  ldo c <- coll_of v ;
  ldo x <- get_coll c ;
  if c_done x then hpanic else hret (c_key x, c_val x).

(** streamiterator.go:114-123 [clone], 204-213 [Object.Clone], 333-340
    [Array.Clone], 61-63 [Scalar.Clone].  The clone keeps currentValue (nil, as
    it has not started); the detach function returned in Go is
    [detach] below on the clone. *)
Definition clone (v : value) : hm value :=
  match v with
  | VScalar s => hret (VScalar s)
  | VArr c | VObj c =>
      ldo x <- get_coll c ;
      if c_started x then hpanic
      else
        ldo rs <- clone_stream (c_stream x) ;
        put_coll c (set_stream x (fst rs)) ;;
        ldo c' <- new_coll (mkColl (c_obj x) (snd rs) false (c_done x) (c_elided x) None (c_val x)) ;
        hret (if c_obj x then VObj c' else VArr c')
  end.

(** The function returned by Clone: [cloneStream.Detach], nil for scalars. *)
Definition detach (v : value) : hm unit :=
  match v with
  | VScalar _ => hret tt
  | VArr c | VObj c => ldo x <- get_coll c ; detach_stream (c_stream x)
  end.

(** streamiterator.go:19-30 [Iterator.Advance]. *)
Definition iter_advance (fuel : nat) (i : nat) : hm bool :=
  ldo x <- get_iter i ;
  (match i_val x with Some v => discard fuel v | None => hret tt end) ;;
  ldo item <- snext (i_stream x) ;
  match item with
  | None => put_iter i (mkIter (i_stream x) None) ;; hret false
  | Some t =>
      ldo v <- next_value t (i_stream x) ;
      put_iter i (mkIter (i_stream x) (Some v)) ;;
      hret true
  end.

(** streamiterator.go:32-34 [Iterator.CurrentValue]. *)
Definition iter_current (i : nat) : hm (option value) :=
  ldo x <- get_iter i ; hret (i_val x).

(** streamiterator.go:36-45 [Iterator.Clone]. *)
Definition iter_clone (i : nat) : hm nat :=
  ldo x <- get_iter i ;
  match i_val x with
  | Some _ => hpanic
  | None =>
      ldo rs <- clone_stream (i_stream x) ;
      put_iter i (mkIter (fst rs) None) ;;
      new_iter (mkIter (snd rs) None)
  end.

(** The function returned by Iterator.Clone. *)
Definition iter_detach (i : nat) : hm unit :=
  ldo x <- get_iter i ; detach_stream (i_stream x).

(** [iterator.New(token.NewCursorFromData(data))]: streamiterator.go:15-17,
    cursor.go:40-49 (the pool reads an empty slice). *)
Definition iter_from_data (data : list token) : hm nat :=
  fun h =>
    let s := length (h_src h) in
    let p := length (h_pool h) in
    new_iter (mkIter (RCur p 0) None)
      (mkHeap (h_src h ++ [[]])
              (h_pool h ++ [(s, new_pool_from_data data (Z.of_nat (length data)))])
              (h_coll h) (h_iter h)).

(** Programs that use iterators: the calls of the API, in any order, each
    depending on the earlier results. *)
Inductive iprog (A : Type) : Type :=
| IRet (a : A)
| IPanic
| IFuel
| IAdvance (v : value) (k : bool -> iprog A)
| ICurrent (v : value) (k : option value -> iprog A)
| IKeyVal (v : value) (k : option scalar * option value -> iprog A)
| IClone (v : value) (k : value -> iprog A)
| IDetach (v : value) (k : iprog A)
| ICopy (v : value) (k : list token -> iprog A)
| IDiscard (v : value) (k : iprog A)
| IIterNew (data : list token) (k : nat -> iprog A)
| IIterAdvance (i : nat) (k : bool -> iprog A)
| IIterCurrent (i : nat) (k : option value -> iprog A)
| IIterClone (i : nat) (k : nat -> iprog A)
| IIterDetach (i : nat) (k : iprog A).

(** Running a program on the heap; [n] bounds the loops of each call. *)
Fixpoint irun {A} (n : nat) (p : iprog A) : hm A :=
  match p with
  | IRet _ a => hret a
  | IPanic _ => hpanic
  | IFuel _ => hfuel
  | IAdvance _ v k => ldo c <- coll_of v ; ldo b <- advance n c ; irun n (k b)
  | ICurrent _ v k => ldo x <- current_value v ; irun n (k x)
  | IKeyVal _ v k => ldo x <- current_key_val v ; irun n (k x)
  | IClone _ v k => ldo x <- clone v ; irun n (k x)
  | IDetach _ v k => detach v ;; irun n k
  | ICopy _ v k => ldo ts <- copy n v ; irun n (k ts)
  | IDiscard _ v k => discard n v ;; irun n k
  | IIterNew _ d k => ldo i <- iter_from_data d ; irun n (k i)
  | IIterAdvance _ i k => ldo b <- iter_advance n i ; irun n (k b)
  | IIterCurrent _ i k => ldo x <- iter_current i ; irun n (k x)
  | IIterClone _ i k => ldo j <- iter_clone i ; irun n (k j)
  | IIterDetach _ i k => iter_detach i ;; irun n k
  end.

(** [iterator.New(token.ChannelReadStream(in))] on a fresh heap: iterator 0. *)
Definition start (ts : list token) : heap := mkHeap [ts] [] [] [mkIter (RSrc 0) None].

End Growth.

Arguments IRet {A} a.
Arguments IPanic {A}.
Arguments IFuel {A}.
Arguments IAdvance {A} v k.
Arguments ICurrent {A} v k.
Arguments IKeyVal {A} v k.
Arguments IClone {A} v k.
Arguments IDetach {A} v k.
Arguments ICopy {A} v k.
Arguments IDiscard {A} v k.
Arguments IIterNew {A} data k.
Arguments IIterAdvance {A} i k.
Arguments IIterCurrent {A} i k.
Arguments IIterClone {A} i k.
Arguments IIterDetach {A} i k.

Fixpoint ibind {A B} (p : iprog A) (f : A -> iprog B) : iprog B :=
  match p with
  | IRet a => f a
  | IPanic => IPanic
  | IFuel => IFuel
  | IAdvance v k => IAdvance v (fun b => ibind (k b) f)
  | ICurrent v k => ICurrent v (fun b => ibind (k b) f)
  | IKeyVal v k => IKeyVal v (fun b => ibind (k b) f)
  | IClone v k => IClone v (fun b => ibind (k b) f)
  | IDetach v k => IDetach v (ibind k f)
  | ICopy v k => ICopy v (fun b => ibind (k b) f)
  | IDiscard v k => IDiscard v (ibind k f)
  | IIterNew d k => IIterNew d (fun b => ibind (k b) f)
  | IIterAdvance i k => IIterAdvance i (fun b => ibind (k b) f)
  | IIterCurrent i k => IIterCurrent i (fun b => ibind (k b) f)
  | IIterClone i k => IIterClone i (fun b => ibind (k b) f)
  | IIterDetach i k => IIterDetach i (ibind k f)
  end.
Declare Scope iprog_scope.
Notation "'ilet' x <- m ; f" := (ibind m (fun x => f))
  (at level 200, x pattern, m at level 100, f at level 200) : iprog_scope.

(** Model of the JSONPath runner in /repo/transform/jsonpath: segmentrunner.go,
    queryrunner.go, selectorrunners.go, comparableevaluators.go,
    logicalevaluators.go, functionrunnner.go and function.go, as programs that use
    the operations of IterModel.v.

    The compiled query is first-order data ([segment], [selector], ...).  A value
    processor is data too, [proc]; what Go changes in place (the dispatcher, the
    output) is the processor that a program returns.  [n] bounds loops and
    recursion.  Processors get the run context but do not use it, so it is left
    out there. *)
From Coq Require Import List ZArith NArith Bool.
From Verif Require Import Base Tokens GoLiteral ScalarModel JpvEncModel IterModel EqualModel SelectModel.
Open Scope iprog_scope.

(** function.go:67-98: the functions of the default registry. *)
Inductive fname := FLength | FCount | FMatch | FSearch | FValue.

(** comparableevaluators.go:54-91: singular selectors. *)
Inductive ssel := SSName (name : bytes) | SSIndex (i : Z).

(** segmentrunner.go:14-30 [SegmentRunner]; selectorrunners.go:66-303 (slices,
    indices and the default selector are the [position]s of SelectModel.v);
    logicalevaluators.go:22-68, queryrunner.go:107-110, 164-166, 179-181;
    comparableevaluators.go:21-35; functionrunnner.go:5-8, 48-84. *)
Inductive segment :=
| Seg (sels : list selector) (look : Z) (desc strict : bool) (following : option segment)
with selector :=
| SName (name : bytes)
| SWild
| SPos (p : position)
| SFilter (c : cond)
with cond :=
| COr (l : list cond)
| CAnd (l : list cond)
| CNot (c : cond)
| CComp (x : operand) (eq lt neg : bool) (y : operand)
| CQuery (q : query)
| CFun (f : fname) (args : list arg)
with operand :=
| MLit (s : scalar)
| MSing (l : list ssel)
| MInner (i : nat)
| MFun (f : fname) (args : list arg)
with query :=
| QFirst (first : option segment)
| QInner (i : nat)
with arg :=
| AVal (c : operand)
| ANodes (q : query)
| ALog (c : cond).

(** selectorrunners.go:97-99, 282-284 [ReversesSelection]. *)
Definition sel_reverses (s : selector) : bool := match s with SPos p => reverses p | _ => false end.
(** selectorrunners.go [Lookahead]: 0 unless it depends on the position. *)
Definition sel_lookahead (s : selector) : Z := match s with SPos p => lookahead p | _ => 0%Z end.

(** segmentrunner.go:413-419 [selectorState].  A pending value comes with a flag:
    whether it is a clone, to be detached (442-451 [detachableValue]). *)
Record state (V : Type) := mkState {
  st_sel : selector;
  st_selected : bool;
  st_pending : list (V * bool);
  st_done : bool
}.
Arguments mkState {V}. Arguments st_sel {V}. Arguments st_selected {V}. Arguments st_pending {V}. Arguments st_done {V}.

(** queryrunner.go:137-162: the processors.  [PWrite]: [streamWritingProcessor]
    with the tokens written so far.  [PHalt]: [haltingProcessor].  [PCount],
    [PValue]: the callbacks of [run_count] (function.go:124-131) and [run_value]
    (175-186) with the variables they change.  [PDisp]: segmentrunner.go:287-291
    [itemDispatcher] with its next processor. *)
Inductive proc (V : Type) :=
| PWrite (out : list token)
| PHalt
| PCount (n : N)
| PValue (single : option V)
| PDisp (clone : bool) (states : list (state V)) (next : proc V).
Arguments PWrite {V}. Arguments PHalt {V}. Arguments PCount {V}. Arguments PValue {V}. Arguments PDisp {V}.

Definition push {V} (s : state V) (v : V) (cloned : bool) : state V :=
  mkState (st_sel s) (st_selected s) (st_pending s ++ [(v, cloned)]) (st_done s).
Definition clear {V} (s : state V) : state V := mkState (st_sel s) (st_selected s) [] (st_done s).

(** segmentrunner.go:405-411 [cloneIf]. *)
Definition clone_if {A} (cl : bool) (v : value) (k : value -> iprog A) : iprog A :=
  if cl then IClone v k else k v.
Definition detach_if {A} (cl : bool) (v : value) (k : iprog A) : iprog A :=
  if cl then IDetach v k else k.

(** segmentrunner.go:384-400: the loop in [ProcessValue], from the second state
    on. *)
Fixpoint push_all (cl : bool) (v : value) (ss : list (state value)) : iprog (list (state value)) :=
  match ss with
  | [] => IRet []
  | s :: r =>
      if st_selected s then
        clone_if cl v (fun c => ilet r' <- push_all cl v r ; IRet (push s c cl :: r'))
      else ilet r' <- push_all cl v r ; IRet (s :: r')
  end.

(** [ProcessValue]: queryrunner.go:145-162, function.go:126-129, 177-184,
    segmentrunner.go:381-403. *)
Fixpoint process (P : proc value) (v : value) : iprog (proc value * bool) :=
  match P with
  | PWrite out => ICopy v (fun ts => IRet (PWrite (out ++ ts), true))
  | PHalt => IRet (PHalt, false)
  | PCount n => IRet (PCount (n + 1)%N, true)
  | PValue (Some _) => IRet (PValue None, false)
  | PValue None => IRet (PValue (Some v), true)
  | PDisp cl ss next =>
      match ss with
      | [] => IRet (PDisp cl ss next, true)
      | s :: r =>
          if st_selected s then
            clone_if cl v (fun c =>
              if sel_reverses (st_sel s) then
                ilet r' <- push_all cl v r ; IRet (PDisp cl (push s c cl :: r') next, true)
              else
                ilet (next', b) <- process next c ;
                detach_if cl c
                  (if b then ilet r' <- push_all cl v r ; IRet (PDisp cl (s :: r') next', true)
                   else IRet (PDisp cl (s :: r) next', false)))
          else ilet r' <- push_all cl v r ; IRet (PDisp cl (s :: r') next, true)
      end
  end.

(** segmentrunner.go:421-440 [selectorState.flush]: the values, then the states. *)
Fixpoint flush_values (l : list (value * bool)) (result : bool) (next : proc value) : iprog (proc value * bool) :=
  match l with
  | [] => IRet (next, result)
  | (v, cl) :: l' =>
      ilet (next', r) <- (if result then process next v else IRet (next, false)) ;
      detach_if cl v (flush_values l' r next')
  end.
Definition in_order {V} (s : state V) : list (V * bool) :=
  if sel_reverses (st_sel s) then rev (st_pending s) else st_pending s.
(** 308-313 [itemDispatcher.flush]. *)
Fixpoint flush_states (ss : list (state value)) (result : bool) (next : proc value) : iprog (proc value * bool) :=
  match ss with
  | [] => IRet (next, result)
  | s :: r =>
      ilet (next', b) <- flush_values (in_order s) result next ;
      flush_states r b next'
  end.

(** 295-305 [newItemDispatcher]. *)
Definition new_states {V} (sels : list selector) : list (state V) :=
  map (fun s => mkState s false [] false) sels.

(** 324-347: which selectors select the item; the result is the states, the
    number of states selected, and the number of finished states in front.
    [i] is the index of the first state of [ss]. *)
Fixpoint decide_all {V} (decide : selector -> decision) (ev : cond -> iprog bool)
    (i first count : nat) (ss : list (state V)) : iprog (list (state V) * nat * nat) :=
  match ss with
  | [] => IRet ([], first, count)
  | s :: r =>
      if st_done s then
        ilet (r', f, c) <- decide_all decide ev (S i) (if first =? i then S first else first)%nat count r ;
        IRet (mkState (st_sel s) false (st_pending s) true :: r', f, c)
      else
        let d := decide (st_sel s) in
        ilet sel <- (if d_yes d then IRet true
                     else if d_no d then IRet false
                     else match st_sel s with SFilter c => ev c | _ => IRet false end) ;
        ilet (r', f, c) <- decide_all decide ev (S i)
          (if d_nomore d && negb sel && (first =? i)%nat then S first else first)
          (if sel then S count else count) r ;
        IRet (mkState (st_sel s) sel (st_pending s) (d_nomore d) :: r', f, c)
  end.

(** 315-379 [dispatchItem].  [tv] is [followingSegment.transformValue], [ev] is
    [EvaluateTruth] of the conditions of filters. *)
Definition dispatch_item (tv : segment -> value -> proc value -> iprog (proc value * bool)) (ev : cond -> value -> iprog bool)
    (cl : bool) (ss : list (state value)) (next : proc value) (v : value) (decide : selector -> decision)
    (following : option segment) : iprog (proc value * bool) :=
  match ss with
  | [] => IRet (PDisp cl ss next, true)
  | _ =>
      ilet (ss1, first, count) <- decide_all decide (fun c => ev c v) 0 0 0 ss ;
      ilet (next1, r1) <- (if (0 <? first)%nat then flush_states (firstn first ss1) true next else IRet (next, true)) ;
      match skipn first ss1 with
      | [] => IRet (PDisp cl [] next1, r1)
      | s :: r =>
          if negb r1 then IRet (PDisp cl (s :: r) next1, false)
          else
            ilet (s', next2, r2) <-
              (if negb (sel_reverses (st_sel s)) && negb (match st_pending s with [] => true | _ => false end)
               then ilet (next2, r2) <- flush_values (in_order s) true next1 ; IRet (clear s, next2, r2)
               else IRet (s, next1, true)) ;
            if negb r2 then IRet (PDisp cl (s' :: r) next2, false)
            else if (0 <? count)%nat then
              let cl' := (1 <? count)%nat || negb (st_selected s') in
              match following with
              | None => process (PDisp cl' (s' :: r) next2) v
              | Some seg => tv seg v (PDisp cl' (s' :: r) next2)
              end
            else IRet (PDisp cl (s' :: r) next2, true)
      end
  end.

(** selectorrunners.go: [SelectsFromKey] (89-91, 109-114, 129-131, 293-295) and
    [SelectsFromIndex] (124-126, 289-291; the others are in SelectModel.v). *)
Definition selects_key (key : bytes) (s : selector) : decision :=
  match s with
  | SName name => if bytes_eqb key name then yes_last else no
  | SWild => yes
  | SPos _ => no_more
  | SFilter _ => dont_know
  end.
Definition selects_index (index neg : Z) (s : selector) : decision :=
  match s with
  | SName _ => no_more
  | SWild => yes
  | SPos p => selects_from_index p index neg
  | SFilter _ => dont_know
  end.

(** The parts of a dispatcher. *)
Definition disp_parts {V} (D : proc V) : bool * list (state V) * proc V :=
  match D with PDisp cl ss next => (cl, ss, next) | _ => (false, [], D) end.
Definition with_next {V} (D next : proc V) : proc V :=
  match D with PDisp cl ss _ => PDisp cl ss next | _ => next end.
Definition no_states {V} (D : proc V) : bool := match D with PDisp _ [] _ => true | _ => false end.
(** The deferred call [dispatcher.flush(ctx, result)], whose result is not used. *)
Definition finish (D : proc value) (result : bool) : iprog (proc value * bool) :=
  let '(_, ss, next) := disp_parts D in
  ilet (next', _) <- flush_states ss result next ; IRet (next', result).

Section Loops.
  Variable tv : segment -> value -> proc value -> iprog (proc value * bool).
  Variable ev : cond -> value -> iprog bool.

  Definition dispatch (D : proc value) (v : value) (decide : selector -> decision) (following : option segment) : iprog (proc value * bool) :=
    let '(cl, ss, next) := disp_parts D in dispatch_item tv ev cl ss next v decide following.

  (** 57-90: the loop of [transformObjectRelaxed]. *)
  Fixpoint object_relaxed (n : nat) (seg : segment) (desc : bool) (following : option segment) (v : value) (D : proc value) : iprog (proc value * bool) :=
    match n with
    | O => IFuel
    | S m =>
        IAdvance v (fun more =>
          if more then
            IKeyVal v (fun kv => ilet key <- need (fst kv) ; ilet x <- need (snd kv) ;
            clone_if desc x (fun x2 =>
            ilet k <- of_res (to_string key) ;
            ilet (D1, r) <- dispatch D x (selects_key k) following ;
            if negb r then detach_if desc x2 (IRet (D1, false))
            else if desc then
              ilet (next', r2) <- tv seg x2 (snd (disp_parts D1)) ;
              IDetach x2
                (if r2 then object_relaxed m seg desc following v (with_next D1 next')
                 else IRet (with_next D1 next', false))
            else if no_states D1 then IRet (D1, true)
            else object_relaxed m seg desc following v D1))
          else IRet (D, true))
    end.

  (** 101-113 and 207-219: the variable ahead and the loop on it. *)
  Fixpoint look_ahead (n : nat) (look : Z) (ahead : value) (neg : Z) : iprog Z :=
    match n with
    | O => IFuel
    | S m =>
        if (0 <=? i64 (neg + look))%Z then
          IAdvance ahead (fun b => if b then look_ahead m look ahead (i64 (neg - 1)) else IRet neg)
        else IRet neg
    end.
  Definition start_ahead {A} (n : nat) (look : Z) (v : value) (k : option value -> Z -> iprog A) : iprog A :=
    if (0 <? look)%Z then
      IClone v (fun ahead => ilet neg <- look_ahead n look ahead 0 ; k (Some ahead) neg)
    else k None (min64 + 1)%Z.
  (** 135-137 and 242-244. *)
  Definition step_ahead {A} (ahead : option value) (neg : Z) (k : Z -> iprog A) : iprog A :=
    match ahead with
    | None => k neg
    | Some a => IAdvance a (fun b => k (if b then neg else i64 (neg + 1)))
    end.
  (** The deferred detach. *)
  Definition end_ahead {A} (ahead : option value) (k : iprog A) : iprog A :=
    match ahead with None => k | Some a => IDetach a k end.

  (** 115-153: the loop of [transformArrayRelaxed]. *)
  Fixpoint array_relaxed (n : nat) (seg : segment) (desc : bool) (following : option segment) (v : value) (ahead : option value)
      (index neg : Z) (D : proc value) : iprog (proc value * bool) :=
    match n with
    | O => IFuel
    | S m =>
        IAdvance v (fun more =>
          if more then
            ICurrent v (fun o => ilet x <- need o ;
            clone_if desc x (fun x2 =>
            ilet (D1, r) <- dispatch D x (selects_index index neg) following ;
            if negb r then detach_if desc x2 (IRet (D1, false))
            else
              step_ahead ahead neg (fun neg' =>
              if desc then
                ilet (next', r2) <- tv seg x2 (snd (disp_parts D1)) ;
                IDetach x2
                  (if r2 then array_relaxed m seg desc following v ahead (i64 (index + 1)) neg' (with_next D1 next')
                   else IRet (with_next D1 next', false))
              else if no_states D1 then IRet (D1, true)
              else array_relaxed m seg desc following v ahead (i64 (index + 1)) neg' D1)))
          else IRet (D, true))
    end.

  (** 169-180: the first loop of [transformObjectStrict]. *)
  Fixpoint object_strict (n : nat) (following : option segment) (v : value) (D : proc value) : iprog (proc value * bool) :=
    match n with
    | O => IFuel
    | S m =>
        IAdvance v (fun more =>
          if more then
            IKeyVal v (fun kv => ilet key <- need (fst kv) ; ilet x <- need (snd kv) ;
            ilet k <- of_res (to_string key) ;
            ilet (D1, r) <- dispatch D x (selects_key k) following ;
            if negb r then IRet (D1, false)
            else if no_states D1 then IRet (D1, true)
            else object_strict m following v D1)
          else IRet (D, true))
    end.
  (** 228-249: the first loop of [transformArrayStrict]. *)
  Fixpoint array_strict (n : nat) (following : option segment) (v : value) (ahead : option value) (index neg : Z) (D : proc value) : iprog (proc value * bool) :=
    match n with
    | O => IFuel
    | S m =>
        IAdvance v (fun more =>
          if more then
            ICurrent v (fun o => ilet x <- need o ;
            ilet (D1, r) <- dispatch D x (selects_index index neg) following ;
            if negb r then IRet (D1, false)
            else
              step_ahead ahead neg (fun neg' =>
              if no_states D1 then IRet (D1, true)
              else array_strict m following v ahead (i64 (index + 1)) neg' D1))
          else IRet (D, true))
    end.
  (** 188-196, 257-266: the second loop, on the clone. *)
  Fixpoint descend (n : nat) (seg : segment) (v : value) (next : proc value) : iprog (proc value * bool) :=
    match n with
    | O => IFuel
    | S m =>
        IAdvance v (fun more =>
          if more then
            ICurrent v (fun o => ilet x <- need o ;
            ilet (next', r) <- tv seg x next ;
            if r then descend m seg v next' else IRet (next', false))
          else IRet (next, true))
    end.

  (** 32-50 [transformValue] with 52-91 [transformObjectRelaxed], 93-154
      [transformArrayRelaxed], 156-197 [transformObjectStrict], 199-267
      [transformArrayStrict].  Deferred calls run last, in reverse order. *)
  Definition transform_body (n : nat) (seg : segment) (v : value) (next : proc value) : iprog (proc value * bool) :=
    let '(Seg sels look desc strict following) := seg in
    let D := PDisp false (new_states sels) next in
    match v with
    | VScalar _ => IDiscard v (IRet (next, true))
    | VObj _ =>
        if strict then
          if desc then
            IClone v (fun v2 =>
            ilet (D1, r) <- object_strict n following v D ;
            if r then
              ilet (next', r2) <- descend n seg v2 (snd (disp_parts D1)) ;
              IDetach v2 (finish (with_next D1 next') r2)
            else IDetach v2 (finish D1 false))
          else
            ilet (D1, r) <- object_strict n following v D ; finish D1 r
        else
          ilet (D1, r) <- object_relaxed n seg desc following v D ; finish D1 r
    | VArr _ =>
        start_ahead n look v (fun ahead neg =>
        if strict then
          if desc then
            IClone v (fun v2 =>
            ilet (D1, r) <- array_strict n following v ahead 0 neg D ;
            if r then
              ilet (next', r2) <- descend n seg v2 (snd (disp_parts D1)) ;
              IDetach v2 (end_ahead ahead (finish (with_next D1 next') r2))
            else IDetach v2 (end_ahead ahead (finish D1 false)))
          else
            ilet (D1, r) <- array_strict n following v ahead 0 neg D ; end_ahead ahead (finish D1 r)
        else
          ilet (D1, r) <- array_relaxed n seg desc following v ahead 0 neg D ; end_ahead ahead (finish D1 r))
    end.
End Loops.

(* ------------------------------------------------------------------ *)
(** Singular queries. *)

(** comparableevaluators.go:78-86 [NameSingularSelectorRunner.SelectFromObject]. *)
Fixpoint select_from_object (n : nat) (name : bytes) (v : value) : iprog (option value) :=
  match n with
  | O => IFuel
  | S m =>
      IAdvance v (fun more =>
        if more then
          IKeyVal v (fun kv => ilet key <- need (fst kv) ;
          ilet k <- of_res (to_string key) ;
          if bytes_eqb k name then IRet (snd kv) else select_from_object m name v)
        else IRet None)
  end.
(** 109-119: the loop of [IndexSingularSelectorRunner.SelectFromArray]. *)
Fixpoint select_index (n : nat) (i : Z) (v : value) (ahead : option value) (index neg : Z) : iprog (option value) :=
  match n with
  | O => IFuel
  | S m =>
      IAdvance v (fun more =>
        if more then
          ICurrent v (fun x =>
          if d_yes (selects_from_index (PIndex i) index neg) then IRet x
          else step_ahead ahead neg (fun neg' => select_index m i v ahead (i64 (index + 1)) neg'))
        else IRet None)
  end.
(** 93-120 [IndexSingularSelectorRunner.SelectFromArray]. *)
Definition select_from_array (n : nat) (i : Z) (v : value) : iprog (option value) :=
  let look := lookahead (PIndex i) in
  if (0 <? look)%Z then
    IClone v (fun ahead =>
    ilet neg <- look_ahead n look ahead 0 ;
    ilet r <- select_index n i v (Some ahead) 0 neg ;
    IDetach ahead (IRet r))
  else select_index n i v None 0 min64.

(** 37-52 [SingularQueryRunner.Evaluate]. *)
Fixpoint eval_singular (n : nat) (l : list ssel) (v : value) : iprog (option value) :=
  match l with
  | [] => IRet (Some v)
  | s :: r =>
      ilet o <- (match v, s with
                 | VObj _, SSName name => select_from_object n name v
                 | VArr _, SSIndex i => select_from_array n i v
                 | _, _ => IRet None
                 end) ;
      match o with
      | None => IRet None
      | Some x => eval_singular n r x
      end
  end.

(* ------------------------------------------------------------------ *)
(** Scalars in comparisons and functions. *)

(** The order of float64 values. *)
Definition float_ltb (a b : float) : bool :=
  let '(sa, (ma, ka)) := a in
  let '(sb, (mb, kb)) := b in
  let k := Z.min ka kb in
  let signed (s : bool) m := if s then (- m)%Z else m in
  (signed sa (ma * 2 ^ (ka - k)) <? signed sb (mb * 2 ^ (kb - k)))%Z.
(** The order of Go strings, byte by byte. *)
Fixpoint bytes_ltb (a b : bytes) : bool :=
  match a, b with
  | [], [] => false
  | [], _ => true
  | _, [] => false
  | x :: a', y :: b' => (x <? y)%N || (x =? y)%N && bytes_ltb a' b'
  end.

(** logicalevaluators.go:125-141: the end of [checkLessThan]. *)
Definition scalar_less (s t : scalar) : res bool :=
  if negb (stype_eqb (sc_type s) (sc_type t)) then Ok false
  else match sc_type s with
  | TNum => match go_number (sc_bytes s), go_number (sc_bytes t) with
            | Some x, Some y => Ok (float_ltb x y)
            | _, _ => Panic
            end
  | TStr => match go_string (sc_bytes s), go_string (sc_bytes t) with
            | Some x, Some y => Ok (bytes_ltb x y)
            | _, _ => Panic
            end
  | _ => Ok false
  end.
(** 106-142 [checkEqual], [checkLessThan]. *)
Definition check_equal (n : nat) (l r : option value) : iprog bool := values_equal n l r.
Definition check_less (l r : option value) : iprog bool :=
  match l, r with
  | Some (VScalar s), Some (VScalar t) => of_res (scalar_less s t)
  | _, _ => IRet false
  end.

(** unicode/utf8 RuneCountInString: a byte that starts no character counts for
    one. *)
Fixpoint rune_count (fuel : nat) (l : bytes) : N :=
  match fuel, l with
  | S f, b :: _ =>
      let k := if (b <? 128)%N then 1%nat else match rune_len l with O => 1%nat | k => k end in
      (1 + rune_count f (skipn k l))%N
  | _, _ => 0%N
  end.

(** token/tokens.go:248-250 [Int64Scalar], for numbers that are not negative. *)
Definition int_scalar (n : N) : scalar := new_scalar TNum (itoa n).

(** function.go:103-112: the loops of [run_length]. *)
Fixpoint count_items (n : nat) (v : value) (c : N) : iprog N :=
  match n with
  | O => IFuel
  | S m => IAdvance v (fun b => if b then count_items m v (c + 1)%N else IRet c)
  end.

(** function.go:100-122 [run_length].  (In the case of an object the count goes
    to another variable, declared at 108.) *)
Definition run_length (n : nat) (o : option value) : iprog (option value) :=
  match o with
  | None => IRet None
  | Some (VArr c) => ilet k <- count_items n (VArr c) 0%N ; IRet (Some (VScalar (int_scalar k)))
  | Some (VObj c) => ilet _ <- count_items n (VObj c) 0%N ; IRet (Some (VScalar (int_scalar 0)))
  | Some (VScalar s) =>
      match sc_type s with
      | TStr => ilet x <- of_res (to_string s) ; IRet (Some (VScalar (int_scalar (rune_count (length x) x))))
      | _ => IRet None
      end
  end.

(** The values of the arguments of a function. *)
Inductive argval := RVal (o : option value) | RBool (b : bool) | RNodes (q : query) (v : value).
(** function.go:19-25: the types of arguments. *)
Inductive ftype := TyValue | TyLogical | TyNodes.
(** function.go:67-98. *)
Definition input_types (f : fname) : list ftype :=
  match f with
  | FLength => [TyValue]
  | FCount => [TyNodes]
  | FMatch | FSearch => [TyValue; TyValue]
  | FValue => [TyNodes]
  end.
Definition output_type (f : fname) : ftype :=
  match f with FMatch | FSearch => TyLogical | _ => TyValue end.

(** What a function returns. *)
Inductive fresult := FVal (o : option value) | FBool (b : bool).

(** queryrunner.go:73-76 [RunContext]: the values of the inner singular queries
    and, for each inner query, an iterator on its results. *)
Record context := mkCtx { cx_singular : list (option value); cx_queries : list nat }.

Section Evaluate.
  (** iregexp.Compile and regexp's FindIndex: for a pattern and a subject, where
      the leftmost match starts and ends ([None] when there is none, or the
      pattern is not valid).  The cache in iregexp.go is left out. *)
  Variable find : bytes -> bytes -> option (nat * nat).
  Variable ctx : context.

  (** function.go:143-173 [matchIndex]; the end is relative to the end of the
      subject. *)
  Definition match_index (a b : argval) : res (option (nat * Z)) :=
    match a, b with
    | RVal (Some (VScalar s)), RVal (Some (VScalar t)) =>
        match sc_type s, sc_type t with
        | TStr, TStr =>
            match go_string (sc_bytes t) with
            | None => Panic
            | Some ptn =>
                do subject <- (if sc_unesc s then
                                 match sc_bytes s with _ :: ((_ :: _) as r) => Ok (removelast r) | _ => Panic end
                               else match go_string (sc_bytes s) with Some x => Ok x | None => Panic end) ;
                Ok (match find ptn subject with
                    | None => None
                    | Some (i, j) => Some (i, Z.of_nat j - Z.of_nat (length subject))%Z
                    end)
            end
        | _, _ => Ok None
        end
    | _, _ => Ok None
    end.

  (** queryrunner.go:168-177 [InnerQueryRunner.MapValue]: the loop on the
      iterator [i]. *)
  Fixpoint each_inner (n : nat) (i : nat) (P : proc value) : iprog (proc value * bool) :=
    match n with
    | O => IFuel
    | S m =>
        IIterAdvance i (fun more =>
          if more then
            IIterCurrent i (fun o => ilet x <- need o ;
            ilet (P', r) <- process P x ;
            if r then each_inner m i P' else IRet (P', false))
          else IRet (P, true))
    end.
  (** queryrunner.go:112-117, 168-177 [MapValue]. *)
  Definition map_value (tv : segment -> value -> proc value -> iprog (proc value * bool)) (n : nat) (q : query) (v : value) (P : proc value)
    : iprog (proc value * bool) :=
    match q with
    | QFirst None => process P v
    | QFirst (Some seg) => tv seg v P
    | QInner i =>
        ilet it <- need (nth_error (cx_queries ctx) i) ;
        IIterClone it (fun j =>
        ilet (P', r) <- each_inner n j P ;
        IIterDetach j (IRet (P', r)))
    end.

  (** function.go:100-186: the functions of the registry. *)
  Definition run_function (tv : segment -> value -> proc value -> iprog (proc value * bool)) (n : nat) (f : fname) (args : list argval) : iprog fresult :=
    match f, args with
    | FLength, [RVal o] => ilet r <- run_length n o ; IRet (FVal r)
    | FCount, [RNodes q v] =>
        ilet (P, _) <- map_value tv n q v (PCount 0%N) ;
        match P with PCount k => IRet (FVal (Some (VScalar (int_scalar k)))) | _ => IPanic end
    | FMatch, [a; b] =>
        ilet l <- of_res (match_index a b) ;
        IRet (FBool (match l with Some (i, j) => (i =? 0)%nat && (j =? 0)%Z | None => false end))
    | FSearch, [a; b] =>
        ilet l <- of_res (match_index a b) ;
        IRet (FBool (match l with Some _ => true | None => false end))
    | FValue, [RNodes q v] =>
        ilet (P, _) <- map_value tv n q v (PValue None) ;
        match P with PValue o => IRet (FVal o) | _ => IPanic end
    | _, _ => IPanic
    end.

  (** functionrunnner.go:10-29 [run]: the arguments one by one, the clones being
      detached after the function has run. *)
  Fixpoint run_args (ec : operand -> value -> iprog (option value)) (ev : cond -> value -> iprog bool)
      (tys : list ftype) (args : list arg) (v : value) (acc : list argval) (k : list argval -> iprog fresult) : iprog fresult :=
    match tys, args with
    | _, [] => k (rev acc)
    | ty :: tys', a :: args' =>
        match ty, a with
        | TyValue, AVal c =>
            IClone v (fun x =>
            ilet o <- ec c x ;
            ilet r <- run_args ec ev tys' args' v (RVal o :: acc) k ;
            IDetach x (IRet r))
        | TyLogical, ALog c => ilet b <- ev c v ; run_args ec ev tys' args' v (RBool b :: acc) k
        | TyLogical, ANodes q => ilet b <- ev (CQuery q) v ; run_args ec ev tys' args' v (RBool b :: acc) k
        | TyNodes, ANodes q => run_args ec ev tys' args' v (RNodes q v :: acc) k
        | _, _ => IPanic
        end
    | [], _ :: _ => IPanic
    end.
  Definition run_fun tv ec ev (n : nat) (f : fname) (args : list arg) (v : value) : iprog fresult :=
    run_args ec ev (input_types f) args v [] (run_function tv n f).

  (** logicalevaluators.go:26-46: short-circuit evaluation. *)
  Fixpoint any_true (ev : cond -> value -> iprog bool) (l : list cond) (v : value) : iprog bool :=
    match l with
    | [] => IRet false
    | c :: r => ilet b <- ev c v ; if b then IRet true else any_true ev r v
    end.
  Fixpoint all_true (ev : cond -> value -> iprog bool) (l : list cond) (v : value) : iprog bool :=
    match l with
    | [] => IRet true
    | c :: r => ilet b <- ev c v ; if b then all_true ev r v else IRet false
    end.

  Definition clone_opt {A} (o : option value) (k : option value -> iprog A) : iprog A :=
    match o with None => k None | Some x => IClone x (fun y => k (Some y)) end.
  Definition detach_opt {A} (o : option value) (k : iprog A) : iprog A :=
    match o with None => k | Some x => IDetach x k end.

  (** logicalevaluators.go:70-104 [ComparisonEvaluator.EvaluateTruth]. *)
  Definition compare_values (ec : operand -> value -> iprog (option value)) (n : nat)
      (x : operand) (eq lt neg : bool) (y : operand) (v : value) : iprog bool :=
    IClone v (fun v1 => IClone v (fun v2 =>
    ilet l <- ec x v1 ;
    clone_opt l (fun l' =>
    ilet r <- ec y v2 ;
    clone_opt r (fun r' =>
    ilet b <- (if eq then check_equal n l' r' else IRet false) ;
    ilet b' <- (if negb b && lt then check_less l' r' else IRet b) ;
    detach_opt r' (detach_opt l' (IDetach v2 (IDetach v1 (IRet (xorb b' neg))))))))).

  (** segmentrunner.go:32-50 [transformValue]; logicalevaluators.go:26-104,
      queryrunner.go:90-97, functionrunnner.go:31-33 [EvaluateTruth];
      comparableevaluators.go:25-52, queryrunner.go:183-185,
      functionrunnner.go:35-41 [Evaluate]. *)
  Fixpoint transform_value (n : nat) (seg : segment) (v : value) (P : proc value) : iprog (proc value * bool) :=
    match n with
    | O => IFuel
    | S m => transform_body (transform_value m) (eval_cond m) m seg v P
    end
  with eval_cond (n : nat) (c : cond) (v : value) : iprog bool :=
    match n with
    | O => IFuel
    | S m =>
        match c with
        | COr l => any_true (eval_cond m) l v
        | CAnd l => all_true (eval_cond m) l v
        | CNot c' => ilet b <- eval_cond m c' v ; IRet (negb b)
        | CComp x eq lt neg y => compare_values (eval_comp m) m x eq lt neg y v
        | CQuery q =>
            IClone v (fun x =>
            ilet (_, r) <- map_value (transform_value m) m q x PHalt ;
            IDetach x (IRet (negb r)))
        | CFun f args =>
            ilet r <- run_fun (transform_value m) (eval_comp m) (eval_cond m) m f args v ;
            match r with FBool b => IRet b | FVal _ => IPanic end
        end
    end
  with eval_comp (n : nat) (c : operand) (v : value) : iprog (option value) :=
    match n with
    | O => IFuel
    | S m =>
        match c with
        | MLit s => IRet (Some (VScalar s))
        | MSing l => eval_singular m l v
        | MInner i => need (nth_error (cx_singular ctx) i)
        | MFun f args =>
            ilet r <- run_fun (transform_value m) (eval_comp m) (eval_cond m) m f args v ;
            match r with FVal o => IRet o | FBool _ => IPanic end
        end
    end.
End Evaluate.

(* ------------------------------------------------------------------ *)
(** queryrunner.go:8-12 [MainQueryRunner]. *)
Record runner := mkRunner { rn_main : query; rn_singular : list (list ssel); rn_queries : list query }.

(** A call of the function detach that Clone returned for the value [v], which is
    nil when [v] is a scalar. *)
Definition call_detach {A} (v c : value) (k : iprog A) : iprog A :=
  match v with VScalar _ => IPanic | _ => IDetach c k end.

(** 28-45: the values of the inner singular queries. *)
Fixpoint run_singular (n : nat) (l : list (list ssel)) (v : value) : iprog (list (option value)) :=
  match l with
  | [] => IRet []
  | q :: r =>
      IClone v (fun c =>
      ilet o <- eval_singular n q c ;
      ilet x <- (match o with
                 | Some (VScalar s) => IRet (Some (VScalar s))
                 | None => IPanic
                 | Some y => ICopy y (fun ts => IIterNew ts (fun i => IIterAdvance i (fun _ => IIterCurrent i (fun z => IRet z))))
                 end) ;
      call_detach v c (ilet xs <- run_singular n r v ; IRet (x :: xs)))
  end.
(** 46-57: the other inner queries, of which the first [length done] are known. *)
Fixpoint run_queries (find : bytes -> bytes -> option (nat * nat)) (n : nat) (singular : list (option value)) (done : list nat)
    (l : list query) (v : value) : iprog (list nat) :=
  match l with
  | [] => IRet done
  | q :: r =>
      IClone v (fun c =>
      let ctx := mkCtx singular done in
      ilet (P, _) <- map_value ctx (transform_value find ctx n) n q c (PWrite []) ;
      match P with
      | PWrite ts =>
          IIterNew ts (fun i =>
          call_detach v c (run_queries find n singular (done ++ [i]) r v))
      | _ => IPanic
      end)
  end.
(** 23-59 [computeRunContext]. *)
Definition compute_context find (n : nat) (r : runner) (v : value) : iprog context :=
  ilet s <- run_singular n (rn_singular r) v ;
  ilet q <- run_queries find n s [] (rn_queries r) v ;
  IRet (mkCtx s q).

(** 14-21 [Transform], for one value, and 61-63 [TransformValue]: the tokens
    written.  The loop on the values is [transform_values] of SplitModel.v. *)
Definition run_query find (n : nat) (r : runner) (v : value) : iprog (list token) :=
  ilet ctx <- compute_context find n r v ;
  ilet (P, _) <- map_value ctx (transform_value find ctx n) n (rn_main r) v (PWrite []) ;
  match P with PWrite ts => IRet ts | _ => IPanic end.

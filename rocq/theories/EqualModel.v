(** Model of Value.Equal, ValuesEqual and SafeValuesEqual in
    /repo/iterator/streamiterator.go, as programs that use the operations of
    IterModel.v.  [n] bounds the loops and the recursion. *)
From Coq Require Import List ZArith Bool.
From Verif Require Import Base Tokens ScalarModel IterModel.
Open Scope iprog_scope.

Definition of_res {A} (r : res A) : iprog A :=
  match r with Ok a => IRet a | Panic => IPanic | OutOfFuel => IFuel end.

(** token/tokens.go:149-152: [Scalar.Equal], where a nil scalar is equal to none. *)
Definition key_equal (a b : option scalar) : res bool :=
  match a, b with
  | Some s, Some t => scalar_equal s t
  | _, _ => Ok false
  end.

(** A value that is nil has no methods. *)
Definition need {A} (o : option A) : iprog A := match o with Some a => IRet a | None => IPanic end.

(** streamiterator.go:416-430 [SafeValuesEqual], for values that are not nil.
    The deferred calls run in reverse order. *)
Definition safe_equal (equal : value -> value -> iprog bool) (v1 v2 : value) : iprog bool :=
  IClone v1 (fun c1 =>
  IClone v2 (fun c2 =>
  ilet b <- equal c1 c2 ;
  IDetach c2 (IDetach c1 (IRet b)))).

(** streamiterator.go:372-387 [Array.Equal], from line 377 on. *)
Fixpoint arrays_equal (equal : value -> value -> iprog bool) (n : nat) (v1 v2 : value) : iprog bool :=
  match n with
  | O => IFuel
  | S m =>
      IAdvance v1 (fun b1 =>
        if b1 then
          IAdvance v2 (fun b2 =>
            if b2 then
              ICurrent v1 (fun x1 => ilet y1 <- need x1 ;
              ICurrent v2 (fun x2 => ilet y2 <- need x2 ;
              ilet b <- equal y1 y2 ;
              if b then arrays_equal equal m v1 v2 else IRet false))
            else IRet false)
        else IAdvance v2 (fun b2 => IRet (negb b2)))
  end.

(** streamiterator.go:272-276, 278: the key-values of the right object seen but
    not matched yet; in Go they have their detach functions with them. *)
Definition pending := list (option scalar * value).

(** streamiterator.go:291-294: the first pending key-value with this key, and
    the others. *)
Fixpoint find_pending (key : option scalar) (p : pending) : res (option (value * pending)) :=
  match p with
  | [] => Ok None
  | (k, v) :: p' =>
      do b <- key_equal key k ;
      if b then Ok (Some (v, p'))
      else
        do r <- find_pending key p' ;
        Ok (match r with Some (w, q) => Some (w, (k, v) :: q) | None => None end)
  end.

(** streamiterator.go:305-321: read the right object until the key is found.
    The result: whether it was found and the values are equal; pending. *)
Fixpoint find_right (equal : value -> value -> iprog bool) (n : nat) (key : option scalar) (val v2 : value) (p : pending)
  : iprog (bool * pending) :=
  match n with
  | O => IFuel
  | S m =>
      IAdvance v2 (fun b =>
        if b then
          IKeyVal v2 (fun kv => ilet val2 <- need (snd kv) ;
          ilet e <- of_res (key_equal key (fst kv)) ;
          if e then
            ilet b <- safe_equal equal val val2 ; IRet (b, p)
          else
            IClone val2 (fun c => find_right equal m key val v2 (p ++ [(fst kv, c)])))
        else IRet (false, p))
  end.

(** streamiterator.go:288-326: the loop on the left object; the result, and what
    is pending when the function returns. *)
Fixpoint objects_loop (equal : value -> value -> iprog bool) (n : nat) (v1 v2 : value) (p : pending) : iprog (bool * pending) :=
  match n with
  | O => IFuel
  | S m =>
      IAdvance v1 (fun b =>
        if b then
          IKeyVal v1 (fun kv => ilet val <- need (snd kv) ;
          ilet f <- of_res (find_pending (fst kv) p) ;
          match f with
          | Some (w, q) =>
              ilet b <- safe_equal equal val w ;
              if b then IDetach w (objects_loop equal m v1 v2 q) else IRet (false, p)
          | None =>
              ilet (b, q) <- find_right equal m (fst kv) val v2 p ;
              if b then objects_loop equal m v1 v2 q else IRet (false, q)
          end)
        else
          match p with
          | [] => IAdvance v2 (fun b2 => IRet (negb b2, p))
          | _ => IRet (false, p)
          end)
  end.

(** streamiterator.go:279-286: the deferred function. *)
Fixpoint detach_all (p : pending) {A} (k : iprog A) : iprog A :=
  match p with
  | [] => k
  | (_, v) :: p' => IDetach v (detach_all p' k)
  end.

(** streamiterator.go:259-327 [Object.Equal], 372-387 [Array.Equal], 86-92
    [Scalar.Equal]: [v1.Equal(v2)]. *)
Fixpoint equal (n : nat) (v1 v2 : value) : iprog bool :=
  match n with
  | O => IFuel
  | S m =>
      match v1, v2 with
      | VScalar s, VScalar t => of_res (scalar_equal s t)
      | VArr _, VArr _ => arrays_equal (equal m) m v1 v2
      | VObj _, VObj _ =>
          ilet (b, p) <- objects_loop (equal m) m v1 v2 [] ;
          detach_all p (IRet b)
      | _, _ => IRet false
      end
  end.

(** streamiterator.go:408-413 [ValuesEqual], 416-430 [SafeValuesEqual]; [None] is
    nil. *)
Definition values_equal (n : nat) (v1 v2 : option value) : iprog bool :=
  match v1, v2 with
  | Some a, Some b => equal n a b
  | None, None => IRet true
  | _, _ => IRet false
  end.
Definition safe_values_equal (n : nat) (v1 v2 : option value) : iprog bool :=
  match v1, v2 with
  | Some a, Some b => safe_equal (equal n) a b
  | None, None => IRet true
  | _, _ => IRet false
  end.

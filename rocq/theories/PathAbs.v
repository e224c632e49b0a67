(** What a compiled query selects, as functions of the JSON value ([sem_seg],
    [sem_cond], ...), and the algorithm of the runner on values in place of
    iterators ([atrans]).  Nothing here is part of a statement: P_Path*.v relate
    it to the specification in PathSpec.v. *)
From Coq Require Import List ZArith NArith Bool.
From Verif Require Import Base Tokens JsonSpec GoLiteral ScalarModel IterModel EqualProofs SelectModel IterSpec PathModel.

(** An item of a collection: which selectors may select it, the item, and a
    result about it. *)
Record item (R : Type) := mkItem { it_dec : selector -> decision; it_val : jval; it_res : R }.
Arguments mkItem {R}. Arguments it_dec {R}. Arguments it_val {R}. Arguments it_res {R}.

Definition key_string (k : scalar) : bytes := match to_string k with Ok s => s | _ => [] end.
Fixpoint annot_arr {R} (look : Z) (s : nat * Z) (index : Z) (l : list (jval * R)) : list (item R) :=
  match l with
  | [] => []
  | y :: l' => mkItem (selects_index index (snd s)) (fst y) (snd y) :: annot_arr look (step_look look s) (i64 (index + 1)) l'
  end.
Definition annot_obj {R} (l : list (scalar * (jval * R))) : list (item R) :=
  map (fun m => mkItem (selects_key (key_string (fst m))) (fst (snd m)) (snd (snd m))) l.
Definition annot {R} (look : Z) (x : jval) (go : jval -> R) : list (item R) :=
  match x with
  | JScalar _ => []
  | JArr l _ => annot_arr look (start_look look (length l) (min64 + 1)) 0 (map (fun y => (y, go y)) l)
  | JObj l _ => annot_obj (map (fun m => (fst m, (snd m, go (snd m)))) l)
  end.

(** Is the item selected? *)
Definition takes_item {R} (h : jval -> bool) (s : selector) (i : item R) : bool :=
  d_yes (it_dec i s) || negb (d_no (it_dec i s)) && h (it_val i).

(** The items that one selector selects. *)
Fixpoint picks {R} (h : jval -> bool) (s : selector) (l : list (item R)) : list jval :=
  match l with
  | [] => []
  | i :: l' =>
      (if takes_item h s i then [it_val i] else []) ++
      (if d_nomore (it_dec i s) then [] else picks h s l')
  end.
(** The same, each item followed by what is below it. *)
Fixpoint mixed (h : jval -> bool) (f : jval -> list jval) (s : selector) (l : list (item (list jval))) : list jval :=
  match l with
  | [] => []
  | i :: l' =>
      (if takes_item h s i then f (it_val i) else []) ++ it_res i ++
      (if d_nomore (it_dec i s) then flat_map it_res l' else mixed h f s l')
  end.

Definition ordered (s : selector) (l : list jval) : list jval := if sel_reverses s then rev l else l.
Definition child {R} (holds : selector -> jval -> bool) (f : jval -> list jval) (sels : list selector) (l : list (item R)) : list jval :=
  flat_map (fun s => ordered s (flat_map f (picks (holds s) s l))) sels.

(** Singular queries. *)
Fixpoint find_key (name : bytes) (l : list (scalar * jval)) : option jval :=
  match l with
  | [] => None
  | (k, y) :: l' => if bytes_eqb (key_string k) name then Some y else find_key name l'
  end.
Fixpoint find_index (i : Z) (look : Z) (s : nat * Z) (index : Z) (l : list jval) : option jval :=
  match l with
  | [] => None
  | y :: l' => if d_yes (selects_from_index (PIndex i) index (snd s)) then Some y
               else find_index i look (step_look look s) (i64 (index + 1)) l'
  end.
Fixpoint singular (l : list ssel) (x : jval) : option jval :=
  match l with
  | [] => Some x
  | s :: r =>
      match (match x, s with
             | JObj m _, SSName name => find_key name m
             | JArr a _, SSIndex i => let look := lookahead (PIndex i) in find_index i look (start_look look (length a) min64) 0 a
             | _, _ => None
             end) with
      | None => None
      | Some y => singular r y
      end
  end.

(** Comparisons and functions. *)
Definition jeq (x y : jval) : bool := match peq (S (size x)) x y with Some b => b | None => false end.
Definition oeq (a b : option jval) : bool :=
  match a, b with
  | None, None => true
  | Some x, Some y => jeq x y
  | _, _ => false
  end.
Definition oless (a b : option jval) : bool :=
  match a, b with
  | Some (JScalar s), Some (JScalar t) => match scalar_less s t with Ok b => b | _ => false end
  | _, _ => false
  end.

Inductive sval := SVal (o : option jval) | SLog (b : bool) | SNodes (l : list jval).
Definition count_of (l : list jval) : jval := JScalar (int_scalar (N.of_nat (length l))).
Definition length_of (o : option jval) : option jval :=
  match o with
  | None => None
  | Some (JArr l _) => Some (count_of l)
  | Some (JObj _ _) => Some (count_of [])
  | Some (JScalar s) =>
      match sc_type s with
      | TStr => match to_string s with Ok x => Some (JScalar (int_scalar (rune_count (length x) x))) | _ => None end
      | _ => None
      end
  end.
Definition as_arg (o : option jval) : argval :=
  match o with Some (JScalar s) => RVal (Some (VScalar s)) | _ => RVal None end.

Section Sem.
  Variable find : bytes -> bytes -> option (nat * nat).
  (** The values of the inner queries. *)
  Variable sing : list (option jval).
  Variable inner : list (list jval).

  Definition located (a b : option jval) : option (nat * Z) :=
    match match_index find (as_arg a) (as_arg b) with Ok r => r | _ => None end.
  Definition sem_function (f : fname) (args : list sval) : sval :=
    match f, args with
    | FLength, [SVal o] => SVal (length_of o)
    | FCount, [SNodes l] => SVal (Some (count_of l))
    | FMatch, [SVal a; SVal b] => SLog (match located a b with Some (i, j) => (i =? 0)%nat && (j =? 0)%Z | None => false end)
    | FSearch, [SVal a; SVal b] => SLog (match located a b with Some _ => true | None => false end)
    | FValue, [SNodes [y]] => SVal (Some y)
    | FValue, [SNodes _] => SVal None
    | _, _ => SVal None
    end.

  Fixpoint sem_seg (seg : segment) : jval -> list jval :=
    match seg with
    | Seg sels look desc strict following =>
        let f := match following with None => fun y => [y] | Some s => sem_seg s end in
        fix go (x : jval) : list jval :=
          let its := annot look x go in
          if desc then
            if strict then child sem_sel f sels its ++ flat_map it_res its
            else match sels with [s] => mixed (sem_sel s) f s its | _ => [] end
          else child sem_sel f sels its
    end
  with sem_sel (s : selector) : jval -> bool :=
    match s with SFilter c => sem_cond c | _ => fun _ => false end
  with sem_cond (c : cond) : jval -> bool :=
    match c with
    | COr l => fun x => existsb (fun c' => sem_cond c' x) l
    | CAnd l => fun x => forallb (fun c' => sem_cond c' x) l
    | CNot c' => fun x => negb (sem_cond c' x)
    | CComp a eq lt neg b => fun x =>
        let u := sem_comp a x in
        let v := sem_comp b x in
        xorb ((if eq then oeq u v else false) || (if lt then oless u v else false)) neg
    | CQuery q => fun x => match sem_query q x with [] => false | _ => true end
    | CFun f args => fun x => match sem_function f (map (fun a => sem_arg a x) args) with SLog b => b | _ => false end
    end
  with sem_comp (c : operand) : jval -> option jval :=
    match c with
    | MLit s => fun _ => Some (JScalar s)
    | MSing l => singular l
    | MInner i => fun _ => match nth_error sing i with Some o => o | None => None end
    | MFun f args => fun x => match sem_function f (map (fun a => sem_arg a x) args) with SVal o => o | _ => None end
    end
  with sem_query (q : query) : jval -> list jval :=
    match q with
    | QFirst None => fun x => [x]
    | QFirst (Some seg) => sem_seg seg
    | QInner i => fun _ => match nth_error inner i with Some l => l | None => [] end
    end
  with sem_arg (a : arg) : jval -> sval :=
    match a with
    | AVal c => fun x => SVal (sem_comp c x)
    | ANodes q => fun x => SNodes (sem_query q x)
    | ALog c => fun x => SLog (sem_cond c x)
    end.

  Definition after (following : option segment) : jval -> list jval :=
    match following with None => fun y => [y] | Some s => sem_seg s end.
  Lemma sem_seg_eq : forall sels look desc strict following x,
    sem_seg (Seg sels look desc strict following) x =
    let its := annot look x (sem_seg (Seg sels look desc strict following)) in
    if desc then
      if strict then child sem_sel (after following) sels its ++ flat_map it_res its
      else match sels with [s] => mixed (sem_sel s) (after following) s its | _ => [] end
    else child sem_sel (after following) sels its.
  Proof. intros sels look desc strict following [s|l e|l e]; reflexivity. Qed.
End Sem.

(* ------------------------------------------------------------------ *)
(** The runner on values. *)

Definition apush (cl : bool) (x : jval) (s : state jval) : state jval :=
  if st_selected s then push s x cl else s.

Fixpoint aprocess (Q : proc jval) (x : jval) : proc jval * bool :=
  match Q with
  | PWrite out => (PWrite (out ++ toks x), true)
  | PHalt => (PHalt, false)
  | PCount n => (PCount (n + 1)%N, true)
  | PValue (Some _) => (PValue None, false)
  | PValue None => (PValue (Some x), true)
  | PDisp cl ss next =>
      match ss with
      | [] => (Q, true)
      | s :: r =>
          if st_selected s && negb (sel_reverses (st_sel s)) then
            let '(next', b) := aprocess next x in
            if b then (PDisp cl (s :: map (apush cl x) r) next', true) else (PDisp cl ss next', false)
          else (PDisp cl (map (apush cl x) ss) next, true)
      end
  end.

(** Values one after the other, until the answer is to stop. *)
Fixpoint feed (Q : proc jval) (l : list jval) : proc jval * bool :=
  match l with
  | [] => (Q, true)
  | x :: l' => let '(Q', b) := aprocess Q x in if b then feed Q' l' else (Q', false)
  end.

Definition aflush_values (l : list (jval * bool)) (result : bool) (Q : proc jval) : proc jval * bool :=
  if result then feed Q (map fst l) else (Q, false).
Fixpoint aflush_states (ss : list (state jval)) (result : bool) (Q : proc jval) : proc jval * bool :=
  match ss with
  | [] => (Q, result)
  | s :: r => let '(Q', b) := aflush_values (in_order s) result Q in aflush_states r b Q'
  end.

Fixpoint adecide (taken : selector -> bool) (dec : selector -> decision) (i first count : nat) (ss : list (state jval))
  : list (state jval) * nat * nat :=
  match ss with
  | [] => ([], first, count)
  | s :: r =>
      if st_done s then
        let '(r', f, c) := adecide taken dec (S i) (if first =? i then S first else first)%nat count r in
        (mkState (st_sel s) false (st_pending s) true :: r', f, c)
      else
        let sel := taken (st_sel s) in
        let '(r', f, c) := adecide taken dec (S i)
          (if d_nomore (dec (st_sel s)) && negb sel && (first =? i)%nat then S first else first)
          (if sel then S count else count) r in
        (mkState (st_sel s) sel (st_pending s) (d_nomore (dec (st_sel s))) :: r', f, c)
  end.

Definition adispatch (f : jval -> proc jval -> proc jval * bool) (taken : selector -> bool) (dec : selector -> decision)
    (D : proc jval) (y : jval) : proc jval * bool :=
  let '(cl, ss, next) := disp_parts D in
  match ss with
  | [] => (PDisp cl ss next, true)
  | _ =>
      let '(ss1, first, count) := adecide taken dec 0 0 0 ss in
      let '(next1, r1) := if (0 <? first)%nat then aflush_states (firstn first ss1) true next else (next, true) in
      match skipn first ss1 with
      | [] => (PDisp cl [] next1, r1)
      | s :: r =>
          if negb r1 then (PDisp cl (s :: r) next1, false)
          else
            let '(s', next2, r2) :=
              if negb (sel_reverses (st_sel s)) && negb (match st_pending s with [] => true | _ => false end)
              then let '(next2, r2) := aflush_values (in_order s) true next1 in (clear s, next2, r2)
              else (s, next1, true) in
            if negb r2 then (PDisp cl (s' :: r) next2, false)
            else if (0 <? count)%nat then f y (PDisp ((1 <? count)%nat || negb (st_selected s')) (s' :: r) next2)
            else (PDisp cl (s' :: r) next2, true)
      end
  end.

Definition afinish (D : proc jval) (result : bool) : proc jval * bool :=
  let '(_, ss, next) := disp_parts D in (fst (aflush_states ss result next), result).

Definition aitem := item (proc jval -> proc jval * bool).

(** The loop of the relaxed mode. *)
Fixpoint arelaxed (f : jval -> proc jval -> proc jval * bool) (holds : selector -> jval -> bool) (desc : bool)
    (its : list aitem) (D : proc jval) : proc jval * bool :=
  match its with
  | [] => (D, true)
  | i :: its' =>
      let '(D1, r) := adispatch f (fun s => takes_item (holds s) s i) (it_dec i) D (it_val i) in
      if negb r then (D1, false)
      else if desc then
        let '(next', r2) := it_res i (snd (disp_parts D1)) in
        if r2 then arelaxed f holds desc its' (with_next D1 next') else (with_next D1 next', false)
      else if no_states D1 then (D1, true)
      else arelaxed f holds desc its' D1
  end.
(** The two loops of the strict mode. *)
Fixpoint astrict (f : jval -> proc jval -> proc jval * bool) (holds : selector -> jval -> bool)
    (its : list aitem) (D : proc jval) : proc jval * bool :=
  match its with
  | [] => (D, true)
  | i :: its' =>
      let '(D1, r) := adispatch f (fun s => takes_item (holds s) s i) (it_dec i) D (it_val i) in
      if negb r then (D1, false) else if no_states D1 then (D1, true) else astrict f holds its' D1
  end.
Fixpoint adescend (its : list aitem) (Q : proc jval) : proc jval * bool :=
  match its with
  | [] => (Q, true)
  | i :: its' => let '(Q', r) := it_res i Q in if r then adescend its' Q' else (Q', false)
  end.

Definition arun (f : jval -> proc jval -> proc jval * bool) (holds : selector -> jval -> bool) (sels : list selector)
    (desc strict : bool) (its : list aitem) (Q : proc jval) : proc jval * bool :=
  let D := PDisp false (new_states sels) Q in
  if strict then
    let '(D1, r) := astrict f holds its D in
    if desc then
      if r then
        let '(Q', r2) := adescend its (snd (disp_parts D1)) in afinish (with_next D1 Q') r2
      else afinish D1 false
    else afinish D1 r
  else
    let '(D1, r) := arelaxed f holds desc its D in afinish D1 r.

Section Run.
  Variable holds : selector -> jval -> bool.

  Fixpoint atrans (seg : segment) : jval -> proc jval -> proc jval * bool :=
    match seg with
    | Seg sels look desc strict following =>
        let f := match following with None => fun y D => aprocess D y | Some s => atrans s end in
        fix go (x : jval) : proc jval -> proc jval * bool :=
          let its := annot look x go in
          match x with
          | JScalar _ => fun Q => (Q, true)
          | _ => arun f holds sels desc strict its
          end
    end.
  Definition afollow (following : option segment) : jval -> proc jval -> proc jval * bool :=
    match following with None => fun y D => aprocess D y | Some s => atrans s end.
  Lemma atrans_eq : forall sels look desc strict following x,
    atrans (Seg sels look desc strict following) x =
    match x with
    | JScalar _ => fun Q => (Q, true)
    | _ => arun (afollow following) holds sels desc strict (annot look x (atrans (Seg sels look desc strict following)))
    end.
  Proof. intros sels look desc strict following [s|l e|l e]; reflexivity. Qed.
End Run.

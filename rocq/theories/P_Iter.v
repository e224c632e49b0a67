(** C27 and C28: iteration and clones.

    The specification is in ScriptSpec.v: it reads JSON values, and knows
    nothing of tokens, cursors or pools.  The model is IterModel.v. *)
From Coq Require Import List ZArith Arith Bool Lia.
From Verif Require Import Base Tokens JsonSpec EncSpec CursorModel IterModel IterSpec IterSound ScriptSpec ScriptProofs.

(** For every stream of values and every script - any sequence of commands to
    move on, go into an item, leave it half read, copy it, discard it, clone it,
    detach a clone, addressed in any order to the iterator on the stream and to
    the clones - the API shows exactly what the specification shows. *)
Theorem C27_C28_scripts : forall grow vs l, (Z.of_nat (length (stream vs)) < maxint)%Z ->
  exists n0 h', forall n, n0 <= n ->
    irun grow n (script l) (start (stream vs)) = Ok (h', run_readers (readers_of vs) l).
Proof.
  intros grow vs l L. destruct (script_ok vs l) as [st' R].
  exact (iterators_follow_spec grow _ (script l) vs st' _ L R).
Qed.

(* ------------------------------------------------------------------ *)
(** What this says about one reader.  [level d l os]: of the script [l] with
    outputs [os], what the [CNext] commands to reader 0 gave, of those issued
    when it was in no array or object but the [d] outermost ones.  Whether it is
    in one is known from the commands: [CEnter] enters, [CLeave] leaves, if they
    made sense. *)
Definition moved (c : cmd) (o : out) (depth : nat) : nat :=
  match c, o with
  | CEnter, ODone => S depth
  | CLeave, ODone => pred depth
  | _, _ => depth
  end.

Fixpoint level (d depth : nat) (l : list (nat * cmd)) (os : list out) : list out :=
  match l, os with
  | (0, c) :: l', o :: os' =>
      (match c with CNext => if depth =? d then [o] else [] | _ => [] end) ++ level d (moved c o depth) l' os'
  | _ :: l', _ :: os' => level d depth l' os'
  | _, _ => []
  end.

(** The least depth reached. *)
Fixpoint never_below (d depth : nat) (l : list (nat * cmd)) (os : list out) : bool :=
  (d <=? depth) &&
  match l, os with
  | (0, c) :: l', o :: os' => never_below d (moved c o depth) l' os'
  | _ :: l', _ :: os' => never_below d depth l' os'
  | _, _ => true
  end.

(** What is expected: the items in order, each once, then nothing more. *)
Definition in_order (is : list (option scalar * jval)) (n : nat) : list out :=
  firstn n (map (fun kx => OItem (fst kx) (shape_of (snd kx))) is) ++ repeat OEnd (n - length is).

Fixpoint depth_of (s : cursor) : nat := match s with Inside _ s' => S (depth_of s') | _ => 0 end.

Lemma depth_inside : forall s, inside s = (0 <? depth_of s).
Proof. destruct s; reflexivity. Qed.

Lemma depth_step : forall c s s' o n, sstep c s = (s', o, n) -> (depth_of s' = moved c o (depth_of s) /\
  (c = CLeave -> o = ODone -> 0 < depth_of s)).
Proof.
  intros c s. induction s as [|x| |rest s IH]; intros s' o n H; cbn [sstep] in H.
  - injection H as <- <- <-. split; [now destruct c|discriminate].
  - destruct c; try (injection H as <- <- <-; split; [reflexivity|discriminate]).
    destruct (collection x); injection H as <- <- <-; (split; [reflexivity|discriminate]).
  - destruct c; injection H as <- <- <-; (split; [reflexivity|discriminate]).
  - destruct (inside s) eqn:I.
    + destruct (sstep c s) as [[s1 o1] n1] eqn:E. injection H as <- <- <-. destruct (IH _ _ _ eq_refl) as [D1 D2].
      cbn [depth_of]. rewrite D1. split; [|lia]. destruct c, o1; cbn [moved]; try reflexivity.
      specialize (D2 eq_refl eq_refl). lia.
    + assert (Z : depth_of s = 0) by (destruct s; try reflexivity; discriminate).
      cbn [depth_of]. rewrite Z.
      destruct c; try (destruct (sstep _ s) as [[s1 o1] n1] eqn:E; injection H as <- <- <-; destruct (IH _ _ _ eq_refl) as [D1 D2];
        cbn [depth_of]; rewrite D1, Z; split; [destruct o1; reflexivity|lia]).
      * destruct rest as [|[k x] rest']; injection H as <- <- <-; (split; [reflexivity|lia]).
      * injection H as <- <- <-. split; [reflexivity|lia].
Qed.

Lemma rest_step : forall c rest s s' o n, sstep c (Inside rest s) = (s', o, n) ->
  match c with
  | CNext =>
      if depth_of s =? 0
      then o = (match rest with [] => OEnd | (k, x) :: _ => OItem k (shape_of x) end) /\ exists s1, s' = Inside (tl rest) s1
      else exists s1, s' = Inside rest s1
  | CLeave => 0 < moved c o (S (depth_of s)) -> exists s1, s' = Inside rest s1
  | _ => exists s1, s' = Inside rest s1
  end.
Proof.
  intros c rest s s' o n H. cbn [sstep] in H. destruct (inside s) eqn:I.
  - assert (Z : (depth_of s =? 0) = false) by (rewrite depth_inside in I; apply Nat.ltb_lt in I; apply Nat.eqb_neq; lia).
    destruct (sstep c s) as [[s1 o1] n1]. injection H as <- <- <-. rewrite Z. destruct c; eauto.
  - assert (Z : depth_of s = 0) by (rewrite depth_inside in I; apply Nat.ltb_ge in I; lia). rewrite Z, Nat.eqb_refl.
    destruct c; try (destruct (sstep _ s) as [[s1 o1] n1]; injection H as <- <- <-; eauto).
    + destruct rest as [|[k x] rest']; injection H as <- <- <-; (split; [reflexivity|]); cbn [tl]; eauto.
    + injection H as <- <- <-. cbn [moved pred]. lia.
Qed.

(** Reader 0 among the readers. *)
Lemma level_other : forall rs l d depth a r, nth_error rs 0 = Some r -> fst a <> 0 ->
  exists rs', nth_error rs' 0 = Some r /\ level d depth (a :: l) (run_readers rs (a :: l)) = level d depth l (run_readers rs' l) /\
     never_below d depth (a :: l) (run_readers rs (a :: l)) = (d <=? depth) && never_below d depth l (run_readers rs' l).
Proof.
  intros rs l d depth [i c] r R NE. cbn [fst] in NE. cbn [run_readers].
  destruct (step_readers rs (i, c)) as [rs' o] eqn:S. exists rs'. split.
  - unfold step_readers in S. cbn [fst snd] in S. destruct (nth_error rs i) as [ri|] eqn:RI; [|injection S as <- <-; exact R].
    destruct (rstep c ri) as [[r' o'] n]. injection S as <- <-.
    rewrite nth_error_app_l by (rewrite upd_length; eapply nth_error_lt; exact R).
    rewrite nth_error_upd_other by exact NE. exact R.
  - cbn [level never_below]. destruct i as [|i]; [congruence|]. auto.
Qed.

Lemma step_zero : forall rs c r r' o n, nth_error rs 0 = Some r -> rstep c r = (r', o, n) ->
  exists rs', step_readers rs (0, c) = (rs', o) /\ nth_error rs' 0 = Some r'.
Proof.
  intros rs c r r' o n R S. unfold step_readers. cbn [fst snd]. rewrite R, S. eexists. split; [reflexivity|].
  rewrite nth_error_app_l by (rewrite upd_length; eapply nth_error_lt; exact R).
  apply nth_error_upd_same. eapply nth_error_lt; exact R.
Qed.

Lemma in_order_S : forall is n, in_order is (S n) =
  match is with [] => OEnd | (k, x) :: _ => OItem k (shape_of x) end :: in_order (tl is) n.
Proof.
  intros [|[k x] is] n; unfold in_order; cbn [map firstn length tl app].
  - rewrite firstn_nil. cbn [app]. now rewrite !Nat.sub_0_r.
  - reflexivity.
Qed.

(** The outermost level: the values of the stream. *)
Theorem C27_stream : forall vs l,
  exists n, level 0 0 l (run_readers (readers_of vs) l) = in_order (map (fun x => (None, x)) vs) n.
Proof.
  intros vs l.
  enough (X : forall l rs rest s, nth_error rs 0 = Some (RStream rest s) ->
    exists n, level 0 (depth_of s) l (run_readers rs l) = in_order (map (fun x => (None, x)) rest) n)
    by (apply (X l (readers_of vs) vs Nothing); reflexivity).
  clear. induction l as [|a l IH]; intros rs rest s R; [exists 0; reflexivity|].
  destruct (Nat.eq_dec (fst a) 0) as [Z|NZ].
  2:{ destruct (level_other rs l 0 (depth_of s) a _ R NZ) as [rs' [R' [-> _]]]. now apply IH. }
  destruct a as [i c]. cbn [fst] in Z. subst i.
  destruct (rstep c (RStream rest s)) as [[r' o] n] eqn:S.
  destruct (step_zero rs c _ _ _ _ R S) as [rs' [SR R']].
  cbn [run_readers]. rewrite SR. cbn [level].
  cbn [rstep] in S. rewrite depth_inside in S. destruct (0 <? depth_of s) eqn:I.
  - apply Nat.ltb_lt in I. assert (Z : (depth_of s =? 0) = false) by (apply Nat.eqb_neq; lia).
    destruct (sstep c s) as [[s1 o1] n1] eqn:E. injection S as <- <- <-.
    destruct (depth_step _ _ _ _ _ E) as [D _]. rewrite Z, <- D.
    destruct (IH rs' rest s1 R') as [m ->]. exists m. now destruct c.
  - apply Nat.ltb_ge in I. assert (Z : depth_of s = 0) by lia. rewrite Z, Nat.eqb_refl.
    destruct c; try (destruct (sstep _ s) as [[s1 o1] n1] eqn:E; injection S as <- <- <-;
      destruct (depth_step _ _ _ _ _ E) as [D _]; rewrite Z in D; rewrite <- D; destruct (IH rs' rest s1 R') as [m ->]; now exists m).
    destruct rest as [|x rest'].
    + injection S as <- <- <-. destruct (IH rs' [] Nothing R') as [m Q]. exists (Datatypes.S m). rewrite in_order_S.
      cbn [moved map tl app]. cbn [depth_of] in Q. rewrite Q. reflexivity.
    + injection S as <- <- <-. destruct (IH rs' rest' (Unread x) R') as [m Q]. exists (Datatypes.S m). rewrite in_order_S.
      cbn [moved map tl app]. cbn [depth_of] in Q. rewrite Q. reflexivity.
Qed.

(** One level down: the items of an array or object [x].  Whatever is done with
    each of them, and with the clones, before moving on. *)
Theorem C27_items : forall x vs l, collection x = true ->
  let l' := (0, CNext) :: (0, CEnter) :: l in
  let os := run_readers (readers_of (x :: vs)) l' in
  never_below 1 1 l (skipn 2 os) = true ->
  exists n, level 1 1 l (skipn 2 os) = in_order (items x) n.
Proof.
  intros x vs l CO l' os. unfold os, l'. clear os l'. cbn [run_readers].
  unfold step_readers at 1 3. cbn [readers_of fst snd nth_error rstep inside upd app].
  unfold step_readers at 1 2. cbn [fst snd nth_error rstep inside upd app sstep]. rewrite CO. cbn [upd app skipn].
  change 1 with (S (depth_of Nothing)) at 2 4.
  enough (X : forall l rs rest top s, nth_error rs 0 = Some (RStream top (Inside rest s)) ->
    never_below 1 (S (depth_of s)) l (run_readers rs l) = true ->
    exists n, level 1 (S (depth_of s)) l (run_readers rs l) = in_order rest n)
    by (intro NB; eapply X; [reflexivity|exact NB]).
  clear. induction l as [|a l IH]; intros rs rest top s R NB; [exists 0; reflexivity|].
  destruct (Nat.eq_dec (fst a) 0) as [Z|NZ].
  2:{ destruct (level_other rs l 1 (S (depth_of s)) a _ R NZ) as [rs' [R' [Q1 Q2]]]. rewrite Q1. rewrite Q2 in NB.
      apply andb_true_iff in NB as [_ NB]. eapply IH; eauto. }
  destruct a as [i c]. cbn [fst] in Z. subst i.
  destruct (rstep c (RStream top (Inside rest s))) as [[r' o] n] eqn:S.
  destruct (step_zero rs c _ _ _ _ R S) as [rs' [SR R']].
  cbn [run_readers] in *. rewrite SR in *. cbn [level]. cbn [never_below] in NB. apply andb_true_iff in NB as [_ NB].
  cbn [rstep inside] in S. destruct (sstep c (Inside rest s)) as [[s1 o1] n1] eqn:E. injection S as <- <- <-.
  destruct (depth_step _ _ _ _ _ E) as [D _]. cbn [depth_of] in D.
  assert (POS : 0 < moved c o1 (Datatypes.S (depth_of s))).
  { destruct l, (run_readers rs' _); cbn [never_below] in NB; apply andb_true_iff in NB as [NB _]; apply Nat.leb_le in NB; lia. }
  pose proof (rest_step _ _ _ _ _ _ E) as RS.
  assert (KEEP : forall s2, s1 = Inside rest s2 -> exists n0, level 1 (moved c o1 (Datatypes.S (depth_of s))) l (run_readers rs' l) = in_order rest n0).
  { intros s2 ->. cbn [depth_of] in D. rewrite <- D in *. eapply IH; eauto. }
  destruct c; try (destruct RS as [s2 ->]; destruct (KEEP s2 eq_refl) as [m Q]; rewrite Q; now exists m).
  - change (Datatypes.S (depth_of s) =? 1) with (depth_of s =? 0). destruct (depth_of s =? 0).
    + destruct RS as [-> [s2 ->]]. cbn [depth_of] in D. rewrite <- D in *.
      destruct (IH rs' (tl rest) top s2 R' NB) as [m ->]. exists (Datatypes.S m). rewrite in_order_S. reflexivity.
    + destruct RS as [s2 ->]. destruct (KEEP s2 eq_refl) as [m Q]. rewrite Q. now exists m.
  - destruct (RS POS) as [s2 ->]. destruct (KEEP s2 eq_refl) as [m Q]. rewrite Q. now exists m.
Qed.

(* ------------------------------------------------------------------ *)
(** Clones.  A reader on its own. *)
Fixpoint alone (r : reader) (cs : list cmd) : list out :=
  match cs with
  | [] => []
  | c :: cs' => let '(r', o, _) := rstep c r in o :: alone r' cs'
  end.

(** What reader [i] is told to do, and what it shows. *)
Definition commands (i : nat) (l : list (nat * cmd)) : list cmd := map snd (filter (fun a => fst a =? i) l).
Fixpoint outputs (i : nat) (l : list (nat * cmd)) (os : list out) : list out :=
  match l, os with
  | a :: l', o :: os' => (if fst a =? i then [o] else []) ++ outputs i l' os'
  | _, _ => []
  end.

Lemma outputs_alone : forall l rs i r, nth_error rs i = Some r ->
  outputs i l (run_readers rs l) = alone r (commands i l).
Proof.
  induction l as [|[j c] l IH]; intros rs i r R; [reflexivity|].
  cbn [run_readers]. unfold commands. cbn [filter fst].
  destruct (step_readers rs (j, c)) as [rs' o] eqn:S. cbn [outputs fst].
  unfold step_readers in S. cbn [fst snd] in S.
  destruct (j =? i) eqn:E.
  - apply Nat.eqb_eq in E. subst j. rewrite R in S. cbn [map snd alone].
    destruct (rstep c r) as [[r' o'] n]. injection S as <- <-. cbn [app]. f_equal. apply IH.
    rewrite nth_error_app_l by (rewrite upd_length; eapply nth_error_lt; exact R).
    apply nth_error_upd_same. eapply nth_error_lt; exact R.
  - apply Nat.eqb_neq in E. cbn [app]. apply IH.
    destruct (nth_error rs j) as [rj|]; [|injection S as <- <-; exact R].
    destruct (rstep c rj) as [[r' o'] n]. injection S as <- <-.
    rewrite nth_error_app_l by (rewrite upd_length; eapply nth_error_lt; exact R).
    rewrite nth_error_upd_other by exact E. exact R.
Qed.

(** The iterator on the stream shows what it would show if there were no clones
    to run, whatever they do. *)
Theorem C28_original : forall vs l l', commands 0 l = commands 0 l' ->
  outputs 0 l (run_readers (readers_of vs) l) = outputs 0 l' (run_readers (readers_of vs) l').
Proof.
  intros vs l l' E. erewrite !outputs_alone by reflexivity. now rewrite E.
Qed.

(** Making the clones does not matter either: leave out the [CClone] commands. *)
Definition no_clone (c : cmd) : bool := match c with CClone => false | _ => true end.
Fixpoint drop_clones (cs : list cmd) (os : list out) : list out :=
  match cs, os with
  | c :: cs', o :: os' => (if no_clone c then [o] else []) ++ drop_clones cs' os'
  | _, _ => []
  end.
Lemma clone_keeps : forall s s' o n, sstep CClone s = (s', o, n) -> s' = s.
Proof.
  induction s as [|x| |rest s IH]; intros s' o n H; cbn [sstep] in H; try (injection H as <- _ _; reflexivity).
  destruct (inside s); destruct (sstep CClone s) as [[s1 o1] n1]; injection H as <- _ _; now rewrite (IH _ _ _ eq_refl).
Qed.
Theorem C28_cloning : forall cs r, drop_clones cs (alone r cs) = alone r (filter no_clone cs).
Proof.
  induction cs as [|c cs IH]; intro r; [reflexivity|]. cbn [alone filter].
  destruct (rstep c r) as [[r' o] n] eqn:S. cbn [drop_clones].
  destruct (no_clone c) eqn:E.
  - cbn [app alone]. rewrite S. f_equal. apply IH.
  - destruct c; try discriminate. cbn [app].
    assert (r' = r).
    { destruct r as [rest s|s|]; cbn [rstep] in S; [|destruct (sstep CClone s) as [[s1 o1] n1] eqn:T; injection S as <- _ _; f_equal; eapply clone_keeps; exact T|now injection S as <- _ _].
      destruct (inside s); destruct (sstep CClone s) as [[s1 o1] n1] eqn:T; injection S as <- _ _; f_equal; eapply clone_keeps; exact T. }
    subst r'. apply IH.
Qed.

(** The readers after a script. *)
Definition after (rs : list reader) (l : list (nat * cmd)) : list reader := fold_left (fun rs a => fst (step_readers rs a)) l rs.

Lemma run_app : forall l1 l2 rs, run_readers rs (l1 ++ l2) = run_readers rs l1 ++ run_readers (after rs l1) l2.
Proof.
  induction l1 as [|a l1 IH]; intros l2 rs; [reflexivity|]. cbn [app run_readers after fold_left].
  destruct (step_readers rs a) as [rs' o]. cbn [fst app]. f_equal. apply IH.
Qed.

Lemma outputs_app : forall i l1 l2 os1 os2, length l1 = length os1 ->
  outputs i (l1 ++ l2) (os1 ++ os2) = outputs i l1 os1 ++ outputs i l2 os2.
Proof.
  induction l1 as [|a l1 IH]; intros l2 [|o os1] os2 L; try discriminate; [reflexivity|].
  cbn [app outputs]. rewrite IH by (injection L; auto). now rewrite app_assoc.
Qed.

(** A clone shows what a reader of the whole of the cloned value alone would
    show, whatever is done before, between and after with the original and the
    other clones: [x] is the item that was cloned. *)
Theorem C28_clone : forall vs l1 j l2 r r' x,
  nth_error (after (readers_of vs) l1) j = Some r -> rstep CClone r = (r', ODone, Some x) ->
  let k := length (after (readers_of vs) l1) in
  let os := run_readers (readers_of vs) (l1 ++ (j, CClone) :: l2) in
  outputs k l2 (skipn (S (length l1)) os) = alone (RClone (Unread x)) (commands k l2).
Proof.
  intros vs l1 j l2 r r' x R S k os. unfold os. rewrite run_app. cbn [run_readers].
  unfold step_readers. cbn [fst snd]. rewrite R, S.
  assert (LR : forall l rs, length (run_readers rs l) = length l).
  { induction l as [|a l IH]; intro rs; [reflexivity|]. cbn [run_readers].
    destruct (step_readers rs a). cbn [length]. now rewrite IH. }
  assert (SK : forall o b, skipn (Datatypes.S (length l1)) (run_readers (readers_of vs) l1 ++ o :: b) = b).
  { intros o b. replace (Datatypes.S (length l1)) with (length (run_readers (readers_of vs) l1 ++ [o]))
      by (rewrite app_length, LR; cbn [length]; lia).
    change (o :: b) with ([o] ++ b). rewrite app_assoc, skipn_app, skipn_all, Nat.sub_diag. reflexivity. }
  rewrite SK. apply outputs_alone. fold k. replace k with (length (upd (after (readers_of vs) l1) j r')) by apply upd_length.
  apply nth_error_app_last.
Qed.

(** What such a reader shows: copying gives all the tokens of [x], and reading it
    gives its items in order. *)
Example C28_clone_copy : forall x, alone (RClone (Unread x)) [CCopy] = [OToks (toks x)].
Proof. reflexivity. Qed.

(* ------------------------------------------------------------------ *)
(** Non-vacuity.  [1,[2,3],{"a":4}] 5, its items cloned and half read. *)
Definition num (b : N) : jval := JScalar (new_scalar TNum [b]).
Definition ex_value : jval := JArr [num 49%N; JArr [num 50%N; num 51%N] false; JObj [(new_scalar TStr [34%N; 97%N; 34%N], num 52%N)] false] false.
Definition ex_script : list (nat * cmd) :=
  [(0, CNext); (0, CClone); (0, CEnter); (0, CNext); (1, CEnter); (0, CNext); (1, CNext); (0, CEnter); (0, CNext);
   (1, CNext); (1, CCopy); (0, CLeave); (0, CNext); (0, CClone); (1, CDetach); (2, CCopy); (0, CNext); (0, CNext);
   (0, CLeave); (0, CNext); (0, CNext)].
Example ex_clones : run_readers (readers_of [ex_value; num 53%N]) ex_script =
  [OItem None ShArray; ODone; ODone; OItem None (ShScalar (new_scalar TNum [49%N])); ODone; OItem None ShArray;
   OItem None (ShScalar (new_scalar TNum [49%N])); ODone; OItem None (ShScalar (new_scalar TNum [50%N]));
   OItem None ShArray; OToks (toks (JArr [num 50%N; num 51%N] false)); ODone; OItem None ShObject; ODone; ODone;
   OToks (toks (JObj [(new_scalar TStr [34%N; 97%N; 34%N], num 52%N)] false)); OEnd; OEnd; ODone;
   OItem None (ShScalar (new_scalar TNum [53%N])); OEnd].
Proof. vm_compute. reflexivity. Qed.
Example ex_clones_model : exists h, irun (fun _ _ => 1%Z) 200 (script ex_script) (start (stream [ex_value; num 53%N])) =
  Ok (h, run_readers (readers_of [ex_value; num 53%N]) ex_script).
Proof. eexists. vm_compute. reflexivity. Qed.
Example ex_items : never_below 1 1 (skipn 2 (firstn 18 ex_script))
  (skipn 2 (run_readers (readers_of [ex_value; num 53%N]) (firstn 18 ex_script))) = true.
Proof. vm_compute. reflexivity. Qed.
Example ex_clone_hyp : exists r r', nth_error (after (readers_of [ex_value]) [(0, CNext)]) 0 = Some r /\
  rstep CClone r = (r', ODone, Some ex_value).
Proof. vm_compute. eauto. Qed.

Print Assumptions C27_C28_scripts.
Print Assumptions C27_stream.
Print Assumptions C27_items.
Print Assumptions C28_original.
Print Assumptions C28_cloning.
Print Assumptions C28_clone.

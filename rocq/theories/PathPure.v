(** What the runner on values processes: the results of [sem_seg]. *)
From Coq Require Import List ZArith NArith Arith Bool Lia.
From Verif Require Import Base Tokens JsonSpec EncSpec IterSpec SelectModel PathModel PathAbs PathFacts.

(** Processors that never ask to stop. *)
Fixpoint total (Q : proc jval) : Prop :=
  match Q with PWrite _ | PCount _ => True | PDisp _ _ next => total next | _ => False end.
Lemma total_process : forall Q x, total Q -> snd (aprocess Q x) = true /\ total (fst (aprocess Q x)).
Proof.
  induction Q as [out| |n|o|cl ss next IH]; intros x T; try contradiction; [now split|now split|]. cbn [aprocess total] in *.
  destruct ss as [|s r]; [now split|]. destruct (st_selected s && negb (sel_reverses (st_sel s))); [|now split].
  destruct (IH x T) as [A B]. destruct (aprocess next x) as [n' b]. cbn [fst snd] in *. subst b. now split.
Qed.
Lemma total_feed : forall l Q, total Q -> snd (feed Q l) = true /\ total (fst (feed Q l)).
Proof.
  induction l as [|x l IH]; intros Q T; [now split|]. cbn [feed]. destruct (total_process Q x T) as [A B]. destruct (aprocess Q x) as [Q' b].
  cbn [fst snd] in *. subst b. now apply IH.
Qed.
Lemma feed_app : forall a b Q, feed Q (a ++ b) = let '(Q', r) := feed Q a in if r then feed Q' b else (Q', false).
Proof.
  induction a as [|x a IH]; intros b Q; [reflexivity|]. cbn [feed app]. destruct (aprocess Q x) as [Q' r]. destruct r; [apply IH|reflexivity].
Qed.
Lemma feed_total_app : forall a b Q, total Q -> feed Q (a ++ b) = feed (fst (feed Q a)) b.
Proof. intros a b Q T. rewrite feed_app. destruct (total_feed a Q T) as [A _]. destruct (feed Q a) as [Q' r]. cbn [fst snd] in *. now subst r. Qed.
Lemma feed_total_eq : forall l Q, total Q -> feed Q l = (fst (feed Q l), true).
Proof. intros l Q T. destruct (total_feed l Q T) as [A _]. destruct (feed Q l) as [Q' r]. cbn [fst snd] in *. now subst r. Qed.

(** Flushing. *)
Definition held (s : state jval) : list jval := map fst (st_pending s).
Definition due (s : state jval) : list jval := ordered (st_sel s) (held s).
Lemma due_order : forall s, map fst (in_order s) = due s.
Proof. intros [sel b p d]. unfold in_order, due, ordered, held. cbn [st_sel st_pending]. destruct (sel_reverses sel); [apply map_rev|reflexivity]. Qed.
Lemma flush_total : forall ss Q, total Q -> aflush_states ss true Q = feed Q (flat_map due ss).
Proof.
  induction ss as [|s ss IH]; intros Q T; [reflexivity|]. cbn [aflush_states flat_map]. unfold aflush_values. rewrite due_order, (feed_total_eq _ _ T).
  rewrite feed_total_app by exact T. apply IH. now apply total_feed.
Qed.

(** A dispatcher that gets several values. *)
Definition pushl (cl : bool) (l : list jval) (s : state jval) : state jval :=
  if st_selected s then mkState (st_sel s) (st_selected s) (st_pending s ++ map (fun x => (x, cl)) l) (st_done s) else s.
Definition direct (s : state jval) : bool := st_selected s && negb (sel_reverses (st_sel s)).
Lemma pushl_nil : forall cl s, pushl cl [] s = s.
Proof. intros cl [sel b p d]. unfold pushl. destruct b; cbn; [now rewrite app_nil_r|reflexivity]. Qed.
Lemma pushl_cons : forall cl x l s, pushl cl l (apush cl x s) = pushl cl (x :: l) s.
Proof. intros cl x l [sel b p d]. unfold pushl, apush, push. destruct b; cbn; [now rewrite <- app_assoc|reflexivity]. Qed.
Lemma direct_push : forall cl x s, direct (apush cl x s) = direct s.
Proof. intros cl x [sel b p d]. unfold direct, apush, push. now destruct b. Qed.
Lemma feed_disp : forall l cl s r next, total next ->
  feed (PDisp cl (s :: r) next) l =
  (PDisp cl ((if direct s then s else pushl cl l s) :: map (pushl cl l) r) (if direct s then fst (feed next l) else next), true).
Proof.
  induction l as [|x l IH]; intros cl s r next T; cbn [feed].
  - rewrite pushl_nil. rewrite (map_ext _ _ (pushl_nil cl)), map_id. now destruct (direct s).
  - cbn [aprocess]. fold (direct s). destruct (direct s) eqn:ED.
    + destruct (total_process next x T) as [A B]. destruct (aprocess next x) as [n' b]. cbn [fst snd] in *. subst b.
      rewrite IH by exact B. rewrite ED. f_equal. f_equal. f_equal. rewrite map_map. apply map_ext. intro a. apply pushl_cons.
    + cbn [map]. rewrite IH by exact T. rewrite direct_push, ED, pushl_cons. f_equal. f_equal. f_equal. rewrite map_map. apply map_ext. intro a. apply pushl_cons.
Qed.

(** Deciding: the states in front that are finished. *)
Lemma adecide_first : forall taken dec ss i f c ss1 f' c', adecide taken dec i f c ss = (ss1, f', c') -> f <= i ->
  (f < i -> f' = f) /\ (f = i -> exists k, f' = i + k /\ Forall (fun s => st_done s = true /\ st_selected s = false) (firstn k ss1)).
Proof.
  intros taken dec. induction ss as [|s ss IH]; intros i f c ss1 f' c' E L; cbn [adecide] in E.
  - injection E as <- <- <-. split; [auto|]. intros ->. exists 0. split; [lia|constructor].
  - destruct (st_done s) eqn:ED.
    + destruct (adecide taken dec (S i) (if f =? i then S f else f) c ss) as [[r' f2] c2] eqn:E2. injection E as <- <- <-.
      assert (L2 : (if f =? i then S f else f) <= S i) by (destruct (f =? i); lia). destruct (IH _ _ _ _ _ _ E2 L2) as [A B]. split.
      * intro Q. destruct (f =? i) eqn:EQ; [apply Nat.eqb_eq in EQ; lia|]. apply A. lia.
      * intros ->. rewrite Nat.eqb_refl in *. destruct (B eq_refl) as [k [-> F]]. exists (S k). split; [lia|]. cbn [firstn]. constructor; [now cbn|exact F].
    + set (f1 := if d_nomore (dec (st_sel s)) && negb (taken (st_sel s)) && (f =? i) then S f else f) in *.
      destruct (adecide taken dec (S i) f1 (if taken (st_sel s) then S c else c) ss) as [[r' f2] c2] eqn:E2. injection E as <- <- <-.
      assert (L2 : f1 <= S i) by (subst f1; destruct (_ && _ && _); lia). destruct (IH _ _ _ _ _ _ E2 L2) as [A B]. split.
      * intro Q. assert (f1 = f) by (subst f1; destruct (f =? i) eqn:EQ; [apply Nat.eqb_eq in EQ; lia|now rewrite andb_false_r]). rewrite A; [auto|]. lia.
      * intros ->. subst f1. rewrite Nat.eqb_refl, andb_true_r in *. destruct (d_nomore (dec (st_sel s)) && negb (taken (st_sel s))) eqn:EN.
        -- destruct (B eq_refl) as [k [-> F]]. exists (S k). split; [lia|]. cbn [firstn]. apply andb_true_iff in EN as [E1 E3].
           constructor; [|exact F]. cbn. split; [exact E1|]. now destruct (taken (st_sel s)).
        -- exists 0. split; [rewrite A; lia|constructor].
Qed.

(** One item, with a processor that never stops.  [more]: what the selectors that
    go on select later. *)
Definition owes (more : selector -> list jval) (s : state jval) : list jval :=
  ordered (st_sel s) (held s ++ if st_done s then [] else more (st_sel s)).
Lemma dispatch_total : forall f f' taken dec cl ss next y more, total next -> (forall D, total D -> f y D = feed D (f' y)) ->
  exists cl' ss' next', adispatch f taken dec (PDisp cl ss next) y = (PDisp cl' ss' next', true) /\ total next' /\
  feed next (flat_map (owes (fun sel => (if taken sel then f' y else []) ++ (if d_nomore (dec sel) then [] else more sel))) ss) =
  feed next' (flat_map (owes more) ss').
Proof.
  intros f f' taken dec cl ss next y more T FY. unfold adispatch. cbn [disp_parts].
  destruct ss as [|s0 ss0]; [exists cl, [], next; auto|]. set (ss := s0 :: ss0) in *. clearbody ss. clear s0 ss0.
  destruct (adecide taken dec 0 0 0 ss) as [[ss1 first] count] eqn:ED.
  pose proof (adecide_first _ _ _ _ _ _ _ _ _ ED (le_n 0)) as [_ FI]. destruct (FI eq_refl) as [k [-> FK]]. clear FI. cbn [plus] in *.
  destruct (adecide_spec taken dec ss 0 0 0) as [g HD]. rewrite ED in HD. injection HD as E1 _ EC. cbn [plus] in EC.
  set (m2 := fun sel => (if taken sel then f' y else []) ++ (if d_nomore (dec sel) then [] else more sel)).
  set (ow1 := fun s : state jval => ordered (st_sel s) (held s ++ (if st_selected s then f' y else []) ++ if st_done s then [] else more (st_sel s))).
  assert (EO : flat_map (owes m2) ss = flat_map ow1 ss1).
  { rewrite E1. clear. induction ss as [|s ss IH]; [reflexivity|]. cbn [flat_map map]. rewrite IH. f_equal. unfold owes, ow1, m2.
    destruct (st_done s) eqn:E; cbn [st_sel st_selected st_done]; unfold held; cbn [st_pending app]; reflexivity. }
  assert (ES : flat_map ow1 ss1 = flat_map ow1 (firstn k ss1) ++ flat_map ow1 (skipn k ss1)) by (now rewrite <- flat_map_app, firstn_skipn).
  rewrite EO, ES.
  assert (EF : flat_map ow1 (firstn k ss1) = flat_map due (firstn k ss1)).
  { clear - FK. induction FK as [|s l [D S] FK IH]; [reflexivity|]. cbn [flat_map]. rewrite IH. f_equal. unfold ow1, due. rewrite D, S. cbn [app]. now rewrite app_nil_r. }
  rewrite EF, feed_total_app by exact T.
  assert (E2 : (if (0 <? k)%nat then aflush_states (firstn k ss1) true next else (next, true)) = (fst (feed next (flat_map due (firstn k ss1))), true)).
  { rewrite flush_total by exact T. destruct k; [reflexivity|]. cbn [Nat.ltb Nat.leb]. apply feed_total_eq. exact T. }
  rewrite E2. set (next1 := fst (feed next (flat_map due (firstn k ss1)))) in *.
  assert (T1 : total next1) by (now apply total_feed).
  assert (CN : count = 0 -> forall s, In s ss1 -> st_selected s = false).
  { intros -> s I. rewrite E1 in I. apply in_map_iff in I as [s0 [<- I]]. destruct (st_done s0) eqn:D; [reflexivity|]. cbn [st_selected].
    destruct (taken (st_sel s0)) eqn:TK; [|reflexivity]. exfalso. symmetry in EC. apply length_zero_iff_nil in EC.
    assert (J : In s0 (filter (fun s => negb (st_done s) && taken (st_sel s)) ss)) by (apply filter_In; rewrite D, TK; auto). rewrite EC in J. exact J. }
  assert (IS : incl (skipn k ss1) ss1) by (intros z; apply in_skipn).
  destruct (skipn k ss1) as [|s r]; [exists cl, [], next1; auto|]. cbn [negb]. clear E2 EF EO ES FK ED E1.
  set (c := negb (sel_reverses (st_sel s)) && negb match st_pending s with [] => true | _ => false end).
  assert (E3 : exists s' next2, (if c then let '(next2, r2) := aflush_values (in_order s) true next1 in (clear s, next2, r2) else (s, next1, true)) = (s', next2, true) /\ total next2 /\
     st_sel s' = st_sel s /\ st_selected s' = st_selected s /\ st_done s' = st_done s /\ (sel_reverses (st_sel s) = false -> st_pending s' = []) /\
     feed next1 (flat_map ow1 (s :: r)) = feed next2 (flat_map ow1 (s' :: r))).
  { destruct c eqn:EC1.
    - apply andb_true_iff in EC1 as [RV _]. apply negb_true_iff in RV. unfold aflush_values. rewrite due_order, feed_total_eq by exact T1.
      exists (clear s), (fst (feed next1 (due s))). split; [reflexivity|]. split; [now apply total_feed|]. cbn [clear st_sel st_selected st_done st_pending].
      split; [reflexivity|]. split; [reflexivity|]. split; [reflexivity|]. split; [reflexivity|].
      rewrite <- feed_total_app by exact T1. f_equal. cbn [flat_map]. unfold ow1 at 1 3, due, ordered, held. cbn [st_sel st_selected st_done st_pending clear]. rewrite RV.
      cbn [map app]. now rewrite !app_assoc.
    - exists s, next1. split; [reflexivity|]. split; [exact T1|]. split; [reflexivity|]. split; [reflexivity|]. split; [reflexivity|]. split; [|reflexivity].
      intro RV. subst c. rewrite RV in EC1. cbn [negb andb] in EC1. destruct (st_pending s); [reflexivity|discriminate]. }
  destruct E3 as [s' [next2 [-> [T2 [A1 [A2 [A3 [A4 A5]]]]]]]]. cbn [negb]. rewrite A5. clear A5.
  destruct (0 <? count)%nat eqn:E0.
  - set (cl2 := (1 <? count)%nat || negb (st_selected s')). rewrite FY by exact T2. rewrite feed_disp by exact T2.
    exists cl2. eexists. eexists. split; [reflexivity|]. split; [destruct (direct s'); [now apply total_feed|exact T2]|].
    assert (PO : forall z, owes more (pushl cl2 (f' y) z) = ow1 z).
    { intros [sel b p d]. unfold pushl, owes, ow1, held. cbn [st_selected]. destruct b; cbn [st_sel st_selected st_done st_pending]; [|reflexivity].
      rewrite map_app, map_map. cbn [fst]. rewrite map_id. now rewrite app_assoc. }
    cbn [flat_map]. rewrite (flat_map_concat_map (owes more)), map_map, (map_ext _ _ PO), <- flat_map_concat_map.
    destruct (direct s') eqn:DI.
    + unfold direct in DI. apply andb_true_iff in DI as [D1 D2]. apply negb_true_iff in D2. rewrite <- feed_total_app by exact T2. f_equal. rewrite app_assoc. f_equal.
      unfold ow1, owes, ordered, held. rewrite D1, D2. rewrite A4 by congruence. cbn [map app]. reflexivity.
    + now rewrite PO.
  - apply Nat.ltb_ge in E0. assert (C0 : count = 0) by lia. specialize (CN C0). exists cl, (s' :: r), next2. split; [reflexivity|]. split; [exact T2|]. f_equal.
    assert (P0 : forall z, st_selected z = false -> ow1 z = owes more z) by (intros z Z; unfold ow1, owes; rewrite Z; reflexivity).
    cbn [flat_map]. rewrite P0 by (rewrite A2; apply CN, IS; now left). f_equal. clear - CN IS P0. rewrite !flat_map_concat_map. f_equal. apply map_ext_in.
    intros z Z. apply P0, CN, IS. now right.
Qed.

Lemma strict_total : forall R f f' holds (its : list (item R)) (aits : list aitem) cl ss next, total next ->
  Forall2 (fun i a => it_dec i = it_dec a /\ it_val i = it_val a) its aits ->
  (forall i, In i its -> forall D, total D -> f (it_val i) D = feed D (f' (it_val i))) ->
  exists cl' ss' next', astrict f holds aits (PDisp cl ss next) = (PDisp cl' ss' next', true) /\ total next' /\
  feed next (flat_map (owes (fun sel => flat_map f' (picks (holds sel) sel its))) ss) = feed next' (flat_map due ss').
Proof.
  intros R f f' holds its aits cl ss next T F. revert cl ss next T. induction F as [|i a its aits [E1 E2] F IH]; intros cl ss next T FY.
  - cbn [astrict]. exists cl, ss, next. split; [reflexivity|]. split; [exact T|]. f_equal. rewrite !flat_map_concat_map. f_equal. apply map_ext. intro s. unfold owes, due. cbn [picks flat_map].
    now destruct (st_done s); rewrite app_nil_r.
  - cbn [astrict].
    set (more := fun sel => flat_map f' (picks (holds sel) sel its)).
    destruct (dispatch_total f f' (fun s => takes_item (holds s) s a) (it_dec a) cl ss next (it_val a) more T) as [cl1 [ss1 [next1 [-> [T1 E]]]]].
    { rewrite <- E2. apply FY. now left. }
    cbn [negb].
    replace (flat_map (owes (fun sel => flat_map f' (picks (holds sel) sel (i :: its)))) ss)
      with (flat_map (owes (fun sel => (if takes_item (holds sel) sel a then f' (it_val a) else []) ++ (if d_nomore (it_dec a sel) then [] else more sel))) ss).
    2:{ rewrite !flat_map_concat_map. f_equal. apply map_ext. intro s. unfold owes. f_equal. f_equal. destruct (st_done s); [reflexivity|]. cbn [picks].
        rewrite flat_map_app. unfold takes_item. rewrite E1, E2. f_equal; [|now destruct (d_nomore _)].
        destruct (_ || _); [cbn [flat_map]; now rewrite app_nil_r|reflexivity]. }
    rewrite E. unfold no_states. destruct ss1 as [|s1 ss1]; [exists cl1, [], next1; auto|]. apply IH; [exact T1|]. intros j J. apply FY. now right.
Qed.
Lemma relaxed_strict : forall f holds its D, arelaxed f holds false its D = astrict f holds its D.
Proof. intros f holds. induction its as [|i its IH]; intro D; [reflexivity|]. cbn [arelaxed astrict]. destruct (adispatch _ _ _ _ _) as [D1 r]. now rewrite IH. Qed.

Lemma run_total : forall R f f' holds sels strict (its : list (item R)) (aits : list aitem) Q, total Q ->
  Forall2 (fun i a => it_dec i = it_dec a /\ it_val i = it_val a) its aits ->
  (forall i, In i its -> forall D, total D -> f (it_val i) D = feed D (f' (it_val i))) ->
  arun f holds sels false strict aits Q = feed Q (child holds f' sels its).
Proof.
  intros R f f' holds sels strict its aits Q T F FY. unfold arun. rewrite relaxed_strict.
  destruct (strict_total R f f' holds its aits false (new_states sels) Q T F FY) as [cl' [ss' [next' [-> [T' E]]]]].
  assert (X : feed Q (child holds f' sels its) = feed next' (flat_map due ss')).
  { rewrite <- E. f_equal. unfold child, new_states. clear. induction sels as [|s sels IH]; [reflexivity|]. cbn [flat_map map]. rewrite IH. reflexivity. }
  rewrite X. unfold afinish. cbn [disp_parts]. rewrite flush_total by exact T'. rewrite (feed_total_eq _ _ T'). now destruct strict.
Qed.

(** One selector that does not reverse: any processor, or any that never stops. *)
Section One.
  Variable ok : proc jval -> Prop.
  Hypothesis ok_process : forall Q x, ok Q -> ok (fst (aprocess Q x)).
  Hypothesis ok_disp : forall cl ss Q, ok (PDisp cl ss Q) <-> ok Q.
  Lemma ok_feed : forall l Q, ok Q -> ok (fst (feed Q l)).
  Proof.
    induction l as [|x l IH]; intros Q O; [exact O|]. cbn [feed]. pose proof (ok_process Q x O) as H. destruct (aprocess Q x) as [Q' b]. cbn [fst] in H.
    destruct b; [now apply IH|exact H].
  Qed.

  Variable sel : selector.
  Hypothesis forward : sel_reverses sel = false.
  (** The dispatcher: [alive] when the selector may select more items. *)
  Definition one (b d : bool) : state jval := mkState sel b [] d.
  Lemma feed_one : forall l cl d next, feed (PDisp cl [one true d] next) l = (PDisp cl [one true d] (fst (feed next l)), snd (feed next l)).
  Proof.
    induction l as [|x l IH]; intros cl d next; [reflexivity|]. cbn [feed aprocess one st_selected st_sel]. rewrite forward. cbn [negb andb].
    destruct (aprocess next x) as [n' b]. destruct b; [|reflexivity]. cbn [map]. apply IH.
  Qed.
  Lemma finish_one : forall cl b d next r, afinish (PDisp cl [one b d] next) r = (next, r).
  Proof.
    intros cl b d next r. unfold afinish. cbn [disp_parts aflush_states]. unfold aflush_values, in_order, one. cbn [st_sel st_pending]. rewrite forward. now destruct r.
  Qed.
  Lemma finish_none : forall cl next r, afinish (PDisp cl [] next) r = (next, r).
  Proof. reflexivity. Qed.

  Lemma dispatch_one : forall f f' taken dec cl b d next y, ok next -> (forall D, ok D -> f y D = feed D (f' y)) ->
    exists cl' ss', adispatch f taken dec (PDisp cl [one b d] next) y =
      (PDisp cl' ss' (fst (feed next (if negb d && taken sel then f' y else []))), snd (feed next (if negb d && taken sel then f' y else []))) /\
      (ss' = [] /\ (d = true \/ d_nomore (dec sel) = true) \/ exists b', ss' = [one b' (d_nomore (dec sel))] /\ d = false).
  Proof.
    intros f f' taken dec cl b d next y ON FY. unfold adispatch. cbn [disp_parts adecide one st_done st_sel st_pending].
    destruct d; cbn [negb andb Nat.eqb].
    - cbn [Nat.ltb Nat.leb firstn skipn aflush_states]. unfold aflush_values, in_order. cbn [st_sel st_pending]. rewrite forward. cbn [map feed fst snd].
      exists cl, []. split; [reflexivity|]. left. auto.
    - destruct (taken sel) eqn:TK; cbn [negb andb].
      + rewrite andb_false_r. cbn [andb Nat.ltb Nat.leb skipn]. cbn [st_sel st_pending st_selected]. rewrite forward. cbn [negb andb orb].
        fold (one true (d_nomore (dec sel))). rewrite FY by (now apply ok_disp). rewrite feed_one. exists false. eexists. split; [reflexivity|].
        right. exists true. auto.
      + rewrite !andb_true_r. cbn [Nat.eqb]. destruct (d_nomore (dec sel)) eqn:NM; cbn [andb Nat.ltb Nat.leb firstn skipn aflush_states].
        * unfold aflush_values, in_order. cbn [st_sel st_pending]. rewrite forward. cbn [map feed fst snd]. exists cl, []. split; [reflexivity|]. left. auto.
        * cbn [st_sel st_pending st_selected]. rewrite forward. cbn [negb andb feed fst snd]. exists cl. eexists. split; [reflexivity|]. right. exists false. auto.
  Qed.

  Variable f : jval -> proc jval -> proc jval * bool.
  Variable f' : jval -> list jval.
  Variable holds : selector -> jval -> bool.
  Definition itrel (i : item (list jval)) (a : aitem) : Prop :=
    it_dec i = it_dec a /\ it_val i = it_val a /\ (forall D, ok D -> f (it_val i) D = feed D (f' (it_val i))).
  Definition irel (i : item (list jval)) (a : aitem) : Prop := itrel i a /\ (forall Q, ok Q -> it_res a Q = feed Q (it_res i)).

  (** What is still to come. *)
  Definition later (alive : bool) (its : list (item (list jval))) : list jval :=
    if alive then flat_map f' (picks (holds sel) sel its) else [].
  Definition later_mixed (alive : bool) (its : list (item (list jval))) : list jval :=
    if alive then mixed (holds sel) f' sel its else flat_map it_res its.

  Definition states1 (alive : bool) (d : bool) (b : bool) : list (state jval) := if alive then [one b d] else [].

  Lemma dispatch_none : forall taken dec cl next y, adispatch f taken dec (PDisp cl [] next) y = (PDisp cl [] next, true).
  Proof. reflexivity. Qed.

  (** A dispatcher of these kinds. *)
  Inductive simple1 : bool -> proc jval -> proc jval -> Prop :=
  | s1_alive : forall cl b next, simple1 true (PDisp cl [one b false] next) next
  | s1_done : forall cl b next, simple1 false (PDisp cl [one b true] next) next
  | s1_none : forall cl next, simple1 false (PDisp cl [] next) next.
  Lemma simple_finish : forall al D next r, simple1 al D next -> afinish D r = (next, r).
  Proof. intros al D next r H. destruct H; [apply finish_one|apply finish_one|reflexivity]. Qed.
  Lemma simple_next : forall al D next, simple1 al D next -> snd (disp_parts D) = next.
  Proof. now destruct 1. Qed.
  Lemma simple_with : forall al D next next', simple1 al D next -> simple1 al (with_next D next') next'.
  Proof. destruct 1; constructor. Qed.
  Lemma dispatch_simple : forall al D next i a, simple1 al D next -> ok next -> itrel i a ->
    let out := if al && takes_item (holds sel) sel i then f' (it_val i) else [] in
    exists D1, adispatch f (fun s => takes_item (holds s) s a) (it_dec a) D (it_val a) = (D1, snd (feed next out)) /\
      simple1 (al && negb (d_nomore (it_dec i sel))) D1 (fst (feed next out)).
  Proof.
    intros al D next i a S ON [E1 [E2 FY]] out.
    assert (ET : takes_item (holds sel) sel a = takes_item (holds sel) sel i) by (unfold takes_item; now rewrite E1, E2).
    rewrite E2 in FY. rewrite E1. subst out. rewrite E2. destruct S as [cl b next|cl b next|cl next].
    - destruct (dispatch_one f f' (fun s => takes_item (holds s) s a) (it_dec a) cl b false next (it_val a) ON FY) as [cl' [ss' [-> H]]].
      cbn [negb andb]. rewrite ET. eexists. split; [reflexivity|]. destruct H as [[-> [H|H]]|[b' [-> _]]]; [discriminate|rewrite H; constructor|].
      destruct (d_nomore (it_dec a sel)); constructor.
    - destruct (dispatch_one f f' (fun s => takes_item (holds s) s a) (it_dec a) cl b true next (it_val a) ON FY) as [cl' [ss' [-> H]]].
      cbn [negb andb]. eexists. split; [reflexivity|]. destruct H as [[-> _]|[b' [_ H]]]; [constructor|discriminate].
    - rewrite dispatch_none. cbn [andb feed fst snd]. eexists. split; [reflexivity|]. constructor.
  Qed.

  Lemma strict_one : forall its aits, Forall2 itrel its aits -> forall al D next, simple1 al D next -> ok next ->
    exists D1 al', astrict f holds aits D = (D1, snd (feed next (later al its))) /\ simple1 al' D1 (fst (feed next (later al its))).
  Proof.
    induction 1 as [|i a its aits R F IH]; intros al D next S ON.
    - cbn [astrict later picks flat_map]. destruct al; exists D; eexists; (split; [reflexivity|exact S]).
    - cbn [astrict]. destruct (dispatch_simple al D next i a S ON R) as [D1 [-> S1]].
      set (out := if al && takes_item (holds sel) sel i then f' (it_val i) else []) in *.
      assert (EL : later al (i :: its) = out ++ later (al && negb (d_nomore (it_dec i sel))) its).
      { unfold later, out. destruct al; [|reflexivity]. cbn [picks andb]. rewrite flat_map_app. f_equal.
        - destruct (takes_item _ _ _); [cbn [flat_map]; apply app_nil_r|reflexivity].
        - now destruct (d_nomore _). }
      rewrite EL, feed_app. pose proof (ok_feed out next ON) as ON1. destruct (feed next out) as [n1 r]. cbn [fst snd] in *. destruct r; cbn [negb].
      + destruct (no_states D1) eqn:EN; [|now apply IH].
        inversion S1 as [cl b nx E0 E3|cl b nx E0 E3|cl nx E0 E3]; subst; try discriminate. rewrite E0 in *.
        rewrite <- E0. cbn [later feed fst snd]. exists (PDisp cl [] n1), false. split; [reflexivity|constructor].
      + exists D1. eexists. split; [reflexivity|exact S1].
  Qed.

  Lemma relaxed_one : forall its aits, Forall2 irel its aits -> forall al D next, simple1 al D next -> ok next ->
    exists D1 al', arelaxed f holds true aits D = (D1, snd (feed next (later_mixed al its))) /\ simple1 al' D1 (fst (feed next (later_mixed al its))).
  Proof.
    induction 1 as [|i a its aits [R RR] F IH]; intros al D next S ON.
    - cbn [arelaxed later_mixed mixed flat_map]. destruct al; exists D; eexists; (split; [reflexivity|exact S]).
    - cbn [arelaxed]. destruct (dispatch_simple al D next i a S ON R) as [D1 [-> S1]].
      set (out := if al && takes_item (holds sel) sel i then f' (it_val i) else []) in *.
      assert (EL : later_mixed al (i :: its) = out ++ it_res i ++ later_mixed (al && negb (d_nomore (it_dec i sel))) its).
      { unfold later_mixed, out. destruct al; [|reflexivity]. cbn [mixed andb]. f_equal. f_equal. now destruct (d_nomore _). }
      rewrite EL, feed_app. pose proof (ok_feed out next ON) as ON1. destruct (feed next out) as [n1 r]. cbn [fst snd] in *. destruct r; cbn [negb].
      2:{ exists D1. eexists. split; [reflexivity|exact S1]. }
      rewrite (simple_next _ _ _ S1), RR by exact ON1. rewrite feed_app. pose proof (ok_feed (it_res i) n1 ON1) as ON2. destruct (feed n1 (it_res i)) as [n2 r2]. cbn [fst snd] in *.
      pose proof (simple_with _ _ _ n2 S1) as S2. destruct r2.
      + now apply IH.
      + eexists. eexists. split; [reflexivity|exact S2].
  Qed.

  Lemma descend_one : forall its aits, Forall2 irel its aits -> forall Q, ok Q -> adescend aits Q = feed Q (flat_map it_res its).
  Proof.
    induction 1 as [|i a its aits [R RR] F IH]; intros Q O; [reflexivity|]. cbn [adescend flat_map]. rewrite RR by exact O. rewrite feed_app.
    pose proof (ok_feed (it_res i) Q O) as O1. destruct (feed Q (it_res i)) as [n2 r2]. destruct r2; [now apply IH|reflexivity].
  Qed.

  Lemma run_one : forall its aits desc strict Q, ok Q -> Forall2 itrel its aits -> (desc = true -> Forall2 irel its aits) ->
    arun f holds [sel] desc strict aits Q = feed Q (if desc then if strict then child holds f' [sel] its ++ flat_map it_res its else mixed (holds sel) f' sel its
                                                    else child holds f' [sel] its).
  Proof.
    intros its aits desc strict Q O F FD.
    assert (EC : child holds f' [sel] its = later true its) by (unfold child, ordered, later; cbn [flat_map]; now rewrite forward, app_nil_r).
    assert (S0 : simple1 true (PDisp false (new_states [sel]) Q) Q) by constructor.
    unfold arun. destruct strict.
    - destruct (strict_one its aits F true _ Q S0 O) as [D1 [al [-> S1]]]. rewrite !EC. destruct desc.
      + rewrite feed_app. pose proof (ok_feed (later true its) Q O) as O1. destruct (feed Q (later true its)) as [Q1 r]. cbn [fst snd] in *. destruct r.
        * rewrite (simple_next _ _ _ S1). rewrite (descend_one its aits (FD eq_refl) Q1 O1). destruct (feed Q1 (flat_map it_res its)) as [Q2 r2].
          apply (simple_finish _ _ _ _ (simple_with _ _ _ Q2 S1)).
        * apply (simple_finish _ _ _ _ S1).
      + rewrite (simple_finish _ _ _ _ S1). now destruct (feed Q (later true its)).
    - destruct desc.
      + destruct (relaxed_one its aits (FD eq_refl) true _ Q S0 O) as [D1 [al [-> S1]]]. rewrite (simple_finish _ _ _ _ S1). cbn [later_mixed]. now destruct (feed Q _).
      + rewrite relaxed_strict. destruct (strict_one its aits F true _ Q S0 O) as [D1 [al [-> S1]]]. rewrite (simple_finish _ _ _ _ S1), EC. now destruct (feed Q _).
  Qed.
End One.

(** Annotations with two kinds of results. *)
Lemma annot_rel : forall A B (P : item A -> item B -> Prop) (ga : jval -> A) (gb : jval -> B) look x,
  (forall dec y, In y (map snd (items x)) -> P (mkItem dec y (ga y)) (mkItem dec y (gb y))) ->
  Forall2 P (annot look x ga) (annot look x gb).
Proof.
  intros A B P ga gb look [s|l e|l e] H; cbn [annot].
  - constructor.
  - cbn [items] in H. rewrite map_map, map_id in H. set (s := start_look look (length l) (min64 + 1)). clearbody s. generalize 0%Z as ix. revert s H.
    induction l as [|y l IH]; intros s H ix; cbn [map annot_arr fst snd]; constructor; [apply H; now left|]. apply IH. intros. apply H. now right.
  - cbn [items] in H. rewrite map_map in H. cbn [snd] in H. unfold annot_obj. rewrite !map_map. cbn [fst snd]. induction l as [|[k y] l IH]; cbn [map fst snd]; constructor.
    + apply H. now left.
    + apply IH. intros dec z Z. apply H. now right.
Qed.

Definition one_forward (sels : list selector) : Prop := exists s, sels = [s] /\ sel_reverses s = false.
(** Descendants with one selector that does not reverse. *)
Fixpoint simple_seg (seg : segment) : Prop :=
  match seg with
  | Seg sels _ desc _ following => (desc = true -> one_forward sels) /\ match following with None => True | Some s => simple_seg s end
  end.
(** One selector that does not reverse, throughout. *)
Fixpoint plain_seg (seg : segment) : Prop :=
  match seg with
  | Seg sels _ _ _ following => one_forward sels /\ match following with None => True | Some s => plain_seg s end
  end.
Lemma plain_simple : forall seg, plain_seg seg -> simple_seg seg.
Proof.
  fix IH 1. intros [sels look desc strict [s|]] [A B]; (split; [auto|]); [|exact I]. now apply IH.
Qed.

Lemma in_items_ind : forall P : jval -> Prop, (forall x, (forall y, In y (map snd (items x)) -> P y) -> P x) -> forall x, P x.
Proof.
  intros P H x. induction x as [s|l e IH|l e IH] using jval_induction; apply H; cbn [items]; intros y Y.
  - destruct Y.
  - rewrite map_map, map_id in Y. rewrite Forall_forall in IH. auto.
  - rewrite map_map in Y. cbn [snd] in Y. rewrite Forall_forall in IH. apply in_map_iff in Y as [[k z] [<- Y]]. exact (IH _ Y).
Qed.

Section Pure.
  Variable find : bytes -> bytes -> option (nat * nat).
  Variable sing : list (option jval).
  Variable inner : list (list jval).
  Notation sem_seg := (sem_seg find sing inner).
  Notation sem_sel := (sem_sel find sing inner).
  Notation after := (after find sing inner).

  (** With one forward selector; [ok] as above. *)
  Lemma one_step : forall ok : proc jval -> Prop, (forall Q x, ok Q -> ok (fst (aprocess Q x))) -> (forall cl ss Q, ok (PDisp cl ss Q) <-> ok Q) ->
    forall sels look desc strict following, one_forward sels ->
    (forall y D, ok D -> afollow sem_sel following y D = feed D (after following y)) ->
    forall x Q, ok Q -> atrans sem_sel (Seg sels look desc strict following) x Q = feed Q (sem_seg (Seg sels look desc strict following) x).
  Proof.
    intros ok OP OD sels look desc strict following [s [-> RV]] FY x. induction x as [x IH] using in_items_ind. intros Q O.
    rewrite atrans_eq, sem_seg_eq. cbv zeta. set (seg := Seg [s] look desc strict following) in *.
    set (its := annot look x (sem_seg seg)). set (aits := annot look x (atrans sem_sel seg)).
    assert (F : Forall2 (irel ok (afollow sem_sel following) (after following)) its aits).
    { apply annot_rel. intros dec y Y. split; [split; [reflexivity|split; [reflexivity|]]|]; cbn [it_val it_res]; auto. }
    assert (F1 : Forall2 (itrel ok (afollow sem_sel following) (after following)) its aits) by (clear - F; induction F as [|? ? ? ? [R _] F IHF]; constructor; auto).
    assert (R : arun (afollow sem_sel following) sem_sel [s] desc strict aits Q = feed Q (if desc then if strict then child sem_sel (after following) [s] its ++ flat_map it_res its else mixed (sem_sel s) (after following) s its
                                                    else child sem_sel (after following) [s] its)) by (now apply (run_one ok)).
    destruct x as [sc|l e|l e]; [|exact R|exact R].
    subst its. cbn [annot]. unfold child, ordered. cbn [flat_map picks mixed]. rewrite RV. now destruct desc, strict.
  Qed.

  Lemma total_steps : forall seg, simple_seg seg -> forall x Q, total Q -> atrans sem_sel seg x Q = feed Q (sem_seg seg x).
  Proof.
    fix IH 1. intros [sels look desc strict following] [OF SF].
    assert (FY : forall y D, total D -> afollow sem_sel following y D = feed D (after following y)).
    { destruct following as [s|]; cbn [afollow after].
      - intros y D T. now apply IH.
      - intros y D T. cbn [feed]. destruct (total_process D y T) as [A _]. destruct (aprocess D y) as [D' b]. cbn [snd] in A. now subst. }
    destruct desc.
    - apply (one_step total); auto.
      + intros Q x T. now apply total_process.
      + reflexivity.
    - intros x Q T. rewrite atrans_eq, sem_seg_eq. cbv zeta. set (seg := Seg sels look false strict following) in *.
      assert (R : arun (afollow sem_sel following) sem_sel sels false strict (annot look x (atrans sem_sel seg)) Q =
                  feed Q (child sem_sel (after following) sels (annot look x (sem_seg seg)))).
      { apply run_total; [exact T| |auto]. apply annot_rel. auto. }
      destruct x as [sc|l e|l e]; [|exact R|exact R]. cbn [annot].
      assert (E : child sem_sel (after following) sels ([] : list (item (list jval))) = []).
      { clear. induction sels as [|s sels IH]; [reflexivity|]. cbn [child flat_map]. unfold child in IH. rewrite IH. unfold ordered. now destruct (sel_reverses s). }
      now rewrite E.
  Qed.
  Lemma plain_steps : forall seg, plain_seg seg -> forall x Q, atrans sem_sel seg x Q = feed Q (sem_seg seg x).
  Proof.
    fix IH 1. intros [sels look desc strict following] [OF SF] x Q. apply (one_step (fun _ => True)); auto; [now split|].
    destruct following as [s|]; cbn [afollow after].
    - intros y D _. now apply IH.
    - intros y D _. cbn [feed]. now destruct (aprocess D y) as [D' []].
  Qed.
End Pure.

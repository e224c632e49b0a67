(** What the runner on values processes when a descendant segment has several
    selectors: the nodes of all of them, in an order that depends on the query and
    the value only.  [bag_seg] gives the nodes up to the order. *)
From Coq Require Import List ZArith NArith Arith Bool Lia Permutation.
From Verif Require Import Base Tokens JsonSpec EncSpec IterSpec SelectModel PathModel PathAbs PathFacts PathPure.

(** One item: what is processed at once ([l0]) and what is left to do do not
    depend on the processor. *)
Lemma dispatch_emits : forall f f' taken dec cl ss y more, (forall D, total D -> f y D = feed D (f' y)) ->
  exists cl' ss' l0,
    (forall next, total next -> adispatch f taken dec (PDisp cl ss next) y = (PDisp cl' ss' (fst (feed next l0)), true)) /\
    flat_map (owes (fun sel => (if taken sel then f' y else []) ++ (if d_nomore (dec sel) then [] else more sel))) ss =
    l0 ++ flat_map (owes more) ss'.
Proof.
  intros f f' taken dec cl ss y more FY. unfold adispatch. cbn [disp_parts].
  destruct ss as [|s0 ss0]; [exists cl, [], []; auto|]. set (ss := s0 :: ss0) in *. clearbody ss. clear s0 ss0.
  destruct (adecide taken dec 0 0 0 ss) as [[ss1 first] count] eqn:ED.
  pose proof (adecide_first _ _ _ _ _ _ _ _ _ ED (le_n 0)) as [_ FI]. destruct (FI eq_refl) as [k [-> FK]]. clear FI. cbn [plus] in *.
  destruct (adecide_spec taken dec ss 0 0 0) as [g HD]. rewrite ED in HD. injection HD as E1 _ EC. cbn [plus] in EC.
  set (m2 := fun sel => (if taken sel then f' y else []) ++ (if d_nomore (dec sel) then [] else more sel)).
  set (ow1 := fun s : state jval => ordered (st_sel s) (held s ++ (if st_selected s then f' y else []) ++ if st_done s then [] else more (st_sel s))).
  assert (EO : flat_map (owes m2) ss = flat_map ow1 ss1).
  { rewrite E1. clear. induction ss as [|s ss IH]; [reflexivity|]. cbn [flat_map map]. rewrite IH. f_equal. unfold owes, ow1, m2.
    destruct (st_done s) eqn:E; cbn [st_sel st_selected st_done]; unfold held; cbn [st_pending app]; reflexivity. }
  assert (ES : flat_map ow1 ss1 = flat_map ow1 (firstn k ss1) ++ flat_map ow1 (skipn k ss1)) by (now rewrite <- flat_map_app, firstn_skipn).
  rewrite EO, ES.
  assert (EF : flat_map ow1 (firstn k ss1) = flat_map due (firstn k ss1)).
  { clear - FK. induction FK as [|s l [D S] FK IH]; [reflexivity|]. cbn [flat_map]. rewrite IH. f_equal. unfold ow1, due. rewrite D, S. cbn [app]. now rewrite app_nil_r. }
  rewrite EF. set (l1 := flat_map due (firstn k ss1)) in *.
  assert (E2 : forall next, total next -> (if (0 <? k)%nat then aflush_states (firstn k ss1) true next else (next, true)) = (fst (feed next l1), true)).
  { intros next T. rewrite flush_total by exact T. subst l1. destruct k; [reflexivity|]. cbn [Nat.ltb Nat.leb]. apply feed_total_eq. exact T. }
  assert (CN : count = 0 -> forall s, In s ss1 -> st_selected s = false).
  { intros -> s I. rewrite E1 in I. apply in_map_iff in I as [s0 [<- I]]. destruct (st_done s0) eqn:D; [reflexivity|]. cbn [st_selected].
    destruct (taken (st_sel s0)) eqn:TK; [|reflexivity]. exfalso. symmetry in EC. apply length_zero_iff_nil in EC.
    assert (J : In s0 (filter (fun s => negb (st_done s) && taken (st_sel s)) ss)) by (apply filter_In; rewrite D, TK; auto). rewrite EC in J. exact J. }
  assert (IS : incl (skipn k ss1) ss1) by (intros z; apply in_skipn).
  destruct (skipn k ss1) as [|s r].
  { exists cl, [], l1. split; [intros next T; now rewrite E2 by exact T|]. reflexivity. }
  clear EF EO ES FK ED E1.
  set (c := negb (sel_reverses (st_sel s)) && negb match st_pending s with [] => true | _ => false end).
  (* the first state that goes on gives up what it holds *)
  assert (E3 : exists s' l2, (forall next1, total next1 -> (if c then let '(next2, r2) := aflush_values (in_order s) true next1 in (clear s, next2, r2) else (s, next1, true)) = (s', fst (feed next1 l2), true)) /\
     st_sel s' = st_sel s /\ st_selected s' = st_selected s /\ st_done s' = st_done s /\ (sel_reverses (st_sel s) = false -> st_pending s' = []) /\
     flat_map ow1 (s :: r) = l2 ++ flat_map ow1 (s' :: r)).
  { destruct c eqn:EC1.
    - apply andb_true_iff in EC1 as [RV _]. apply negb_true_iff in RV.
      exists (clear s), (due s). split; [intros next1 T1; unfold aflush_values; rewrite due_order, feed_total_eq by exact T1; reflexivity|].
      cbn [clear st_sel st_selected st_done st_pending].
      split; [reflexivity|]. split; [reflexivity|]. split; [reflexivity|]. split; [reflexivity|].
      cbn [flat_map]. unfold ow1 at 1 3, due, ordered, held. cbn [st_sel st_selected st_done st_pending clear]. rewrite RV.
      cbn [map app]. now rewrite !app_assoc.
    - exists s, []. split; [reflexivity|]. split; [reflexivity|]. split; [reflexivity|]. split; [reflexivity|]. split; [|reflexivity].
      intro RV. subst c. rewrite RV in EC1. cbn [negb andb] in EC1. destruct (st_pending s); [reflexivity|discriminate]. }
  destruct E3 as [s' [l2 [E3 [A1 [A2 [A3 [A4 A5]]]]]]]. rewrite A5. clear A5.
  destruct (0 <? count)%nat eqn:E0.
  - set (cl2 := (1 <? count)%nat || negb (st_selected s')).
    assert (PO : forall z, owes more (pushl cl2 (f' y) z) = ow1 z).
    { intros [sel b p d]. unfold pushl, owes, ow1, held. cbn [st_selected]. destruct b; cbn [st_sel st_selected st_done st_pending]; [|reflexivity].
      rewrite map_app, map_map. cbn [fst]. rewrite map_id. now rewrite app_assoc. }
    exists cl2. eexists. exists (l1 ++ l2 ++ if direct s' then f' y else []). split.
    + intros next T. rewrite E2 by exact T. cbn [negb]. assert (T1 : total (fst (feed next l1))) by (now apply total_feed). rewrite E3 by exact T1. cbn [negb].
      set (next2 := fst (feed (fst (feed next l1)) l2)). assert (T2 : total next2) by (now apply total_feed).
      fold cl2. rewrite FY by exact T2. rewrite feed_disp by exact T2. f_equal. f_equal.
      rewrite feed_total_app by exact T. rewrite feed_total_app by exact T1. fold next2. now destruct (direct s').
    + cbn [flat_map]. rewrite (flat_map_concat_map (owes more)), map_map, (map_ext _ _ PO), <- flat_map_concat_map. rewrite <- !app_assoc. f_equal. f_equal.
      destruct (direct s') eqn:DI; [|now rewrite PO].
      unfold direct in DI. apply andb_true_iff in DI as [D1 D2]. apply negb_true_iff in D2. rewrite app_assoc. f_equal.
      unfold ow1, owes, ordered, held. rewrite D1, D2. rewrite A4 by congruence. cbn [map app]. reflexivity.
  - apply Nat.ltb_ge in E0. assert (C0 : count = 0) by lia. specialize (CN C0). exists cl, (s' :: r), (l1 ++ l2). split.
    + intros next T. rewrite E2 by exact T. cbn [negb]. assert (T1 : total (fst (feed next l1))) by (now apply total_feed). rewrite E3 by exact T1. cbn [negb].
      now rewrite feed_total_app by exact T.
    + rewrite <- app_assoc. f_equal. f_equal.
      assert (P0 : forall z, st_selected z = false -> ow1 z = owes more z) by (intros z Z; unfold ow1, owes; rewrite Z; reflexivity).
      cbn [flat_map]. rewrite P0 by (rewrite A2; apply CN, IS; now left). f_equal. clear - CN IS P0. rewrite !flat_map_concat_map. f_equal. apply map_ext_in.
      intros z Z. apply P0, CN, IS. now right.
Qed.

Definition same_item {A B} (i : item A) (a : item B) : Prop := it_dec i = it_dec a /\ it_val i = it_val a.

Lemma owes_step : forall R (f' : jval -> list jval) holds (i : item R) its (a : aitem) ss, same_item i a ->
  flat_map (owes (fun sel => flat_map f' (picks (holds sel) sel (i :: its)))) ss =
  flat_map (owes (fun sel => (if takes_item (holds sel) sel a then f' (it_val a) else []) ++ (if d_nomore (it_dec a sel) then [] else flat_map f' (picks (holds sel) sel its)))) ss.
Proof.
  intros R f' holds i its a ss [E1 E2]. rewrite !flat_map_concat_map. f_equal. apply map_ext. intro s. unfold owes. f_equal. f_equal. destruct (st_done s); [reflexivity|]. cbn [picks].
  rewrite flat_map_app. unfold takes_item. rewrite E1, E2. f_equal; [|now destruct (d_nomore _)].
  destruct (_ || _); [cbn [flat_map]; now rewrite app_nil_r|reflexivity].
Qed.
Lemma owes_none : forall ss, flat_map (owes (fun _ => [])) ss = flat_map due ss.
Proof.
  intro ss. rewrite !flat_map_concat_map. f_equal. apply map_ext. intro s. unfold owes, due. now destruct (st_done s); rewrite app_nil_r.
Qed.

Lemma strict_emits : forall R f f' holds (its : list (item R)) (aits : list aitem),
  Forall2 same_item its aits ->
  (forall i, In i its -> forall D, total D -> f (it_val i) D = feed D (f' (it_val i))) ->
  forall cl ss, exists cl' ss' l0,
    (forall next, total next -> astrict f holds aits (PDisp cl ss next) = (PDisp cl' ss' (fst (feed next l0)), true)) /\
    flat_map (owes (fun sel => flat_map f' (picks (holds sel) sel its))) ss = l0 ++ flat_map due ss'.
Proof.
  intros R f f' holds its aits F. induction F as [|i a its aits SI F IH]; intros FY cl ss.
  - exists cl, ss, []. split; [reflexivity|]. cbn [picks flat_map app]. apply owes_none.
  - rewrite (owes_step R f' holds i its a ss SI).
    destruct (dispatch_emits f f' (fun s => takes_item (holds s) s a) (it_dec a) cl ss (it_val a) (fun sel => flat_map f' (picks (holds sel) sel its))) as [cl1 [ss1 [l1 [D1 E1]]]].
    { rewrite <- (proj2 SI). apply FY. now left. }
    rewrite E1. destruct ss1 as [|s1 ss1].
    { exists cl1, [], l1. split; [|reflexivity]. intros next T. cbn [astrict]. now rewrite D1 by exact T. }
    destruct (IH (fun j J => FY j (or_intror J)) cl1 (s1 :: ss1)) as [cl2 [ss2 [l2 [D2 E2]]]]. exists cl2, ss2, (l1 ++ l2). split.
    + intros next T. cbn [astrict]. rewrite D1 by exact T. cbn [negb no_states disp_parts]. rewrite D2 by (now apply total_feed). now rewrite feed_total_app by exact T.
    + now rewrite E2, app_assoc.
Qed.

(** The items with what is below them. *)
Lemma relaxed_emits : forall f f' holds (its : list (item (list jval))) (aits : list aitem),
  Forall2 (fun i a => same_item i a /\ forall Q, total Q -> it_res a Q = feed Q (it_res i)) its aits ->
  (forall i, In i its -> forall D, total D -> f (it_val i) D = feed D (f' (it_val i))) ->
  forall cl ss, exists cl' ss' l0,
    (forall next, total next -> arelaxed f holds true aits (PDisp cl ss next) = (PDisp cl' ss' (fst (feed next l0)), true)) /\
    Permutation (flat_map (owes (fun sel => flat_map f' (picks (holds sel) sel its))) ss ++ flat_map it_res its) (l0 ++ flat_map due ss').
Proof.
  intros f f' holds its aits F. induction F as [|i a its aits [SI RI] F IH]; intros FY cl ss.
  - exists cl, ss, []. split; [reflexivity|]. cbn [picks flat_map app]. rewrite app_nil_r, owes_none. apply Permutation_refl.
  - rewrite (owes_step _ f' holds i its a ss SI).
    destruct (dispatch_emits f f' (fun s => takes_item (holds s) s a) (it_dec a) cl ss (it_val a) (fun sel => flat_map f' (picks (holds sel) sel its))) as [cl1 [ss1 [l1 [D1 E1]]]].
    { rewrite <- (proj2 SI). apply FY. now left. }
    rewrite E1. destruct (IH (fun j J => FY j (or_intror J)) cl1 ss1) as [cl2 [ss2 [l2 [D2 E2]]]]. exists cl2, ss2, (l1 ++ it_res i ++ l2). split.
    + intros next T. cbn [arelaxed]. rewrite D1 by exact T. cbn [negb snd disp_parts]. assert (T1 : total (fst (feed next l1))) by (now apply total_feed).
      rewrite RI by exact T1. rewrite feed_total_eq by exact T1. cbn [with_next]. rewrite D2 by (now apply total_feed). rewrite feed_total_app by exact T. now rewrite feed_total_app by exact T1.
    + cbn [flat_map]. rewrite <- !app_assoc. apply Permutation_app_head. rewrite app_assoc. rewrite (Permutation_app_comm _ (it_res i)). rewrite <- app_assoc. now apply Permutation_app_head.
Qed.
Lemma descend_emits : forall (its : list (item (list jval))) (aits : list aitem),
  Forall2 (fun i a => same_item i a /\ forall Q, total Q -> it_res a Q = feed Q (it_res i)) its aits ->
  forall Q, total Q -> adescend aits Q = feed Q (flat_map it_res its).
Proof.
  induction 1 as [|i a its aits [_ RI] F IH]; intros Q T; [reflexivity|]. cbn [adescend flat_map]. rewrite RI by exact T. rewrite feed_total_app by exact T.
  rewrite feed_total_eq by exact T. apply IH. now apply total_feed.
Qed.

Lemma run_emits : forall f f' holds sels strict (its : list (item (list jval))) (aits : list aitem),
  Forall2 (fun i a => same_item i a /\ forall Q, total Q -> it_res a Q = feed Q (it_res i)) its aits ->
  (forall i, In i its -> forall D, total D -> f (it_val i) D = feed D (f' (it_val i))) ->
  exists l, Permutation (child holds f' sels its ++ flat_map it_res its) l /\
    forall Q, total Q -> arun f holds sels true strict aits Q = feed Q l.
Proof.
  intros f f' holds sels strict its aits F FY.
  assert (EC : flat_map (owes (fun sel => flat_map f' (picks (holds sel) sel its))) (new_states sels) = child holds f' sels its).
  { unfold child, new_states. clear. induction sels as [|s sels IH]; [reflexivity|]. cbn [flat_map map]. rewrite IH. reflexivity. }
  unfold arun. destruct strict.
  - assert (F1 : Forall2 same_item its aits) by (clear - F; induction F as [|? ? ? ? [H _]]; constructor; auto).
    destruct (strict_emits _ f f' holds its aits F1 FY false (new_states sels)) as [cl [ss [l0 [D E]]]]. rewrite EC in E.
    exists (l0 ++ flat_map it_res its ++ flat_map due ss). split.
    + rewrite E, <- app_assoc. apply Permutation_app_head, Permutation_app_comm.
    + intros Q T. rewrite D by exact T. cbn [snd disp_parts]. assert (T1 : total (fst (feed Q l0))) by (now apply total_feed).
      rewrite (descend_emits its aits F _ T1). rewrite feed_total_eq by exact T1. assert (T2 := proj2 (total_feed (flat_map it_res its) _ T1)).
      unfold afinish, with_next. cbn [disp_parts]. rewrite flush_total by exact T2. rewrite feed_total_app by exact T. rewrite feed_total_app by exact T1. symmetry. now apply feed_total_eq.
  - destruct (relaxed_emits f f' holds its aits F FY false (new_states sels)) as [cl [ss [l0 [D E]]]]. rewrite EC in E. exists (l0 ++ flat_map due ss). split; [exact E|].
    intros Q T. rewrite D by exact T. unfold afinish. cbn [disp_parts]. assert (T1 := proj2 (total_feed l0 _ T)). rewrite flush_total by exact T1.
    rewrite feed_total_app by exact T. symmetry. now apply feed_total_eq.
Qed.

(** A processor that keeps what it gets: the order in which a segment processes
    the nodes. *)
Definition recorder : proc jval := PDisp true [mkState SWild false [] false; mkState SWild true [] false] (PCount 0).
Definition recorded (Q : proc jval) : list jval := match Q with PDisp _ [_; s] _ => map fst (st_pending s) | _ => [] end.
Lemma recorder_ok : forall l, recorded (fst (feed recorder l)) = l.
Proof.
  intro l. unfold recorder. rewrite feed_disp by exact Logic.I. cbn [fst direct st_selected andb map pushl recorded st_pending app]. rewrite map_map. apply map_id.
Qed.

Lemma flat_map_perm : forall A B (f g : A -> list B) l, (forall a, In a l -> Permutation (f a) (g a)) -> Permutation (flat_map f l) (flat_map g l).
Proof.
  intros A B f g. induction l as [|a l IH]; intro H; [constructor|]. cbn [flat_map]. apply Permutation_app; [apply H; now left|]. apply IH. intros b J. apply H. now right.
Qed.

Section Bag.
  Variable find : bytes -> bytes -> option (nat * nat).
  Variable sing : list (option jval).
  Variable inner : list (list jval).
  Notation sem_sel := (sem_sel find sing inner).

  (** The nodes up to the order. *)
  Fixpoint bag_seg (seg : segment) : jval -> list jval :=
    match seg with
    | Seg sels look desc _ following =>
        let f := match following with None => fun y => [y] | Some s => bag_seg s end in
        fix go (x : jval) : list jval :=
          let its := annot look x go in
          child sem_sel f sels its ++ if desc then flat_map it_res its else []
    end.
  Definition bag_after (following : option segment) : jval -> list jval :=
    match following with None => fun y => [y] | Some s => bag_seg s end.
  Lemma bag_seg_eq : forall sels look desc strict following x,
    bag_seg (Seg sels look desc strict following) x =
    let its := annot look x (bag_seg (Seg sels look desc strict following)) in
    child sem_sel (bag_after following) sels its ++ if desc then flat_map it_res its else [].
  Proof. intros sels look desc strict following [s|l e|l e]; reflexivity. Qed.

  (** The nodes in the order in which they are processed. *)
  Definition emit (seg : segment) (x : jval) : list jval := recorded (fst (atrans sem_sel seg x recorder)).
  Definition emit_after (following : option segment) : jval -> list jval :=
    match following with None => fun y => [y] | Some s => emit s end.

  Lemma child_perm : forall R R' (f g : jval -> list jval) sels (its : list (item R)) (its' : list (item R')), (forall y, Permutation (f y) (g y)) ->
    Forall2 same_item its its' -> Permutation (child sem_sel f sels its) (child sem_sel g sels its').
  Proof.
    intros R R' f g sels its its' H F. unfold child. apply flat_map_perm. intros s _.
    assert (E : picks (sem_sel s) s its = picks (sem_sel s) s its').
    { clear - F. induction F as [|i j a b [E1 E2] F IH]; [reflexivity|]. cbn [picks]. unfold takes_item. now rewrite E1, E2, IH. }
    rewrite E. assert (P : Permutation (flat_map f (picks (sem_sel s) s its')) (flat_map g (picks (sem_sel s) s its'))) by (apply flat_map_perm; auto).
    unfold ordered. destruct (sel_reverses s); [|exact P]. rewrite <- !Permutation_rev. exact P.
  Qed.

  Lemma emits : forall seg x, Permutation (bag_seg seg x) (emit seg x) /\ forall Q, total Q -> atrans sem_sel seg x Q = feed Q (emit seg x).
  Proof.
    assert (E : forall seg x l, Permutation (bag_seg seg x) l -> (forall Q, total Q -> atrans sem_sel seg x Q = feed Q l) ->
      Permutation (bag_seg seg x) (emit seg x) /\ forall Q, total Q -> atrans sem_sel seg x Q = feed Q (emit seg x)).
    { intros seg x l P H. assert (emit seg x = l) as -> by (unfold emit; rewrite H by exact Logic.I; apply recorder_ok). auto. }
    fix IH 1. intros [sels look desc strict following].
    assert (FY : forall y, Permutation (bag_after following y) (emit_after following y) /\ forall D, total D -> afollow sem_sel following y D = feed D (emit_after following y)).
    { destruct following as [s|]; cbn [afollow bag_after emit_after].
      - intro y. apply IH.
      - intro y. split; [apply Permutation_refl|]. intros D T. cbn [feed]. destruct (total_process D y T) as [A _]. destruct (aprocess D y) as [D' b]. cbn [snd] in A. now subst. }
    clear IH. intro x. induction x as [x IH] using in_items_ind. set (seg := Seg sels look desc strict following) in *.
    set (its := annot look x (emit seg)). set (aits := annot look x (atrans sem_sel seg)). set (bits := annot look x (bag_seg seg)).
    assert (FB : Forall2 (fun i j => same_item i j /\ (desc = true -> Permutation (it_res i) (it_res j))) bits its).
    { apply annot_rel. intros dec y Y. split; [now split|]. intros _. cbn [it_res]. now apply IH. }
    assert (FA : Forall2 (fun i a => same_item i a /\ forall Q, total Q -> it_res a Q = feed Q (it_res i)) its aits).
    { apply annot_rel. intros dec y Y. split; [now split|]. cbn [it_res]. now apply IH. }
    assert (FB1 : Forall2 same_item bits its) by (clear - FB; induction FB as [|? ? ? ? [H _]]; constructor; auto).
    assert (FA1 : Forall2 same_item its aits) by (clear - FA; induction FA as [|? ? ? ? [H _]]; constructor; auto).
    assert (PB : Permutation (bag_seg seg x) (child sem_sel (emit_after following) sels its ++ if desc then flat_map it_res its else [])).
    { unfold seg. rewrite bag_seg_eq. fold seg. cbv zeta. fold bits. apply Permutation_app; [apply child_perm; [intro y; apply FY|exact FB1]|]. destruct desc; [|constructor].
      clear - FB. induction FB as [|i j a b [_ H] FB IHF]; [constructor|]. cbn [flat_map]. apply Permutation_app; auto. }
    assert (RUN : exists l, Permutation (child sem_sel (emit_after following) sels its ++ if desc then flat_map it_res its else []) l /\
       forall Q, total Q -> arun (afollow sem_sel following) sem_sel sels desc strict aits Q = feed Q l).
    { destruct desc.
      - apply run_emits; [exact FA|]. intros i _. apply FY.
      - exists (child sem_sel (emit_after following) sels its). split; [now rewrite app_nil_r|]. intros Q T. apply run_total; [exact T|exact FA1|]. intros i _. apply FY. }
    destruct RUN as [l [PL RL]]. destruct x as [sc|m e|m e].
    - apply (E seg (JScalar sc) []); [|reflexivity].
      assert (N : forall s, sels = s -> child sem_sel (emit_after following) s its = []).
      { intros s _. subst its. cbn [annot]. unfold child. cbn [picks flat_map]. clear. induction s as [|s ss IHs]; [reflexivity|]. cbn [flat_map]. rewrite IHs. unfold ordered. now destruct (sel_reverses s). }
      rewrite PB, (N sels eq_refl). subst its. now destruct desc.
    - apply (E seg _ l); [rewrite PB; exact PL|]. intros Q T. unfold seg. rewrite atrans_eq. fold seg. now apply RL.
    - apply (E seg _ l); [rewrite PB; exact PL|]. intros Q T. unfold seg. rewrite atrans_eq. fold seg. now apply RL.
  Qed.
End Bag.

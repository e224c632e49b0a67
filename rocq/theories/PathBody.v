(** One segment on one value. *)
From Coq Require Import List ZArith NArith Arith Bool Lia.
From Verif Require Import Base Tokens JsonSpec EncSpec ScalarModel CursorModel IterModel IterSpec IterCore IterThr IterRel IterSound
  ScriptSpec ScriptProofs IterLib EqualModel EqualProofs UseLib SelectModel PathModel PathAbs PathFacts PathSim PathDisp PathLoop.
Open Scope iprog_scope.

(** The value is a clone, or a scalar. *)
Definition rooted (t : list shandle) (w : value) : Prop :=
  match w with VScalar _ => True | VArr c | VObj c => exists hd, nth_error t c = Some hd /\ s_root hd = true end.
Lemma rooted_change : forall t t' F w, change t t' F -> rooted t w -> rooted t' w.
Proof.
  intros t t' F w C R. destruct w as [s|c|c]; [exact I| |]; destruct R as [hd [E R]]; destruct (cg_kept _ _ _ C c hd E) as [hd' [E' [_ R']]];
    exists hd'; (split; [exact E'|congruence]).
Qed.
Lemma rooted_fresh : forall t v x ids, fresh t v x ids -> (forall j, In j ids -> exists hd, nth_error t j = Some hd /\ s_root hd = true) -> rooted t v.
Proof.
  intros t v x ids F R. pose proof (fresh_chain _ _ _ _ F) as C. inversion C as [s|w c hd G S|w c hd k ch rest ids1 G S C1 O]; subst; [exact I| |];
  destruct v as [s|c'|c']; try discriminate G; unfold s_get in G; cbn in G; (destruct (nth_error t c') as [h|] eqn:E; [|discriminate]); 
  (destruct (s_val h); try discriminate); injection G as -> ->; cbn [rooted]; apply R; now left.
Qed.
Lemma detach_rooted : forall t w ids, chain t w ids -> rooted t w -> exists t', s_detach t w = Some t' /\ change t t' ids.
Proof.
  intros t w ids C R. apply detach_root; [exact C|]. intros c r ->. inversion C as [s|w' c' hd G S|w' c' hd k ch rest ids1 G S C1 O]; subst;
  destruct w as [s|c1|c1]; try discriminate G; unfold s_get in G; cbn in G; (destruct (nth_error t c1) as [h|] eqn:E; [|discriminate]);
  (destruct (s_val h); try discriminate); injection G as -> ->; exact R.
Qed.
Lemma fresh_array : forall t v l e ids, fresh t v (JArr l e) ids -> exists c, v = VArr c.
Proof.
  intros t v l e ids [c [root [G _]]]. destruct v as [s|c'|c']; [discriminate|eauto|].
  unfold s_get in G. destruct (nth_error t c') as [h|]; [|discriminate]. destruct (s_val h) eqn:V; try discriminate. injection G as <- ->. discriminate.
Qed.
Lemma fresh_object : forall t v l e ids, fresh t v (JObj l e) ids -> exists c, v = VObj c.
Proof.
  intros t v l e ids [c [root [G _]]]. destruct v as [s|c'|c']; [discriminate| |eauto].
  unfold s_get in G. destruct (nth_error t c') as [h|]; [|discriminate]. destruct (s_val h) eqn:V; try discriminate. injection G as <- ->. discriminate.
Qed.

Section Context.
Variable ctx : context.
Variable sing : list (option jval).
Variable inner : list (list jval).
Notation ctx_rel := (ctx_rel ctx sing inner).
Notation good_step := (good_step ctx sing inner).
Notation peek := (peek ctx sing inner).
Notation good_tail := (good_tail ctx sing inner).
Notation at_loop := (at_loop ctx sing inner).

Ltac lts := repeat match goal with
  | H : PathSim.ctx_rel _ _ _ _ _ _ |- _ => add (ctx_lt _ _ _ _ _ _ H)
  | H : drel _ _ _ _ _ _ _ |- _ => add (drel_lt _ _ _ _ _ _ _ H)
  | H : aopen _ _ _ _ _ |- _ => add (aopen_lt _ _ _ _ _ H)
  end.
Ltac ids ::= lts; gather; unfold agree in *;
  lazymatch goal with
  | |- sep _ _ => intros ?j ?J ?K; sat; lia
  | |- newer _ _ _ _ => intros ?j ?J; sat; first [left; inapp|right; split; [lia|reflexivity]]
  | |- incl _ _ => intros ?j ?J; sat; inapp
  | |- above _ _ => intros ?j ?J; sat; lia
  | |- _ => intros; sat; first [lia|inapp|left; inapp|right; lia]
  end.

Definition achain t (ahead : option value) idA := match ahead with Some w => chain t w idA | None => idA = [] end.
Definition aroot t (ahead : option value) := match ahead with Some w => rooted t w | None => True end.

Lemma start_ok : forall A n look t it v l e ids (k : option value -> Z -> iprog A), fresh t v (JArr l e) ids -> length l < n ->
  exists t1 ahead idA, spec_run (start_ahead n look v k) (mkSt t it) = spec_run (k ahead (snd (start_look look (length l) (min64 + 1)))) (mkSt t1 it) /\
    change t t1 [] /\ aopen look t1 ahead (start_look look (length l) (min64 + 1)) idA /\ above (length t) idA /\ aroot t1 ahead.
Proof.
  intros A n look t it v l e ids k F L. unfold start_ahead, start_look. destruct (0 <? look)%Z eqn:EL.
  - cbn [spec_run st_coll st_iter]. destruct (clone_fresh t v _ ids F) as [CL [FC RC]]. rewrite CL. cbn [on_coll obind st_iter].
    set (t1 := t ++ hof (JArr l e) true) in *. pose proof (opened_fresh _ _ _ _ FC eq_refl) as O.
    assert (LI : length (items (JArr l e)) = length l) by (cbn [items]; apply map_length).
    destruct (look_ahead_ok look n t1 it _ _ _ 0%Z _ (fun neg => k (Some (vof (length t) (JArr l e))) neg) ltac:(rewrite LI; exact L) O)
      as [t2 [idA [rest [RUN [C2 [N2 [O2 L2]]]]]]]. rewrite LI in RUN, L2.
    exists t2, (Some (vof (length t) (JArr l e))), idA. split; [exact RUN|].
    assert (C1 : change t t1 []) by apply change_app.
    split; [eapply change_then; [exact C1|exact C2|intros j J; right; apply iof_in in J; lia]|].
    split; [split; [exists rest; auto|exact EL]|]. split; [intros j J; destruct (N2 j J) as [I|[I _]]; [apply iof_in in I; lia|pose proof (cg_len _ _ _ C1); lia]|].
    cbn [aroot]. eapply rooted_change; [exact C2|]. eapply rooted_fresh; eassumption.
  - exists t, None, []. split; [reflexivity|]. split; [apply change_refl|]. split; [split; [reflexivity|exact EL]|]. split; [intros j []|exact I].
Qed.

Lemma finish_ok : forall sb sb' L t it D D' idsD r, drel t sb sb' L D D' idsD ->
  exists t' it' P' ids', spec_run (finish D r) (mkSt t it) = Some (mkSt t' it', (P', snd (afinish D' r))) /\
    change t t' idsD /\ prel t' (sb' :: L) P' (fst (afinish D' r)) ids' /\ newer t None idsD ids' /\ iext it it'.
Proof.
  intros sb sb' L t it D D' idsD r [cl ss ss' i P Q idn SR LE PN SI]. unfold finish, afinish. cbn [disp_parts]. rewrite spec_bind.
  destruct (flush_states_ok sb sb' LE L _ _ _ _ SR it r P Q idn PN SI) as [t1 [it1 [P1 [ids1 [-> [C1 [PR1 [N1 IE]]]]]]]].
  cbn [obind spec_run]. exists t1, it1, P1, ids1. split; [reflexivity|]. split; [exact C1|]. split; [exact PR1|]. split; [ids|exact IE].
Qed.

Lemma end_ok : forall sb sb' L t it ahead idA D D' idsD r, drel t sb sb' L D D' idsD -> achain t ahead idA -> aroot t ahead -> sep idA idsD ->
  exists t' it' P' ids', spec_run (end_ahead ahead (finish D r)) (mkSt t it) = Some (mkSt t' it', (P', snd (afinish D' r))) /\
    change t t' (idA ++ idsD) /\ prel t' (sb' :: L) P' (fst (afinish D' r)) ids' /\ newer t None idsD ids' /\ iext it it'.
Proof.
  intros sb sb' L t it ahead idA D D' idsD r DR AC AR S. destruct ahead as [w|]; cbn [end_ahead].
  - cbn [achain aroot] in AC, AR. destruct (detach_rooted t w idA AC AR) as [t1 [DT C1]]. cbn [spec_run st_coll st_iter]. rewrite DT. cbn [on_coll_ obind st_iter].
    assert (DR1 : drel t1 sb sb' L D D' idsD) by (eapply drel_frame; [exact DR|same C1]).
    destruct (finish_ok sb sb' L t1 it D D' idsD r DR1) as [t2 [it2 [P2 [ids2 [-> [C2 [PR2 [N2 IE]]]]]]]].
    exists t2, it2, P2, ids2. split; [reflexivity|]. split; [eapply change_then; [eapply change_weaken; [exact C1|]|exact C2|]; ids|]. split; [exact PR2|]. split; [ids|exact IE].
  - destruct (finish_ok sb sb' L t it D D' idsD r DR) as [t2 [it2 [P2 [ids2 [-> [C2 [PR2 [N2 IE]]]]]]]].
    exists t2, it2, P2, ids2. split; [reflexivity|]. split; [eapply change_weaken; [exact C2|ids]|]. auto.
Qed.

Section Body.
Variable tv : segment -> value -> proc value -> iprog (proc value * bool).
Variable ev : cond -> value -> iprog bool.
Variable holds : selector -> jval -> bool.
Variable fa : jval -> proc jval -> proc jval * bool.

(** After the first loop. *)
Lemma simple_tail : forall sb sb' L t it v ids ahead idA idsD loop a, aroot t ahead ->
  (forall j, In j ids -> j < length t) -> (forall j, In j idA -> j < length t) -> (forall j, In j idsD -> j < length t) ->
  sep ids idA ->
  loop_post sb sb' L t it v ids ahead idA idsD (spec_run loop (mkSt t it)) a ->
  exists t' it' P' ids' idsP', spec_run (ilet (D1, r) <- loop ; end_ahead ahead (finish D1 r)) (mkSt t it) = Some (mkSt t' it', (P', snd a)) /\
    change t t' (ids ++ idA ++ idsD) /\ newer t None ids ids' /\ chain t' v ids' /\
    prel t' (sb' :: L) P' (fst (afinish (fst a) (snd a))) idsP' /\ newer t None idsD idsP' /\ sep ids' idsP' /\ iext it it'.
Proof.
  intros sb sb' L t it v ids ahead idA idsD loop a AR B1 B2 B3 S0
    [t2 [it2 [D2 [ids2 [idA2 [idsD2 [E [C2 [M1 [CH [M2 [CA [DR [M3 [S1 [S2 [S3 IE2]]]]]]]]]]]]]]]]].
  rewrite spec_bind, E. cbn [obind]. destruct a as [D' r]. cbn [fst snd] in *.
  assert (AR2 : aroot t2 ahead) by (destruct ahead; [eapply rooted_change; eassumption|exact I]).
  destruct (end_ok sb sb' L t2 it2 ahead idA2 D2 D' idsD2 r DR CA AR2 S3) as [t3 [it3 [P3 [ids3 [-> [C3 [PR3 [N3 IE3]]]]]]]].
  unfold afinish at 1. destruct (disp_parts D') as [[? ?] ?] eqn:DP. cbn [snd].
  exists t3, it3, P3, ids2, ids3. split; [reflexivity|]. split; [eapply change_then; [exact C2|exact C3|ids]|]. split; [exact M1|].
  split; [eapply chain_frame; [exact CH|same C3]|]. split; [exact PR3|]. split; [ids|]. split; [ids|eapply iext_trans; eassumption].
Qed.

Lemma strict_tail : forall seg sb sb' L t it v ids ahead idA idsD idsC loop a n its v2 items id2, aroot t ahead -> rooted t v2 ->
  (forall j, In j ids -> j < length t) -> (forall j, In j idA -> j < length t) -> (forall j, In j idsD -> j < length t) ->
  sep ids idA -> opened t v2 items id2 -> map snd items = map it_val its -> length its < n -> 
  (forall i, In i its -> good_step sb' (tv seg) (it_val i) (it_res i)) ->
  sep id2 ids -> sep id2 idA -> sep id2 idsD -> sep idsC ids -> sep idsC idA -> sep idsC idsD -> sep idsC id2 -> ctx_rel t it idsC ->
  loop_post sb sb' L t it v ids ahead idA idsD (spec_run loop (mkSt t it)) a ->
  exists t' it' P' ids' idsP', spec_run (ilet (D1, r) <- loop ;
      if r then ilet (next', r2) <- descend tv n seg v2 (snd (disp_parts D1)) ; IDetach v2 (end_ahead ahead (finish (with_next D1 next') r2))
      else IDetach v2 (end_ahead ahead (finish D1 false))) (mkSt t it) =
    Some (mkSt t' it', (P', snd (if snd a then let '(Q', r2) := adescend its (snd (disp_parts (fst a))) in afinish (with_next (fst a) Q') r2 else afinish (fst a) false))) /\
    change t t' (ids ++ idA ++ idsD ++ id2) /\ newer t None ids ids' /\ chain t' v ids' /\
    prel t' (sb' :: L) P' (fst (if snd a then let '(Q', r2) := adescend its (snd (disp_parts (fst a))) in afinish (with_next (fst a) Q') r2 else afinish (fst a) false)) idsP' /\
    newer t None idsD idsP' /\ sep ids' idsP' /\ iext it it'.
Proof.
  intros seg sb sb' L t it v ids ahead idA idsD idsC loop a n its v2 items id2 AR RT B1 B2 B3 S0 O2 EI LN GS X1 X2 X3 Y1 Y2 Y3 Y4 CR
    [t2 [it2 [D2 [ids2 [idA2 [idsD2 [E [C2 [M1 [CH [M2 [CA [DR [M3 [S1 [S2 [S3 IE2]]]]]]]]]]]]]]]]].
  rewrite spec_bind, E. cbn [obind]. destruct a as [D' r]. cbn [fst snd] in *.
  assert (BX : forall j, In j id2 -> j < length t) by (intros j J; exact (opened_lt _ _ _ _ _ O2 J)).
  assert (BC : forall j, In j idsC -> j < length t) by (exact (ctx_lt _ _ _ _ _ _ CR)).
  assert (AR2 : aroot t2 ahead) by (destruct ahead; [eapply rooted_change; eassumption|exact I]).
  assert (RT2 : rooted t2 v2) by (eapply rooted_change; eassumption).
  assert (O2' : opened t2 v2 items id2) by (eapply opened_frame; [exact O2|same C2]).
  assert (BY : forall j, In j ids2 -> j < length t2) by (intros j J; exact (chain_lt _ _ _ _ CH J)).
  assert (BZ : forall j, In j idA2 -> j < length t2) by (destruct ahead; [intros j J; exact (chain_lt _ _ _ _ CA J)|subst idA2; intros j []]).
  destruct r.
  - destruct DR as [cl ss ss' i P Q idn SR LE PN SI]. cbn [disp_parts snd with_next].
    assert (M3n : newer t None idsD idn) by (intros j J; apply M3; inapp).
    assert (M3i : newer t None idsD i) by (intros j J; apply M3; inapp).
    assert (CR2 : ctx_rel t2 it2 idsC) by (eapply ctx_frame; [exact CR|same C2|exact IE2|ids]).
    rewrite spec_bind.
    destruct (descend_ok ctx sing inner tv seg sb' L idsC v2 n its LN GS t2 it2 items id2 P Q idn O2' EI PN ltac:(ids) CR2 ltac:(ids) ltac:(ids))
      as [t3 [it3 [P3 [id3 [idn3 [-> [C3 [N3 [CH3 [PR3 [NP3 [S33 IE3]]]]]]]]]]]].
    cbn [obind]. destruct (adescend its Q) as [Q3 r3]. cbn [fst snd] in *.
    assert (RT3 : rooted t3 v2) by (eapply rooted_change; eassumption).
    assert (AR3 : aroot t3 ahead) by (destruct ahead; [eapply rooted_change; eassumption|exact I]).
    destruct (detach_rooted t3 v2 id3 CH3 RT3) as [t4 [DT C4]]. cbn [spec_run st_coll st_iter]. rewrite DT. cbn [on_coll_ obind st_iter].
    assert (AR4 : aroot t4 ahead) by (destruct ahead; [eapply rooted_change; eassumption|exact I]).
    assert (C24 : change t2 t4 (id2 ++ idn)) by (eapply change_then; [exact C3|exact C4|ids]).
    assert (DR4 : drel t4 sb sb' L (PDisp cl ss P3) (PDisp cl ss' Q3) (i ++ idn3)).
    { constructor; auto; [eapply strel_frame; [exact SR|same C24]|eapply prel_frame; [exact PR3|same C4]|ids]. }
    assert (CA4 : achain t4 ahead idA2) by (destruct ahead; [eapply chain_frame; [exact CA|same C24]|exact CA]).
    assert (CH4 : chain t4 v ids2) by (eapply chain_frame; [exact CH|same C24]).
    destruct (end_ok sb sb' L t4 it3 ahead idA2 _ _ _ r3 DR4 CA4 AR4 ltac:(ids)) as [t5 [it5 [P5 [ids5 [-> [C5 [PR5 [N5 IE5]]]]]]]].
    assert (NQ : newer t None idsD (i ++ idn3)) by ids.
    exists t5, it5, P5, ids2, ids5. split; [reflexivity|].
    assert (C04 : change t t4 (ids ++ idA ++ idsD ++ id2)) by (eapply change_then; [eapply change_weaken; [exact C2|ids]|exact C24|ids]).
    split; [eapply change_then; [exact C04|exact C5|ids]|]. split; [exact M1|].
    split; [eapply chain_frame; [exact CH4|same C5]|]. split; [exact PR5|]. split; [ids|]. split; [ids|].
    eapply iext_trans; [exact IE2|eapply iext_trans; eassumption].
  - destruct (detach_rooted t2 v2 id2 (opened_chain _ _ _ _ O2') RT2) as [t4 [DT C4]]. cbn [spec_run st_coll st_iter]. rewrite DT. cbn [on_coll_ obind st_iter].
    assert (AR4 : aroot t4 ahead) by (destruct ahead; [eapply rooted_change; eassumption|exact I]).
    assert (DR4 : drel t4 sb sb' L D2 D' idsD2) by (eapply drel_frame; [exact DR|same C4]).
    assert (CA4 : achain t4 ahead idA2) by (destruct ahead; [eapply chain_frame; [exact CA|same C4]|exact CA]).
    assert (CH4 : chain t4 v ids2) by (eapply chain_frame; [exact CH|same C4]).
    destruct (end_ok sb sb' L t4 it2 ahead idA2 _ _ _ false DR4 CA4 AR4 S3) as [t5 [it5 [P5 [ids5 [-> [C5 [PR5 [N5 IE5]]]]]]]].
    exists t5, it5, P5, ids2, ids5. split; [reflexivity|].
    assert (C04 : change t t4 (ids ++ idA ++ idsD ++ id2)) by (eapply change_then; [eapply change_weaken; [exact C2|ids]|exact C4|ids]).
    split; [eapply change_then; [exact C04|exact C5|ids]|]. split; [exact M1|].
    split; [eapply chain_frame; [exact CH4|same C5]|]. split; [exact PR5|]. split; [ids|]. split; [ids|].
    eapply iext_trans; eassumption.
Qed.

(** What the segment needs from the value. *)
Definition keys_ok (x : jval) : Prop :=
  match x with JObj l _ => forall m, In m l -> exists b, to_string (fst m) = Ok b | _ => True end.
Definition breadth (x : jval) : nat := match x with JScalar _ => 0 | JArr l _ => length l | JObj l _ => length l end.

Lemma good_tail_strict : forall following seg desc sb sb' its P, good_tail tv ev holds following fa seg desc sb sb' P its ->
  good_tail tv ev holds following fa seg false sb sb' P its.
Proof.
  intros following seg desc sb sb'. induction its as [|i its IH]; intros P G; [exact I|]. destruct G as [[G1 [G2 _]] [G3 G4]].
  split; [split; [exact G1|split; [exact G2|discriminate]]|]. split; [exact G3|auto].
Qed.
Lemma good_tail_res : forall following seg sb sb' its P, good_tail tv ev holds following fa seg true sb sb' P its ->
  forall i, In i its -> good_step sb' (tv seg) (it_val i) (it_res i).
Proof.
  intros following seg sb sb'. induction its as [|i its IH]; intros P G j J; [destruct J|]. destruct G as [[_ [_ G2]] [_ G4]].
  destruct J as [<-|J]; [auto|eauto].
Qed.

Lemma new_rel : forall sb t sels, (forall s, In s sels -> sel_reverses s = true -> sb = true) -> strel sb t (new_states sels) (new_states sels) [].
Proof.
  intros sb t. induction sels as [|s sels IH]; intro H; [constructor|]. cbn [new_states map].
  apply (sr_cons sb t s false false [] [] []); [constructor|apply H; now left|apply IH; intros s' J; apply H; now right|intros j []].
Qed.
Lemma live_new : forall sels Q s, live (PDisp false (new_states sels) Q) s -> In s sels.
Proof.
  intros sels Q s [st [J [_ <-]]]. unfold states_of in J. cbn [disp_parts fst snd] in J. unfold new_states in J.
  apply in_map_iff in J as [s0 [<- J]]. exact J.
Qed.
Lemma annot_arr_vals : forall R look (l : list (jval * R)) s index, map it_val (annot_arr look s index l) = map fst l.
Proof. intros R look. induction l as [|y l IH]; intros s index; [reflexivity|]. cbn [annot_arr map it_val]. now rewrite IH. Qed.
Lemma annot_vals : forall R look x (go : jval -> R), map it_val (annot look x go) = map snd (items x).
Proof.
  intros R look [s|l e|l e] go; cbn [annot items]; [reflexivity| |].
  - rewrite annot_arr_vals, !map_map. reflexivity.
  - unfold annot_obj. now rewrite !map_map.
Qed.

Lemma body_ok : forall sels look desc strict following n x sb' (ares : jval -> proc jval -> proc jval * bool),
  let seg := Seg sels look desc strict following in
  let sb := existsb sel_reverses sels || sb' in
  breadth x < n -> keys_ok x ->
  good_tail tv ev holds following fa seg desc sb sb' (fun s => In s sels) (annot look x ares) ->
  good_step sb' (transform_body tv ev n seg) x
    (match x with JScalar _ => fun Q => (Q, true) | _ => arun fa holds sels desc strict (annot look x ares) end).
Proof.
  intros sels look desc strict following n x sb' ares seg sb LN KO GT L t it v ids P Q idsP idsC F PR S1 CR SC1 SC2.
  assert (BV : forall j, In j ids -> j < length t) by (intros j J; exact (fresh_lt _ _ _ _ _ F J)).
  assert (BP : forall j, In j idsP -> j < length t) by (exact (prel_lt _ _ _ _ _ PR)).
  assert (BC : forall j, In j idsC -> j < length t) by (exact (ctx_lt _ _ _ _ _ _ CR)).
  assert (ND : forall t1, prel t1 (sb' :: L) P Q idsP -> drel t1 sb sb' L (PDisp false (new_states sels) P) (PDisp false (new_states sels) Q) idsP).
  { intros t1 H. change idsP with ([] ++ idsP). constructor; [apply new_rel|unfold sb; intros ->; apply orb_true_r|exact H|intros j []].
    intros s J E. unfold sb. apply orb_true_iff. left. apply existsb_exists. eauto. }
  assert (GT' : good_tail tv ev holds following fa seg desc sb sb' (live (PDisp false (new_states sels) Q)) (annot look x ares)).
  { eapply good_tail_mono; [|exact GT]. intros s. apply live_new. }
  clear GT. destruct x as [sc|l e|l e].
  - destruct F as [-> ->]. cbn [transform_body seg spec_run st_coll s_discard on_coll_ obind st_iter].
    exists t, it, P, [], idsP. split; [reflexivity|]. split; [apply change_refl|]. split; [apply newer_refl|]. split; [constructor|].
    split; [exact PR|]. split; [apply newer_refl|]. split; [intros j []|apply iext_refl].
  - destruct (fresh_array _ _ _ _ _ F) as [c ->]. set (v := VArr c) in *. cbn [breadth] in LN.
    cbn [transform_body seg]. change (match v with VScalar _ => _ | VArr _ => ?a | VObj _ => _ end) with a.
    match goal with |- context [start_ahead n look v ?k] =>
      destruct (start_ok _ n look t it v l e ids k F LN) as [t1 [ahead [idA [-> [C1 [AO1 [AB1 AR1]]]]]]] end.
    set (s0 := start_look look (length l) (min64 + 1)) in *.
    assert (LE1 := cg_len _ _ _ C1).
    assert (BA : forall j, In j idA -> j < length t1) by (exact (aopen_lt _ _ _ _ _ AO1)).
    assert (F1 : fresh t1 v (JArr l e) ids) by (eapply fresh_frame; [exact F|same C1]).
    assert (PR1 : prel t1 (sb' :: L) P Q idsP) by (eapply prel_frame; [exact PR|same C1]).
    assert (CR1 : ctx_rel t1 it idsC) by (eapply ctx_frame; [exact CR|same C1|apply iext_refl|ids]).
    pose proof (opened_fresh _ _ _ _ F1 eq_refl) as O1. change (items (JArr l e)) with (arr_items l) in O1.
    change (annot look (JArr l e) ares) with (arr_annot ares look s0 0 l) in *.
    assert (AL1 : at_loop look sb sb' L t1 it v (arr_items l) ids ahead s0 idA (PDisp false (new_states sels) P) (PDisp false (new_states sels) Q) idsP idsC).
    { constructor; [exact O1|exact AO1|exact (ND t1 PR1)|exact S1|ids|ids|exact CR1|exact SC1|ids|exact SC2]. }
    destruct strict; [destruct desc|].
    + (* strict, with descendants *)
      cbn [spec_run st_coll st_iter]. destruct (clone_fresh t1 v _ ids F1) as [CL [FC RC]]. rewrite CL. cbn [on_coll obind st_iter].
      set (t2 := t1 ++ hof (JArr l e) true) in *. set (v2 := vof (length t1) (JArr l e)) in *. set (id2 := iof (length t1) (JArr l e)) in *.
      assert (C2 : change t1 t2 []) by apply change_app. assert (LE2 := cg_len _ _ _ C2).
      assert (A2 : above (length t1) id2) by (intros j J; apply iof_in in J; lia).
      assert (B2 : forall j, In j id2 -> j < length t2) by (intros j J; exact (fresh_lt _ _ _ _ _ FC J)).
      pose proof (opened_fresh _ _ _ _ FC eq_refl) as O2.
      assert (AL2 : at_loop look sb sb' L t2 it v (arr_items l) ids ahead s0 idA (PDisp false (new_states sels) P) (PDisp false (new_states sels) Q) idsP idsC).
      { constructor; [eapply opened_frame; [exact O1|same C2]|eapply aopen_frame; [exact AO1|same C2]|apply ND; eapply prel_frame; [exact PR1|same C2]|exact S1|ids|ids|
          eapply ctx_frame; [exact CR1|same C2|apply iext_refl|ids]|exact SC1|ids|exact SC2]. }
      assert (LP := array_strict_ok ctx sing inner tv ev holds following fa seg ares look sb sb' L idsC v ahead n l LN s0 0%Z t2 it ids idA _ _ idsP AL2
        (good_tail_strict _ _ _ _ _ _ _ GT')).
      assert (AR2 : aroot t2 ahead) by (destruct ahead; [eapply rooted_change; eassumption|exact I]).
      assert (RT2 : rooted t2 v2) by (eapply rooted_fresh; eassumption).
      destruct (strict_tail seg sb sb' L t2 it v ids ahead idA idsP idsC (array_strict tv ev n following v ahead 0 (snd s0) (PDisp false (new_states sels) P)) (astrict fa holds (arr_annot ares look s0 0 l) (PDisp false (new_states sels) Q)) n (arr_annot ares look s0 0 l) v2 _ id2 AR2 RT2
        ltac:(ids) ltac:(ids) ltac:(ids) ltac:(ids) O2) as [t3 [it3 [P3 [ids3 [idsP3 [RUN [C3 [N3 [CH3 [PR3 [NP3 [S33 IE3]]]]]]]]]]]]; try exact LP; try ids.
      { symmetry. exact (annot_vals _ look (JArr l e) ares). }
      { rewrite <- (map_length it_val), (annot_vals _ look (JArr l e) ares : map it_val (arr_annot ares look s0 0 l) = _), map_length. cbn [items]. now rewrite map_length. }
      { exact (good_tail_res _ _ _ _ _ _ GT'). }
      { eapply ctx_frame; [exact CR1|same C2|apply iext_refl|ids]. }
      exists t3, it3, P3, ids3, idsP3.
      assert (EA : arun fa holds sels true true (arr_annot ares look s0 0 l) Q =
        (if snd (astrict fa holds (arr_annot ares look s0 0 l) (PDisp false (new_states sels) Q)) then
           let '(Q', r2) := adescend (arr_annot ares look s0 0 l) (snd (disp_parts (fst (astrict fa holds (arr_annot ares look s0 0 l) (PDisp false (new_states sels) Q))))) in
           afinish (with_next (fst (astrict fa holds (arr_annot ares look s0 0 l) (PDisp false (new_states sels) Q))) Q') r2
         else afinish (fst (astrict fa holds (arr_annot ares look s0 0 l) (PDisp false (new_states sels) Q))) false)).
      { unfold arun. destruct (astrict _ _ _ _) as [D1 r]. destruct r; reflexivity. }
      rewrite EA. split; [exact RUN|].
      assert (C02 : change t t2 []) by (eapply change_trans; eassumption).
      split; [eapply change_then; [eapply change_weaken; [exact C02|intros j []]|exact C3|ids]|]. split; [ids|]. split; [exact CH3|]. split; [exact PR3|].
      split; [ids|]. split; [exact S33|exact IE3].
    + assert (LP := array_strict_ok ctx sing inner tv ev holds following fa seg ares look sb sb' L idsC v ahead n l LN s0 0%Z t1 it ids idA _ _ idsP AL1
        (good_tail_strict _ _ _ _ _ _ _ GT')).
      destruct (simple_tail sb sb' L t1 it v ids ahead idA idsP _ _ AR1 ltac:(ids) ltac:(ids) ltac:(ids) ltac:(ids) LP)
        as [t3 [it3 [P3 [ids3 [idsP3 [RUN [C3 [N3 [CH3 [PR3 [NP3 [S33 IE3]]]]]]]]]]]].
      exists t3, it3, P3, ids3, idsP3.
      assert (EA : arun fa holds sels false true (arr_annot ares look s0 0 l) Q =
        (fst (afinish (fst (astrict fa holds (arr_annot ares look s0 0 l) (PDisp false (new_states sels) Q))) (snd (astrict fa holds (arr_annot ares look s0 0 l) (PDisp false (new_states sels) Q)))),
         snd (astrict fa holds (arr_annot ares look s0 0 l) (PDisp false (new_states sels) Q)))).
      { unfold arun. destruct (astrict _ _ _ _) as [D1 r]. unfold afinish. cbn [fst snd]. destruct (disp_parts D1) as [[? ?] ?]. reflexivity. }
      rewrite EA. cbn [fst snd]. split; [exact RUN|].
      split; [eapply change_then; [eapply change_weaken; [exact C1|intros j []]|exact C3|ids]|]. split; [ids|]. split; [exact CH3|]. split; [exact PR3|].
      split; [ids|]. split; [exact S33|exact IE3].
    + assert (LP := array_relaxed_ok ctx sing inner tv ev holds following fa seg ares look desc sb sb' L idsC v ahead n l LN s0 0%Z t1 it ids idA _ _ idsP AL1 GT').
      destruct (simple_tail sb sb' L t1 it v ids ahead idA idsP _ _ AR1 ltac:(ids) ltac:(ids) ltac:(ids) ltac:(ids) LP)
        as [t3 [it3 [P3 [ids3 [idsP3 [RUN [C3 [N3 [CH3 [PR3 [NP3 [S33 IE3]]]]]]]]]]]].
      exists t3, it3, P3, ids3, idsP3.
      assert (EA : arun fa holds sels desc false (arr_annot ares look s0 0 l) Q =
        (fst (afinish (fst (arelaxed fa holds desc (arr_annot ares look s0 0 l) (PDisp false (new_states sels) Q))) (snd (arelaxed fa holds desc (arr_annot ares look s0 0 l) (PDisp false (new_states sels) Q)))),
         snd (arelaxed fa holds desc (arr_annot ares look s0 0 l) (PDisp false (new_states sels) Q)))).
      { unfold arun. destruct (arelaxed _ _ _ _ _) as [D1 r]. unfold afinish. cbn [fst snd]. destruct (disp_parts D1) as [[? ?] ?]. reflexivity. }
      rewrite EA. cbn [fst snd]. split; [exact RUN|].
      split; [eapply change_then; [eapply change_weaken; [exact C1|intros j []]|exact C3|ids]|]. split; [ids|]. split; [exact CH3|]. split; [exact PR3|].
      split; [ids|]. split; [exact S33|exact IE3].
  - destruct (fresh_object _ _ _ _ _ F) as [c ->]. set (v := VObj c) in *. cbn [breadth keys_ok] in LN, KO.
    cbn [transform_body seg]. change (match v with VScalar _ => _ | VArr _ => _ | VObj _ => ?a end) with a.
    pose proof (opened_fresh _ _ _ _ F eq_refl) as O1. change (items (JObj l e)) with (obj_items l) in O1.
    change (annot look (JObj l e) ares) with (obj_annot ares l) in *.
    assert (AO : forall t, aopen 0 t None (0, 0%Z) []) by (intro; split; reflexivity).
    destruct strict; [destruct desc|].
    + cbn [spec_run st_coll st_iter]. destruct (clone_fresh t v _ ids F) as [CL [FC RC]]. rewrite CL. cbn [on_coll obind st_iter].
      set (t2 := t ++ hof (JObj l e) true) in *. set (v2 := vof (length t) (JObj l e)) in *. set (id2 := iof (length t) (JObj l e)) in *.
      assert (C2 : change t t2 []) by apply change_app. assert (LE2 := cg_len _ _ _ C2).
      assert (A2 : above (length t) id2) by (intros j J; apply iof_in in J; lia).
      assert (B2 : forall j, In j id2 -> j < length t2) by (intros j J; exact (fresh_lt _ _ _ _ _ FC J)).
      pose proof (opened_fresh _ _ _ _ FC eq_refl) as O2.
      assert (AL2 : at_loop 0 sb sb' L t2 it v (obj_items l) ids None (0, 0%Z) [] (PDisp false (new_states sels) P) (PDisp false (new_states sels) Q) idsP idsC).
      { constructor; [eapply opened_frame; [exact O1|same C2]|apply AO|apply ND; eapply prel_frame; [exact PR|same C2]|exact S1|intros j _ []|intros j []|
          eapply ctx_frame; [exact CR|same C2|apply iext_refl|ids]|exact SC1|intros j _ []|exact SC2]. }
      assert (LP := object_strict_ok ctx sing inner tv ev holds following fa seg ares sb sb' L idsC v n l LN KO t2 it ids _ _ idsP AL2
        (good_tail_strict _ _ _ _ _ _ _ GT')).
      assert (RT2 : rooted t2 v2) by (eapply rooted_fresh; eassumption).
      destruct (strict_tail seg sb sb' L t2 it v ids None [] idsP idsC (object_strict tv ev n following v (PDisp false (new_states sels) P)) (astrict fa holds (obj_annot ares l) (PDisp false (new_states sels) Q)) n (obj_annot ares l) v2 _ id2 I RT2
        ltac:(ids) ltac:(ids) ltac:(ids) ltac:(ids) O2) as [t3 [it3 [P3 [ids3 [idsP3 [RUN [C3 [N3 [CH3 [PR3 [NP3 [S33 IE3]]]]]]]]]]]]; try exact LP; try ids.
      { symmetry. exact (annot_vals _ look (JObj l e) ares). }
      { rewrite <- (map_length it_val), (annot_vals _ look (JObj l e) ares : map it_val (obj_annot ares l) = _), map_length. cbn [items]. now rewrite map_length. }
      { exact (good_tail_res _ _ _ _ _ _ GT'). }
      { eapply ctx_frame; [exact CR|same C2|apply iext_refl|ids]. }
      exists t3, it3, P3, ids3, idsP3.
      assert (EA : arun fa holds sels true true (obj_annot ares l) Q =
        (if snd (astrict fa holds (obj_annot ares l) (PDisp false (new_states sels) Q)) then
           let '(Q', r2) := adescend (obj_annot ares l) (snd (disp_parts (fst (astrict fa holds (obj_annot ares l) (PDisp false (new_states sels) Q))))) in
           afinish (with_next (fst (astrict fa holds (obj_annot ares l) (PDisp false (new_states sels) Q))) Q') r2
         else afinish (fst (astrict fa holds (obj_annot ares l) (PDisp false (new_states sels) Q))) false)).
      { unfold arun. destruct (astrict _ _ _ _) as [D1 r]. destruct r; reflexivity. }
      rewrite EA. split; [exact RUN|].
      split; [eapply change_then; [eapply change_weaken; [exact C2|intros j []]|exact C3|ids]|]. split; [ids|]. split; [exact CH3|]. split; [exact PR3|].
      split; [ids|]. split; [exact S33|exact IE3].
    + assert (AL1 : at_loop 0 sb sb' L t it v (obj_items l) ids None (0, 0%Z) [] (PDisp false (new_states sels) P) (PDisp false (new_states sels) Q) idsP idsC).
      { constructor; [exact O1|apply AO|apply ND; exact PR|exact S1|intros j _ []|intros j []|exact CR|exact SC1|intros j _ []|exact SC2]. }
      assert (LP := object_strict_ok ctx sing inner tv ev holds following fa seg ares sb sb' L idsC v n l LN KO t it ids _ _ idsP AL1
        (good_tail_strict _ _ _ _ _ _ _ GT')).
      destruct (simple_tail sb sb' L t it v ids None [] idsP _ _ I ltac:(ids) ltac:(ids) ltac:(ids) ltac:(ids) LP)
        as [t3 [it3 [P3 [ids3 [idsP3 [RUN [C3 [N3 [CH3 [PR3 [NP3 [S33 IE3]]]]]]]]]]]].
      exists t3, it3, P3, ids3, idsP3.
      assert (EA : arun fa holds sels false true (obj_annot ares l) Q =
        (fst (afinish (fst (astrict fa holds (obj_annot ares l) (PDisp false (new_states sels) Q))) (snd (astrict fa holds (obj_annot ares l) (PDisp false (new_states sels) Q)))),
         snd (astrict fa holds (obj_annot ares l) (PDisp false (new_states sels) Q)))).
      { unfold arun. destruct (astrict _ _ _ _) as [D1 r]. unfold afinish. cbn [fst snd]. destruct (disp_parts D1) as [[? ?] ?]. reflexivity. }
      rewrite EA. cbn [fst snd]. split; [exact RUN|]. cbn [app] in C3. repeat (split; [assumption|]). assumption.
    + assert (AL1 : at_loop 0 sb sb' L t it v (obj_items l) ids None (0, 0%Z) [] (PDisp false (new_states sels) P) (PDisp false (new_states sels) Q) idsP idsC).
      { constructor; [exact O1|apply AO|apply ND; exact PR|exact S1|intros j _ []|intros j []|exact CR|exact SC1|intros j _ []|exact SC2]. }
      assert (LP := object_relaxed_ok ctx sing inner tv ev holds following fa seg ares desc sb sb' L idsC v n l LN KO t it ids _ _ idsP AL1 GT').
      destruct (simple_tail sb sb' L t it v ids None [] idsP _ _ I ltac:(ids) ltac:(ids) ltac:(ids) ltac:(ids) LP)
        as [t3 [it3 [P3 [ids3 [idsP3 [RUN [C3 [N3 [CH3 [PR3 [NP3 [S33 IE3]]]]]]]]]]]].
      exists t3, it3, P3, ids3, idsP3.
      assert (EA : arun fa holds sels desc false (obj_annot ares l) Q =
        (fst (afinish (fst (arelaxed fa holds desc (obj_annot ares l) (PDisp false (new_states sels) Q))) (snd (arelaxed fa holds desc (obj_annot ares l) (PDisp false (new_states sels) Q)))),
         snd (arelaxed fa holds desc (obj_annot ares l) (PDisp false (new_states sels) Q)))).
      { unfold arun. destruct (arelaxed _ _ _ _ _) as [D1 r]. unfold afinish. cbn [fst snd]. destruct (disp_parts D1) as [[? ?] ?]. reflexivity. }
      rewrite EA. cbn [fst snd]. split; [exact RUN|]. cbn [app] in C3. repeat (split; [assumption|]). assumption.
Qed.
End Body.
End Context.

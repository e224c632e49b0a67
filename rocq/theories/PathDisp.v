(** Deciding and dispatching items. *)
From Coq Require Import List ZArith NArith Arith Bool Lia.
From Verif Require Import Base Tokens JsonSpec EncSpec ScalarModel CursorModel IterModel IterSpec IterCore IterThr IterRel IterSound
  ScriptSpec ScriptProofs IterLib EqualModel EqualProofs UseLib SelectModel PathModel PathAbs PathFacts PathSim.
Open Scope iprog_scope.

Section Context.
Variable ctx : context.
Variable sing : list (option jval).
Variable inner : list (list jval).
Notation ctx_rel := (ctx_rel ctx sing inner).
Notation good_step := (good_step ctx sing inner).

(** A program that answers a question about a value and leaves everything. *)
Definition peek (p : value -> iprog bool) (x : jval) (b : bool) : Prop :=
  forall t it v ids idsC, fresh t v x ids -> ctx_rel t it idsC ->
  exists t' it', spec_run (p v) (mkSt t it) = Some (mkSt t' it', b) /\ change t t' [] /\ iext it it'.

Ltac ctxlt := repeat match goal with H : PathSim.ctx_rel _ _ _ _ _ _ |- _ => add (ctx_lt _ _ _ _ _ _ H) end.
Ltac ids ::= ctxlt; gather; unfold agree in *;
  lazymatch goal with
  | |- sep _ _ => intros ?j ?J ?K; sat; lia
  | |- newer _ _ _ _ => intros ?j ?J; sat; first [left; inapp|right; split; [lia|reflexivity]]
  | |- incl _ _ => intros ?j ?J; sat; inapp
  | |- above _ _ => intros ?j ?J; sat; lia
  | |- _ => intros; sat; first [lia|inapp|left; inapp|right; lia]
  end.

Lemma decide_ok : forall ev (holds : selector -> jval -> bool) dec x v sb ss ss' i t it ids idsC k f c,
  (forall s e, In s ss' -> st_done s = false -> st_sel s = SFilter e -> peek (ev e) x (holds (SFilter e) x)) ->
  (forall s, match s with SFilter _ => dec s = dont_know | _ => d_yes (dec s) = true \/ d_no (dec s) = true end) ->
  strel sb t ss ss' i -> fresh t v x ids -> ctx_rel t it idsC ->
  let taken := fun s => d_yes (dec s) || negb (d_no (dec s)) && holds s x in
  exists t' it' ss1, spec_run (decide_all dec (fun e => ev e v) k f c ss) (mkSt t it) =
    Some (mkSt t' it', (ss1, snd (fst (adecide taken dec k f c ss')), snd (adecide taken dec k f c ss'))) /\
    change t t' [] /\ iext it it' /\ strel sb t' ss1 (fst (fst (adecide taken dec k f c ss'))) i.
Proof.
  intros ev holds dec x v sb. induction ss as [|s ss IH]; intros ss' i t it ids idsC k f c PK DEC SR F CR taken;
    inversion SR as [|sel b d p q i1 ? ss2 i2 PD RV SR' SI]; subst.
  - exists t, it, []. split; [reflexivity|]. split; [apply change_refl|]. split; [apply iext_refl|constructor].
  - cbn [decide_all adecide st_done st_sel st_pending].
    assert (PK' : forall s e, In s ss2 -> st_done s = false -> st_sel s = SFilter e -> peek (ev e) x (holds (SFilter e) x)).
    { intros s e J. apply PK. now right. }
    destruct d.
    + rewrite spec_bind. destruct (IH ss2 i2 t it ids idsC (Datatypes.S k) (if f =? k then Datatypes.S f else f) c PK' DEC SR' F CR) as [t' [it' [ss1 [-> [C [IE S1]]]]]].
      cbn [obind spec_run]. fold taken in S1 |- *. destruct (adecide taken dec _ _ _ ss2) as [[r' f'] c'] eqn:EA. cbn [fst snd] in *.
      exists t', it'. eexists. split; [reflexivity|]. split; [exact C|]. split; [exact IE|]. constructor; auto.
      eapply pendrel_frame; [exact PD|same C].
    + rewrite spec_bind.
      assert (E : exists t' it', spec_run (if d_yes (dec sel) then IRet true else if d_no (dec sel) then IRet false
          else match sel with SFilter e => ev e v | _ => IRet false end) (mkSt t it) = Some (mkSt t' it', taken sel) /\ change t t' [] /\ iext it it').
      { unfold taken. destruct (d_yes (dec sel)) eqn:EY; [exists t, it; split; [reflexivity|split; [apply change_refl|apply iext_refl]]|].
        destruct (d_no (dec sel)) eqn:EN; [exists t, it; split; [reflexivity|split; [apply change_refl|apply iext_refl]]|]. cbn [orb negb andb].
        specialize (DEC sel). destruct sel as [nm| |ps|e]; try (destruct DEC; congruence).
        eapply PK; [now left|reflexivity|reflexivity|exact F|exact CR]. }
      destruct E as [t1 [it1 [-> [C1 IE1]]]]. cbn [obind]. rewrite spec_bind.
      assert (SR1 : strel sb t1 ss ss2 i2) by (eapply strel_frame; [exact SR'|same C1]).
      assert (F1 : fresh t1 v x ids) by (eapply fresh_frame; [exact F|same C1]).
      assert (CR1 : ctx_rel t1 it1 idsC) by (eapply ctx_frame; [exact CR|same C1|exact IE1|ids]).
      destruct (IH ss2 i2 t1 it1 ids idsC (Datatypes.S k) (if d_nomore (dec sel) && negb (taken sel) && (f =? k) then Datatypes.S f else f)
                  (if taken sel then Datatypes.S c else c) PK' DEC SR1 F1 CR1) as [t' [it' [ss1 [-> [C [IE S1]]]]]].
      cbn [obind spec_run]. fold taken in S1 |- *. destruct (adecide taken dec _ _ _ ss2) as [[r' f'] c'] eqn:EA. cbn [fst snd] in *.
      exists t', it'. eexists. split; [reflexivity|]. split; [eapply change_trans; eassumption|]. split; [eapply iext_trans; eassumption|]. constructor; auto.
      eapply pendrel_frame; [exact PD|]. assert (C2 : change t t' []) by (eapply change_trans; eassumption). same C2.
Qed.

(** A dispatcher, between two items. *)
Inductive drel (t : list shandle) (sb sb' : bool) (L : list bool) : proc value -> proc jval -> list nat -> Prop :=
| dr_intro : forall cl ss ss' i P Q ids, strel sb t ss ss' i -> (sb' = true -> sb = true) -> prel t (sb' :: L) P Q ids -> sep i ids ->
    drel t sb sb' L (PDisp cl ss P) (PDisp cl ss' Q) (i ++ ids).
Lemma drel_prel : forall t sb sb' L cl ss P Q ids, prel t (sb :: sb' :: L) (PDisp cl ss P) Q ids -> drel t sb sb' L (PDisp cl ss P) Q ids.
Proof. intros t sb sb' L cl ss P Q ids H. inversion H; subst. now constructor. Qed.
Lemma drel_lt : forall sb sb' L t P Q ids, drel t sb sb' L P Q ids -> forall j, In j ids -> j < length t.
Proof.
  intros sb sb' L t P Q ids H. destruct H as [cl ss ss' i P Q ids SR LE H D]. intros j J.
  apply in_app_or in J as [J|J]; [exact (strel_lt _ _ _ _ _ SR j J)|exact (prel_lt _ _ _ _ _ H j J)].
Qed.
Lemma drel_frame : forall sb sb' L t P Q ids, drel t sb sb' L P Q ids -> forall t', agree t t' ids -> drel t' sb sb' L P Q ids.
Proof.
  intros sb sb' L t P Q ids H t' A. destruct H as [cl ss ss' i P Q ids SR LE H D]. constructor; auto.
  - eapply strel_frame; [exact SR|]. intros j J. apply A. inapp.
  - eapply prel_frame; [exact H|]. intros j J. apply A. inapp.
Qed.
Ltac ctxlt ::= repeat match goal with
  | H : PathSim.ctx_rel _ _ _ _ _ _ |- _ => add (ctx_lt _ _ _ _ _ _ H)
  | H : drel _ _ _ _ _ _ _ |- _ => add (drel_lt _ _ _ _ _ _ _ H)
  end.

Lemma strel_split : forall sb t n ss ss' i, strel sb t ss ss' i -> exists i1 i2, i = i1 ++ i2 /\ sep i1 i2 /\
  strel sb t (firstn n ss) (firstn n ss') i1 /\ strel sb t (skipn n ss) (skipn n ss') i2.
Proof.
  intros sb t. induction n as [|n IH]; intros ss ss' i H.
  - exists [], i. split; [reflexivity|]. split; [intros j []|]. split; [constructor|exact H].
  - destruct H as [|sel b d p q i1 ss ss' i2 PD RV SR SI].
    + exists [], []. split; [reflexivity|]. split; [intros j []|]. split; constructor.
    + destruct (IH ss ss' i2 SR) as [j1 [j2 [-> [S1 [A B]]]]]. exists (i1 ++ j1), j2. split; [now rewrite app_assoc|].
      split; [ids|]. split; [|exact B]. cbn [firstn]. constructor; auto. ids.
Qed.

Lemma selected_first : forall A (p : A -> bool) x l, p x = true -> length (filter p (x :: l)) <= 1 -> Forall (fun y => p y = false) l.
Proof.
  intros A p x l E. cbn [filter]. rewrite E. cbn [length]. intro H. apply Forall_forall. intros y I. destruct (p y) eqn:F; [|reflexivity].
  assert (In y (filter p l)) as J by (apply filter_In; auto). destruct (filter p l); [destruct J|cbn [length] in H; lia].
Qed.
Lemma filter_skipn : forall A (p : A -> bool) n l, length (filter p (skipn n l)) <= length (filter p l).
Proof.
  intros A p. induction n as [|n IH]; intros [|y l]; cbn [skipn]; try lia. specialize (IH l). cbn [filter]. destruct (p y); cbn [length]; lia.
Qed.
(** The number of states selected. *)
Lemma adecide_count : forall taken dec ss ss1 f c, adecide taken dec 0 0 0 ss = (ss1, f, c) ->
  c = length (filter (@st_selected jval) ss1) /\
  (0 < c -> exists s, In s ss /\ st_done s = false /\ taken (st_sel s) = true).
Proof.
  intros taken dec ss ss1 f c E. destruct (adecide_spec taken dec ss 0 0 0) as [g H]. rewrite H in E. injection E as <- _ <-. cbn [Nat.add].
  split.
  - clear H. induction ss as [|s ss IH]; [reflexivity|]. cbn [filter map]. destruct (st_done s) eqn:E; cbn [negb andb st_selected]; [exact IH|].
    destruct (taken (st_sel s)); cbn [length]; auto.
  - intro L. destruct (filter _ ss) as [|s l] eqn:EF; [cbn in L; lia|].
    assert (I : In s (s :: l)) by now left. rewrite <- EF in I. apply filter_In in I as [I J]. exists s. split; [exact I|].
    apply andb_prop in J as [J1 J2]. destruct (st_done s); [discriminate|]. auto.
Qed.

(** What a step with the dispatcher leaves. *)
Definition disp_post sb sb' (L : list bool) t it v ids idsP (R : option (sstore * (proc value * bool))) (a : proc jval * bool) : Prop :=
  exists t' it' D1 ids' idsP', R = Some (mkSt t' it', (D1, snd a)) /\
    change t t' (ids ++ idsP) /\ newer t None ids ids' /\ chain t' v ids' /\
    drel t' sb sb' L D1 (fst a) idsP' /\ newer t None idsP idsP' /\ sep ids' idsP' /\ iext it it'.

Definition fprog (tv : segment -> value -> proc value -> iprog (proc value * bool)) (following : option segment) : value -> proc value -> iprog (proc value * bool) :=
  match following with None => fun v P => process P v | Some seg => tv seg end.

Lemma dispatch_ok : forall tv ev holds following fa dec x sb sb' L t it v ids D D' idsD idsC,
  let taken := fun s => d_yes (dec s) || negb (d_no (dec s)) && holds s x in
  (forall s e, In s (states_of D') -> st_done s = false -> st_sel s = SFilter e -> peek (ev e) x (holds (SFilter e) x)) ->
  (forall s, match s with SFilter _ => dec s = dont_know | _ => d_yes (dec s) = true \/ d_no (dec s) = true end) ->
  (forall s, In s (states_of D') -> st_done s = false -> taken (st_sel s) = true -> good_step sb (fprog tv following) x (fa x)) ->
  (forall Q, skel (fst (fa x Q)) = skel Q) ->
  fresh t v x ids -> drel t sb sb' L D D' idsD -> sep ids idsD -> ctx_rel t it idsC -> sep idsC ids -> sep idsC idsD ->
  disp_post sb sb' L t it v ids idsD (spec_run (dispatch tv ev D v dec following) (mkSt t it)) (adispatch fa taken dec D' x).
Proof.
  intros tv ev holds following fa dec x sb sb' L t it v ids D D' idsD idsC taken PK DEC GS KP F DR SP CR SC1 SC2.
  destruct DR as [cl ss ss' i P Q idn SR LE PN SI]. unfold dispatch, adispatch. cbn [disp_parts]. unfold dispatch_item.
  unfold states_of in PK, GS. cbn [disp_parts fst snd] in PK, GS.
  destruct ss' as [|s0' r0'].
  { inversion SR; subst. exists t, it. eexists. exists ids, ([] ++ idn). split; [reflexivity|]. split; [apply change_refl|]. split; [apply newer_refl|].
    split; [eapply fresh_chain; exact F|]. split; [constructor; auto|]. split; [apply newer_refl|]. split; [exact SP|apply iext_refl]. }
  destruct ss as [|s0 r0]; [inversion SR|].
  set (ss' := s0' :: r0') in *. set (ss := s0 :: r0) in *.
  destruct (decide_ok ev holds dec x v sb ss ss' i t it ids idsC 0 0 0 PK DEC SR F CR) as [t1 [it1 [ss1 [RUN1 [C1 [IE1 SR1]]]]]].
  fold taken in RUN1, SR1. rewrite spec_bind, RUN1. cbn [obind]. destruct (adecide taken dec 0 0 0 ss') as [[ss1' first] count] eqn:EA.
  cbn [fst snd] in *. destruct (adecide_count _ _ _ _ _ _ EA) as [CNT POS].
  destruct (strel_split sb t1 first ss1 ss1' i SR1) as [i1 [i2 [-> [SI12 [SRa SRb]]]]].
  assert (PN1 : prel t1 (sb' :: L) P Q idn) by (eapply prel_frame; [exact PN|same C1]).
  assert (F1 : fresh t1 v x ids) by (eapply fresh_frame; [exact F|same C1]).
  rewrite spec_bind.
  (* the finished states in front *)
  assert (E2 : exists t2 it2 P2 idn2, spec_run (if (0 <? first)%nat then flush_states (firstn first ss1) true P else IRet (P, true)) (mkSt t1 it1) =
      Some (mkSt t2 it2, (P2, snd (if (0 <? first)%nat then aflush_states (firstn first ss1') true Q else (Q, true)))) /\
      change t1 t2 (i1 ++ idn) /\ prel t2 (sb' :: L) P2 (fst (if (0 <? first)%nat then aflush_states (firstn first ss1') true Q else (Q, true))) idn2 /\
      newer t1 None idn idn2 /\ iext it1 it2).
  { destruct (0 <? first)%nat.
    - exact (flush_states_ok sb sb' LE L _ _ _ _ SRa it1 true P Q idn PN1 ltac:(ids)).
    - exists t1, it1, P, idn. split; [reflexivity|]. split; [apply change_refl|]. split; [exact PN1|]. split; [apply newer_refl|apply iext_refl]. }
  destruct E2 as [t2 [it2 [P2 [idn2 [-> [C2 [PN2 [N2 IE2]]]]]]]]. cbn [obind].
  destruct (if (0 <? first)%nat then aflush_states (firstn first ss1') true Q else (Q, true)) as [Q2 r1]. cbn [fst snd] in *.
  assert (C02 : change t t2 ((i1 ++ i2) ++ idn)) by (eapply change_then; [eapply change_weaken; [exact C1|intros j []]|exact C2|ids]).
  assert (SRb2 : strel sb t2 (skipn first ss1) (skipn first ss1') i2) by (eapply strel_frame; [exact SRb|same C2]).
  assert (F2 : fresh t2 v x ids) by (eapply fresh_frame; [exact F1|same C2]).
  assert (IE02 : iext it it2) by (eapply iext_trans; eassumption).
  destruct (skipn first ss1') as [|s' r'] eqn:SK.
  { inversion SRb2; subst. cbn [spec_run fst snd]. exists t2, it2. eexists. exists ids, ([] ++ idn2). split; [reflexivity|].
    split; [eapply change_weaken; [exact C02|ids]|]. split; [apply newer_refl|]. split; [eapply fresh_chain; exact F2|].
    split; [constructor; auto; [constructor|ids]|]. split; [ids|]. split; [ids|exact IE02]. }
  destruct (skipn first ss1) as [|s r] eqn:SK2; [inversion SRb2|].
  destruct r1; cbn [negb].
  2:{ cbn [spec_run fst snd]. exists t2, it2. eexists. exists ids, (i2 ++ idn2). split; [reflexivity|].
    split; [eapply change_weaken; [exact C02|ids]|]. split; [apply newer_refl|]. split; [eapply fresh_chain; exact F2|].
    split; [constructor; auto; ids|]. split; [ids|]. split; [ids|exact IE02]. }
  inversion SRb2 as [|sel b d p q j1 ? ? j2 PD RV SR' SJ]; subst s r s' r' i2.
  assert (B1 : forall j, In j j1 -> j < length t1) by (intros j J; apply (strel_lt _ _ _ _ _ SRb); inapp).
  assert (B2 : forall j, In j j2 -> j < length t1) by (intros j J; apply (strel_lt _ _ _ _ _ SRb); inapp).
  clear SRb2 SRb. rename ss0 into r, ss'0 into r'.
  cbn [st_sel st_pending]. rewrite spec_bind.
  (* the values of the first state *)
  assert (E3 : exists t3 it3 p3 q3 j3 P3 Q3 r3 idn3,
      spec_run (if negb (sel_reverses sel) && negb (match p with [] => true | _ => false end)
               then ilet (next2, r2) <- flush_values (in_order (mkState sel b p d)) true P2 ; IRet (clear (mkState sel b p d), next2, r2)
               else IRet (mkState sel b p d, P2, true)) (mkSt t2 it2) = Some (mkSt t3 it3, (mkState sel b p3 d, P3, r3)) /\
      (if negb (sel_reverses sel) && negb (match q with [] => true | _ => false end)
       then let '(next2, r2) := aflush_values (in_order (mkState sel b q d)) true Q2 in (clear (mkState sel b q d), next2, r2)
       else (mkState sel b q d, Q2, true)) = (mkState sel b q3 d, Q3, r3) /\
      change t2 t3 (j1 ++ idn2) /\ pendrel sb t3 p3 q3 j3 /\ incl j3 j1 /\ prel t3 (sb' :: L) P3 Q3 idn3 /\ newer t2 None idn2 idn3 /\ iext it2 it3).
  { assert (EP : match p with [] => true | _ => false end = match q with [] => true | _ => false end) by (inversion PD; reflexivity).
    rewrite EP. destruct (negb (sel_reverses sel) && negb (match q with [] => true | _ => false end)).
    - rewrite spec_bind. destruct (in_order_rel sb t2 p q j1 sel b d PD) as [j1' [PD' E]].
      assert (S1 : sep j1' idn2) by (intros j J K; apply E in J; ids).
      destruct (flush_values_ok sb sb' LE L _ _ _ _ PD' it2 true P2 Q2 idn2 PN2 S1) as [t3 [it3 [P3 [idn3 [RUN [C3 [PN3 [N3 IE3]]]]]]]].
      rewrite RUN. cbn [obind spec_run]. destruct (aflush_values _ true Q2) as [Q3 r3]. cbn [fst snd] in *.
      exists t3, it3, [], [], [], P3, Q3, r3, idn3. split; [reflexivity|]. split; [reflexivity|].
      split; [eapply change_weaken; [exact C3|intros j J; apply in_app_or in J as [J|J]; [apply E in J|]; ids]|].
      split; [constructor|]. split; [intros j []|]. auto.
    - exists t2, it2, p, q, j1, P2, Q2, true, idn2. split; [reflexivity|]. split; [reflexivity|]. split; [apply change_refl|].
      split; [exact PD|]. split; [apply incl_refl|]. split; [exact PN2|]. split; [apply newer_refl|apply iext_refl]. }
  destruct E3 as [t3 [it3 [p3 [q3 [j3 [P3 [Q3 [r3 [idn3 [-> [-> [C3 [PD3 [IN3 [PN3 [N3 IE3]]]]]]]]]]]]]]]]. cbn [obind].
  assert (C03 : change t t3 ((i1 ++ j1 ++ j2) ++ idn)) by (eapply change_then; [exact C02|exact C3|ids]).
  assert (SR3 : strel sb t3 r r' j2) by (eapply strel_frame; [exact SR'|same C3]).
  assert (F3 : fresh t3 v x ids) by (eapply fresh_frame; [exact F2|same C3]).
  assert (IE03 : iext it it3) by (eapply iext_trans; eassumption).
  assert (SR3' : strel sb t3 (mkState sel b p3 d :: r) (mkState sel b q3 d :: r') (j3 ++ j2)) by (constructor; auto; ids).
  destruct r3; cbn [negb].
  2:{ cbn [spec_run fst snd]. exists t3, it3. eexists. exists ids, ((j3 ++ j2) ++ idn3). split; [reflexivity|].
    split; [eapply change_weaken; [exact C03|ids]|]. split; [apply newer_refl|]. split; [eapply fresh_chain; exact F3|].
    split; [constructor; auto; ids|]. split; [ids|]. split; [ids|exact IE03]. }
  destruct (0 <? count)%nat eqn:EC.
  2:{ cbn [spec_run fst snd]. exists t3, it3. eexists. exists ids, ((j3 ++ j2) ++ idn3). split; [reflexivity|].
    split; [eapply change_weaken; [exact C03|ids]|]. split; [apply newer_refl|]. split; [eapply fresh_chain; exact F3|].
    split; [constructor; auto; ids|]. split; [ids|]. split; [ids|exact IE03]. }
  apply Nat.ltb_lt in EC. destruct (POS EC) as [sg [IG [DG TG]]]. specialize (GS sg IG DG TG).
  cbn [st_selected]. set (cl' := (1 <? count) || negb b).
  assert (WF : wf_clone cl' (mkState sel b q3 d :: r')).
  { unfold cl'. destruct (1 <? count)%nat eqn:E1; [now left|]. destruct b; [|now left]. right. apply Nat.ltb_ge in E1.
    apply (selected_first _ (@st_selected jval) (mkState sel true q d)); [reflexivity|]. rewrite <- SK.
    pose proof (filter_skipn _ (@st_selected jval) first ss1'). lia. }
  assert (PR3 : prel t3 (sb :: sb' :: L) (PDisp cl' (mkState sel b p3 d :: r) P3) (PDisp cl' (mkState sel b q3 d :: r') Q3) ((j3 ++ j2) ++ idn3)).
  { apply (pr_disp t3 sb sb' L); auto. ids. }
  assert (CR3 : ctx_rel t3 it3 idsC) by (eapply ctx_frame; [exact CR|same C03|exact IE03|ids]).
  specialize (GS (sb' :: L) t3 it3 v ids _ _ _ idsC F3 PR3 ltac:(ids) CR3 ltac:(ids) ltac:(ids)).
  replace (match following with None => process (PDisp cl' (mkState sel b p3 d :: r) P3) v | Some seg => tv seg v (PDisp cl' (mkState sel b p3 d :: r) P3) end)
    with (fprog tv following v (PDisp cl' (mkState sel b p3 d :: r) P3)) by (destruct following; reflexivity).
  destruct GS as [t4 [it4 [P4 [ids4 [idsP4 [RUN4 [C4 [N4 [CH4 [PR4 [NP4 [S4 IE4]]]]]]]]]]]].
  exists t4, it4, P4, ids4, idsP4. split; [exact RUN4|].
  split; [eapply change_then; [eapply change_weaken; [exact C03|]|exact C4|]; ids|]. split; [ids|]. split; [exact CH4|].
  split; [|split; [ids|split; [exact S4|eapply iext_trans; eassumption]]].
  specialize (KP (PDisp cl' (mkState sel b q3 d :: r') Q3)). destruct (fst (fa x _)) as [| | | |cl5 ss5 Q5]; try discriminate KP.
  inversion PR4; subst. apply drel_prel. exact PR4.
Qed.
End Context.

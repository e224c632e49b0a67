(** The loops over the items of a collection. *)
From Coq Require Import List ZArith NArith Arith Bool Lia.
From Verif Require Import Base Tokens JsonSpec EncSpec ScalarModel CursorModel IterModel IterSpec IterCore IterThr IterRel IterSound
  ScriptSpec ScriptProofs IterLib EqualModel EqualProofs UseLib SelectModel PathModel PathAbs PathFacts PathSim PathDisp.
Open Scope iprog_scope.

Section Context.
Variable ctx : context.
Variable sing : list (option jval).
Variable inner : list (list jval).
Notation ctx_rel := (ctx_rel ctx sing inner).
Notation good_step := (good_step ctx sing inner).
Notation peek := (peek ctx sing inner).

(** The iterator that is ahead, with [m] items left. *)
Definition aopen (look : Z) (t : list shandle) (ahead : option value) (s : nat * Z) (idA : list nat) : Prop :=
  match ahead with
  | None => idA = [] /\ (0 <? look)%Z = false
  | Some a => (exists rest, opened t a rest idA /\ length rest = fst s) /\ (0 <? look)%Z = true
  end.
Lemma aopen_lt : forall look t ahead s idA, aopen look t ahead s idA -> forall j, In j idA -> j < length t.
Proof.
  intros look t [a|] s idA H j J; [|destruct H as [-> _]; destruct J]. destruct H as [[rest [O _]] _]. exact (opened_lt _ _ _ _ _ O J).
Qed.
Lemma aopen_frame : forall look t t' ahead s idA, aopen look t ahead s idA -> agree t t' idA -> aopen look t' ahead s idA.
Proof.
  intros look t t' [a|] s idA H A; [|exact H]. destruct H as [[rest [O L]] E]. split; [|exact E]. exists rest. split; [|exact L].
  eapply opened_frame; eassumption.
Qed.

Ltac lts := repeat match goal with
  | H : PathSim.ctx_rel _ _ _ _ _ _ |- _ => add (ctx_lt _ _ _ _ _ _ H)
  | H : drel _ _ _ _ _ _ _ |- _ => add (drel_lt _ _ _ _ _ _ _ H)
  | H : aopen _ _ _ _ _ |- _ => add (aopen_lt _ _ _ _ _ H)
  end.
Ltac ids ::= lts; gather; unfold agree in *;
  lazymatch goal with
  | |- sep _ _ => intros ?j ?J ?K; sat; lia
  | |- newer _ _ _ _ => intros ?j ?J; sat; first [left; inapp|right; split; [lia|reflexivity]]
  | |- incl _ _ => intros ?j ?J; sat; inapp
  | |- above _ _ => intros ?j ?J; sat; lia
  | |- _ => intros; sat; first [lia|inapp|left; inapp|right; lia]
  end.

Lemma step_ahead_ok : forall A look t it ahead s idA (k : Z -> iprog A), aopen look t ahead s idA ->
  exists t' idA', spec_run (step_ahead ahead (snd s) k) (mkSt t it) = spec_run (k (snd (step_look look s))) (mkSt t' it) /\
    change t t' idA /\ newer t None idA idA' /\ aopen look t' ahead (step_look look s) idA'.
Proof.
  intros A look t it [a|] s idA k H; cbn [step_ahead aopen] in *; unfold step_look.
  - destruct H as [[rest [O L]] E]. rewrite E. cbn [spec_run st_coll].
    destruct (adv_opened _ _ _ _ O) as [t1 [b [-> [CH M]]]]. cbn [on_coll obind st_iter]. destruct s as [m neg]. cbn [fst snd] in *.
    destruct rest as [|[k0 y] rest]; cbn [length] in L; subst m.
    + destruct M as [-> [idA' [O' I]]]. exists t1, idA'. split; [reflexivity|]. split; [exact CH|]. split; [ids|]. split; [|reflexivity]. exists []. auto.
    + destruct M as [-> [c [ch [idc [AT [F [IN [AB NR]]]]]]]]. exists t1, (c :: idc). split; [reflexivity|]. split; [exact CH|].
      pose proof (opened_lt _ _ _ _ _ O IN) as LC.
      split; [intros j [<-|J]; [now left|right; split; [auto|reflexivity]]|]. split; [|reflexivity]. exists rest. split; [|reflexivity].
      eapply atc_opened; [exact AT|eapply fresh_chain; exact F|]. intros j J. split; [specialize (AB j J); lia|auto].
  - destruct H as [-> E]. rewrite E. exists t, []. split; [reflexivity|]. split; [apply change_refl|]. split; [apply newer_refl|]. auto.
Qed.

Lemma look_ahead_ok : forall look n t it a rest idA neg A (k : Z -> iprog A), length rest < n -> opened t a rest idA ->
  exists t' idA' rest', spec_run (ibind (look_ahead n look a neg) k) (mkSt t it) = spec_run (k (snd (SelectModel.look look (length rest) neg))) (mkSt t' it) /\
    change t t' idA /\ newer t None idA idA' /\ opened t' a rest' idA' /\ length rest' = fst (SelectModel.look look (length rest) neg).
Proof.
  intros look. induction n as [|n IH]; intros t it a rest idA neg A k L O; [lia|]. cbn [look_ahead].
  destruct rest as [|[k0 y] rest].
  - cbn [length SelectModel.look fst snd]. destruct (0 <=? i64 (neg + look))%Z.
    + cbn [ibind spec_run st_coll]. destruct (adv_opened _ _ _ _ O) as [t1 [b [-> [CH [-> [idA' [O' I]]]]]]]. cbn [on_coll obind st_iter].
      exists t1, idA', []. split; [reflexivity|]. split; [exact CH|]. split; [ids|]. auto.
    + exists t, idA, []. split; [reflexivity|]. split; [apply change_refl|]. split; [apply newer_refl|]. auto.
  - cbn [length SelectModel.look]. destruct (0 <=? i64 (neg + look))%Z.
    + cbn [ibind spec_run st_coll]. destruct (adv_opened _ _ _ _ O) as [t1 [b [-> [CH [-> [c [ch [idc [AT [F [IN [AB NR]]]]]]]]]]]]. cbn [on_coll obind st_iter].
      pose proof (opened_lt _ _ _ _ _ O IN) as LC. pose proof (cg_len _ _ _ CH) as LE.
      assert (O1 : opened t1 a rest (c :: idc)).
      { eapply atc_opened; [exact AT|eapply fresh_chain; exact F|]. intros j J. split; [specialize (AB j J); lia|auto]. }
      cbn [length] in L. destruct (IH t1 it a rest (c :: idc) (i64 (neg - 1)) A k ltac:(lia) O1) as [t2 [idA' [rest' [RUN [C2 [N2 [O2 L2]]]]]]].
      exists t2, idA', rest'. split; [exact RUN|].
      assert (N1 : newer t None idA (c :: idc)) by (intros j [<-|J]; [now left|right; split; [auto|reflexivity]]).
      split; [eapply change_then; [exact CH|exact C2|intros j J; destruct (N1 j J) as [|[]]; auto]|].
      split; [eapply newer_then; eassumption|]. auto.
    + exists t, idA, ((k0, y) :: rest). split; [reflexivity|]. split; [apply change_refl|]. split; [apply newer_refl|]. auto.
Qed.

(** What a loop leaves. *)
Definition loop_post sb sb' L t it v ids ahead idA idsD (R : option (sstore * (proc value * bool))) (a : proc jval * bool) : Prop :=
  exists t' it' D1 ids' idA' idsD', R = Some (mkSt t' it', (D1, snd a)) /\
    change t t' (ids ++ idA ++ idsD) /\ newer t None ids ids' /\ chain t' v ids' /\
    newer t None idA idA' /\ match ahead with Some w => chain t' w idA' | None => idA' = [] end /\
    drel t' sb sb' L D1 (fst a) idsD' /\ newer t None idsD idsD' /\
    sep ids' idsD' /\ sep ids' idA' /\ sep idA' idsD' /\ iext it it'.
Record at_loop (look : Z) sb sb' L t it v rest ids ahead s idA D D' idsD idsC : Prop := {
  al_open : opened t v rest ids;
  al_ahead : aopen look t ahead s idA;
  al_disp : drel t sb sb' L D D' idsD;
  al_sep1 : sep ids idsD;
  al_sep2 : sep ids idA;
  al_sep3 : sep idA idsD;
  al_ctx : ctx_rel t it idsC;
  al_sc1 : sep idsC ids;
  al_sc2 : sep idsC idA;
  al_sc3 : sep idsC idsD }.

Lemma loop_post_then : forall sb sb' L t it v ids ahead idA idsD R a t1 it1 ids1 idA1 idsD1,
  (forall j, In j ids -> j < length t) -> (forall j, In j idA -> j < length t) -> (forall j, In j idsD -> j < length t) ->
  change t t1 (ids ++ idA ++ idsD) -> newer t None ids ids1 -> newer t None idA idA1 -> newer t None idsD idsD1 -> iext it it1 ->
  loop_post sb sb' L t1 it1 v ids1 ahead idA1 idsD1 R a -> loop_post sb sb' L t it v ids ahead idA idsD R a.
Proof.
  intros sb sb' L t it v ids ahead idA idsD R a t1 it1 ids1 idA1 idsD1 B1 B2 B3 C N1 N2 N3 IE
    [t2 [it2 [D2 [ids2 [idA2 [idsD2 [E [C2 [M1 [CH [M2 [CA [DR [M3 [S1 [S2 [S3 IE2]]]]]]]]]]]]]]]]].
  exists t2, it2, D2, ids2, idA2, idsD2. split; [exact E|]. split; [eapply change_then; [exact C|exact C2|ids]|].
  split; [ids|]. split; [exact CH|]. split; [ids|]. split; [exact CA|]. split; [exact DR|]. split; [ids|]. split; [exact S1|]. split; [exact S2|].
  split; [exact S3|]. eapply iext_trans; eassumption.
Qed.

Lemma aopen_chain : forall look t ahead s idA, aopen look t ahead s idA -> match ahead with Some w => chain t w idA | None => idA = [] end.
Proof. intros look t [a|] s idA H; [|exact (proj1 H)]. destruct H as [[rest [O _]] _]. eapply opened_chain; exact O. Qed.

Lemma drel_states : forall t sb sb' L D D' ids, drel t sb sb' L D D' ids -> no_states D = no_states D'.
Proof. intros t sb sb' L D D' ids [cl ss ss' i P Q idn SR LE PN SI]. inversion SR; reflexivity. Qed.

(** One item. *)
Section Step.
Variable tv : segment -> value -> proc value -> iprog (proc value * bool).
Variable ev : cond -> value -> iprog bool.
Variable holds : selector -> jval -> bool.
Variable following : option segment.
Variable fa : jval -> proc jval -> proc jval * bool.
Variable seg : segment.

Definition gen_body (desc : bool) (x : value) (dec : selector -> decision) (ahead : option value) (neg : Z) (D : proc value)
    (kont : Z -> proc value -> iprog (proc value * bool)) : iprog (proc value * bool) :=
  clone_if desc x (fun x2 =>
  ilet (D1, r) <- dispatch tv ev D x dec following ;
  if negb r then detach_if desc x2 (IRet (D1, false))
  else
    step_ahead ahead neg (fun neg' =>
    if desc then
      ilet (next', r2) <- tv seg x2 (snd (disp_parts D1)) ;
      IDetach x2 (if r2 then kont neg' (with_next D1 next') else IRet (with_next D1 next', false))
    else if no_states D1 then IRet (D1, true)
    else kont neg' D1)).

Definition gen_abs (desc : bool) (i : aitem) (D : proc jval) (ak : proc jval -> proc jval * bool) : proc jval * bool :=
  let '(D1, r) := adispatch fa (fun s => takes_item (holds s) s i) (it_dec i) D (it_val i) in
  if negb r then (D1, false)
  else if desc then
    let '(next', r2) := it_res i (snd (disp_parts D1)) in
    if r2 then ak (with_next D1 next') else (with_next D1 next', false)
  else if no_states D1 then (D1, true)
  else ak D1.

Definition good_item sb sb' (desc : bool) (D' : proc jval) (i : aitem) : Prop :=
  (forall s e, In s (states_of D') -> st_done s = false -> st_sel s = SFilter e -> peek (ev e) (it_val i) (holds (SFilter e) (it_val i))) /\
  (forall s, match s with SFilter _ => it_dec i s = dont_know | _ => d_yes (it_dec i s) = true \/ d_no (it_dec i s) = true end) /\
  (forall s, In s (states_of D') -> st_done s = false -> takes_item (holds (st_sel s)) (st_sel s) i = true ->
     good_step sb (fprog tv following) (it_val i) (fa (it_val i))) /\
  (forall Q, skel (fst (fa (it_val i) Q)) = skel Q) /\
  (desc = true -> good_step sb' (tv seg) (it_val i) (it_res i)).

Lemma gen_step_ok : forall look sb sb' L desc i rest k ahead s D D' idsC t it v ids idA idsD kont ak,
  at_loop look sb sb' L t it v ((k, it_val i) :: rest) ids ahead s idA D D' idsD idsC ->
  good_item sb sb' desc D' i ->
  (forall t2 it2 D2 D2' ids2 idA2 idsD2, at_loop look sb sb' L t2 it2 v rest ids2 ahead (step_look look s) idA2 D2 D2' idsD2 idsC ->
     comes (it_dec i) (states_of D') (states_of D2') ->
     loop_post sb sb' L t2 it2 v ids2 ahead idA2 idsD2 (spec_run (kont (snd (step_look look s)) D2) (mkSt t2 it2)) (ak D2')) ->
  exists t1 ch, s_advance t v = Some (t1, true) /\ s_current t1 v = Some (k, Some ch) /\
    loop_post sb sb' L t it v ids ahead idA idsD (spec_run (gen_body desc ch (it_dec i) ahead (snd s) D kont) (mkSt t1 it)) (gen_abs desc i D' ak).
Proof.
  intros look sb sb' L desc i rest k ahead s D D' idsC t it v ids idA idsD kont ak [O AO DR S1 S2 S3 CR SC1 SC2 SC3] [PK [DEC [GS [KP GR]]]] KONT.
  set (y := it_val i) in *.
  destruct (adv_opened _ _ _ _ O) as [t1 [b [AD [CH [-> [c [ch [idc [AT [F [IN [AB NR]]]]]]]]]]]].
  exists t1, ch. split; [exact AD|]. split; [exact (atc_current _ _ _ _ _ _ AT)|].
  assert (LC := opened_lt _ _ _ _ _ O IN).
  assert (BI : forall j, In j ids -> j < length t) by (intros j J; exact (opened_lt _ _ _ _ _ O J)).
  assert (BA : forall j, In j idA -> j < length t) by (exact (aopen_lt _ _ _ _ _ AO)).
  assert (BD : forall j, In j idsD -> j < length t) by (exact (drel_lt _ _ _ _ _ _ _ DR)).
  assert (BC : forall j, In j idsC -> j < length t) by (exact (ctx_lt _ _ _ _ _ _ CR)).
  assert (AO1 : aopen look t1 ahead s idA) by (eapply aopen_frame; [exact AO|same CH]).
  assert (DR1 : drel t1 sb sb' L D D' idsD) by (eapply drel_frame; [exact DR|same CH]).
  assert (CR1 : ctx_rel t1 it idsC) by (eapply ctx_frame; [exact CR|same CH|apply iext_refl|ids]).
  clear CR DR AO.
  (* the clone *)
  assert (CL : exists t2 x2 id2, spec_run (gen_body desc ch (it_dec i) ahead (snd s) D kont) (mkSt t1 it) =
     spec_run (ilet (D1, r) <- dispatch tv ev D ch (it_dec i) following ;
       if negb r then detach_if desc x2 (IRet (D1, false))
       else step_ahead ahead (snd s) (fun neg' =>
         if desc then
           ilet (next', r2) <- tv seg x2 (snd (disp_parts D1)) ;
           IDetach x2 (if r2 then kont neg' (with_next D1 next') else IRet (with_next D1 next', false))
         else if no_states D1 then IRet (D1, true)
         else kont neg' D1)) (mkSt t2 it) /\ change t1 t2 [] /\
     (if desc then fresh t2 x2 y id2 /\ above (length t1) id2 /\ (forall j, In j id2 -> exists hd, nth_error t2 j = Some hd /\ s_root hd = true) else id2 = [])).
  { unfold gen_body. destruct desc; cbn [clone_if].
    - cbn [spec_run st_coll st_iter]. destruct (clone_fresh t1 ch y idc F) as [CL [FC RC]]. rewrite CL. cbn [on_coll obind st_iter].
      exists (t1 ++ hof y true), (vof (length t1) y), (iof (length t1) y). split; [reflexivity|]. split; [apply change_app|]. split; [exact FC|].
      split; [|exact RC]. intros j J. apply iof_in in J. lia.
    - exists t1, ch, []. split; [reflexivity|]. split; [apply change_refl|reflexivity]. }
  destruct CL as [t2 [x2 [id2 [-> [C2 X2]]]]].
  assert (A2 : above (length t1) id2) by (destruct desc; [exact (proj1 (proj2 X2))|subst id2; intros j []]).
  assert (B2 : forall j, In j id2 -> j < length t2) by (destruct desc; [intros j J; exact (fresh_lt _ _ _ _ _ (proj1 X2) J)|subst id2; intros j []]).
  assert (AT2 : atc t2 v c k ch rest) by (eapply atc_frame; [exact AT|apply (cg_same _ _ _ C2); [eapply atc_lt; exact AT|intros []]]).
  assert (F2 : fresh t2 ch y idc) by (eapply fresh_frame; [exact F|same C2]).
  assert (NR2 : forall j, In j idc -> nonroot t2 j) by (intros j J; eapply nonroot_change; [exact C2|auto]).
  assert (AO2 : aopen look t2 ahead s idA) by (eapply aopen_frame; [exact AO1|same C2]).
  assert (DR2 : drel t2 sb sb' L D D' idsD) by (eapply drel_frame; [exact DR1|same C2]).
  assert (CR2 : ctx_rel t2 it idsC) by (eapply ctx_frame; [exact CR1|same C2|apply iext_refl|ids]).
  assert (C02 : change t t2 ids) by (eapply change_then; [exact CH|exact C2|intros j []]).
  assert (LE1 := cg_len _ _ _ CH). assert (LE2 := cg_len _ _ _ C2).
  (* the dispatch *)
  rewrite spec_bind.
  destruct (dispatch_ok ctx sing inner tv ev holds following fa (it_dec i) y sb sb' L t2 it ch idc D D' idsD idsC PK DEC GS KP F2 DR2 ltac:(ids) CR2 ltac:(ids) ltac:(ids))
    as [t3 [it3 [D3 [idc3 [idsD3 [RUN3 [C3 [N3 [CH3 [DR3 [ND3 [S33 IE3]]]]]]]]]]]].
  rewrite RUN3. cbn [obind]. unfold gen_abs.
  assert (ID : is_disp D') by (destruct DR2; exact Logic.I).
  pose proof (dispatch_keeps fa (fun s0 => takes_item (holds s0) s0 i) (it_dec i) D' y ID KP) as DK.
  unfold takes_item in DK |- *. fold y in DK |- *.
  destruct (adispatch fa _ (it_dec i) D' y) as [D3' r3]. cbn [fst snd] in *. destruct DK as [ID3 [_ [CM _]]].
  assert (BC3 : forall j, In j idc3 -> j < length t3) by (intros j J; exact (chain_lt _ _ _ _ CH3 J)).
  assert (LE3 := cg_len _ _ _ C3).
  assert (ORD : forall j, In j idc3 -> c < j /\ nonroot t3 j).
  { eapply child_order; [exact F2|exact NR2| | |exact C3|exact N3|exact CH3]; [|lia]. intros j J. specialize (AB j J). lia. }
  assert (AT3 : atc t3 v c k ch rest).
  { eapply atc_frame; [exact AT2|]. apply (cg_same _ _ _ C3); [lia|]. intro J. apply in_app_or in J as [J|J]; [specialize (AB _ J); lia|].
    exact (S1 c IN J). }
  assert (O3 : opened t3 v rest (c :: idc3)) by (eapply atc_opened; [exact AT3|exact CH3|exact ORD]).
  assert (NO3 : newer t None ids (c :: idc3)).
  { intros j [<-|J]; [now left|]. right. split; [|reflexivity]. destruct (N3 j J) as [I|[I _]]; [auto|lia]. }
  assert (AO3 : aopen look t3 ahead s idA) by (eapply aopen_frame; [exact AO2|same C3]).
  assert (CR3 : ctx_rel t3 it3 idsC) by (eapply ctx_frame; [exact CR2|same C3|exact IE3|ids]).
  assert (C03 : change t t3 (ids ++ idA ++ idsD)) by (eapply change_then; [eapply change_weaken; [exact C02|ids]|exact C3|ids]).
  assert (X3 : desc = true -> fresh t3 x2 y id2).
  { intros ->. destruct X2 as [FX _]. eapply fresh_frame; [exact FX|same C3]. }
  assert (R3 : desc = true -> forall j, In j id2 -> exists hd, nth_error t3 j = Some hd /\ s_root hd = true).
  { intros ->. destruct X2 as [_ [_ RX]]. eapply roots_frame; [|exact RX]. same C3. }
  assert (NC : forall j, In j (c :: idc3) -> j = c \/ In j idc \/ length t2 <= j).
  { intros j [<-|J]; [auto|]. destruct (N3 j J) as [I|[I _]]; auto. }
  assert (AB' : forall j, In j idc -> length t <= j /\ j < length t1).
  { intros j J. split; [exact (AB j J)|exact (fresh_lt _ _ _ _ _ F J)]. }
  assert (SX1 : sep id2 (c :: idc3)).
  { intros j J K. specialize (A2 j J). specialize (B2 j J). destruct (NC j K) as [->|[K1|K1]]; [lia|destruct (AB' j K1); lia|lia]. }
  assert (SX2 : sep id2 idsD3) by ids.
  assert (SX3 : sep id2 idA) by ids.
  assert (SX4 : sep id2 idsC) by ids.
  assert (SO3 : sep (c :: idc3) idsD3).
  { intros j J K. destruct J as [<-|J]; [|exact (S33 j J K)]. destruct (ND3 c K) as [K1|[K1 _]]; [exact (S1 c IN K1)|lia]. }
  assert (SO4 : sep (c :: idc3) idA).
  { intros j J K. pose proof (BA j K). destruct J as [<-|J]; [exact (S2 c IN K)|]. destruct (NO3 j (or_intror J)) as [I|[I _]]; [exact (S2 j I K)|lia]. }
  assert (SO5 : sep idsC (c :: idc3)).
  { intros j K J. pose proof (BC j K). destruct J as [<-|J]; [exact (SC1 c K IN)|]. destruct (NO3 j (or_intror J)) as [I|[I _]]; [exact (SC1 j K I)|lia]. }
  assert (ND : newer t None idsD idsD3) by ids.
  assert (BO : forall j, In j (c :: idc3) -> j < length t3) by (intros j J; exact (opened_lt _ _ _ _ _ O3 J)).
  remember (c :: idc3) as ido eqn:EO. clear EO NC.
  clear PK DEC GS KP C2 X2 AT2 F2 NR2 AO2 DR2 CR2 RUN3 N3 AO1 DR1 CR1 CH F NR AD AT AT3 S33 ND3.
  destruct r3; cbn [negb].
  2:{ destruct desc; cbn [detach_if].
      - destruct (detach_root t3 x2 id2 (fresh_chain _ _ _ _ (X3 eq_refl))) as [t4 [DT C4]].
        { intros c0 r0 ->. apply R3; [reflexivity|now left]. }
        cbn [spec_run st_coll st_iter]. rewrite DT. cbn [on_coll_ obind spec_run st_iter].
        exists t4, it3, D3, ido, idA, idsD3. split; [reflexivity|].
        split; [eapply change_then; [exact C03|exact C4|ids]|]. split; [exact NO3|].
        split; [eapply chain_frame; [eapply opened_chain; exact O3|same C4]|].
        split; [apply newer_refl|]. split; [eapply aopen_chain, aopen_frame; [exact AO3|same C4]|].
        split; [eapply drel_frame; [exact DR3|same C4]|]. split; [exact ND|]. split; [exact SO3|]. split; [exact SO4|]. split; [ids|exact IE3].
      - cbn [spec_run]. exists t3, it3, D3, ido, idA, idsD3. split; [reflexivity|].
        split; [exact C03|]. split; [exact NO3|]. split; [eapply opened_chain; exact O3|].
        split; [apply newer_refl|]. split; [eapply aopen_chain; exact AO3|].
        split; [exact DR3|]. split; [exact ND|]. split; [exact SO3|]. split; [exact SO4|]. split; [ids|exact IE3]. }
  (* ahead *)
  match goal with |- context [spec_run (step_ahead ahead (snd s) ?f) _] =>
    destruct (step_ahead_ok _ look t3 it3 ahead s idA f AO3) as [t4 [idA4 [-> [C4 [NA4 AO4]]]]] end.
  assert (LE4 := cg_len _ _ _ C4).
  assert (O4 : opened t4 v rest ido) by (eapply opened_frame; [exact O3|same C4]).
  assert (DR4 : drel t4 sb sb' L D3 D3' idsD3) by (eapply drel_frame; [exact DR3|same C4]).
  assert (CR4 : ctx_rel t4 it3 idsC) by (eapply ctx_frame; [exact CR3|same C4|apply iext_refl|ids]).
  assert (C04 : change t t4 (ids ++ idA ++ idsD)) by (eapply change_then; [exact C03|exact C4|ids]).
  assert (NA : newer t None idA idA4) by ids.
  assert (SA1 : sep ido idA4).
  { intros j J K. destruct (NA4 j K) as [K1|[K1 _]]; [exact (SO4 j J K1)|]. pose proof (opened_lt _ _ _ _ _ O3 J). lia. }
  assert (SA2 : sep idA4 idsD3) by ids.
  assert (SA3 : sep idsC idA4) by ids.
  assert (SA4 : sep id2 idA4) by ids.
  assert (SCD : sep idsC idsD3) by ids.
  destruct desc.
  - specialize (X3 eq_refl). specialize (R3 eq_refl). specialize (GR eq_refl).
    assert (X4 : fresh t4 x2 y id2) by (eapply fresh_frame; [exact X3|same C4]).
    assert (R4 : forall j, In j id2 -> exists hd, nth_error t4 j = Some hd /\ s_root hd = true) by (eapply roots_frame; [|exact R3]; same C4).
    destruct DR4 as [cl ss ss' i3 P3 Q3 idn SR LE PN SI].
    assert (NDn : newer t None idsD idn) by (intros j J; apply ND; inapp).
    cbn [disp_parts snd with_next]. rewrite spec_bind.
    destruct (GR L t4 it3 x2 id2 P3 Q3 idn idsC X4 PN ltac:(ids) CR4 ltac:(ids) ltac:(ids))
      as [t5 [it5 [P5 [id5 [idn5 [RUN5 [C5 [N5 [CH5 [PN5 [ND5 [S5 IE5]]]]]]]]]]]].
    rewrite RUN5. cbn [obind]. destruct (it_res i Q3) as [Q5 r5]. cbn [fst snd] in *.
    match goal with |- context [IDetach x2 ?p] =>
      destruct (detach_clone t4 t5 x2 y id2 _ id5 it5 _ p X4 R4 C5 CH5) as [t6 [-> C6]] end.
    assert (SX1' : sep id5 ido).
    { intros j J K. pose proof (opened_lt _ _ _ _ _ O4 K). destruct (N5 j J) as [I|[I _]]; [exact (SX1 j I K)|lia]. }
    assert (C46 : change t4 t6 (id2 ++ idn)) by (eapply change_then; [exact C5|exact C6|ids]).
    assert (O6 : opened t6 v rest ido).
    { eapply opened_frame; [exact O4|]. eapply change_agree; [exact C46|ids|]. apply sep_sym. intros j J K. apply in_app_or in J as [J|J]; [exact (SX1 j J K)|].
      apply (SO3 j K). inapp. }
    assert (AO6 : aopen look t6 ahead (step_look look s) idA4) by (eapply aopen_frame; [exact AO4|same C46]).
    assert (SR6 : strel sb t6 ss ss' i3) by (eapply strel_frame; [exact SR|same C46]).
    assert (PN6 : prel t6 (sb' :: L) P5 Q5 idn5) by (eapply prel_frame; [exact PN5|same C6]).
    assert (DR6 : drel t6 sb sb' L (PDisp cl ss P5) (PDisp cl ss' Q5) (i3 ++ idn5)) by (constructor; auto; ids).
    assert (IE05 : iext it it5) by (eapply iext_trans; eassumption).
    assert (CR6 : ctx_rel t6 it5 idsC) by (eapply ctx_frame; [exact CR4|same C46|exact IE5|ids]).
    assert (SO6 : sep ido (i3 ++ idn5)).
    { intros j J K. pose proof (opened_lt _ _ _ _ _ O4 J). apply in_app_or in K as [K|K]; [apply (SO3 j J); inapp|].
      destruct (ND5 j K) as [K1|[K1 _]]; [apply (SO3 j J); inapp|lia]. }
    assert (C06 : change t t6 (ids ++ idA ++ idsD)) by (eapply change_then; [exact C04|exact C46|ids]).
    assert (ND6 : newer t None idsD (i3 ++ idn5)).
    { intros j J. apply in_app_or in J as [J|J]; [apply ND; inapp|]. destruct (ND5 j J) as [K1|[K1 _]]; [apply ND; inapp|]. right. split; [lia|reflexivity]. }
    assert (AL6 : at_loop look sb sb' L t6 it5 v rest ido ahead (step_look look s) idA4 (PDisp cl ss P5) (PDisp cl ss' Q5) (i3 ++ idn5) idsC).
    { constructor; auto; ids. }
    destruct r5.
    + eapply loop_post_then; [exact BI|exact BA|exact BD|exact C06|exact NO3|exact NA|exact ND6|exact IE05|].
      exact (KONT _ _ _ _ _ _ _ AL6 CM).
    + cbn [spec_run]. exists t6, it5. eexists. exists ido, idA4, (i3 ++ idn5). split; [reflexivity|]. split; [exact C06|].
      split; [exact NO3|]. split; [eapply opened_chain; exact O6|]. split; [exact NA|]. split; [eapply aopen_chain; exact AO6|]. split; [exact DR6|].
      split; [exact ND6|]. split; [exact SO6|]. split; [exact SA1|]. split; [ids|exact IE05].
  - rewrite (drel_states _ _ _ _ _ _ _ DR4). destruct (no_states D3').
    + cbn [spec_run]. exists t4, it3, D3, ido, idA4, idsD3. split; [reflexivity|]. split; [exact C04|].
      split; [exact NO3|]. split; [eapply opened_chain; exact O4|]. split; [exact NA|]. split; [eapply aopen_chain; exact AO4|]. split; [exact DR4|].
      split; [exact ND|]. split; [exact SO3|]. split; [exact SA1|]. split; [exact SA2|exact IE3].
    + eapply loop_post_then; [exact BI|exact BA|exact BD|exact C04|exact NO3|exact NA|exact ND|exact IE3|].
      apply KONT; [constructor; auto|exact CM].
Qed.

(** Every item is good for the selectors that still ask for items. *)
Definition good_common (desc : bool) sb' (i : aitem) : Prop :=
  (forall s, match s with SFilter _ => it_dec i s = dont_know | _ => d_yes (it_dec i s) = true \/ d_no (it_dec i s) = true end) /\
  (forall Q, skel (fst (fa (it_val i) Q)) = skel Q) /\
  (desc = true -> good_step sb' (tv seg) (it_val i) (it_res i)).
Definition good_for sb (s : selector) (i : aitem) : Prop :=
  (forall e, s = SFilter e -> peek (ev e) (it_val i) (holds (SFilter e) (it_val i))) /\
  (takes_item (holds s) s i = true -> good_step sb (fprog tv following) (it_val i) (fa (it_val i))).
Fixpoint good_tail (desc : bool) sb sb' (P : selector -> Prop) (its : list aitem) : Prop :=
  match its with
  | [] => True
  | i :: r => good_common desc sb' i /\ (forall s, P s -> good_for sb s i) /\
      good_tail desc sb sb' (fun s => P s /\ d_nomore (it_dec i s) = false) r
  end.
Lemma good_tail_mono : forall desc sb sb' its (P P' : selector -> Prop), (forall s, P' s -> P s) -> good_tail desc sb sb' P its -> good_tail desc sb sb' P' its.
Proof.
  intros desc sb sb'. induction its as [|i its IH]; intros P P' H G; [exact I|]. destruct G as [G1 [G2 G3]]. split; [exact G1|]. split; [auto|].
  eapply IH; [|exact G3]. intros s [A B]. auto.
Qed.
Definition live (D : proc jval) (s : selector) : Prop := exists st, In st (states_of D) /\ st_done st = false /\ st_sel st = s.
Lemma good_head : forall desc sb sb' D i its, good_tail desc sb sb' (live D) (i :: its) -> good_item sb sb' desc D i.
Proof.
  intros desc sb sb' D i its [[G1 [G2 G3]] [G _]]. split; [|split; [exact G1|split; [|split; [exact G2|exact G3]]]].
  - intros s e J N E. apply (G (st_sel s)); [exists s; auto|exact E].
  - intros s J N T. apply (G (st_sel s)); [exists s; auto|exact T].
Qed.
Lemma good_next : forall desc sb sb' D D2 i its, good_tail desc sb sb' (live D) (i :: its) -> comes (it_dec i) (states_of D) (states_of D2) ->
  good_tail desc sb sb' (live D2) its.
Proof.
  intros desc sb sb' D D2 i its [_ [_ G]] C. eapply good_tail_mono; [|exact G]. intros s [st [J [N E]]]. destruct (C st J N) as [A [s0 [B1 [B2 B3]]]].
  subst s. split; [|exact A]. exists s0. auto.
Qed.

Lemma empty_ok : forall look sb sb' L D D' idsC t it v ids ahead s idA idsD (p : iprog (proc value * bool)),
  at_loop look sb sb' L t it v [] ids ahead s idA D D' idsD idsC ->
  loop_post sb sb' L t it v ids ahead idA idsD (spec_run (IAdvance v (fun more => if more then p else IRet (D, true))) (mkSt t it)) (D', true).
Proof.
  intros look sb sb' L D D' idsC t it v ids ahead s idA idsD p [O AO DR S1 S2 S3 CR SC1 SC2 SC3].
  cbn [spec_run st_coll]. destruct (adv_opened _ _ _ _ O) as [t1 [b [-> [CH [-> [ids' [O' I]]]]]]]. cbn [on_coll obind spec_run st_iter].
  exists t1, it, D, ids', idA, idsD. split; [reflexivity|]. split; [eapply change_weaken; [exact CH|ids]|]. split; [ids|].
  split; [eapply opened_chain; exact O'|]. split; [apply newer_refl|]. split; [eapply aopen_chain, aopen_frame; [exact AO|same CH]|].
  split; [eapply drel_frame; [exact DR|same CH]|]. split; [apply newer_refl|]. split; [ids|]. split; [ids|]. split; [exact S3|apply iext_refl].
Qed.

Definition obj_items (l : list (scalar * jval)) : list (option scalar * jval) := map (fun m => (Some (fst m), snd m)) l.
Definition obj_annot (go : jval -> proc jval -> proc jval * bool) (l : list (scalar * jval)) : list aitem :=
  annot_obj (map (fun m => (fst m, (snd m, go (snd m)))) l).

Lemma object_relaxed_ok : forall go desc sb sb' L idsC v n l, length l < n -> (forall m, In m l -> exists b, to_string (fst m) = Ok b) ->
  forall t it ids D D' idsD, at_loop 0 sb sb' L t it v (obj_items l) ids None (0, 0%Z) [] D D' idsD idsC ->
  good_tail desc sb sb' (live D') (obj_annot go l) ->
  loop_post sb sb' L t it v ids None [] idsD (spec_run (object_relaxed tv ev n seg desc following v D) (mkSt t it)) (arelaxed fa holds desc (obj_annot go l) D').
Proof.
  intros go desc sb sb' L idsC v. induction n as [|n IH]; intros l LN RD t it ids D D' idsD AL GT; [lia|]. cbn [object_relaxed].
  destruct l as [|[k y] l]; [eapply empty_ok; exact AL|]. cbn [length] in LN.
  destruct (RD (k, y) (or_introl eq_refl)) as [b TS]. cbn [fst] in TS.
  set (i := mkItem (selects_key (key_string k)) y (go y) : aitem).
  change (obj_annot go ((k, y) :: l)) with (i :: obj_annot go l) in *. change (obj_items ((k, y) :: l)) with ((Some k, it_val i) :: obj_items l) in AL.
  destruct (gen_step_ok 0 sb sb' L desc i (obj_items l) (Some k) None (0, 0%Z) D D' idsC t it v ids [] idsD
     (fun _ D2 => object_relaxed tv ev n seg desc following v D2) (arelaxed fa holds desc (obj_annot go l)) AL (good_head _ _ _ _ _ _ GT)) as [t1 [ch [AD [CU P]]]].
  { intros t2 it2 D2 D2' ids2 idA2 idsD2 AL2 CM. assert (idA2 = []) as -> by exact (proj1 (al_ahead _ _ _ _ _ _ _ _ _ _ _ _ _ _ _ _ AL2)).
    apply IH; [lia|intros m M; apply RD; now right|exact AL2|]. eapply good_next; eassumption. }
  cbn [spec_run st_coll]. rewrite AD. cbn [on_coll obind spec_run st_coll st_iter]. rewrite CU. cbn [need ibind fst snd].
  assert (EK : key_string k = b) by (unfold key_string; now rewrite TS). unfold i in P |- *. cbn [it_dec] in P. rewrite EK in P |- *. rewrite TS. exact P.
Qed.
Lemma object_strict_ok : forall go sb sb' L idsC v n l, length l < n -> (forall m, In m l -> exists b, to_string (fst m) = Ok b) ->
  forall t it ids D D' idsD, at_loop 0 sb sb' L t it v (obj_items l) ids None (0, 0%Z) [] D D' idsD idsC ->
  good_tail false sb sb' (live D') (obj_annot go l) ->
  loop_post sb sb' L t it v ids None [] idsD (spec_run (object_strict tv ev n following v D) (mkSt t it)) (astrict fa holds (obj_annot go l) D').
Proof.
  intros go sb sb' L idsC v. induction n as [|n IH]; intros l LN RD t it ids D D' idsD AL GT; [lia|]. cbn [object_strict].
  destruct l as [|[k y] l]; [eapply empty_ok; exact AL|]. cbn [length] in LN.
  destruct (RD (k, y) (or_introl eq_refl)) as [b TS]. cbn [fst] in TS.
  set (i := mkItem (selects_key (key_string k)) y (go y) : aitem).
  change (obj_annot go ((k, y) :: l)) with (i :: obj_annot go l) in *. change (obj_items ((k, y) :: l)) with ((Some k, it_val i) :: obj_items l) in AL.
  destruct (gen_step_ok 0 sb sb' L false i (obj_items l) (Some k) None (0, 0%Z) D D' idsC t it v ids [] idsD
     (fun _ D2 => object_strict tv ev n following v D2) (astrict fa holds (obj_annot go l)) AL (good_head _ _ _ _ _ _ GT)) as [t1 [ch [AD [CU P]]]].
  { intros t2 it2 D2 D2' ids2 idA2 idsD2 AL2 CM. assert (idA2 = []) as -> by exact (proj1 (al_ahead _ _ _ _ _ _ _ _ _ _ _ _ _ _ _ _ AL2)).
    apply IH; [lia|intros m M; apply RD; now right|exact AL2|]. eapply good_next; eassumption. }
  cbn [spec_run st_coll]. rewrite AD. cbn [on_coll obind spec_run st_coll st_iter]. rewrite CU. cbn [need ibind fst snd].
  assert (EK : key_string k = b) by (unfold key_string; now rewrite TS). unfold i in P |- *. cbn [it_dec] in P. rewrite EK in P |- *. rewrite TS. exact P.
Qed.

Definition arr_items (l : list jval) : list (option scalar * jval) := map (fun y => (None, y)) l.
Definition arr_annot (go : jval -> proc jval -> proc jval * bool) look s index (l : list jval) : list aitem :=
  annot_arr look s index (map (fun y => (y, go y)) l).
Lemma array_relaxed_ok : forall go look desc sb sb' L idsC v ahead n l, length l < n ->
  forall s index t it ids idA D D' idsD, at_loop look sb sb' L t it v (arr_items l) ids ahead s idA D D' idsD idsC ->
  good_tail desc sb sb' (live D') (arr_annot go look s index l) ->
  loop_post sb sb' L t it v ids ahead idA idsD (spec_run (array_relaxed tv ev n seg desc following v ahead index (snd s) D) (mkSt t it))
    (arelaxed fa holds desc (arr_annot go look s index l) D').
Proof.
  intros go look desc sb sb' L idsC v ahead. induction n as [|n IH]; intros l LN s index t it ids idA D D' idsD AL GT; [lia|]. cbn [array_relaxed].
  destruct l as [|y l]; [eapply empty_ok; exact AL|]. cbn [length] in LN.
  set (i := mkItem (selects_index index (snd s)) y (go y) : aitem).
  change (arr_annot go look s index (y :: l)) with (i :: arr_annot go look (step_look look s) (i64 (index + 1)) l) in *.
  change (arr_items (y :: l)) with ((None, it_val i) :: arr_items l) in AL.
  destruct (gen_step_ok look sb sb' L desc i (arr_items l) None ahead s D D' idsC t it v ids idA idsD
     (fun neg' D2 => array_relaxed tv ev n seg desc following v ahead (i64 (index + 1)) neg' D2) (arelaxed fa holds desc (arr_annot go look (step_look look s) (i64 (index + 1)) l))
     AL (good_head _ _ _ _ _ _ GT)) as [t1 [ch [AD [CU P]]]].
  { intros t2 it2 D2 D2' ids2 idA2 idsD2 AL2 CM. apply IH; [lia|exact AL2|]. eapply good_next; eassumption. }
  cbn [spec_run st_coll]. rewrite AD. cbn [on_coll obind spec_run st_coll st_iter]. rewrite CU. cbn [need ibind fst snd]. exact P.
Qed.
Lemma array_strict_ok : forall go look sb sb' L idsC v ahead n l, length l < n ->
  forall s index t it ids idA D D' idsD, at_loop look sb sb' L t it v (arr_items l) ids ahead s idA D D' idsD idsC ->
  good_tail false sb sb' (live D') (arr_annot go look s index l) ->
  loop_post sb sb' L t it v ids ahead idA idsD (spec_run (array_strict tv ev n following v ahead index (snd s) D) (mkSt t it))
    (astrict fa holds (arr_annot go look s index l) D').
Proof.
  intros go look sb sb' L idsC v ahead. induction n as [|n IH]; intros l LN s index t it ids idA D D' idsD AL GT; [lia|]. cbn [array_strict].
  destruct l as [|y l]; [eapply empty_ok; exact AL|]. cbn [length] in LN.
  set (i := mkItem (selects_index index (snd s)) y (go y) : aitem).
  change (arr_annot go look s index (y :: l)) with (i :: arr_annot go look (step_look look s) (i64 (index + 1)) l) in *.
  change (arr_items (y :: l)) with ((None, it_val i) :: arr_items l) in AL.
  destruct (gen_step_ok look sb sb' L false i (arr_items l) None ahead s D D' idsC t it v ids idA idsD
     (fun neg' D2 => array_strict tv ev n following v ahead (i64 (index + 1)) neg' D2) (astrict fa holds (arr_annot go look (step_look look s) (i64 (index + 1)) l))
     AL (good_head _ _ _ _ _ _ GT)) as [t1 [ch [AD [CU P]]]].
  { intros t2 it2 D2 D2' ids2 idA2 idsD2 AL2 CM. apply IH; [lia|exact AL2|]. eapply good_next; eassumption. }
  cbn [spec_run st_coll]. rewrite AD. cbn [on_coll obind spec_run st_coll st_iter]. rewrite CU. cbn [need ibind fst snd]. exact P.
Qed.

(** The loop on the clone. *)
Lemma descend_ok : forall sb L idsC v n (its : list aitem), length its < n -> (forall i, In i its -> good_step sb (tv seg) (it_val i) (it_res i)) ->
  forall t it items ids P Q idsP, opened t v items ids -> map snd items = map it_val its -> prel t (sb :: L) P Q idsP -> sep ids idsP ->
  ctx_rel t it idsC -> sep idsC ids -> sep idsC idsP ->
  step_post (sb :: L) t it v ids idsP (spec_run (descend tv n seg v P) (mkSt t it)) (adescend its Q).
Proof.
  intros sb L idsC v. induction n as [|n IH]; intros its LN GS t it items ids P Q idsP O EI PR S1 CR SC1 SC2; [lia|]. cbn [descend spec_run st_coll].
  destruct (adv_opened _ _ _ _ O) as [t1 [b [-> [CH M]]]]. cbn [on_coll obind st_iter].
  destruct its as [|i its], items as [|[k y] items]; try discriminate; cbn [map snd] in EI.
  - destruct M as [-> [ids' [O' I]]]. cbn [spec_run adescend]. exists t1, it, P, ids', idsP. split; [reflexivity|].
    split; [eapply change_weaken; [exact CH|ids]|]. split; [ids|]. split; [eapply opened_chain; exact O'|].
    split; [eapply prel_frame; [exact PR|same CH]|]. split; [apply newer_refl|]. split; [ids|apply iext_refl].
  - injection EI as -> EI. destruct M as [-> [c [ch [idc [AT [F [IN [AB NR]]]]]]]].
    cbn [spec_run st_coll]. rewrite (atc_current _ _ _ _ _ _ AT). cbn [snd need ibind]. rewrite spec_bind. cbn [adescend].
    assert (LC := opened_lt _ _ _ _ _ O IN). assert (LE := cg_len _ _ _ CH).
    assert (BI : forall j, In j ids -> j < length t) by (intros j J; exact (opened_lt _ _ _ _ _ O J)).
    assert (BP : forall j, In j idsP -> j < length t) by (exact (prel_lt _ _ _ _ _ PR)).
    assert (BC : forall j, In j idsC -> j < length t) by (exact (ctx_lt _ _ _ _ _ _ CR)).
    assert (PR1 : prel t1 (sb :: L) P Q idsP) by (eapply prel_frame; [exact PR|same CH]).
    assert (CR1 : ctx_rel t1 it idsC) by (eapply ctx_frame; [exact CR|same CH|apply iext_refl|ids]).
    destruct (GS i (or_introl eq_refl) L t1 it ch idc P Q idsP idsC F PR1 ltac:(ids) CR1 ltac:(ids) ltac:(ids))
      as [t2 [it2 [P2 [idc2 [idsP2 [-> [C2 [N2 [CH2 [PR2 [NP2 [S2 IE2]]]]]]]]]]]].
    cbn [obind]. destruct (it_res i Q) as [Q2 r2]. cbn [fst snd] in *.
    assert (LE2 := cg_len _ _ _ C2).
    assert (AT2 : atc t2 v c k ch items).
    { eapply atc_frame; [exact AT|]. apply (cg_same _ _ _ C2); [lia|]. intro J. apply in_app_or in J as [J|J]; [specialize (AB _ J); lia|exact (S1 c IN J)]. }
    assert (O2 : opened t2 v items (c :: idc2)).
    { eapply atc_opened; [exact AT2|exact CH2|]. eapply child_order; [exact F|exact NR| | |exact C2|exact N2|exact CH2]; [|lia]. intros j J. specialize (AB j J). lia. }
    assert (NO : newer t None ids (c :: idc2)).
    { intros j [<-|J]; [now left|]. right. split; [|reflexivity]. destruct (N2 j J) as [I|[I _]]; [auto|lia]. }
    assert (SO : sep (c :: idc2) idsP2).
    { intros j J K. destruct J as [<-|J]; [|exact (S2 j J K)]. destruct (NP2 c K) as [K1|[K1 _]]; [exact (S1 c IN K1)|lia]. }
    assert (SOC : sep idsC (c :: idc2)).
    { intros j K J. pose proof (BC j K). destruct J as [<-|J]; [exact (SC1 c K IN)|]. destruct (NO j (or_intror J)) as [I|[I _]]; [exact (SC1 j K I)|lia]. }
    remember (c :: idc2) as ido eqn:EO. clear EO.
    assert (C02 : change t t2 (ids ++ idsP)) by (eapply change_then; [eapply change_weaken; [exact CH|ids]|exact C2|ids]).
    assert (NP : newer t None idsP idsP2) by ids.
    destruct r2.
    + assert (CR2 : ctx_rel t2 it2 idsC) by (eapply ctx_frame; [exact CR1|same C2|exact IE2|ids]).
      cbn [length] in LN.
      destruct (IH its ltac:(lia) (fun j J => GS j (or_intror J)) t2 it2 items ido P2 Q2 idsP2 O2 EI PR2 SO CR2 SOC ltac:(ids))
        as [t3 [it3 [P3 [ids3 [idsP3 [RUN [C3 [N3 [CH3 [PR3 [NP3 [S3 IE3]]]]]]]]]]]].
      exists t3, it3, P3, ids3, idsP3. split; [exact RUN|]. split; [eapply change_then; [exact C02|exact C3|ids]|].
      split; [eapply newer_then; eassumption|]. split; [exact CH3|]. split; [exact PR3|]. split; [eapply newer_then; eassumption|]. split; [exact S3|eapply iext_trans; eassumption].
    + cbn [spec_run]. exists t2, it2, P2, ido, idsP2. split; [reflexivity|]. split; [exact C02|]. split; [exact NO|]. split; [eapply opened_chain; exact O2|].
      split; [exact PR2|]. split; [exact NP|]. split; [exact SO|exact IE2].
Qed.
End Step.
End Context.

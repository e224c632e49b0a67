(** Singular queries: the answer is a value below the argument, not yet read. *)
From Coq Require Import List ZArith NArith Arith Bool Lia.
From Verif Require Import Base Tokens JsonSpec EncSpec ScalarModel CursorModel IterModel IterSpec IterCore IterThr IterRel IterSound
  ScriptSpec ScriptProofs IterLib EqualModel EqualProofs UseLib SelectModel PathModel PathAbs PathFacts PathSim PathDisp PathLoop PathBody.
Open Scope iprog_scope.

(** [w], not yet read, is the value in the value in ... in [v]. *)
Inductive leads (t : list shandle) : value -> value -> jval -> list nat -> Prop :=
| ld_here : forall w y ids, fresh t w y ids -> leads t w w y ids
| ld_down : forall v c k ch rest w y ids, atc t v c k ch rest -> leads t ch w y ids -> (forall j, In j ids -> c < j /\ nonroot t j) ->
    leads t v w y (c :: ids).
Lemma leads_chain : forall t v w y ids, leads t v w y ids -> chain t v ids.
Proof.
  induction 1 as [w y ids F|v c k ch rest w y ids AT LD IH O]; [eapply fresh_chain; exact F|].
  eapply opened_chain, atc_opened; eassumption.
Qed.
Lemma leads_fresh : forall t v w y ids, leads t v w y ids -> exists idw, fresh t w y idw /\ incl idw ids.
Proof.
  induction 1 as [w y ids F|v c k ch rest w y ids AT LD [idw [F I]] O]; [exists ids; split; [exact F|apply incl_refl]|].
  exists idw. split; [exact F|]. intros j J. right. auto.
Qed.
Lemma leads_frame : forall t v w y ids, leads t v w y ids -> forall t', agree t t' ids -> leads t' v w y ids.
Proof.
  induction 1 as [w y ids F|v c k ch rest w y ids AT LD IH O]; intros t' A.
  - constructor. eapply fresh_frame; eassumption.
  - eapply ld_down; [eapply atc_frame; [exact AT|apply A; now left]|apply IH; intros j J; apply A; now right|].
    intros j J. destruct (O j J) as [O1 O2]. split; [exact O1|]. eapply nonroot_agree; [apply A; now right|exact O2].
Qed.
Lemma chain_head_nonroot : forall t t2 F v ids ids2, chain t v ids -> (forall j, In j ids -> nonroot t j) -> change t t2 F -> chain t2 v ids2 ->
  forall j, In j ids2 -> nonroot t2 j.
Proof.
  intros t t2 F v ids ids2 C NR CH C2 j J. pose proof (same_head _ _ _ _ _ C C2) as HH.
  destruct ids2 as [|h tl]; [destruct J|]. destruct J as [<-|J].
  - destruct ids as [|h0 tl0]; [destruct HH|]. subst. eapply nonroot_change; [exact CH|]. apply NR. now left.
  - inversion C2 as [|? ? ? ? ?|? ? ? ? ? ? ? ? ? ? O]; subst; [destruct J|]. now apply O.
Qed.
Lemma leads_use : forall t v w y ids, leads t v w y ids -> forall idw, fresh t w y idw ->
  forall t2 F idw2, change t t2 F -> (forall j, In j F -> In j ids -> In j idw) -> chain t2 w idw2 -> newer t None idw idw2 ->
  exists ids2, chain t2 v ids2 /\ newer t None ids ids2.
Proof.
  induction 1 as [w y ids F|v c k ch rest w y ids AT LD IH O]; intros idw FW t2 F2 idw2 CH IN C2 N2.
  - exists idw2. split; [exact C2|]. assert (idw = ids) as ->; [|exact N2].
    destruct y; cbn [fresh] in F, FW; [destruct F as [_ ->], FW as [_ ->]; reflexivity| |]; destruct F as [a [? [G ->]]], FW as [b [? [G' ->]]]; congruence.
  - destruct (IH idw FW t2 F2 idw2 CH ltac:(intros j J K; apply IN; [exact J|now right]) C2 N2) as [ids2 [CC NN]].
    pose proof (leads_chain _ _ _ _ _ LD) as C0.
    exists (c :: ids2). split.
    + eapply opened_chain, atc_opened; [eapply atc_frame; [exact AT|]|exact CC|].
      * apply (cg_same _ _ _ CH); [eapply atc_lt; exact AT|]. intro J. specialize (IN c J (or_introl eq_refl)).
        destruct (leads_fresh _ _ _ _ _ LD) as [idw' [FW' I']].
        assert (idw = idw') as -> by (destruct y; cbn [fresh] in FW, FW'; [destruct FW as [_ ->], FW' as [_ ->]; reflexivity| |]; destruct FW as [a [? [G ->]]], FW' as [b [? [G' ->]]]; congruence).
        destruct (O c (I' c IN)). lia.
      * intros j J. split; [|eapply (chain_head_nonroot t t2); [exact C0|intros i Q; apply O; exact Q|exact CH|exact CC|exact J]].
        destruct (NN j J) as [I|[I _]]; [now apply O|]. pose proof (atc_lt _ _ _ _ _ _ AT). lia.
    + intros j [<-|J]; [left; now left|]. destruct (NN j J) as [I|I]; [left; now right|right; exact I].
Qed.
Lemma leads_step : forall t v c k ch rest idc t2 w y ids2 F, atc t v c k ch rest -> chain t ch idc -> (forall j, In j idc -> c < j /\ nonroot t j) ->
  change t t2 F -> ~ In c F -> leads t2 ch w y ids2 -> newer t None idc ids2 -> leads t2 v w y (c :: ids2).
Proof.
  intros t v c k ch rest idc t2 w y ids2 F AT C0 O CH NC LD NN.
  eapply ld_down; [eapply atc_frame; [exact AT|apply (cg_same _ _ _ CH); [eapply atc_lt; exact AT|exact NC]]|exact LD|].
  intros j J. split; [|eapply (chain_head_nonroot t t2); [exact C0|intros i Q; apply O; exact Q|exact CH|eapply leads_chain; exact LD|exact J]].
  destruct (NN j J) as [I|[I _]]; [now apply O|]. pose proof (atc_lt _ _ _ _ _ _ AT). lia.
Qed.

Ltac lts := repeat match goal with
  | H : PathSim.ctx_rel _ _ _ _ _ _ |- _ => add (ctx_lt _ _ _ _ _ _ H)
  | H : drel _ _ _ _ _ _ _ |- _ => add (drel_lt _ _ _ _ _ _ _ H)
  | H : aopen _ _ _ _ _ |- _ => add (aopen_lt _ _ _ _ _ H)
  end.
Ltac ids ::= lts; gather; unfold agree in *;
  lazymatch goal with
  | |- sep _ _ => intros ?j ?J ?K; sat; lia
  | |- newer _ _ _ _ => intros ?j ?J; sat; first [left; inapp|right; split; [lia|reflexivity]]
  | |- incl _ _ => intros ?j ?J; sat; inapp
  | |- above _ _ => intros ?j ?J; sat; lia
  | |- _ => intros; sat; first [lia|inapp|left; inapp|right; lia]
  end.

(** The answer of a selector. *)
Definition down (t' : list shandle) (v : value) (r : option value) (o : option jval) (ids' : list nat) : Prop :=
  match r, o with
  | None, None => chain t' v ids'
  | Some w, Some y => exists c k rest idw, ids' = c :: idw /\ atc t' v c k w rest /\ fresh t' w y idw /\ (forall j, In j idw -> c < j /\ nonroot t' j)
  | _, _ => False
  end.
Lemma down_lt : forall t' v r o ids', down t' v r o ids' -> forall j, In j ids' -> j < length t'.
Proof.
  intros t' v [w|] [y|] ids' D j J; cbn [down] in D; try contradiction; [|exact (chain_lt _ _ _ _ D J)].
  destruct D as [c [k [rest [idw [-> [A [F _]]]]]]]. destruct J as [<-|J]; [eapply atc_lt; exact A|exact (fresh_lt _ _ _ _ _ F J)].
Qed.
Lemma down_frame : forall t t' v r o ids, down t v r o ids -> agree t t' ids -> down t' v r o ids.
Proof.
  intros t t' v [w|] [y|] ids D A; cbn [down] in *; try contradiction; [|eapply chain_frame; eassumption].
  destruct D as [c [k [rest [idw [-> [AT [F O]]]]]]]. exists c, k, rest, idw. split; [reflexivity|].
  split; [eapply atc_frame; [exact AT|apply A; now left]|]. split; [eapply fresh_frame; [exact F|intros j J; apply A; now right]|].
  intros j J. destruct (O j J) as [O1 O2]. split; [exact O1|]. eapply nonroot_agree; [apply A; now right|exact O2].
Qed.
Lemma down_item : forall t v c k ch rest y idc, atc t v c k ch rest -> fresh t ch y idc -> (forall j, In j idc -> c < j /\ nonroot t j) ->
  down t v (Some ch) (Some y) (c :: idc).
Proof. intros t v c k ch rest y idc A F O. exists c, k, rest, idc. auto. Qed.

(** Advance: the item. *)
Lemma adv_item : forall t v k y rest ids, opened t v ((k, y) :: rest) ids ->
  exists t' c ch idc, s_advance t v = Some (t', true) /\ change t t' ids /\ atc t' v c k ch rest /\ fresh t' ch y idc /\
    (forall j, In j idc -> c < j /\ nonroot t' j) /\ newer t None ids (c :: idc) /\ opened t' v rest (c :: idc).
Proof.
  intros t v k y rest ids O. destruct (adv_opened _ _ _ _ O) as [t1 [b [AD [CH [-> [c [ch [idc [AT [F [IN [AB NR]]]]]]]]]]]].
  pose proof (opened_lt _ _ _ _ _ O IN) as LC.
  assert (OR : forall j, In j idc -> c < j /\ nonroot t1 j) by (intros j J; split; [specialize (AB j J); lia|auto]).
  exists t1, c, ch, idc. split; [exact AD|]. split; [exact CH|]. split; [exact AT|]. split; [exact F|]. split; [exact OR|]. split.
  - intros j [<-|J]; [now left|]. right. split; [auto|reflexivity].
  - eapply atc_opened; [exact AT|eapply fresh_chain; exact F|exact OR].
Qed.

Lemma select_object_ok : forall name it v n l t ids, length l < n -> (forall m, In m l -> exists b, to_string (fst m) = Ok b) -> opened t v (obj_items l) ids ->
  exists t' r ids', spec_run (select_from_object n name v) (mkSt t it) = Some (mkSt t' it, r) /\ change t t' ids /\ down t' v r (find_key name l) ids' /\ newer t None ids ids'.
Proof.
  intros name it v. induction n as [|n IH]; intros l t ids LN KO O; [lia|]. cbn [select_from_object spec_run st_coll]. destruct l as [|[k y] l].
  - destruct (adv_opened _ _ _ _ O) as [t1 [b [-> [CH [-> [ids' [O' I]]]]]]]. cbn [on_coll obind spec_run st_iter find_key].
    exists t1, None, ids'. split; [reflexivity|]. split; [exact CH|]. split; [eapply opened_chain; exact O'|ids].
  - cbn [obj_items map fst snd] in O. destruct (adv_item _ _ _ _ _ _ O) as [t1 [c [ch [idc [-> [CH [AT [F [OR [NW O1]]]]]]]]]].
    cbn [on_coll obind spec_run st_coll st_iter]. rewrite (atc_current _ _ _ _ _ _ AT). cbn [need ibind fst snd].
    destruct (KO (k, y) (or_introl eq_refl)) as [b TS]. cbn [fst] in TS. rewrite TS. cbn [of_res ibind find_key].
    unfold key_string at 1. rewrite TS. destruct (bytes_eqb b name).
    + cbn [spec_run]. exists t1, (Some ch), (c :: idc). split; [reflexivity|]. split; [exact CH|]. split; [eapply down_item; eassumption|exact NW].
    + cbn [length] in LN. destruct (IH l t1 (c :: idc) ltac:(lia) (fun m M => KO m (or_intror M)) O1) as [t2 [r [ids' [RUN [C2 [D2 N2]]]]]].
      exists t2, r, ids'. split; [exact RUN|]. split; [eapply change_then; [exact CH|exact C2|intros j J; destruct (NW j J) as [|[]]; auto]|].
      split; [exact D2|]. eapply newer_then; eassumption.
Qed.

Definition achain (t : list shandle) (ahead : option value) (idA : list nat) : Prop := match ahead with Some w => chain t w idA | None => idA = [] end.
Lemma select_index_ok : forall look i it v ahead n l s index t ids idA, length l < n -> opened t v (arr_items l) ids -> aopen look t ahead s idA -> sep ids idA ->
  exists t' r ids' idA', spec_run (select_index n i v ahead index (snd s)) (mkSt t it) = Some (mkSt t' it, r) /\ change t t' (ids ++ idA) /\
    down t' v r (find_index i look s index l) ids' /\ newer t None ids ids' /\ achain t' ahead idA' /\ newer t None idA idA' /\ sep ids' idA'.
Proof.
  intros look i it v ahead. induction n as [|n IH]; intros l s index t ids idA LN O AO SP; [lia|].
  assert (BI : forall j, In j ids -> j < length t) by (intros j J; exact (opened_lt _ _ _ _ _ O J)).
  assert (BA := aopen_lt _ _ _ _ _ AO).
  cbn [select_index spec_run st_coll]. destruct l as [|y l].
  - destruct (adv_opened _ _ _ _ O) as [t1 [b [-> [CH [-> [ids' [O' I]]]]]]]. cbn [on_coll obind spec_run st_iter find_index].
    exists t1, None, ids', idA. split; [reflexivity|]. split; [eapply change_weaken; [exact CH|intros j J; apply in_or_app; auto]|].
    split; [eapply opened_chain; exact O'|]. split; [ids|].
    split; [eapply (aopen_chain look), aopen_frame; [exact AO|same CH]|]. split; [apply newer_refl|ids].
  - cbn [arr_items map] in O. destruct (adv_item _ _ _ _ _ _ O) as [t1 [c [ch [idc [-> [CH [AT [F [OR [NW O1]]]]]]]]]].
    change (map (fun x : jval => (None, x)) l) with (arr_items l) in *.
    assert (AO1 : aopen look t1 ahead s idA) by (eapply aopen_frame; [exact AO|same CH]).
    assert (LE1 := cg_len _ _ _ CH).
    assert (BO : forall j, In j (c :: idc) -> j < length t1) by (intros j J; exact (opened_lt _ _ _ _ _ O1 J)).
    cbn [on_coll obind spec_run st_coll st_iter]. rewrite (atc_current _ _ _ _ _ _ AT). cbn [find_index snd need obind].
    assert (DI := down_item _ _ _ _ _ _ _ _ AT F OR).
    destruct (d_yes (selects_from_index (PIndex i) index (snd s))).
    + cbn [spec_run]. exists t1, (Some ch), (c :: idc), idA. split; [reflexivity|]. split; [eapply change_weaken; [exact CH|intros j J; apply in_or_app; auto]|].
      split; [exact DI|]. split; [exact NW|]. split; [eapply aopen_chain; exact AO1|]. split; [apply newer_refl|].
      clear DI O1. remember (c :: idc) as ido eqn:Eo. clear Eo. ids.
    + clear DI AT F OR. remember (c :: idc) as ido eqn:Eo. clear Eo c idc.
      destruct (step_ahead_ok _ look t1 it ahead s idA (fun neg' => select_index n i v ahead (i64 (index + 1)) neg') AO1) as [t2 [idA2 [-> [C2 [N2 AO2]]]]].
      assert (LE2 := cg_len _ _ _ C2). assert (BA2 := aopen_lt _ _ _ _ _ AO2).
      cbn [length] in LN.
      assert (SPo : sep ido idA) by ids.
      destruct (IH l (step_look look s) (i64 (index + 1)) t2 ido idA2 ltac:(lia)) as [t3 [r [ids' [idA' [RUN [C3 [D3 [N3 [A3 [M3 S3]]]]]]]]]];
        [eapply opened_frame; [exact O1|same C2]|exact AO2|ids|].
      exists t3, r, ids', idA'. split; [exact RUN|].
      assert (CW : change t t1 (ids ++ idA)) by (eapply change_weaken; [exact CH|intros j J; apply in_or_app; auto]).
      assert (CW2 : change t t2 (ids ++ idA)) by (eapply change_then; [exact CW|exact C2|intros j J; left; apply in_or_app; auto]).
      split; [eapply change_then; [exact CW2|exact C3|ids]|].
      split; [exact D3|]. split; [ids|]. split; [exact A3|]. split; [ids|exact S3].
Qed.

Lemma select_array_ok : forall i it v n l e t ids, length l < n -> fresh t v (JArr l e) ids ->
  exists t' r ids', spec_run (select_from_array n i v) (mkSt t it) = Some (mkSt t' it, r) /\ change t t' ids /\
    down t' v r (find_index i (lookahead (PIndex i)) (start_look (lookahead (PIndex i)) (length l) min64) 0 l) ids' /\ newer t None ids ids'.
Proof.
  intros i it v n l e t ids LN F. unfold select_from_array, start_look. set (look := lookahead (PIndex i)).
  assert (BI : forall j, In j ids -> j < length t) by (intros j J; exact (fresh_lt _ _ _ _ _ F J)).
  destruct (0 <? look)%Z eqn:EL.
  - cbn [spec_run st_coll st_iter]. destruct (clone_fresh t v _ ids F) as [CL [FC RC]]. rewrite CL. cbn [on_coll obind st_iter].
    set (t1 := t ++ hof (JArr l e) true) in *. set (a := vof (length t) (JArr l e)) in *. set (id1 := iof (length t) (JArr l e)) in *.
    assert (C1 : change t t1 []) by apply change_app. assert (LE1 := cg_len _ _ _ C1).
    assert (A1 : above (length t) id1) by (intros j J; apply iof_in in J; lia).
    assert (B1 : forall j, In j id1 -> j < length t1) by (intros j J; exact (fresh_lt _ _ _ _ _ FC J)).
    pose proof (opened_fresh _ _ _ _ FC eq_refl) as OA. assert (LI : length (items (JArr l e)) = length l) by (cbn [items]; apply map_length).
    destruct (look_ahead_ok look n t1 it _ _ _ 0%Z _ (fun neg => ilet r <- select_index n i v (Some a) 0 neg ; IDetach a (IRet r)) ltac:(rewrite LI; exact LN) OA)
      as [t2 [idA [rest [-> [C2 [N2 [O2 L2]]]]]]]. rewrite LI in *. assert (LE2 := cg_len _ _ _ C2).
    assert (AO : aopen look t2 (Some a) (SelectModel.look look (length l) 0) idA) by (split; [exists rest; auto|exact EL]).
    assert (F2 : fresh t2 v (JArr l e) ids) by (eapply fresh_frame; [eapply fresh_frame; [exact F|same C1]|same C2]).
    pose proof (opened_fresh _ _ _ _ F2 eq_refl) as O2'. change (items (JArr l e)) with (arr_items l) in O2'.
    assert (BA := aopen_lt _ _ _ _ _ AO).
    rewrite spec_bind.
    destruct (select_index_ok look i it v (Some a) n l _ 0%Z t2 ids idA LN O2' AO ltac:(ids)) as [t3 [r [ids' [idA' [-> [C3 [D3 [N3 [A3 [M3 S3]]]]]]]]]].
    cbn [obind]. cbn [achain] in A3.
    assert (LE3 := cg_len _ _ _ C3).
    assert (RT : rooted t3 a) by (eapply rooted_change; [exact C3|]; eapply rooted_change; [exact C2|]; eapply rooted_fresh; eassumption).
    destruct (detach_rooted t3 a idA' A3 RT) as [t4 [DT C4]]. cbn [spec_run st_coll st_iter]. rewrite DT. cbn [on_coll_ obind st_iter].
    assert (B3 := down_lt _ _ _ _ _ D3). assert (B4 : forall j, In j idA' -> j < length t3) by (intros j J; exact (chain_lt _ _ _ _ A3 J)).
    exists t4, r, ids'. split; [reflexivity|].
    assert (CW : change t t3 ids).
    { eapply change_then; [|exact C3|ids]. eapply change_then; [|exact C2|ids]. eapply change_weaken; [exact C1|intros j []]. }
    split; [eapply change_then; [exact CW|exact C4|ids]|].
    split; [eapply down_frame; [exact D3|same C4]|ids].
  - pose proof (opened_fresh _ _ _ _ F eq_refl) as O. change (items (JArr l e)) with (arr_items l) in O.
    destruct (select_index_ok look i it v None n l (0, min64) 0%Z t ids [] LN O (conj eq_refl EL) ltac:(intros j _ [])) as [t3 [r [ids' [idA' [RUN [C3 [D3 [N3 [A3 [M3 S3]]]]]]]]]].
    rewrite app_nil_r in C3. exists t3, r, ids'. auto.
Qed.

(** The answer of a query. *)
Definition ans (t : list shandle) (v : value) (r : option value) (o : option jval) (ids : list nat) : Prop :=
  match r, o with
  | None, None => chain t v ids
  | Some w, Some y => leads t v w y ids
  | _, _ => False
  end.
Lemma ans_chain : forall t v r o ids, ans t v r o ids -> chain t v ids.
Proof. intros t v [w|] [y|] ids H; cbn [ans] in H; try contradiction; [eapply leads_chain; exact H|exact H]. Qed.
Lemma ans_frame : forall t t' v r o ids, ans t v r o ids -> agree t t' ids -> ans t' v r o ids.
Proof. intros t t' v [w|] [y|] ids H A; cbn [ans] in *; try contradiction; [eapply leads_frame; eassumption|eapply chain_frame; eassumption]. Qed.
Lemma chain_step : forall t v c k ch rest idc t2 ids2 F, atc t v c k ch rest -> chain t ch idc -> (forall j, In j idc -> c < j /\ nonroot t j) ->
  change t t2 F -> ~ In c F -> chain t2 ch ids2 -> newer t None idc ids2 -> chain t2 v (c :: ids2).
Proof.
  intros t v c k ch rest idc t2 ids2 F AT C0 O CH NC CC NN.
  eapply opened_chain, atc_opened; [eapply atc_frame; [exact AT|apply (cg_same _ _ _ CH); [eapply atc_lt; exact AT|exact NC]]|exact CC|].
  intros j J. split; [|eapply (chain_head_nonroot t t2); [exact C0|intros i Q; apply O; exact Q|exact CH|exact CC|exact J]].
  destruct (NN j J) as [I|[I _]]; [now apply O|]. pose proof (atc_lt _ _ _ _ _ _ AT). lia.
Qed.

(** The keys of the objects that the query meets can be read. *)
Definition sing_step (s : ssel) (x : jval) : option jval :=
  match x, s with
  | JObj m _, SSName name => find_key name m
  | JArr a _, SSIndex i => let look := lookahead (PIndex i) in find_index i look (start_look look (length a) min64) 0 a
  | _, _ => None
  end.
Fixpoint sing_ok (l : list ssel) (x : jval) : Prop :=
  match l with
  | [] => True
  | s :: r => keys_ok x /\ match sing_step s x with Some y => sing_ok r y | None => True end
  end.
Lemma singular_eq : forall s r x, singular (s :: r) x = match sing_step s x with Some y => singular r y | None => None end.
Proof. intros s r [sc|l e|l e]; destruct s; reflexivity. Qed.

Lemma sing_step_ok : forall s x n, breadth x < n -> keys_ok x -> forall t it v ids, fresh t v x ids ->
  exists t' r ids', spec_run (match v, s with
                 | VObj _, SSName name => select_from_object n name v
                 | VArr _, SSIndex i => select_from_array n i v
                 | _, _ => IRet None
                 end) (mkSt t it) = Some (mkSt t' it, r) /\ change t t' ids /\ down t' v r (sing_step s x) ids' /\ newer t None ids ids'.
Proof.
  intros s x n B K t it v ids F.
  assert (NO : exists t' r ids', spec_run (IRet None : iprog (option value)) (mkSt t it) = Some (mkSt t' it, r) /\ change t t' ids /\ down t' v r None ids' /\ newer t None ids ids').
  { exists t, None, ids. split; [reflexivity|]. split; [apply change_refl|]. split; [eapply fresh_chain; exact F|apply newer_refl]. }
  destruct x as [sc|l e|l e].
  - destruct F as [-> ->]. exact NO.
  - destruct (fresh_array _ _ _ _ _ F) as [c ->]. destruct s as [name|i]; [exact NO|]. eapply select_array_ok; [exact B|exact F].
  - destruct (fresh_object _ _ _ _ _ F) as [c ->]. destruct s as [name|i]; [|exact NO]. eapply select_object_ok; [exact B|exact K|].
    pose proof (opened_fresh _ _ _ _ F eq_refl) as O. exact O.
Qed.

Lemma singular_ok : forall l x, sing_ok l x -> exists N, forall n, N <= n -> forall t it v ids, fresh t v x ids ->
  exists t' r ids', spec_run (eval_singular n l v) (mkSt t it) = Some (mkSt t' it, r) /\ change t t' ids /\ ans t' v r (singular l x) ids' /\ newer t None ids ids'.
Proof.
  induction l as [|s l IH]; intros x OK.
  - exists 0. intros n _ t it v ids F. exists t, (Some v), ids. split; [reflexivity|]. split; [apply change_refl|]. split; [constructor; exact F|apply newer_refl].
  - destruct OK as [K OK]. rewrite singular_eq.
    assert (exists N, forall y, sing_step s x = Some y -> forall n, N <= n -> forall t it v ids, fresh t v y ids ->
      exists t' r ids', spec_run (eval_singular n l v) (mkSt t it) = Some (mkSt t' it, r) /\ change t t' ids /\ ans t' v r (singular l y) ids' /\ newer t None ids ids') as [N HN].
    { destruct (sing_step s x) as [y|]; [|exists 0; discriminate]. destruct (IH y OK) as [N HN]. exists N. intros y' [= <-]. exact HN. }
    exists (Nat.max N (S (breadth x))). intros n LN t it v ids F. cbn [eval_singular]. rewrite spec_bind.
    destruct (sing_step_ok s x n ltac:(lia) K t it v ids F) as [t1 [r [ids1 [-> [C1 [D1 N1]]]]]]. cbn [obind].
    destruct r as [w|], (sing_step s x) as [y|] eqn:ES; cbn [down] in D1; try contradiction.
    + destruct D1 as [c [k [rest [idw [-> [AT [FW OR]]]]]]].
      destruct (HN y eq_refl n ltac:(lia) t1 it w idw FW) as [t2 [r [ids2 [RUN [C2 [A2 N2]]]]]].
      exists t2, r, (c :: ids2). split; [exact RUN|].
      assert (NC : ~ In c idw) by (intro J; destruct (OR c J); lia).
      assert (LC : c < length t1) by (eapply atc_lt; exact AT).
      assert (NX : newer t None ids (c :: ids2)).
      { eapply newer_then; [exact C1|exact N1|]. intros j [<-|J]; [left; now left|]. destruct (N2 j J) as [I|I]; [left; now right|now right]. }
      split; [eapply change_then; [exact C1|exact C2|]|].
      * intros j J. destruct (N1 j (or_intror J)) as [I|[I _]]; auto.
      * split; [|exact NX]. destruct r as [w2|], (singular l y) as [y2|]; cbn [ans] in *; try contradiction.
        -- eapply leads_step; [exact AT|eapply fresh_chain; exact FW|exact OR|exact C2|exact NC|exact A2|exact N2].
        -- eapply chain_step; [exact AT|eapply fresh_chain; exact FW|exact OR|exact C2|exact NC|exact A2|exact N2].
    + exists t1, None, ids1. split; [reflexivity|]. auto.
Qed.

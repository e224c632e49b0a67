(** The functions of filters, and queries in filters. *)
From Coq Require Import List ZArith NArith Arith Bool Lia.
From Verif Require Import Base Tokens JsonSpec EncSpec ScalarModel CursorModel IterModel IterSpec IterCore IterThr IterRel IterSound
  ScriptSpec ScriptProofs IterLib EqualSpec EqualModel EqualProofs UseLib SelectModel PathModel PathAbs PathFacts PathSim PathDisp PathLoop PathBody PathSing PathComp.
Open Scope iprog_scope.

Lemma count_items_ok : forall n v rest t it ids c, length rest < n -> opened t v rest ids ->
  exists t' ids', spec_run (count_items n v c) (mkSt t it) = Some (mkSt t' it, (c + N.of_nat (length rest))%N) /\ change t t' ids /\ newer t None ids ids' /\ chain t' v ids'.
Proof.
  induction n as [|n IH]; intros v rest t it ids c L O; [lia|]. cbn [count_items spec_run st_coll]. destruct rest as [|[k y] rest].
  - destruct (adv_opened _ _ _ _ O) as [t1 [b [-> [CH [-> [ids' [O' I]]]]]]]. cbn [on_coll obind spec_run st_iter length].
    exists t1, ids'. rewrite N.add_0_r. split; [reflexivity|]. split; [exact CH|]. split; [intros j J; left; auto|eapply opened_chain; exact O'].
  - destruct (adv_item _ _ _ _ _ _ O) as [t1 [c0 [ch [idc [-> [CH [AT [F [OR [NW O1]]]]]]]]]]. cbn [on_coll obind st_iter length] in *.
    destruct (IH v rest t1 it _ (c + 1)%N ltac:(lia) O1) as [t2 [ids' [RUN [C2 [N2 CC]]]]].
    exists t2, ids'. split; [rewrite RUN; do 2 f_equal; lia|]. split; [eapply change_then; [exact CH|exact C2|intros j J; destruct (NW j J) as [|[]]; auto]|].
    split; [eapply newer_then; eassumption|exact CC].
Qed.

Definition sval_of (o : option jval) : option value := match o with Some (JScalar s) => Some (VScalar s) | _ => None end.
Definition flat (o : option jval) : Prop := match o with Some (JScalar _) => True | None => True | _ => False end.
Definition text_fine (o : option jval) : Prop :=
  match o with Some (JScalar s) => sc_type s = TStr -> exists b, to_string s = Ok b | _ => True end.
Definition obreadth (o : option jval) : nat := match o with Some x => breadth x | None => 0 end.

Section Context.
Variable find : bytes -> bytes -> option (nat * nat).
Variable ctx : context.
Variable sing : list (option jval).
Variable inner : list (list jval).
Notation ctx_rel := (ctx_rel ctx sing inner).
Notation good_step := (good_step ctx sing inner).
Notation peek := (peek ctx sing inner).
Notation answers := (answers ctx sing inner).

Ltac lts := repeat match goal with
  | H : PathSim.ctx_rel _ _ _ _ _ _ |- _ => add (ctx_lt _ _ _ _ _ _ H)
  | H : kept _ _ _ _ _ |- _ => add (kept_lt _ _ _ _ _ H)
  | H : ochain _ _ _ |- _ => add (ochain_lt _ _ _ H)
  end.
Ltac ids ::= lts; gather; unfold agree in *;
  lazymatch goal with
  | |- sep _ _ => intros ?j ?J ?K; sat; lia
  | |- newer _ _ _ _ => intros ?j ?J; sat; first [left; inapp|right; split; [lia|reflexivity]]
  | |- incl _ _ => intros ?j ?J; sat; inapp
  | |- above _ _ => intros ?j ?J; sat; lia
  | |- _ => intros; sat; first [lia|inapp|left; inapp|right; lia]
  end.

(** An argument of a function: a clone of the value is made for it. *)
Lemma arg_ok : forall A own p x o, answers own p x o -> forall t it v ids idsC (k : value -> option value -> iprog A), fresh t v x ids -> ctx_rel t it idsC ->
  exists t' it' v1 r id1, spec_run (IClone v (fun x => ilet o <- p x ; k x o)) (mkSt t it) = spec_run (k v1 r) (mkSt t' it') /\
    change t t' [] /\ iext it it' /\ rooted t' v1 /\ above (length t) id1 /\ (ans t' v1 r o id1 \/ own = false /\ chain t' v1 id1 /\ outer t' r o idsC).
Proof.
  intros A own p x o AN t it v ids idsC k F CR.
  cbn [spec_run st_coll st_iter]. destruct (clone_fresh _ _ _ _ F) as [CL [FC RC]]. rewrite CL. cbn [on_coll obind st_iter].
  set (t1 := t ++ hof x true) in *. set (v1 := vof (length t) x) in *. set (id1 := iof (length t) x) in *.
  assert (C1 : change t t1 []) by apply change_app. assert (LE1 := cg_len _ _ _ C1).
  assert (A1 : above (length t) id1) by (intros j J; apply iof_in in J; lia).
  assert (R1 : rooted t1 v1) by (eapply rooted_fresh; eassumption). clearbody id1 v1 t1.
  assert (CR1 : ctx_rel t1 it idsC) by (eapply ctx_frame; [exact CR|same C1|apply iext_refl|lia]).
  rewrite spec_bind. destruct (AN t1 it v1 id1 idsC FC CR1 ltac:(ids)) as [t2 [it2 [r [id2 [-> [C2 [N2 [IE AR]]]]]]]]. cbn [obind].
  exists t2, it2, v1, r, id2. split; [reflexivity|]. split; [eapply change_then; [exact C1|exact C2|ids]|]. split; [exact IE|].
  split; [eapply rooted_change; eassumption|]. split; [ids|exact AR].
Qed.

Lemma arg_scalar : forall own t v r o ids idsC, (ans t v r o ids \/ own = false /\ chain t v ids /\ outer t r o idsC) ->
  chain t v ids /\ sval_of o = match r with Some (VScalar s) => Some (VScalar s) | _ => None end.
Proof.
  intros own t v r o ids idsC H.
  assert (X : chain t v ids /\ match r, o with None, None => True | Some w, Some y => exists idw, fresh t w y idw | _, _ => False end).
  { destruct H as [A|[_ [C A]]].
    - split; [eapply ans_chain; exact A|]. destruct r as [w|], o as [y|]; cbn [ans] in A; auto. destruct (leads_fresh _ _ _ _ _ A) as [idw [F _]]. eauto.
    - split; [exact C|]. destruct r as [w|], o as [y|]; cbn [outer] in A; auto. destruct A as [idw [F _]]. eauto. }
  destruct X as [C X]. split; [exact C|]. destruct r as [w|], o as [y|]; try contradiction; [|reflexivity].
  destruct X as [idw F]. assert (SH := shape_fresh _ _ _ _ F). destruct y as [s|l e|l e], w; try discriminate; try reflexivity.
  destruct F as [F _]. injection F as ->. reflexivity.
Qed.
Lemma as_arg_of : forall o, as_arg o = RVal (sval_of o).
Proof. intros [[s|l e|l e]|]; reflexivity. Qed.

(** length *)
Lemma run_length_ok : forall n own t it v r o ids idsC, (ans t v r o ids \/ own = false /\ chain t v ids /\ outer t r o idsC) ->
  (own = true \/ flat o) -> text_fine o -> obreadth o < n ->
  exists t' ids', spec_run (run_length n r) (mkSt t it) = Some (mkSt t' it, sval_of (length_of o)) /\ change t t' ids /\ newer t None ids ids' /\ chain t' v ids'.
Proof.
  intros n own t it v r o ids idsC H OW TX BR. destruct (arg_scalar _ _ _ _ _ _ _ H) as [CH SV].
  assert (STAY : exists t' ids', Some (mkSt t it, sval_of (length_of o)) = Some (mkSt t' it, sval_of (length_of o)) /\ change t t' ids /\ newer t None ids ids' /\ chain t' v ids').
  { exists t, ids. split; [reflexivity|]. split; [apply change_refl|]. split; [apply newer_refl|exact CH]. }
  destruct o as [[s|l e|l e]|].
  - assert (r = Some (VScalar s)) as -> by (destruct r as [[s'|c|c]|]; cbn in SV; congruence). cbn [run_length length_of] in *.
    destruct (sc_type s) eqn:ET; try exact STAY. destruct (TX ET) as [b E]. rewrite E in *. exact STAY.
  - destruct H as [A|[-> [_ A]]]; [|destruct OW as [|[]]; discriminate]. destruct r as [w|]; [|destruct A]. cbn [ans] in A.
    destruct (leads_fresh _ _ _ _ _ A) as [idw [F I]]. destruct (fresh_array _ _ _ _ _ F) as [c ->]. cbn [run_length length_of sval_of count_of obreadth breadth] in *.
    rewrite spec_bind. pose proof (opened_fresh _ _ _ _ F eq_refl) as O.
    destruct (count_items_ok n (VArr c) _ t it _ 0%N ltac:(cbn [items]; rewrite map_length; exact BR) O) as [t' [idw' [-> [C [N1 C2]]]]].
    cbn [items]. rewrite map_length. cbn [obind spec_run].
    destruct (leads_use _ _ _ _ _ A idw F t' idw idw' C ltac:(auto) C2 N1) as [ids2 [Q1 Q2]].
    exists t', ids2. split; [reflexivity|]. split; [eapply change_weaken; [exact C|exact I]|]. auto.
  - destruct H as [A|[-> [_ A]]]; [|destruct OW as [|[]]; discriminate]. destruct r as [w|]; [|destruct A]. cbn [ans] in A.
    destruct (leads_fresh _ _ _ _ _ A) as [idw [F I]]. destruct (fresh_object _ _ _ _ _ F) as [c ->]. cbn [run_length length_of sval_of count_of obreadth breadth] in *.
    rewrite spec_bind. pose proof (opened_fresh _ _ _ _ F eq_refl) as O.
    destruct (count_items_ok n (VObj c) _ t it _ 0%N ltac:(cbn [items]; rewrite map_length; exact BR) O) as [t' [idw' [-> [C [N1 C2]]]]].
    cbn [obind spec_run].
    destruct (leads_use _ _ _ _ _ A idw F t' idw idw' C ltac:(auto) C2 N1) as [ids2 [Q1 Q2]].
    exists t', ids2. split; [reflexivity|]. split; [eapply change_weaken; [exact C|exact I]|]. auto.
  - destruct r as [w|]; [destruct H as [A|[_ [_ A]]]; destruct A|]. exact STAY.
Qed.

Section Fun.
Variable tv : segment -> value -> proc value -> iprog (proc value * bool).
Variable ec : operand -> value -> iprog (option value).
Variable ev : cond -> value -> iprog bool.
Variable n : nat.
Notation run_fun := (run_fun find ctx tv ec ev n).

Lemma length_ok : forall own c x o, answers own (ec c) x o -> (own = true \/ flat o) -> text_fine o -> obreadth o < n ->
  forall t it v ids idsC, fresh t v x ids -> ctx_rel t it idsC ->
  exists t' it', spec_run (run_fun FLength [AVal c] v) (mkSt t it) = Some (mkSt t' it', FVal (sval_of (length_of o))) /\ change t t' [] /\ iext it it'.
Proof.
  intros own c x o AN OW TX BR t it v ids idsC F CR. unfold PathModel.run_fun. cbn [input_types run_args rev app run_function].
  match goal with |- context [IClone v (fun x0 => ilet o0 <- ec c x0 ; @?k x0 o0)] =>
    destruct (arg_ok _ own (ec c) x o AN t it v ids idsC (fun a b => k a b) F CR) as [t1 [it1 [v1 [r [id1 [R [C1 [IE [RT [A1 AR]]]]]]]]]] end.
  cbv beta in R. rewrite R. clear R. rewrite spec_bind, spec_bind.
  destruct (run_length_ok n own t1 it1 v1 r o id1 idsC AR OW TX BR) as [t2 [id2 [-> [C2 [N2 CH2]]]]]. cbn [obind spec_run].
  destruct (detach_rooted t2 v1 id2 CH2 (rooted_change _ _ _ _ C2 RT)) as [t3 [D C3]]. cbn [spec_run st_coll st_iter]. rewrite D. cbn [on_coll_ obind spec_run].
  exists t3, it1. split; [reflexivity|]. split; [|exact IE].
  eapply change_then; [eapply change_then; [exact C1|exact C2|ids]|exact C3|ids].
Qed.

Lemma two_args_ok : forall (g : fname) (res : option (nat * Z) -> bool), input_types g = [TyValue; TyValue] ->
  (forall a b, run_function find ctx tv n g [a; b] = ilet l <- of_res (match_index find a b) ; IRet (FBool (res l))) ->
  forall oa ob a b x va vb, answers oa (ec a) x va -> answers ob (ec b) x vb ->
  forall l, match_index find (as_arg va) (as_arg vb) = Ok l ->
  forall t it v ids idsC, fresh t v x ids -> ctx_rel t it idsC ->
  exists t' it', spec_run (run_fun g [AVal a; AVal b] v) (mkSt t it) = Some (mkSt t' it', FBool (res l)) /\ change t t' [] /\ iext it it'.
Proof.
  intros g res IT RF oa ob a b x va vb AA AB l ML t it v ids idsC F CR. unfold PathModel.run_fun. rewrite IT. cbn [run_args rev app].
  match goal with |- context [IClone v (fun x0 => ilet o0 <- ec a x0 ; @?k x0 o0)] =>
    destruct (arg_ok _ oa (ec a) x va AA t it v ids idsC (fun a b => k a b) F CR) as [t1 [it1 [v1 [r1 [id1 [R [C1 [IE1 [RT1 [A1 AR1]]]]]]]]]] end.
  cbv beta in R. rewrite R. clear R. rewrite spec_bind.
  destruct (arg_scalar _ _ _ _ _ _ _ AR1) as [CH1 SV1]. assert (LE1 := cg_len _ _ _ C1).
  assert (F1 : fresh t1 v x ids) by (eapply fresh_frame; [exact F|same C1]).
  assert (CR1 : ctx_rel t1 it1 idsC) by (eapply ctx_frame; [exact CR|same C1|exact IE1|lia]).
  match goal with |- context [IClone v (fun x0 => ilet o0 <- ec b x0 ; @?k x0 o0)] =>
    destruct (arg_ok _ ob (ec b) x vb AB t1 it1 v ids idsC (fun a b => k a b) F1 CR1) as [t2 [it2 [v2 [r2 [id2 [R [C2 [IE2 [RT2 [A2 AR2]]]]]]]]]] end.
  cbv beta in R. rewrite R. clear R. rewrite spec_bind, RF.
  destruct (arg_scalar _ _ _ _ _ _ _ AR2) as [CH2 SV2]. assert (LE2 := cg_len _ _ _ C2).
  rewrite !as_arg_of, SV1, SV2 in ML.
  assert (ML' : match_index find (RVal r1) (RVal r2) = Ok l).
  { rewrite <- ML. destruct r1 as [[s1|c1|c1]|], r2 as [[s2|c2|c2]|]; reflexivity. }
  rewrite ML'. cbn [of_res ibind spec_run obind].
  destruct (detach_rooted t2 v2 id2 CH2 RT2) as [t3 [D3 C3]]. cbn [spec_run st_coll st_iter]. rewrite D3. cbn [on_coll_ obind spec_run st_coll st_iter].
  assert (LE3 := cg_len _ _ _ C3).
  assert (CH1' : chain t3 v1 id1).
  { eapply chain_frame; [eapply chain_frame; [exact CH1|same C2]|]. same C3. }
  destruct (detach_rooted t3 v1 id1 CH1' (rooted_change _ _ _ _ C3 (rooted_change _ _ _ _ C2 RT1))) as [t4 [D4 C4]]. rewrite D4. cbn [on_coll_ obind spec_run].
  exists t4, it2. split; [reflexivity|]. split; [|eapply iext_trans; eassumption].
  assert (X2 : change t t2 []) by (eapply change_then; [exact C1|exact C2|ids]).
  assert (X3 : change t t3 []) by (eapply change_then; [exact X2|exact C3|ids]).
  eapply change_then; [exact X3|exact C4|ids].
Qed.

(** count, value *)
Lemma nodes_ok : forall q x aq P Q f, good_step false (fun v P => map_value ctx tv n q v P) x aq -> input_types f = [TyNodes] ->
  prel [] [false] P Q [] -> forall (res : proc value -> iprog fresult) s,
  (forall v, run_function find ctx tv n f [RNodes q v] = ilet (P', _) <- map_value ctx tv n q v P ; res P') ->
  (forall t P' ids, prel t [false] P' (fst (aq Q)) ids -> res P' = IRet (FVal s)) ->
  forall t it v ids idsC, fresh t v x ids -> ctx_rel t it idsC -> sep idsC ids -> prel t [false] P Q [] ->
  exists t' it' ids', spec_run (run_fun f [ANodes q] v) (mkSt t it) = Some (mkSt t' it', FVal s) /\ change t t' ids /\ newer t None ids ids' /\ chain t' v ids' /\ iext it it'.
Proof.
  intros q x aq P Q f GS IT _ res s RF RES t it v ids idsC F CR SC PR. unfold PathModel.run_fun. rewrite IT. cbn [run_args rev app]. rewrite RF, spec_bind.
  destruct (GS [] t it v ids P Q [] idsC F PR ltac:(intros j _ []) CR SC ltac:(intros j _ [])) as [t' [it' [P' [ids' [idsP' [-> [C [N [CH [PR' [NP [SP IE]]]]]]]]]]]].
  cbn [obind]. rewrite (RES _ _ _ PR'). cbn [spec_run]. exists t', it', ids'. rewrite app_nil_r in C. auto 8.
Qed.
End Fun.

(** The results of an inner query. *)
Definition at_iter (t : list shandle) (it0 it : list siter) (j : nat) (st : sistate) (idc : list nat) : Prop :=
  iext it0 it /\ length it0 <= j /\ nth_error it j = Some (mkSi true st) /\
  match st with
  | SIAt _ (Some v) => chain t v idc /\ (forall i, In i idc -> nonroot t i)
  | SIAt _ None | SIEnd => idc = []
  | SIDead => False
  end.
Lemma iext_upd : forall it0 it j a, iext it0 it -> length it0 <= j -> iext it0 (upd it j a).
Proof.
  intros it0 it j a [l ->] L. exists (upd l (j - length it0) a). revert j L. induction it0 as [|b it0 IH]; intros j L; cbn [app length] in *; [now rewrite Nat.sub_0_r|].
  destruct j as [|j]; [lia|]. cbn [upd Nat.sub]. f_equal. apply IH. lia.
Qed.
Lemma iext_nth : forall (it it' : list siter) j x, iext it it' -> nth_error it j = Some x -> nth_error it' j = Some x.
Proof. intros it it' j x [l ->] H. rewrite nth_error_app_l; [exact H|]. eapply nth_error_lt; exact H. Qed.

Lemma each_inner_ok : forall it0 j L n vs t it cur idc P Q idsP, length vs < n -> at_iter t it0 it j (SIAt vs cur) idc -> prel t (false :: L) P Q idsP -> sep idc idsP ->
  exists t' it' P' idsP' st idc', spec_run (each_inner n j P) (mkSt t it) = Some (mkSt t' it', (P', snd (feed Q vs))) /\
    change t t' (idc ++ idsP) /\ prel t' (false :: L) P' (fst (feed Q vs)) idsP' /\ newer t None idsP idsP' /\
    at_iter t' it0 it' j st idc' /\ newer t None idc idc' /\ sep idc' idsP'.
Proof.
  intros it0 j L. induction n as [|n IH]; intros vs t it cur idc P Q idsP LN [IE [LJ [NJ ST]]] PR SP; [lia|].
  assert (K : killed t (kill_opt 0 t cur) idc).
  { destruct cur as [v|]; [apply chain_kill_opt; [exact (proj1 ST)|]; intros i J; split; [lia|now apply ST]|].
    subst idc. split; [reflexivity|]. intro i. split; [intros []|auto]. }
  cbn [each_inner spec_run]. unfold si_advance. cbn [st_iter st_coll]. rewrite NJ. cbn [si_state si_root].
  set (t1 := kill_opt 0 t cur) in *. assert (C1 := change_killed _ _ _ K). assert (LE1 := cg_len _ _ _ C1). clear K. clearbody t1.
  assert (BC : forall i, In i idc -> i < length t) by (destruct cur; [intros i J; exact (chain_lt _ _ _ _ (proj1 ST) J)|subst; intros i []]).
  assert (PR1 : prel t1 (false :: L) P Q idsP) by (eapply prel_frame; [exact PR|same C1]).
  destruct vs as [|x vs].
  - cbn [obind spec_run feed fst snd]. eexists t1, _, P, idsP, SIEnd, []. split; [reflexivity|].
    split; [eapply change_weaken; [exact C1|intros i J; apply in_or_app; auto]|]. split; [exact PR1|]. split; [apply newer_refl|].
    split; [|split; [intros i []|intros i []]]. split; [apply iext_upd; assumption|]. split; [exact LJ|].
    split; [apply nth_error_upd_same; eapply nth_error_lt; exact NJ|reflexivity].
  - rewrite alloc_of. cbn [obind spec_run]. unfold si_current. cbn [st_iter]. rewrite nth_error_upd_same by (eapply nth_error_lt; exact NJ).
    cbn [si_state need ibind]. pose proof (alloc_fresh t1 false x) as F.
    assert (NRX : forall i, In i (iof (length t1) x) -> nonroot (t1 ++ hof x false) i).
    { intros i J. destruct x as [s|l e|l e]; cbn [iof] in J; [destruct J| |]; destruct J as [<-|[]]; eexists; (split; [apply nth_error_app_last|reflexivity]). }
    set (t2 := t1 ++ hof x false) in *. set (v := vof (length t1) x) in *. set (idv := iof (length t1) x) in *.
    assert (C2 : change t1 t2 []) by apply change_app. assert (LE2 := cg_len _ _ _ C2).
    assert (AV : above (length t1) idv) by (intros i J; apply iof_in in J; lia). clearbody t2 v idv.
    assert (PR2 : prel t2 (false :: L) P Q idsP) by (eapply prel_frame; [exact PR1|same C2]).
    assert (BV : forall i, In i idv -> i < length t2) by (intros i J; exact (fresh_lt _ _ _ _ _ F J)).
    assert (BP := prel_lt _ _ _ _ _ PR).
    cbn [feed]. rewrite spec_bind.
    match goal with |- context [mkSt t2 ?it2] => set (it2' := it2) end.
    destruct (process_ok P false x ltac:(discriminate) L t2 it2' v idv Q idsP F PR2 ltac:(ids)) as [t3 [it3 [P3 [idv3 [idsP3 [-> [C3 [N3 [CH3 [PR3 [NP3 [SP3 IE3]]]]]]]]]]]].
    cbn [obind]. destruct (aprocess Q x) as [Q3 b]. cbn [fst snd] in *. assert (LE3 := cg_len _ _ _ C3).
    assert (AT3 : at_iter t3 it0 it3 j (SIAt vs (Some v)) idv3).
    { split; [eapply iext_trans; [|exact IE3]; apply iext_upd; assumption|]. split; [exact LJ|].
      split; [eapply iext_nth; [exact IE3|]; apply nth_error_upd_same; eapply nth_error_lt; exact NJ|].
      split; [exact CH3|]. intros i J. eapply (chain_head_nonroot t2 t3); [eapply fresh_chain; exact F|exact NRX|exact C3|exact CH3|exact J]. }
    assert (X1 : change t t1 (idc ++ idsP)) by (eapply change_weaken; [exact C1|intros i J; apply in_or_app; auto]).
    assert (X2 : change t t2 (idc ++ idsP)) by (eapply change_then; [exact X1|exact C2|ids]).
    assert (X3 : change t t3 (idc ++ idsP)) by (eapply change_then; [exact X2|exact C3|ids]).
    assert (BV3 : forall i, In i idv3 -> i < length t3) by (intros i J; exact (chain_lt _ _ _ _ CH3 J)).
    assert (AV3 : above (length t) idv3) by ids. assert (NP : newer t None idsP idsP3) by ids.
    destruct b.
    + cbn [length] in LN. destruct (IH vs t3 it3 (Some v) idv3 P3 Q3 idsP3 ltac:(lia) AT3 PR3 SP3) as [t4 [it4 [P4 [idsP4 [st [idc4 [RUN [C4 [PR4 [N4 [AT4 [NC4 S4]]]]]]]]]]]].
      exists t4, it4, P4, idsP4, st, idc4. split; [exact RUN|]. split; [eapply change_then; [exact X3|exact C4|ids]|]. split; [exact PR4|].
      split; [ids|]. split; [exact AT4|]. split; [ids|exact S4].
    + cbn [spec_run fst snd]. exists t3, it3, P3, idsP3. eexists. exists idv3. split; [reflexivity|]. split; [exact X3|]. split; [exact PR3|].
      split; [exact NP|]. split; [exact AT3|]. split; [ids|exact SP3].
Qed.

(** The queries of conditions and functions. *)
Variable holds : selector -> jval -> bool.
Definition aquery (q : query) (x : jval) (Q : proc jval) : proc jval * bool :=
  match q with
  | QFirst None => aprocess Q x
  | QFirst (Some seg) => atrans holds seg x Q
  | QInner i => match nth_error inner i with Some l => feed Q l | None => (Q, true) end
  end.
Definition inner_size (q : query) : nat :=
  match q with QInner i => match nth_error inner i with Some l => length l | None => 0 end | _ => 0 end.
Lemma map_value_ok : forall tv n q x, inner_size q < n ->
  match q with
  | QFirst None => True
  | QFirst (Some seg) => good_step false (tv seg) x (atrans holds seg x)
  | QInner i => i < length inner
  end -> good_step false (fun v P => map_value ctx tv n q v P) x (aquery q x).
Proof.
  intros tv n [[seg|]|i] x LN H; [exact H| |].
  - intros L t it v ids P Q idsP idsC F PR SP CR S1 S2. exact (process_ok P false x ltac:(discriminate) L t it v ids Q idsP F PR SP).
  - intros L t it v ids P Q idsP idsC F PR SP CR S1 S2. cbn [map_value aquery inner_size] in *.
    destruct CR as [CS [CQ CB]].
    assert (exists i0 vs, nth_error (cx_queries ctx) i = Some i0 /\ nth_error inner i = Some vs /\ nth_error it i0 = Some (mkSi false (SIAt vs None))) as [i0 [vs [E1 [E2 E3]]]].
    { clear LN. revert i H. induction CQ as [|a vs l l' HA CQ IHC]; intros i H; [cbn in H; lia|]. destruct i as [|i]; [exists a, vs; auto|].
      cbn [nth_error length] in *. apply IHC. lia. }
    rewrite E1, E2 in *. cbn [need ibind spec_run]. unfold si_clone. cbn [st_iter]. rewrite E3. cbn [si_state obind st_coll].
    rewrite spec_bind. assert (AT : at_iter t it (it ++ [mkSi true (SIAt vs None)]) (length it) (SIAt vs None) []).
    { split; [now exists [mkSi true (SIAt vs None)]|]. split; [auto|]. split; [apply nth_error_app_last|reflexivity]. }
    destruct (each_inner_ok it (length it) L n vs t _ None [] P Q idsP LN AT PR ltac:(intros j [])) as [t1 [it1 [P1 [idsP1 [st [idc1 [-> [C1 [PR1 [N1 [AT1 [NC1 SP1]]]]]]]]]]]].
    cbn [obind spec_run]. destruct AT1 as [IE1 [_ [NJ ST]]]. unfold si_detach. cbn [st_iter st_coll]. rewrite NJ. cbn [si_root si_state].
    cbn [app] in C1. assert (LE1 := cg_len _ _ _ C1). assert (BI : forall j, In j ids -> j < length t) by (intros j J; exact (fresh_lt _ _ _ _ _ F J)).
    assert (KL : exists t2, (match st with SIAt _ cur => Some (mkSt (kill_opt 0 t1 cur) (upd it1 (length it) (mkSi true SIDead)))
               | SIEnd => Some (mkSt t1 (upd it1 (length it) (mkSi true SIDead))) | SIDead => None end) = Some (mkSt t2 (upd it1 (length it) (mkSi true SIDead))) /\ change t1 t2 idc1).
    { destruct st as [rest cur| |]; [|exists t1; split; [reflexivity|apply change_refl]|destruct ST]. eexists. split; [reflexivity|].
      destruct cur as [w|]; [apply change_killed, chain_kill_opt; [exact (proj1 ST)|intros k J; split; [lia|now apply ST]]|apply change_refl]. }
    destruct KL as [t2 [-> C2]]. cbn [spec_run].
    assert (BI1 : forall j, In j idc1 -> j < length t1).
    { destruct st as [rest [w|]| |]; [intros j J; exact (chain_lt _ _ _ _ (proj1 ST) J)| | |destruct ST]; subst; intros j []. }
    exists t2. eexists. exists P1, ids, idsP1. split; [reflexivity|].
    assert (X1 : change t t1 (ids ++ idsP)) by (eapply change_weaken; [exact C1|intros k J; apply in_or_app; auto]).
    split; [eapply change_then; [exact X1|exact C2|ids]|]. split; [apply newer_refl|].
    split; [eapply chain_frame; [eapply chain_frame; [eapply fresh_chain; exact F|same C1]|]; same C2|].
    split; [eapply prel_frame; [exact PR1|same C2]|]. split; [exact N1|]. split; [ids|]. apply iext_upd; [exact IE1|auto].
Qed.

Lemma query_ok : forall tv n q x, good_step false (fun v P => map_value ctx tv n q v P) x (aquery q x) ->
  peek (fun v => IClone v (fun y => ilet (_, r) <- map_value ctx tv n q y PHalt ; IDetach y (IRet (negb r)))) x (negb (snd (aquery q x PHalt))).
Proof.
  intros tv n q x GS t it v ids idsC F CR.
  cbn [spec_run st_coll st_iter]. destruct (clone_fresh _ _ _ _ F) as [CL [FC RC]]. rewrite CL. cbn [on_coll obind st_iter].
  set (t1 := t ++ hof x true) in *. set (v1 := vof (length t) x) in *. set (id1 := iof (length t) x) in *.
  assert (C1 : change t t1 []) by apply change_app. assert (LE1 := cg_len _ _ _ C1).
  assert (A1 : above (length t) id1) by (intros j J; apply iof_in in J; lia).
  assert (R1 : rooted t1 v1) by (eapply rooted_fresh; eassumption). clearbody id1 v1 t1.
  assert (CR1 : ctx_rel t1 it idsC) by (eapply ctx_frame; [exact CR|same C1|apply iext_refl|lia]).
  rewrite spec_bind.
  assert (BC := ctx_lt _ _ _ _ _ _ CR).
  destruct (GS [] t1 it v1 id1 PHalt PHalt [] idsC FC (pr_halt _ _) ltac:(intros j _ []) CR1 ltac:(ids) ltac:(intros j _ []))
    as [t2 [it2 [P2 [id2 [idsP2 [-> [C2 [N2 [CH2 [PR2 [NP2 [SP2 IE2]]]]]]]]]]]]. cbn [obind].
  rewrite app_nil_r in C2.
  destruct (detach_rooted t2 v1 id2 CH2 (rooted_change _ _ _ _ C2 R1)) as [t3 [D C3]]. cbn [spec_run st_coll st_iter]. rewrite D. cbn [on_coll_ obind spec_run].
  exists t3, it2. split; [reflexivity|]. split; [|exact IE2].
  eapply change_then; [eapply change_then; [exact C1|exact C2|ids]|exact C3|ids].
Qed.
End Context.

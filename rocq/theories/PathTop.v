(** A whole query: the inner queries first, then the main one, for each value of
    the input. *)
From Coq Require Import List ZArith NArith Arith Bool Lia.
From Verif Require Import Base Tokens JsonSpec EncSpec ScalarModel CursorModel IterModel IterSpec IterCore IterThr IterRel IterSound
  ScriptSpec ScriptProofs IterLib EqualSpec EqualModel EqualProofs SplitModel P_Scalar P_Equal UseLib SelectModel PathModel PathAbs PathFacts PathPure PathSim PathDisp PathLoop PathBody PathSing PathComp PathFun PathMain.
Open Scope iprog_scope.

(** The parser of the specification reads back the tokens of values. *)
Lemma parse_value_arr : forall l e r n, (forall v, In v l -> forall m r, length (toks v) <= m -> parse_value m (toks v ++ r) = Some (v, r)) ->
  length (flat_map toks l) + length (elision e) + 1 <= n -> parse_items n (flat_map toks l ++ elision e ++ TEndArr :: r) = Some (l, e, r).
Proof.
  induction l as [|v l IH]; intros e r n H L; (destruct n as [|n]; [lia|]).
  - destruct e; reflexivity.
  - cbn [flat_map] in *. rewrite app_length in L. rewrite <- app_assoc.
    assert (P := H v (or_introl eq_refl) n (flat_map toks l ++ elision e ++ TEndArr :: r) ltac:(lia)).
    assert (1 <= length (toks v)) by (destruct v; cbn; lia).
    assert (Q := IH e r n (fun w W => H w (or_intror W)) ltac:(lia)).
    cbn [parse_items]. destruct v as [s|m f|m f]; cbn [toks app] in P |- *; rewrite P, Q; reflexivity.
Qed.
Lemma parse_value_obj : forall l e r n, (forall m, In m l -> forall k r, length (toks (snd m)) <= k -> parse_value k (toks (snd m) ++ r) = Some (snd m, r)) ->
  length (flat_map (fun m => TScalar (fst m) :: toks (snd m)) l) + length (elision e) + 1 <= n ->
  parse_members n (flat_map (fun m => TScalar (fst m) :: toks (snd m)) l ++ elision e ++ TEndObj :: r) = Some (l, e, r).
Proof.
  induction l as [|[k v] l IH]; intros e r n H L; (destruct n as [|n]; [lia|]).
  - destruct e; reflexivity.
  - cbn [flat_map fst snd app length] in *. rewrite app_length in L. rewrite <- app_assoc.
    assert (P := H (k, v) (or_introl eq_refl) n (flat_map (fun m => TScalar (fst m) :: toks (snd m)) l ++ elision e ++ TEndObj :: r) ltac:(cbn [snd]; lia)).
    assert (Q := IH e r n (fun w W => H w (or_intror W)) ltac:(lia)).
    cbn [parse_members snd] in *. rewrite P, Q. reflexivity.
Qed.
Lemma parse_value_ok : forall v n r, length (toks v) <= n -> parse_value n (toks v ++ r) = Some (v, r).
Proof.
  induction v as [s|l e IH|l e IH] using jval_induction; intros n r L; (destruct n as [|n]; [cbn in L; lia|]); [reflexivity| |].
  - rewrite Forall_forall in IH. cbn [toks app parse_value length] in *. rewrite !app_length in L. cbn [length] in L. rewrite <- !app_assoc. cbn [app].
    rewrite (parse_value_arr l e r n); [reflexivity| |lia]. intros v J m r0 Lm. now apply IH.
  - rewrite Forall_forall in IH. cbn [toks app parse_value length] in *. rewrite !app_length in L. cbn [length] in L. rewrite <- !app_assoc. cbn [app].
    rewrite (parse_value_obj l e r n); [reflexivity| |lia]. intros m J k r0 Lm. now apply IH.
Qed.
Lemma parse_stream_ok : forall vs n, length (stream vs) < n -> parse_stream n (stream vs) = Some vs.
Proof.
  induction vs as [|v vs IH]; intros n L; (destruct n as [|n]; [lia|]); [reflexivity|].
  change (stream (v :: vs)) with (toks v ++ stream vs) in *. cbn [parse_stream]. rewrite app_length in L.
  assert (1 <= length (toks v)) by (destruct v; cbn; lia).
  destruct (toks v ++ stream vs) as [|t ts] eqn:E; [apply (f_equal (@length token)) in E; rewrite app_length in E; cbn [length] in E; lia|].
  rewrite <- E. rewrite (parse_value_ok v) by (rewrite app_length; lia). rewrite IH by lia. reflexivity.
Qed.

Definition fits (vs : list jval) : Prop := (Z.of_nat (length (stream vs)) < maxint)%Z.
Lemma si_new_ok : forall t it vs, fits vs -> si_new (mkSt t it) (stream vs) = Some (mkSt t (it ++ [mkSi false (SIAt vs None)]), length it).
Proof.
  intros t it vs F. unfold si_new. rewrite parse_stream_ok by lia. unfold fits in F. now rewrite (proj2 (Z.ltb_lt _ _) F).
Qed.

Definition not_scalar (x : jval) : Prop := match x with JScalar _ => False | _ => True end.

Section Context.
Variable find : bytes -> bytes -> option (nat * nat).

(** The values of the inner queries. *)
Definition singular_values (l : list (list ssel)) (x : jval) : list (option jval) := map (fun q => singular q x) l.
Fixpoint inner_values (sing : list (option jval)) (done : list (list jval)) (l : list query) (x : jval) : list (list jval) :=
  match l with
  | [] => done
  | q :: r => inner_values sing (done ++ [sem_query find sing done q x]) r x
  end.
(** What a query gives. *)
Definition query_values (r : runner) (x : jval) : list jval :=
  let sing := singular_values (rn_singular r) x in
  sem_query find sing (inner_values sing [] (rn_queries r) x) (rn_main r) x.

Definition fine_singular (q : list ssel) (x : jval) : Prop := not_scalar x /\ sing_ok q x /\ exists y, singular q x = Some y /\ fits [y].
Fixpoint fine_queries (sing : list (option jval)) (done : list (list jval)) (l : list query) (x : jval) : Prop :=
  match l with
  | [] => True
  | q :: r => not_scalar x /\ fine_query find sing done q x /\ simple_query q /\ fits (sem_query find sing done q x) /\
      fine_queries sing (done ++ [sem_query find sing done q x]) r x
  end.
Definition fine_runner (r : runner) (x : jval) : Prop :=
  Forall (fun q => fine_singular q x) (rn_singular r) /\
  fine_queries (singular_values (rn_singular r) x) [] (rn_queries r) x /\
  fine_query find (singular_values (rn_singular r) x) (inner_values (singular_values (rn_singular r) x) [] (rn_queries r) x) (rn_main r) x /\
  simple_query (rn_main r).

Ltac lts := repeat match goal with
  | H : PathSim.ctx_rel _ _ _ _ _ _ |- _ => add (ctx_lt _ _ _ _ _ _ H)
  end.
Ltac ids ::= lts; gather; unfold agree in *;
  lazymatch goal with
  | |- sep _ _ => intros ?j ?J ?K; sat; lia
  | |- newer _ _ _ _ => intros ?j ?J; sat; first [left; inapp|right; split; [lia|reflexivity]]
  | |- incl _ _ => intros ?j ?J; sat; inapp
  | |- above _ _ => intros ?j ?J; sat; lia
  | |- forall j, In j _ -> _ => intros ?j ?J; sat; lia
  end.

(** Some singular values: each lives above the handles that were there before. *)
Definition svals (t : list shandle) (idsC : list nat) (r : list (option value)) (o : list (option jval)) : Prop :=
  Forall2 (fun r o => match r, o with
                      | None, None => True
                      | Some v, Some y => exists ids, fresh t v y ids /\ incl ids idsC
                      | _, _ => False
                      end) r o.
Lemma svals_frame : forall t t' idsC r o, svals t idsC r o -> agree t t' idsC -> svals t' idsC r o.
Proof.
  intros t t' idsC r o H A. induction H as [|a b r o H R IH]; constructor; [|exact IH]. destruct a as [v|], b as [y|]; auto.
  destruct H as [i [F I]]. exists i. split; [|exact I]. eapply fresh_frame; [exact F|]. intros j J. apply A. auto.
Qed.
Lemma svals_incl : forall t a b r o, svals t a r o -> incl a b -> svals t b r o.
Proof.
  intros t a b r o H A. induction H as [|c d r o H R IH]; constructor; [|exact IH]. destruct c as [v|], d as [y|]; auto.
  destruct H as [i [F I]]. exists i. split; [exact F|]. intros j J. auto.
Qed.

Lemma detach_call : forall A x t it v ids c idc (k : iprog A), not_scalar x -> fresh t v x ids -> chain t c idc -> rooted t c ->
  exists t', spec_run (call_detach v c k) (mkSt t it) = spec_run k (mkSt t' it) /\ change t t' idc.
Proof.
  intros A x t it v ids c idc k NS F C R. destruct (detach_rooted t c idc C R) as [t' [D CH]]. exists t'. split; [|exact CH].
  assert (exists i, v = VArr i \/ v = VObj i) as [i E].
  { destruct x as [s|l e|l e]; [contradiction| |]; cbn [fresh] in F; destruct F as [j [root [G _]]]; (destruct v as [s|i|i]; [discriminate|exists i; auto|exists i; auto]). }
  unfold call_detach. destruct E as [-> | ->]; cbn [spec_run st_coll st_iter]; rewrite D; reflexivity.
Qed.

Lemma run_singular_ok : forall x l, Forall (fun q => fine_singular q x) l ->
  exists N, forall n, N <= n -> forall t it v ids, fresh t v x ids ->
  exists t' it' r idsC, spec_run (run_singular n l v) (mkSt t it) = Some (mkSt t' it', r) /\ change t t' [] /\ iext it it' /\
    svals t' idsC r (singular_values l x) /\ above (length t) idsC /\ (forall j, In j idsC -> j < length t').
Proof.
  intros x. induction l as [|q l IH]; intro FS.
  { exists 0. intros n _ t it v ids F. exists t, it, [], []. split; [reflexivity|]. split; [apply change_refl|]. split; [apply iext_refl|]. split; [constructor|]. split; intros j []. }
  inversion FS as [|? ? [NS [SO [y [EY FY]]]] FR]; subst. destruct (IH FR) as [N1 H1]. destruct (singular_ok q x SO) as [N2 H2]. rewrite EY in H2.
  exists (N1 + N2). intros n L t it v ids F. cbn [run_singular singular_values map]. rewrite EY.
  assert (B : forall j, In j ids -> j < length t) by (intros j J; exact (fresh_lt _ _ _ _ _ F J)).
  cbn [spec_run st_coll st_iter]. destruct (clone_fresh _ _ _ _ F) as [CL [FC RC]]. rewrite CL. cbn [on_coll obind st_iter].
  set (t1 := t ++ hof x true) in *. set (c := vof (length t) x) in *. set (idc := iof (length t) x) in *.
  assert (C1 : change t t1 []) by apply change_app. assert (LE1 := cg_len _ _ _ C1).
  assert (A1 : above (length t) idc) by (intros j J; apply iof_in in J; lia).
  assert (R1 : rooted t1 c) by (eapply rooted_fresh; eassumption).
  clearbody t1 c idc.
  rewrite spec_bind. destruct (H2 n ltac:(lia) t1 it c idc FC) as [t2 [r [idc2 [-> [C2 [AN N2']]]]]]. cbn [obind]. rewrite spec_bind.
  destruct r as [w|]; [|destruct AN]. cbn [ans] in AN. assert (LE2 := cg_len _ _ _ C2).
  assert (R2 : rooted t2 c) by (eapply rooted_change; eassumption).
  assert (CC2 : chain t2 c idc2) by (eapply leads_chain; exact AN).
  assert (KEEP : not_scalar y -> forall idw, fresh t2 w y idw -> incl idw idc2 ->
     exists t3 it3 z idz idc3, spec_run (ICopy w (fun ts => IIterNew ts (fun i => IIterAdvance i (fun _ => IIterCurrent i (fun z => IRet z))))) (mkSt t2 it) = Some (mkSt t3 it3, Some z) /\
       iext it it3 /\ change t2 t3 idc2 /\ newer t2 None idc2 idc3 /\ chain t3 c idc3 /\ fresh t3 z y idz /\ above (length t2) idz /\ sep idz idc3).
  { intros _ idw FW IW. destruct (uses_copy y t2 it w idw FW) as [t3 [idw3 [R3 [C3 [NW3 CW3]]]]]. cbn [spec_run st_coll] in R3 |- *.
    destruct (s_copy t2 w) as [[t3' ts]|]; [|discriminate]. cbn [on_coll obind spec_run st_iter] in *. injection R3 as -> ->.
    destruct (leads_use _ _ _ _ _ AN idw FW t3 idw idw3 C3 ltac:(auto) CW3 NW3) as [idc3 [CC3 NC3]].
    replace (toks y) with (stream [y]) by apply app_nil_r. rewrite si_new_ok by exact FY. cbn [obind spec_run].
    unfold si_advance. cbn [st_iter st_coll]. rewrite nth_error_app_last. cbn [si_state si_root kill_opt]. rewrite alloc_of. cbn [obind spec_run].
    unfold si_current. cbn [st_iter]. assert (LL : length it < length (it ++ [mkSi false (SIAt [y] None)])) by (rewrite app_length; cbn; lia).
    rewrite nth_error_upd_same by exact LL. cbn [si_state]. assert (LE3 := cg_len _ _ _ C3).
    exists (t3 ++ hof y false). eexists. exists (vof (length t3) y), (iof (length t3) y), idc3. split; [reflexivity|].
    assert (C4 : change t3 (t3 ++ hof y false) []) by apply change_app. assert (BC3 : forall j, In j idc3 -> j < length t3) by (intros j J; exact (chain_lt _ _ _ _ CC3 J)).
    split; [apply iext_upd; [now exists [mkSi false (SIAt [y] None)]|auto]|]. split; [eapply change_then; [eapply change_weaken; [exact C3|exact IW]|exact C4|intros j []]|]. split; [exact NC3|].
    split; [eapply chain_frame; [exact CC3|same C4]|]. split; [apply alloc_fresh|]. split; [intros j J; apply iof_in in J; lia|].
    intros j J K. apply iof_in in J. apply BC3 in K. lia. }
  (* the value kept *)
  assert (K : exists t3 it3 z idz idc3, spec_run (match Some w with
                 | Some (VScalar s) => IRet (Some (VScalar s))
                 | None => IPanic
                 | Some y => ICopy y (fun ts => IIterNew ts (fun i => IIterAdvance i (fun _ => IIterCurrent i (fun z => IRet z))))
                 end) (mkSt t2 it) = Some (mkSt t3 it3, Some z) /\ iext it it3 /\ change t2 t3 idc2 /\ newer t2 None idc2 idc3 /\ chain t3 c idc3 /\
                 fresh t3 z y idz /\ above (length t2) idz /\ sep idz idc3).
  { destruct (leads_fresh _ _ _ _ _ AN) as [idw [FW IW]]. destruct y as [s|m e|m e].
    - cbn [fresh] in FW. destruct FW as [-> ->]. exists t2, it, (VScalar s), [], idc2. split; [reflexivity|]. split; [apply iext_refl|]. split; [apply change_refl|].
      split; [apply newer_refl|]. split; [exact CC2|]. split; [now split|]. split; intros j [].
    - destruct w as [s|i|i]; [cbn [fresh] in FW; destruct FW as [? [? [G _]]]; discriminate| |]; exact (KEEP Logic.I idw FW IW).
    - destruct w as [s|i|i]; [cbn [fresh] in FW; destruct FW as [? [? [G _]]]; discriminate| |]; exact (KEEP Logic.I idw FW IW). }
  clear KEEP. destruct K as [t3 [it3 [z [idz [idc3 [-> [IE3 [C3 [NC3 [CC3 [FZ [AZ SZ]]]]]]]]]]]]. cbn [obind].
  assert (LE3 := cg_len _ _ _ C3).
  assert (F1 : fresh t1 v x ids) by (eapply fresh_frame; [exact F|same C1]).
  assert (F2 : fresh t2 v x ids) by (eapply fresh_frame; [exact F1|same C2]).
  assert (F3 : fresh t3 v x ids) by (eapply fresh_frame; [exact F2|same C3]).
  match goal with |- context [call_detach v c ?k] => destruct (detach_call _ x t3 it3 v ids c idc3 k NS F3 CC3 (rooted_change _ _ _ _ C3 R2)) as [t4 [-> C4]] end.
  assert (LE4 := cg_len _ _ _ C4).
  assert (F4 : fresh t4 v x ids) by (eapply fresh_frame; [exact F3|same C4]).
  assert (FZ4 : fresh t4 z y idz) by (eapply fresh_frame; [exact FZ|same C4]).
  destruct (H1 n ltac:(lia) t4 it3 v ids F4) as [t5 [it5 [rs [idsC [R5 [C5 [IE5 [SV [AC BC]]]]]]]]]. assert (LE5 := cg_len _ _ _ C5).
  rewrite spec_bind, R5. cbn [obind spec_run]. exists t5, it5, (Some z :: rs), (idz ++ idsC). split; [reflexivity|].
  assert (X1 : change t t2 []) by (eapply change_then; [exact C1|exact C2|ids]).
  assert (X2 : change t t3 []) by (eapply change_then; [exact X1|exact C3|ids]).
  assert (X3 : change t t4 []) by (eapply change_then; [exact X2|exact C4|ids]).
  split; [eapply change_then; [exact X3|exact C5|ids]|]. split; [eapply iext_trans; eassumption|]. split; [|split; [ids|ids]].
  constructor; [|eapply svals_incl; [exact SV|ids]]. exists idz. split; [eapply fresh_frame; [exact FZ4|same C5]|ids].
Qed.

(** A query that writes its results. *)
Lemma feed_write : forall l out, feed (PWrite out) l = (PWrite (out ++ stream l), true).
Proof.
  induction l as [|y l IH]; intro out; cbn [feed aprocess]; [now rewrite app_nil_r|]. rewrite IH. cbn [stream flat_map]. now rewrite app_assoc.
Qed.
Lemma write_ok : forall sing inner q x, fine_query find sing inner q x -> simple_query q ->
  exists N, forall n, N <= n -> forall ctx t it v ids idsC, fresh t v x ids -> ctx_rel ctx sing inner t it idsC -> sep idsC ids ->
  exists t' it' ids' r, spec_run (map_value ctx (transform_value find ctx n) n q v (PWrite [])) (mkSt t it) =
      Some (mkSt t' it', (PWrite (stream (sem_query find sing inner q x)), r)) /\
    change t t' ids /\ newer t None ids ids' /\ chain t' v ids' /\ iext it it'.
Proof.
  intros sing inner q x FQ SQ. destruct (main find sing inner) as [_ [_ [_ M]]]. destruct (M q x FQ) as [N H]. exists N. intros n L ctx t it v ids idsC F CR SC.
  destruct (H n L ctx [] t it v ids (PWrite []) (PWrite []) [] idsC F ltac:(constructor) ltac:(intros j J []) CR SC ltac:(intros j J [])) as [t' [it' [P' [ids' [idsP' [R [C [NW [CH [PR [_ [_ IE]]]]]]]]]]]].
  rewrite query_total, feed_write in R, PR by (auto; exact Logic.I). cbn [fst snd app] in *. inversion PR; subst.
  exists t', it', ids', true. split; [exact R|]. split; [eapply change_weaken; [exact C|rewrite app_nil_r; intros j J; exact J]|]. auto.
Qed.

Lemma run_queries_ok : forall x sing l done, fine_queries sing done l x ->
  exists N, forall n, N <= n -> forall rs dn t it v ids idsC, fresh t v x ids -> ctx_rel (mkCtx rs dn) sing done t it idsC -> sep idsC ids ->
  exists t' it' r, spec_run (run_queries find n rs dn l v) (mkSt t it) = Some (mkSt t' it', r) /\ change t t' [] /\ iext it it' /\
    ctx_rel (mkCtx rs r) sing (inner_values sing done l x) t' it' idsC.
Proof.
  intros x sing. induction l as [|q l IH]; intros done FQ.
  { exists 0. intros n _ rs dn t it v ids idsC F CR SC. exists t, it, dn. split; [reflexivity|]. split; [apply change_refl|]. split; [apply iext_refl|exact CR]. }
  destruct FQ as [NS [FQ [SQ [FT FR]]]]. destruct (IH _ FR) as [N1 H1]. destruct (write_ok _ _ _ _ FQ SQ) as [N2 H2].
  exists (N1 + N2). intros n L rs dn t it v ids idsC F CR SC. cbn [run_queries inner_values].
  assert (B : forall j, In j ids -> j < length t) by (intros j J; exact (fresh_lt _ _ _ _ _ F J)).
  cbn [spec_run st_coll st_iter]. destruct (clone_fresh _ _ _ _ F) as [CL [FC RC]]. rewrite CL. cbn [on_coll obind st_iter].
  set (t1 := t ++ hof x true) in *. set (c := vof (length t) x) in *. set (idc := iof (length t) x) in *.
  assert (C1 : change t t1 []) by apply change_app. assert (LE1 := cg_len _ _ _ C1).
  assert (A1 : above (length t) idc) by (intros j J; apply iof_in in J; lia).
  assert (R1 : rooted t1 c) by (eapply rooted_fresh; eassumption).
  clearbody t1 c idc. rewrite spec_bind.
  assert (CR1 : ctx_rel (mkCtx rs dn) sing done t1 it idsC) by (eapply ctx_frame; [exact CR|same C1|apply iext_refl|exact LE1]).
  destruct (H2 n ltac:(lia) (mkCtx rs dn) t1 it c idc idsC FC CR1 ltac:(ids)) as [t2 [it2 [idc2 [r [-> [C2 [N2' [CC2 IE2]]]]]]]]. cbn [obind].
  cbn [spec_run]. rewrite si_new_ok by exact FT. cbn [obind]. assert (LE2 := cg_len _ _ _ C2).
  assert (F1 : fresh t1 v x ids) by (eapply fresh_frame; [exact F|same C1]).
  assert (F2 : fresh t2 v x ids) by (eapply fresh_frame; [exact F1|same C2]).
  set (it3 := it2 ++ [mkSi false (SIAt (sem_query find sing done q x) None)]).
  match goal with |- context [call_detach v c ?k] => destruct (detach_call _ x t2 it3 v ids c idc2 k NS F2 CC2 (rooted_change _ _ _ _ C2 R1)) as [t4 [-> C4]] end.
  assert (LE4 := cg_len _ _ _ C4). assert (F4 : fresh t4 v x ids) by (eapply fresh_frame; [exact F2|same C4]).
  assert (X1 : change t t2 []) by (eapply change_then; [exact C1|exact C2|ids]).
  assert (X2 : change t t4 []) by (eapply change_then; [exact X1|exact C4|ids]).
  assert (IE3 : iext it it3) by (eapply iext_trans; [exact IE2|eexists; reflexivity]).
  assert (CR4 : ctx_rel (mkCtx rs (dn ++ [length it2])) sing (done ++ [sem_query find sing done q x]) t4 it3 idsC).
  { assert (CRX : ctx_rel (mkCtx rs dn) sing done t4 it3 idsC) by (eapply ctx_frame; [exact CR|same X2|exact IE3|lia]).
    destruct CRX as [Y1 [Y2 Y3]]. split; [exact Y1|]. split; [|exact Y3]. cbn [cx_queries] in *. apply Forall2_app; [exact Y2|]. constructor; [|constructor].
    unfold it3. apply nth_error_app_last. }
  destruct (H1 n ltac:(lia) rs _ t4 it3 v ids idsC F4 CR4 ltac:(ids)) as [t5 [it5 [rr [R5 [C5 [IE5 CR5]]]]]].
  exists t5, it5, rr. split; [exact R5|]. split; [eapply change_then; [exact X2|exact C5|ids]|]. split; [eapply iext_trans; eassumption|exact CR5].
Qed.

(** Like [uses], but for programs that make iterators. *)
Definition uses_ext {A} (p : value -> iprog A) (x : jval) (a : A) : Prop :=
  forall t it v ids, fresh t v x ids ->
  exists t' it' ids', spec_run (p v) (mkSt t it) = Some (mkSt t' it', a) /\
    change t t' ids /\ newer t None ids ids' /\ chain t' v ids' /\ iext it it'.

Lemma run_query_ok : forall r x, fine_runner r x ->
  exists N, forall n, N <= n -> uses_ext (run_query find n r) x (stream (query_values r x)).
Proof.
  intros r x [FS [FQ [FM SM]]]. destruct (run_singular_ok x _ FS) as [N1 H1]. destruct (run_queries_ok x _ _ _ FQ) as [N2 H2]. destruct (write_ok _ _ _ _ FM SM) as [N3 H3].
  exists (N1 + N2 + N3). intros n L t it v ids F. assert (B : forall j, In j ids -> j < length t) by (intros j J; exact (fresh_lt _ _ _ _ _ F J)).
  unfold run_query, compute_context. rewrite !spec_bind.
  destruct (H1 n ltac:(lia) t it v ids F) as [t1 [it1 [rs [idsC [-> [C1 [IE1 [SV [AC BC]]]]]]]]]. cbn [obind]. rewrite spec_bind. assert (LE1 := cg_len _ _ _ C1).
  assert (F1 : fresh t1 v x ids) by (eapply fresh_frame; [exact F|same C1]).
  assert (CR1 : ctx_rel (mkCtx rs []) (singular_values (rn_singular r) x) [] t1 it1 idsC) by (split; [exact SV|split; [constructor|exact BC]]).
  assert (SC : sep idsC ids) by (intros j J K; apply AC in J; apply B in K; lia).
  destruct (H2 n ltac:(lia) rs [] t1 it1 v ids idsC F1 CR1 SC) as [t2 [it2 [qs [-> [C2 [IE2 CR2]]]]]]. cbn [obind spec_run]. assert (LE2 := cg_len _ _ _ C2).
  assert (F2 : fresh t2 v x ids) by (eapply fresh_frame; [exact F1|same C2]). rewrite spec_bind.
  destruct (H3 n ltac:(lia) (mkCtx rs qs) t2 it2 v ids idsC F2 CR2 SC) as [t3 [it3 [ids3 [b [-> [C3 [N3' [CC3 IE3]]]]]]]]. cbn [obind spec_run].
  exists t3, it3, ids3. split; [reflexivity|].
  assert (X1 : change t t2 []) by (eapply change_then; [exact C1|exact C2|ids]).
  split; [eapply change_then; [eapply change_weaken; [exact X1|intros j []]|exact C3|intros j J; now left]|]. split; [ids|]. split; [exact CC3|].
  eapply iext_trans; [eapply iext_trans; eassumption|exact IE3].
Qed.

(** For each value of the input. *)
Lemma transform_values_ext : forall (tv : value -> iprog (list token)) (f : jval -> list token) vs,
  (forall x, In x vs -> uses_ext tv x (f x)) ->
  forall n, length vs < n -> exists st', spec_run (transform_values tv n 0) (spec_start vs) = Some (st', flat_map f vs).
Proof.
  intros tv f vs U.
  enough (H : forall n vs t cur ids its, (forall x, In x vs -> uses_ext tv x (f x)) -> length vs < n ->
     match cur with Some v => chain t v ids | None => ids = [] end -> (forall j, In j ids -> nonroot t j) ->
     exists st', spec_run (transform_values tv n 0) (mkSt t (mkSi false (SIAt vs cur) :: its)) = Some (st', flat_map f vs)).
  { intros n L. apply (H n vs [] None [] []); auto. intros j []. }
  clear vs U. induction n as [|n IH]; intros vs t cur ids its U L C NR; [lia|].
  assert (K : killed t (kill_opt 0 t cur) ids).
  { destruct cur as [v|]; [apply chain_kill_opt; [exact C|]; intros j J; split; [lia|auto]|].
    subst ids. split; [reflexivity|]. intro j. split; [intros []|auto]. }
  cbn [transform_values spec_run]. unfold si_advance. cbn [st_iter nth_error si_state st_coll si_root upd].
  destruct vs as [|x vs]; [cbn [obind spec_run flat_map]; eauto|].
  rewrite alloc_of. cbn [obind spec_run]. unfold si_current. cbn [st_iter nth_error si_state need ibind].
  set (t1 := kill_opt 0 t cur) in *. pose proof (alloc_fresh t1 false x) as F.
  rewrite spec_bind.
  destruct (U x (or_introl eq_refl) (t1 ++ hof x false) (mkSi false (SIAt vs (Some (vof (length t1) x))) :: its) _ _ F) as [t2 [it2 [ids2 [R [CH [NW [C2 [l' ->]]]]]]]].
  rewrite R. cbn [obind app]. rewrite spec_bind. cbn [length] in L.
  destruct (IH vs t2 (Some (vof (length t1) x)) ids2 (its ++ l')) as [st' R']; auto.
  - intros y Y. apply U. now right.
  - lia.
  - intros j J. inversion C2 as [s|? c0 hd G S|? c0 hd k0 ch0 rest ids1 G S C0 O]; subst.
    + destruct J.
    + destruct J as [<-|[]]. pose proof (same_head _ _ _ _ _ (fresh_chain _ _ _ _ F) C2) as HH.
      destruct x as [s|l e|l e]; cbn [iof] in HH; [destruct HH| |]; subst c0;
      (eapply nonroot_change; [exact CH|]); eexists; (split; [apply nth_error_app_last|reflexivity]).
    + destruct J as [<-|J]; [|now apply O]. pose proof (same_head _ _ _ _ _ (fresh_chain _ _ _ _ F) C2) as HH.
      destruct x as [s|l e|l e]; cbn [iof] in HH; [destruct HH| |]; subst c0;
      (eapply nonroot_change; [exact CH|]); eexists; (split; [apply nth_error_app_last|reflexivity]).
  - exists st'. rewrite R'. reflexivity.
Qed.

Definition run_stream (n : nat) (r : runner) : iprog (list token) := transform_values (run_query find n r) n 0.

Theorem run_stream_ok : forall grow r vs, Forall (fine_runner r) vs -> (Z.of_nat (length (stream vs)) < maxint)%Z ->
  exists N, forall n, N <= n -> exists n0 h', forall m, n0 <= m ->
    irun grow m (run_stream n r) (start (stream vs)) = Ok (h', flat_map (fun x => stream (query_values r x)) vs).
Proof.
  intros grow r vs FV L. rewrite Forall_forall in FV.
  destruct (fuel_list _ vs (fun n x => uses_ext (run_query find n r) x (stream (query_values r x))) (fun x J => run_query_ok r x (FV x J))) as [N H].
  exists (N + S (length vs)). intros n LN.
  destruct (transform_values_ext (run_query find n r) (fun x => stream (query_values r x)) vs (H n ltac:(lia)) n ltac:(lia)) as [st' R].
  exact (iterators_follow_spec grow _ _ vs st' _ L R).
Qed.
End Context.

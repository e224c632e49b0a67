(** The JSONPath runner, run with the iterators, does what [atrans] of PathAbs.v
    does on values: dispatchers and segments. *)
From Coq Require Import List ZArith NArith Arith Bool Lia.
From Verif Require Import Base Tokens JsonSpec EncSpec ScalarModel CursorModel IterModel IterSpec IterCore IterThr IterRel IterSound
  ScriptSpec ScriptProofs IterLib EqualModel EqualProofs UseLib SelectModel PathModel PathAbs.
Open Scope iprog_scope.

Definition is_scalar (x : jval) : Prop := match x with JScalar _ => True | _ => False end.

(** Iterators are only added. *)
Definition iext (it it' : list siter) : Prop := exists l, it' = it ++ l.
Lemma iext_refl : forall it, iext it it.
Proof. intro it. exists []. now rewrite app_nil_r. Qed.
Lemma iext_trans : forall a b c, iext a b -> iext b c -> iext a c.
Proof. intros a b c [l ->] [m ->]. exists (l ++ m). now rewrite app_assoc. Qed.

(* ------------------------------------------------------------------ *)
(** Pending values, states, processors.  [sb]: only scalars are processed. *)
Inductive pendrel (sb : bool) (t : list shandle) : list (value * bool) -> list (jval * bool) -> list nat -> Prop :=
| pd_nil : pendrel sb t [] [] []
| pd_cons : forall v x cl i p q ids, fresh t v x i ->
    (cl = true -> forall j, In j i -> exists hd, nth_error t j = Some hd /\ s_root hd = true) ->
    (cl = false -> is_scalar x) -> (sb = true -> is_scalar x) ->
    pendrel sb t p q ids -> sep i ids -> pendrel sb t ((v, cl) :: p) ((x, cl) :: q) (i ++ ids).

Inductive strel (sb : bool) (t : list shandle) : list (state value) -> list (state jval) -> list nat -> Prop :=
| sr_nil : strel sb t [] [] []
| sr_cons : forall sel b d p q i ss ss' ids, pendrel sb t p q i -> (sel_reverses sel = true -> sb = true) ->
    strel sb t ss ss' ids -> sep i ids ->
    strel sb t (mkState sel b p d :: ss) (mkState sel b q d :: ss') (i ++ ids).

(** Without clones only the first state gets the value. *)
Definition wf_clone {V} (cl : bool) (ss : list (state V)) : Prop :=
  cl = true \/ match ss with [] => True | _ :: r => Forall (fun s => st_selected s = false) r end.

Inductive prel (t : list shandle) : list bool -> proc value -> proc jval -> list nat -> Prop :=
| pr_write : forall L out, prel t L (PWrite out) (PWrite out) []
| pr_halt : forall L, prel t L PHalt PHalt []
| pr_count : forall L n, prel t L (PCount n) (PCount n) []
| pr_none : forall L, prel t L (PValue None) (PValue None) []
| pr_some : forall L v x, (forall s, x = JScalar s -> v = VScalar s) -> prel t L (PValue (Some v)) (PValue (Some x)) []
| pr_disp : forall sb sb' L cl ss ss' i P Q ids, strel sb t ss ss' i -> wf_clone cl ss' ->
    (sb' = true -> sb = true) -> prel t (sb' :: L) P Q ids -> sep i ids ->
    prel t (sb :: sb' :: L) (PDisp cl ss P) (PDisp cl ss' Q) (i ++ ids).

(* ------------------------------------------------------------------ *)
(** Sets of handles. *)
Lemma pendrel_lt : forall sb t p q ids, pendrel sb t p q ids -> forall j, In j ids -> j < length t.
Proof.
  induction 1 as [|v x cl i p q ids F R C S H IH D]; intros j J; [destruct J|].
  apply in_app_or in J as [J|J]; [exact (fresh_lt _ _ _ _ _ F J)|auto].
Qed.
Lemma strel_lt : forall sb t ss ss' ids, strel sb t ss ss' ids -> forall j, In j ids -> j < length t.
Proof.
  induction 1 as [|sel b d p q i ss ss' ids PD R H IH D]; intros j J; [destruct J|].
  apply in_app_or in J as [J|J]; [exact (pendrel_lt _ _ _ _ _ PD j J)|auto].
Qed.
Lemma prel_lt : forall L t P Q ids, prel t L P Q ids -> forall j, In j ids -> j < length t.
Proof.
  induction 1 as [L out|L|L n|L|L v x E|sb sb' L cl ss ss' i P Q ids SR W LE H IH D]; intros j J; try (now destruct J).
  apply in_app_or in J as [J|J]; [exact (strel_lt _ _ _ _ _ SR j J)|auto].
Qed.

Ltac add H := let T := type of H in
  lazymatch goal with _ : T |- _ => fail | _ => pose proof H end.
Lemma sep_app_r : forall a b c, sep c (a ++ b) -> sep c a /\ sep c b.
Proof. intros a b c S. split; intros j J K; apply (S j J); apply in_or_app; auto. Qed.
Lemma sep_app_l : forall a b c, sep (a ++ b) c -> sep a c /\ sep b c.
Proof. intros a b c S. split; intros j J K; refine (S j _ K); apply in_or_app; auto. Qed.
Ltac gather := repeat match goal with
  | H : sep _ (_ ++ _) |- _ => apply sep_app_r in H; destruct H
  | H : sep (_ ++ _) _ |- _ => apply sep_app_l in H; destruct H
  | H : fresh _ _ _ _ |- _ => add (fun j => fresh_lt _ _ _ _ j H)
  | H : chain _ _ _ |- _ => add (fun j => chain_lt _ _ _ j H)
  | H : opened _ _ _ _ |- _ => add (fun j => opened_lt _ _ _ _ j H)
  | H : pendrel _ _ _ _ _ |- _ => add (pendrel_lt _ _ _ _ _ H)
  | H : strel _ _ _ _ _ |- _ => add (strel_lt _ _ _ _ _ H)
  | H : prel _ _ _ _ _ |- _ => add (prel_lt _ _ _ _ _ H)
  | H : change _ _ _ |- _ => add (cg_len _ _ _ H)
  end.
Definition used {T} (t : T) (a b : list nat) (j : nat) : Prop := True.
Ltac sat := repeat match goal with
  | H : In _ (_ ++ _) |- _ => apply in_app_or in H; destruct H as [H|H]
  | H : In _ (_ :: _) |- _ => destruct H as [H|H]; [subst|]
  | H : In _ [] |- _ => destruct H
  | S : sep ?a ?b, H1 : In ?j ?a, H2 : In ?j ?b |- _ => destruct (S j H1 H2)
  | N : newer ?t None ?a ?b, H : In ?j ?b |- _ =>
      lazymatch goal with
      | _ : used t a b j |- _ => fail
      | _ => assert (used t a b j) by exact Logic.I; destruct (N j H) as [?|[? _]]
      end
  | I : incl ?a ?b, H : In ?j ?a |- _ => lazymatch goal with _ : used tt b a j |- _ => fail | _ => assert (used tt b a j) by exact Logic.I; pose proof (I j H) end
  | I : above ?n ?a, H : In ?j ?a |- _ => lazymatch goal with _ : n <= j |- _ => fail | _ => pose proof (I j H) end
  | B : forall j, In j ?b -> j < ?n, H : In ?j ?b |- _ => lazymatch goal with _ : j < n |- _ => fail | _ => pose proof (B j H) end
  | H : In ?j (iof _ _) |- _ => lazymatch goal with _ : j = _ |- _ => fail | _ => pose proof (iof_in _ _ _ H) end
  end.
Ltac inapp := repeat (rewrite in_app_iff); tauto.
Ltac ids := gather; unfold agree in *;
  lazymatch goal with
  | |- sep _ _ => intros ?j ?J ?K; sat; lia
  | |- newer _ _ _ _ => intros ?j ?J; sat; first [left; inapp|right; split; [lia|reflexivity]]
  | |- incl _ _ => intros ?j ?J; sat; inapp
  | |- above _ _ => intros ?j ?J; sat; lia
  | |- _ => intros; sat; first [lia|inapp|left; inapp|right; lia]
  end.
(** Frames. *)
Ltac same C := eapply change_agree; [exact C|ids|ids].

Lemma roots_frame : forall t t' i, agree t t' i ->
  (forall j, In j i -> exists hd, nth_error t j = Some hd /\ s_root hd = true) ->
  forall j, In j i -> exists hd, nth_error t' j = Some hd /\ s_root hd = true.
Proof. intros t t' i A R j J. destruct (R j J) as [hd [E Q]]. exists hd. rewrite (A j J). auto. Qed.
Lemma pendrel_frame : forall sb t p q ids, pendrel sb t p q ids -> forall t', agree t t' ids -> pendrel sb t' p q ids.
Proof.
  induction 1 as [|v x cl i p q ids F R C S H IH D]; intros t' A; constructor; auto.
  - eapply fresh_frame; [exact F|]. intros j J. apply A. inapp.
  - intros E. eapply roots_frame; [|exact (R E)]. intros j J. apply A. inapp.
  - apply IH. intros j J. apply A. inapp.
Qed.
Lemma strel_frame : forall sb t ss ss' ids, strel sb t ss ss' ids -> forall t', agree t t' ids -> strel sb t' ss ss' ids.
Proof.
  induction 1 as [|sel b d p q i ss ss' ids PD R H IH D]; intros t' A; constructor; auto.
  - eapply pendrel_frame; [exact PD|]. intros j J. apply A. inapp.
  - apply IH. intros j J. apply A. inapp.
Qed.
Lemma prel_frame : forall L t P Q ids, prel t L P Q ids -> forall t', agree t t' ids -> prel t' L P Q ids.
Proof.
  induction 1 as [L out|L|L n|L|L v x E|sb sb' L cl ss ss' i P Q ids SR W LE H IH D]; intros t' A; try (now constructor).
  apply (pr_disp t' sb sb' L); auto.
  - eapply strel_frame; [exact SR|]. intros j J. apply A. inapp.
  - apply IH. intros j J. apply A. inapp.
Qed.

Lemma pendrel_app : forall sb t p q i, pendrel sb t p q i -> forall p' q' i', pendrel sb t p' q' i' -> sep i i' ->
  pendrel sb t (p ++ p') (q ++ q') (i ++ i').
Proof.
  induction 1 as [|v x cl i p q ids F R C S H IH D]; intros p' q' i' H' D'; [exact H'|].
  cbn [app]. rewrite <- app_assoc. constructor; auto; [apply IH; [exact H'|ids]|ids].
Qed.
Lemma pendrel_rev : forall sb t p q i, pendrel sb t p q i -> exists i', pendrel sb t (rev p) (rev q) i' /\ (forall j, In j i' <-> In j i).
Proof.
  induction 1 as [|v x cl i p q ids F R C S H [i' [IH E]] D]; [exists []; split; [constructor|tauto]|].
  exists (i' ++ i ++ []). cbn [rev]. split.
  - apply pendrel_app; [exact IH|repeat constructor; auto; intros j _ []|].
    intros j J K. rewrite app_nil_r in K. apply E in J. exact (D j K J).
  - intro j. rewrite !in_app_iff, E. cbn [In]. tauto.
Qed.

(* ------------------------------------------------------------------ *)
(** Detaching. *)
Lemma detach_root : forall t v ids, chain t v ids -> (forall c r, ids = c :: r -> exists hd, nth_error t c = Some hd /\ s_root hd = true) ->
  exists t', s_detach t v = Some t' /\ change t t' ids.
Proof. intros t v ids C R. destruct (detach_chain t v ids C R) as [t' [D Ch]]. eauto. Qed.

Section Context.
Variable ctx : context.
Variable sing : list (option jval).
Variable inner : list (list jval).

(** The values of the inner queries are there, not yet read. *)
Definition ctx_rel (t : list shandle) (it : list siter) (idsC : list nat) : Prop :=
  Forall2 (fun o x => match o, x with
                      | None, None => True
                      | Some v, Some y => exists ids, fresh t v y ids /\ incl ids idsC
                      | _, _ => False
                      end) (cx_singular ctx) sing /\
  Forall2 (fun i vs => nth_error it i = Some (mkSi false (SIAt vs None))) (cx_queries ctx) inner /\
  (forall j, In j idsC -> j < length t).
Lemma ctx_frame : forall t it t' it' idsC, ctx_rel t it idsC -> agree t t' idsC -> iext it it' -> length t <= length t' -> ctx_rel t' it' idsC.
Proof.
  intros t it t' it' idsC [A [B C]] G [l ->] L. split; [|split].
  - induction A as [|o x os xs H A IH]; constructor; [|exact IH]. destruct o as [v|], x as [y|]; auto.
    destruct H as [i [F I]]. exists i. split; [|exact I]. eapply fresh_frame; [exact F|]. intros j J. apply G. auto.
  - induction B as [|o x os xs H B IH]; constructor; [|exact IH]. rewrite nth_error_app_l; [exact H|]. eapply nth_error_lt; exact H.
  - intros j J. specialize (C j J). lia.
Qed.
Lemma ctx_lt : forall t it idsC, ctx_rel t it idsC -> forall j, In j idsC -> j < length t.
Proof. intros t it idsC [_ [_ H]]. exact H. Qed.

(** A program that uses a value and a processor. *)
Definition step_post (L : list bool) t it v ids idsP (R : option (sstore * (proc value * bool))) (a : proc jval * bool) : Prop :=
  exists t' it' P' ids' idsP', R = Some (mkSt t' it', (P', snd a)) /\
    change t t' (ids ++ idsP) /\ newer t None ids ids' /\ chain t' v ids' /\
    prel t' L P' (fst a) idsP' /\ newer t None idsP idsP' /\ sep ids' idsP' /\ iext it it'.
Definition good_step (sb : bool) (p : value -> proc value -> iprog (proc value * bool)) (x : jval) (a : proc jval -> proc jval * bool) : Prop :=
  forall L t it v ids P Q idsP idsC, fresh t v x ids -> prel t (sb :: L) P Q idsP -> sep ids idsP ->
  ctx_rel t it idsC -> sep idsC ids -> sep idsC idsP ->
  step_post (sb :: L) t it v ids idsP (spec_run (p v P) (mkSt t it)) (a Q).

(** Adding a value to the states. *)
Lemma push_none : forall cl v ss st, Forall (fun s => st_selected s = false) ss -> spec_run (push_all cl v ss) st = Some (st, ss).
Proof.
  intros cl v ss st H. revert st. induction H as [|s ss E H IH]; intro st; [reflexivity|].
  cbn [push_all]. rewrite E, spec_bind, IH. reflexivity.
Qed.
Lemma apush_none : forall cl x ss, Forall (fun s => st_selected s = false) ss -> map (apush cl x) ss = ss.
Proof. intros cl x ss H. induction H as [|s ss E H IH]; [reflexivity|]. cbn [map]. unfold apush at 1. now rewrite E, IH. Qed.
Lemma strel_selected : forall sb t ss ss' ids, strel sb t ss ss' ids -> Forall (fun s => st_selected s = false) ss' -> Forall (fun s => st_selected s = false) ss.
Proof.
  induction 1 as [|sel b d p q i ss ss' ids PD R H IH D]; intro F; constructor; inversion F; subst; auto.
Qed.

Lemma push_ok : forall sb ss t ss' i, strel sb t ss ss' i -> forall it v x ids, fresh t v x ids -> sep ids i -> (sb = true -> is_scalar x) ->
  exists t' ss2 i', spec_run (push_all true v ss) (mkSt t it) = Some (mkSt t' it, ss2) /\ change t t' [] /\
    strel sb t' ss2 (map (apush true x) ss') i' /\ newer t None i i'.
Proof.
  intros sb. induction ss as [|s ss IH]; intros t ss' i0 H it v x ids F SP SC; inversion H as [|sel b d p q i ? ss2' j PD R H' D]; subst.
  - exists t, [], []. split; [reflexivity|]. split; [apply change_refl|]. split; [constructor|apply newer_refl].
  - cbn [push_all map]. unfold apush at 1. cbn [st_selected]. destruct b.
    + cbn [spec_run clone_if st_coll st_iter]. destruct (clone_fresh t v x ids F) as [CL [FC RC]]. rewrite CL.
      cbn [on_coll obind st_iter]. set (t1 := t ++ hof x true) in *.
      assert (C1 : change t t1 []) by apply change_app.
      assert (F1 : fresh t1 v x ids) by (eapply fresh_frame; [exact F|same C1]).
      assert (H1 : strel sb t1 ss ss2' j) by (eapply strel_frame; [exact H'|same C1]).
      assert (P1 : pendrel sb t1 p q i) by (eapply pendrel_frame; [exact PD|same C1]).
      destruct (IH t1 ss2' j H1 it v x ids F1 ltac:(ids) SC) as [t2 [ss2 [j' [RUN [C2 [S2 N2]]]]]].
      rewrite spec_bind, RUN. cbn [obind spec_run].
      exists t2. eexists. exists ((i ++ iof (length t) x ++ []) ++ j'). split; [reflexivity|]. split; [eapply change_trans; eassumption|].
      split.
      * unfold push. cbn [st_sel st_selected st_pending st_done]. constructor; auto.
        -- apply pendrel_app; [eapply pendrel_frame; [exact P1|same C2]| |ids].
           apply pd_cons; auto; [|intros _|discriminate|constructor|intros k _ []].
           ++ eapply fresh_frame; [exact FC|same C2].
           ++ eapply roots_frame; [|exact RC]. same C2.
        -- ids.
      * ids.
    + destruct (IH t ss2' j H' it v x ids F ltac:(ids) SC) as [t2 [ss2 [j' [RUN [C2 [S2 N2]]]]]].
      rewrite spec_bind, RUN. cbn [obind spec_run]. exists t2. eexists. exists (i ++ j'). split; [reflexivity|]. split; [exact C2|].
      split; [|ids]. constructor; auto; [eapply pendrel_frame; [exact PD|same C2]|ids].
Qed.

(** Detaching a clone that was read. *)
Lemma detach_clone : forall t t1 v x ids F ids' it A (k : iprog A), fresh t v x ids ->
  (forall j, In j ids -> exists hd, nth_error t j = Some hd /\ s_root hd = true) ->
  change t t1 F -> chain t1 v ids' ->
  exists t2, spec_run (IDetach v k) (mkSt t1 it) = spec_run k (mkSt t2 it) /\ change t1 t2 ids'.
Proof.
  intros t t1 v x ids F ids' it A k FR RT CH C.
  destruct (detach_root t1 v ids' C) as [t2 [D C2]].
  - intros c r E. eapply root_head; eassumption.
  - exists t2. cbn [spec_run st_coll]. rewrite D. cbn [on_coll_ obind st_iter]. auto.
Qed.

Lemma wf_push : forall cl cl' x (ss : list (state jval)), wf_clone cl ss -> wf_clone cl (map (apush cl' x) ss).
Proof.
  intros cl cl' x ss [->|W]; [now left|]. right. destruct ss as [|s r]; [exact W|]. cbn [map]. clear s.
  induction W as [|s r E W IH]; cbn [map]; constructor; auto. unfold apush. now rewrite E.
Qed.

Lemma process_ok : forall P sb x, (sb = true -> is_scalar x) ->
  forall L t it v ids Q idsP, fresh t v x ids -> prel t (sb :: L) P Q idsP -> sep ids idsP ->
  step_post (sb :: L) t it v ids idsP (spec_run (process P v) (mkSt t it)) (aprocess Q x).
Proof.
  induction P as [out| |n|o|cl ss next IH]; intros sb x SC L t it v ids Q idsP F PR SP.
  - inversion PR; subst. cbn [process]. destruct (uses_copy x t it v ids F) as [t' [ids' [R [C [N CH]]]]].
    cbn [spec_run st_coll] in *. destruct (s_copy t v) as [[t1 ts]|]; [|discriminate]. cbn [on_coll obind spec_run st_iter] in *.
    injection R as -> ->. exists t', it. eexists. exists ids', []. split; [reflexivity|]. cbn [fst].
    split; [now rewrite app_nil_r|]. split; [exact N|]. split; [exact CH|]. split; [constructor|].
    split; [apply newer_refl|]. split; [intros j _ []|apply iext_refl].
  - inversion PR; subst. exists t, it, PHalt, ids, []. split; [reflexivity|]. split; [apply change_refl|]. split; [apply newer_refl|].
    split; [eapply fresh_chain; exact F|]. split; [constructor|]. split; [apply newer_refl|]. split; [exact SP|apply iext_refl].
  - inversion PR; subst. exists t, it. eexists. exists ids, []. split; [reflexivity|]. split; [apply change_refl|]. split; [apply newer_refl|].
    split; [eapply fresh_chain; exact F|]. split; [constructor|]. split; [apply newer_refl|]. split; [exact SP|apply iext_refl].
  - inversion PR as [| | |?|? w y E|]; subst; exists t, it; eexists; exists ids, []; (split; [reflexivity|]);
    (split; [apply change_refl|]); (split; [apply newer_refl|]);
    (split; [eapply fresh_chain; exact F|]); (split; [constructor|split; [apply newer_refl|split; [exact SP|apply iext_refl]]]).
    intros s ->. destruct F as [-> _]. reflexivity.
  - inversion PR as [| | | | |? sb' L' ? ? ss' i ? Q' idn SR WF LE PN SI]; subst. cbn [process aprocess].
    inversion SR as [|sel b d p q i1 r r' i2 PD RV SR' D]; subst.
    { exists t, it. eexists. exists ids, ([] ++ idn). split; [reflexivity|]. split; [apply change_refl|]. split; [apply newer_refl|].
      split; [eapply fresh_chain; exact F|]. split; [exact PR|]. split; [apply newer_refl|]. split; [exact SP|apply iext_refl]. }
    cbn [st_selected st_sel]. destruct b; cbn [andb].
    2:{ (* not selected *)
      destruct cl.
      - destruct (push_ok sb r t r' i2 SR' it v x ids F ltac:(ids) SC) as [t2 [ss2 [j' [RUN [C2 [S2 N2]]]]]].
        rewrite spec_bind, RUN. cbn [obind spec_run].
        exists t2, it. eexists. exists ids, ((i1 ++ j') ++ idn). split; [reflexivity|]. cbn [fst map]. unfold apush at 1. cbn [st_selected].
        split; [eapply change_weaken; [exact C2|intros j []]|]. split; [apply newer_refl|].
        assert (F2 : fresh t2 v x ids) by (eapply fresh_frame; [exact F|same C2]).
        split; [eapply fresh_chain; exact F2|]. split.
        + apply (pr_disp t2 sb sb' L'); auto; [constructor; auto| |eapply prel_frame; [exact PN|same C2]|ids].
          * eapply pendrel_frame; [exact PD|same C2].
          * ids.
          * now left.
        + split; [ids|]. split; [ids|apply iext_refl].
      - destruct WF as [WF|WF]; [discriminate|]. rewrite spec_bind, push_none by (eapply strel_selected; eassumption). cbn [obind spec_run map].
        unfold apush at 1. cbn [st_selected]. rewrite apush_none by exact WF.
        exists t, it. eexists. exists ids, ((i1 ++ i2) ++ idn). split; [reflexivity|]. split; [apply change_refl|]. split; [apply newer_refl|].
        split; [eapply fresh_chain; exact F|]. split; [exact PR|]. split; [apply newer_refl|]. split; [exact SP|apply iext_refl]. }
    destruct (sel_reverses sel) eqn:RE; cbn [negb].
    + (* pending, in reverse *)
      specialize (SC (RV eq_refl)). destruct x as [s|? ?|? ?]; try contradiction. destruct F as [-> ->].
      destruct cl.
      * cbn [clone_if spec_run st_coll s_clone on_coll obind st_iter].
        destruct (push_ok sb r t r' i2 SR' it (VScalar s) (JScalar s) [] ltac:(now split) ltac:(intros j []) ltac:(intros; exact I)) as [t2 [ss2 [j' [RUN [C2 [S2 N2]]]]]].
        rewrite spec_bind, RUN. cbn [obind spec_run].
        exists t2, it. eexists. exists [], (((i1 ++ [] ++ []) ++ j') ++ idn). split; [reflexivity|]. cbn [fst map]. unfold apush at 1. cbn [st_selected].
        split; [eapply change_weaken; [exact C2|intros j []]|]. split; [apply newer_refl|]. split; [constructor|]. split.
        -- apply (pr_disp t2 sb sb' L'); auto; [| now left|eapply prel_frame; [exact PN|same C2]|ids].
           unfold push. cbn [st_sel st_selected st_pending st_done]. constructor; auto; [|ids].
           apply pendrel_app; [eapply pendrel_frame; [exact PD|same C2]| |ids].
           apply pd_cons; [now split|intros _ j []|discriminate|intros; exact I|constructor|intros j []].
        -- split; [ids|]. split; [intros j []|apply iext_refl].
      * destruct WF as [WF|WF]; [discriminate|]. cbn [clone_if]. rewrite spec_bind, push_none by (eapply strel_selected; eassumption). cbn [obind spec_run map].
        unfold apush at 1. cbn [st_selected]. rewrite apush_none by exact WF.
        exists t, it. eexists. exists [], (((i1 ++ [] ++ []) ++ i2) ++ idn). split; [reflexivity|]. split; [apply change_refl|]. split; [apply newer_refl|].
        split; [constructor|]. split; [|split; [ids|split; [intros j []|apply iext_refl]]].
        apply (pr_disp t sb sb' L'); auto; [|now right|ids].
        unfold push. cbn [st_sel st_selected st_pending st_done]. constructor; auto; [|ids].
        apply pendrel_app; [exact PD| |ids].
        apply pd_cons; [now split|discriminate|intros; exact I|intros; exact I|constructor|intros j []].
    + (* straight to the next *)
      assert (SC' : sb' = true -> is_scalar x) by auto.
      destruct cl; cbn [clone_if detach_if].
      * cbn [spec_run st_coll st_iter]. destruct (clone_fresh t v x ids F) as [CL [FC RC]]. rewrite CL.
        cbn [on_coll obind st_iter]. set (t1 := t ++ hof x true) in *.
        assert (C1 : change t t1 []) by apply change_app.
        assert (PN1 : prel t1 (sb' :: L') next Q' idn) by (eapply prel_frame; [exact PN|same C1]).
        rewrite spec_bind.
        destruct (IH sb' x SC' L' t1 it _ _ Q' idn FC PN1 ltac:(ids)) as [t2 [it2 [P2 [idc [idn' [RUN [C2 [NC [CC [PN2 [NN [SN IE]]]]]]]]]]]].
        rewrite RUN. cbn [obind]. destruct (aprocess Q' x) as [Q2 b]. cbn [fst snd] in *.
        destruct (detach_clone t1 t2 _ x _ _ idc it2 _ (if b then ilet r2 <- push_all true v r; IRet (PDisp true (mkState sel true p d :: r2) P2, true)
           else IRet (PDisp true (mkState sel true p d :: r) P2, false)) FC RC C2 CC) as [t3 [RUN3 C3]].
        rewrite RUN3.
        assert (C13 : change t t3 (ids ++ (i1 ++ i2) ++ idn)).
        { eapply change_then; [eapply change_weaken; [exact C1|intros j []]|eapply change_then; [exact C2|exact C3|ids]|].
          ids. }
        assert (C03 : change t t3 idn).
        { eapply change_then; [eapply change_weaken; [exact C1|intros j []]|eapply change_then; [exact C2|exact C3|ids]|].
          ids. }
        assert (F3 : fresh t3 v x ids) by (eapply fresh_frame; [exact F|same C03]).
        assert (PD3 : pendrel sb t3 p q i1) by (eapply pendrel_frame; [exact PD|same C03]).
        assert (SR3 : strel sb t3 r r' i2) by (eapply strel_frame; [exact SR'|same C03]).
        assert (PN3 : prel t3 (sb' :: L') P2 Q2 idn') by (eapply prel_frame; [exact PN2|same C3]).
        destruct b.
        -- destruct (push_ok sb r t3 r' i2 SR3 it2 v x ids F3 ltac:(ids) SC) as [t4 [ss2 [j' [RUN4 [C4 [S4 N4]]]]]].
           rewrite spec_bind, RUN4. cbn [obind spec_run].
           exists t4, it2. eexists. exists ids, ((i1 ++ j') ++ idn'). split; [reflexivity|]. cbn [fst map].
           split; [eapply change_then; [exact C13|exact C4|intros j []]|]. split; [apply newer_refl|].
           assert (F4 : fresh t4 v x ids) by (eapply fresh_frame; [exact F3|same C4]).
           split; [eapply fresh_chain; exact F4|]. split.
           ++ apply (pr_disp t4 sb sb' L'); auto; [| now left|eapply prel_frame; [exact PN3|same C4]|ids].
              constructor; auto; [|congruence|ids]. eapply pendrel_frame; [exact PD3|same C4].
           ++ split; [ids|]. split; [ids|exact IE].
        -- cbn [spec_run]. exists t3, it2. eexists. exists ids, ((i1 ++ i2) ++ idn'). split; [reflexivity|]. cbn [fst].
           split; [exact C13|]. split; [apply newer_refl|]. split; [eapply fresh_chain; exact F3|]. split.
           ++ apply (pr_disp t3 sb sb' L'); auto; [constructor; auto; congruence|ids].
           ++ split; [ids|]. split; [ids|exact IE].
      * destruct WF as [WF|WF]; [discriminate|]. rewrite spec_bind.
        destruct (IH sb' x SC' L' t it _ _ Q' idn F PN ltac:(ids)) as [t2 [it2 [P2 [idc [idn' [RUN [C2 [NC [CC [PN2 [NN [SN IE]]]]]]]]]]]].
        rewrite RUN. cbn [obind]. destruct (aprocess Q' x) as [Q2 b]. cbn [fst snd] in *.
        rewrite apush_none by exact WF.
        assert (E : spec_run (if b then ilet r2 <- push_all false v r; IRet (PDisp false (mkState sel true p d :: r2) P2, true)
           else IRet (PDisp false (mkState sel true p d :: r) P2, false)) (mkSt t2 it2) = Some (mkSt t2 it2, (PDisp false (mkState sel true p d :: r) P2, b))).
        { destruct b; [|reflexivity]. rewrite spec_bind, push_none by (eapply strel_selected; eassumption). reflexivity. }
        rewrite E. exists t2, it2. eexists. exists idc, ((i1 ++ i2) ++ idn'). split; [destruct b; reflexivity|].
        split; [eapply change_weaken; [exact C2|ids]|]. split; [exact NC|]. split; [exact CC|]. split.
        -- replace (fst (if b then _ else _)) with (PDisp false (mkState sel true q d :: r') Q2) by (destruct b; reflexivity).
           apply (pr_disp t2 sb sb' L'); auto; [|now right|ids]. constructor; auto; [|congruence|].
           ++ eapply pendrel_frame; [exact PD|same C2].
           ++ eapply strel_frame; [exact SR'|same C2].
        -- split; [ids|]. split; [ids|exact IE].
Qed.

(** Flushing. *)
Definition flush_post (L : list bool) t it i ids (R : option (sstore * (proc value * bool))) (a : proc jval * bool) : Prop :=
  exists t' it' P' ids', R = Some (mkSt t' it', (P', snd a)) /\
    change t t' (i ++ ids) /\ prel t' L P' (fst a) ids' /\ newer t None ids ids' /\ iext it it'.

Lemma flush_values_ok : forall sb sb', (sb' = true -> sb = true) -> forall L l t q i, pendrel sb t l q i ->
  forall it result P Q ids, prel t (sb' :: L) P Q ids -> sep i ids ->
  flush_post (sb' :: L) t it i ids (spec_run (flush_values l result P) (mkSt t it)) (aflush_values q result Q).
Proof.
  intros sb sb' LE L. induction l as [|[v0 cl0] l IH]; intros t q i PD it result P Q ids PR SP; inversion PD as [|v x cl iv p q' il F RT NC SC PD' SI]; subst.
  - cbn [flush_values spec_run]. exists t, it, P, ids. split; [now destruct result|]. split; [apply change_refl|].
    split; [destruct result; exact PR|]. split; [apply newer_refl|apply iext_refl].
  - cbn [flush_values]. rewrite spec_bind.
    assert (DET : forall t1 it1 P1 Q1 r iv' ids1 F1, prel t1 (sb' :: L) P1 Q1 ids1 -> newer t None ids ids1 -> change t t1 F1 ->
      (forall j, In j F1 -> In j (iv ++ ids)) -> chain t1 v0 iv' -> newer t None iv iv' -> sep iv' ids1 -> iext it it1 ->
      flush_post (sb' :: L) t it (iv ++ il) ids (spec_run (detach_if cl0 v0 (flush_values l r P1)) (mkSt t1 it1)) (aflush_values q' r Q1)).
    { intros t1 it1 P1 Q1 r iv' ids1 F1 PR1 NW CH IF CV NV SV IE.
      assert (D : exists t2, spec_run (detach_if cl0 v0 (flush_values l r P1)) (mkSt t1 it1) = spec_run (flush_values l r P1) (mkSt t2 it1) /\ change t1 t2 iv').
      { destruct cl0; cbn [detach_if].
        - eapply detach_clone; [exact F|auto|exact CH|exact CV].
        - exists t1. split; [reflexivity|apply change_refl]. }
      destruct D as [t2 [-> C2]].
      assert (AG : agree t t1 il) by (eapply change_agree; [exact CH|ids|intros j J K; apply IF in K; ids]).
      assert (PD1 : pendrel sb t1 l q' il) by (eapply pendrel_frame; [exact PD'|exact AG]).
      assert (PD2 : pendrel sb t2 l q' il) by (eapply pendrel_frame; [exact PD1|same C2]).
      assert (PR2 : prel t2 (sb' :: L) P1 Q1 ids1) by (eapply prel_frame; [exact PR1|same C2]).
      destruct (IH t2 q' il PD2 it1 r P1 Q1 ids1 PR2 ltac:(ids)) as [t3 [it3 [P3 [ids3 [RUN [C3 [PR3 [N3 IE3]]]]]]]].
      exists t3, it3, P3, ids3. split; [exact RUN|]. split; [|split; [exact PR3|split; [ids|eapply iext_trans; eassumption]]].
      eapply change_then; [eapply change_weaken; [exact CH|intros j J; apply IF in J; ids]|eapply change_then; [eapply change_weaken; [exact C2|]|exact C3|]|].
      - apply incl_appl with (m := il ++ ids1). apply incl_refl.
      - ids.
      - ids. }
    destruct result; cbn [spec_run].
    + unfold aflush_values. cbn [map fst feed].
      destruct (process_ok P sb' x ltac:(auto) L t it v0 iv Q ids F PR ltac:(ids)) as [t1 [it1 [P1 [iv' [ids1 [RUN [C1 [NV [CV [PR1 [NN [SV IE]]]]]]]]]]]].
      rewrite RUN. cbn [obind]. destruct (aprocess Q x) as [Q1 b]. cbn [fst snd] in *.
      specialize (DET t1 it1 P1 Q1 b iv' ids1 _ PR1 NN C1 ltac:(auto) CV NV SV IE). unfold aflush_values in DET. destruct b; exact DET.
    + cbn [obind]. unfold aflush_values in *.
      exact (DET t it P Q false iv ids [] PR ltac:(ids) (change_refl _ _) ltac:(intros j []) (fresh_chain _ _ _ _ F) ltac:(ids) ltac:(ids) (iext_refl it)).
Qed.

Lemma in_order_rel : forall sb t p q i sel b d, pendrel sb t p q i ->
  exists i', pendrel sb t (in_order (mkState sel b p d)) (in_order (mkState sel b q d)) i' /\ (forall j, In j i' <-> In j i).
Proof.
  intros sb t p q i sel b d PD. unfold in_order. cbn [st_sel st_pending]. destruct (sel_reverses sel).
  - now apply pendrel_rev.
  - exists i. split; [exact PD|tauto].
Qed.

Lemma flush_states_ok : forall sb sb', (sb' = true -> sb = true) -> forall L l t q i, strel sb t l q i ->
  forall it result P Q ids, prel t (sb' :: L) P Q ids -> sep i ids ->
  flush_post (sb' :: L) t it i ids (spec_run (flush_states l result P) (mkSt t it)) (aflush_states q result Q).
Proof.
  intros sb sb' LE L. induction l as [|s l IH]; intros t q i SR it result P Q ids PR SP; inversion SR as [|sel b d p q' i1 ? l' i2 PD RV SR' SI]; subst.
  - cbn [flush_states aflush_states spec_run]. exists t, it, P, ids. split; [reflexivity|]. split; [apply change_refl|].
    split; [exact PR|]. split; [apply newer_refl|apply iext_refl].
  - cbn [flush_states aflush_states]. rewrite spec_bind. destruct (in_order_rel sb t p q' i1 sel b d PD) as [i1' [PD' E]].
    assert (S1 : sep i1' ids) by (intros j J K; apply E in J; ids).
    destruct (flush_values_ok sb sb' LE L _ _ _ _ PD' it result P Q ids PR S1) as [t1 [it1 [P1 [ids1 [RUN [C1 [PR1 [N1 IE]]]]]]]].
    rewrite RUN. cbn [obind]. destruct (aflush_values _ result Q) as [Q1 r]. cbn [fst snd] in *.
    assert (C1' : change t t1 (i1 ++ ids)) by (eapply change_weaken; [exact C1|intros j J; apply in_app_or in J as [J|J]; [apply E in J|]; ids]).
    assert (SR1 : strel sb t1 l l' i2) by (eapply strel_frame; [exact SR'|same C1']).
    destruct (IH t1 l' i2 SR1 it1 r P1 Q1 ids1 PR1 ltac:(ids)) as [t3 [it3 [P3 [ids3 [RUN3 [C3 [PR3 [N3 IE3]]]]]]]].
    exists t3, it3, P3, ids3. split; [exact RUN3|]. split; [|split; [exact PR3|split; [ids|eapply iext_trans; eassumption]]].
    eapply change_then; [eapply change_weaken; [exact C1'|]|exact C3|]; ids.
Qed.
End Context.

(** How far the input has been read while a value is being used: not past the
    current item of the first value. *)
From Coq Require Import List ZArith Arith Bool Lia.
From Verif Require Import Base Tokens JsonSpec EncSpec CursorModel CursorSpec CursorProofs IterModel IterSpec IterCore IterThr IterRel
  IterOps IterOps2 IterOps3 IterSound StreamModel.

Definition idof (v : value) : option nat := match v with VScalar _ => None | VArr c | VObj c => Some c end.

(** A thread on a source keeps the source within its end. *)
Lemma pool_le : forall g h s p i e, core g h -> s < length (g_F g) -> act g s = Some p -> nth_error (g_P g) p = Some i -> pi_e i = e -> rpos g s <= e.
Proof.
  intros g h s p i e C LS A P E. destruct (nth_error (h_pool h) p) as [x|] eqn:X.
  - pose proof (co_pool _ _ C p x i X P) as PO. destruct (co_actok _ _ C s p A) as [i' [P' S']]. rewrite P in P'. injection P' as <-.
    pose proof (po_act _ _ _ _ PO) as K. rewrite S' in K. rewrite (K A). pose proof (po_read _ _ _ _ PO). lia.
  - apply nth_error_ge in X. pose proof (nth_error_lt _ _ _ _ P). rewrite (co_lenP _ _ C) in X. lia.
Qed.
Lemma thr_rpos : forall g h t v r s e ids l, core g h -> thr g h t v r s e ids l -> r = RSrc s -> rpos g s <= e.
Proof.
  intros g h t v r s e ids l C. induction 1 as [sc r s e G|v id x hd r rc s e k N S1 S2 S3 S4 S5 G SP|v id x hd r rc s e N S1 S2 G
                 |v id x hd r rc s e key ch rest k ids l N S1 S2 S3 S4 S5 T IH SH SP O]; intros ->.
  - cbn [gpos] in G. destruct (_ <? _); [|discriminate]. destruct (act g s); [discriminate|]. injection G as <-. lia.
  - destruct (n_sw _ _ _ _ _ _ _ _ _ _ _ N) as [->|[_ [p [c [i [_ [A [P E]]]]]]]].
    + cbn [gpos] in G. destruct (_ <? _); [|discriminate]. destruct (act g s); [discriminate|]. injection G as <-. destruct SP as [-> _]. lia.
    + eapply pool_le; eauto. apply (n_src _ _ _ _ _ _ _ _ _ _ _ N).
  - destruct (n_sw _ _ _ _ _ _ _ _ _ _ _ N) as [->|[_ [p [c [i [_ [A [P E]]]]]]]].
    + cbn [gpos] in G. destruct (_ <? _); [|discriminate]. destruct (act g s); [discriminate|]. injection G as <-. lia.
    + eapply pool_le; eauto. apply (n_src _ _ _ _ _ _ _ _ _ _ _ N).
  - destruct (n_sw _ _ _ _ _ _ _ _ _ _ _ N) as [->|[_ [p [c [i [_ [A [P E]]]]]]]].
    + specialize (IH eq_refl). destruct SP as [-> _]. lia.
    + eapply pool_le; eauto. apply (n_src _ _ _ _ _ _ _ _ _ _ _ N).
Qed.

(** Iterator 0 is on source 0. *)
Definition on_input (h : heap) : Prop := exists y, nth_error (h_iter h) 0 = Some y /\ i_stream y = RSrc 0.
Definition stream_of (h : heap) (c : nat) : option rstream := option_map c_stream (nth_error (h_coll h) c).

Lemma skipn_ge : forall A (l : list A) a b m, a <= b -> skipn b l = m -> exists w, skipn a l = w ++ m.
Proof.
  intros A l a b m L <-. exists (firstn (b - a) (skipn a l)). replace b with (a + (b - a)) at 2 by lia. rewrite <- skipn_skipn. symmetry. apply firstn_skipn.
Qed.
Lemma span_end : forall F k T, span F k T (length F) -> k <= length F -> skipn k F = T.
Proof.
  intros F k T [L [tl E]] LE. pose proof (f_equal (@length _) E) as K. rewrite skipn_length, app_length in K. assert (length tl = 0) by lia.
  destruct tl; [|discriminate]. now rewrite app_nil_r in E.
Qed.
Lemma unread_src : forall g h, core g h -> 0 < length (g_F g) -> unread h = skipn (rpos g 0) (full g 0) /\ rpos g 0 <= length (full g 0).
Proof.
  intros g h C L. unfold unread. destruct (nth_error (h_src h) 0) as [l|] eqn:E.
  - pose proof (co_src _ _ C 0 l E) as [K1 K2]. rewrite (nth_error_nth' _ _ _ _ _ E). auto.
  - apply nth_error_ge in E. rewrite (co_lenF _ _ C) in E. lia.
Qed.

Lemma thr_src_lt : forall g h t v r s e ids l, thr g h t v r s e ids l -> s < length (g_F g) \/ exists sc, v = VScalar sc.
Proof. intros g h t v r s e ids l T. inversion T; subst; [right; eauto| | |]; left; eapply (n_src _ _ _ _ _ _ _ _ _ _ _ H). Qed.

(** What the iterator has still to give has not been read. *)
Lemma unread_iter : forall g h st roots b its cur, rel g h st roots -> on_input h -> nth_error (st_iter st) 0 = Some (mkSi b (SIAt its cur)) ->
  exists w, unread h = w ++ stream its.
Proof.
  intros g h st roots b its cur RE [y [Y1 Y2]] E. destruct (iter_root _ _ _ _ _ _ _ _ RE E) as [R1 [ro [R2 [ER [RI [OK [EV [RC [SP _]]]]]]]]].
  pose proof (io_h _ _ _ _ _ OK) as X. rewrite Y1 in X. injection X as ->. cbn [i_stream] in Y2.
  pose proof (io_on _ _ _ _ _ OK) as ON. rewrite Y2 in ON. destruct ON as [LS ES]. rewrite <- ES in *.
  assert (C := re_core _ _ _ _ RE). destruct (unread_src _ _ C LS) as [-> LE]. pose proof (io_thr _ _ _ _ _ OK) as T. rewrite Y2, <- ES in T.
  assert (LR : rpos g 0 <= ro_end ro).
  { destruct (ro_v ro) as [v|]; [eapply thr_rpos; eauto|]. destruct T as [G _]. cbn [gpos] in G.
    destruct (_ <? _); [|discriminate]. destruct (act g 0); [discriminate|]. injection G as <-. lia. }
  assert (LE2 : ro_end ro <= length (full g 0)) by (destruct SP as [-> _]; lia).
  apply (skipn_ge _ _ _ _ _ LR (span_end _ _ _ SP LE2)).
Qed.

(** The ancestors of a collection, the nearest first, up to the current value of
    iterator 0: each is at its last item.  [u] is what follows the collection. *)
Fixpoint above (h : heap) (st : sstore) (anc : list nat) (c : nat) (u : list token) : Prop :=
  match anc with
  | [] => exists b its v, nth_error (st_iter st) 0 = Some (mkSi b (SIAt its (Some v))) /\ idof v = Some c /\ u = stream its
  | p :: anc' => exists hd k ch u', nth_error (st_coll st) p = Some hd /\ stream_of h p = Some (RSrc 0) /\ s_state hd = SAt k ch [] /\
      idof ch = Some c /\ above h st anc' p u' /\ u = tail_toks (s_val hd) [] ++ u'
  end.

Lemma flat_map_same : forall A B (f : A -> list B) l x y b, NoDup (flat_map f l) -> In x l -> In y l -> In b (f x) -> In b (f y) -> x = y.
Proof.
  intros A B f. induction l as [|a l IH]; intros x y b ND IX IY BX BY; [destruct IX|]. cbn [flat_map] in ND. apply NoDup_app in ND as [_ [N2 N3]].
  destruct IX as [<-|IX], IY as [<-|IY]; auto.
  - exfalso. apply (N3 b BX). apply in_flat_map. eauto.
  - exfalso. apply (N3 b BY). apply in_flat_map. eauto.
  - eapply IH; eauto.
Qed.
Lemma thr_head : forall g h t v r s e ids l c, thr g h t v r s e ids l -> idof v = Some c -> exists tl, ids = c :: tl.
Proof.
  intros g h t v r s e ids l c T IV. inversion T; subst; [discriminate| | |];
  (pose proof (n_v _ _ _ _ _ _ _ _ _ _ _ H) as Q; subst v; destruct (c_obj x); injection IV as ->; eauto).
Qed.
Lemma root_thr : forall g h st ro, root_ok g h st ro -> ro_ids ro <> [] ->
  exists v, thr g h (st_coll st) v (ro_base ro) (ro_src ro) (ro_end ro) (ro_ids ro) (ro_leaf ro).
Proof.
  intros g h st ro OK N. unfold root_ok in OK. destruct (ro_it ro) as [i|].
  - pose proof (io_thr _ _ _ _ _ OK) as T. destruct (ro_v ro) as [v|]; [eauto|]. destruct T as [_ [T _]]. congruence.
  - destruct (cl_ex _ _ _ _ OK) as [v [id [tl [hd [_ [_ [_ [_ [_ T]]]]]]]]]. eauto.
Qed.
Lemma node_id : forall g h t v id x hd r rc s e c, node g h t v id x hd r rc s e -> idof v = Some c -> id = c.
Proof. intros g h t v id x hd r rc s e c N IV. pose proof (n_v _ _ _ _ _ _ _ _ _ _ _ N) as Q; subst v; destruct (c_obj x); injection IV as ->; reflexivity. Qed.
Lemma span_more : forall F k T e u, span F k T e -> skipn e F = u -> skipn k F = T ++ u.
Proof.
  intros F k T e u [Q1 [tl Q2]] SE. rewrite Q2. f_equal. rewrite <- SE, Q1, <- skipn_skipn, Q2, skipn_app, skipn_all, Nat.sub_diag. reflexivity.
Qed.

(** The thread of the collection. *)
Lemma above_thr : forall g h st roots, rel g h st roots -> on_input h -> forall anc c u, above h st anc c u ->
  0 < length (g_F g) /\ exists ro v e ids, In ro roots /\ thr g h (st_coll st) v (RSrc 0) 0 e ids (ro_leaf ro) /\ idof v = Some c /\ skipn e (full g 0) = u /\
    ro_ids ro = rev anc ++ ids.
Proof.
  intros g h st roots RE [y [Y1 Y2]]. induction anc as [|p anc IH]; intros c u A; cbn [above] in A.
  - destruct A as [b [its [v [E [IV ->]]]]]. destruct (iter_root _ _ _ _ _ _ _ _ RE E) as [R1 [ro [R2 [ER [RI [OK [EV [RC [SP _]]]]]]]]].
    pose proof (io_h _ _ _ _ _ OK) as X. rewrite Y1 in X. injection X as ->. cbn [i_stream] in Y2.
    pose proof (io_on _ _ _ _ _ OK) as ON. rewrite Y2 in ON. destruct ON as [LS ES]. rewrite <- ES in *.
    pose proof (io_thr _ _ _ _ _ OK) as T. rewrite Y2, <- ES, EV in T. split; [exact LS|]. exists ro, v, (ro_end ro), (ro_ids ro).
    split; [rewrite ER; apply in_or_app; right; now left|]. split; [exact T|]. split; [exact IV|]. split; [|reflexivity].
    assert (LE2 : ro_end ro <= length (full g 0)) by (destruct SP as [-> _]; lia). exact (span_end _ _ _ SP LE2).
  - destruct A as [hd [k [ch [u' [HD [SO [SS [IC [A ->]]]]]]]]]. destruct (IH _ _ A) as [LS [ro [v [e [ids [IN [T [IV [SE ID]]]]]]]]]. split; [exact LS|].
    remember (RSrc 0) as r0 eqn:Er. remember 0 as s0 eqn:Es in T at 1.
    inversion T as [sc r s e' G|v' id x hd' r rc s e' k' N S1|v' id x hd' r rc s e' N S1
                 |v' id x hd' r rc s e' key ch' rest' k' ids' l N S1 S2 S3 S4 S5 T' SH SP' O]; subst; [discriminate| | |];
      (assert (EI := node_id _ _ _ _ _ _ _ _ _ _ _ _ N IV); subst id; pose proof (n_hd _ _ _ _ _ _ _ _ _ _ _ N) as Q; rewrite HD in Q; injection Q as <-; try congruence).
    unfold stream_of in SO. rewrite (n_x _ _ _ _ _ _ _ _ _ _ _ N) in SO. cbn [option_map] in SO. rewrite (n_rc _ _ _ _ _ _ _ _ _ _ _ N) in SO. injection SO as SO.
    rewrite SS in S1. injection S1 as _ <- <-. subst rc. exists ro, ch, k', ids'. split; [exact IN|]. split; [exact T'|]. split; [exact IC|]. split; [exact (span_more _ _ _ _ _ SP' eq_refl)|].
    rewrite ID. cbn [rev]. now rewrite <- app_assoc.
Qed.

(** What is left of the collection has not been read. *)
Lemma unread_item : forall g h st roots anc c u hd, rel g h st roots -> on_input h -> above h st anc c u -> stream_of h c = Some (RSrc 0) ->
  nth_error (st_coll st) c = Some hd ->
  forall rest, s_state hd = SFresh /\ rest = items (s_val hd) \/ (exists k ch, s_state hd = SAt k ch rest) ->
  exists w, unread h = w ++ tail_toks (s_val hd) rest ++ u.
Proof.
  intros g h st roots anc c u hd RE ON A SO HD rest SS. destruct (above_thr _ _ _ _ RE ON _ _ _ A) as [LS [ro [v [e [ids [IN [T [IV [SE ID]]]]]]]]].
  assert (C := re_core _ _ _ _ RE). destruct (unread_src _ _ C LS) as [-> LE].
  assert (K : exists k, rpos g 0 <= k /\ span (full g 0) k (tail_toks (s_val hd) rest) e).
  { remember (RSrc 0) as r0 eqn:Er. remember 0 as s0 eqn:Es in T at 1.
    inversion T as [sc r s e' G|v' id x hd' r rc s e' k' N S1 S2 S3 S4 S5 G SP'|v' id x hd' r rc s e' N S1
                 |v' id x hd' r rc s e' key ch' rest' k' ids' l N S1 S2 S3 S4 S5 T' SH SP' O]; subst; [discriminate| | |];
      (assert (EI := node_id _ _ _ _ _ _ _ _ _ _ _ _ N IV); subst id; pose proof (n_hd _ _ _ _ _ _ _ _ _ _ _ N) as Q; rewrite HD in Q; injection Q as <-;
       unfold stream_of in SO; rewrite (n_x _ _ _ _ _ _ _ _ _ _ _ N) in SO; cbn [option_map] in SO; rewrite (n_rc _ _ _ _ _ _ _ _ _ _ _ N) in SO; injection SO as SO).
    - destruct SS as [[_ ->]|[k [ch SS]]]; [|congruence]. exists k'. split; [|exact SP'].
      rewrite SO in G. cbn [gpos] in G. destruct (_ <? _); [|discriminate]. destruct (act g 0); [discriminate|]. injection G as <-. lia.
    - destruct SS as [[SS _]|[k [ch SS]]]; congruence.
    - destruct SS as [[SS _]|[k [ch SS]]]; [congruence|]. rewrite SS in S1. injection S1 as -> -> ->. exists k'. split; [|exact SP']. subst rc. eapply thr_rpos; eauto. }
  destruct K as [k [K1 K2]]. exact (skipn_ge _ _ _ _ _ K1 (span_more _ _ _ _ _ K2 SE)).
Qed.

(** A value that is none of [T]. *)
Definition off (T : list nat) (v : value) : Prop := forall c, idof v = Some c -> ~ In c T.
(** The collections [T] are children of none but each other. *)
Definition nochild (t : list shandle) (T : list nat) : Prop :=
  forall j hd k ch rest, nth_error t j = Some hd -> s_state hd = SAt k ch rest -> ~ In j T -> off T ch.

Lemma NoDup_split : forall A (l l' : list A) x m m', NoDup (l ++ x :: m) -> l ++ x :: m = l' ++ x :: m' -> l = l'.
Proof.
  intros A. induction l as [|a l IH]; intros l' x m m' ND E; destruct l' as [|a' l']; cbn [app] in *; [reflexivity| | |].
  - injection E as -> ->. inversion ND as [|? ? N0 _]; subst. exfalso. apply N0, in_or_app. right. now left.
  - injection E as -> E. inversion ND as [|? ? N0 _]; subst. exfalso. apply N0, in_or_app. right. now left.
  - injection E as -> E. f_equal. inversion ND as [|? ? _ N1]; subst. eapply IH; eauto.
Qed.
Lemma above_family : forall g h st roots anc c u, rel g h st roots -> on_input h -> above h st anc c u ->
  nochild (st_coll st) (c :: anc) /\ (forall d, In d (c :: anc) -> d < length (st_coll st)) /\ NoDup (c :: anc) /\
  (forall hd k ch rest, nth_error (st_coll st) c = Some hd -> s_state hd = SAt k ch rest -> off (c :: anc) ch).
Proof.
  intros g h st roots anc c u RE ON A. destruct (above_thr _ _ _ _ RE ON _ _ _ A) as [LS [ro [v [e [ids [IN [T [IV [SE ID]]]]]]]]].
  destruct (thr_head _ _ _ _ _ _ _ _ _ _ T IV) as [tl ->].
  destruct (root_thr _ _ _ _ (re_ok _ _ _ _ RE ro IN)) as [v0 T0]; [rewrite ID; destruct (rev anc); discriminate|].
  destruct (thr_ids _ _ _ _ _ _ _ _ _ T0) as [ND LT].
  assert (ID2 : ro_ids ro = rev (c :: anc) ++ tl) by (rewrite ID; cbn [rev]; now rewrite <- app_assoc).
  assert (SUB : forall d, In d (c :: anc) -> In d (ro_ids ro)) by (intros d J; rewrite ID2; apply in_or_app; left; now apply -> in_rev).
  split; [|split; [intros d J; apply LT, SUB, J|split]].
  - intros j hd k ch rest HJ SJ NJ d IC ID3.
    destruct (re_cov _ _ _ _ RE j hd HJ ltac:(congruence)) as [ro' [IN' J']].
    assert (OK' := re_ok _ _ _ _ RE ro' IN'). destruct (root_thr _ _ _ _ OK') as [v' T']; [intro Q; rewrite Q in J'; destruct J'|].
    destruct (thr_focus _ _ _ _ _ _ _ _ _ T' j J') as [v1 [r1 [e1 [ids1 [ids2 [F1 [F2 _]]]]]]].
    assert (HC : exists tl', ids2 = d :: tl').
    { inversion F2 as [|v2 id x hd' r rc s e2 k0 N S1|v2 id x hd' r rc s e2 N S1|v2 id x hd' r rc s e2 key ch' rest' k0 ids l N S1 S2 S3 S4 S5 T2 SH SP' O]; subst;
        pose proof (n_hd _ _ _ _ _ _ _ _ _ _ _ N) as Q; rewrite HJ in Q; injection Q as <-; try congruence.
      rewrite SJ in S1. injection S1 as _ <- _. eapply thr_head; eauto. }
    destruct HC as [tl' ->].
    assert (C' : In d (ro_ids ro')) by (rewrite F1; apply in_or_app; right; right; now left).
    pose proof (flat_map_same _ _ _ _ _ _ _ (re_ids _ _ _ _ RE) IN IN' (SUB d ID3) C') as <-.
    apply NJ. apply in_rev. apply -> in_rev in ID3. destruct (in_split _ _ ID3) as [l1 [l2 EL]].
    rewrite EL, <- app_assoc in ID2. cbn [app] in ID2. rewrite F1 in ID2, ND.
    replace (ids1 ++ j :: d :: tl') with ((ids1 ++ [j]) ++ d :: tl') in * by (now rewrite <- app_assoc).
    rewrite EL, <- (NoDup_split _ _ _ _ _ _ ND ID2). apply in_or_app. left. apply in_or_app. right. now left.
  - rewrite ID2 in ND. apply NoDup_app in ND as [ND _]. apply NoDup_rev in ND. now rewrite rev_involutive in ND.
  - intros hd k ch rest HD SS d IC ID3. rewrite ID2 in ND. apply NoDup_app in ND as [_ [_ N3]]. apply -> in_rev in ID3. apply (N3 d ID3).
    inversion T as [|v2 id x hd' r rc s e2 k0 N S1|v2 id x hd' r rc s e2 N S1|v2 id x hd' r rc s e2 key ch' rest' k0 ids l N S1 S2 S3 S4 S5 T2 SH SP' O]; subst;
      pose proof (n_hd _ _ _ _ _ _ _ _ _ _ _ N) as Q; rewrite HD in Q; injection Q as <-; try congruence.
    rewrite SS in S1. injection S1 as _ <- _. destruct (thr_head _ _ _ _ _ _ _ _ _ _ T2 IC) as [tl' ->]. now left.
Qed.

(* ------------------------------------------------------------------ *)
(** Operations on other values leave the collections [T] alone. *)
Lemma kill_other : forall n lo t v T, nochild t T -> off T v ->
  (forall c, In c T -> nth_error (kill n lo t v) c = nth_error t c) /\ nochild (kill n lo t v) T.
Proof.
  induction n as [|n IH]; intros lo t v T NC IV; [cbn; auto|]. cbn [kill].
  assert (PD : forall t d, nochild t T -> ~ In d T -> (forall c, In c T -> nth_error (put_state t d SDead) c = nth_error t c) /\ nochild (put_state t d SDead) T).
  { intros t0 d NC0 D. split; [intros c J; apply put_state_other; intros ->; contradiction|]. intros j hd k ch rest HJ SJ. destruct (Nat.eq_dec d j) as [<-|DJ].
    - destruct (nth_error t0 d) as [hd0|] eqn:E0.
      + rewrite (put_state_same _ _ _ _ E0) in HJ. injection HJ as <-. discriminate.
      + unfold put_state in HJ. rewrite E0 in HJ. congruence.
    - rewrite put_state_other in HJ by exact DJ. eapply NC0; eauto. }
  assert (X : forall d, ~ In d T -> (forall c, In c T -> nth_error
    match nth_error t d with None => t | Some h => if s_root h || (d <? lo) then t else match s_state h with SAt _ ch _ => kill n (S d) (put_state t d SDead) ch | _ => put_state t d SDead end end c
      = nth_error t c) /\ nochild match nth_error t d with None => t | Some h => if s_root h || (d <? lo) then t else match s_state h with SAt _ ch _ => kill n (S d) (put_state t d SDead) ch | _ => put_state t d SDead end end T).
  { intros d D. destruct (nth_error t d) as [hd|] eqn:E; [|auto]. destruct (_ || _); [auto|]. destruct (s_state hd) as [|k ch rest| |] eqn:ES; try (apply PD; auto).
    destruct (PD t d NC D) as [P1 P2]. destruct (IH (S d) (put_state t d SDead) ch T P2 (NC _ _ _ _ _ E ES D)) as [K1 K2]. split; [|exact K2]. intros c J. rewrite K1; auto. }
  destruct v as [s|d|d]; [auto| |]; apply X; apply IV; reflexivity.
Qed.
Lemma kill_opt_other : forall lo t o T, nochild t T -> (forall v, o = Some v -> off T v) ->
  forall c, In c T -> nth_error (kill_opt lo t o) c = nth_error t c.
Proof. intros lo t [v|] T NC IV; cbn [kill_opt]; [|reflexivity]. apply kill_other; auto. Qed.
Lemma kill_len : forall n lo t v, length (kill n lo t v) = length t.
Proof.
  induction n as [|n IH]; intros lo t v; [reflexivity|]. cbn [kill]. destruct v as [s|d|d]; [reflexivity| |];
  (destruct (nth_error t d) as [h|]; [|reflexivity]; destruct (_ || _); [reflexivity|]; destruct (s_state h); rewrite ?IH; apply put_state_len).
Qed.
Lemma kill_opt_len : forall lo t o, length (kill_opt lo t o) = length t.
Proof. intros lo t [v|]; [apply kill_len|reflexivity]. Qed.

Lemma move_other : forall t d l c t' b, s_move t d l = (t', b) -> d <> c -> c < length t -> nth_error t' c = nth_error t c.
Proof.
  intros t d l c t' b E D L. unfold s_move in E. destruct l as [|[k x] rest].
  - injection E as <- <-. now apply put_state_other.
  - rewrite alloc_of in E. injection E as <- <-. rewrite put_state_other by exact D. apply nth_error_app1. exact L.
Qed.
Lemma s_get_id : forall t v c hd, s_get t v = Some (c, hd) -> idof v = Some c.
Proof. intros t v c hd H. destruct (s_get_hd _ _ _ _ H) as [_ [->| ->]]; reflexivity. Qed.

Lemma advance_other : forall t v t' b T, s_advance t v = Some (t', b) -> nochild t T -> off T v -> forall c, In c T -> c < length t -> nth_error t' c = nth_error t c.
Proof.
  intros t v t' b T E NC IV c J L. unfold s_advance in E. destruct (s_get t v) as [[d hd]|] eqn:G; [|discriminate].
  pose proof (IV d (s_get_id _ _ _ _ G)) as ND. assert (D : d <> c) by (intros ->; contradiction). destruct (s_get_hd _ _ _ _ G) as [HD _].
  destruct (s_state hd) as [|k ch rest| |] eqn:ES.
  - injection E as E. eapply move_other; eauto.
  - injection E as E. assert (KO : nth_error (kill_opt (S d) t (Some ch)) c = nth_error t c) by (apply (kill_opt_other _ _ _ T); [exact NC| |exact J]; intros w Q; injection Q as <-; exact (NC _ _ _ _ _ HD ES ND)).
    rewrite <- KO. eapply move_other; eauto. now rewrite kill_opt_len.
  - injection E as <- <-. reflexivity.
  - discriminate.
Qed.
(** Moving on the innermost of the collections. *)
Lemma advance_self : forall t v t' c anc hd, s_advance t v = Some (t', true) -> nochild t (c :: anc) -> idof v = Some c -> nth_error t c = Some hd ->
  NoDup (c :: anc) -> (forall d, In d anc -> d < length t) -> (forall k ch rest, s_state hd = SAt k ch rest -> off (c :: anc) ch) ->
  exists k x rest, (s_state hd = SFresh /\ items (s_val hd) = (k, x) :: rest \/ (exists k0 ch0, s_state hd = SAt k0 ch0 ((k, x) :: rest)) \/ s_state hd = SDone) /\
    (s_state hd <> SDone -> nth_error t' c = Some (mkSh (s_val hd) (s_root hd) (SAt k (vof (length t) x) rest)) /\
    (is_coll x = true -> nth_error t' (length t) = Some (mkSh x false SFresh)) /\ forall d, In d anc -> nth_error t' d = nth_error t d).
Proof.
  intros t v t' c anc hd E NC IV HD ND LT CH. unfold s_advance in E. destruct (s_get t v) as [[d hd']|] eqn:G; [|discriminate].
  rewrite (s_get_id _ _ _ _ G) in IV. injection IV as ->. destruct (s_get_hd _ _ _ _ G) as [HD' _]. rewrite HD in HD'. injection HD' as <-.
  assert (LC : c < length t) by (eapply nth_error_lt; eauto). inversion ND as [|? ? N0 _]; subst.
  assert (MV : forall t0 l, nth_error t0 c = Some hd -> length t0 = length t -> (forall d, In d anc -> nth_error t0 d = nth_error t d) -> s_move t0 c l = (t', true) ->
    exists k x rest, l = (k, x) :: rest /\ nth_error t' c = Some (mkSh (s_val hd) (s_root hd) (SAt k (vof (length t) x) rest)) /\
      (is_coll x = true -> nth_error t' (length t) = Some (mkSh x false SFresh)) /\ forall d, In d anc -> nth_error t' d = nth_error t d).
  { intros t0 l H0 LN HA M. unfold s_move in M. destruct l as [|[k x] rest]; [discriminate|]. rewrite alloc_of in M. injection M as <-. rewrite LN. exists k, x, rest. split; [reflexivity|].
    split; [apply put_state_same; rewrite nth_error_app1; [exact H0|lia]|]. split.
    - intro CX. rewrite put_state_other by lia. rewrite <- LN. destruct x; [discriminate| |]; cbn [hof]; apply nth_error_app_last.
    - intros d J. assert (d <> c) by (intros ->; contradiction). rewrite put_state_other by auto. rewrite nth_error_app1 by (rewrite LN; auto). auto. }
  destruct (s_state hd) as [|k ch rest| |] eqn:ES; [| | |discriminate].
  - injection E as E. destruct (MV _ _ HD eq_refl (fun _ _ => eq_refl) E) as [k [x [rest [E1 E2]]]]. exists k, x, rest. split; [left; auto|intros _; exact E2].
  - injection E as E. assert (CO := CH _ _ _ eq_refl). destruct (kill_other (length t) (S c) t ch _ NC CO) as [K1 _].
    destruct (MV _ _ (eq_trans (K1 c (or_introl eq_refl)) HD) (kill_len _ _ _ _) (fun d J => K1 d (or_intror J)) E) as [k' [x [rest' [-> E2]]]].
    exists k', x, rest'. split; [right; left; eauto|intros _; exact E2].
  - injection E as _ E. discriminate.
Qed.
Lemma current_other : forall t v k x T, s_current t v = Some (k, x) -> nochild t T -> off T v -> forall w, x = Some w -> off T w.
Proof.
  intros t v k x T E NC OV w ->. unfold s_current in E. destruct (s_get t v) as [[d hd]|] eqn:G; [|discriminate]. destruct (s_get_hd _ _ _ _ G) as [HD _].
  destruct (s_state hd) as [|k' ch rest| |] eqn:ES; try discriminate. injection E as _ <-. exact (NC _ _ _ _ _ HD ES (OV _ (s_get_id _ _ _ _ G))).
Qed.
Lemma clone_other : forall t v t' w c, s_clone t v = Some (t', w) -> c < length t -> nth_error t' c = nth_error t c /\ idof w <> Some c.
Proof.
  intros t v t' w c E L. assert (X : forall x, alloc t true x = (t', w) -> nth_error t' c = nth_error t c /\ idof w <> Some c).
  { intros x A. rewrite alloc_of in A. injection A as <- <-. split; [now apply nth_error_app1|]. destruct x; cbn; try discriminate; intro Q; injection Q as Q; lia. }
  unfold s_clone in E. destruct v as [s|d|d]; [injection E as <- <-; split; [reflexivity|discriminate]| |];
  (destruct (s_get t _) as [[d' hd]|]; [|discriminate]; destruct (s_state hd); try discriminate; injection E as E; eapply X; eauto).
Qed.
Lemma end_other : forall t d hd s T lo, nochild t T -> nth_error t d = Some hd -> ~ In d T -> forall c, In c T ->
  nth_error (put_state (kill_opt lo t (child_of (s_state hd))) d s) c = nth_error t c.
Proof.
  intros t d hd s T lo NC HD D c J. assert (d <> c) by (intros ->; contradiction). rewrite put_state_other by assumption. apply (kill_opt_other _ _ _ T); [exact NC| |exact J].
  intros v E. destruct (s_state hd) as [|k ch rest| |] eqn:ES; try discriminate. injection E as <-. exact (NC _ _ _ _ _ HD ES D).
Qed.
Lemma detach_other : forall t v t' T, s_detach t v = Some t' -> nochild t T -> off T v -> forall c, In c T -> nth_error t' c = nth_error t c.
Proof.
  intros t v t' T E NC IV c J. unfold s_detach in E. destruct v as [s|d|d]; [injection E as <-; reflexivity| |];
  (destruct (s_get t _) as [[d' hd]|] eqn:G; [|discriminate]; destruct (s_get_hd _ _ _ _ G) as [HD _]; pose proof (IV _ (s_get_id _ _ _ _ G)) as D;
   destruct (s_root hd); [|discriminate]; pose proof (fun s => end_other _ _ _ s T (S d') NC HD D c J) as EO; destruct (s_state hd) eqn:ES; try discriminate; injection E as <-; apply EO).
Qed.
Lemma discard_other : forall t v t' T, s_discard t v = Some t' -> nochild t T -> off T v -> forall c, In c T -> nth_error t' c = nth_error t c.
Proof.
  intros t v t' T E NC IV c J. unfold s_discard in E. destruct v as [s|d|d]; [injection E as <-; reflexivity| |];
  (destruct (s_get t _) as [[d' hd]|] eqn:G; [|discriminate]; destruct (s_get_hd _ _ _ _ G) as [HD _]; pose proof (IV _ (s_get_id _ _ _ _ G)) as D;
   pose proof (fun s => end_other _ _ _ s T (S d') NC HD D c J) as EO; destruct (s_state hd) eqn:ES; try discriminate; injection E as <-; first [reflexivity|apply EO]).
Qed.
Lemma copy_other : forall t v t' ts c, s_copy t v = Some (t', ts) -> idof v <> Some c -> nth_error t' c = nth_error t c.
Proof.
  intros t v t' ts c E IV. unfold s_copy in E. destruct v as [s|d|d]; [injection E as <- <-; reflexivity| |];
  (destruct (s_get t _) as [[d' hd]|] eqn:G; [|discriminate]; rewrite (s_get_id _ _ _ _ G) in IV; destruct (s_state hd); try discriminate; injection E as <- <-; apply put_state_other; congruence).
Qed.

(* ------------------------------------------------------------------ *)
(** Collections that have no further items. *)
Definition spent (t : list shandle) (c : nat) : Prop :=
  exists hd, nth_error t c = Some hd /\ match s_state hd with SFresh => False | SAt _ _ rest => rest = [] | SDone | SDead => True end.
Lemma spent_same : forall t t' c, nth_error t' c = nth_error t c -> spent t c -> spent t' c.
Proof. intros t t' c E [hd [H K]]. exists hd. split; [congruence|exact K]. Qed.
Lemma spent_put : forall t d s c, (s = SDone \/ s = SDead) -> spent t c -> spent (put_state t d s) c.
Proof.
  intros t d s c E SP. destruct (Nat.eq_dec d c) as [->|D]; [|eapply spent_same; [apply put_state_other; exact D|exact SP]].
  destruct SP as [hd [H K]]. eexists. split; [apply put_state_same; exact H|]. destruct E as [->| ->]; exact Logic.I.
Qed.
Lemma spent_kill : forall n lo t v c, spent t c -> spent (kill n lo t v) c.
Proof.
  induction n as [|n IH]; intros lo t v c SP; [exact SP|]. cbn [kill]. destruct v as [s|d|d]; [exact SP| |];
  (destruct (nth_error t d) as [h|]; [|exact SP]; destruct (_ || _); [exact SP|]; destruct (s_state h); try apply IH; apply spent_put; auto).
Qed.
Lemma spent_kill_opt : forall lo t o c, spent t c -> spent (kill_opt lo t o) c.
Proof. intros lo t [v|] c SP; [now apply spent_kill|exact SP]. Qed.
Lemma spent_move : forall t d l c t' b, s_move t d l = (t', b) -> spent t c -> (d = c -> l = []) -> spent t' c /\ (d = c -> b = false).
Proof.
  intros t d l c t' b E SP EL. unfold s_move in E. destruct l as [|[k x] rest].
  - injection E as <- <-. split; [apply spent_put; auto|reflexivity].
  - assert (D : d <> c) by (intro Q; discriminate (EL Q)). split; [|contradiction]. rewrite alloc_of in E. injection E as <- <-.
    eapply spent_same; [rewrite put_state_other by exact D; apply nth_error_app1|exact SP]. destruct SP as [hd [H _]]. eapply nth_error_lt; eauto.
Qed.
Lemma spent_advance : forall t v t' b c, s_advance t v = Some (t', b) -> spent t c -> spent t' c /\ (idof v = Some c -> b = false).
Proof.
  intros t v t' b c E SP. unfold s_advance in E. destruct (s_get t v) as [[d hd]|] eqn:G; [|discriminate]. rewrite (s_get_id _ _ _ _ G). destruct (s_get_hd _ _ _ _ G) as [HD _].
  assert (CV : forall (P : Prop), (d = c -> P) -> Some d = Some c -> P) by (intros P H Q; injection Q as ->; auto).
  assert (K : d = c -> match s_state hd with SFresh => False | SAt _ _ rest => rest = [] | SDone | SDead => True end) by (intros ->; destruct SP as [hd' [H K]]; rewrite HD in H; injection H as <-; exact K).
  destruct (s_state hd) as [|k ch rest| |] eqn:ES.
  - injection E as E. destruct (spent_move _ _ _ c _ _ E SP) as [P1 P2]; [intro Q; destruct (K Q)|]. split; [exact P1|now apply CV].
  - injection E as E. destruct (spent_move _ _ _ c _ _ E (spent_kill_opt _ _ (Some ch) _ SP)) as [P1 P2]; [exact K|]. split; [exact P1|now apply CV].
  - injection E as <- <-. auto.
  - discriminate.
Qed.
Lemma spent_clone : forall t v t' w c, s_clone t v = Some (t', w) -> spent t c -> spent t' c.
Proof. intros t v t' w c E SP. eapply spent_same; [|exact SP]. eapply clone_other; eauto. destruct SP as [hd [H _]]. eapply nth_error_lt; eauto. Qed.
Lemma spent_detach : forall t v t' c, s_detach t v = Some t' -> spent t c -> spent t' c.
Proof.
  intros t v t' c E SP. unfold s_detach in E. destruct v as [s|d|d]; [injection E as <-; exact SP| |];
  (destruct (s_get t _) as [[d' hd]|]; [|discriminate]; destruct (s_root hd); [|discriminate]; destruct (s_state hd); try discriminate; injection E as <-; apply spent_put; auto; now apply spent_kill).
Qed.
Lemma spent_discard : forall t v t' c, s_discard t v = Some t' -> spent t c -> spent t' c.
Proof.
  intros t v t' c E SP. unfold s_discard in E. destruct v as [s|d|d]; [injection E as <-; exact SP| |];
  (destruct (s_get t _) as [[d' hd]|]; [|discriminate]; destruct (s_state hd); try discriminate; injection E as <-; auto; apply spent_put; auto; now apply spent_kill).
Qed.

(* ------------------------------------------------------------------ *)
(** The streams of collections do not change, but for that of a collection that
    is cloned. *)
Section Grow.
Variable grow : Z -> Z -> Z.

Definition fixed (h h' : heap) : Prop := h_iter h' = h_iter h /\ forall c r, stream_of h c = Some r -> stream_of h' c = Some r.
Definition keeps {A} (m : hm A) : Prop := forall h h' x, m h = Ok (h', x) -> fixed h h'.
Definition keeps_at {A} (c : nat) (r : rstream) (m : hm A) : Prop := forall h h' x, stream_of h c = Some r -> m h = Ok (h', x) -> fixed h h'.

Lemma fixed_refl : forall h, fixed h h.
Proof. split; auto. Qed.
Lemma fixed_trans : forall h h1 h2, fixed h h1 -> fixed h1 h2 -> fixed h h2.
Proof. intros h h1 h2 [A B] [A' B']. split; [congruence|auto]. Qed.
Lemma keeps_ret : forall A (x : A), keeps (hret x).
Proof. intros A x h h' y E. injection E as <- <-. apply fixed_refl. Qed.
Lemma keeps_panic : forall A, keeps (@hpanic A).
Proof. intros A h h' y E. discriminate. Qed.
Lemma keeps_fuel : forall A, keeps (@hfuel A).
Proof. intros A h h' y E. discriminate. Qed.
Lemma keeps_bind : forall A B (m : hm A) (f : A -> hm B), keeps m -> (forall x, keeps (f x)) -> keeps (hbind m f).
Proof. intros A B m f M F h h' y E. unfold hbind in E. destruct (m h) as [[h1 x]| |] eqn:E1; try discriminate. eapply fixed_trans; [eapply M|eapply F]; eauto. Qed.
Lemma keeps_any : forall A c r (m : hm A), keeps m -> keeps_at c r m.
Proof. intros A c r m M h h' y _ E. eapply M; eauto. Qed.
Lemma at_bind : forall A B c r (m : hm A) (f : A -> hm B), keeps_at c r m -> (forall x, keeps_at c r (f x)) -> keeps_at c r (hbind m f).
Proof.
  intros A B c r m f M F h h' y S E. unfold hbind in E. destruct (m h) as [[h1 x]| |] eqn:E1; try discriminate. pose proof (M _ _ _ S E1) as K.
  eapply fixed_trans; [exact K|]. eapply F; [|exact E]. now apply K.
Qed.
Lemma keeps_get : forall A c (f : coll -> hm A), (forall x, keeps_at c (c_stream x) (f x)) -> keeps (hbind (get_coll c) f).
Proof.
  intros A c f F h h' y E. unfold hbind, get_coll in E. destruct (nth_error (h_coll h) c) as [x|] eqn:EC; [|discriminate].
  eapply (F x); [|exact E]. unfold stream_of. now rewrite EC.
Qed.
Lemma at_put : forall c x, keeps_at c (c_stream x) (put_coll c x).
Proof.
  intros c x h h' y S E. injection E as <- <-. split; [reflexivity|]. intros d r K. unfold stream_of in *. cbn [set_coll h_coll].
  destruct (Nat.eq_dec c d) as [<-|D]; [|now rewrite nth_error_upd_other].
  destruct (nth_error (h_coll h) c) as [z|] eqn:EZ; [|discriminate]. rewrite nth_error_upd_same by (eapply nth_error_lt; eauto). cbn in *. congruence.
Qed.
Lemma keeps_new : forall x, keeps (new_coll x).
Proof.
  intros x h h' y E. injection E as <- <-. split; [reflexivity|]. intros d r K. unfold stream_of in *. cbn [h_coll].
  destruct (nth_error (h_coll h) d) as [z|] eqn:EZ; [|discriminate]. rewrite nth_error_app1 by (eapply nth_error_lt; eauto). now rewrite EZ.
Qed.
Lemma keeps_pool_op : forall p o, keeps (pool_op grow p o).
Proof.
  intros p o h h' x E. unfold pool_op in E. destruct (nth_error (h_pool h) p) as [[s pl]|]; [|discriminate]. destruct (nth_error (h_src h) s); [|discriminate].
  destruct (step grow _ o) as [[pl' y]| |]; try discriminate. injection E as <- <-. split; auto.
Qed.
Lemma keeps_snext : forall r, keeps (snext grow r).
Proof.
  intros [s|p c]; cbn [snext].
  - intros h h' x E. destruct (nth_error (h_src h) s) as [[|t l]|]; try discriminate; injection E as <- <-; split; auto.
  - apply keeps_bind; [apply keeps_pool_op|]. intros []; first [apply keeps_ret|apply keeps_panic].
Qed.
Lemma keeps_clone_stream : forall r, keeps (clone_stream grow r).
Proof.
  intros [s|p c]; cbn [clone_stream].
  - apply keeps_bind; [intros h h' x E; injection E as <- <-; split; auto|intro p]. apply keeps_bind; [apply keeps_pool_op|intros []; try apply keeps_panic].
    apply keeps_bind; [apply keeps_pool_op|intros []; first [apply keeps_ret|apply keeps_panic]].
  - apply keeps_bind; [apply keeps_pool_op|intros []; first [apply keeps_ret|apply keeps_panic]].
Qed.
Lemma keeps_detach_stream : forall r, keeps (detach_stream grow r).
Proof. intros [s|p c]; cbn [detach_stream]; [apply keeps_panic|]. apply keeps_bind; [apply keeps_pool_op|intro; apply keeps_ret]. Qed.
Lemma keeps_next_value : forall t r, keeps (next_value t r).
Proof. intros [| | | | |s] r; cbn [next_value]; try apply keeps_panic; try apply keeps_ret; (apply keeps_bind; [apply keeps_new|intro; apply keeps_ret]). Qed.
Lemma keeps_drain : forall n r d, keeps (drain grow n r d).
Proof.
  induction n as [|n IH]; intros r d; cbn [drain]; [apply keeps_fuel|]. apply keeps_bind; [apply keeps_snext|intros [t|]]; [|apply keeps_ret].
  destruct (_ <? 0)%Z; [apply keeps_ret|]. apply keeps_bind; [apply IH|intro; apply keeps_ret].
Qed.
Lemma keeps_discard : forall n v, keeps (discard grow n v).
Proof.
  induction n as [|n IH]; intro v; cbn [discard]; [apply keeps_fuel|]. destruct v as [s|c|c]; [apply keeps_ret| |];
  (apply keeps_get; intro x; destruct (c_done x); [apply keeps_any, keeps_ret|]; apply at_bind;
   [apply keeps_any; destruct (c_started x); [destruct (c_val x); [apply IH|apply keeps_panic]|apply keeps_ret]|intros _];
   apply at_bind; [exact (at_put c (set_done x))|intros _]; apply keeps_any, keeps_bind; [apply keeps_drain|intro; apply keeps_ret]).
Qed.
Lemma keeps_copy : forall n v, keeps (copy grow n v).
Proof.
  intros n v. destruct v as [s|c|c]; cbn [copy]; [apply keeps_ret| |];
  (apply keeps_get; intro x; destruct (c_started x); [apply keeps_any, keeps_panic|]; apply at_bind; [exact (at_put c (set_done x))|intros _];
   apply keeps_any, keeps_bind; [apply keeps_drain|intro; apply keeps_ret]).
Qed.
Lemma keeps_advance : forall n c, keeps (advance grow n c).
Proof.
  induction n as [|n IH]; intro c; cbn [advance]; [apply keeps_fuel|]. apply keeps_get. intro x. destruct (c_done x); [apply keeps_any, keeps_ret|].
  apply at_bind; [apply keeps_any; unfold discard_current; destruct (c_started x); [destruct (c_val x); [apply keeps_discard|apply keeps_panic]|apply keeps_ret]|intros _].
  apply at_bind; [apply keeps_any, keeps_snext|intros [t|]]; [|apply keeps_any, keeps_panic].
  assert (NV : forall t k, keeps_at c (c_stream x) (ldo v <- next_value t (c_stream x) ; put_coll c (set_current x k v) ;; hret true)).
  { intros t' k. apply at_bind; [apply keeps_any, keeps_next_value|intro v]. apply at_bind; [exact (at_put c (set_current x k v))|intro; apply keeps_any, keeps_ret]. }
  assert (EL : keeps_at c (c_stream x) (put_coll c (set_elided x) ;; advance grow n c)) by (apply at_bind; [exact (at_put c (set_elided x))|intros _; apply keeps_any, IH]).
  assert (DN : keeps_at c (c_stream x) (put_coll c (set_done x) ;; hret false)) by (apply at_bind; [exact (at_put c (set_done x))|intros _; apply keeps_any, keeps_ret]).
  destruct (c_obj x).
  - destruct t; try apply keeps_any, keeps_panic; auto. apply at_bind; [apply keeps_any, keeps_snext|intros [t|]]; [|apply keeps_any, keeps_panic]. apply NV.
  - destruct t; auto.
Qed.
Lemma keeps_coll_of : forall v, keeps (coll_of v).
Proof. intros [s|c|c]; cbn [coll_of]; first [apply keeps_panic|apply keeps_ret]. Qed.
Lemma keeps_detach : forall v, keeps (detach grow v).
Proof. intros [s|c|c]; cbn [detach]; [apply keeps_ret| |]; (apply keeps_get; intro x; apply keeps_any, keeps_detach_stream). Qed.
(** Clone. *)
Lemma clone_fixed : forall v h h' x, clone grow v h = Ok (h', x) -> h_iter h' = h_iter h /\
  forall c r, idof v <> Some c -> stream_of h c = Some r -> stream_of h' c = Some r.
Proof.
  assert (X : forall c0 h h' x, (ldo x <- get_coll c0 ; if c_started x then hpanic else
        ldo rs <- clone_stream grow (c_stream x) ; put_coll c0 (set_stream x (fst rs)) ;;
        ldo c' <- new_coll (mkColl (c_obj x) (snd rs) false (c_done x) (c_elided x) None (c_val x)) ;
        hret (if c_obj x then VObj c' else VArr c')) h = Ok (h', x) -> h_iter h' = h_iter h /\
        forall c r, c0 <> c -> stream_of h c = Some r -> stream_of h' c = Some r).
  { intros c0 h h' y E. unfold hbind at 1, get_coll in E. destruct (nth_error (h_coll h) c0) as [x|] eqn:EC; [|discriminate].
    destruct (c_started x); [discriminate|]. unfold hbind at 1 in E. destruct (clone_stream grow (c_stream x) h) as [[h1 rs]| |] eqn:E1; try discriminate.
    destruct (keeps_clone_stream _ _ _ _ E1) as [I1 S1]. unfold hbind, put_coll, new_coll, hret in E. injection E as <- _. cbn [set_coll h_iter h_coll]. split; [exact I1|].
    intros c r D S. specialize (S1 c r S). unfold stream_of in *. cbn [h_coll]. destruct (nth_error (h_coll h1) c) as [z|] eqn:EZ; [|discriminate].
    rewrite nth_error_app1 by (rewrite upd_length; eapply nth_error_lt; eauto). rewrite nth_error_upd_other by exact D. now rewrite EZ. }
  intros [s|c0|c0] h h' x E; cbn [clone] in E.
  - injection E as <- <-. auto.
  - destruct (X _ _ _ _ E) as [A B]. split; [exact A|]. intros c r D. apply B. intros ->. apply D. reflexivity.
  - destruct (X _ _ _ _ E) as [A B]. split; [exact A|]. intros c r D. apply B. intros ->. apply D. reflexivity.
Qed.
(** An item has the stream of its collection. *)
Lemma advance_item : forall n c h h' r, advance grow n c h = Ok (h', true) -> stream_of h c = Some r ->
  exists y, nth_error (h_coll h') c = Some y /\ forall v d, c_val y = Some v -> idof v = Some d -> stream_of h' d = Some r.
Proof.
  induction n as [|n IH]; intros c h h' r E SO; [discriminate|]. cbn [advance] in E. unfold hbind at 1, get_coll in E. unfold stream_of in SO.
  destruct (nth_error (h_coll h) c) as [x|] eqn:EC; [|discriminate]. cbn [option_map] in SO. injection SO as SO.
  destruct (c_done x); [discriminate|]. unfold hbind at 1 in E. destruct (discard_current grow n x h) as [[h1 u1]| |] eqn:E1; try discriminate.
  assert (K1 : fixed h h1) by (unfold discard_current in E1; destruct (c_started x); [destruct (c_val x); [eapply keeps_discard; eauto|discriminate]|eapply keeps_ret; eauto]).
  unfold hbind at 1 in E. destruct (snext grow (c_stream x) h1) as [[h2 item]| |] eqn:E2; try discriminate. pose proof (fixed_trans _ _ _ K1 (keeps_snext _ _ _ _ E2)) as K2. clear E1 E2 K1.
  assert (S2 : stream_of h2 c = Some r) by (apply K2; unfold stream_of; rewrite EC; cbn; congruence).
  destruct item as [t|]; [|discriminate].
  assert (NV : forall t k h3, stream_of h3 c = Some r -> (ldo v <- next_value t (c_stream x) ; put_coll c (set_current x k v) ;; hret true) h3 = Ok (h', true) ->
    exists y, nth_error (h_coll h') c = Some y /\ forall v d, c_val y = Some v -> idof v = Some d -> stream_of h' d = Some r).
  { intros t' k h3 S3 F. unfold hbind at 1 in F. destruct (next_value t' (c_stream x) h3) as [[h4 v]| |] eqn:E4; try discriminate. unfold hbind, put_coll, hret in F. injection F as <-.
    assert (L4 : c < length (h_coll h4)).
    { pose proof (proj2 (keeps_next_value _ _ _ _ _ E4) c r S3) as S4. unfold stream_of in S4. destruct (nth_error (h_coll h4) c) eqn:N4; [|discriminate]. eapply nth_error_lt; eauto. }
    eexists. split; [cbn [set_coll h_coll]; apply nth_error_upd_same; exact L4|]. cbn [set_current c_val]. intros v' d Q IV. injection Q as <-.
    unfold stream_of. cbn [set_coll h_coll]. assert (D : c <> d).
    { intros ->. unfold stream_of in S3. destruct (nth_error (h_coll h3) d) eqn:N3; [|discriminate]. pose proof (nth_error_lt _ _ _ _ N3) as L3.
      destruct t'; cbn in E4; try discriminate; injection E4 as <- <-; cbn in IV; try discriminate; injection IV as IV; lia. }
    rewrite nth_error_upd_other by exact D.
    destruct t'; cbn in E4; try discriminate; injection E4 as <- <-; cbn in IV; try discriminate; injection IV as <-; cbn [h_coll]; rewrite nth_error_app_last; cbn; congruence. }
  assert (EL : forall h3, stream_of h3 c = Some r -> (put_coll c (set_elided x) ;; advance grow n c) h3 = Ok (h', true) ->
    exists y, nth_error (h_coll h') c = Some y /\ forall v d, c_val y = Some v -> idof v = Some d -> stream_of h' d = Some r).
  { intros h3 S3 F. unfold hbind, put_coll in F. eapply IH; [exact F|]. unfold stream_of in *. cbn [set_coll h_coll]. destruct (nth_error (h_coll h3) c) eqn:N3; [|discriminate].
    rewrite nth_error_upd_same by (eapply nth_error_lt; eauto). cbn. congruence. }
  destruct (c_obj x).
  - destruct t; try discriminate; [eapply EL; eauto|]. unfold hbind at 1 in E. destruct (snext grow (c_stream x) h2) as [[h3 item2]| |] eqn:E3; try discriminate.
    destruct item2 as [t2|]; [|discriminate]. eapply NV; [|exact E]. apply (keeps_snext _ _ _ _ E3). exact S2.
  - destruct t; try discriminate; first [eapply EL; eauto; fail|eapply NV; eauto].
Qed.
End Grow.

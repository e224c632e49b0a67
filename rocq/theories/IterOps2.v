(** Reading the current item, copying, discarding and cloning collections. *)
From Coq Require Import List ZArith Arith Bool Lia.
From Verif Require Import Base Tokens JsonSpec EncSpec CursorModel CursorSpec CursorProofs IterModel IterSpec IterCore IterThr IterRel IterOps.

Section Grow.
Variable grow : Z -> Z -> Z.

Lemma root_in : forall g h st roots R1 ro R2 V c v r e ids1 ids2,
  rel g h st roots -> place g h st roots R1 ro R2 V c v r e ids1 ids2 -> root_ok g h st ro.
Proof.
  intros g h st roots R1 ro R2 V c v r e ids1 ids2 RE PL. apply (re_ok _ _ _ _ RE).
  rewrite (pl_roots _ _ _ _ _ _ _ _ _ _ _ _ _ _ PL). apply in_or_app. right. now left.
Qed.

(** A collection that has been read to its end. *)
Lemma done_rel : forall g h st roots R1 ro R2 V c v r e ids1 ids2 x hd rc g' h' tk x',
  rel g h st roots -> place g h st roots R1 ro R2 V c v r e ids1 ids2 ->
  node g h (st_coll st) v c x hd r rc (ro_src ro) e ->
  eff g h g' h' [rc; ro_leaf ro] (c :: ids2) -> length (h_coll h') = length (h_coll h) ->
  killed (st_coll st) tk ids2 ->
  gpos g' rc = Some (ro_src ro, e) ->
  nth_error (h_coll h') c = Some x' -> c_done x' = true -> c_obj x' = c_obj x -> c_stream x' = c_stream x ->
  exists roots', relx g roots g' h' (mkSt (put_state tk c SDone) (st_iter st)) roots'.
Proof.
  intros g h st roots R1 ro R2 V c v r e ids1 ids2 x hd rc g' h' tk x' RE PL N EF LE KL G X' D' OB' ST'.
  pose proof (n_hd _ _ _ _ _ _ _ _ _ _ _ N) as HD.
  destruct (place_hd _ _ _ _ _ _ _ _ _ _ _ _ _ _ _ PL HD) as [x0 [rc0 [N0 [RC AC]]]].
  destruct (node_unique _ _ _ _ _ _ _ _ _ _ _ _ _ _ _ _ _ _ N N0) as [-> [_ ->]].
  pose proof (pl_sub _ _ _ _ _ _ _ _ _ _ _ _ _ _ PL) as T.
  destruct (thr_ids _ _ _ _ _ _ _ _ _ T) as [IND ILT].
  assert (NCI : ~ In c ids2) by (inversion IND; auto).
  assert (LT : length (st_coll st) = length (h_coll h)) by apply (re_lenc _ _ _ _ RE).
  assert (EFb : eff g h g' h' [ro_base ro; ro_leaf ro] (c :: ids2)).
  { eapply eff_weaken; [exact EF| |apply incl_refl].
    intros q [<-|[<-|[]]]; [destruct RC as [->| ->]; [now left|right; now left]|right; now left]. }
  assert (ACT : r = RSrc (ro_src ro) \/ act g' (ro_src ro) = act g (ro_src ro)).
  { eapply AC; [|apply (ef_act _ _ _ _ _ _ EF)]. intros q [<-|[<-|[]]]; auto. }
  assert (RNI : r = RSrc (ro_src ro) -> rc <> r -> ~ In (RSrc (ro_src ro)) [rc; ro_leaf ro]).
  { intros -> NE [Q|[Q|[]]]; [congruence|].
    destruct RC as [RC|RC]; [|congruence].
    destruct (n_sw _ _ _ _ _ _ _ _ _ _ _ N) as [Q'|[_ [p [q [i [Q' _]]]]]]; [congruence|].
    destruct (root_leaf _ _ _ _ (root_in _ _ _ _ _ _ _ _ _ _ _ _ _ _ RE PL)) as [_ [LB _]].
    rewrite (LB p q) in Q; congruence. }
  destruct KL as [KL1 KL2].
  assert (HDk : nth_error tk c = Some hd) by (destruct (KL2 c) as [_ Q]; rewrite Q; auto).
  assert (DEADk : forall j hd', nth_error tk j = Some hd' -> s_state hd' <> SDead -> ~ In j ids2).
  { intros j hd' E1 E2 J. destruct (KL2 j) as [Q _]. destruct (Q J) as [hd2 [_ Q2]]. rewrite E1 in Q2. injection Q2 as ->.
    apply E2. reflexivity. }
  set (t' := put_state tk c SDone).
  assert (HD' : nth_error t' c = Some (mkSh (s_val hd) (s_root hd) SDone)) by (apply put_state_same; exact HDk).
  apply (rel_thread g h st roots R1 ro R2 V c v r e ids1 ids2 g' h' t' [] rc [] RE PL EFb ACT).
  - unfold t'. rewrite put_state_len. congruence.
  - intros j Lj NJ. unfold t'. rewrite put_state_other by (intros ->; apply NJ; now left).
    apply KL2. intro J. apply NJ. now right.
  - intros hd0 E0. rewrite HD in E0. injection E0 as <-. eexists. split; [exact HD'|reflexivity].
  - assert (N' : node g' h' t' v c x' (mkSh (s_val hd) (s_root hd) SDone) r rc (ro_src ro) e);
      [|eapply t_done; [exact N'|reflexivity|exact D'|exact G]].
    eapply node_next; [exact N|apply (ef_gle _ _ _ _ _ _ EF)|apply (ef_act _ _ _ _ _ _ EF)|exact RNI|exact X'| | |exact HD'|reflexivity]; congruence.
  - intros j [].
  - tauto.
  - intros n [].
  - constructor.
  - constructor.
  - constructor.
  - intros j hd' E1 E2. unfold t' in E1. destruct (Nat.eq_dec c j) as [<-|NE]; [right; left; now left|].
    rewrite put_state_other in E1 by exact NE. left. split.
    + rewrite <- KL1. eapply nth_error_lt; exact E1.
    + intros [Q|Q]; [congruence|]. now apply (DEADk j hd').
Qed.

(** CurrentValue and CurrentKeyVal. *)
Lemma op_keyval : forall g h st roots v x,
  rel g h st roots -> s_current (st_coll st) v = Some x -> current_key_val v h = Ok (h, x).
Proof.
  intros g h st roots v y RE SC. unfold s_current in SC.
  destruct (s_get (st_coll st) v) as [[c hd]|] eqn:SG; [|discriminate].
  destruct (s_get_hd _ _ _ _ SG) as [HD HV].
  assert (ND : s_state hd <> SDead) by (destruct (s_state hd); congruence).
  destruct (place_ok _ _ _ _ _ _ _ RE SG ND) as [R1 [ro [R2 [V [r [e [ids1 [ids2 PL]]]]]]]].
  destruct (place_hd _ _ _ _ _ _ _ _ _ _ _ _ _ _ _ PL HD) as [x [rc [N [RC _]]]].
  pose proof (pl_sub _ _ _ _ _ _ _ _ _ _ _ _ _ _ PL) as T.
  assert (E : c_done x = false /\ (c_key x, c_val x) = y).
  { destruct (s_state hd) as [|key ch rest| |] eqn:S; try discriminate; injection SC as <-.
    - destruct (sub_fresh _ _ _ _ _ _ _ _ _ _ _ _ _ T N S) as [_ [F2 [F3 [F4 _]]]]. split; congruence.
    - destruct (sub_at _ _ _ _ _ _ _ _ _ _ _ _ _ _ _ _ T N S) as [_ [F2 [F3 [F4 _]]]]. split; congruence. }
  destruct E as [E1 E2]. pose proof (n_x _ _ _ _ _ _ _ _ _ _ _ N) as X.
  destruct HV as [->| ->]; unfold current_key_val, coll_of, get_coll, hbind, hret; rewrite X, E1, E2; reflexivity.
Qed.

Lemma op_current : forall g h st roots v x,
  rel g h st roots -> s_current (st_coll st) v = Some x -> current_value v h = Ok (h, snd x).
Proof.
  intros g h st roots v x RE SC. pose proof (op_keyval _ _ _ _ _ _ RE SC) as E.
  unfold current_key_val, current_value, hbind, hret in *.
  destruct (coll_of v h) as [[h1 c]| |]; try discriminate.
  destruct (get_coll c h1) as [[h2 y]| |]; try discriminate.
  destruct (c_done y); [discriminate|]. injection E as <- <-. reflexivity.
Qed.

Lemma op_discard_x : forall g h st roots v t',
  rel g h st roots -> s_discard (st_coll st) v = Some t' ->
  exists n0 h' g' roots',
    (forall n, n0 <= n -> discard grow n v h = Ok (h', tt)) /\ relx g roots g' h' (mkSt t' (st_iter st)) roots'.
Proof.
  intros g h st roots v t' RE SD.
  assert (SC : (exists sc, v = VScalar sc /\ t' = st_coll st) \/ exists c hd, s_get (st_coll st) v = Some (c, hd) /\
    match s_state hd with
    | SDead => False
    | SDone => t' = st_coll st
    | s => t' = put_state (kill_opt (S c) (st_coll st) (child_of s)) c SDone
    end).
  { unfold s_discard in SD. destruct v as [sc|j|j].
    - left. exists sc. split; congruence.
    - right. destruct (s_get (st_coll st) (VArr j)) as [[c hd]|]; [|discriminate].
      exists c, hd. split; [reflexivity|]. destruct (s_state hd); congruence.
    - right. destruct (s_get (st_coll st) (VObj j)) as [[c hd]|]; [|discriminate].
      exists c, hd. split; [reflexivity|]. destruct (s_state hd); congruence. }
  clear SD. destruct SC as [[sc [-> ->]]|[c [hd [SG SD]]]].
  { exists 1, h, g, roots. split; [|destruct st; apply relx_refl; exact RE]. intros [|n] L; [lia|reflexivity]. }
  destruct (s_get_hd _ _ _ _ SG) as [HD HV].
  assert (ND : s_state hd <> SDead) by (destruct (s_state hd); congruence).
  destruct (place_ok _ _ _ _ _ _ _ RE SG ND) as [R1 [ro [R2 [V [r [e [ids1 [ids2 PL]]]]]]]].
  destruct (place_hd _ _ _ _ _ _ _ _ _ _ _ _ _ _ _ PL HD) as [x [rc [N [RC _]]]].
  pose proof (pl_sub _ _ _ _ _ _ _ _ _ _ _ _ _ _ PL) as T.
  pose proof (re_core _ _ _ _ RE) as C.
  pose proof (kill_child _ _ _ _ _ _ _ _ _ _ _ _ _ T N ND) as KL.
  destruct (s_state hd) as [|key ch rest| |] eqn:S; [| | |congruence].
  - destruct (sub_fresh _ _ _ _ _ _ _ _ _ _ _ _ _ T N S) as [F1 [F2 [F3 [F4 [F5 [F6 [k [G SP]]]]]]]].
    destruct (discard_step grow g h (st_coll st) v c x hd r rc (ro_src ro) e k (items (s_val hd)) (ro_leaf ro) ids2 N C F2)
      as [n0 [h' [g' [D [EF [G' [X' LE]]]]]]]; auto.
    { exists 0, h, g. split; [|split; [now apply eff_refl|auto]]. intros n _. unfold discard_current. now rewrite F1. }
    destruct (done_rel _ _ _ _ _ _ _ _ _ _ _ _ _ _ _ _ _ _ _ _ (set_done x) RE PL N EF LE KL G' X') as [roots' RE']; auto.
    subst t'. exists n0, h', g', roots'. auto.
  - destruct (sub_at _ _ _ _ _ _ _ _ _ _ _ _ _ _ _ _ T N S) as [F1 [F2 [F3 [F4 [F5 [F6 [k [T1 SP]]]]]]]].
    destruct (discard_ok grow _ _ _ _ _ _ _ _ _ T1 C) as [m0 [h1 [g1 [D1 [EF1 [G1 [ID LE1]]]]]]].
    destruct (discard_step grow g h (st_coll st) v c x hd r rc (ro_src ro) e k rest (ro_leaf ro) ids2 N C F2)
      as [n0 [h' [g' [D [EF [G' [X' LE]]]]]]]; auto.
    { exists m0, h1, g1. split; [|auto]. intros n L. unfold discard_current. rewrite F1, F4. auto. }
    destruct (done_rel _ _ _ _ _ _ _ _ _ _ _ _ _ _ _ _ _ _ _ _ (set_done x) RE PL N EF LE KL G' X') as [roots' RE']; auto.
    subst t'. exists n0, h', g', roots'. auto.
  - subst t'. destruct (sub_done _ _ _ _ _ _ _ _ _ _ _ _ _ T N S) as [F1 _].
    exists 1, h, g, roots. split; [|destruct st; apply relx_refl; exact RE].
    intros [|n] L; [lia|]. apply idle_discard. rewrite (n_v _ _ _ _ _ _ _ _ _ _ _ N).
    destruct (c_obj x); cbn [idle]; exists x; (split; [apply (n_x _ _ _ _ _ _ _ _ _ _ _ N)|exact F1]).
Qed.

Lemma op_copy_x : forall g h st roots v t' ts,
  rel g h st roots -> s_copy (st_coll st) v = Some (t', ts) ->
  exists n0 h' g' roots',
    (forall n, n0 <= n -> copy grow n v h = Ok (h', ts)) /\ relx g roots g' h' (mkSt t' (st_iter st)) roots'.
Proof.
  intros g h st roots v t' ts RE SD.
  assert (SC : (exists sc, v = VScalar sc /\ t' = st_coll st /\ ts = [TScalar sc]) \/
    exists c hd, s_get (st_coll st) v = Some (c, hd) /\ s_state hd = SFresh /\
      t' = put_state (st_coll st) c SDone /\ ts = toks (s_val hd)).
  { unfold s_copy in SD. destruct v as [sc|j|j].
    - left. exists sc. injection SD as <- <-. auto.
    - right. destruct (s_get (st_coll st) (VArr j)) as [[c hd]|]; [|discriminate].
      exists c, hd. destruct (s_state hd); try discriminate. injection SD as <- <-. auto.
    - right. destruct (s_get (st_coll st) (VObj j)) as [[c hd]|]; [|discriminate].
      exists c, hd. destruct (s_state hd); try discriminate. injection SD as <- <-. auto. }
  clear SD. destruct SC as [[sc [-> [-> ->]]]|[c [hd [SG [S [-> ->]]]]]].
  { exists 0, h, g, roots. split; [|destruct st; apply relx_refl; exact RE]. reflexivity. }
  destruct (s_get_hd _ _ _ _ SG) as [HD HV].
  assert (ND : s_state hd <> SDead) by congruence.
  destruct (place_ok _ _ _ _ _ _ _ RE SG ND) as [R1 [ro [R2 [V [r [e [ids1 [ids2 PL]]]]]]]].
  destruct (place_hd _ _ _ _ _ _ _ _ _ _ _ _ _ _ _ PL HD) as [x [rc [N [RC _]]]].
  pose proof (pl_sub _ _ _ _ _ _ _ _ _ _ _ _ _ _ PL) as T.
  pose proof (re_core _ _ _ _ RE) as C.
  destruct (sub_fresh _ _ _ _ _ _ _ _ _ _ _ _ _ T N S) as [F1 [F2 [F3 [F4 [F5 [F6 [k [G SP]]]]]]]]. subst ids2.
  set (h1 := set_coll h c (set_done x)).
  pose proof (eff_put g h c (set_done x) [rc; ro_leaf ro] C) as EF1. fold h1 in EF1.
  destruct (drain_ok grow (tail_toks (s_val hd) (items (s_val hd))) 0 g h1 rc (ro_src ro) k e) as [h' [g' [D [EF2 [O G']]]]]; auto.
  { apply closes_tail. }
  { apply (ef_core _ _ _ _ _ _ EF1). }
  { apply (n_lim _ _ _ _ _ _ _ _ _ _ _ N). }
  pose proof (n_x _ _ _ _ _ _ _ _ _ _ _ N) as X. pose proof (nth_error_lt _ _ _ _ X) as LX. destruct O as [O1 O2].
  assert (EF : eff g h g' h' [rc; ro_leaf ro] [c]).
  { eapply eff_trans; [exact EF1|]. eapply eff_weaken; [exact EF2| |].
    - intros q [<-|[]]. now left.
    - intros q []. }
  destruct (done_rel g h st roots R1 ro R2 V c v r e ids1 [] x hd rc g' h' (st_coll st) (set_done x) RE PL N EF) as [roots' RE']; auto.
  { rewrite O1. unfold h1. cbn [set_coll h_coll]. apply upd_length. }
  { apply killed_nil. }
  { rewrite O1. unfold h1. cbn [set_coll h_coll]. now apply nth_error_upd_same. }
  exists (Datatypes.S (length (tail_toks (s_val hd) (items (s_val hd))))), h', g', roots'. split; [|exact RE'].
  intros n L. rewrite (toks_coll _ (n_coll _ _ _ _ _ _ _ _ _ _ _ N)).
  assert (K : start_tok (s_val hd) = if c_obj x then TStartObj else TStartArr).
  { rewrite (n_kind _ _ _ _ _ _ _ _ _ _ _ N). destruct (s_val hd); reflexivity. }
  rewrite K. destruct HV as [->| ->]; cbn [copy]; unfold hbind, get_coll, put_coll; rewrite X, F1;
  fold h1; rewrite (n_rc _ _ _ _ _ _ _ _ _ _ _ N), D by lia; reflexivity.
Qed.

(** CloneReadStream, on a cursor or on a source. *)
Lemma clone_any : forall g h r s k e,
  core g h -> gpos g r = Some (s, k) -> k <= e <= lim g r ->
  exists h1 g1 ra rb, clone_stream grow r h = Ok (h1, (ra, rb)) /\ same_objs h h1 /\ eff g h g1 h1 [r] [] /\
    (ra = r \/ (r = RSrc s /\ (exists p c i, ra = RCur p c /\ act g1 s = Some p /\
                  nth_error (g_P g1) p = Some i /\ pi_e i = e) /\ gpos g ra = None)) /\
    (forall s', r <> RSrc s' -> act g1 s' = act g s') /\
    is_cur ra /\ is_cur rb /\ gpos g rb = None /\ ra <> rb /\
    gpos g1 ra = Some (s, k) /\ gpos g1 rb = Some (s, k) /\ e <= lim g1 ra /\ e <= lim g1 rb.
Proof.
  intros g h r s k e C G L. pose proof (gpos_on _ _ _ _ _ C G) as ON. destruct r as [s'|p c].
  - assert (s' = s) by (destruct ON; auto). subst s'.
    destruct (clone_source_ok grow g h s k e C G) as [h1 [g1 [p [E [O [C1 [L1 [AC [EP [[i [I1 [I2 I3]]] [G0 [G1 P]]]]]]]]]]]].
    { cbn [lim] in L. exact L. }
    assert (NG : forall c, gpos g (RCur p c) = None).
    { intro c. cbn [gpos]. destruct (nth_error (g_P g) p) as [j|] eqn:E'; [|reflexivity].
      apply nth_error_lt in E'. lia. }
    exists h1, g1, (RCur p 0), (RCur p 1). split; [exact E|]. split; [exact O|]. split.
    { destruct O as [O1 O2]. constructor; auto.
      - rewrite O1. lia.
      - intros. now rewrite O1.
      - intros r N. apply P. intros ->. apply N. now left.
      - intro s'. rewrite AC. destruct (Nat.eqb_spec s s'); [right; left; congruence|now left]. }
    split.
    { right. split; [reflexivity|]. split; [|apply NG]. exists p, 0, i. rewrite AC, Nat.eqb_refl. auto. }
    split.
    { intros s' N. rewrite AC. destruct (Nat.eqb_spec s s'); [congruence|reflexivity]. }
    split; [now exists p, 0|]. split; [now exists p, 1|]. split; [apply NG|]. split; [discriminate|].
    split; [exact G0|]. split; [exact G1|]. cbn [lim]. rewrite I1. lia.
  - destruct (clone_cursor_ok grow g h p c s k C G) as [h1 [g1 [c' [E [O [C1 [L1 [AC [G0 [G1 P]]]]]]]]]].
    exists h1, g1, (RCur p c), (RCur p c'). split; [exact E|]. split; [exact O|]. split.
    { destruct O as [O1 O2]. constructor; auto.
      - rewrite O1. lia.
      - intros. now rewrite O1.
      - intro s'. left. unfold act. now rewrite AC. }
    split; [now left|]. split; [intros; unfold act; now rewrite AC|].
    split; [now exists p, c|]. split; [now exists p, c'|]. split; [exact G0|].
    split; [intro Q; injection Q as ->; congruence|].
    split; [rewrite P; congruence|]. split; [exact G1|].
    pose proof (lim_gle _ _ _ _ L1 ON) as Q. cbn [lim] in *. rewrite Q. lia.
Qed.

Lemma op_clone_x : forall g h st roots v t' w,
  rel g h st roots -> s_clone (st_coll st) v = Some (t', w) ->
  exists h' g' roots', clone grow v h = Ok (h', w) /\ relx g roots g' h' (mkSt t' (st_iter st)) roots'.
Proof.
  intros g h st roots v t' w RE SD.
  assert (SC : (exists sc, v = VScalar sc /\ t' = st_coll st /\ w = v) \/
    exists c hd, s_get (st_coll st) v = Some (c, hd) /\ s_state hd = SFresh /\
      (t', w) = alloc (st_coll st) true (s_val hd)).
  { unfold s_clone in SD. destruct v as [sc|j|j].
    - left. exists sc. injection SD as <- <-. auto.
    - right. destruct (s_get (st_coll st) (VArr j)) as [[c hd]|]; [|discriminate].
      exists c, hd. destruct (s_state hd); try discriminate. injection SD as SD. auto.
    - right. destruct (s_get (st_coll st) (VObj j)) as [[c hd]|]; [|discriminate].
      exists c, hd. destruct (s_state hd); try discriminate. injection SD as SD. auto. }
  clear SD. destruct SC as [[sc [-> [-> ->]]]|[c [hd [SG [S AL]]]]].
  { exists h, g, roots. split; [|destruct st; apply relx_refl; exact RE]. reflexivity. }
  destruct (s_get_hd _ _ _ _ SG) as [HD HV].
  assert (ND : s_state hd <> SDead) by congruence.
  destruct (place_ok _ _ _ _ _ _ _ RE SG ND) as [R1 [ro [R2 [V [r [e [ids1 [ids2 PL]]]]]]]].
  destruct (place_hd _ _ _ _ _ _ _ _ _ _ _ _ _ _ _ PL HD) as [x [rc [N [RC _]]]].
  pose proof (pl_sub _ _ _ _ _ _ _ _ _ _ _ _ _ _ PL) as T.
  pose proof (re_core _ _ _ _ RE) as C.
  destruct (sub_fresh _ _ _ _ _ _ _ _ _ _ _ _ _ T N S) as [F1 [F2 [F3 [F4 [F5 [F6 [k [G SP]]]]]]]]. subst ids2.
  pose proof (n_lim _ _ _ _ _ _ _ _ _ _ _ N) as LI.
  destruct (clone_any g h rc (ro_src ro) k e C G) as [h1 [g1 [ra [rb [E [[O1 O2] [EF1 [SW [AC [CA [CB [GB [NE [GA1 [GB1 [LA LB]]]]]]]]]]]]]]]].
  { split; [|exact LI]. destruct SP as [-> _]. lia. }
  pose proof (n_x _ _ _ _ _ _ _ _ _ _ _ N) as X. pose proof (nth_error_lt _ _ _ _ X) as LX.
  assert (LT : length (st_coll st) = length (h_coll h)) by apply (re_lenc _ _ _ _ RE).
  set (m := length (st_coll st)) in *.
  assert (CO := n_coll _ _ _ _ _ _ _ _ _ _ _ N). assert (KD := n_kind _ _ _ _ _ _ _ _ _ _ _ N).
  set (x1 := set_stream x ra).
  set (h2 := set_coll h1 c x1).
  set (y := mkColl (c_obj x) rb false (c_done x) (c_elided x) None (c_val x)).
  set (h3 := add_colls h2 [y]).
  rewrite alloc_of in AL. fold m in AL. injection AL as -> ->.
  set (t' := st_coll st ++ hof (s_val hd) true).
  assert (HOF : hof (s_val hd) true = [mkSh (s_val hd) true SFresh]) by (destruct (s_val hd); [discriminate|reflexivity|reflexivity]).
  assert (C1 := ef_core _ _ _ _ _ _ EF1). assert (L1 := ef_gle _ _ _ _ _ _ EF1).
  assert (EFp := eff_put g1 h1 c x1 [rc] C1). fold h2 in EFp.
  assert (EFa : eff g1 h2 g1 h3 [rc] [c]).
  { constructor; auto.
    - eapply core_objs; [apply (ef_core _ _ _ _ _ _ EFp)| |]; reflexivity.
    - apply gle_refl.
    - unfold h3. cbn [add_colls h_coll]. rewrite app_length. lia.
    - intros j Lj _. unfold h3. cbn [add_colls h_coll]. now apply nth_error_app_l. }
  assert (EF : eff g h g1 h3 [rc] [c]).
  { eapply eff_trans; [|eapply eff_trans; [exact EFp|exact EFa]]. eapply eff_weaken; [exact EF1|apply incl_refl|intros q []]. }
  assert (EFb : eff g h g1 h3 [ro_base ro; ro_leaf ro] [c]).
  { eapply eff_weaken; [exact EF| |apply incl_refl].
    intros q [<-|[]]. right. left. exact F6. }
  assert (LH2 : length (h_coll h2) = m) by (unfold h2; cbn [set_coll h_coll]; rewrite upd_length; congruence).
  assert (X1 : nth_error (h_coll h3) c = Some x1).
  { unfold h3. cbn [add_colls h_coll]. rewrite nth_error_app_l by lia. unfold h2. cbn [set_coll h_coll].
    apply nth_error_upd_same. congruence. }
  assert (HD' : nth_error t' c = Some hd) by (unfold t'; rewrite nth_error_app_l by lia; exact HD).
  assert (FU : full g1 (ro_src ro) = full g (ro_src ro)) by (apply (full_on _ _ _ _ L1 (n_src _ _ _ _ _ _ _ _ _ _ _ N))).
  assert (RUN : clone grow v h = Ok (h3, vof m (s_val hd))).
  { assert (VO : vof m (s_val hd) = if c_obj x then VObj m else VArr m).
    { rewrite KD. destruct (s_val hd); [discriminate|reflexivity|reflexivity]. }
    rewrite VO. destruct HV as [->| ->]; cbn [clone]; unfold hbind, get_coll, put_coll, new_coll; rewrite X, F1,
      (n_rc _ _ _ _ _ _ _ _ _ _ _ N), E; cbn [fst snd]; fold x1 h2 y; rewrite LH2; reflexivity. }
  assert (NW : node g1 h3 t' v c x1 hd r ra (ro_src ro) e).
  { destruct N as [A1 A2 A3 A4 A5 A6 A7 A8 A9]. constructor; auto.
    - destruct SW as [Q|[Q1 [Q2 Q3]]].
      + destruct A7 as [Q'|[Q1 [p [q [i [Q2 [Q3 [Q4 Q5]]]]]]]]; [left; congruence|].
        right. split; [exact Q1|]. destruct (gl_P _ _ L1 p i Q4) as [i' [B1 [_ [_ [B2 _]]]]].
        exists p, q, i'. split; [congruence|]. split; [|split; [exact B1|congruence]].
        rewrite AC; [exact Q3|congruence].
      + right. split; [|exact Q2]. destruct A7 as [Q'|[_ [p [q [i [Q' _]]]]]]; congruence.
    - eapply gpos_on; [exact C1|exact GA1]. }
  set (rn := mkRoot None (Some (vof m (s_val hd))) rb (ro_src ro) e [m] rb).
  destruct (rel_thread g h st roots R1 ro R2 V c v r e ids1 [] g1 h3 t' [] ra [rn] RE PL EFb) as [roots' RE'].
  - destruct SW as [Q|[Q1 [Q2 Q3]]].
    + right. apply AC. destruct CA as [p [q Q']]. congruence.
    + left. destruct (n_sw _ _ _ _ _ _ _ _ _ _ _ N) as [Q'|[_ [p [q [i [Q' _]]]]]]; congruence.
  - unfold t', h3. rewrite HOF. cbn [add_colls h_coll]. rewrite !app_length. cbn [length]. lia.
  - intros j Lj _. unfold t'. rewrite nth_error_app_l by exact Lj. reflexivity.
  - intros hd0 E0. rewrite HD in E0. injection E0 as <-. eauto.
  - eapply t_fresh; [exact NW|exact S|exact F1|exact F2|exact F3|exact F4|exact GA1|]. now rewrite FU.
  - intros j [].
  - destruct SW as [->|[_ [_ Q]]]; auto.
  - intros n [<-|[]]. cbn [ro_base ro_leaf ro_ids rn].
    split; [|split; [exact CB|split; [exact GB|split; [exact GB|split; [congruence|]]]]].
    + unfold root_ok. cbn [ro_it rn]. constructor; [|exact CB].
      exists (vof m (s_val hd)), m, [], (mkSh (s_val hd) true SFresh). cbn [ro_v ro_ids ro_base ro_src ro_end ro_leaf rn st_coll].
      split; [reflexivity|]. split; [reflexivity|]. split; [unfold t'; rewrite HOF; apply nth_error_app_last|].
      split; [reflexivity|]. split; [intros j []|].
      assert (N2 : node g1 h3 t' (vof m (s_val hd)) m y (mkSh (s_val hd) true SFresh) rb rb (ro_src ro) e).
      { constructor; auto.
        - cbn [y c_obj]. rewrite KD. destruct (s_val hd); [discriminate|reflexivity|reflexivity].
        - unfold h3. cbn [add_colls h_coll]. rewrite <- LH2. apply nth_error_app_last.
        - unfold t'. rewrite HOF. apply nth_error_app_last.
        - eapply gpos_on; [exact C1|exact GB1]. }
      eapply t_fresh; [exact N2|reflexivity|reflexivity|exact F2|reflexivity|exact F4|exact GB1|]. cbn [s_val]. now rewrite FU.
    + intros j [<-|[]]. split; [lia|intros []].
  - cbn [map]. constructor; [intros []|constructor].
  - cbn [map]. constructor; [intros []|constructor].
  - cbn [flat_map app ro_ids rn]. constructor; [intros []|constructor].
  - intros j hd' E1 E2. destruct (Nat.eq_dec c j) as [<-|NJ]; [right; left; now left|].
    destruct (Nat.lt_ge_cases j m) as [Lj|Lj].
    + left. split; [exact Lj|]. intros [Q|[]]. congruence.
    + right. right. cbn [flat_map app ro_ids rn]. left.
      pose proof (nth_error_lt _ _ _ _ E1) as Q. unfold t' in Q. rewrite HOF, app_length in Q. cbn [length] in Q. fold m in Q. lia.
  - exists h3, g1, roots'. auto.
Qed.

Lemma op_discard : forall g h st roots v t',
  rel g h st roots -> s_discard (st_coll st) v = Some t' ->
  exists n0 h' g' roots',
    (forall n, n0 <= n -> discard grow n v h = Ok (h', tt)) /\ rel g' h' (mkSt t' (st_iter st)) roots'.
Proof.
  intros g h st roots v t' RE SA. destruct (op_discard_x _ _ _ _ _ _ RE SA) as [n0 [h' [g' [roots' [R [[RE' _] _]]]]]]. exists n0, h', g', roots'. auto.
Qed.
Lemma op_copy : forall g h st roots v t' ts,
  rel g h st roots -> s_copy (st_coll st) v = Some (t', ts) ->
  exists n0 h' g' roots',
    (forall n, n0 <= n -> copy grow n v h = Ok (h', ts)) /\ rel g' h' (mkSt t' (st_iter st)) roots'.
Proof.
  intros g h st roots v t' ts RE SA. destruct (op_copy_x _ _ _ _ _ _ _ RE SA) as [n0 [h' [g' [roots' [R [[RE' _] _]]]]]]. exists n0, h', g', roots'. auto.
Qed.
Lemma op_clone : forall g h st roots v t' w,
  rel g h st roots -> s_clone (st_coll st) v = Some (t', w) ->
  exists h' g' roots', clone grow v h = Ok (h', w) /\ rel g' h' (mkSt t' (st_iter st)) roots'.
Proof.
  intros g h st roots v t' w RE SA. destruct (op_clone_x _ _ _ _ _ _ _ RE SA) as [h' [g' [roots' [R [[RE' _] _]]]]]. exists h', g', roots'. auto.
Qed.

End Grow.

(** Detaching clones, and the calls on iterators. *)
From Coq Require Import List ZArith Arith Bool Lia.
From Verif Require Import Base Tokens JsonSpec EncSpec CursorModel CursorSpec CursorProofs IterModel IterSpec IterCore IterThr IterRel IterOps IterOps2.

Section Grow.
Variable grow : Z -> Z -> Z.

Lemma killed_cons : forall t t1 c ids, killed t t1 ids -> c < length t -> killed t (put_state t1 c SDead) (c :: ids).
Proof.
  intros t t1 c ids [L K] LC. split; [now rewrite put_state_len|].
  assert (HD : exists hd, nth_error t c = Some hd).
  { destruct (nth_error t c) as [hd|] eqn:E; [eauto|]. apply nth_error_None in E. lia. }
  destruct HD as [hd HD].
  intro j. split.
  - intros J. destruct (Nat.eq_dec c j) as [<-|NE].
    + exists hd. split; [exact HD|]. destruct (in_dec Nat.eq_dec c ids) as [I|I].
      * destruct (K c) as [K1 _]. destruct (K1 I) as [hd' [Q1 Q2]].
        rewrite (put_state_same _ _ _ _ Q2). cbn [s_val s_root]. congruence.
      * destruct (K c) as [_ K2]. rewrite <- (K2 I) in HD. now rewrite (put_state_same _ _ _ _ HD).
    + destruct J as [J|J]; [congruence|]. destruct (K j) as [K1 _]. destruct (K1 J) as [hd' [Q1 Q2]].
      exists hd'. split; [exact Q1|]. now rewrite put_state_other.
  - intro J. rewrite put_state_other by (intros ->; apply J; now left). apply K. intro I. apply J. now right.
Qed.

Lemma killed_dead : forall t t1 ids j hd, killed t t1 ids -> nth_error t1 j = Some hd -> s_state hd <> SDead -> ~ In j ids.
Proof.
  intros t t1 ids j hd [_ K] E ND I. destruct (K j) as [K1 _]. destruct (K1 I) as [hd' [_ Q]].
  rewrite E in Q. injection Q as ->. apply ND. reflexivity.
Qed.

Lemma upd_id : forall A (l : list A) i x, nth_error l i = Some x -> upd l i x = l.
Proof.
  induction l as [|a l IH]; intros [|i] x H; cbn [nth_error upd] in *; try discriminate.
  - congruence.
  - f_equal. auto.
Qed.

(** An iterator at its end may be given up. *)
Lemma rel_dead_iter : forall g h st roots i b,
  rel g h st roots -> nth_error (st_iter st) i = Some (mkSi b SIEnd) ->
  rel g h (mkSt (st_coll st) (upd (st_iter st) i (mkSi b SIDead))) roots.
Proof.
  intros g h st roots i b [A1 A2 A3 A4 A5 A6 A7 A8 A9] E. constructor; auto; cbn [st_coll st_iter].
  - now rewrite upd_length.
  - intros ro I. assert (OK := A4 ro I). eapply root_frame; [exact OK|apply gle_refl|reflexivity| | |]; auto.
    intros j J. cbn [st_iter]. split; [reflexivity|]. apply nth_error_upd_other. intros <-.
    unfold root_ok in OK. rewrite J in OK. destruct (io_s _ _ _ _ _ OK) as [b' [rest [Q _]]]. congruence.
  - intros j x X. destruct (Nat.eq_dec i j) as [<-|NE].
    + rewrite nth_error_upd_same in X by (eapply nth_error_lt; exact E). injection X as <-. exact I.
    + rewrite nth_error_upd_other in X by exact NE. now apply A9.
Qed.

Lemma op_detach_x : forall g h st roots v t',
  rel g h st roots -> s_detach (st_coll st) v = Some t' ->
  exists h' g' roots', detach grow v h = Ok (h', tt) /\ relg g g' h' (mkSt t' (st_iter st)) roots'.
Proof.
  intros g h st roots v t' RE SD.
  assert (SC : (exists sc, v = VScalar sc /\ t' = st_coll st) \/ exists c hd, s_get (st_coll st) v = Some (c, hd) /\
    s_root hd = true /\ s_state hd <> SDead /\
    t' = put_state (kill_opt (S c) (st_coll st) (child_of (s_state hd))) c SDead).
  { unfold s_detach in SD. destruct v as [sc|j|j].
    - left. exists sc. split; congruence.
    - right. destruct (s_get (st_coll st) (VArr j)) as [[c hd]|]; [|discriminate].
      exists c, hd. split; [reflexivity|]. destruct (s_root hd); [|discriminate]. destruct (s_state hd); repeat split; congruence.
    - right. destruct (s_get (st_coll st) (VObj j)) as [[c hd]|]; [|discriminate].
      exists c, hd. split; [reflexivity|]. destruct (s_root hd); [|discriminate]. destruct (s_state hd); repeat split; congruence. }
  clear SD. destruct SC as [[sc [-> ->]]|[c [hd [SG [SR [ND ->]]]]]].
  { exists h, g, roots. split; [|destruct st; apply relx_refl with (roots := roots); exact RE]. reflexivity. }
  destruct (s_get_hd _ _ _ _ SG) as [HD HV].
  destruct (place_ok _ _ _ _ _ _ _ RE SG ND) as [R1 [ro [R2 [V [r [e [ids1 [ids2 PL]]]]]]]].
  destruct (place_hd _ _ _ _ _ _ _ _ _ _ _ _ _ _ _ PL HD) as [x [rc [N [RC _]]]].
  pose proof (pl_sub _ _ _ _ _ _ _ _ _ _ _ _ _ _ PL) as T.
  pose proof (re_core _ _ _ _ RE) as C.
  pose proof (kill_child _ _ _ _ _ _ _ _ _ _ _ _ _ T N ND) as KL.
  assert (NR : ~ nonroot (st_coll st) c) by (intros [hd' [A B]]; congruence).
  assert (RI : ro_it ro = None).
  { destruct (ro_it ro) eqn:Q; [|reflexivity]. destruct NR. apply (pl_nri _ _ _ _ _ _ _ _ _ _ _ _ _ _ PL). left. congruence. }
  assert (I1 : ids1 = []).
  { destruct ids1; [reflexivity|]. destruct NR. apply (pl_nri _ _ _ _ _ _ _ _ _ _ _ _ _ _ PL). right. discriminate. }
  subst ids1. destruct (pl_head _ _ _ _ _ _ _ _ _ _ _ _ _ _ PL eq_refl) as [EV [ER EE]]. subst r e.
  assert (OK := root_in _ _ _ _ _ _ _ _ _ _ _ _ _ _ RE PL).
  destruct (root_leaf _ _ _ _ OK) as [GL [LB _]].
  unfold root_ok in OK. rewrite RI in OK. destruct (cl_cur _ _ _ _ OK) as [p [q EB]].
  assert (ERC : rc = RCur p q).
  { destruct (n_sw _ _ _ _ _ _ _ _ _ _ _ N) as [Q|[Q _]]; congruence. }
  specialize (LB p q EB). rewrite LB, EB in GL.
  destruct (gpos g (RCur p q)) as [sk|] eqn:G; [|congruence].
  destruct (detach_ok grow g h p q sk C G) as [h' [g' [D [[O1 O2] [C' [L [AC P]]]]]]].
  pose proof (n_x _ _ _ _ _ _ _ _ _ _ _ N) as X.
  set (t' := put_state (kill_opt (S c) (st_coll st) (child_of (s_state hd))) c SDead).
  assert (KC : killed (st_coll st) t' (c :: ids2)).
  { apply killed_cons; [exact KL|]. eapply nth_error_lt; exact HD. }
  assert (IDS : ro_ids ro = c :: ids2) by apply (pl_ids _ _ _ _ _ _ _ _ _ _ _ _ _ _ PL).
  exists h', g', (R1 ++ [] ++ R2). split.
  - destruct HV as [->| ->]; cbn [detach]; unfold hbind at 1, get_coll; rewrite X, (n_rc _ _ _ _ _ _ _ _ _ _ _ N), ERC; exact D.
  - split; [|exact L]. assert (REs := RE). rewrite (pl_roots _ _ _ _ _ _ _ _ _ _ _ _ _ _ PL) in REs.
    eapply rel_update; [exact REs|exact C'|exact L| | | | | | | | | | | | | | |]; cbn [st_coll st_iter].
    + rewrite O1, (proj1 KC). apply (re_lenc _ _ _ _ RE).
    + rewrite O2. apply (re_leni _ _ _ _ RE).
    + intros n [].
    + intros r NO. apply P. destruct (NO ro (or_introl eq_refl)) as [Q _]. congruence.
    + intro s. left. unfold act. now rewrite AC.
    + intros j Lj NO. rewrite O1. split; [reflexivity|]. apply KC. rewrite <- IDS. apply NO. now left.
    + intros i Li NO. rewrite O2. auto.
    + constructor.
    + constructor.
    + constructor.
    + intros n [].
    + intros n [].
    + intros n j [].
    + intros j hd' E1 E2. left. split.
      * rewrite <- (proj1 KC). eapply nth_error_lt; exact E1.
      * intros o [<-|[]]. rewrite IDS. eapply killed_dead; eauto.
    + intros i y E. left. split; [eapply nth_error_lt; exact E|]. intros o [<-|[]]. congruence.
Qed.

Lemma op_detach : forall g h st roots v t',
  rel g h st roots -> s_detach (st_coll st) v = Some t' ->
  exists h' g' roots', detach grow v h = Ok (h', tt) /\ rel g' h' (mkSt t' (st_iter st)) roots'.
Proof.
  intros g h st roots v t' RE SA. destruct (op_detach_x _ _ _ _ _ _ RE SA) as [h' [g' [roots' [R [RE' _]]]]]. exists h', g', roots'. auto.
Qed.

(* ------------------------------------------------------------------ *)
(** Iterators. *)
Lemma iter_root : forall g h st roots i b rest cur,
  rel g h st roots -> nth_error (st_iter st) i = Some (mkSi b (SIAt rest cur)) ->
  exists R1 ro R2, roots = R1 ++ [ro] ++ R2 /\ ro_it ro = Some i /\ iter_ok g h st ro i /\ ro_v ro = cur /\
    (b = true -> is_cur (ro_base ro)) /\
    span (full g (ro_src ro)) (ro_end ro) (stream rest) (length (full g (ro_src ro))) /\
    gpos g (ro_leaf ro) <> None /\ (forall p c, ro_base ro = RCur p c -> ro_leaf ro = ro_base ro) /\
    (forall s', ro_leaf ro = RSrc s' -> ro_base ro = ro_leaf ro).
Proof.
  intros g h st roots i b rest cur RE E.
  pose proof (re_icov _ _ _ _ RE i _ E) as [ro [I J]].
  assert (OK := re_ok _ _ _ _ RE ro I). assert (LF := root_leaf _ _ _ _ OK). unfold root_ok in OK. rewrite J in OK.
  destruct (in_split _ _ I) as [R1 [R2 ER]].
  destruct (io_s _ _ _ _ _ OK) as [b' [rest' [A1 [A2 A3]]]]. rewrite E in A1. injection A1 as <- <- ->.
  exists R1, ro, R2. split; [exact ER|]. split; [exact J|]. split; [exact OK|]. split; [reflexivity|]. auto.
Qed.

(** The other collections and iterators, when one iterator changes. *)
Lemma rel_iter : forall g h st roots R1 ro R2 i x g' h' t' x' s' N,
  rel g h st roots -> roots = R1 ++ [ro] ++ R2 -> ro_it ro = Some i ->
  nth_error (h_iter h) i = Some x ->
  core g' h' -> gle g g' ->
  length t' = length (h_coll h') -> h_iter h' = upd (h_iter h) i x' ->
  (forall r, r <> ro_base ro -> r <> ro_leaf ro -> gpos g r <> None -> gpos g' r = gpos g r) ->
  (forall s, act g' s = act g s \/ ro_base ro = RSrc s \/ ro_leaf ro = RSrc s) ->
  (forall j, j < length (st_coll st) -> ~ In j (ro_ids ro) ->
     nth_error (h_coll h') j = nth_error (h_coll h) j /\ nth_error t' j = nth_error (st_coll st) j) ->
  (forall n, In n N -> root_ok g' h' (mkSt t' (upd (st_iter st) i s')) n /\
     ro_base n = ro_base ro /\
     (ro_leaf n = ro_base ro \/ ro_leaf n = ro_leaf ro) /\
     (forall j, In j (ro_ids n) -> length (st_coll st) <= j)) ->
  length N <= 1 ->
  (forall j hd, nth_error t' j = Some hd -> s_state hd <> SDead ->
     (j < length (st_coll st) /\ ~ In j (ro_ids ro)) \/ In j (flat_map ro_ids N)) ->
  iter_cov g' h' N i s' ->
  rel g' h' (mkSt t' (upd (st_iter st) i s')) (R1 ++ N ++ R2).
Proof.
  intros g h st roots R1 ro R2 i x g' h' t' x' s' N RE ER RI X C' L LT HI POS ACT FR HN LN COV ICOV.
  assert (LI : length (st_iter st) = length (h_iter h)) by apply (re_leni _ _ _ _ RE).
  rewrite ER in RE.
  assert (NN : N = [] \/ exists n, N = [n]).
  { destruct N as [|n [|n' N]]; [auto|eauto|cbn [length] in LN; lia]. }
  eapply rel_update; [exact RE|exact C'|exact L| | | | | | | | | | | | | | |]; cbn [st_coll st_iter].
  - exact LT.
  - rewrite HI, !upd_length. exact LI.
  - intros n I. now apply HN.
  - intros r NO G. destruct (NO ro (or_introl eq_refl)). now apply POS.
  - intro s. destruct (ACT s) as [A|A]; [now left|]. right. left. exists ro. split; [now left|exact A].
  - intros j Lj NO. apply FR; [exact Lj|]. apply NO. now left.
  - intros i' Li NO. assert (NE : i <> i') by (specialize (NO ro (or_introl eq_refl)); congruence).
    rewrite HI, !nth_error_upd_other by exact NE. auto.
  - destruct NN as [->|[n ->]]; cbn [map]; repeat constructor; auto.
  - destruct NN as [->|[n ->]]; cbn [map]; repeat constructor; auto.
  - destruct NN as [->|[n ->]]; cbn [flat_map]; [constructor|]. rewrite app_nil_r.
    destruct (HN n (or_introl eq_refl)) as [OK _]. apply (root_ids _ _ _ _ OK).
  - intros n I. left. destruct (HN n I) as [_ [-> _]]. now left.
  - intros n I. destruct (HN n I) as [_ [_ [[->| ->] _]]]; [left|right; left]; now left.
  - intros n j I J. right. destruct (HN n I) as [_ [_ [_ Q]]]. now apply Q.
  - intros j hd E ND. destruct (COV j hd E ND) as [[Q1 Q2]|Q]; [left|now right].
    split; [exact Q1|]. intros o [<-|[]]. exact Q2.
  - intros i' y E. destruct (Nat.eq_dec i i') as [<-|NE].
    + rewrite nth_error_upd_same in E; [injection E as <-; now right|].
      rewrite LI. eapply nth_error_lt; exact X.
    + left. split; [rewrite <- (upd_length _ _ i s'); eapply nth_error_lt; exact E|].
      intros o [<-|[]]. congruence.
Qed.

Lemma iter_discard : forall g h st roots R1 ro R2 i,
  rel g h st roots -> roots = R1 ++ [ro] ++ R2 -> ro_it ro = Some i -> iter_ok g h st ro i ->
  exists n0 h1 g1,
    (forall n, n0 <= n -> match ro_v ro with Some v => discard grow n v | None => hret tt end h = Ok (h1, tt)) /\
    eff g h g1 h1 [ro_base ro; ro_leaf ro] (ro_ids ro) /\ gpos g1 (ro_base ro) = Some (ro_src ro, ro_end ro) /\
    length (h_coll h1) = length (h_coll h).
Proof.
  intros g h st roots R1 ro R2 i RE ER RI OK. pose proof (re_core _ _ _ _ RE) as C.
  pose proof (io_thr _ _ _ _ _ OK) as T. destruct (ro_v ro) as [v|].
  - destruct (discard_ok grow _ _ _ _ _ _ _ _ _ T C) as [n0 [h1 [g1 [D [EF [G [_ LE]]]]]]].
    exists n0, h1, g1. auto.
  - destruct T as [G _]. exists 0, h, g. split; [reflexivity|]. split; [now apply eff_refl|]. auto.
Qed.

Lemma iter_killed : forall g h st ro i, iter_ok g h st ro i ->
  killed (st_coll st) (kill_opt 0 (st_coll st) (ro_v ro)) (ro_ids ro).
Proof.
  intros g h st ro i OK. pose proof (io_thr _ _ _ _ _ OK) as T. destruct (ro_v ro) as [v|] eqn:E.
  - eapply kill_opt_ok; [exact T|]. intros j J. split; [lia|]. now apply (io_nr _ _ _ _ _ OK).
  - destruct T as [_ [-> _]]. apply killed_nil.
Qed.

Lemma op_iter_advance_x : forall g h st roots i st' b,
  rel g h st roots -> si_advance st i = Some (st', b) ->
  exists n0 h' g' roots',
    (forall n, n0 <= n -> iter_advance grow n i h = Ok (h', b)) /\ relg g g' h' st' roots'.
Proof.
  intros g h st roots i st' b RE SA. unfold si_advance in SA.
  destruct (nth_error (st_iter st) i) as [[rt [rest cur| |]]|] eqn:E; try discriminate.
  - cbn [si_state si_root] in SA.
    destruct (iter_root _ _ _ _ _ _ _ _ RE E) as [R1 [ro [R2 [ER [RI [OK [EV [RC [SP [GL [LB LR]]]]]]]]]]].
    destruct (iter_discard _ _ _ _ _ _ _ _ RE ER RI OK) as [n0 [h1 [g1 [D [EF [G1 LE]]]]]].
    pose proof (iter_killed _ _ _ _ _ OK) as KL. rewrite EV in *.
    pose proof (io_h _ _ _ _ _ OK) as X. pose proof (io_on _ _ _ _ _ OK) as ON. pose proof (io_lim _ _ _ _ _ OK) as LI.
    assert (L1 := ef_gle _ _ _ _ _ _ EF). assert (C1 := ef_core _ _ _ _ _ _ EF).
    assert (FU := full_on _ _ _ _ L1 ON). assert (LM := lim_gle _ _ _ _ L1 ON).
    assert (LT : length (st_coll st) = length (h_coll h)) by apply (re_lenc _ _ _ _ RE).
    set (tk := kill_opt 0 (st_coll st) cur) in *.
    rewrite EV in X. destruct rest as [|y rest].
    + injection SA as <- <-. apply span_nil in SP.
      destruct (snext_end grow g1 h1 (ro_base ro) (ro_src ro) C1) as [h2 [g2 [SN [[O1 O2] [C2 [L2 [AC [EN P]]]]]]]].
      { rewrite FU, SP. exact G1. }
      { rewrite FU, LM. exact LI. }
      set (h3 := set_iter h2 i (mkIter (ro_base ro) None)).
      exists n0, h3, g2, (R1 ++ [] ++ R2). split.
      * intros n Hn. unfold iter_advance, hbind at 1, get_iter. rewrite X. cbn [i_val i_stream].
        unfold hbind at 1. rewrite D by exact Hn. unfold hbind at 1. rewrite SN. reflexivity.
      * split; [|eapply gle_trans; eauto]. eapply rel_iter; [exact RE|exact ER|exact RI|exact X| | | | | | | | | | |].
        -- eapply core_objs; [exact C2| |]; reflexivity.
        -- eapply gle_trans; eauto.
        -- unfold h3. cbn [set_iter h_coll]. rewrite O1, LE, (proj1 KL). exact LT.
        -- unfold h3. cbn [set_iter h_iter]. rewrite O2, (ef_iter _ _ _ _ _ _ EF). reflexivity.
        -- intros r N1 N2 G. rewrite P; [| exact N1|].
           ++ apply (ef_pos _ _ _ _ _ _ EF); [|exact G]. intros [Q|[Q|[]]]; congruence.
           ++ rewrite (ef_pos _ _ _ _ _ _ EF); [exact G| |exact G]. intros [Q|[Q|[]]]; congruence.
        -- intro s. destruct (ef_act _ _ _ _ _ _ EF s) as [Q|[Q|[Q|[]]]]; [left; unfold act in *; congruence|auto|auto].
        -- intros j Lj NJ. split; [|now apply KL]. unfold h3. cbn [set_iter h_coll]. rewrite O1.
           apply (ef_coll _ _ _ _ _ _ EF); [lia|exact NJ].
        -- intros n [].
        -- cbn [length]. lia.
        -- intros j hd E1 E2. left. split; [rewrite <- (proj1 KL); eapply nth_error_lt; exact E1|].
           eapply killed_dead; eauto.
        -- unfold iter_cov. cbn [si_state si_root]. exists (mkIter (ro_base ro) None).
           split; [|auto]. unfold h3. cbn [set_iter h_iter]. rewrite O2, (ef_iter _ _ _ _ _ _ EF).
           apply nth_error_upd_same. eapply nth_error_lt; exact X.
    + rewrite alloc_of in SA. injection SA as <- <-.
      unfold stream in SP. cbn [flat_map] in SP. fold (stream rest) in SP.
      destruct (span_app _ _ _ _ _ SP) as [k2 [SP1 SP2]]. rewrite toks_first in SP1.
      destruct (span_cons _ _ _ _ _ SP1) as [NT SP3].
      assert (K2 : ro_end ro < k2) by (destruct SP1 as [-> _]; cbn [length]; lia).
      assert (K3 : k2 <= length (full g (ro_src ro))) by (destruct SP2 as [-> _]; lia).
      destruct (snext_eff grow g1 h1 (ro_base ro) (ro_src ro) (ro_end ro) (first_tok y) C1 G1) as [h2 [g2 [SN [EF2 [[O1 O2] G2]]]]].
      { now rewrite FU. }
      { rewrite LM, LI. lia. }
      set (m := length tk).
      assert (Em : m = length (h_coll h2)) by (unfold m; rewrite O1, LE, (proj1 KL); exact LT).
      set (h3 := set_iter (add_colls h2 (cof y (ro_base ro))) i (mkIter (ro_base ro) (Some (vof m y)))).
      set (ro' := mkRoot (Some i) (Some (vof m y)) (ro_base ro) (ro_src ro) k2 (iof m y) (ro_base ro)).
      assert (EF12 : eff g h g2 h2 [ro_base ro; ro_leaf ro] (ro_ids ro)).
      { eapply eff_trans; [exact EF|]. eapply eff_weaken; [exact EF2| |].
        - intros q [<-|[]]. now left.
        - intros q []. }
      assert (L2 := ef_gle _ _ _ _ _ _ EF12). assert (C2 := ef_core _ _ _ _ _ _ EF12).
      assert (FU2 := full_on _ _ _ _ L2 ON). assert (LM2 := lim_gle _ _ _ _ L2 ON).
      assert (C3 : core g2 h3) by (eapply core_objs; [exact C2| |]; reflexivity).
      assert (HC : h_coll h3 = h_coll h2 ++ cof y (ro_base ro)) by reflexivity.
      assert (HI : h_iter h3 = upd (h_iter h) i (mkIter (ro_base ro) (Some (vof m y)))).
      { unfold h3. cbn [set_iter add_colls h_iter]. rewrite (ef_iter _ _ _ _ _ _ EF12). reflexivity. }
      assert (LX := nth_error_lt _ _ _ _ X).
      exists n0, h3, g2, (R1 ++ [ro'] ++ R2). split.
      * intros n Hn. unfold iter_advance, hbind at 1, get_iter. rewrite X. cbn [i_val i_stream].
        unfold hbind at 1. rewrite D by exact Hn. unfold hbind at 1. rewrite SN.
        unfold hbind at 1. rewrite next_value_ok, <- Em. reflexivity.
      * split; [|exact L2]. fold m. eapply rel_iter; [exact RE|exact ER|exact RI|exact X|exact C3|exact L2| |exact HI| | | | | | |].
        -- rewrite HC, !app_length, <- Em. change (length tk) with m. f_equal. destruct y; reflexivity.
        -- intros r N1 N2 G. apply (ef_pos _ _ _ _ _ _ EF12); [|exact G]. intros [Q|[Q|[]]]; congruence.
        -- intro s. destruct (ef_act _ _ _ _ _ _ EF12 s) as [Q|[Q|[Q|[]]]]; auto.
        -- intros j Lj NJ. rewrite HC. rewrite nth_error_app_l by (rewrite <- Em; unfold m; rewrite (proj1 KL); exact Lj). rewrite nth_error_app_l by (rewrite (proj1 KL); exact Lj).
           split; [|now apply KL]. apply (ef_coll _ _ _ _ _ _ EF12); [lia|exact NJ].
        -- intros n [<-|[]]. cbn [ro_base ro_leaf ro_ids ro'].
           split; [|split; [reflexivity|split; [now left|]]].
           ++ unfold root_ok. cbn [ro_it ro']. constructor; cbn [ro_base ro_leaf ro_ids ro_src ro_end ro_v ro' st_coll st_iter].
              ** rewrite HI. now apply nth_error_upd_same.
              ** exists rt, rest. rewrite FU2. split; [|split; [exact RC|exact SP2]].
                 apply nth_error_upd_same. eapply nth_error_lt; exact E.
              ** rewrite LM2, FU2. exact LI.
              ** eapply on_src_gle; eauto.
              ** intros j J. destruct y as [sc|l el|l el]; cbn [iof] in J; [destruct J| |]; destruct J as [<-|[]];
                 eexists; (split; [apply nth_error_app_last|reflexivity]).
              ** apply (thr_new g2 h3 (tk ++ hof y false) y (ro_base ro) (ro_src ro) (S (ro_end ro)) k2 m false).
                 { rewrite HC. cbn [add_colls h_coll]. apply app_nth_eq. exact Em. }
                 { unfold m. apply app_nth_any. }
                 { eapply on_src_gle; eauto. }
                 { rewrite LM2, LI. lia. }
                 { exact G2. }
                 { now rewrite FU2. }
           ++ intros j J. assert (j = m) by (destruct y; cbn [iof] in J; [destruct J| |]; destruct J as [<-|[]]; reflexivity).
              subst j. unfold m. rewrite (proj1 KL). lia.
        -- cbn [length]. lia.
        -- intros j hd E1 E2. destruct (Nat.lt_ge_cases j m) as [Lj|Lj].
           ++ rewrite nth_error_app_l in E1 by exact Lj. left. split; [rewrite <- (proj1 KL); exact Lj|].
              eapply killed_dead; eauto.
           ++ right. cbn [flat_map ro_ids ro']. rewrite app_nil_r. pose proof (nth_error_lt _ _ _ _ E1) as Q. rewrite app_length in Q.
              destruct y as [sc|l el|l el]; cbn [hof length iof] in *; fold m in Q; [lia| |]; left; lia.
        -- unfold iter_cov. cbn [si_state]. exists ro'. split; [now left|reflexivity].
  - cbn [si_state] in SA. injection SA as <- <-.
    pose proof (re_icov _ _ _ _ RE i _ E) as CV. unfold iter_cov in CV. cbn [si_state si_root] in CV.
    destruct CV as [y [Y1 [Y2 [Y3 Y4]]]]. pose proof (re_core _ _ _ _ RE) as C.
    destruct (snext_ended grow g h (i_stream y) C Y3) as [h1 [g1 [SN [[O1 O2] [C1 [L1 [AC P]]]]]]].
    set (h2 := set_iter h1 i (mkIter (i_stream y) None)).
    assert (HI : h_iter h2 = h_iter h).
    { unfold h2. cbn [set_iter h_iter]. rewrite O2. destruct y as [s o]. cbn [i_val i_stream] in *. subst o.
      now apply upd_id. }
    exists 0, h2, g1, ([] ++ [] ++ roots). split.
    + intros n _. unfold iter_advance, hbind at 1, get_iter. rewrite Y1, Y2. unfold hbind at 1, hret at 1.
      unfold hbind at 1. rewrite SN. reflexivity.
    + split; [|exact L1]. change roots with ([] ++ [] ++ roots) in RE.
      eapply rel_update; [exact RE| |exact L1| | | | | | | | | | | | | | |].
      * eapply core_objs; [exact C1| |]; reflexivity.
      * unfold h2. cbn [set_iter h_coll]. rewrite O1. apply (re_lenc _ _ _ _ RE).
      * rewrite HI. apply (re_leni _ _ _ _ RE).
      * intros n [].
      * intros r _. apply P.
      * intro s. left. unfold act. now rewrite AC.
      * intros j _ _. unfold h2. cbn [set_iter h_coll]. rewrite O1. auto.
      * intros j _ _. rewrite HI. auto.
      * constructor.
      * constructor.
      * constructor.
      * intros n [].
      * intros n [].
      * intros n j [].
      * intros j hd E1 _. left. split; [eapply nth_error_lt; exact E1|]. intros o [].
      * intros j z E1. left. split; [eapply nth_error_lt; exact E1|]. intros o [].
Qed.
Lemma op_iter_advance : forall g h st roots i st' b,
  rel g h st roots -> si_advance st i = Some (st', b) ->
  exists n0 h' g' roots',
    (forall n, n0 <= n -> iter_advance grow n i h = Ok (h', b)) /\ rel g' h' st' roots'.
Proof.
  intros g h st roots i st' b RE SA. destruct (op_iter_advance_x _ _ _ _ _ _ _ RE SA) as [n0 [h' [g' [roots' [R [RE' _]]]]]]. exists n0, h', g', roots'. auto.
Qed.

Lemma op_iter_current : forall g h st roots i x,
  rel g h st roots -> si_current st i = Some x -> iter_current i h = Ok (h, x).
Proof.
  intros g h st roots i x RE SC. unfold si_current in SC.
  destruct (nth_error (st_iter st) i) as [[rt [rest cur| |]]|] eqn:E; try discriminate; cbn [si_state] in SC; injection SC as <-.
  - destruct (iter_root _ _ _ _ _ _ _ _ RE E) as [R1 [ro [R2 [ER [RI [OK [EV _]]]]]]].
    unfold iter_current, hbind, get_iter, hret. rewrite (io_h _ _ _ _ _ OK), EV. reflexivity.
  - pose proof (re_icov _ _ _ _ RE i _ E) as CV. unfold iter_cov in CV. cbn [si_state si_root] in CV.
    destruct CV as [y [Y1 [Y2 _]]]. unfold iter_current, hbind, get_iter, hret. rewrite Y1, Y2. reflexivity.
Qed.

Lemma op_iter_detach : forall g h st roots i st',
  rel g h st roots -> si_detach st i = Some st' ->
  exists h' g' roots', iter_detach grow i h = Ok (h', tt) /\ rel g' h' st' roots'.
Proof.
  intros g h st roots i st' RE SD. unfold si_detach in SD.
  destruct (nth_error (st_iter st) i) as [[rt [rest cur| |]]|] eqn:E; try discriminate;
    cbn [si_state si_root] in SD; destruct rt; try discriminate.
  - injection SD as <-.
    destruct (iter_root _ _ _ _ _ _ _ _ RE E) as [R1 [ro [R2 [ER [RI [OK [EV [RC [SP [GL [LB LR]]]]]]]]]]].
    pose proof (iter_killed _ _ _ _ _ OK) as KL. rewrite EV in KL. pose proof (re_core _ _ _ _ RE) as C.
    pose proof (io_h _ _ _ _ _ OK) as X.
    destruct (RC eq_refl) as [p [q EB]]. specialize (LB p q EB). rewrite LB, EB in GL.
    destruct (gpos g (RCur p q)) as [sk|] eqn:G; [|congruence].
    destruct (detach_ok grow g h p q sk C G) as [h' [g' [D [[O1 O2] [C' [L [AC P]]]]]]].
    exists h', g', (R1 ++ [] ++ R2). split.
    + unfold iter_detach, hbind at 1, get_iter. rewrite X. cbn [i_stream]. rewrite EB. exact D.
    + eapply rel_iter; [exact RE|exact ER|exact RI|exact X|exact C'|exact L| | | | | | | | |].
      * rewrite O1, (proj1 KL). apply (re_lenc _ _ _ _ RE).
      * rewrite O2. symmetry. apply upd_id. exact X.
      * intros r N1 _. apply P. congruence.
      * intro s. left. unfold act. now rewrite AC.
      * intros j Lj NJ. rewrite O1. split; [reflexivity|]. now apply KL.
      * intros n [].
      * cbn [length]. lia.
      * intros j hd E1 E2. left. split; [rewrite <- (proj1 KL); eapply nth_error_lt; exact E1|].
        eapply killed_dead; eauto.
      * exact I.
  - injection SD as <-.
    pose proof (re_icov _ _ _ _ RE i _ E) as CV. unfold iter_cov in CV. cbn [si_state si_root] in CV.
    destruct CV as [y [Y1 [Y2 [Y3 Y4]]]]. pose proof (re_core _ _ _ _ RE) as C.
    destruct (Y4 eq_refl) as [p [q EB]]. rewrite EB in Y3.
    destruct (detach_ended grow g h p q C Y3) as [h' [g' [D [[O1 O2] [C' [L [AC P]]]]]]].
    exists h', g', ([] ++ [] ++ roots). split.
    + unfold iter_detach, hbind at 1, get_iter. rewrite Y1, EB. exact D.
    + change roots with ([] ++ [] ++ roots) in RE.
      apply rel_dead_iter with (b := true); [|exact E].
      eapply rel_update; [exact RE|exact C'|exact L| | | | | | | | | | | | | | |].
      * rewrite O1. apply (re_lenc _ _ _ _ RE).
      * rewrite O2. apply (re_leni _ _ _ _ RE).
      * intros n [].
      * intros r _. apply P.
      * intro s. left. unfold act. now rewrite AC.
      * intros j _ _. rewrite O1. auto.
      * intros j _ _. rewrite O2. auto.
      * constructor.
      * constructor.
      * constructor.
      * intros n [].
      * intros n [].
      * intros n j [].
      * intros j hd E1 _. left. split; [eapply nth_error_lt; exact E1|]. intros o [].
      * intros j z E1. left. split; [eapply nth_error_lt; exact E1|]. intros o [].
Qed.

End Grow.

(** Every call on an iterator does what the specification says, and so does
    every program. *)
From Coq Require Import List ZArith Arith Bool Lia.
From Verif Require Import Base Tokens JsonSpec EncSpec CursorModel CursorSpec CursorProofs IterModel IterSpec IterCore IterThr IterRel.

Section Grow.
Variable grow : Z -> Z -> Z.

Lemma app_nth_eq : forall A (l : list A) a b n, n = length l -> nth_error (l ++ b) n = nth_error (repeat a n ++ b) n.
Proof. intros A l a b n ->. apply app_nth_any. Qed.

Lemma s_get_hd : forall t v c hd, s_get t v = Some (c, hd) -> nth_error t c = Some hd /\ (v = VArr c \/ v = VObj c).
Proof.
  intros t v c hd H. unfold s_get in H. destruct v as [s|j|j]; [discriminate| |];
  destruct (nth_error t j) as [hd'|] eqn:E; try discriminate.
  - destruct (is_array (s_val hd')); [|discriminate]. injection H as -> ->. auto.
  - destruct (is_object (s_val hd')); [|discriminate]. injection H as -> ->. auto.
Qed.

Lemma node_unique : forall g h t v c x hd r rc s e v' x' hd' r' rc' s' e',
  node g h t v c x hd r rc s e -> node g h t v' c x' hd' r' rc' s' e' -> x' = x /\ hd' = hd /\ rc' = rc.
Proof.
  intros g h t v c x hd r rc s e v' x' hd' r' rc' s' e' N N1.
  destruct N as [_ A1 A2 _ _ A3 _ _ _]. destruct N1 as [_ B1 B2 _ _ B3 _ _ _].
  assert (x' = x) by congruence. subst x'. split; [reflexivity|]. split; congruence.
Qed.

Ltac same_node N :=
  match goal with
  | N1 : node _ _ _ _ _ ?x _ _ _ _ _ |- _ =>
      lazymatch N1 with N => fail | _ => idtac end;
      let E1 := fresh in let E2 := fresh in let E3 := fresh in
      destruct (node_unique _ _ _ _ _ _ _ _ _ _ _ _ _ _ _ _ _ _ N N1) as [E1 [E2 E3]]
  end.

Lemma place_hd : forall g h st roots R1 ro R2 V c v r e ids1 ids2 hd,
  place g h st roots R1 ro R2 V c v r e ids1 ids2 -> nth_error (st_coll st) c = Some hd ->
  exists x rc, node g h (st_coll st) v c x hd r rc (ro_src ro) e /\
    (rc = ro_base ro \/ rc = ro_leaf ro) /\
    (forall rs, (forall q, In q rs -> q = rc \/ q = ro_leaf ro) -> forall g', (forall s, act g' s = act g s \/ In (RSrc s) rs) ->
       r = RSrc (ro_src ro) \/ act g' (ro_src ro) = act g (ro_src ro)).
Proof.
  intros g h st roots R1 ro R2 V c v r e ids1 ids2 hd PL E.
  pose proof (pl_sub _ _ _ _ _ _ _ _ _ _ _ _ _ _ PL) as T.
  destruct (thr_node _ _ _ _ _ _ _ _ _ _ T) as [x [hd' [rc N]]].
  pose proof (n_hd _ _ _ _ _ _ _ _ _ _ _ N) as E'. rewrite E in E'. injection E' as <-.
  destruct (thr_leaf _ _ _ _ _ _ _ _ _ T) as [G [LB LR]].
  exists x, rc. split; [exact N|]. split.
  - destruct (n_sw _ _ _ _ _ _ _ _ _ _ _ N) as [->|[Q [p [q [i [Q' _]]]]]]; [apply (pl_r _ _ _ _ _ _ _ _ _ _ _ _ _ _ PL)|].
    right. subst r rc. pose proof (n_rc _ _ _ _ _ _ _ _ _ _ _ N) as RC.
    inversion T as [|? ? x1 hd1 ? rc1 ? ? ? N1|? ? x1 hd1 ? rc1 ? ? N1|? ? x1 hd1 ? rc1 ? ? ? ? ? ? ? ? N1 ? ? ? ? ? T1];
      clear T; subst; same_node N; try congruence.
    destruct (thr_leaf _ _ _ _ _ _ _ _ _ T1) as [_ [LB1 _]]. rewrite (LB1 p q) by congruence. congruence.
  - intros rs IN g' A. destruct (A (ro_src ro)) as [Q|Q]; [now right|]. left.
    destruct (IN _ Q) as [E'|E'].
    + destruct (n_sw _ _ _ _ _ _ _ _ _ _ _ N) as [->|[Q' _]]; congruence.
    + apply eq_sym in E'. rewrite (LR _ E'). exact E'.
Qed.

(** What the collection looks like in each state. *)
Lemma sub_fresh : forall g h t v r s e c ids l x hd rc, thr g h t v r s e (c :: ids) l ->
  node g h t v c x hd r rc s e -> s_state hd = SFresh ->
  c_started x = false /\ c_done x = false /\ c_key x = None /\ c_val x = None /\ ids = [] /\ l = rc /\
  exists k, gpos g rc = Some (s, k) /\ span (full g s) k (tail_toks (s_val hd) (items (s_val hd))) e.
Proof.
  intros g h t v r s e c ids l x hd rc T N S.
  inversion T as [|? ? x1 hd1 ? rc1 ? ? k N1 S1 S2 S3 S4 S5 G SP|? ? x1 hd1 ? rc1 ? ? N1 S1|? ? x1 hd1 ? rc1 ? ? ? ? ? ? ? ? N1 S1];
    clear T; subst; same_node N; subst; try congruence.
  repeat (split; [assumption || reflexivity|]). eauto.
Qed.

Lemma sub_done : forall g h t v r s e c ids l x hd rc, thr g h t v r s e (c :: ids) l ->
  node g h t v c x hd r rc s e -> s_state hd = SDone ->
  c_done x = true /\ ids = [] /\ l = rc /\ gpos g rc = Some (s, e).
Proof.
  intros g h t v r s e c ids l x hd rc T N S.
  inversion T as [|? ? x1 hd1 ? rc1 ? ? k N1 S1 S2 S3 S4 S5 G SP|? ? x1 hd1 ? rc1 ? ? N1 S1|? ? x1 hd1 ? rc1 ? ? ? ? ? ? ? ? N1 S1];
    clear T; subst; same_node N; subst; try congruence.
  auto.
Qed.

Lemma sub_at : forall g h t v r s e c ids l x hd rc key ch rest, thr g h t v r s e (c :: ids) l ->
  node g h t v c x hd r rc s e -> s_state hd = SAt key ch rest ->
  c_started x = true /\ c_done x = false /\ c_key x = key /\ c_val x = Some ch /\ shaped (s_val hd) rest /\
  (forall j, In j ids -> c < j /\ nonroot t j) /\
  exists k, thr g h t ch rc s k ids l /\ span (full g s) k (tail_toks (s_val hd) rest) e.
Proof.
  intros g h t v r s e c ids l x hd rc key ch rest T N S.
  inversion T as [|? ? x1 hd1 ? rc1 ? ? k N1 S1 S2 S3 S4 S5 G SP|? ? x1 hd1 ? rc1 ? ? N1 S1|? ? x1 hd1 ? rc1 ? ? ? ? ? ? ? ? N1 S1 S2 S3 S4 S5 T1 SH SP O];
    clear T; subst; same_node N; subst; try congruence.
  match goal with A : s_state ?h = SAt _ _ _, B : s_state ?h = SAt _ _ _ |- _ => rewrite A in B; injection B; intros; subst end.
  repeat (split; [eassumption || reflexivity|]). eauto.
Qed.

Lemma killed_nil : forall t, killed t t [].
Proof. intro t. split; [reflexivity|]. intro j. split; [intros []|auto]. Qed.

Lemma kill_child : forall g h t v r s e c ids l x hd rc, thr g h t v r s e (c :: ids) l ->
  node g h t v c x hd r rc s e -> s_state hd <> SDead ->
  killed t (kill_opt (S c) t (child_of (s_state hd))) ids.
Proof.
  intros g h t v r s e c ids l x hd rc T N ND. destruct (s_state hd) as [|key ch rest| |] eqn:S; cbn [child_of].
  - destruct (sub_fresh _ _ _ _ _ _ _ _ _ _ _ _ _ T N S) as [_ [_ [_ [_ [-> _]]]]]. apply killed_nil.
  - destruct (sub_at _ _ _ _ _ _ _ _ _ _ _ _ _ _ _ _ T N S) as [_ [_ [_ [_ [_ [O [k [T1 _]]]]]]]].
    eapply kill_opt_ok; [exact T1|]. intros j J. destruct (O j J). split; [lia|auto].
  - destruct (sub_done _ _ _ _ _ _ _ _ _ _ _ _ _ T N S) as [_ [-> _]]. apply killed_nil.
  - congruence.
Qed.

(** The node after a step. *)
Lemma node_next : forall g h t v c x hd r rc s e g' h' t' x' hd' rs,
  node g h t v c x hd r rc s e -> gle g g' ->
  (forall s, act g' s = act g s \/ In (RSrc s) rs) ->
  (r = RSrc s -> rc <> r -> ~ In (RSrc s) rs) ->
  nth_error (h_coll h') c = Some x' -> c_obj x' = c_obj x -> c_stream x' = c_stream x ->
  nth_error t' c = Some hd' -> s_val hd' = s_val hd ->
  node g' h' t' v c x' hd' r rc s e.
Proof.
  intros g h t v c x hd r rc s e g' h' t' x' hd' rs [A1 A2 A3 A4 A5 A6 A7 A8 A9] L AC NI X OB ST T SV.
  constructor; try congruence.
  - now rewrite OB.
  - destruct A7 as [->|[-> [p [q [i [-> [B1 [B2 B3]]]]]]]]; [auto|]. right. split; [auto|].
    destruct (gl_P _ _ L p i B2) as [i' [B2' [_ [_ [B3' _]]]]].
    exists p, q, i'. repeat split; auto; [|congruence].
    destruct (AC s) as [->|Q]; [exact B1|]. destruct (NI eq_refl); [discriminate|exact Q].
  - eapply on_src_gle; eauto.
  - now rewrite (lim_gle _ _ _ _ L A8).
Qed.

(** Moving on to the next item. *)
Lemma move_rel : forall g h st roots R1 ro R2 V c v r e ids1 ids2 x hd rc g1 h1 tk k rest,
  rel g h st roots -> place g h st roots R1 ro R2 V c v r e ids1 ids2 ->
  node g h (st_coll st) v c x hd r rc (ro_src ro) e ->
  eff g h g1 h1 [rc; ro_leaf ro] ids2 -> length (h_coll h1) = length (h_coll h) ->
  killed (st_coll st) tk ids2 ->
  c_done x = false ->
  (c_started x = true -> exists v, c_val x = Some v /\ idle v h1 /\ v <> VArr c /\ v <> VObj c) ->
  gpos g1 rc = Some (ro_src ro, k) -> span (full g (ro_src ro)) k (tail_toks (s_val hd) rest) e ->
  shaped (s_val hd) rest ->
  exists h' g' roots',
    (forall n, 3 <= n -> advance grow n c h1 = Ok (h', snd (s_move tk c rest))) /\
    relx g roots g' h' (mkSt (fst (s_move tk c rest)) (st_iter st)) roots'.
Proof.
  intros g h st roots R1 ro R2 V c v r e ids1 ids2 x hd rc g1 h1 tk k rest RE PL N EF1 LE KL ND ST G SP SH.
  pose proof (n_hd _ _ _ _ _ _ _ _ _ _ _ N) as HD.
  destruct (place_hd _ _ _ _ _ _ _ _ _ _ _ _ _ _ _ PL HD) as [x0 [rc0 [N0 [RC AC]]]].
  assert (x0 = x) by (pose proof (n_x _ _ _ _ _ _ _ _ _ _ _ N); pose proof (n_x _ _ _ _ _ _ _ _ _ _ _ N0); congruence). subst x0.
  assert (rc0 = rc) by (pose proof (n_rc _ _ _ _ _ _ _ _ _ _ _ N); pose proof (n_rc _ _ _ _ _ _ _ _ _ _ _ N0); congruence). subst rc0.
  pose proof (pl_sub _ _ _ _ _ _ _ _ _ _ _ _ _ _ PL) as T.
  destruct (thr_ids _ _ _ _ _ _ _ _ _ T) as [IND ILT].
  assert (NCI : ~ In c ids2) by (inversion IND; auto).
  assert (LT : length (st_coll st) = length (h_coll h)) by apply (re_lenc _ _ _ _ RE).
  assert (Lc : c < length (h_coll h)) by (eapply nth_error_lt; apply (n_x _ _ _ _ _ _ _ _ _ _ _ N)).
  assert (X1 : nth_error (h_coll h1) c = Some x).
  { rewrite (ef_coll _ _ _ _ _ _ EF1) by auto. apply (n_x _ _ _ _ _ _ _ _ _ _ _ N). }
  assert (L1 := ef_gle _ _ _ _ _ _ EF1). assert (ON := n_src _ _ _ _ _ _ _ _ _ _ _ N).
  assert (EQS : c_stream x = rc) by apply (n_rc _ _ _ _ _ _ _ _ _ _ _ N).
  destruct (move_ok grow g1 h1 c x (s_val hd) rest (ro_src ro) k e) as [h' [g' [RUN [EF2 RES]]]]; auto.
  { apply (ef_core _ _ _ _ _ _ EF1). }
  { apply (n_coll _ _ _ _ _ _ _ _ _ _ _ N). }
  { apply (n_kind _ _ _ _ _ _ _ _ _ _ _ N). }
  { congruence. }
  { now rewrite (full_on _ _ _ _ L1 ON). }
  { rewrite EQS, (lim_gle _ _ _ _ L1 ON). apply (n_lim _ _ _ _ _ _ _ _ _ _ _ N). }
  rewrite EQS in *.
  assert (EF : eff g h g' h' [rc; ro_leaf ro] (c :: ids2)).
  { eapply eff_trans; [eapply eff_weaken; [exact EF1|apply incl_refl|apply incl_tl, incl_refl]|].
    eapply eff_weaken; [exact EF2| |].
    - intros q [<-|[]]. now left.
    - intros q [<-|[]]. now left. }
  assert (EFb : eff g h g' h' [ro_base ro; ro_leaf ro] (c :: ids2)).
  { eapply eff_weaken; [exact EF| |apply incl_refl].
    intros q [<-|[<-|[]]]; [destruct RC as [->| ->]; [now left|right; now left]|right; now left]. }
  assert (ACT : r = RSrc (ro_src ro) \/ act g' (ro_src ro) = act g (ro_src ro)).
  { eapply AC; [|apply (ef_act _ _ _ _ _ _ EF)]. intros q [<-|[<-|[]]]; auto. }
  assert (RNI : r = RSrc (ro_src ro) -> rc <> r -> ~ In (RSrc (ro_src ro)) [rc; ro_leaf ro]).
  { intros -> NE [Q|[Q|[]]]; [congruence|].
    destruct RC as [RC|RC]; [|congruence].
    destruct (n_sw _ _ _ _ _ _ _ _ _ _ _ N) as [Q'|[_ [p [q [i [Q' _]]]]]]; [congruence|].
    assert (OKro : root_ok g h st ro).
    { apply (re_ok _ _ _ _ RE). rewrite (pl_roots _ _ _ _ _ _ _ _ _ _ _ _ _ _ PL). apply in_or_app. right. now left. }
    destruct (root_leaf _ _ _ _ OKro) as [_ [LB _]]. rewrite (LB p q) in Q; congruence. }
  destruct KL as [KL1 KL2].
  assert (HDk : nth_error tk c = Some hd) by (destruct (KL2 c) as [_ Q]; rewrite Q; auto).
  assert (Lck : c < length tk) by (eapply nth_error_lt; exact HDk).
  assert (DEADk : forall j hd', nth_error tk j = Some hd' -> s_state hd' <> SDead -> ~ In j ids2).
  { intros j hd' E1 E2 J. destruct (KL2 j) as [Q _]. destruct (Q J) as [hd2 [_ Q2]]. rewrite E1 in Q2. injection Q2 as ->.
    apply E2. reflexivity. }
  assert (RL : rc = ro_leaf ro \/ rc = ro_base ro) by tauto.
  destruct rest as [|[key y] rest'].
  - destruct RES as [G' [LE' [x' [X' [D' [OB' ST']]]]]]. cbn [s_move fst snd].
    set (t' := put_state tk c SDone).
    assert (HD' : nth_error t' c = Some (mkSh (s_val hd) (s_root hd) SDone)) by (apply put_state_same; exact HDk).
    exists h', g'. 
    destruct (rel_thread g h st roots R1 ro R2 V c v r e ids1 ids2 g' h' t' [] rc [] RE PL EFb ACT) as [roots' RE'].
    + unfold t'. rewrite put_state_len. congruence.
    + intros j Lj NJ. unfold t'. rewrite put_state_other by (intros ->; apply NJ; now left).
      apply KL2. intro J. apply NJ. now right.
    + intros hd0 E0. rewrite HD in E0. injection E0 as <-. eexists. split; [exact HD'|reflexivity].
    + assert (N' : node g' h' t' v c x' (mkSh (s_val hd) (s_root hd) SDone) r rc (ro_src ro) e);
        [|eapply t_done; [exact N'|reflexivity|exact D'|exact G']].
      eapply node_next; [exact N|apply (ef_gle _ _ _ _ _ _ EF)|apply (ef_act _ _ _ _ _ _ EF)|exact RNI|exact X'| | |exact HD'|reflexivity]; congruence.
    + intros j [].
    + tauto.
    + intros n [].
    + constructor.
    + constructor.
    + constructor.
    + intros j hd' E1 E2. unfold t' in E1. destruct (Nat.eq_dec c j) as [<-|NE]; [right; left; now left|].
      rewrite put_state_other in E1 by exact NE. left. split.
      * rewrite <- KL1. eapply nth_error_lt; exact E1.
      * intros [Q|Q]; [congruence|]. now apply (DEADk j hd').
    + exists roots'. split; [exact RUN|exact RE'].
  - destruct RES as [k1 [k2 [G' [SP1 [SP2 HC]]]]]. cbn [s_move]. rewrite alloc_of. cbn [fst snd].
    set (m := length tk) in *.
    assert (Em : m = length (h_coll h1)) by congruence.
    set (t' := put_state (tk ++ hof y false) c (SAt key (vof m y) rest')).
    assert (HDa : nth_error (tk ++ hof y false) c = Some hd) by (rewrite nth_error_app_l; auto).
    assert (HD' : nth_error t' c = Some (mkSh (s_val hd) (s_root hd) (SAt key (vof m y) rest'))) by (apply put_state_same; exact HDa).
    assert (LIM' : e <= lim g' rc) by (rewrite (lim_gle _ _ _ _ (ef_gle _ _ _ _ _ _ EF) ON); apply (n_lim _ _ _ _ _ _ _ _ _ _ _ N)).
    assert (K2 : k2 <= e) by (destruct SP2 as [-> _]; lia).
    assert (FU : full g' (ro_src ro) = full g (ro_src ro)) by (apply (full_on _ _ _ _ (ef_gle _ _ _ _ _ _ EF) ON)).
    assert (FU1 : full g1 (ro_src ro) = full g (ro_src ro)) by (apply (full_on _ _ _ _ L1 ON)).
    rewrite FU1 in SP1, SP2.
    assert (HC' : h_coll h' = upd (h_coll h1) c (set_current x key (vof m y)) ++ cof y rc) by (rewrite HC, Em; reflexivity).
    assert (X' : nth_error (h_coll h') c = Some (set_current x key (vof m y))).
    { rewrite HC'. rewrite nth_error_app_l by (rewrite upd_length; eapply nth_error_lt; exact X1).
      apply nth_error_upd_same. eapply nth_error_lt; exact X1. }
    assert (NEW : thr g' h' t' (vof m y) rc (ro_src ro) k2 (iof m y) rc).
    { apply (thr_new g' h' t' y rc (ro_src ro) k1 k2 m false).
      - rewrite HC'. cbn [add_colls h_coll]. apply app_nth_eq. now rewrite upd_length.
      - unfold t'. rewrite put_state_other by (unfold m; lia). unfold m. apply app_nth_any.
      - eapply on_src_gle; [apply (ef_gle _ _ _ _ _ _ EF)|exact ON].
      - lia.
      - exact G'.
      - now rewrite FU. }
    assert (IOF : forall j, In j (iof m y) -> j = m /\ nonroot t' j).
    { intros j J. destruct y as [sc|l el|l el]; cbn [iof] in J; [destruct J| |]; destruct J as [<-|[]]; (split; [reflexivity|]);
      eexists; unfold t'; rewrite put_state_other by (unfold m; lia); (split; [unfold m; apply nth_error_app_last|reflexivity]). }
    exists h', g'.
    destruct (rel_thread g h st roots R1 ro R2 V c v r e ids1 ids2 g' h' t' (iof m y) rc [] RE PL EFb ACT) as [roots' RE'].
    + unfold t'. rewrite put_state_len, HC', !app_length, upd_length. rewrite <- Em. unfold m.
      destruct y; reflexivity.
    + intros j Lj NJ. unfold t'. rewrite put_state_other by (intros ->; apply NJ; now left).
      rewrite nth_error_app_l by lia. apply KL2. intro J. apply NJ. now right.
    + intros hd0 E0. rewrite HD in E0. injection E0 as <-. eexists. split; [exact HD'|reflexivity].
    + assert (N' : node g' h' t' v c (set_current x key (vof m y)) (mkSh (s_val hd) (s_root hd) (SAt key (vof m y) rest')) r rc (ro_src ro) e);
        [|eapply t_at; [exact N'|reflexivity|reflexivity|exact ND|reflexivity|reflexivity|exact NEW| | |]].
      * eapply node_next; [exact N|apply (ef_gle _ _ _ _ _ _ EF)|apply (ef_act _ _ _ _ _ _ EF)|exact RNI|exact X'| | |exact HD'|reflexivity]; reflexivity.
      * intros i I. apply SH. now right.
      * cbn [s_val]. now rewrite FU.
      * intros j J. destruct (IOF j J) as [-> Q]. split; [unfold m; lia|exact Q].
    + intros j J. destruct (IOF j J) as [-> Q]. split; [right; unfold m; lia|]. split; [unfold m; lia|exact Q].
    + tauto.
    + intros n [].
    + constructor.
    + constructor.
    + constructor.
    + intros j hd' E1 E2. unfold t' in E1. destruct (Nat.eq_dec c j) as [<-|NE]; [right; left; now left|].
      rewrite put_state_other in E1 by exact NE.
      destruct (Nat.lt_ge_cases j m) as [Lj|Lj].
      * rewrite nth_error_app_l in E1 by exact Lj. left. split; [unfold m in Lj; lia|].
        intros [Q|Q]; [congruence|]. now apply (DEADk j hd').
      * right. left. right. pose proof (nth_error_lt _ _ _ _ E1) as Q. rewrite app_length in Q.
        destruct y as [sc|l el|l el]; cbn [hof length iof] in *; fold m in Q; [lia| |]; left; lia.
    + exists roots'. split; [exact RUN|exact RE'].
Qed.

Lemma advance_skip : forall n c x h h1,
  nth_error (h_coll h) c = Some x -> nth_error (h_coll h1) c = Some x -> c_done x = false ->
  discard_current grow n x h = Ok (h1, tt) -> discard_current grow n x h1 = Ok (h1, tt) ->
  advance grow (S n) c h = advance grow (S n) c h1.
Proof.
  intros n c x h h1 X X1 ND D D1. cbn [advance]. unfold get_coll, hbind.
  rewrite X, X1, ND, D, D1. reflexivity.
Qed.

Lemma op_advance_x : forall g h st roots v t' b,
  rel g h st roots -> s_advance (st_coll st) v = Some (t', b) ->
  exists n0 h' g' roots',
    (forall n, n0 <= n -> (ldo c <- coll_of v ; advance grow n c) h = Ok (h', b)) /\
    relx g roots g' h' (mkSt t' (st_iter st)) roots'.
Proof.
  intros g h st roots v t' b RE SA. unfold s_advance in SA.
  destruct (s_get (st_coll st) v) as [[c hd]|] eqn:SG; [|discriminate].
  destruct (s_get_hd _ _ _ _ SG) as [HD HV].
  assert (CO : forall n, (ldo c <- coll_of v ; advance grow n c) h = advance grow n c h).
  { intro n. destruct HV as [->| ->]; reflexivity. }
  assert (ND : s_state hd <> SDead) by (destruct (s_state hd); congruence).
  destruct (place_ok _ _ _ _ _ _ _ RE SG ND) as [R1 [ro [R2 [V [r [e [ids1 [ids2 PL]]]]]]]].
  destruct (place_hd _ _ _ _ _ _ _ _ _ _ _ _ _ _ _ PL HD) as [x [rc [N [RC _]]]].
  pose proof (pl_sub _ _ _ _ _ _ _ _ _ _ _ _ _ _ PL) as T.
  pose proof (re_core _ _ _ _ RE) as C.
  destruct (s_state hd) as [|key ch rest| |] eqn:S; [| | |congruence].
  - destruct (sub_fresh _ _ _ _ _ _ _ _ _ _ _ _ _ T N S) as [F1 [F2 [F3 [F4 [F5 [F6 [k [G SP]]]]]]]]. subst ids2.
    destruct (move_rel g h st roots R1 ro R2 V c v r e ids1 [] x hd rc g h (st_coll st) k (items (s_val hd))) as [h' [g' [roots' [RUN RE']]]]; auto.
    + now apply eff_refl.
    + apply killed_nil.
    + congruence.
    + apply shaped_items.
    + injection SA as SA. rewrite SA in *. exists 3, h', g', roots'. split; [|exact RE'].
      intros n Hn. rewrite CO. now apply RUN.
  - destruct (sub_at _ _ _ _ _ _ _ _ _ _ _ _ _ _ _ _ T N S) as [F1 [F2 [F3 [F4 [F5 [F6 [k [T1 SP]]]]]]]].
    destruct (discard_ok grow _ _ _ _ _ _ _ _ _ T1 C) as [n0 [h1 [g1 [D [EF [G [ID LE]]]]]]].
    assert (KL : killed (st_coll st) (kill_opt (Datatypes.S c) (st_coll st) (Some ch)) ids2).
    { pose proof (kill_child _ _ _ _ _ _ _ _ _ _ _ _ _ T N) as Q. rewrite S in Q. apply Q. congruence. }
    assert (CHN : ch <> VArr c /\ ch <> VObj c).
    { assert (Q : forall id', ch = VArr id' \/ ch = VObj id' -> c < id').
      { intros id' E. destruct ids2 as [|a ids2].
        - inversion T1; subst. destruct E; discriminate.
        - destruct (thr_node _ _ _ _ _ _ _ _ _ _ T1) as [xx [hh [rr NN]]].
          pose proof (n_v _ _ _ _ _ _ _ _ _ _ _ NN) as EE. destruct (F6 a (or_introl eq_refl)) as [Q _].
          destruct (c_obj xx); destruct E as [E|E]; rewrite E in EE; inversion EE; subst; auto. }
      split; intros E; specialize (Q c); assert (c < c) by (apply Q; auto); lia. }
    destruct (move_rel g h st roots R1 ro R2 V c v r e ids1 ids2 x hd rc g1 h1 (kill_opt (Datatypes.S c) (st_coll st) (Some ch)) k rest) as [h' [g' [roots' [RUN RE']]]]; auto.
    + intros _. exists ch. tauto.
    + assert (SA2 : s_move (kill_opt (Datatypes.S c) (st_coll st) (Some ch)) c rest = (t', b)) by congruence. rewrite SA2 in RUN, RE'. exists (Datatypes.S (Datatypes.S (Datatypes.S (Datatypes.S n0)))), h', g', roots'. split; [|exact RE'].
      intros n Hn. rewrite CO. specialize (RUN n ltac:(lia)). cbn [snd] in RUN. rewrite <- RUN. destruct n as [|n]; [lia|].
      assert (X1 : nth_error (h_coll h1) c = Some x).
      { rewrite (ef_coll _ _ _ _ _ _ EF); [apply (n_x _ _ _ _ _ _ _ _ _ _ _ N)|eapply nth_error_lt; apply (n_x _ _ _ _ _ _ _ _ _ _ _ N)|].
        intro J. destruct (F6 _ J). lia. }
      destruct n as [|n]; [lia|].
      apply (advance_skip _ _ x); auto.
      * apply (n_x _ _ _ _ _ _ _ _ _ _ _ N).
      * unfold discard_current. rewrite F1, F4. apply D. lia.
      * unfold discard_current. rewrite F1, F4. apply idle_discard. exact ID.
  - injection SA as <- <-. destruct (sub_done _ _ _ _ _ _ _ _ _ _ _ _ _ T N S) as [F1 _].
    exists 1, h, g, roots. split.
    + intros [|n] Hn; [lia|]. rewrite CO. cbn [advance]. unfold hbind at 1, get_coll. rewrite (n_x _ _ _ _ _ _ _ _ _ _ _ N), F1. reflexivity.
    + destruct st. apply relx_refl. exact RE.
Qed.
Lemma op_advance : forall g h st roots v t' b,
  rel g h st roots -> s_advance (st_coll st) v = Some (t', b) ->
  exists n0 h' g' roots',
    (forall n, n0 <= n -> (ldo c <- coll_of v ; advance grow n c) h = Ok (h', b)) /\
    rel g' h' (mkSt t' (st_iter st)) roots'.
Proof.
  intros g h st roots v t' b RE SA. destruct (op_advance_x _ _ _ _ _ _ _ RE SA) as [n0 [h' [g' [roots' [R [[RE' _] _]]]]]]. exists n0, h', g', roots'. auto.
Qed.

End Grow.

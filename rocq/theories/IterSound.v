(** Every program that uses iterators as the API allows does, on the model,
    exactly what the specification says: it does not panic and it ends. *)
From Coq Require Import List ZArith Arith Bool Lia.
From Verif Require Import Base Tokens JsonSpec EncSpec CursorModel CursorSpec CursorProofs IterModel IterSpec IterCore IterThr IterRel IterOps IterOps2 IterOps3.

(** The parser of the specification reads the tokens it is given. *)
Lemma parse_sound : forall n,
  (forall ts v r, parse_value n ts = Some (v, r) -> ts = toks v ++ r) /\
  (forall ts l e r, parse_items n ts = Some (l, e, r) -> ts = flat_map toks l ++ elision e ++ [TEndArr] ++ r) /\
  (forall ts l e r, parse_members n ts = Some (l, e, r) ->
     ts = flat_map (fun m => TScalar (fst m) :: toks (snd m)) l ++ elision e ++ [TEndObj] ++ r).
Proof.
  induction n as [|n [IHv [IHi IHm]]]; [repeat split; discriminate|]. split; [|split].
  - intros ts v r H. cbn [parse_value] in H. destruct ts as [|[| | | | |s] ts]; try discriminate.
    + destruct (parse_members n ts) as [[[l e] r']|] eqn:E; [|discriminate]. injection H as <- <-.
      apply IHm in E. cbn [toks app]. now rewrite E, <- !app_assoc.
    + destruct (parse_items n ts) as [[[l e] r']|] eqn:E; [|discriminate]. injection H as <- <-.
      apply IHi in E. cbn [toks app]. now rewrite E, <- !app_assoc.
    + injection H as <- <-. reflexivity.
  - intros ts l e r H.
    assert (D : (exists r0, ts = TEndArr :: r0 /\ (l, e, r) = ([], false, r0)) \/
                (exists r0, ts = TElision :: TEndArr :: r0 /\ (l, e, r) = ([], true, r0)) \/
                exists v r1 l1, parse_value n ts = Some (v, r1) /\ parse_items n r1 = Some (l1, e, r) /\ l = v :: l1).
    { assert (G : match parse_value n ts with
                  | Some (v, r1) => match parse_items n r1 with Some (l1, e1, r') => Some (v :: l1, e1, r') | None => None end
                  | None => None end = Some (l, e, r) ->
                  exists v r1 l1, parse_value n ts = Some (v, r1) /\ parse_items n r1 = Some (l1, e, r) /\ l = v :: l1).
      { destruct (parse_value n ts) as [[v r1]|]; [|discriminate].
        destruct (parse_items n r1) as [[[l1 e1] r2]|] eqn:E; [|discriminate].
        intro Q. injection Q as <- <- <-. exists v, r1, l1. auto. }
      cbn [parse_items] in H. destruct ts as [|[| | | | |s] ts]; auto.
      - left. exists ts. split; [reflexivity|congruence].
      - destruct ts as [|[| | | | |s] ts]; auto. right. left. exists ts. split; [reflexivity|congruence]. }
    destruct D as [[r0 [-> Q]]|[[r0 [-> Q]]|[v [r1 [l1 [E1 [E2 ->]]]]]]].
    + injection Q as -> -> ->. reflexivity.
    + injection Q as -> -> ->. reflexivity.
    + apply IHv in E1. apply IHi in E2. cbn [flat_map]. rewrite E1, E2, <- !app_assoc. reflexivity.
  - intros ts l e r H.
    assert (D : (exists r0, ts = TEndObj :: r0 /\ (l, e, r) = ([], false, r0)) \/
                (exists r0, ts = TElision :: TEndObj :: r0 /\ (l, e, r) = ([], true, r0)) \/
                exists k ts1 v r1 l1, ts = TScalar k :: ts1 /\ parse_value n ts1 = Some (v, r1) /\
                  parse_members n r1 = Some (l1, e, r) /\ l = (k, v) :: l1).
    { cbn [parse_members] in H. destruct ts as [|[| | | | |s] ts]; try discriminate.
      - left. exists ts. split; [reflexivity|congruence].
      - destruct ts as [|[| | | | |s] ts]; try discriminate. right. left. exists ts. split; [reflexivity|congruence].
      - right. right. destruct (parse_value n ts) as [[v r1]|] eqn:E1; [|discriminate].
        destruct (parse_members n r1) as [[[l1 e1] r2]|] eqn:E; [|discriminate].
        injection H as <- <- <-. exists s, ts, v, r1, l1. auto. }
    destruct D as [[r0 [-> Q]]|[[r0 [-> Q]]|[k [ts1 [v [r1 [l1 [-> [E1 [E2 ->]]]]]]]]]].
    + injection Q as -> -> ->. reflexivity.
    + injection Q as -> -> ->. reflexivity.
    + apply IHv in E1. apply IHm in E2. cbn [flat_map fst snd app]. rewrite E1, E2, <- !app_assoc. reflexivity.
Qed.

Lemma parse_stream_sound : forall n ts vs, parse_stream n ts = Some vs -> ts = stream vs.
Proof.
  induction n as [|n IH]; intros ts vs H; [discriminate|]. cbn [parse_stream] in H.
  destruct ts as [|t ts]; [injection H as <-; reflexivity|].
  destruct (parse_value (length (t :: ts)) (t :: ts)) as [[v r]|] eqn:E; [|discriminate].
  destruct (parse_stream n r) as [l|] eqn:E2; [|discriminate]. injection H as <-.
  apply (proj1 (parse_sound _)) in E. rewrite E, (IH _ _ E2). reflexivity.
Qed.

Section Grow.
Variable grow : Z -> Z -> Z.

Lemma op_iter_clone : forall g h st roots i st' j,
  rel g h st roots -> si_clone st i = Some (st', j) ->
  exists h' g' roots', iter_clone grow i h = Ok (h', j) /\ rel g' h' st' roots'.
Proof.
  intros g h st roots i st' j RE SC. unfold si_clone in SC.
  destruct (nth_error (st_iter st) i) as [[rt [rest [cur|]| |]]|] eqn:E; try discriminate.
  cbn [si_state] in SC. injection SC as <- <-.
  destruct (iter_root _ _ _ _ _ _ _ _ RE E) as [R1 [ro [R2 [ER [RI [OK [EV [RC [SP [GL [LB LR]]]]]]]]]]].
  pose proof (re_core _ _ _ _ RE) as C.
  pose proof (io_h _ _ _ _ _ OK) as X. rewrite EV in X.
  pose proof (io_thr _ _ _ _ _ OK) as T. rewrite EV in T. destruct T as [G [IDS LF]].
  pose proof (io_on _ _ _ _ _ OK) as ON. pose proof (io_lim _ _ _ _ _ OK) as LI.
  destruct (clone_any grow g h (ro_base ro) (ro_src ro) (ro_end ro) (length (full g (ro_src ro))) C G)
    as [h1 [g1 [ra [rb [CL [[O1 O2] [EF [SW [AC [CA [CB [GB [NE [GA1 [GB1 [LA LB']]]]]]]]]]]]]]]].
  { rewrite LI. destruct SP as [-> _]. lia. }
  assert (C1 := ef_core _ _ _ _ _ _ EF). assert (L1 := ef_gle _ _ _ _ _ _ EF).
  assert (FU := full_on _ _ _ _ L1 ON).
  assert (LIA : lim g1 ra = length (full g (ro_src ro))).
  { pose proof (lim_pos _ _ _ _ _ C1 GA1) as Q. rewrite FU in Q. lia. }
  assert (LIB : lim g1 rb = length (full g (ro_src ro))).
  { pose proof (lim_pos _ _ _ _ _ C1 GB1) as Q. rewrite FU in Q. lia. }
  set (m := length (st_iter st)).
  assert (LI0 : m = length (h_iter h)) by apply (re_leni _ _ _ _ RE).
  assert (LX := nth_error_lt _ _ _ _ X).
  set (h3 := mkHeap (h_src h1) (h_pool h1) (h_coll h1) (upd (h_iter h1) i (mkIter ra None) ++ [mkIter rb None])).
  set (ro1 := mkRoot (Some i) None ra (ro_src ro) (ro_end ro) [] ra).
  set (ro2 := mkRoot (Some m) None rb (ro_src ro) (ro_end ro) [] rb).
  assert (C3 : core g1 h3) by (eapply core_objs; [exact C1| |]; reflexivity).
  set (si2 := mkSi true (SIAt rest None)).
  assert (OK1 : forall i' r b, nth_error (h_iter h3) i' = Some (mkIter r None) ->
      nth_error (st_iter st ++ [si2]) i' = Some (mkSi b (SIAt rest None)) -> is_cur r ->
      gpos g1 r = Some (ro_src ro, ro_end ro) -> lim g1 r = length (full g (ro_src ro)) ->
      root_ok g1 h3 (mkSt (st_coll st) (st_iter st ++ [si2])) (mkRoot (Some i') None r (ro_src ro) (ro_end ro) [] r)).
  { intros i' r b Q1 Q2 Q3 Q4 Q5. unfold root_ok. cbn [ro_it].
    constructor; cbn [ro_v ro_base ro_src ro_end ro_ids ro_leaf st_coll st_iter].
    - exact Q1.
    - exists b, rest. rewrite FU. auto.
    - now rewrite FU.
    - eapply gpos_on; [exact C3|exact Q4].
    - intros j' [].
    - auto. }
  exists h3, g1, (R1 ++ [ro1; ro2] ++ R2). split.
  - unfold iter_clone, hbind at 1, get_iter. rewrite X. cbn [i_val i_stream].
    unfold hbind at 1. rewrite CL. unfold hbind, put_iter, new_iter. cbn [fst snd set_iter h_iter h_src h_pool h_coll].
    unfold h3. rewrite upd_length, O2, <- LI0. reflexivity.
  - assert (REs := RE). rewrite ER in REs.
    eapply rel_update; [exact REs|exact C3|exact L1| | | | | | | | | | | | | | |]; cbn [st_coll st_iter].
    + unfold h3. cbn [h_coll]. rewrite O1. apply (re_lenc _ _ _ _ RE).
    + unfold h3. cbn [h_iter]. rewrite !app_length, upd_length, O2. fold m. cbn [length]. lia.
    + intros n [<-|[<-|[]]].
      * apply OK1 with (b := rt); auto.
        -- unfold h3. cbn [h_iter]. rewrite nth_error_app_l by (rewrite upd_length, O2; exact LX).
           apply nth_error_upd_same. rewrite O2. exact LX.
        -- rewrite nth_error_app_l; [exact E|]. eapply nth_error_lt; exact E.
      * apply OK1 with (b := true); auto.
        -- unfold h3. cbn [h_iter]. assert (Q : m = length (upd (h_iter h1) i (mkIter ra None))) by (rewrite upd_length, O2; exact LI0).
           rewrite Q. apply nth_error_app_last.
        -- apply nth_error_app_last.
    + intros r NO. destruct (NO ro (or_introl eq_refl)) as [Q _]. apply (ef_pos _ _ _ _ _ _ EF). intros [Q'|[]]. congruence.
    + intro s. destruct (ef_act _ _ _ _ _ _ EF s) as [Q|[Q|[]]]; [now left|]. right. left. exists ro. split; [now left|auto].
    + intros j _ _. unfold h3. cbn [h_coll]. rewrite O1. auto.
    + intros i' Li NO. specialize (NO ro (or_introl eq_refl)). fold m in Li. unfold h3. cbn [h_iter].
      rewrite !nth_error_app_l by (rewrite ?upd_length, ?O2; fold m; lia). split; [|reflexivity].
      rewrite O2. apply nth_error_upd_other. congruence.
    + cbn [map ro_base ro1 ro2]. constructor; [intros [Q|[]]; congruence|]. constructor; [intros []|constructor].
    + cbn [map ro_leaf ro1 ro2]. constructor; [intros [Q|[]]; congruence|]. constructor; [intros []|constructor].
    + cbn. constructor.
    + intros n [<-|[<-|[]]]; cbn [ro_base ro1 ro2 map].
      * destruct SW as [->|[_ [_ Q]]]; [left; now left|right; auto].
      * right. auto.
    + intros n [<-|[<-|[]]]; cbn [ro_leaf ro1 ro2 map].
      * destruct SW as [->|[_ [_ Q]]]; [left; now left|auto].
      * auto.
    + intros n j [<-|[<-|[]]] [].
    + intros j hd E1 E2. left. split; [eapply nth_error_lt; exact E1|]. intros o [<-|[]]. rewrite IDS. intros [].
    + intros i' y E1. destruct (Nat.eq_dec i' i) as [->|NI].
      * right. rewrite nth_error_app_l in E1 by (eapply nth_error_lt; exact E). rewrite E in E1. injection E1 as <-.
        unfold iter_cov. cbn [si_state]. exists ro1. split; [now left|reflexivity].
      * destruct (nth_error_snoc _ _ _ _ _ E1) as [Q|[-> ->]].
        -- left. split; [eapply nth_error_lt; exact Q|]. intros o [<-|[]]. congruence.
        -- right. unfold iter_cov. cbn [si_state si2]. exists ro2. split; [right; now left|reflexivity].
Qed.

Lemma op_iter_new : forall g h st roots data st' j,
  rel g h st roots -> si_new st data = Some (st', j) ->
  exists h' g' roots', iter_from_data data h = Ok (h', j) /\ rel g' h' st' roots'.
Proof.
  intros g h st roots data st' j RE SN. unfold si_new in SN.
  destruct (parse_stream (S (length data)) data) as [vs|] eqn:P; [|discriminate].
  apply parse_stream_sound in P.
  destruct (Z.ltb_spec (Z.of_nat (length data)) maxint) as [LM|]; [|discriminate]. injection SN as <- <-.
  pose proof (re_core _ _ _ _ RE) as C.
  pose proof (data_ok g h data C LM) as Q. cbv zeta in Q. destruct Q as [C' [L [FD [GN [G [LI [ON [PO AC]]]]]]]].
  set (h1 := mkHeap (h_src h ++ [[]])
              (h_pool h ++ [(length (h_src h), new_pool_from_data data (Z.of_nat (length data)))])
              (h_coll h) (h_iter h)) in *.
  set (m := length (st_iter st)).
  assert (LI0 : m = length (h_iter h)) by apply (re_leni _ _ _ _ RE).
  set (r := RCur (length (g_P g)) 0) in *.
  set (s := length (g_F g)) in *.
  set (h2 := mkHeap (h_src h1) (h_pool h1) (h_coll h1) (h_iter h1 ++ [mkIter r None])).
  set (ro := mkRoot (Some m) None r s 0 [] r).
  set (si2 := mkSi false (SIAt vs None)).
  assert (LP : length (h_pool h) = length (g_P g)) by apply (co_lenP _ _ C).
  exists h2, (gdata g data), ([] ++ [ro] ++ roots). split.
  - unfold iter_from_data. fold h1. unfold new_iter. rewrite LP. fold r. cbn [h_iter h1]. rewrite <- LI0. reflexivity.
  - assert (REs := RE). change roots with ([] ++ [] ++ roots) in REs.
    assert (C2 : core (gdata g data) h2) by (eapply core_objs; [exact C'| |]; reflexivity).
    eapply rel_update; [exact REs|exact C2|exact L| | | | | | | | | | | | | | |]; cbn [st_coll st_iter].
    + unfold h2. cbn [h_coll h1]. apply (re_lenc _ _ _ _ RE).
    + unfold h2. cbn [h_iter h1]. rewrite !app_length. fold m. cbn [length]. lia.
    + intros n [<-|[]]. unfold root_ok. cbn [ro_it ro].
      constructor; cbn [ro_v ro_base ro_src ro_end ro_ids ro_leaf st_coll st_iter ro].
      * unfold h2. cbn [h_iter h1]. rewrite LI0. apply nth_error_app_last.
      * exists false, vs. split; [apply nth_error_app_last|]. split; [discriminate|].
        rewrite FD. split; [rewrite P; lia|]. exists []. rewrite P, app_nil_r. reflexivity.
      * rewrite FD. exact LI.
      * exact ON.
      * intros j [].
      * auto.
    + intros q _. apply PO.
    + intro s'. destruct (Nat.lt_ge_cases s' (length (g_F g))) as [Q|Q]; [left; now apply AC|auto].
    + intros j _ _. auto.
    + intros i Li _. fold m in Li. unfold h2. cbn [h_iter h1]. rewrite !nth_error_app_l by (fold m; lia). auto.
    + cbn [map]. constructor; [intros []|constructor].
    + cbn [map]. constructor; [intros []|constructor].
    + cbn. constructor.
    + intros n [<-|[]]. right. cbn [ro_base ro]. split; [now exists (length (g_P g)), 0|apply GN].
    + intros n [<-|[]]. right. right. cbn [ro_leaf ro]. apply GN.
    + intros n j [<-|[]] [].
    + intros j hd E1 E2. left. split; [eapply nth_error_lt; exact E1|]. intros o [].
    + intros i y E1. destruct (nth_error_snoc _ _ _ _ _ E1) as [Q|[-> ->]].
      * left. split; [eapply nth_error_lt; exact Q|]. intros o [].
      * right. unfold iter_cov. cbn [si_state si2]. exists ro. split; [now left|reflexivity].
Qed.

(* ------------------------------------------------------------------ *)
Lemma rel_start : forall vs, (Z.of_nat (length (stream vs)) < maxint)%Z ->
  exists g roots, rel g (start (stream vs)) (spec_start vs) roots.
Proof.
  intros vs LM. set (F := stream vs) in *.
  set (g := mkGh [F] [0] [] [None]).
  set (ro := mkRoot (Some 0) None (RSrc 0) 0 0 [] (RSrc 0)).
  assert (C : core g (start F)).
  { constructor; cbn; auto.
    - intros [|[|s]] l H; cbn in H; try discriminate. injection H as <-. split; [reflexivity|]. cbn. lia.
    - intros [|[|s]]; cbn; auto; unfold maxint; lia.
    - intros [|p]; discriminate.
    - intros [|[|s]] p H; discriminate. }
  exists g, [ro]. constructor; auto.
  - intros r [<-|[]]. unfold root_ok. cbn [ro_it ro]. constructor; cbn; auto.
    + exists false, vs. split; [reflexivity|]. split; [discriminate|].
      split; [reflexivity|]. exists []. cbn. now rewrite app_nil_r.
    + split; [cbn; lia|reflexivity].
    + intros j [].
  - cbn. constructor; [intros []|constructor].
  - cbn. constructor; [intros []|constructor].
  - cbn. constructor.
  - intros [|j] hd H; discriminate.
  - intros [|[|i]] x H; cbn in H; try discriminate. injection H as <-. cbn. exists ro. split; [now left|reflexivity].
Qed.

Lemma sound : forall A (p : iprog A) g h st roots st' a,
  rel g h st roots -> spec_run p st = Some (st', a) ->
  exists n0 h' g' roots', (forall n, n0 <= n -> irun grow n p h = Ok (h', a)) /\ rel g' h' st' roots'.
Proof.
  induction p as [a0| | |v k IH|v k IH|v k IH|v k IH|v k IH|v k IH|v k IH|d k IH|i k IH|i k IH|i k IH|i k IH];
    intros g h st roots st' a RE SR; cbn [spec_run] in SR; try discriminate.
  - injection SR as <- <-. exists 0, h, g, roots. auto.
  - destruct (s_advance (st_coll st) v) as [[t b]|] eqn:E; [|discriminate]. cbn [on_coll obind] in SR.
    destruct (op_advance grow _ _ _ _ _ _ _ RE E) as [n1 [h1 [g1 [r1 [R1 RE1]]]]].
    destruct (IH _ _ _ _ _ _ _ RE1 SR) as [n2 [h2 [g2 [r2 [R2 RE2]]]]].
    exists (Nat.max n1 n2), h2, g2, r2. split; [|exact RE2]. intros n Hn. cbn [irun].
    specialize (R1 n ltac:(lia)). unfold hbind in *. destruct (coll_of v h) as [[h0 c]| |]; try discriminate.
    rewrite R1. apply R2. lia.
  - destruct (s_current (st_coll st) v) as [[k0 x]|] eqn:E; [|discriminate].
    pose proof (op_current _ _ _ _ _ _ RE E) as R1. cbn [snd] in R1.
    destruct (IH _ _ _ _ _ _ _ RE SR) as [n2 [h2 [g2 [r2 [R2 RE2]]]]].
    exists n2, h2, g2, r2. split; [|exact RE2]. intros n Hn. cbn [irun]. unfold hbind. rewrite R1. auto.
  - destruct (s_current (st_coll st) v) as [x|] eqn:E; [|discriminate].
    pose proof (op_keyval _ _ _ _ _ _ RE E) as R1.
    destruct (IH _ _ _ _ _ _ _ RE SR) as [n2 [h2 [g2 [r2 [R2 RE2]]]]].
    exists n2, h2, g2, r2. split; [|exact RE2]. intros n Hn. cbn [irun]. unfold hbind. rewrite R1. auto.
  - destruct (s_clone (st_coll st) v) as [[t x]|] eqn:E; [|discriminate]. cbn [on_coll obind] in SR.
    destruct (op_clone grow _ _ _ _ _ _ _ RE E) as [h1 [g1 [r1 [R1 RE1]]]].
    destruct (IH _ _ _ _ _ _ _ RE1 SR) as [n2 [h2 [g2 [r2 [R2 RE2]]]]].
    exists n2, h2, g2, r2. split; [|exact RE2]. intros n Hn. cbn [irun]. unfold hbind. rewrite R1. auto.
  - destruct (s_detach (st_coll st) v) as [t|] eqn:E; [|discriminate]. cbn [on_coll_ obind] in SR.
    destruct (op_detach grow _ _ _ _ _ _ RE E) as [h1 [g1 [r1 [R1 RE1]]]].
    destruct (IH _ _ _ _ _ _ RE1 SR) as [n2 [h2 [g2 [r2 [R2 RE2]]]]].
    exists n2, h2, g2, r2. split; [|exact RE2]. intros n Hn. cbn [irun]. unfold hbind. rewrite R1. auto.
  - destruct (s_copy (st_coll st) v) as [[t ts]|] eqn:E; [|discriminate]. cbn [on_coll obind] in SR.
    destruct (op_copy grow _ _ _ _ _ _ _ RE E) as [n1 [h1 [g1 [r1 [R1 RE1]]]]].
    destruct (IH _ _ _ _ _ _ _ RE1 SR) as [n2 [h2 [g2 [r2 [R2 RE2]]]]].
    exists (Nat.max n1 n2), h2, g2, r2. split; [|exact RE2]. intros n Hn. cbn [irun]. unfold hbind.
    rewrite R1 by lia. apply R2. lia.
  - destruct (s_discard (st_coll st) v) as [t|] eqn:E; [|discriminate]. cbn [on_coll_ obind] in SR.
    destruct (op_discard grow _ _ _ _ _ _ RE E) as [n1 [h1 [g1 [r1 [R1 RE1]]]]].
    destruct (IH _ _ _ _ _ _ RE1 SR) as [n2 [h2 [g2 [r2 [R2 RE2]]]]].
    exists (Nat.max n1 n2), h2, g2, r2. split; [|exact RE2]. intros n Hn. cbn [irun]. unfold hbind.
    rewrite R1 by lia. apply R2. lia.
  - destruct (si_new st d) as [[st1 j]|] eqn:E; [|discriminate]. cbn [obind] in SR.
    destruct (op_iter_new _ _ _ _ _ _ _ RE E) as [h1 [g1 [r1 [R1 RE1]]]].
    destruct (IH _ _ _ _ _ _ _ RE1 SR) as [n2 [h2 [g2 [r2 [R2 RE2]]]]].
    exists n2, h2, g2, r2. split; [|exact RE2]. intros n Hn. cbn [irun]. unfold hbind. rewrite R1. auto.
  - destruct (si_advance st i) as [[st1 b]|] eqn:E; [|discriminate]. cbn [obind] in SR.
    destruct (op_iter_advance grow _ _ _ _ _ _ _ RE E) as [n1 [h1 [g1 [r1 [R1 RE1]]]]].
    destruct (IH _ _ _ _ _ _ _ RE1 SR) as [n2 [h2 [g2 [r2 [R2 RE2]]]]].
    exists (Nat.max n1 n2), h2, g2, r2. split; [|exact RE2]. intros n Hn. cbn [irun]. unfold hbind.
    rewrite R1 by lia. apply R2. lia.
  - destruct (si_current st i) as [x|] eqn:E; [|discriminate].
    pose proof (op_iter_current _ _ _ _ _ _ RE E) as R1.
    destruct (IH _ _ _ _ _ _ _ RE SR) as [n2 [h2 [g2 [r2 [R2 RE2]]]]].
    exists n2, h2, g2, r2. split; [|exact RE2]. intros n Hn. cbn [irun]. unfold hbind. rewrite R1. auto.
  - destruct (si_clone st i) as [[st1 j]|] eqn:E; [|discriminate]. cbn [obind] in SR.
    destruct (op_iter_clone _ _ _ _ _ _ _ RE E) as [h1 [g1 [r1 [R1 RE1]]]].
    destruct (IH _ _ _ _ _ _ _ RE1 SR) as [n2 [h2 [g2 [r2 [R2 RE2]]]]].
    exists n2, h2, g2, r2. split; [|exact RE2]. intros n Hn. cbn [irun]. unfold hbind. rewrite R1. auto.
  - destruct (si_detach st i) as [st1|] eqn:E; [|discriminate].
    destruct (op_iter_detach grow _ _ _ _ _ _ RE E) as [h1 [g1 [r1 [R1 RE1]]]].
    destruct (IH _ _ _ _ _ _ RE1 SR) as [n2 [h2 [g2 [r2 [R2 RE2]]]]].
    exists n2, h2, g2, r2. split; [|exact RE2]. intros n Hn. cbn [irun]. unfold hbind. rewrite R1. auto.
Qed.

(** The model follows the specification. *)
Theorem iterators_follow_spec : forall A (p : iprog A) vs st' a,
  (Z.of_nat (length (stream vs)) < maxint)%Z ->
  spec_run p (spec_start vs) = Some (st', a) ->
  exists n0 h', forall n, n0 <= n -> irun grow n p (start (stream vs)) = Ok (h', a).
Proof.
  intros A p vs st' a LM SR. destruct (rel_start vs LM) as [g [roots RE]].
  destruct (sound _ _ _ _ _ _ _ _ RE SR) as [n0 [h' [g' [roots' [R _]]]]]. eauto.
Qed.

End Grow.

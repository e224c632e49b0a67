(** Proofs for C03: with two live cursors, the tokens every live cursor has
    passed stay within the catch-up threshold. *)
From Coq Require Import List ZArith Lia Bool.
From Verif Require Import Base Tokens CursorModel CursorSpec CursorProofs.
Import ListNotations.

Definition catch_ok (p : pool) : Prop := (0 <= p_catch p <= catchupCountThreshold)%Z.

Definition near (p : pool) : Prop :=
  exists c, In c (p_curs p) /\ (cpos (p_tab p) c - p_wpos p <= p_catch p)%Z.

Lemma advance_window_near : forall p p' c0,
  In c0 (p_curs p) -> pool_bounds p ->
  (p_wpos p + Z.of_nat (length (p_win p)) < maxint)%Z ->
  advance_window p = Ok p' ->
  p_catch p' = p_catch p /\
  exists c, In c (p_curs p') /\ cpos (p_tab p') c = p_wpos p'.
Proof.
  intros p p' c0 H0 B M E.
  destruct (advance_window_ok p B M) as [p1 [k [E1 [T C]]]].
  rewrite E in E1. injection E1 as <-.
  split; [exact C|].
  unfold advance_window in E.
  set (m := min_pos (p_tab p) (p_curs p) maxint) in *.
  destruct (min_pos_cases (p_tab p) (p_curs p) maxint) as [H|[c1 [Hc1 H]]]; fold m in H.
  - pose proof (min_pos_lb (p_tab p) (p_curs p) maxint c0 H0) as L.
    pose proof (B _ H0). fold m in L. lia.
  - exists c1. destruct T as (T1&T2&T3&T4&T5&T6&T7).
    rewrite T5, T6. split; [exact Hc1|]. rewrite <- H.
    pose proof (B _ Hc1) as Bc.
    destruct (Z.eqb_spec m maxint) as [X|X]; [unfold maxint in *; lia|].
    destruct (Z.ltb_spec (m - p_wpos p) 0); [discriminate|].
    destruct (Z.eqb_spec (m - p_wpos p) 0) as [Z0|Z0].
    + injection E as <-. lia.
    + destruct (slice_from (p_win p) (m - p_wpos p)) as [tl| |]; try discriminate.
      simpl in E.
      destruct ((p_cap p <=? windowCapacityThreshold)%Z
        || (p_cap p <? (Z.of_nat (length (p_win p)) - (m - p_wpos p)) * 2)%Z).
      * destruct (slice_to (go_copy (p_win p) tl) _) as [w| |]; try discriminate.
        simpl in E. injection E as <-. simpl. lia.
      * injection E as <-. simpl. lia.
Qed.

Lemma update_catchup_near : forall p n p' c0,
  In c0 (p_curs p) -> pool_bounds p ->
  (p_wpos p + Z.of_nat (length (p_win p)) < maxint)%Z ->
  (0 <= n)%Z -> catch_ok p ->
  update_catchup p n = Ok p' ->
  catch_ok p' /\
  ((exists c, In c (p_curs p') /\ cpos (p_tab p') c = p_wpos p') \/
   (p' = set_catch p (p_catch p + n))).
Proof.
  intros p n p' c0 H0 B M N C E. unfold update_catchup in E.
  change (p_catch (set_catch p (p_catch p + n))) with (p_catch p + n)%Z in E.
  unfold catch_ok in *.
  destruct (Z.ltb_spec catchupCountThreshold (p_catch p + n)).
  - destruct (advance_window_near (set_catch (set_catch p (p_catch p + n)) 0) p' c0) as [E1 E2];
      auto.
    rewrite E1. simpl. unfold catchupCountThreshold in *. split; [lia|now left].
  - injection E as <-. simpl. split; [lia|now right].
Qed.

Lemma advance_window_catch : forall q q', advance_window q = Ok q' -> p_catch q' = p_catch q.
Proof.
  intros q q' H. unfold advance_window in H.
  destruct (_ =? _)%Z in H; [injection H as <-; reflexivity|].
  destruct (_ <? _)%Z in H; [discriminate|].
  destruct (_ =? _)%Z in H; [injection H as <-; reflexivity|].
  destruct (slice_from _ _); try discriminate. simpl in H.
  destruct (_ || _)%bool in H.
  - destruct (slice_to _ _); try discriminate. simpl in H. injection H as <-. reflexivity.
  - injection H as <-. reflexivity.
Qed.

Lemma update_catchup_catch : forall p n p',
  update_catchup p n = Ok p' -> (0 <= n)%Z -> catch_ok p -> catch_ok p'.
Proof.
  intros p n p' U N C. unfold update_catchup in U.
  change (p_catch (set_catch p (p_catch p + n))) with (p_catch p + n)%Z in U.
  unfold catch_ok in *.
  destruct (Z.ltb_spec catchupCountThreshold (p_catch p + n)).
  - apply advance_window_catch in U. rewrite U. simpl. unfold catchupCountThreshold. lia.
  - injection U as <-. simpl. lia.
Qed.

(** Detaching keeps the counter within the threshold. *)
Lemma detach_loop_catch : forall full k i c p s p',
  (Z.of_nat (length full) < maxint)%Z -> inv full p s -> catch_ok p ->
  NoDup (p_curs p) ->
  detach_loop k i c (cpos (p_tab p) c) p = Ok p' -> catch_ok p'.
Proof.
  induction k as [|k IH]; simpl; intros i c p s p' M I C ND E.
  - now injection E as <-.
  - destruct (nth_error (p_curs p) i) as [c1|] eqn:E1; [|eauto].
    destruct (Nat.eqb_spec c1 c) as [->|]; [|eauto].
    assert (H0 : In c (p_curs p)) by (eapply nth_error_In; eauto).
    pose proof (inv_bounds _ _ _ I) as B. pose proof (inv_max _ _ _ I M) as MX.
    pose proof (B _ H0) as Bc.
    destruct (update_catchup p (cpos (p_tab p) c - p_wpos p)) as [p1| |] eqn:U; try discriminate.
    simpl in E.
    destruct (update_catchup_near p (cpos (p_tab p) c - p_wpos p) p1 c) as [C1 _]; auto; [lia|].
    destruct (update_catchup_ok p (cpos (p_tab p) c - p_wpos p) B MX) as [p2 [k2 [U2 T]]].
    rewrite U in U2. injection U2 as <-.
    destruct T as (T1&T2&T3&T4&T5&T6&T7).
    rewrite detach_loop_none in E.
    + injection E as <-. exact C1.
    + simpl. rewrite T5. intro H.
      apply (proj1 (remove_at_in _ _ _ ND E1)) in H. tauto.
Qed.

Lemma detach_catch : forall full p s c p',
  (Z.of_nat (length full) < maxint)%Z -> inv full p s -> catch_ok p ->
  detach_cursor p c = Ok p' -> catch_ok p'.
Proof.
  intros full p s c p' M I C E. unfold detach_cursor in E.
  destruct (detach_loop _ _ _ _ _) as [p1| |] eqn:D; try discriminate.
  simpl in E. injection E as <-.
  eapply detach_loop_catch in D; eauto. eapply i_nodup'; eauto.
Qed.

(** A live reader is a registered cursor, and the other way round. *)
Lemma live_registered : forall full p s c n, inv full p s ->
  nth_error (sp_cur s) c = Some (Some n) ->
  In c (p_curs p) /\ cpos (p_tab p) c = Z.of_nat n /\
  exists cu, nth_error (p_tab p) c = Some cu /\ cu_att cu = true.
Proof.
  intros full p s c n [w [iwpos iread ilen iwin isrc itab icur inodup ireg]] E.
  destruct (nth_error (p_tab p) c) as [cu|] eqn:E1;
    [|apply nth_error_ge in E1; apply nth_error_lt in E; lia].
  specialize (icur _ _ _ E1 E). simpl in icur.
  destruct icur as [A [B [C D]]]. unfold cpos. rewrite E1.
  repeat split; eauto.
Qed.

Lemma two_live_mono : forall full s o,
  two_live s -> (match o with ODetach _ => False | ONext _ => snd (spec_step full s o) <> ObsToken None | _ => True end) ->
  two_live (fst (spec_step full s o)).
Proof.
  intros full s o [i [j [m [n [D [Hi Hj]]]]]] K.
  destruct o as [|c|c|c]; simpl in *; try contradiction.
  - exists i, j, m, n. simpl. split; [exact D|].
    rewrite !nth_error_app_l by (eapply nth_error_lt; eauto). auto.
  - destruct (nth_error (sp_cur s) c) as [[q|]|]; simpl; exists i, j, m, n; auto.
    split; [exact D|]. simpl.
    rewrite !nth_error_app_l by (eapply nth_error_lt; eauto). auto.
  - destruct (nth_error (sp_cur s) c) as [[q|]|] eqn:Ec; simpl in *.
    + destruct (nth_error full q) as [t|]; simpl in *; [|congruence].
      assert (U : forall k v, nth_error (sp_cur s) k = Some (Some v) ->
        exists v', nth_error (upd (sp_cur s) c (Some (S q))) k = Some (Some v')).
      { intros k v Hk. destruct (Nat.eq_dec c k) as [->|Ne].
        - exists (S q). apply nth_error_upd_same. eapply nth_error_lt; eauto.
        - exists v. now rewrite nth_error_upd_other by auto. }
      destruct (U _ _ Hi) as [m' Hm]. destruct (U _ _ Hj) as [n' Hn].
      exists i, j, m', n'. auto.
    + exists i, j, m, n. auto.
    + exists i, j, m, n. auto.
Qed.

Section Growth.
Variable grow : Z -> Z -> Z.

Lemma step_catch : forall full p s o p' x,
  (Z.of_nat (length full) < maxint)%Z -> inv full p s -> catch_ok p ->
  step grow p o = Ok (p', x) -> catch_ok p'.
Proof.
  intros full p s o p' x M I C E.
  pose proof (inv_registered _ _ _ I) as REG.
  destruct o as [|c|c|c]; simpl in E.
  - injection E as <- <-. exact C.
  - unfold clone_cursor in E. destruct (nth_error (p_tab p) c) as [cu|].
    + destruct (cu_att cu); injection E as <- <-; exact C.
    + injection E as <- <-; exact C.
  - destruct (nth_error (p_tab p) c) as [cu|]; [|injection E as <- <-; exact C].
    destruct (cu_att cu); [|injection E as <- <-; exact C].
    destruct (detach_cursor p c) as [p1| |] eqn:D; try discriminate.
    simpl in E. injection E as <- <-. eapply detach_catch; eauto.
  - destruct (nth_error (p_tab p) c) as [cu|] eqn:Ec; [|injection E as <- <-; exact C].
    destruct (cu_att cu) eqn:Ea; [|injection E as <- <-; exact C].
    destruct (advance_cursor grow p c) as [[p1 t]| |] eqn:A; try discriminate.
    simpl in E. injection E as <- <-.
    assert (RC : exists n, nth_error (sp_cur s) c = Some (Some n)).
    { destruct (nth_error (sp_cur s) c) as [[n|]|] eqn:Es; eauto.
      - destruct I as [w [iwpos iread ilen iwin isrc itab icur inodup ireg]].
        specialize (icur _ _ _ Ec Es). simpl in icur. destruct icur as [X _]. congruence.
      - destruct I as [w [iwpos iread ilen iwin isrc itab icur inodup ireg]].
        apply nth_error_ge in Es. apply nth_error_lt in Ec. lia. }
    destruct RC as [n Es].
    unfold advance_cursor in A.
    destruct (_ <? _)%Z eqn:L in A.
    + destruct (slice_idx _ _) as [tok| |]; try discriminate. simpl in A.
      destruct (update_catchup _ _) as [p2| |] eqn:U in A; try discriminate.
      simpl in A. injection A as <- <-.
      set (pb := set_tab p (upd (p_tab p) c (mkCursor true (cpos (p_tab p) c + 1)))) in *.
      eapply update_catchup_catch in U; [exact U|lia|exact C].
    + destruct (_ <? _)%Z in A; [discriminate|].
      destruct (p_src p) as [|t0 src'].
      * destruct (detach_cursor p c) as [p2| |] eqn:D; try discriminate.
        simpl in A. injection A as <- <-. eapply detach_catch; eauto.
      * injection A as <- <-. exact C.
Qed.

(** One step that detaches nobody: a pool that is close to its slowest cursor
    stays so, and a token read again counts until the pool is close. *)
Lemma step_near : forall full p s o p' x,
  (Z.of_nat (length full) < maxint)%Z -> inv full p s -> catch_ok p -> two_live s ->
  (match o with ODetach _ => False | ONext _ => snd (spec_step full s o) <> ObsToken None | _ => True end) ->
  step grow p o = Ok (p', x) ->
  (near p -> near p') /\
  (near p' \/ (p_catch p + Z.of_nat (rereads full s [o]) <= p_catch p')%Z).
Proof.
  intros full p s o p' x M I C TL K E.
  pose proof (inv_registered _ _ _ I) as REG.
  pose proof (inv_bounds _ _ _ I) as B.
  pose proof (inv_max _ _ _ I M) as MX.
  assert (APP : forall cu c, In c (p_curs p) ->
     cpos (p_tab p ++ [cu]) c = cpos (p_tab p) c).
  { intros cu c Hc. destruct (REG _ Hc) as [n [H1 _]]. unfold cpos.
    rewrite nth_error_app_l by (eapply nth_error_lt; eauto). reflexivity. }
  destruct o as [|c|c|c]; simpl in E, K; try contradiction.
  - injection E as <- <-. simpl. split; [|right; lia].
    intros [c [Hc Hn]]. exists c. simpl. split; [apply in_or_app; now left|].
    now rewrite APP.
  - unfold clone_cursor in E. destruct (nth_error (p_tab p) c) as [cu|].
    + destruct (cu_att cu); injection E as <- <-; simpl.
      * split; [|right; lia].
        intros [c' [Hc Hn]]. exists c'. simpl. split; [apply in_or_app; now left|].
        now rewrite APP.
      * split; auto. right. lia.
    + injection E as <- <-. simpl. split; auto. right. lia.
  - destruct (nth_error (sp_cur s) c) as [[n|]|] eqn:Es.
    + destruct (live_registered _ _ _ _ _ I Es) as [Hc [Hp [cu [Ec Ea]]]].
      rewrite Ec, Ea in E.
      destruct (advance_cursor grow p c) as [[p1 t]| |] eqn:A; try discriminate.
      simpl in E. injection E as <- <-.
      cbn [rereads]. rewrite Es, Nat.add_0_r.
      assert (RD : (p_wpos p + Z.of_nat (length (p_win p)))%Z = Z.of_nat (sp_read s)).
      { destruct I as [w [iwpos iread ilen iwin isrc itab icur inodup ireg]]. lia. }
      unfold advance_cursor in A. rewrite Hp in A.
      destruct (Z.ltb_spec (Z.of_nat n - p_wpos p) (Z.of_nat (length (p_win p)))) as [L|L].
      * destruct (slice_idx _ _) as [tok| |]; try discriminate. simpl in A.
        set (pb := set_tab p (upd (p_tab p) c (mkCursor true (Z.of_nat n + 1)))) in *.
        destruct (update_catchup pb 1) as [p2| |] eqn:U; try discriminate.
        simpl in A. injection A as <- <-.
        assert (PB : forall c', In c' (p_curs p) ->
          cpos (p_tab pb) c' = if Nat.eq_dec c c' then (Z.of_nat n + 1)%Z else cpos (p_tab p) c').
        { intros c' H'. unfold cpos, pb; simpl.
          destruct (Nat.eq_dec c c') as [<-|Ne].
          - rewrite nth_error_upd_same by (eapply nth_error_lt; eauto). reflexivity.
          - now rewrite nth_error_upd_other by auto. }
        assert (BB : pool_bounds pb).
        { intros c' H'. change (p_curs pb) with (p_curs p) in H'.
          change (p_wpos pb) with (p_wpos p). change (p_win pb) with (p_win p).
          rewrite PB by auto. pose proof (B _ H') as Bx.
          pose proof (B _ Hc) as By. rewrite Hp in By.
          destruct (Nat.eq_dec c c'); lia. }
        destruct (update_catchup_near pb 1 p2 c) as [_ [[c' [Q1 Q2]]|Q]]; auto; try lia.
        -- assert (NN : near p2).
           { exists c'. split; auto.
             assert (CK : catch_ok p2).
             { destruct (update_catchup_near pb 1 p2 c) as [X _]; auto. lia. }
             unfold catch_ok in CK. lia. }
           split; auto.
        -- subst p2. split.
           ++ intros [c' [H1 H2]]. exists c'. split; [exact H1|].
              change (p_tab (set_catch pb (p_catch pb + 1))) with (p_tab pb).
              change (p_wpos (set_catch pb (p_catch pb + 1))) with (p_wpos p).
              change (p_catch (set_catch pb (p_catch pb + 1))) with (p_catch p + 1)%Z.
              rewrite PB by auto. destruct (Nat.eq_dec c c') as [<-|]; lia.
           ++ right. change (p_catch (set_catch pb (p_catch pb + 1))) with (p_catch p + 1)%Z.
              destruct (Nat.ltb n (sp_read s)); lia.
      * destruct (Z.ltb_spec (Z.of_nat (length (p_win p))) (Z.of_nat n - p_wpos p)) as [L2|L2];
          [discriminate|].
        assert (En : n = sp_read s) by lia.
        destruct (p_src p) as [|t0 src'] eqn:Esrc.
        -- exfalso.
           assert (EF : nth_error full n = None).
           { apply nth_error_None.
             destruct I as [w [iwpos iread ilen iwin isrc itab icur inodup ireg]].
             rewrite Esrc in isrc.
             assert (length (skipn (sp_read s) full) = 0) by (rewrite <- isrc; reflexivity).
             rewrite skipn_length in *. lia. }
           rewrite EF in K. simpl in K. congruence.
        -- injection A as <- <-. split.
           ++ intros [c' [H1 H2]].
              destruct TL as [i [j [ni [nj [D [Hi Hj]]]]]].
              assert (OT : exists c1, In c1 (p_curs p) /\ c1 <> c).
              { destruct (live_registered _ _ _ _ _ I Hi) as [Ri _].
                destruct (live_registered _ _ _ _ _ I Hj) as [Rj _].
                destruct (Nat.eq_dec i c); [exists j|exists i]; split; auto; congruence. }
              destruct OT as [c1 [O1 O2]].
              assert (PB : forall c', c' <> c ->
                cpos (upd (p_tab p) c (mkCursor true (Z.of_nat n + 1))) c' = cpos (p_tab p) c').
              { intros c2 Ne. unfold cpos. now rewrite nth_error_upd_other by auto. }
              destruct (Nat.eq_dec c' c) as [->|Ne].
              ** exists c1. simpl. split; auto. rewrite PB by auto.
                 pose proof (B _ O1). lia.
              ** exists c'. simpl. split; auto. rewrite PB by auto. lia.
           ++ right. simpl. destruct (Nat.ltb_spec n (sp_read s)); lia.
    + assert (E1 : match nth_error (p_tab p) c with Some cu => cu_att cu = false | None => True end).
      { destruct (nth_error (p_tab p) c) as [cu|] eqn:Ec; auto.
        destruct I as [w [iwpos iread ilen iwin isrc itab icur inodup ireg]].
        specialize (icur _ _ _ Ec Es). simpl in icur. tauto. }
      cbn [rereads]. rewrite Es.
      destruct (nth_error (p_tab p) c) as [cu|].
      * rewrite E1 in E. injection E as <- <-. split; auto. right. simpl. lia.
      * injection E as <- <-. split; auto. right. simpl. lia.
    + assert (E1 : nth_error (p_tab p) c = None).
      { apply nth_error_None. apply nth_error_ge in Es.
        destruct I as [w [iwpos iread ilen iwin isrc itab icur inodup ireg]]. lia. }
      rewrite E1 in E. injection E as <- <-.
      cbn [rereads]. rewrite Es. split; auto. right. simpl. lia.
Qed.

Lemma run_catch : forall full ops p s p' xs,
  (Z.of_nat (length full) < maxint)%Z -> inv full p s -> catch_ok p ->
  run grow p ops = Ok (p', xs) -> catch_ok p' /\ inv full p' (fst (spec_run full s ops)).
Proof.
  intros full ops. induction ops as [|o ops IH]; intros p s p' xs M I C E; simpl in *.
  - injection E as <- <-. auto.
  - destruct (step_ok grow full p s o M I) as [p1 [S1 I1]]. rewrite S1 in E. simpl in E.
    pose proof (step_catch _ _ _ _ _ _ M I C S1) as C1.
    destruct (run grow p1 ops) as [[p2 ys]| |] eqn:R; try discriminate.
    simpl in E. injection E as <- <-.
    destruct (IH _ _ _ _ M I1 C1 R) as [A1 A2].
    destruct (spec_step full s o) as [s1 x]. simpl in *.
    destruct (spec_run full s1 ops) as [s2 xs]. auto.
Qed.

Lemma run_near : forall full ops p s p' xs,
  (Z.of_nat (length full) < maxint)%Z -> inv full p s -> catch_ok p -> two_live s ->
  keeps_all full s ops ->
  run grow p ops = Ok (p', xs) ->
  (near p -> near p') /\
  (near p' \/ (p_catch p + Z.of_nat (rereads full s ops) <= p_catch p')%Z) /\
  two_live (fst (spec_run full s ops)).
Proof.
  intros full ops. induction ops as [|o ops IH]; intros p s p' xs M I C TL K E.
  - simpl in *. injection E as <- <-. repeat split; auto. right. lia.
  - cbn [run] in E.
    destruct (step_ok grow full p s o M I) as [p1 [S1 I1]]. rewrite S1 in E. simpl in E.
    pose proof (step_catch _ _ _ _ _ _ M I C S1) as C1.
    destruct K as [K1 K2].
    destruct (step_near _ _ _ _ _ _ M I C TL K1 S1) as [N1 N2].
    pose proof (two_live_mono _ _ _ TL K1) as TL1.
    destruct (run grow p1 ops) as [[p2 ys]| |] eqn:R; try discriminate.
    simpl in E. injection E as <- <-.
    destruct (IH _ _ _ _ M I1 C1 TL1 K2 R) as [A1 [A2 A3]].
    split; [auto|]. split.
    + destruct N2 as [N2|N2]; [left; auto|].
      destruct A2 as [A2|A2]; [left; auto|].
      right. cbn [rereads] in *. rewrite Nat.add_0_r in N2. lia.
    + cbn [spec_run]. destruct (spec_step full s o) as [s1 x]. simpl in *.
      destruct (spec_run full s1 ops) as [s2 zs]. exact A3.
Qed.
End Growth.

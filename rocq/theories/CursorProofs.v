(** Refinement of the cursor pool to independent readers. *)
From Coq Require Import List ZArith Bool Lia.
From Verif Require Import Base Tokens CursorModel CursorSpec.

Definition cur_ok (w rd : nat) (curs : list nat) (c : nat) (cu : cursor) (sp : option nat) : Prop :=
  match sp with
  | Some n => cu_att cu = true /\ cu_pos cu = Z.of_nat n /\ w <= n <= rd /\ In c curs
  | None => cu_att cu = false /\ ~ In c curs
  end.

Record invw (full : list token) (i_w : nat) (p : pool) (s : readers) : Prop := mkInvw {
  i_wpos : p_wpos p = Z.of_nat i_w;
  i_read : i_w + length (p_win p) = sp_read s;
  i_len : sp_read s <= length full;
  i_win : p_win p = firstn (length (p_win p)) (skipn i_w full);
  i_src : p_src p = skipn (sp_read s) full;
  i_tab : length (p_tab p) = length (sp_cur s);
  i_cur : forall c cu sp, nth_error (p_tab p) c = Some cu ->
            nth_error (sp_cur s) c = Some sp ->
            cur_ok i_w (sp_read s) (p_curs p) c cu sp;
  i_nodup : NoDup (p_curs p);
  i_reg : forall c, In c (p_curs p) -> c < length (p_tab p)
}.

Definition inv full p s := exists w, invw full w p s.

Lemma i_nodup' : forall full p s, inv full p s -> NoDup (p_curs p).
Proof. intros full p s [w []]; auto. Qed.

Lemma min_pos_le : forall tab cs m, (min_pos tab cs m <= m)%Z.
Proof.
  induction cs as [|c cs IH]; simpl; intros; [lia|].
  specialize (IH (if (cpos tab c <? m)%Z then cpos tab c else m)).
  destruct (Z.ltb_spec (cpos tab c) m); lia.
Qed.

Lemma min_pos_lb : forall tab cs m c, In c cs -> (min_pos tab cs m <= cpos tab c)%Z.
Proof.
  induction cs as [|c0 cs IH]; simpl; intros m c H; [contradiction|].
  destruct H as [->|H].
  - pose proof (min_pos_le tab cs (if (cpos tab c <? m)%Z then cpos tab c else m)).
    destruct (Z.ltb_spec (cpos tab c) m); lia.
  - now apply IH.
Qed.

Lemma min_pos_cases : forall tab cs m,
  min_pos tab cs m = m \/ exists c, In c cs /\ min_pos tab cs m = cpos tab c.
Proof.
  induction cs as [|c cs IH]; simpl; intros m; [now left|].
  destruct (IH (if (cpos tab c <? m)%Z then cpos tab c else m)) as [H|[c' [H1 H2]]].
  - rewrite H. destruct (Z.ltb_spec (cpos tab c) m); [right; exists c; auto|now left].
  - right. exists c'. auto.
Qed.

Lemma inv_registered : forall full p s, inv full p s -> forall c, In c (p_curs p) ->
  exists n, nth_error (p_tab p) c = Some (mkCursor true (Z.of_nat n))
         /\ nth_error (sp_cur s) c = Some (Some n) /\ n <= sp_read s.
Proof.
  intros full p s I c Hc. destruct I as [w0 I]. destruct I.
  pose proof (i_reg0 _ Hc) as Hl.
  destruct (nth_error (p_tab p) c) as [cu|] eqn:E1; [|apply nth_error_ge in E1; lia].
  destruct (nth_error (sp_cur s) c) as [sp|] eqn:E2; [|apply nth_error_ge in E2; lia].
  specialize (i_cur0 _ _ _ E1 E2). destruct sp as [n|]; simpl in i_cur0.
  - destruct i_cur0 as [A [B [C D]]]. exists n. destruct cu; simpl in *; subst. repeat split; lia.
  - destruct i_cur0 as [_ B]. contradiction.
Qed.

Lemma go_copy_shift : forall (l : list token) k, k <= length l ->
  firstn (length l - k) (go_copy l (skipn k l)) = skipn k l.
Proof.
  intros l k Hk. unfold go_copy.
  rewrite (firstn_all2 (skipn k l)) by (rewrite skipn_length; lia).
  rewrite firstn_app, skipn_length.
  replace (length l - k - (length l - k)) with 0 by lia.
  rewrite firstn_all2 by (rewrite skipn_length; lia).
  simpl. now rewrite app_nil_r.
Qed.

Lemma go_copy_exact : forall A (d l : list A), length d = length l -> go_copy d l = l.
Proof.
  intros A d l H. unfold go_copy. rewrite H, firstn_all.
  rewrite skipn_all2 by lia. now rewrite app_nil_r.
Qed.

(** What a trim may do to a pool: drop a prefix of the window that no
    registered cursor needs. *)
Definition trimmed (p p' : pool) (k : nat) : Prop :=
  k <= length (p_win p) /\
  p_win p' = skipn k (p_win p) /\
  p_wpos p' = (p_wpos p + Z.of_nat k)%Z /\
  p_src p' = p_src p /\ p_curs p' = p_curs p /\ p_tab p' = p_tab p /\
  (forall c, In c (p_curs p) -> (p_wpos p' <= cpos (p_tab p) c)%Z).

Lemma trimmed_refl : forall p, (forall c, In c (p_curs p) -> (p_wpos p <= cpos (p_tab p) c)%Z) ->
  trimmed p p 0.
Proof. intros p H. repeat split; auto with zarith; simpl; lia. Qed.

Definition pool_bounds (p : pool) : Prop :=
  forall c, In c (p_curs p) ->
    (p_wpos p <= cpos (p_tab p) c <= p_wpos p + Z.of_nat (length (p_win p)))%Z.

Lemma advance_window_ok : forall p,
  pool_bounds p ->
  (p_wpos p + Z.of_nat (length (p_win p)) < maxint)%Z ->
  exists p' k, advance_window p = Ok p' /\ trimmed p p' k /\ p_catch p' = p_catch p.
Proof.
  intros p B M. unfold advance_window.
  set (m := min_pos (p_tab p) (p_curs p) maxint).
  destruct (min_pos_cases (p_tab p) (p_curs p) maxint) as [H|[c0 [Hc0 H]]]; fold m in H.
  - rewrite H, Z.eqb_refl. eexists; exists (length (p_win p)). split; [reflexivity|].
    assert (Hn : p_curs p = []).
    { destruct (p_curs p) as [|c r] eqn:E; [reflexivity|exfalso].
      pose proof (min_pos_lb (p_tab p) (c :: r) maxint c (or_introl eq_refl)).
      pose proof (B c). rewrite E in H1. specialize (H1 (or_introl eq_refl)).
      unfold m in H. lia. }
    unfold trimmed; simpl. rewrite skipn_all. repeat split; auto.
    rewrite Hn; simpl; contradiction.
  - pose proof (B _ Hc0) as Bc.
    destruct (Z.eqb_spec m maxint) as [E|E]; [unfold maxint in *; lia|].
    destruct (Z.ltb_spec (m - p_wpos p) 0) as [L|L]; [lia|].
    assert (LB : forall c, In c (p_curs p) -> (m <= cpos (p_tab p) c)%Z)
      by (intros; apply min_pos_lb; auto).
    destruct (Z.eqb_spec (m - p_wpos p) 0) as [Z0|Z0].
    + exists p, 0. split; [reflexivity|]. split; [|reflexivity].
      apply trimmed_refl. intros c Hc. apply B in Hc. lia.
    + unfold slice_from.
      replace ((0 <=? m - p_wpos p)%Z && (m - p_wpos p <=? Z.of_nat (length (p_win p)))%Z)
        with true by (symmetry; apply andb_true_intro; split; apply Z.leb_le; lia).
      simpl bind.
      set (k := Z.to_nat (m - p_wpos p)).
      assert (Hk : k <= length (p_win p)) by (unfold k; lia).
      destruct ((p_cap p <=? windowCapacityThreshold)%Z
        || (p_cap p <? (Z.of_nat (length (p_win p)) - (m - p_wpos p)) * 2)%Z).
      * unfold slice_to.
        assert (LC : length (go_copy (p_win p) (skipn k (p_win p))) = length (p_win p)).
        { unfold go_copy. rewrite app_length, firstn_length, !skipn_length. lia. }
        rewrite LC.
        replace ((0 <=? Z.of_nat (length (p_win p)) - (m - p_wpos p))%Z
          && (Z.of_nat (length (p_win p)) - (m - p_wpos p) <=? Z.of_nat (length (p_win p)))%Z)
          with true by (symmetry; apply andb_true_intro; split; apply Z.leb_le; lia).
        simpl bind. eexists; exists k. split; [reflexivity|].
        replace (Z.to_nat (Z.of_nat (length (p_win p)) - (m - p_wpos p)))
          with (length (p_win p) - k) by (unfold k; lia).
        rewrite go_copy_shift by lia.
        unfold trimmed; simpl. repeat split; auto; unfold k; try lia.
        intros c Hc. apply LB in Hc. lia.
      * eexists; exists k. split; [reflexivity|].
        rewrite go_copy_exact
          by (rewrite repeat_length, skipn_length; unfold k; lia).
        unfold trimmed; simpl. repeat split; auto; unfold k; try lia.
        intros c Hc. apply LB in Hc. lia.
Qed.

Lemma update_catchup_ok : forall p n,
  pool_bounds p ->
  (p_wpos p + Z.of_nat (length (p_win p)) < maxint)%Z ->
  exists p' k, update_catchup p n = Ok p' /\ trimmed p p' k.
Proof.
  intros p n B M. unfold update_catchup.
  destruct (catchupCountThreshold <? p_catch (set_catch p (p_catch p + n)))%Z.
  - destruct (advance_window_ok (set_catch (set_catch p (p_catch p + n)) 0)) as [p' [k [A [T _]]]];
      [exact B|exact M|]. exists p', k. split; [exact A|exact T].
  - exists (set_catch p (p_catch p + n)), 0. split; [reflexivity|].
    destruct (trimmed_refl (set_catch p (p_catch p + n))) as (A1&A2&A3&A4&A5&A6&A7).
    { intros c Hc. now apply B in Hc. }
    repeat split; auto.
Qed.

Lemma inv_bounds : forall full p s, inv full p s -> pool_bounds p.
Proof.
  intros full p s I c Hc.
  destruct (inv_registered _ _ _ I c Hc) as [n [H1 [H2 H3]]].
  unfold cpos. rewrite H1. destruct I as [w0 I]. destruct I.
  specialize (i_cur0 _ _ _ H1 H2). simpl in i_cur0. simpl. lia.
Qed.

Lemma inv_max : forall full p s, inv full p s ->
  (Z.of_nat (length full) < maxint)%Z ->
  (p_wpos p + Z.of_nat (length (p_win p)) < maxint)%Z.
Proof. intros full p s I H. destruct I as [w0 I]. destruct I. lia. Qed.

Lemma inv_trimmed : forall full p p' k s, inv full p s -> trimmed p p' k -> inv full p' s.
Proof.
  intros full p p' k s I T.
  pose proof (inv_registered _ _ _ I) as REG.
  destruct I as [w [iwpos iread ilen iwin isrc itab icur inodup ireg]].
  destruct T as [Hk [Hw [Hp [Hs [Hc [Ht Hb]]]]]].
  exists (w + k); constructor.
  - lia.
  - rewrite Hw, skipn_length. lia.
  - exact ilen.
  - rewrite Hw, skipn_length.
    rewrite iwin at 1. rewrite skipn_firstn_comm. f_equal.
    rewrite skipn_skipn. reflexivity.
  - now rewrite Hs.
  - now rewrite Ht.
  - rewrite Ht, Hc. intros c cu sp H1 H2. specialize (icur _ _ _ H1 H2).
    destruct sp as [n|]; simpl in *; [|exact icur].
    destruct icur as [A [B [C D]]].
    specialize (Hb _ D). unfold cpos in Hb. rewrite H1 in Hb.
    repeat split; auto; lia.
  - now rewrite Hc.
  - rewrite Hc, Ht. exact ireg.
Qed.

(** The loop of DetachCursor removes the cursor and possibly trims. *)
Lemma detach_loop_none : forall k i c pos p,
  ~ In c (p_curs p) -> detach_loop k i c pos p = Ok p.
Proof.
  induction k; intros i c pos p H; simpl; [reflexivity|].
  destruct (nth_error (p_curs p) i) as [c1|] eqn:E; [|now apply IHk].
  destruct (Nat.eqb_spec c1 c) as [->|N]; [|now apply IHk].
  exfalso. apply H. eapply nth_error_In; eauto.
Qed.

Lemma remove_at_in : forall (l : list nat) i c, NoDup l -> nth_error l i = Some c ->
  (forall x, In x (firstn i l ++ skipn (S i) l) <-> In x l /\ x <> c) /\
  NoDup (firstn i l ++ skipn (S i) l).
Proof.
  intros l i c ND H.
  assert (E : l = firstn i l ++ c :: skipn (S i) l).
  { rewrite <- (skipn_cons_nth _ _ _ _ H). symmetry. apply firstn_skipn. }
  rewrite E in ND. pose proof (NoDup_remove_1 _ _ _ ND) as ND1.
  pose proof (NoDup_remove_2 _ _ _ ND) as ND2.
  split; [|exact ND1]. intro x. split.
  - intro Hx. split.
    + rewrite E. apply in_or_app. apply in_app_or in Hx. simpl. tauto.
    + intros ->. contradiction.
  - intros [Hx Hn]. rewrite E in Hx. apply in_app_or in Hx. apply in_or_app.
    simpl in Hx. destruct Hx as [?|[?|?]]; auto. congruence.
Qed.

Lemma detach_loop_some : forall full k i c p s n,
  (Z.of_nat (length full) < maxint)%Z ->
  inv full p s -> i + k = length (p_curs p) ->
  In c (skipn i (p_curs p)) ->
  exists p' j p1,
    detach_loop k i c n p = Ok p' /\ inv full p1 s /\ p_tab p1 = p_tab p /\
    nth_error (p_curs p1) j = Some c /\
    p' = set_curs p1 (firstn j (p_curs p1) ++ skipn (S j) (p_curs p1)).
Proof.
  induction k; intros i c p s n M I L H; simpl.
  - rewrite skipn_all2 in H by lia. contradiction.
  - destruct (nth_error (p_curs p) i) as [c1|] eqn:E;
      [|apply nth_error_ge in E; lia].
    destruct (Nat.eqb_spec c1 c) as [->|N].
    + destruct (update_catchup_ok p (n - p_wpos p)) as [p1 [kk [U T]]];
        [eapply inv_bounds; eauto|eapply inv_max; eauto|].
      rewrite U. simpl.
      pose proof (inv_trimmed _ _ _ _ _ I T) as I1.
      destruct T as [_ [_ [_ [_ [TC [TT _]]]]]].
      exists (set_curs p1 (firstn i (p_curs p1) ++ skipn (S i) (p_curs p1))), i, p1.
      assert (E1 : nth_error (p_curs p1) i = Some c) by now rewrite TC.
      destruct (remove_at_in _ _ _ (i_nodup' _ _ _ I1) E1) as [R1 R2].
      repeat split; auto.
      apply detach_loop_none. simpl. rewrite R1. tauto.
    + apply IHk with (s := s); auto.
      * lia.
      * rewrite (skipn_cons_nth _ _ _ _ E) in H. destruct H; [congruence|auto].
Qed.

Lemma detach_ok : forall full p s c,
  (Z.of_nat (length full) < maxint)%Z -> inv full p s -> In c (p_curs p) ->
  exists p', detach_cursor p c = Ok p' /\
    inv full p' (mkReaders (sp_read s) (upd (sp_cur s) c None)).
Proof.
  intros full p s c M I Hc. unfold detach_cursor.
  destruct (detach_loop_some full (length (p_curs p)) 0 c p s (cpos (p_tab p) c) M I)
    as [p' [j [p1 [D [I1 [T [N ->]]]]]]]; [lia|exact Hc|].
  rewrite D. simpl bind. eexists. split; [reflexivity|].
  destruct (remove_at_in _ _ _ (i_nodup' _ _ _ I1) N) as [R1 R2].
  destruct I1 as [w [iwpos iread ilen iwin isrc itab icur inodup ireg]].
  exists w; constructor; simpl; auto.
  - rewrite !upd_length. auto.
  - intros c' cu sp H1 H2.
    destruct (Nat.eq_dec c c') as [->|Ne].
    + pose proof (nth_error_lt _ _ _ _ H1) as L1. rewrite upd_length in L1.
      rewrite nth_error_upd_same in H1 by auto.
      rewrite nth_error_upd_same in H2 by lia.
      injection H1 as <-. injection H2 as <-. simpl. split; [reflexivity|].
      rewrite R1. tauto.
    + rewrite nth_error_upd_other in H1, H2 by auto.
      specialize (icur _ _ _ H1 H2). destruct sp as [n|]; simpl in *.
      * destruct icur as [A [B [C E]]]. repeat split; auto; try lia. apply R1. auto.
      * destruct icur as [A B]. split; auto. rewrite R1. tauto.
  - intros c' H. rewrite upd_length. apply ireg. now apply R1 in H.
Qed.

Lemma inv_new : forall src, inv src (new_pool src) (mkReaders 0 []).
Proof.
  intro src. exists 0; constructor; simpl; auto; try lia.
  - intros c cu sp H. destruct c; discriminate.
  - constructor.
Qed.

Lemma inv_from_data : forall data cap,
  inv data (new_pool_from_data data cap) (mkReaders (length data) [Some 0]).
Proof.
  intros data cap. exists 0; constructor; simpl; auto; try lia.
  - now rewrite firstn_all.
  - now rewrite skipn_all.
  - intros [|[|c]] cu sp H1 H2; try discriminate. injection H1 as <-. injection H2 as <-.
    simpl. repeat split; auto; lia.
  - constructor; [simpl; tauto|constructor].
Qed.

Section Growth.
Variable grow : Z -> Z -> Z.

Lemma step_ok : forall full p s o,
  (Z.of_nat (length full) < maxint)%Z -> inv full p s ->
  exists p', step grow p o = Ok (p', snd (spec_step full s o)) /\
             inv full p' (fst (spec_step full s o)).
Proof.
  intros full p s o M I.
  pose proof (inv_bounds _ _ _ I) as B.
  pose proof (inv_max _ _ _ I M) as MX.
  pose proof (inv_registered _ _ _ I) as REG.
  pose proof I as I0.
  destruct I as [w [iwpos iread ilen iwin isrc itab icur inodup ireg]].
  assert (FRESH : ~ In (length (p_tab p)) (p_curs p)).
  { intro H. apply ireg in H. lia. }
  destruct o as [|c|c|c]; simpl.
  - (* New *)
    eexists. rewrite itab. split; [reflexivity|].
    exists w; constructor; simpl; auto.
    + rewrite !app_length; simpl; lia.
    + intros c cu sp H1 H2.
      destruct (Nat.eq_dec c (length (p_tab p))) as [->|Ne].
      * rewrite nth_error_app_last in H1. rewrite itab, nth_error_app_last in H2.
        injection H1 as <-. injection H2 as <-. simpl.
        repeat split; try lia. apply in_or_app. right. simpl. lia.
      * assert (c < length (p_tab p)).
        { apply nth_error_lt in H1. rewrite app_length in H1. simpl in H1. lia. }
        rewrite nth_error_app_l in H1 by auto. rewrite nth_error_app_l in H2 by lia.
        specialize (icur _ _ _ H1 H2). destruct sp as [n|]; simpl in *.
        -- destruct icur as [A1 [A2 [A3 A4]]]. repeat split; auto; try lia.
           apply in_or_app. now left.
        -- destruct icur as [A1 A2]. split; auto. intro H3. apply in_app_or in H3.
           simpl in H3. destruct H3 as [?|[?|[]]]; [contradiction|lia].
    + 
      rewrite <- itab. clear - inodup FRESH.
      induction (p_curs p) as [|x l IH]; simpl.
      * constructor; [simpl; tauto|constructor].
      * inversion inodup; subst. constructor.
        -- intro H. apply in_app_or in H. simpl in H, FRESH. destruct H as [?|[?|[]]]; subst; tauto.
        -- apply IH; auto. simpl in FRESH. tauto.
    + intros c H. rewrite app_length; simpl. apply in_app_or in H.
      destruct H as [H|[<-|[]]]; [apply ireg in H|]; lia.
  - (* Clone *)
    unfold clone_cursor.
    destruct (nth_error (p_tab p) c) as [cu|] eqn:E1.
    + destruct (nth_error (sp_cur s) c) as [sp|] eqn:E2;
        [|apply nth_error_lt in E1; apply nth_error_ge in E2; lia].
      pose proof (icur _ _ _ E1 E2) as CO. destruct sp as [n|]; simpl in CO.
      * destruct CO as [C1 [C2 [C3 C4]]]. rewrite C1. simpl. rewrite itab.
        eexists. split; [reflexivity|].
        exists w; constructor; simpl; auto.
        -- rewrite !app_length; simpl; lia.
        -- intros c' cu' sp' H1 H2.
           destruct (Nat.eq_dec c' (length (p_tab p))) as [->|Ne].
           ++ rewrite nth_error_app_last in H1. rewrite itab, nth_error_app_last in H2.
              injection H1 as <-. injection H2 as <-. simpl.
              repeat split; auto; try lia. apply in_or_app. right. simpl. lia.
           ++ assert (c' < length (p_tab p)).
              { apply nth_error_lt in H1. rewrite app_length in H1. simpl in H1. lia. }
              rewrite nth_error_app_l in H1 by auto. rewrite nth_error_app_l in H2 by lia.
              specialize (icur _ _ _ H1 H2). destruct sp' as [n'|]; simpl in *.
              ** destruct icur as [A1 [A2 [A3 A4]]]. repeat split; auto; try lia.
                 apply in_or_app. now left.
              ** destruct icur as [A1 A2]. split; auto. intro H3. apply in_app_or in H3.
                 simpl in H3. destruct H3 as [?|[?|[]]]; [contradiction|lia].
        -- rewrite <- itab. clear - inodup FRESH.
           induction (p_curs p) as [|x l IH]; simpl.
           ++ constructor; [simpl; tauto|constructor].
           ++ inversion inodup; subst. constructor.
              ** intro H. apply in_app_or in H. simpl in H, FRESH. destruct H as [?|[?|[]]]; subst; tauto.
              ** apply IH; auto. simpl in FRESH. tauto.
        -- intros c' H. rewrite app_length; simpl. apply in_app_or in H.
           destruct H as [H|[<-|[]]]; [apply ireg in H|]; lia.
      * destruct CO as [C1 C2]. rewrite C1. exists p. split; [reflexivity|exact I0].
    + assert (E2 : nth_error (sp_cur s) c = None).
      { apply nth_error_None. apply nth_error_ge in E1. lia. }
      rewrite E2. exists p. split; [reflexivity|exact I0].
  - (* Detach *)
    destruct (nth_error (p_tab p) c) as [cu|] eqn:E1.
    + destruct (nth_error (sp_cur s) c) as [sp|] eqn:E2;
        [|apply nth_error_lt in E1; apply nth_error_ge in E2; lia].
      pose proof (icur _ _ _ E1 E2) as CO. destruct sp as [n|]; simpl in CO.
      * destruct CO as [C1 [C2 [C3 C4]]]. rewrite C1.
        destruct (detach_ok full p s c M I0 C4) as [p' [D I']].
        rewrite D. simpl. exists p'. split; [reflexivity|exact I'].
      * destruct CO as [C1 C2]. rewrite C1. exists p. split; [reflexivity|].
        simpl.
        assert (EU : upd (sp_cur s) c None = sp_cur s).
        { clear - E2. revert c E2. induction (sp_cur s) as [|x l IH]; destruct c; simpl; intros; try discriminate.
          - now injection E2 as ->.
          - f_equal. now apply IH. }
        rewrite EU. destruct s; exact I0.
    + assert (E2 : nth_error (sp_cur s) c = None).
      { apply nth_error_None. apply nth_error_ge in E1. lia. }
      rewrite E2. exists p. split; [reflexivity|exact I0].
  - (* Next *)
    destruct (nth_error (p_tab p) c) as [cu|] eqn:E1.
    + destruct (nth_error (sp_cur s) c) as [sp|] eqn:E2;
        [|apply nth_error_lt in E1; apply nth_error_ge in E2; lia].
      pose proof (icur _ _ _ E1 E2) as CO. destruct sp as [n|]; simpl in CO.
      * destruct CO as [C1 [C2 [C3 C4]]]. rewrite C1.
        unfold advance_cursor. unfold cpos. rewrite E1, C2, iwpos.
        destruct (Z.ltb_spec (Z.of_nat n - Z.of_nat w) (Z.of_nat (length (p_win p)))) as [L|L].
        -- (* inside the window *)
           destruct (nth_error full n) as [t|] eqn:ET;
             [|apply nth_error_ge in ET; lia].
           assert (EW : nth_error (p_win p) (n - w) = Some t).
           { rewrite iwin, nth_error_firstn by lia. rewrite nth_error_skipn.
             replace (w + (n - w)) with n by lia. exact ET. }
           unfold slice_idx.
           destruct (Z.leb_spec 0 (Z.of_nat n - Z.of_nat w)); [|lia].
           replace (Z.to_nat (Z.of_nat n - Z.of_nat w)) with (n - w) by lia.
           rewrite EW. simpl bind.
           set (pb := set_tab p (upd (p_tab p) c (mkCursor true (Z.of_nat n + 1)))).
           set (sb := mkReaders (Nat.max (sp_read s) (S n)) (upd (sp_cur s) c (Some (S n)))).
           assert (IB : inv full pb sb).
           { exists w; constructor; simpl; auto; try lia.
             - rewrite Nat.max_l by lia. auto.
             - rewrite !upd_length. auto.
             - intros c' cu' sp' H1 H2. rewrite Nat.max_l by lia.
               destruct (Nat.eq_dec c c') as [<-|Ne].
               + rewrite nth_error_upd_same in H1 by (eapply nth_error_lt; eauto).
                 rewrite nth_error_upd_same in H2 by (eapply nth_error_lt; eauto).
                 injection H1 as <-. injection H2 as <-. simpl. repeat split; auto; lia.
               + rewrite nth_error_upd_other in H1, H2 by auto. exact (icur _ _ _ H1 H2).
             - intros c' H'. rewrite upd_length. auto. }
           destruct (update_catchup_ok pb 1) as [p' [k [U T]]];
             [eapply inv_bounds; eauto|eapply inv_max; eauto|].
           rewrite U. simpl. exists p'. split; [reflexivity|].
           eapply inv_trimmed; eauto.
        -- destruct (Z.ltb_spec (Z.of_nat (length (p_win p))) (Z.of_nat n - Z.of_nat w)); [lia|].
           assert (En : n = sp_read s) by lia.
           destruct (p_src p) as [|t src'] eqn:ES.
           ++ destruct (nth_error full n) as [t|] eqn:ET.
              { rewrite En in ET. apply nth_error_lt in ET.
                assert (length (skipn (sp_read s) full) = 0) by (rewrite <- isrc; reflexivity).
                rewrite skipn_length in *. lia. }
              destruct (detach_ok full p s c M I0 C4) as [p' [D I']].
              rewrite D. simpl. exists p'. split; [reflexivity|exact I'].
           ++ assert (ET : nth_error full n = Some t).
              { rewrite En. replace (sp_read s) with (sp_read s + 0) by lia.
                rewrite <- nth_error_skipn, <- isrc. reflexivity. }
              rewrite ET. simpl. eexists. split; [reflexivity|].
              assert (LF : n < length full) by (eapply nth_error_lt; eauto).
              exists w; constructor; simpl; auto; try lia.
              ** rewrite app_length; simpl. lia.
              ** rewrite app_length; simpl. rewrite Nat.add_1_r.
                 assert (EW : nth_error (skipn w full) (length (p_win p)) = Some t).
                 { rewrite nth_error_skipn. rewrite iread, <- En. exact ET. }
                 rewrite (firstn_S_nth _ _ _ _ EW). f_equal. exact iwin.
              ** rewrite Nat.max_r by lia. rewrite En.
                 rewrite En in ET. rewrite (skipn_cons_nth _ _ _ _ ET) in isrc. congruence.
              ** rewrite !upd_length. auto.
              ** intros c' cu' sp' H1 H2. rewrite Nat.max_r by lia.
                 destruct (Nat.eq_dec c c') as [<-|Ne].
                 --- rewrite nth_error_upd_same in H1 by (eapply nth_error_lt; eauto).
                     rewrite nth_error_upd_same in H2 by (eapply nth_error_lt; eauto).
                     injection H1 as <-. injection H2 as <-. simpl. repeat split; auto; lia.
                 --- rewrite nth_error_upd_other in H1, H2 by auto.
                     pose proof (icur _ _ _ H1 H2) as CO'. destruct sp'; simpl in *; auto.
                     destruct CO' as [? [? [? ?]]]. repeat split; auto; lia.
              ** intros c' H'. rewrite upd_length. auto.
      * destruct CO as [C1 C2]. rewrite C1. exists p. split; [reflexivity|exact I0].
    + assert (E2 : nth_error (sp_cur s) c = None).
      { apply nth_error_None. apply nth_error_ge in E1. lia. }
      rewrite E2. exists p. split; [reflexivity|exact I0].
Qed.

Lemma run_ok : forall full ops p s,
  (Z.of_nat (length full) < maxint)%Z -> inv full p s ->
  exists p', run grow p ops = Ok (p', snd (spec_run full s ops)) /\
             inv full p' (fst (spec_run full s ops)).
Proof.
  induction ops as [|o ops IH]; intros p s M I; simpl.
  - exists p. split; [reflexivity|exact I].
  - destruct (step_ok full p s o M I) as [p1 [S1 I1]]. rewrite S1. simpl.
    destruct (spec_step full s o) as [s1 x]. simpl in *.
    destruct (IH p1 s1 M I1) as [p2 [R2 I2]].
    destruct (spec_run full s1 ops) as [s2 xs]. simpl in *.
    rewrite R2. simpl. exists p2. split; [reflexivity|exact I2].
Qed.

(** A lone cursor reading at the frontier never lets go of a token. *)
Lemma lone_reader_keeps_all : forall rest done cap,
  exists p', run grow (mkPool rest done cap 0 0 [0] [mkCursor true (Z.of_nat (length done))])
      (repeat (ONext 0) (length rest)) = Ok (p', map (fun t => ObsToken (Some t)) rest) /\
    p_win p' = done ++ rest /\ p_wpos p' = 0%Z /\
    p_tab p' = [mkCursor true (Z.of_nat (length (done ++ rest)))].
Proof.
  induction rest as [|t rest IH]; intros done cap; simpl.
  - eexists. split; [reflexivity|]. simpl. now rewrite app_nil_r.
  - unfold step, advance_cursor, cpos; simpl.
    rewrite Z.sub_0_r.
    destruct (Z.ltb_spec (Z.of_nat (length done)) (Z.of_nat (length done))); [lia|].
    simpl.
    destruct (IH (done ++ [t]) (grow cap (Z.of_nat (length done)))) as [p' [R [W P]]].
    rewrite app_length in R; simpl in R.
    replace (Z.of_nat (length done + 1)) with (Z.of_nat (length done) + 1)%Z in R by lia.
    rewrite R. simpl. exists p'. rewrite <- app_assoc in W, P. auto.
Qed.

End Growth.

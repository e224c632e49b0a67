(** What the calls on iterators do to the pools of the heap: windows move forward
    only, and a pool with two cursors stays close to the slower of them. *)
From Coq Require Import List ZArith Arith Bool Lia.
From Verif Require Import Base Tokens CursorModel CursorSpec CursorProofs CursorBound IterModel IterCore Plain.

(** ------------------------------------------------------------------ *)
(** Steps of one pool. *)
Lemma aw_moves : forall p p', advance_window p = Ok p' -> (p_wpos p <= p_wpos p')%Z /\ p_src p' = p_src p /\ p_tab p' = p_tab p.
Proof.
  intros p p' E. unfold advance_window in E. destruct (_ =? maxint)%Z; [injection E as <-; cbn; split; [lia|auto]|].
  destruct (Z.ltb_spec (min_pos (p_tab p) (p_curs p) maxint - p_wpos p) 0); [discriminate|].
  destruct (_ =? 0)%Z; [injection E as <-; split; [lia|auto]|]. destruct (slice_from _ _); try discriminate. cbn [bind] in E.
  destruct (_ || _); [destruct (slice_to _ _); try discriminate; cbn [bind] in E|]; injection E as <-; cbn; (split; [lia|auto]).
Qed.
Lemma uc_moves : forall p n p', update_catchup p n = Ok p' -> (p_wpos p <= p_wpos p')%Z /\ p_src p' = p_src p /\ p_tab p' = p_tab p.
Proof.
  intros p n p' E. unfold update_catchup in E. destruct (_ <? _)%Z; [exact (aw_moves _ _ E)|]. injection E as <-. cbn. split; [lia|auto].
Qed.
Lemma dl_moves : forall k i c pos p p', detach_loop k i c pos p = Ok p' -> (p_wpos p <= p_wpos p')%Z /\ p_src p' = p_src p /\ p_tab p' = p_tab p.
Proof.
  induction k as [|k IH]; intros i c pos p p' E; cbn [detach_loop] in E; [injection E as <-; split; [lia|auto]|].
  destruct (nth_error (p_curs p) i) as [c1|]; [|eauto]. destruct (c1 =? c); [|eauto].
  destruct (update_catchup p (pos - p_wpos p)) as [p1| |] eqn:U; try discriminate. cbn [bind] in E. destruct (uc_moves _ _ _ U) as [A [B C]].
  destruct (IH _ _ _ _ _ E) as [A' [B' C']]. cbn in A', B', C'. split; [lia|split; congruence].
Qed.
Lemma dc_moves : forall p c p', detach_cursor p c = Ok p' -> (p_wpos p <= p_wpos p')%Z /\ p_src p' = p_src p /\ length (p_tab p') = length (p_tab p).
Proof.
  intros p c p' E. unfold detach_cursor in E. destruct (detach_loop _ _ _ _ _) as [p1| |] eqn:D; try discriminate. cbn [bind] in E. injection E as <-.
  destruct (dl_moves _ _ _ _ _ _ D) as [A [B C]]. cbn. rewrite upd_length, C. auto.
Qed.
(** Operations that make no cursor. *)
Definition plain_op (o : op) : Prop := match o with ONew | OClone _ => False | _ => True end.
Section Grow.
Variable grow : Z -> Z -> Z.
Lemma step_moves : forall p o p' x, step grow p o = Ok (p', x) ->
  (p_wpos p <= p_wpos p')%Z /\ (exists k, p_src p' = skipn k (p_src p)) /\ (plain_op o -> length (p_tab p') = length (p_tab p)).
Proof.
  assert (R : forall (p : pool) (P : Prop), (p_wpos p <= p_wpos p)%Z /\ (exists k, p_src p = skipn k (p_src p)) /\ (P -> length (p_tab p) = length (p_tab p))) by (intros p P; split; [lia|]; split; [exists 0; reflexivity|auto]).
  intros p o p' x E. destruct o as [|c|c|c]; cbn [step] in E.
  - injection E as <- <-. cbn. split; [lia|]. split; [exists 0; reflexivity|intros []].
  - unfold clone_cursor in E. destruct (nth_error (p_tab p) c) as [cu|]; [|injection E as <- <-; apply R].
    destruct (cu_att cu); injection E as <- <-; cbn; (split; [lia|]); (split; [exists 0; reflexivity|intros []]).
  - destruct (nth_error (p_tab p) c) as [cu|]; [|injection E as <- <-; apply R]. destruct (cu_att cu); [|injection E as <- <-; apply R].
    destruct (detach_cursor p c) as [p1| |] eqn:D; try discriminate. cbn [bind] in E. injection E as <- <-. destruct (dc_moves _ _ _ D) as [A [B C]].
    split; [exact A|]. split; [exists 0; exact B|auto].
  - destruct (nth_error (p_tab p) c) as [cu|]; [|injection E as <- <-; apply R]. destruct (cu_att cu); [|injection E as <- <-; apply R].
    destruct (advance_cursor grow p c) as [[p1 t]| |] eqn:D; try discriminate. cbn [bind fst snd] in E. injection E as <- <-. unfold advance_cursor in D.
    destruct (_ <? _)%Z in D.
    + destruct (slice_idx _ _); try discriminate. cbn [bind] in D. destruct (update_catchup _ _) as [p2| |] eqn:U; try discriminate. cbn [bind] in D. injection D as <- <-.
      destruct (uc_moves _ _ _ U) as [A [B C]]. cbn in A, B, C. split; [exact A|]. split; [exists 0; exact B|]. intros _. rewrite C. apply upd_length.
    + destruct (_ <? _)%Z in D; [discriminate|]. destruct (p_src p) as [|tk src] eqn:S0.
      * destruct (detach_cursor p c) as [p2| |] eqn:D2; try discriminate. cbn [bind] in D. injection D as <- <-. destruct (dc_moves _ _ _ D2) as [A [B C]].
        split; [exact A|]. split; [exists 0; cbn; congruence|auto].
      * injection D as <- <-. cbn. split; [lia|]. split; [exists 1; reflexivity|]. intros _. apply upd_length.
Qed.

(** ------------------------------------------------------------------ *)
(** A pool with two cursors: while both are live, it is close to the slower one
    and the other has read all that has been received. *)
Definition front (s : readers) : Prop := exists c, nth_error (sp_cur s) c = Some (Some (sp_read s)).
Record pair_ok (F : list token) (pl : pool) (s : readers) : Prop := mkPair {
  pr_inv : inv F pl s;
  pr_max : (Z.of_nat (length F) < maxint)%Z;
  pr_catch : catch_ok pl;
  pr_two : length (sp_cur s) = 2;
  pr_near : two_live s -> near pl /\ front s
}.
Lemma two_of : forall s c, length (sp_cur s) = 2 -> two_live s -> c < 2 -> exists n, nth_error (sp_cur s) c = Some (Some n).
Proof.
  intros s c L [i [j [m [n [D [A B]]]]]] C. pose proof (nth_error_lt _ _ _ _ A). pose proof (nth_error_lt _ _ _ _ B).
  assert (c = i \/ c = j) as [->| ->] by lia; eauto.
Qed.
Lemma pair_step : forall F pl s o pl' x, pair_ok F pl s -> plain_op o -> step grow pl o = Ok (pl', x) -> pair_ok F pl' (fst (spec_step F s o)).
Proof.
  intros F pl s o pl' x [IV MX CT TW NR] PO E.
  destruct (step_ok grow F pl s o MX IV) as [p1 [E1 IV1]]. rewrite E in E1. injection E1 as <- ->.
  pose proof (step_catch grow F pl s o _ _ MX IV CT E) as CT1.
  assert (L1 : length (sp_cur (fst (spec_step F s o))) = 2).
  { destruct o as [|c|c|c]; cbn [plain_op] in PO; try contradiction; cbn [spec_step];
      repeat match goal with |- context [match ?e with _ => _ end] => destruct e end; cbn [fst sp_cur]; rewrite ?upd_length; exact TW. }
  constructor; auto. intro TL'.
  assert (K : two_live s /\ match o with ODetach _ => False | ONext _ => snd (spec_step F s o) <> ObsToken None | _ => True end \/ (fst (spec_step F s o) = s /\ pl' = pl)).
  { destruct o as [|c|c|c]; cbn [plain_op] in PO; try contradiction; cbn [spec_step] in *.
    - destruct (nth_error (sp_cur s) c) as [sp|] eqn:Ec.
      + exfalso. cbn [fst] in TL', L1. pose proof (nth_error_lt _ _ _ _ Ec) as LC. destruct (two_of _ c L1 TL' ltac:(lia)) as [n Q]. cbn [sp_cur] in Q. rewrite nth_error_upd_same in Q by lia. discriminate.
      + right. split; [reflexivity|]. cbn [step] in E. destruct (nth_error (p_tab pl) c) as [cu|] eqn:Et; [|injection E as <-; reflexivity].
        exfalso. destruct IV as [w IV]. pose proof (i_tab _ _ _ _ IV). apply nth_error_lt in Et. apply nth_error_ge in Ec. lia.
    - destruct (nth_error (sp_cur s) c) as [[n|]|] eqn:Ec.
      + destruct (nth_error F n) as [t|] eqn:En; cbn [fst snd] in *.
        * left. split; [|discriminate]. destruct TL' as [i [j [m [q [D [A B]]]]]]. cbn [sp_cur] in A, B.
          assert (U : forall k v, nth_error (upd (sp_cur s) c (Some (S n))) k = Some (Some v) -> exists v', nth_error (sp_cur s) k = Some (Some v')).
          { intros k v Q. destruct (Nat.eq_dec c k) as [<-|N]; [eauto|]. rewrite nth_error_upd_other in Q by exact N. eauto. }
          destruct (U _ _ A) as [a' A']. destruct (U _ _ B) as [b' B']. exists i, j, a', b'. auto.
        * exfalso. pose proof (nth_error_lt _ _ _ _ Ec) as LC. destruct (two_of _ c L1 TL' ltac:(lia)) as [k Q]. cbn [sp_cur] in Q. rewrite nth_error_upd_same in Q by lia. discriminate.
      + exfalso. cbn [fst] in TL'. pose proof (nth_error_lt _ _ _ _ Ec) as LC. destruct (two_of _ c TW TL' ltac:(lia)) as [k Q]. congruence.
      + right. split; [reflexivity|]. cbn [step] in E. destruct (nth_error (p_tab pl) c) as [cu|] eqn:Et; [|injection E as <-; reflexivity].
        exfalso. destruct IV as [w IV]. pose proof (i_tab _ _ _ _ IV). apply nth_error_lt in Et. apply nth_error_ge in Ec. lia. }
  destruct K as [[TL K]|[Es Ep]]; [|rewrite Ep, Es; apply NR; rewrite <- Es; exact TL'].
  destruct (NR TL) as [NE FR]. destruct (step_near grow F pl s o _ _ MX IV CT TL K E) as [N1 _]. split; [exact (N1 NE)|].
  destruct o as [|c|c|c]; cbn [plain_op] in PO; try contradiction. cbn [spec_step] in *.
  destruct (nth_error (sp_cur s) c) as [[n|]|] eqn:Ec; [|exact FR..]. destruct (nth_error F n) as [t|] eqn:En; cbn [fst snd] in *; [|congruence].
  unfold front. cbn [sp_read sp_cur]. destruct FR as [c1 FR]. destruct (Nat.lt_ge_cases (sp_read s) (S n)) as [LT|GE].
  - exists c. rewrite nth_error_upd_same by (eapply nth_error_lt; exact Ec). do 2 f_equal. lia.
  - exists c1. rewrite nth_error_upd_other; [rewrite FR; do 2 f_equal; lia|]. intros ->. rewrite FR in Ec. injection Ec as <-. lia.
Qed.
(** The source may be read by others too. *)
Lemma pair_refit : forall F pl l k s, pair_ok F (with_src pl l) s -> exists F', pair_ok F' (with_src pl (skipn k l)) s.
Proof.
  intros F pl l k s [[w IV] MX CT TW NR]. exists (firstn (sp_read s) F ++ skipn k l). destruct IV as [A B C D E0 G H I J].
  cbn [with_src p_wpos p_win p_src p_tab p_curs] in *.
  assert (LL : length (firstn (sp_read s) F ++ skipn k l) <= length F).
  { rewrite app_length, firstn_length, E0, !skipn_length. lia. }
  constructor; auto; [|lia]. exists w. constructor; cbn [with_src p_wpos p_win p_src p_tab p_curs]; auto.
  - rewrite app_length, firstn_length. lia.
  - rewrite skipn_app, firstn_length, Nat.min_l by lia. rewrite firstn_app, skipn_length, firstn_length, Nat.min_l by lia.
    replace (length (p_win pl) - (sp_read s - w)) with 0 by lia. cbn [firstn]. rewrite app_nil_r.
    rewrite D at 1. rewrite <- (firstn_skipn (sp_read s) F) at 1. rewrite skipn_app, firstn_length, Nat.min_l by lia.
    rewrite firstn_app, skipn_length, firstn_length, Nat.min_l by lia. replace (length (p_win pl) - (sp_read s - w)) with 0 by lia. cbn [firstn]. now rewrite app_nil_r.
  - rewrite skipn_app, firstn_length, Nat.min_l by lia. rewrite Nat.sub_diag. cbn [skipn].
    replace (skipn (sp_read s) (firstn (sp_read s) F)) with (@nil token); [reflexivity|]. symmetry. apply skipn_all2. rewrite firstn_length. lia.
Qed.
End Grow.

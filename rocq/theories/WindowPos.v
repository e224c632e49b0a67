(** How far apart the two cursors of a pool are. *)
From Coq Require Import List ZArith Arith Bool Lia.
From Verif Require Import Base Tokens JsonSpec EncSpec CursorModel CursorSpec CursorProofs CursorBound IterModel IterSpec IterCore IterThr IterRel Plain WindowPool WindowHeap WindowStore.

(** ------------------------------------------------------------------ *)
(** Positions in threads. *)
Lemma thr_sub : forall g h t V base s e ids l, thr g h t V base s e ids l -> forall ids1 id ids2, ids = ids1 ++ id :: ids2 ->
  exists v r e', thr g h t v r s e' (id :: ids2) l /\ (ids1 = [] -> v = V /\ r = base /\ e' = e) /\
    (ids1 <> [] -> nonroot t id /\ exists j x hd, In j ids1 /\ j < id /\ nth_error (h_coll h) j = Some x /\ c_stream x = r /\ nth_error t j = Some hd /\ s_state hd <> SDead).
Proof.
  induction 1 as [sc r s e G|v id x hd r rc s e k N S1 S2 S3 S4 S5 G SP|v id x hd r rc s e N S1 S2 G
                 |v id x hd r rc s e key ch rest k ids l N S1 S2 S3 S4 S5 T IH SH SP OR]; intros ids1 j ids2 E.
  - destruct ids1; discriminate.
  - destruct ids1 as [|y [|z ids1]]; try discriminate. injection E as <- <-. exists v, r, e. split; [eapply t_fresh; eauto|]. split; [auto|congruence].
  - destruct ids1 as [|y [|z ids1]]; try discriminate. injection E as <- <-. exists v, r, e. split; [eapply t_done; eauto|]. split; [auto|congruence].
  - destruct ids1 as [|y ids1].
    + injection E as <- <-. exists v, r, e. split; [eapply t_at; eauto|]. split; [auto|congruence].
    + injection E as <- E. destruct (IH ids1 j ids2 E) as [v' [r' [e' [T' [A B]]]]]. exists v', r', e'. split; [exact T'|]. split; [congruence|]. intros _.
      destruct (OR j) as [Lj NR]; [rewrite E; apply in_or_app; right; now left|]. split; [exact NR|].
      destruct ids1 as [|z ids1].
      * destruct (A eq_refl) as [-> [-> ->]]. exists id, x, hd. split; [now left|]. split; [exact Lj|]. split; [apply (n_x _ _ _ _ _ _ _ _ _ _ _ N)|]. split; [apply (n_rc _ _ _ _ _ _ _ _ _ _ _ N)|].
        split; [apply (n_hd _ _ _ _ _ _ _ _ _ _ _ N)|congruence].
      * destruct B as [_ [j' [x' [hd' [B1 B2]]]]]; [discriminate|]. exists j', x', hd'. split; [now right|exact B2].
Qed.
Lemma thr_le : forall g h t v r s e ids l, thr g h t v r s e ids l -> exists k, gpos g l = Some (s, k) /\ k <= e.
Proof.
  induction 1 as [sc r s e G|v id x hd r rc s e k N S1 S2 S3 S4 S5 G SP|v id x hd r rc s e N S1 S2 G
                 |v id x hd r rc s e key ch rest k ids l N S1 S2 S3 S4 S5 T [k' [G L]] SH SP OR]; eauto.
  - exists k. split; [exact G|]. destruct SP as [-> _]. lia.
  - exists k'. split; [exact G|]. destruct SP as [-> _]. lia.
Qed.

Section Good.
Variable Good : jval -> Prop.
Notation wft := (wft Good).
Definition left_toks (l : list (option scalar * jval)) : nat := length (flat_map item_toks l).
Lemma left_app : forall a b, left_toks (a ++ b) = left_toks a + left_toks b.
Proof. intros a b. unfold left_toks. now rewrite flat_map_app, app_length. Qed.
Lemma left_one : forall i, left_toks [i] = length (item_toks i).
Proof. intro i. unfold left_toks. cbn [flat_map]. now rewrite app_nil_r. Qed.
Lemma tail_length : forall v rest, left_toks rest + 1 <= length (tail_toks v rest) <= left_toks rest + 2.
Proof. intros v rest. unfold tail_toks, left_toks. rewrite !app_length. cbn [length]. destruct (elided v); cbn; lia. Qed.
Lemma toks_left : forall v, is_coll v = true -> left_toks (items v) + 2 <= length (toks v).
Proof. intros v C. rewrite (toks_coll v C). cbn [length]. pose proof (tail_length v (items v)). lia. Qed.
Lemma item_length : forall k x, length (toks x) <= length (item_toks (k, x)).
Proof. intros k x. unfold item_toks. rewrite app_length. cbn [snd]. lia. Qed.

Lemma thr_within : forall g h t, wft t -> forall v r s e ids l, thr g h t v r s e ids l -> forall x k, linked t v x -> gpos g l = Some (s, k) -> e <= k + length (toks x).
Proof.
  intros g h t W. induction 1 as [sc r s e G|v id x hd r rc s e k N S1 S2 S3 S4 S5 G SP|v id x hd r rc s e N S1 S2 G
                 |v id x hd r rc s e key ch rest k ids l N S1 S2 S3 S4 S5 T IH SH SP OR]; intros y k0 LK G0.
  - rewrite G in G0. injection G0 as <-. lia.
  - rewrite G in G0. injection G0 as <-. destruct SP as [-> _].
    assert (SV : s_val hd = y). { rewrite (n_v _ _ _ _ _ _ _ _ _ _ _ N) in LK. destruct (c_obj x); cbn in LK; destruct LK as [hd' [E' <-]]; rewrite (n_hd _ _ _ _ _ _ _ _ _ _ _ N) in E'; congruence. }
    rewrite <- SV, (toks_coll _ (n_coll _ _ _ _ _ _ _ _ _ _ _ N)). cbn [length]. lia.
  - rewrite G in G0. injection G0 as <-. lia.
  - assert (SV : s_val hd = y). { rewrite (n_v _ _ _ _ _ _ _ _ _ _ _ N) in LK. destruct (c_obj x); cbn in LK; destruct LK as [hd' [E' <-]]; rewrite (n_hd _ _ _ _ _ _ _ _ _ _ _ N) in E'; congruence. }
    pose proof (wt_at _ _ W _ _ (n_hd _ _ _ _ _ _ _ _ _ _ _ N)) as WH. unfold wfh in WH. rewrite S1 in WH. destruct WH as [_ [pre [x' [IT LX]]]].
    specialize (IH x' k0 LX G0). destruct SP as [-> _]. pose proof (toks_left _ (n_coll _ _ _ _ _ _ _ _ _ _ _ N)) as TL. rewrite IT, left_app in TL.
    change ((key, x') :: rest) with ([(key, x')] ++ rest) in TL. rewrite left_app in TL. pose proof (tail_length (s_val hd) rest). pose proof (item_length key x').
    rewrite left_one in TL. subst y. lia.
Qed.

(** [m] items have been asked for. *)
Definition prog (l : list (option scalar * jval)) (m : nat) (s : sstate) : Prop :=
  match s with
  | SFresh => m = 0
  | SAt _ _ rest => 1 <= m <= length l /\ rest = skipn m l
  | SDone => m = length l
  | SDead => False
  end.
Definition ahead (v : jval) (m : nat) : nat := left_toks (skipn m (items v)).
Lemma skipn_pre : forall A (l pre rest : list A) x m, l = pre ++ x :: rest -> 1 <= m <= length l -> rest = skipn m l -> skipn (m - 1) l = x :: rest.
Proof.
  intros A l pre rest x m E L R. assert (LR : length rest = length l - m) by (rewrite R; apply skipn_length). rewrite E in LR. rewrite app_length in LR. cbn [length] in LR. rewrite E in L. rewrite app_length in L. cbn [length] in L.
  assert (m - 1 = length pre) by lia. rewrite H, E, skipn_app, skipn_all, Nat.sub_diag. reflexivity.
Qed.
Lemma pos_count : forall g h t v r s e id ids l hd m, wft t -> thr g h t v r s e (id :: ids) l -> nth_error t id = Some hd -> prog (items (s_val hd)) m (s_state hd) ->
  exists k, gpos g l = Some (s, k) /\ k + ahead (s_val hd) m <= e /\ e <= k + ahead (s_val hd) (m - 1) + 2.
Proof.
  intros g h t v r s e id ids l hd m W T E P. inversion T as [|v' id' x hd' r' rc s' e' k N S1 S2 S3 S4 S5 G SP|v' id' x hd' r' rc s' e' N S1 S2 G
                 |v' id' x hd' r' rc s' e' key ch rest k ids' l' N S1 S2 S3 S4 S5 T' SH SP OR]; subst.
  - rewrite (n_hd _ _ _ _ _ _ _ _ _ _ _ N) in E. injection E as ->. rewrite S1 in P. cbn in P. subst m. exists k. split; [exact G|]. destruct SP as [-> _]. unfold ahead. cbn [Nat.sub skipn]. pose proof (tail_length (s_val hd) (items (s_val hd))). lia.
  - rewrite (n_hd _ _ _ _ _ _ _ _ _ _ _ N) in E. injection E as ->. rewrite S1 in P. cbn in P. subst m. exists e. split; [exact G|]. unfold ahead at 1. rewrite skipn_all. cbn. lia.
  - rewrite (n_hd _ _ _ _ _ _ _ _ _ _ _ N) in E. injection E as ->. rewrite S1 in P. cbn in P. destruct P as [Lm RE].
    destruct (thr_le _ _ _ _ _ _ _ _ _ T') as [k0 [G0 L0]]. exists k0. split; [exact G0|]. pose proof (wt_at _ _ W _ _ (n_hd _ _ _ _ _ _ _ _ _ _ _ N)) as WH. unfold wfh in WH. rewrite S1 in WH. destruct WH as [_ [pre [x' [IT LX]]]].
    pose proof (thr_within _ _ _ W _ _ _ _ _ _ T' _ _ LX G0) as WI. destruct SP as [-> _]. unfold ahead. rewrite <- RE, (skipn_pre _ _ _ _ _ _ IT Lm RE).
    change ((c_key x, x') :: rest) with ([(c_key x, x')] ++ rest). rewrite left_app. pose proof (tail_length (s_val hd) rest). pose proof (item_length (c_key x) x'). rewrite left_one. lia.
Qed.
Lemma ahead_mono : forall v m n, m <= n -> ahead v n <= ahead v m.
Proof. intros v m n L. unfold ahead. replace n with (m + (n - m)) by lia. rewrite <- skipn_skipn. set (l := skipn m (items v)). pose proof (left_app (firstn (n - m) l) (skipn (n - m) l)) as A. rewrite firstn_skipn in A. lia. Qed.
Lemma ahead_split : forall v m n, m <= n -> ahead v m = left_toks (firstn (n - m) (skipn m (items v))) + ahead v n.
Proof. intros v m n L. unfold ahead. replace n with (m + (n - m)) at 2 by lia. rewrite <- skipn_skipn, <- left_app, firstn_skipn. reflexivity. Qed.
End Good.

(** ------------------------------------------------------------------ *)
(** The window of a pool with two cursors. *)
Lemma duo_window : forall g h p s0 pl i n0 n1, duo p h -> nth_error (h_pool h) p = Some (s0, pl) -> pool_ok g p (s0, pl) i ->
  nth_error (sp_cur (pi_rd i)) 0 = Some (Some n0) -> nth_error (sp_cur (pi_rd i)) 1 = Some (Some n1) ->
  (Z.of_nat (length (p_win pl)) <= Z.of_nat (Nat.max n0 n1) - p_wpos pl)%Z /\ (Z.of_nat (Nat.min n0 n1) - 100 <= p_wpos pl)%Z.
Proof.
  intros g h p s0 pl i n0 n1 [s1 [pl1 [l [F [rd [E1 [E2 [[w IV] MX [C1 C2] TW NR]]]]]]]] E PO A0 A1. rewrite E in E1. injection E1 as <- <-.
  destruct (po_inv _ _ _ _ PO) as [w' IV']. cbn [snd] in IV'.
  pose proof (i_tab _ _ _ _ IV) as T1. cbn [with_src p_tab] in T1. pose proof (i_tab _ _ _ _ IV') as T2. cbn [with_src p_tab] in T2.
  assert (CU : forall c n, nth_error (sp_cur (pi_rd i)) c = Some (Some n) -> c < 2 -> exists cu, nth_error (p_tab pl) c = Some cu /\ cu_pos cu = Z.of_nat n /\ nth_error (sp_cur rd) c = Some (Some n)).
  { intros c n H L. destruct (nth_error (p_tab pl) c) as [cu|] eqn:CE; [|apply nth_error_ge in CE; lia]. exists cu. split; [reflexivity|].
    destruct (i_cur _ _ _ _ IV' _ _ _ CE H) as [AT [PS _]]. split; [exact PS|]. destruct (nth_error (sp_cur rd) c) as [sp|] eqn:SE; [|apply nth_error_ge in SE; lia].
    pose proof (i_cur _ _ _ _ IV _ _ _ CE SE) as K. destruct sp as [n'|]; cbn in K; [|destruct K; congruence]. destruct K as [_ [K _]]. do 2 f_equal. lia. }
  destruct (CU 0 n0 A0) as [c0 [D0 [P0 Q0]]]; [lia|]. destruct (CU 1 n1 A1) as [c1 [D1 [P1 Q1]]]; [lia|].
  destruct NR as [[cc [IC CL]] [cf FR]]; [exists 0, 1, n0, n1; split; [discriminate|auto]|].
  pose proof (i_reg _ _ _ _ IV _ IC) as RG. cbn [with_src p_tab p_curs p_wpos p_catch] in *. unfold catchupCountThreshold in C2.
  split.
  - pose proof (i_read _ _ _ _ IV) as RD. pose proof (i_wpos _ _ _ _ IV) as WP. cbn in RD, WP. assert (cf < 2) by (apply nth_error_lt in FR; lia).
    destruct cf as [|[|cf]]; [rewrite Q0 in FR|rewrite Q1 in FR|lia]; injection FR as FR; lia.
  - unfold cpos in CL. destruct cc as [|[|cc]]; [rewrite D0 in CL|rewrite D1 in CL|lia]; lia.
Qed.

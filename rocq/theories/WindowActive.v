(** An array and its clone, read at most [K + 1] items ahead: the window of their
    pool. *)
From Coq Require Import List ZArith Arith Bool Lia.
From Verif Require Import Base Tokens JsonSpec EncSpec CursorModel CursorSpec CursorProofs CursorBound IterModel IterSpec IterCore IterThr IterRel IterOps IterOps2 IterOps3 PlainSpec Plain WindowPool WindowHeap WindowStore WindowPos WindowWorld.

Lemma nodup_map_in : forall A C (f : A -> C) l x y, NoDup (map f l) -> In x l -> In y l -> f x = f y -> x = y.
Proof.
  intros A C f l x y. induction l as [|a l IH]; intros D I1 I2 E; [destruct I1|]. cbn in D. inversion D as [|? ? N D']; subst. destruct I1 as [-> |I1], I2 as [-> |I2]; auto.
  - destruct N. rewrite E. now apply in_map.
  - destruct N. rewrite <- E. now apply in_map.
Qed.
Lemma thr_leaf_rc : forall g h t v r s e id ids l x p c, thr g h t v r s e (id :: ids) l -> nth_error (h_coll h) id = Some x -> c_stream x = RCur p c -> l = RCur p c.
Proof.
  intros g h t v r s e id ids l x p c T E ST. inversion T as [|v' id' x' hd' r' rc s' e' k N S1 S2 S3 S4 S5 G SP|v' id' x' hd' r' rc s' e' N S1 S2 G
                 |v' id' x' hd' r' rc s' e' key ch rest k ids' l' N S1 S2 S3 S4 S5 T' SH SP OR]; subst.
  1,2: pose proof (n_x _ _ _ _ _ _ _ _ _ _ _ N) as X; rewrite E in X; injection X as <-; rewrite <- (n_rc _ _ _ _ _ _ _ _ _ _ _ N); exact ST.
  pose proof (n_x _ _ _ _ _ _ _ _ _ _ _ N) as X; rewrite E in X; injection X as <-. pose proof (n_rc _ _ _ _ _ _ _ _ _ _ _ N) as R. rewrite ST in R. subst rc. destruct (thr_leaf _ _ _ _ _ _ _ _ _ T') as [_ [L _]]. eauto.
Qed.

(** A clone of an array that reads a source. *)
Lemma clone_source : forall grow c h x s l h' v', nth_error (h_coll h) c = Some x -> c_stream x = RSrc s -> nth_error (h_src h) s = Some l -> c_obj x = false ->
  clone grow (VArr c) h = Ok (h', v') ->
  v' = VArr (length (h_coll h)) /\ h_pool h' = h_pool h ++ [(s, mkPool l [] 0 0 0 [0; 1] [mkCursor true 0; mkCursor true 0])] /\ nth_error (h_src h') s = Some l /\ (forall q, q <> s -> nth_error (h_src h') q = nth_error (h_src h) q) /\
  streams h' c (RCur (length (h_pool h)) 0) /\ streams h' (length (h_coll h)) (RCur (length (h_pool h)) 1) /\
  (forall j, j < length (h_coll h) -> j <> c -> nth_error (h_coll h') j = nth_error (h_coll h) j) /\ h_iter h' = h_iter h.
Proof.
  intros grow c h x s l h' v' X ST SR OB E. cbn [clone] in E. unfold hbind, get_coll in E. rewrite X in E. destruct (c_started x); [discriminate|]. rewrite ST in E. cbn [clone_stream] in E. unfold hbind in E.
  assert (LS := nth_error_lt _ _ _ _ SR). assert (LC := nth_error_lt _ _ _ _ X).
  unfold pool_op in E at 1. cbn [h_pool h_src] in E. rewrite nth_error_app_last, SR in E. cbn [step new_cursor new_pool with_src p_tab p_curs p_wpos p_win length app set_tab set_curs] in E.
  unfold pool_op in E at 1. cbn [h_pool h_src set_pool set_src h_coll h_iter p_src] in E. rewrite nth_error_upd_same in E by (rewrite app_length; cbn; lia). rewrite nth_error_upd_same in E by exact LS.
  cbn in E. injection E as <- <-. rewrite OB. split; [now rewrite upd_length|]. cbn. split.
  - assert (U : forall (l0 : list (nat * pool)) a b c0, upd (upd (l0 ++ [a]) (length l0) b) (length l0) c0 = l0 ++ [c0]) by (intros l0 a b c0; induction l0 as [|y l0 IH]; cbn; [reflexivity|now rewrite IH]).
    rewrite U. reflexivity.
  - split; [rewrite nth_error_upd_same; [reflexivity|rewrite upd_length; exact LS]|]. split; [intros q N; rewrite !nth_error_upd_other by congruence; reflexivity|]. split; [|split; [|split; [|reflexivity]]].
    + eexists. cbn [h_coll]. rewrite nth_error_app_l by (rewrite upd_length; exact LC). rewrite nth_error_upd_same by exact LC. split; reflexivity.
    + eexists. cbn [h_coll]. rewrite nth_error_app2 by (rewrite upd_length; lia). rewrite upd_length, Nat.sub_diag. split; reflexivity.
    + intros j Lj N. rewrite nth_error_app_l by (rewrite upd_length; exact Lj). now rewrite nth_error_upd_other by congruence.
Qed.
Lemma clone_cursor_pools : forall grow c h x p k h' v', nth_error (h_coll h) c = Some x -> c_stream x = RCur p k -> clone grow (VArr c) h = Ok (h', v') -> length (h_pool h') = length (h_pool h).
Proof.
  intros grow c h x p k h' v' X ST E. cbn [clone] in E. unfold hbind, get_coll in E. rewrite X in E. destruct (c_started x); [discriminate|]. rewrite ST in E. cbn [clone_stream] in E. unfold hbind in E.
  destruct (pool_op grow p (OClone k) h) as [[h1 y]| |] eqn:P; try discriminate. destruct y as [|c2| |]; try discriminate. injection E as <- <-. cbn.
  unfold pool_op in P. destruct (nth_error (h_pool h) p) as [[s pl]|]; [|discriminate]. destruct (nth_error (h_src h) s); [|discriminate]. destruct (step _ _ _) as [[pl' z]| |]; try discriminate. injection P as <- _. cbn. apply upd_length.
Qed.

Section Active.
Variable grow : Z -> Z -> Z.
Variable Good : jval -> Prop.
Hypothesis GI : forall v k x, Good v -> In (k, x) (items v) -> Good x.
Variables K M : nat.
Hypothesis GN : forall J, Good J -> is_array J = true -> forall k n, n <= K + 2 -> left_toks (firstn n (skipn k (items J))) <= M.
Notation B := (M + 102).
Notation ok := (ok Good).
Notation idle := (idle B).
Notation idle_at := (idle_at B).
Notation fits := (fits B).
Notation tri := (tri grow Good B).

Definition live (st : sstore) (j : nat) : Prop := exists hd, nth_error (st_coll st) j = Some hd /\ s_state hd <> SDead.
Record active (p c a : nat) (J : jval) (E : nat) (m n : nat) (w : world) : Prop := mkActive {
  ac_idle : forall q, q <> p -> idle_at q w;
  ac_duo : duo p (w_h w);
  ac_info : exists i, nth_error (g_P (w_g w)) p = Some i /\ pi_e i = E;
  ac_c : streams (w_h w) c (RCur p 0);
  ac_a : streams (w_h w) a (RCur p 1);
  ac_lt : c < a;
  ac_up : forall j k, j < c -> live (w_st w) j -> ~ streams (w_h w) j (RCur p k);
  ac_it : forall i x y rest cur k, nth_error (st_iter (w_st w)) i = Some x -> si_state x = SIAt rest cur -> nth_error (h_iter (w_h w)) i = Some y -> i_stream y <> RCur p k;
  ac_root : exists ro, In ro (w_roots w) /\ ro_it ro = None /\ ro_base ro = RCur p 1 /\ ro_end ro = E;
  ac_arr : is_array J = true;
  ac_hc : exists s, nth_error (st_coll (w_st w)) c = Some (mkSh J false s) /\ prog (items J) m s /\ (forall ch, child_of s = Some ch -> above (S a) ch);
  ac_ha : exists s, nth_error (st_coll (w_st w)) a = Some (mkSh J true s) /\ prog (items J) n s;
  ac_mn : m <= n <= m + K + 1
}.

Lemma main_end : forall w p c J s i, ok w -> streams (w_h w) c (RCur p 0) -> nth_error (g_P (w_g w)) p = Some i ->
  (forall j k, j < c -> live (w_st w) j -> ~ streams (w_h w) j (RCur p k)) ->
  (forall i x y rest cur k, nth_error (st_iter (w_st w)) i = Some x -> si_state x = SIAt rest cur -> nth_error (h_iter (w_h w)) i = Some y -> i_stream y <> RCur p k) ->
  nth_error (st_coll (w_st w)) c = Some (mkSh J false s) -> s <> SDead ->
  exists v r s0 ids, thr (w_g w) (w_h w) (st_coll (w_st w)) v r s0 (pi_e i) (c :: ids) (RCur p 0).
Proof.
  intros [g h st roots] p c J s i [RE [WT WI]] [xc [XC SC]] PI UP IT HC DC. cbn [w_g w_h w_st w_roots] in *.
  destruct (re_cov _ _ _ _ RE c _ HC DC) as [ro [IN IC]]. pose proof (re_ok _ _ _ _ RE ro IN) as RO.
  assert (T : exists V, thr g h (st_coll st) V (ro_base ro) (ro_src ro) (ro_end ro) (ro_ids ro) (ro_leaf ro)).
  { unfold root_ok in RO. destruct (ro_it ro) as [it|].
    - pose proof (io_thr _ _ _ _ _ RO) as T. destruct (ro_v ro) as [v|]; [eauto|]. destruct T as [_ [NI _]]. rewrite NI in IC. destruct IC.
    - destruct (cl_ex _ _ _ _ RO) as [v [id [tl [hd [_ [_ [_ [_ [_ T]]]]]]]]]. eauto. }
  destruct T as [V T]. destruct (in_split _ _ IC) as [ids1 [ids2 EI]].
  destruct (thr_sub _ _ _ _ _ _ _ _ _ T _ _ _ EI) as [v [r [e' [T' [F0 F1]]]]].
  destruct (thr_node _ _ _ _ _ _ _ _ _ _ T') as [x [hd [rc N]]].
  pose proof (n_x _ _ _ _ _ _ _ _ _ _ _ N) as NX. rewrite XC in NX. injection NX as <-. pose proof (n_rc _ _ _ _ _ _ _ _ _ _ _ N) as NR. rewrite SC in NR. subst rc.
  pose proof (thr_leaf_rc _ _ _ _ _ _ _ _ _ _ _ _ _ T' XC SC) as LF. rewrite LF in T'.
  assert (EE : e' = pi_e i).
  { destruct (n_sw _ _ _ _ _ _ _ _ _ _ _ N) as [<-|[_ [p' [c' [i' [Q1 [Q2 [Q3 Q4]]]]]]]]; [|injection Q1 as <- <-; congruence]. exfalso.
    destruct ids1 as [|z ids1].
    - destruct (F0 eq_refl) as [_ [FB _]]. unfold root_ok in RO. destruct (ro_it ro) as [it|].
      + destruct (io_s _ _ _ _ _ RO) as [b [rest [B1 _]]]. refine (IT it _ _ _ _ 0 B1 eq_refl (io_h _ _ _ _ _ RO) _). cbn. now symmetry.
      + destruct (cl_ex _ _ _ _ RO) as [v0 [id [tl [hd0 [_ [A1 [A2 [A3 _]]]]]]]]. rewrite EI in A1. cbn in A1. injection A1 as <- _. rewrite HC in A2. injection A2 as <-. discriminate.
    - destruct F1 as [_ [j [xj [hj [_ [Lj [Xj [Sj [Hj Dj]]]]]]]]]; [discriminate|]. apply (UP j 0 Lj); [exists hj; auto|exists xj; auto]. }
  subst e'. eauto 8.
Qed.
Lemma ahead_root : forall w p a J s, ok w -> streams (w_h w) a (RCur p 1) -> nth_error (st_coll (w_st w)) a = Some (mkSh J true s) -> s <> SDead ->
  exists ro v ids, In ro (w_roots w) /\ ro_it ro = None /\ ro_base ro = RCur p 1 /\ thr (w_g w) (w_h w) (st_coll (w_st w)) v (RCur p 1) (ro_src ro) (ro_end ro) (a :: ids) (RCur p 1).
Proof.
  intros [g h st roots] p a J s [RE [WT WI]] [xa [XA SA]] HA DA. cbn [w_g w_h w_st w_roots] in *.
  destruct (re_cov _ _ _ _ RE a _ HA DA) as [ro [IN IC]]. pose proof (re_ok _ _ _ _ RE ro IN) as RO.
  assert (NNR : ~ nonroot (st_coll st) a) by (intros [hd [Q1 Q2]]; rewrite HA in Q1; injection Q1 as <-; discriminate).
  unfold root_ok in RO. destruct (ro_it ro) as [it|] eqn:RIT; [destruct (NNR (io_nr _ _ _ _ _ RO a IC))|].
  destruct (cl_ex _ _ _ _ RO) as [v [id [tl [hd [_ [A1 [A2 [A3 [A4 T]]]]]]]]]. rewrite A1 in IC, T. assert (id = a) by (destruct IC as [IC|IC]; [exact IC|destruct (NNR (A4 _ IC))]). subst id.
  destruct (thr_node _ _ _ _ _ _ _ _ _ _ T) as [x [hd' [rc N]]]. pose proof (n_x _ _ _ _ _ _ _ _ _ _ _ N) as NX. rewrite XA in NX. injection NX as <-. pose proof (n_rc _ _ _ _ _ _ _ _ _ _ _ N) as NR. rewrite SA in NR. subst rc.
  assert (BS : ro_base ro = RCur p 1). { destruct (n_sw _ _ _ _ _ _ _ _ _ _ _ N) as [Q|[Q _]]; [now symmetry|]. destruct (cl_cur _ _ _ _ RO) as [p' [c' Q']]. congruence. }
  pose proof (thr_leaf_rc _ _ _ _ _ _ _ _ _ _ _ _ _ T XA SA) as LF. rewrite LF, BS in T. exists ro, v, tl. auto.
Qed.
Lemma active_pos : forall p c a J E m n w, ok w -> active p c a J E m n w ->
  exists i nc na, nth_error (g_P (w_g w)) p = Some i /\ pi_e i = E /\ nth_error (sp_cur (pi_rd i)) 0 = Some (Some nc) /\ nth_error (sp_cur (pi_rd i)) 1 = Some (Some na) /\
    (pi_b i + nc + ahead J m <= E <= pi_b i + nc + ahead J (m - 1) + 2) /\ (pi_b i + na + ahead J n <= E <= pi_b i + na + ahead J (n - 1) + 2).
Proof.
  intros p c a J E m n w OK AC. destruct AC as [AI AD [i [PI PE]] SC SA LT UP IT [ro1 [RI [RN [RB REN]]]] AR [sc [HC [PC CH]]] [sa [HA PA]] MN].
  assert (DC : sc <> SDead) by (intros ->; exact PC). assert (DA : sa <> SDead) by (intros ->; exact PA). pose proof (proj1 (proj2 OK)) as WT.
  assert (PC' : exists nc, nth_error (sp_cur (pi_rd i)) 0 = Some (Some nc) /\ (pi_b i + nc + ahead J m <= E <= pi_b i + nc + ahead J (m - 1) + 2)).
  { destruct (main_end _ _ _ _ _ _ OK SC PI UP IT HC DC) as [v [r [s0 [ids T]]]]. destruct (pos_count Good _ _ _ _ _ _ _ _ _ _ _ m WT T HC PC) as [k [GP [L1 L2]]]. cbn [s_val] in L1, L2. cbn [gpos] in GP. rewrite PI in GP.
    destruct (nth_error (sp_cur (pi_rd i)) 0) as [[nc|]|]; try discriminate. injection GP as _ <-. exists nc. split; [reflexivity|]. lia. }
  assert (PA' : exists na, nth_error (sp_cur (pi_rd i)) 1 = Some (Some na) /\ (pi_b i + na + ahead J n <= E <= pi_b i + na + ahead J (n - 1) + 2)).
  { destruct (ahead_root _ _ _ _ _ OK SA HA DA) as [ro [v [ids [IN [IT0 [BS T]]]]]].
    assert (ro = ro1) by (eapply (nodup_map_in _ _ ro_base); [apply (re_base _ _ _ _ (proj1 OK))|exact IN|exact RI|congruence]). subst ro1.
    destruct (pos_count Good _ _ _ _ _ _ _ _ _ _ _ n WT T HA PA) as [k [GP [L1 L2]]]. cbn [s_val] in L1, L2. cbn [gpos] in GP. rewrite PI in GP.
    destruct (nth_error (sp_cur (pi_rd i)) 1) as [[na|]|]; try discriminate. injection GP as _ <-. exists na. split; [reflexivity|]. lia. }
  destruct PC' as [nc [C1 C2]]. destruct PA' as [na [A1 A2]]. exists i, nc, na. auto 10.
Qed.
Lemma ahead_span : forall J m n, Good J -> is_array J = true -> m <= n -> n - m <= K + 2 -> ahead J m <= M + ahead J n.
Proof. intros J m n GJ AR L L2. rewrite (ahead_split J m n L). pose proof (GN J GJ AR m (n - m) L2). lia. Qed.
Lemma active_good : forall p c a J E m n w, ok w -> active p c a J E m n w -> Good J.
Proof. intros p c a J E m n w [_ [WT _]] AC. destruct (ac_hc _ _ _ _ _ _ _ _ AC) as [s [HC _]]. exact (wt_good _ _ WT _ _ HC). Qed.
Lemma active_fits : forall p c a J E m n w x, ok w -> active p c a J E m n w -> nth_error (h_pool (w_h w)) p = Some x -> length (p_win (snd x)) <= B.
Proof.
  intros p c a J E m n w [s pl] OK AC X. pose proof (active_good _ _ _ _ _ _ _ _ OK AC) as GJ. destruct (active_pos _ _ _ _ _ _ _ _ OK AC) as [i [nc [na [PI [PE [C0 [C1 [PC PA]]]]]]]].
  pose proof (co_pool _ _ (re_core _ _ _ _ (proj1 OK)) _ _ _ X PI) as PO. destruct (duo_window _ _ _ _ _ _ _ _ (ac_duo _ _ _ _ _ _ _ _ AC) X PO C0 C1) as [D1 D2]. cbn [snd].
  pose proof (ac_mn _ _ _ _ _ _ _ _ AC) as MN. pose proof (ac_arr _ _ _ _ _ _ _ _ AC) as AR.
  pose proof (ahead_span J (m - 1) n GJ AR ltac:(lia) ltac:(lia)). pose proof (ahead_span J (n - 1) n GJ AR ltac:(lia) ltac:(lia)).
  destruct (Nat.eq_dec m n) as [-> |NE]; [lia|]. pose proof (ahead_mono J m (n - 1) ltac:(lia)). lia.
Qed.
Lemma active_exit : forall p c a J E m w, ok w -> active p c a J E m (length (items J)) w -> idle w.
Proof.
  intros p c a J E m w OK AC q. destruct (Nat.eq_dec q p) as [-> |NE]; [|now apply (ac_idle _ _ _ _ _ _ _ _ AC)]. intros [s pl] i X PI. pose proof (active_good _ _ _ _ _ _ _ _ OK AC) as GJ.
  destruct (active_pos _ _ _ _ _ _ _ _ OK AC) as [i' [nc [na [PI' [PE [C0 [C1 [PC PA]]]]]]]]. rewrite PI in PI'. injection PI' as <-.
  pose proof (co_pool _ _ (re_core _ _ _ _ (proj1 OK)) _ _ _ X PI) as PO. destruct (duo_window _ _ _ _ _ _ _ _ (ac_duo _ _ _ _ _ _ _ _ AC) X PO C0 C1) as [D1 D2]. cbn [snd].
  pose proof (ac_mn _ _ _ _ _ _ _ _ AC) as MN. pose proof (ac_arr _ _ _ _ _ _ _ _ AC) as AR. set (L := length (items J)) in *.
  assert (Z0 : ahead J L = 0) by (unfold ahead, L; rewrite skipn_all; reflexivity).
  pose proof (ahead_span J (m - 1) L GJ AR ltac:(lia) ltac:(lia)). pose proof (ahead_span J (L - 1) L GJ AR ltac:(lia) ltac:(lia)). lia.
Qed.

Lemma active_change : forall p c a J E m n m' n' w w', ok w -> ok w' -> evolve (w_h w) (w_h w') -> gle (w_g w) (w_g w') -> kept (w_roots w) (w_roots w') -> st_iter (w_st w') = st_iter (w_st w) ->
  (forall j, j < c -> nth_error (st_coll (w_st w')) j = nth_error (st_coll (w_st w)) j) ->
  (exists s, nth_error (st_coll (w_st w')) c = Some (mkSh J false s) /\ prog (items J) m' s /\ (forall ch, child_of s = Some ch -> above (S a) ch)) ->
  (exists s, nth_error (st_coll (w_st w')) a = Some (mkSh J true s) /\ prog (items J) n' s) -> m' <= n' <= m' + K + 1 ->
  active p c a J E m n w -> active p c a J E m' n' w'.
Proof.
  intros p c a J E m n m' n' w w' OK OK' EV GL KE SI FR HC HA MN [AI AD [i [PI PE]] SC SA LT UP IT [ro1 [RI [RN [RB REN]]]] AR _ _ _]. constructor; auto.
  - intros q NE. exact (idle_evolve Good B q w w' OK OK' EV GL (AI q NE)).
  - now apply (ev_duo _ _ EV).
  - destruct (gl_P _ _ GL _ _ PI) as [i' [P1 [_ [_ [P2 _]]]]]. exists i'. split; [exact P1|congruence].
  - eapply streams_evolve; eauto.
  - eapply streams_evolve; eauto.
  - intros j k Lj [hd [H1 H2]] [y [Y1 Y2]]. rewrite FR in H1 by exact Lj. apply (UP j k Lj); [exists hd; auto|].
    assert (Lh : j < length (h_coll (w_h w))) by (rewrite <- (re_lenc _ _ _ _ (proj1 OK)); eapply nth_error_lt; exact H1).
    destruct (nth_error (h_coll (w_h w)) j) as [x|] eqn:X; [|apply nth_error_ge in X; lia]. destruct (ev_coll _ _ EV _ _ X) as [x' [X1 X2]]. exists x. split; [exact X|]. congruence.
  - intros i0 x y rest cur k H1 H2 H3 H4. rewrite SI in H1. destruct (ev_iter _ _ EV _ _ H3) as [y' [Y1 Y2]]. eapply IT; [exact H1|exact H2|exact Y1|]. rewrite Y2. exact H4.
  - destruct (KE ro1 RI RN) as [ro' [A1 [A2 [A3 A4]]]]. exists ro'. repeat split; congruence.
Qed.
Lemma active_steady : forall p c a J E m n, steady Good B (S a) (active p c a J E m n).
Proof.
  intros p c a J E m n. constructor.
  - intros w OK AC. apply Forall_forall. intros x IN. apply In_nth_error in IN as [q X]. destruct (Nat.eq_dec q p) as [-> |NE]; [exact (active_fits _ _ _ _ _ _ _ _ _ OK AC X)|]. refine (idle_fits Good B q w _ OK (ac_idle _ _ _ _ _ _ _ _ AC _ NE) X).
  - intros w w' OK OK' [EV GL KE [_ BY] SI] AC. pose proof (ac_lt _ _ _ _ _ _ _ _ AC) as LT. refine (active_change p c a J E m n m n w w' OK OK' EV GL KE SI _ _ _ _ AC).
    + intros j Lj. apply BY. lia.
    + rewrite BY by lia. apply (ac_hc _ _ _ _ _ _ _ _ AC).
    + rewrite BY by lia. apply (ac_ha _ _ _ _ _ _ _ _ AC).
    + apply (ac_mn _ _ _ _ _ _ _ _ AC).
Qed.

(** Moving on. *)
Lemma prog_next : forall (l : list (option scalar * jval)) m v b s, l = items v -> prog l m s -> s <> SDone ->
  to_come (mkSh v b s) = skipn m l /\ m <= length l.
Proof.
  intros l m v b s -> P N. destruct s as [|k ch rest| |]; cbn in P; try congruence; [subst m; cbn; split; [reflexivity|lia]|destruct P as [L ->]; cbn; split; [reflexivity|lia]|destruct P].
Qed.
Lemma prog_step : forall (l : list (option scalar * jval)) m k x rest ch, skipn m l = (k, x) :: rest -> m <= length l -> prog l (S m) (SAt k ch rest) /\ m < length l.
Proof.
  intros l m k x rest ch E L. assert (LT : m < length l). { destruct (Nat.eq_dec m (length l)) as [-> |]; [rewrite skipn_all in E; discriminate|lia]. }
  assert (Q : skipn (m + 1) l = rest) by (rewrite <- skipn_skipn, E; reflexivity). replace (m + 1) with (S m) in Q by lia. split; [|exact LT]. unfold prog. split; [lia|symmetry; exact Q].
Qed.
Lemma get_arr : forall t c hd, nth_error t c = Some hd -> is_array (s_val hd) = true -> s_get t (VArr c) = Some (c, hd).
Proof. intros t c hd E A. cbn. now rewrite E, A. Qed.
Lemma tri_advance_main : forall A p c a J E m n (k : bool -> iprog A) Q, m < n \/ n = length (items J) ->
  (m < length (items J) -> tri (active p c a J E (S m) n) (k true) Q) -> (m = length (items J) -> tri (active p c a J E m n) (k false) Q) ->
  tri (active p c a J E m n) (IAdvance (VArr c) k) Q.
Proof.
  intros A p c a J E m n k Q MN KT KF w st r OK AC R. cbn [spec_run] in R. destruct (s_advance _ (VArr c)) as [[t' b]|] eqn:SA; [|discriminate]. cbn [on_coll obind] in R.
  destruct (op_advance_w grow Good GI w (VArr c) t' b OK SA) as [n0 [w1 [RU [OK1 [S1 [EV [GL KE]]]]]]].
  destruct (ac_hc _ _ _ _ _ _ _ _ AC) as [sc [HC [PC CH]]]. destruct (ac_ha _ _ _ _ _ _ _ _ AC) as [sa [HA PA]]. pose proof (ac_arr _ _ _ _ _ _ _ _ AC) as AR. pose proof (ac_lt _ _ _ _ _ _ _ _ AC) as LT. pose proof (ac_mn _ _ _ _ _ _ _ _ AC) as MN0.
  pose proof (advance_store Good GI _ _ _ _ _ _ (proj1 (proj2 OK)) SA (get_arr _ _ _ HC AR) HC) as ST. cbn [s_state s_val s_root] in ST.
  assert (La := nth_error_lt _ _ _ _ HA).
  assert (OUT : exists m', (b = true /\ m < length (items J) /\ m' = S m \/ b = false /\ m = length (items J) /\ m' = m) /\ active p c a J E m' n w1).
  { destruct ST as [[-> [-> ->]]|[ND [NDD MV]]].
    - cbn in PC. exists m. split; [right; auto|]. refine (active_change p c a J E m n m n w w1 OK OK1 EV GL KE _ _ _ _ MN0 AC); rewrite S1; cbn; eauto.
    - destruct (prog_next (items J) m J false sc eq_refl PC ND) as [TC Lm]. pose proof (mv_at _ _ _ _ _ _ MV) as MA. rewrite TC in MA. cbn [s_val s_root s_state] in MA. pose proof (mv_frame _ _ _ _ _ _ MV) as MF. cbn [s_state] in MF.
      assert (FR : forall j, j < S a -> j <> c -> nth_error t' j = nth_error (st_coll (w_st w)) j) by (intros j Lj NJ; apply (MF (S a)); [lia|exact CH|exact Lj|exact NJ]).
      destruct (skipn m (items J)) as [|[ky x] rest] eqn:SK.
      + destruct MA as [-> HC']. assert (m = length (items J)). { assert (Z0 : length (skipn m (items J)) = 0) by now rewrite SK. rewrite skipn_length in Z0. lia. }
        exists m. split; [right; auto|]. refine (active_change p c a J E m n m n w w1 OK OK1 EV GL KE _ _ _ _ MN0 AC); rewrite S1; cbn [st_coll st_iter]; [reflexivity| | |].
        * intros j Lj. apply FR; lia.
        * exists SDone. split; [exact HC'|]. split; [assumption|discriminate].
        * rewrite FR by lia. eauto.
      + destruct MA as [-> [ch [HC' AB]]]. destruct (prog_step _ _ _ _ _ ch SK Lm) as [PG LTm]. exists (S m). split; [left; auto|]. refine (active_change p c a J E m n (S m) n w w1 OK OK1 EV GL KE _ _ _ _ _ AC); rewrite ?S1; cbn [st_coll st_iter]; [reflexivity| | | |].
        * intros j Lj. apply FR; lia.
        * exists (SAt ky ch rest). split; [exact HC'|]. split; [exact PG|]. intros ch' [= <-]. eapply above_le; [|exact AB]. lia.
        * rewrite FR by lia. eauto.
        * lia. }
  destruct OUT as [m' [CS AC1]]. rewrite <- S1 in R.
  assert (RS : exists w', w_st w' = st /\ runs grow Good B (k b) w1 w' r /\ Q w' r).
  { destruct CS as [[-> [Lm ->]]|[-> [Lm ->]]]; [exact (KT Lm w1 st r OK1 AC1 R)|exact (KF Lm w1 st r OK1 AC1 R)]. }
  destruct RS as [w' [S' [RU' Q']]]. exists w'. split; [exact S'|]. split; [|exact Q'].
  eapply runs_step with (m := fun n => ldo c <- coll_of (VArr c) ; advance grow n c) (w1 := w1); [intros; apply irun_advance|reflexivity|exact RU| |exact RU'].
  eapply (sd_fits _ _ _ _ (active_steady p c a J E m' n)); eauto.
Qed.
Lemma tri_advance_ahead : forall A p c a J E m n (k : bool -> iprog A) Q, n < m + K + 1 ->
  (n < length (items J) -> tri (active p c a J E m (S n)) (k true) Q) -> (n = length (items J) -> tri (active p c a J E m n) (k false) Q) ->
  tri (active p c a J E m n) (IAdvance (VArr a) k) Q.
Proof.
  intros A p c a J E m n k Q MN KT KF w st r OK AC R. cbn [spec_run] in R. destruct (s_advance _ (VArr a)) as [[t' b]|] eqn:SA; [|discriminate]. cbn [on_coll obind] in R.
  destruct (op_advance_w grow Good GI w (VArr a) t' b OK SA) as [n0 [w1 [RU [OK1 [S1 [EV [GL KE]]]]]]].
  destruct (ac_hc _ _ _ _ _ _ _ _ AC) as [sc [HC [PC CH]]]. destruct (ac_ha _ _ _ _ _ _ _ _ AC) as [sa [HA PA]]. pose proof (ac_arr _ _ _ _ _ _ _ _ AC) as AR. pose proof (ac_lt _ _ _ _ _ _ _ _ AC) as LT. pose proof (ac_mn _ _ _ _ _ _ _ _ AC) as MN0.
  pose proof (advance_store Good GI _ _ _ _ _ _ (proj1 (proj2 OK)) SA (get_arr _ _ _ HA AR) HA) as ST. cbn [s_state s_val s_root] in ST.
  assert (La := nth_error_lt _ _ _ _ HA).
  assert (CA : forall ch, child_of sa = Some ch -> above a ch).
  { intros ch E1. pose proof (wt_at _ _ (proj1 (proj2 OK)) _ _ HA) as WH. unfold wfh in WH. cbn [s_state] in WH. destruct sa; try discriminate. injection E1 as ->. eapply above_le; [|apply WH]. lia. }
  assert (OUT : exists n', (b = true /\ n < length (items J) /\ n' = S n \/ b = false /\ n = length (items J) /\ n' = n) /\ active p c a J E m n' w1).
  { destruct ST as [[-> [-> ->]]|[ND [NDD MV]]].
    - cbn in PA. exists n. split; [right; auto|]. refine (active_change p c a J E m n m n w w1 OK OK1 EV GL KE _ _ _ _ MN0 AC); rewrite S1; cbn; eauto.
    - destruct (prog_next (items J) n J true sa eq_refl PA ND) as [TC Ln]. pose proof (mv_at _ _ _ _ _ _ MV) as MA. rewrite TC in MA. cbn [s_val s_root s_state] in MA. pose proof (mv_frame _ _ _ _ _ _ MV) as MF. cbn [s_state] in MF.
      assert (FR : forall j, j < a -> nth_error t' j = nth_error (st_coll (w_st w)) j) by (intros j Lj; apply (MF a); [lia|exact CA|exact Lj|lia]).
      destruct (skipn n (items J)) as [|[ky x] rest] eqn:SK.
      + destruct MA as [-> HC']. assert (n = length (items J)). { assert (Z0 : length (skipn n (items J)) = 0) by now rewrite SK. rewrite skipn_length in Z0. lia. }
        exists n. split; [right; auto|]. refine (active_change p c a J E m n m n w w1 OK OK1 EV GL KE _ _ _ _ MN0 AC); rewrite S1; cbn [st_coll st_iter]; [reflexivity| | |].
        * intros j Lj. apply FR; lia.
        * rewrite FR by lia. eauto.
        * exists SDone. split; [exact HC'|assumption].
      + destruct MA as [-> [ch [HC' AB]]]. destruct (prog_step _ _ _ _ _ ch SK Ln) as [PG LTn]. exists (S n). split; [left; auto|]. refine (active_change p c a J E m n m (S n) w w1 OK OK1 EV GL KE _ _ _ _ _ AC); rewrite ?S1; cbn [st_coll st_iter]; [reflexivity| | | |].
        * intros j Lj. apply FR; lia.
        * rewrite FR by lia. eauto.
        * exists (SAt ky ch rest). split; [exact HC'|exact PG].
        * lia. }
  destruct OUT as [n' [CS AC1]]. rewrite <- S1 in R.
  assert (RS : exists w', w_st w' = st /\ runs grow Good B (k b) w1 w' r /\ Q w' r).
  { destruct CS as [[-> [Lm ->]]|[-> [Lm ->]]]; [exact (KT Lm w1 st r OK1 AC1 R)|exact (KF Lm w1 st r OK1 AC1 R)]. }
  destruct RS as [w' [S' [RU' Q']]]. exists w'. split; [exact S'|]. split; [|exact Q'].
  eapply runs_step with (m := fun n => ldo c <- coll_of (VArr a) ; advance grow n c) (w1 := w1); [intros; apply irun_advance|reflexivity|exact RU| |exact RU'].
  eapply (sd_fits _ _ _ _ (active_steady p c a J E m n')); eauto.
Qed.
(** The current item of the array. *)
Lemma tri_current_main : forall A p c a J E m n (k : option value -> iprog A) Q, (forall o, (forall x, o = Some x -> above (S a) x) -> tri (active p c a J E m n) (k o) Q) -> tri (active p c a J E m n) (ICurrent (VArr c) k) Q.
Proof.
  intros A p c a J E m n k Q KK w st r OK AC R. cbn [spec_run] in R. destruct (s_current _ (VArr c)) as [[key o]|] eqn:SC; [|discriminate].
  pose proof (op_current _ _ _ _ _ _ (proj1 OK) SC) as RU. cbn [snd] in RU.
  assert (AB : forall x, o = Some x -> above (S a) x).
  { destruct (ac_hc _ _ _ _ _ _ _ _ AC) as [sc [HC [PC CH]]]. unfold s_current in SC. rewrite (get_arr _ _ _ HC (ac_arr _ _ _ _ _ _ _ _ AC)) in SC. cbn [s_state] in SC. intros x ->. destruct sc; try discriminate. injection SC as _ ->. now apply CH. }
  destruct (KK o AB w st r OK AC R) as [w' [S' [RU' Q']]]. exists w'. split; [exact S'|]. split; [|exact Q'].
  eapply runs_step with (m := fun n => current_value (VArr c)) (n0 := 0); [reflexivity|reflexivity|intros; exact RU|eapply (sd_fits _ _ _ _ (active_steady p c a J E m n)); eauto|exact RU'].
Qed.

(** The clone. *)
Lemma tri_clone : forall A c (k : value -> iprog A) Q, (forall x, tri idle (k x) Q) -> (forall p a J E, tri (active p c a J E 0 0) (k (VArr a)) Q) -> tri idle (IClone (VArr c) k) Q.
Proof.
  intros A c k Q KI KA w st r OK ID R. cbn [spec_run] in R. destruct (s_clone _ (VArr c)) as [[t' v']|] eqn:SC; [|discriminate]. cbn [on_coll obind] in R.
  destruct OK as [RE [WT WI]]. destruct (op_clone_x grow _ _ _ _ _ _ _ RE SC) as [h1 [g1 [r1 [RU [[RE1 GL] KE]]]]].
  set (w1 := mkW g1 h1 (mkSt t' (st_iter (w_st w))) r1). assert (OK : ok w) by (split; [exact RE|split; assumption]). assert (OK1 : ok w1) by (split; [exact RE1|split; [eapply clone_store; eauto|assumption]]).
  assert (FIN : forall W, steady Good B 0 W \/ (exists s0, steady Good B s0 W) -> W w1 -> tri W (k v') Q -> exists w', w_st w' = st /\ runs grow Good B (IClone (VArr c) k) w w' r /\ Q w' r).
  { intros W SW W1 T. destruct (T w1 st r OK1 W1 R) as [w' [S' [RU' Q']]]. exists w'. split; [exact S'|]. split; [|exact Q'].
    eapply runs_step with (m := fun n => clone grow (VArr c)) (n0 := 0) (w1 := w1); [reflexivity|reflexivity|intros; exact RU| |exact RU']. destruct SW as [SW|[s0 SW]]; apply (sd_fits _ _ _ _ SW); assumption. }
  pose proof (clone_forward grow _ _ _ _ RU) as FW.
  (* the array *)
  unfold s_clone in SC. destruct (s_get (st_coll (w_st w)) (VArr c)) as [[c' hd]|] eqn:SG; [|discriminate]. destruct (get_id _ _ _ _ SG) as [HC HV]. assert (c' = c) by (destruct HV as [HV|HV]; congruence). subst c'.
  destruct (s_state hd) eqn:FRE; try discriminate. injection SC as SC. assert (AR : is_array (s_val hd) = true) by (cbn in SG; rewrite HC in SG; destruct (is_array (s_val hd)); [reflexivity|discriminate]).
  destruct (place_ok _ _ _ _ _ _ _ RE SG) as [R1 [ro [R2 [V [rr [e [ids1 [ids2 PL]]]]]]]]; [congruence|].
  destruct (place_hd _ _ _ _ _ _ _ _ _ _ _ _ _ _ _ PL HC) as [x [rc [N _]]].
  assert (X := n_x _ _ _ _ _ _ _ _ _ _ _ N). assert (RC := n_rc _ _ _ _ _ _ _ _ _ _ _ N).
  destruct (c_stream x) as [s|p0 k0] eqn:ST.
  2: { apply (FIN idle); [left; apply idle_steady| |apply KI]. intro q. intros y i Y I0. refine (idle_forward Good B q w w1 OK OK1 FW GL _ (ID q) y i Y I0).
       rewrite <- (clone_cursor_pools _ _ _ _ _ _ _ _ X ST RU). eapply nth_error_lt; exact Y. }
  (* a source *)
  set (p := length (h_pool (w_h w))). set (a := length (h_coll (w_h w))). subst rc.
  assert (SR : exists l, nth_error (h_src (w_h w)) s = Some l).
  { destruct (n_src _ _ _ _ _ _ _ _ _ _ _ N) as [Ls Q0]. rewrite <- (co_lenF _ _ (re_core _ _ _ _ RE)) in Ls. cbn in Q0. subst s. destruct (nth_error (h_src (w_h w)) (ro_src ro)) eqn:Q1; [eauto|apply nth_error_ge in Q1; lia]. }
  destruct SR as [l SR]. assert (OB : c_obj x = false) by (rewrite (n_kind _ _ _ _ _ _ _ _ _ _ _ N); destruct (s_val hd); [discriminate|reflexivity|discriminate]).
  destruct (clone_source grow c (w_h w) x s l h1 v' X ST SR OB RU) as [EV' [EP [ES [EO [STC [STA [FR FI]]]]]]]. fold p in EP, STC, STA. fold a in EV', STA, FR. subst v'.
  assert (ROOT : s_root hd = false).
  { destruct (ro_it ro) as [it|] eqn:RIT; [destruct (pl_nri _ _ _ _ _ _ _ _ _ _ _ _ _ _ PL) as [hd' [Q1 Q2]]; [left; congruence|congruence]|].
    destruct ids1 as [|z ids1]; [|destruct (pl_nri _ _ _ _ _ _ _ _ _ _ _ _ _ _ PL) as [hd' [Q1 Q2]]; [right; discriminate|congruence]]. exfalso.
    assert (IN : In ro (w_roots w)) by (rewrite (pl_roots _ _ _ _ _ _ _ _ _ _ _ _ _ _ PL); apply in_or_app; right; left; reflexivity). pose proof (re_ok _ _ _ _ RE ro IN) as RO. unfold root_ok in RO. rewrite RIT in RO.
    destruct (cl_cur _ _ _ _ RO) as [p' [c' Q']]. destruct (pl_head _ _ _ _ _ _ _ _ _ _ _ _ _ _ PL eq_refl) as [_ [Q0 _]]. destruct (n_sw _ _ _ _ _ _ _ _ _ _ _ N) as [Q2|[Q2 _]]; congruence. }
  assert (La : length (st_coll (w_st w)) = a) by apply (re_lenc _ _ _ _ RE).
  assert (TT : t' = st_coll (w_st w) ++ [mkSh (s_val hd) true SFresh]) by (destruct (s_val hd); try discriminate; injection SC as <- _; reflexivity).
  assert (Lc : c < a) by (rewrite <- La; eapply nth_error_lt; exact HC).
  assert (HC1 : nth_error (st_coll (w_st w1)) c = Some (mkSh (s_val hd) false SFresh)) by (cbn; rewrite TT, nth_error_app_l by lia; rewrite HC; destruct hd as [hv hr hs]; cbn in *; congruence).
  assert (HA1 : nth_error (st_coll (w_st w1)) a = Some (mkSh (s_val hd) true SFresh)) by (cbn; rewrite TT, <- La; apply nth_error_app_last).
  assert (NOP : forall r0 s0 k0, on_src (w_g w) r0 s0 -> r0 <> RCur p k0).
  { intros r0 s0 k0 [_ ON] ->. destruct ON as [i [Q1 _]]. apply nth_error_lt in Q1. rewrite <- (co_lenP _ _ (re_core _ _ _ _ RE)) in Q1. unfold p in Q1. lia. }
  assert (UP : forall j k, j < c -> live (w_st w1) j -> ~ streams (w_h w1) j (RCur p k)).
  { intros j k0 Lj [hj [H1 H2]] [xj [X1 X2]]. cbn in H1, X1. rewrite FR in X1 by lia. rewrite TT, nth_error_app_l in H1 by lia.
    destruct (re_cov _ _ _ _ RE j _ H1 H2) as [ro' [IN IC]]. pose proof (re_ok _ _ _ _ RE ro' IN) as RO.
    assert (T : exists V, thr (w_g w) (w_h w) (st_coll (w_st w)) V (ro_base ro') (ro_src ro') (ro_end ro') (ro_ids ro') (ro_leaf ro')).
    { unfold root_ok in RO. destruct (ro_it ro') as [it|].
      - pose proof (io_thr _ _ _ _ _ RO) as T. destruct (ro_v ro') as [v|]; [eauto|]. destruct T as [_ [NI _]]. rewrite NI in IC. destruct IC.
      - destruct (cl_ex _ _ _ _ RO) as [v [id [tl [hd0 [_ [_ [_ [_ [_ T]]]]]]]]]. eauto. }
    destruct T as [V' T]. destruct (in_split _ _ IC) as [i1 [i2 EI]]. destruct (thr_sub _ _ _ _ _ _ _ _ _ T _ _ _ EI) as [v [r' [e' [T' _]]]].
    destruct (thr_node _ _ _ _ _ _ _ _ _ _ T') as [x' [hd' [rc' N']]]. pose proof (n_x _ _ _ _ _ _ _ _ _ _ _ N') as NX. rewrite X1 in NX. injection NX as <-.
    refine (NOP _ _ k0 (n_src _ _ _ _ _ _ _ _ _ _ _ N') _). rewrite <- (n_rc _ _ _ _ _ _ _ _ _ _ _ N'). exact X2. }
  assert (IT : forall i x y rest cur k, nth_error (st_iter (w_st w1)) i = Some x -> si_state x = SIAt rest cur -> nth_error (h_iter (w_h w1)) i = Some y -> i_stream y <> RCur p k).
  { intros i0 x0 y rest cur k0 H1 H2 H3. cbn in H1, H3. rewrite FI in H3. pose proof (re_icov _ _ _ _ RE _ _ H1) as IC. unfold iter_cov in IC. rewrite H2 in IC. destruct IC as [ro' [IN IT0]].
    pose proof (re_ok _ _ _ _ RE ro' IN) as RO. unfold root_ok in RO. rewrite IT0 in RO. pose proof (io_h _ _ _ _ _ RO) as H4. rewrite H3 in H4. injection H4 as ->. cbn. exact (NOP _ _ k0 (io_on _ _ _ _ _ RO)). }
  assert (PP : nth_error (h_pool (w_h w1)) p = Some (s, mkPool l [] 0 0 0 [0; 1] [mkCursor true 0; mkCursor true 0])) by (cbn; rewrite EP; apply nth_error_app_last).
  assert (PI : exists i, nth_error (g_P (w_g w1)) p = Some i).
  { destruct (nth_error (g_P (w_g w1)) p) as [i|] eqn:Q0; [eauto|]. apply nth_error_ge in Q0. pose proof (co_lenP _ _ (re_core _ _ _ _ RE1)) as LP. apply nth_error_lt in PP. cbn in PP, Q0. lia. }
  destruct PI as [i PI]. pose proof (co_pool _ _ (re_core _ _ _ _ RE1) _ _ _ PP PI) as PO.
  assert (ZERO : forall k0 n1, k0 < 2 -> nth_error (sp_cur (pi_rd i)) k0 = Some (Some n1) -> n1 = 0).
  { intros k0 n1 L0 Q0. destruct (po_inv _ _ _ _ PO) as [w0 IV]. assert (Q1 : nth_error [mkCursor true 0; mkCursor true 0] k0 = Some (mkCursor true 0)) by (destruct k0 as [|[|k0]]; [reflexivity|reflexivity|lia]).
    pose proof (i_cur _ _ _ _ IV k0 _ _ Q1 Q0) as CO. cbn in CO. lia. }
  destruct (main_end w1 p c (s_val hd) SFresh i OK1 STC PI UP IT HC1 ltac:(discriminate)) as [v1 [rm [sm [idm TM]]]].
  destruct (ahead_root w1 p a (s_val hd) SFresh OK1 STA HA1 ltac:(discriminate)) as [ra [va [ida [IN [IT0 [BS TA]]]]]].
  assert (END : ro_end ra = pi_e i).
  { destruct (thr_node _ _ _ _ _ _ _ _ _ _ TM) as [xm [hm [rcm NM]]]. pose proof (n_hd _ _ _ _ _ _ _ _ _ _ _ NM) as Q1. rewrite HC1 in Q1. injection Q1 as <-.
    destruct (thr_node _ _ _ _ _ _ _ _ _ _ TA) as [xa [ha [rca NA]]]. pose proof (n_hd _ _ _ _ _ _ _ _ _ _ _ NA) as Q2. rewrite HA1 in Q2. injection Q2 as <-.
    destruct (sub_fresh _ _ _ _ _ _ _ _ _ _ _ _ _ TM NM eq_refl) as [_ [_ [_ [_ [_ [L1 [k1 [G1 [S1 _]]]]]]]]]. destruct (sub_fresh _ _ _ _ _ _ _ _ _ _ _ _ _ TA NA eq_refl) as [_ [_ [_ [_ [_ [L2 [k2 [G2 [S2 _]]]]]]]]].
    rewrite <- L1 in G1. rewrite <- L2 in G2. cbn [gpos] in G1, G2. rewrite PI in G1, G2.
    destruct (nth_error (sp_cur (pi_rd i)) 0) as [[n1|]|] eqn:C1; try discriminate. destruct (nth_error (sp_cur (pi_rd i)) 1) as [[n2|]|] eqn:C2; try discriminate.
    pose proof (ZERO 0 n1 ltac:(lia) C1). pose proof (ZERO 1 n2 ltac:(lia) C2). injection G1 as _ <-. injection G2 as _ <-. cbn [s_val] in S1, S2. lia. }
  assert (AC : active p c a (s_val hd) (pi_e i) 0 0 w1).
  { constructor.
    - intros q NE y i' Y I0. refine (idle_forward Good B q w w1 OK OK1 FW GL _ (ID q) y i' Y I0). apply nth_error_lt in Y. cbn in Y. rewrite EP, app_length in Y. cbn in Y. fold p in Y. fold p. lia.
    - exists s. exists (mkPool l [] 0 0 0 [0; 1] [mkCursor true 0; mkCursor true 0]), l, l, (mkReaders 0 [Some 0; Some 0]). split; [exact PP|]. split; [exact ES|]. constructor.
      + exists 0. constructor; cbn; auto; try lia.
        * intros [|[|k0]] cu sp Q1 Q2; cbn in Q1, Q2; [injection Q1 as <-; injection Q2 as <-; cbn; repeat split; auto|injection Q1 as <-; injection Q2 as <-; cbn; repeat split; auto|destruct k0; discriminate].
        * constructor; [intros [Q0|[]]; discriminate|]. constructor; [intros []|constructor].
      + destruct (co_src _ _ (re_core _ _ _ _ RE1) _ _ ES) as [-> _]. pose proof (co_max _ _ (re_core _ _ _ _ RE1) s). rewrite skipn_length. lia.
      + unfold catch_ok, catchupCountThreshold. cbn. lia.
      + reflexivity.
      + intros _. split; [exists 0; cbn; split; [auto|lia]|exists 0; reflexivity].
    - exists i. auto.
    - exact STC.
    - exact STA.
    - exact Lc.
    - exact UP.
    - exact IT.
    - exists ra. auto.
    - exact AR.
    - exists SFresh. split; [exact HC1|]. split; [reflexivity|discriminate].
    - exists SFresh. split; [exact HA1|reflexivity].
    - lia. }
  apply (FIN (active p c a (s_val hd) (pi_e i) 0 0)); [right; eexists; apply active_steady|exact AC|apply KA].
Qed.
End Active.

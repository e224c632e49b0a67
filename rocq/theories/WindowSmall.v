(** Programs that clone small values only: the windows of the pools stay small. *)
From Coq Require Import List ZArith Arith Bool Lia.
From Verif Require Import Base Tokens JsonSpec EncSpec CursorModel CursorSpec CursorProofs CursorBound IterModel IterSpec IterCore IterThr IterRel IterOps IterOps2 IterOps3 PlainSpec Plain
  WindowPool WindowHeap WindowStore WindowPos WindowWorld WindowActive.

(** ------------------------------------------------------------------ *)
(** Handles keep their values. *)
Lemma vals_refl : forall t, vals t t.
Proof. intros t j hd E. eauto. Qed.
Lemma vals_trans : forall t t1 t2, vals t t1 -> vals t1 t2 -> vals t t2.
Proof. intros t t1 t2 A B j hd E. destruct (A _ _ E) as [h1 [E1 V1]]. destruct (B _ _ E1) as [h2 [E2 V2]]. exists h2. split; congruence. Qed.
Lemma vals_put : forall t c s, vals t (put_state t c s).
Proof.
  intros t c s j hd E. destruct (Nat.eq_dec j c) as [-> |D]; [rewrite (put_at _ _ _ _ E); eexists; split; reflexivity|]. rewrite put_frame by exact D. eauto.
Qed.
Lemma vals_kill : forall lo t o, vals t (kill_opt lo t o).
Proof. intros lo t o. apply weak_vals, kill_opt_weak. Qed.
Lemma vals_alloc : forall t b x t' v, alloc t b x = (t', v) -> vals t t'.
Proof.
  intros t b x t' v E. destruct (alloc_cases _ _ _ _ _ E) as [[-> _]|[-> _]]; [apply vals_refl|]. intros j hd N. exists hd. split; [|reflexivity]. rewrite nth_error_app_l; [exact N|eapply nth_error_lt; exact N].
Qed.
Lemma linked_alloc : forall t b x t' v, alloc t b x = (t', v) -> linked t' v x.
Proof.
  intros t b x t' v E. destruct x as [s|l e|l e]; injection E as <- <-; cbn; [exact I| |]; (eexists; split; [rewrite nth_error_app2 by lia; rewrite Nat.sub_diag; reflexivity|reflexivity]).
Qed.
Lemma vals_move : forall t c l t' b, s_move t c l = (t', b) -> vals t t'.
Proof.
  intros t c [|[k x] rest] t' b E; cbn [s_move] in E; [injection E as <- _; apply vals_put|]. destruct (alloc t false x) as [t2 ch] eqn:AL. injection E as <- _. eapply vals_trans; [eapply vals_alloc; exact AL|apply vals_put].
Qed.
Lemma vals_advance : forall t v t' b, s_advance t v = Some (t', b) -> vals t t'.
Proof.
  intros t v t' b E. unfold s_advance in E. destruct (s_get t v) as [[c hd]|]; [|discriminate]. destruct (s_state hd) as [|k ch rest| |]; try discriminate; injection E as E.
  - eapply vals_move; exact E.
  - eapply vals_trans; [apply (vals_kill (S c) t (Some ch))|eapply vals_move; exact E].
  - subst. apply vals_refl.
Qed.
Lemma vals_clone : forall t v t' w, s_clone t v = Some (t', w) -> vals t t'.
Proof.
  intros t v t' w E. unfold s_clone in E. destruct v as [s|c|c]; [injection E as <- <-; apply vals_refl| |]; (destruct (s_get t _) as [[c' hd]|]; [|discriminate]; destruct (s_state hd); try discriminate; injection E as E; eapply vals_alloc; exact E).
Qed.
Lemma vals_detach : forall t v t', s_detach t v = Some t' -> vals t t'.
Proof.
  intros t v t' E. unfold s_detach in E. destruct v as [s|c|c]; [injection E as <-; apply vals_refl| |]; (destruct (s_get t _) as [[c' hd]|]; [|discriminate]; destruct (s_root hd); [|discriminate]; destruct (s_state hd); try discriminate; injection E as <-; (eapply vals_trans; [|apply vals_put]; first [apply vals_refl|apply weak_vals, kill_weak])).
Qed.
Lemma vals_copy : forall t v t' ts, s_copy t v = Some (t', ts) -> vals t t'.
Proof.
  intros t v t' ts E. unfold s_copy in E. destruct v as [s|c|c]; [injection E as <- <-; apply vals_refl| |]; (destruct (s_get t _) as [[c' hd]|]; [|discriminate]; destruct (s_state hd); try discriminate; injection E as <- <-; apply vals_put).
Qed.
Lemma vals_discard : forall t v t', s_discard t v = Some t' -> vals t t'.
Proof.
  intros t v t' E. unfold s_discard in E. destruct v as [s|c|c]; [injection E as <-; apply vals_refl| |]; (destruct (s_get t _) as [[c' hd]|]; [|discriminate]; destruct (s_state hd); try discriminate; injection E as <-; first [apply vals_refl|eapply vals_trans; [|apply vals_put]; first [apply vals_refl|apply weak_vals, kill_weak]]).
Qed.
Lemma vals_iter_advance : forall st i st' b, si_advance st i = Some (st', b) -> vals (st_coll st) (st_coll st').
Proof.
  intros st i st' b E. unfold si_advance in E. destruct (nth_error (st_iter st) i) as [x|]; [|discriminate]. destruct (si_state x) as [[|v rest] cur| |]; try discriminate.
  - injection E as <- <-. apply vals_kill.
  - destruct (alloc _ false v) as [t' ch] eqn:AL. injection E as <- <-. eapply vals_trans; [apply vals_kill|eapply vals_alloc; exact AL].
  - injection E as <- <-. apply vals_refl.
Qed.

(** ------------------------------------------------------------------ *)
(** Everything [n] levels below a value has at most [B] tokens. *)
Section Deep.
Variable B : nat.
Fixpoint deep (n : nat) (x : jval) : Prop :=
  match n with O => length (toks x) <= B | S m => forall k y, In (k, y) (items x) -> deep m y end.
Lemma item_small : forall x k y, In (k, y) (items x) -> length (toks y) <= length (toks x).
Proof.
  intros x k y I0. destruct (is_coll x) eqn:C.
  - pose proof (toks_left x C) as L. apply in_split in I0 as [l1 [l2 E]]. rewrite E, left_app in L. change ((k, y) :: l2) with ([(k, y)] ++ l2) in L. rewrite left_app, left_one in L. pose proof (item_length k y). lia.
  - destruct x; try discriminate. destruct I0.
Qed.
Lemma deep_item : forall x k y, In (k, y) (items x) -> deep 0 x -> deep 0 y.
Proof. intros x k y I0 D. cbn in *. pose proof (item_small _ _ _ I0). lia. Qed.
Definition small (t : list shandle) (n : nat) (v : value) : Prop :=
  match v with VScalar _ => True | VArr c | VObj c => exists hd, nth_error t c = Some hd /\ deep n (s_val hd) end.
Lemma small_linked : forall t n v x, linked t v x -> deep n x -> small t n v.
Proof. intros t n [s|c|c] x L D; cbn in *; auto; destruct L as [hd [E <-]]; eauto. Qed.
End Deep.

Section Sparing.
(** [S n v]: everything [n] levels below [v] is small. *)
Variable S : nat -> value -> Prop.
Variable top : nat.
Definition item_of (v x : value) : Prop := (forall n, S (Datatypes.S n) v -> S n x) /\ (S 0 v -> S 0 x).
(** The program clones small values only. *)
Fixpoint sparing {A} (p : iprog A) (Q : A -> Prop) : Prop :=
  match p with
  | IRet a => Q a
  | IPanic | IFuel => True
  | IAdvance v k => forall b, sparing (k b) Q
  | ICurrent v k => forall o, (forall x, o = Some x -> item_of v x) -> sparing (k o) Q
  | IKeyVal v k => forall kv, (forall x, snd kv = Some x -> item_of v x) -> sparing (k kv) Q
  | IClone v k => S 0 v /\ forall x, S 0 x -> sparing (k x) Q
  | IDetach v k => sparing k Q
  | ICopy v k => forall ts, sparing (k ts) Q
  | IDiscard v k => sparing k Q
  | IIterAdvance i k => forall b, sparing (k b) Q
  | IIterCurrent i k => forall o, (forall x, o = Some x -> S top x) -> sparing (k o) Q
  | IIterNew _ _ | IIterClone _ _ | IIterDetach _ _ => False
  end.
Lemma sparing_bind : forall A C (p : iprog A) (k : A -> iprog C) P Q, sparing p P -> (forall a, P a -> sparing (k a) Q) -> sparing (ibind p k) Q.
Proof.
  induction p as [a| | |v j IH|v j IH|v j IH|v j IH|v j IH|v j IH|v j IH|d j IH|i j IH|i j IH|i j IH|i j IH]; intros k P Q H K; cbn [ibind sparing] in *; eauto.
  destruct H as [H1 H2]. split; [exact H1|]. eauto.
Qed.
Lemma sparing_weaken : forall A (p : iprog A) (P Q : A -> Prop), sparing p P -> (forall a, P a -> Q a) -> sparing p Q.
Proof.
  induction p as [a| | |v j IH|v j IH|v j IH|v j IH|v j IH|v j IH|v j IH|d j IH|i j IH|i j IH|i j IH|i j IH]; intros P Q H K; cbn [sparing] in *; eauto.
  destruct H as [H1 H2]. split; [exact H1|]. eauto.
Qed.
End Sparing.

(** ------------------------------------------------------------------ *)
(** The clone of a small value starts a small pool. *)
Definition at_coll (c : nat) (v : value) : Prop := v = VArr c \/ v = VObj c.
Lemma clone_source_any : forall grow c v h x s l h' v', at_coll c v -> nth_error (h_coll h) c = Some x -> c_stream x = RSrc s -> nth_error (h_src h) s = Some l ->
  clone grow v h = Ok (h', v') ->
  h_pool h' = h_pool h ++ [(s, mkPool l [] 0 0 0 [0; 1] [mkCursor true 0; mkCursor true 0])] /\
  streams h' c (RCur (length (h_pool h)) 0) /\
  (forall j, j < length (h_coll h) -> j <> c -> nth_error (h_coll h') j = nth_error (h_coll h) j) /\ h_iter h' = h_iter h.
Proof.
  intros grow c v h x s l h' v' AC X ST SR E0. assert (E : clone grow (VArr c) h = Ok (h', v')) by (destruct AC as [-> | ->]; exact E0). clear E0.
  cbn [clone] in E. unfold hbind, get_coll in E. rewrite X in E. destruct (c_started x); [discriminate|]. rewrite ST in E. cbn [clone_stream] in E. unfold hbind in E.
  assert (LS := nth_error_lt _ _ _ _ SR). assert (LC := nth_error_lt _ _ _ _ X).
  unfold pool_op in E at 1. cbn [h_pool h_src] in E. rewrite nth_error_app_last, SR in E. cbn [step new_cursor new_pool with_src p_tab p_curs p_wpos p_win length app set_tab set_curs] in E.
  unfold pool_op in E at 1. cbn [h_pool h_src set_pool set_src h_coll h_iter p_src] in E. rewrite nth_error_upd_same in E by (rewrite app_length; cbn; lia). rewrite nth_error_upd_same in E by exact LS.
  cbn in E. injection E as <- _. cbn. split.
  - assert (U : forall (l0 : list (nat * pool)) a b c0, upd (upd (l0 ++ [a]) (length l0) b) (length l0) c0 = l0 ++ [c0]) by (intros l0 a b c0; induction l0 as [|y l0 IH]; cbn; [reflexivity|now rewrite IH]).
    rewrite U. reflexivity.
  - split; [|split; [|reflexivity]].
    + eexists. cbn [h_coll]. rewrite nth_error_app_l by (rewrite upd_length; exact LC). rewrite nth_error_upd_same by exact LC. split; reflexivity.
    + intros j Lj N. rewrite nth_error_app_l by (rewrite upd_length; exact Lj). now rewrite nth_error_upd_other by congruence.
Qed.
Lemma clone_cursor_any : forall grow c v h x p k h' v', at_coll c v -> nth_error (h_coll h) c = Some x -> c_stream x = RCur p k -> clone grow v h = Ok (h', v') -> length (h_pool h') = length (h_pool h).
Proof. intros grow c v h x p k h' v' AC X ST E. eapply (clone_cursor_pools grow c); eauto. destruct AC as [-> | ->]; exact E. Qed.

Section Bound.
Variable grow : Z -> Z -> Z.
Notation Good := (fun _ : jval => True).
Variable B : nat.
Notation ok := (ok Good).
Notation idle := (idle B).
Notation idle_at := (idle_at B).

Lemma idle_clone : forall w v t' v', ok w -> idle w -> s_clone (st_coll (w_st w)) v = Some (t', v') -> small B (st_coll (w_st w)) 0 v ->
  exists w1, clone grow v (w_h w) = Ok (w_h w1, v') /\ ok w1 /\ w_st w1 = mkSt t' (st_iter (w_st w)) /\ idle w1.
Proof.
  intros w v t' v' [RE [WT WI]] ID SC SM. pose proof SC as SC0.
  destruct (op_clone_x grow _ _ _ _ _ _ _ RE SC) as [h1 [g1 [r1 [RU [[RE1 GL] KE]]]]].
  set (w1 := mkW g1 h1 (mkSt t' (st_iter (w_st w))) r1). assert (OK : ok w) by (split; [exact RE|split; assumption]). assert (OK1 : ok w1) by (split; [exact RE1|split; [eapply clone_store; eauto|assumption]]).
  exists w1. split; [exact RU|]. split; [exact OK1|]. split; [reflexivity|].
  pose proof (clone_forward grow _ _ _ _ RU) as FW.
  assert (OLD : forall q, q < length (h_pool (w_h w)) -> idle_at q w1) by (intros q L; exact (idle_forward Good B q w w1 OK OK1 FW GL L (ID q))).
  assert (CASE : (exists sc, v = VScalar sc) \/ exists c hd, s_get (st_coll (w_st w)) v = Some (c, hd) /\ s_state hd = SFresh /\ alloc (st_coll (w_st w)) true (s_val hd) = (t', v')).
  { unfold s_clone in SC. destruct v as [s|c|c]; [left; eauto| |]; right; destruct (s_get _ _) as [[c' hd]|] eqn:SG; try discriminate; exists c', hd; (destruct (s_state hd) eqn:SS; try discriminate); injection SC as SC; auto. }
  destruct CASE as [[sc ->]|[c [hd [SG [FRE AL]]]]].
  { cbn in RU. injection RU as <- _. intros q x i E P. apply (OLD q); [|exact E|exact P]. eapply nth_error_lt; exact E. }
  destruct (get_id _ _ _ _ SG) as [HC HV]. assert (AC : at_coll c v) by exact HV.
  assert (SZ : length (toks (s_val hd)) <= B) by (destruct AC as [-> | ->]; destruct SM as [hd' [E1 D1]]; rewrite HC in E1; injection E1 as <-; exact D1).
  destruct (place_ok _ _ _ _ _ _ _ RE SG) as [R1 [ro [R2 [V [rr [e [ids1 [ids2 PL]]]]]]]]; [congruence|].
  destruct (place_hd _ _ _ _ _ _ _ _ _ _ _ _ _ _ _ PL HC) as [x [rc [N _]]].
  assert (X := n_x _ _ _ _ _ _ _ _ _ _ _ N). assert (RC := n_rc _ _ _ _ _ _ _ _ _ _ _ N).
  destruct (c_stream x) as [s|p0 k0] eqn:ST.
  2: { intros q y i Y P. apply (OLD q); [|exact Y|exact P]. rewrite <- (clone_cursor_any _ _ _ _ _ _ _ _ _ AC X ST RU). eapply nth_error_lt; exact Y. }
  set (p := length (h_pool (w_h w))). subst rc.
  assert (SR : exists l, nth_error (h_src (w_h w)) s = Some l).
  { destruct (n_src _ _ _ _ _ _ _ _ _ _ _ N) as [Ls Q0]. rewrite <- (co_lenF _ _ (re_core _ _ _ _ RE)) in Ls. cbn in Q0. subst s. destruct (nth_error (h_src (w_h w)) (ro_src ro)) eqn:Q1; [eauto|apply nth_error_ge in Q1; lia]. }
  destruct SR as [l SR].
  destruct (clone_source_any grow c v (w_h w) x s l h1 v' AC X ST SR RU) as [EP [STC [FR FI]]]. fold p in EP, STC.
  assert (ROOT : s_root hd = false).
  { destruct (ro_it ro) as [it|] eqn:RIT; [destruct (pl_nri _ _ _ _ _ _ _ _ _ _ _ _ _ _ PL) as [hd' [Q1 Q2]]; [left; congruence|congruence]|].
    destruct ids1 as [|z ids1]; [|destruct (pl_nri _ _ _ _ _ _ _ _ _ _ _ _ _ _ PL) as [hd' [Q1 Q2]]; [right; discriminate|congruence]]. exfalso.
    assert (IN : In ro (w_roots w)) by (rewrite (pl_roots _ _ _ _ _ _ _ _ _ _ _ _ _ _ PL); apply in_or_app; right; left; reflexivity). pose proof (re_ok _ _ _ _ RE ro IN) as RO. unfold root_ok in RO. rewrite RIT in RO.
    destruct (cl_cur _ _ _ _ RO) as [p' [c' Q']]. destruct (pl_head _ _ _ _ _ _ _ _ _ _ _ _ _ _ PL eq_refl) as [_ [Q0 _]]. destruct (n_sw _ _ _ _ _ _ _ _ _ _ _ N) as [Q2|[Q2 _]]; congruence. }
  pose proof (re_lenc _ _ _ _ RE) as La.
  assert (TT : t' = st_coll (w_st w) ++ [mkSh (s_val hd) true SFresh]).
  { pose proof (n_coll _ _ _ _ _ _ _ _ _ _ _ N) as CL. destruct (s_val hd); [discriminate| |]; injection AL as <- _; reflexivity. }
  assert (Lc : c < length (h_coll (w_h w))) by (rewrite <- La; eapply nth_error_lt; exact HC).
  assert (HC1 : nth_error (st_coll (w_st w1)) c = Some (mkSh (s_val hd) false SFresh)) by (cbn; rewrite TT, nth_error_app_l by lia; rewrite HC; destruct hd as [hv hr hs]; cbn in *; congruence).
  assert (NOP : forall r0 s0 k0, on_src (w_g w) r0 s0 -> r0 <> RCur p k0).
  { intros r0 s0 k0 [_ ON] ->. destruct ON as [i [Q1 _]]. apply nth_error_lt in Q1. rewrite <- (co_lenP _ _ (re_core _ _ _ _ RE)) in Q1. unfold p in Q1. lia. }
  assert (UP : forall j k, j < c -> live (w_st w1) j -> ~ streams (w_h w1) j (RCur p k)).
  { intros j k0 Lj [hj [H1 H2]] [xj [X1 X2]]. cbn in H1, X1. rewrite FR in X1 by lia. rewrite TT, nth_error_app_l in H1 by lia.
    destruct (re_cov _ _ _ _ RE j _ H1 H2) as [ro' [IN IC]]. pose proof (re_ok _ _ _ _ RE ro' IN) as RO.
    assert (T : exists V, thr (w_g w) (w_h w) (st_coll (w_st w)) V (ro_base ro') (ro_src ro') (ro_end ro') (ro_ids ro') (ro_leaf ro')).
    { unfold root_ok in RO. destruct (ro_it ro') as [it|].
      - pose proof (io_thr _ _ _ _ _ RO) as T. destruct (ro_v ro') as [v0|]; [eauto|]. destruct T as [_ [NI _]]. rewrite NI in IC. destruct IC.
      - destruct (cl_ex _ _ _ _ RO) as [v0 [id [tl [hd0 [_ [_ [_ [_ [_ T]]]]]]]]]. eauto. }
    destruct T as [V' T]. destruct (in_split _ _ IC) as [i1 [i2 EI]]. destruct (thr_sub _ _ _ _ _ _ _ _ _ T _ _ _ EI) as [v0 [r' [e' [T' _]]]].
    destruct (thr_node _ _ _ _ _ _ _ _ _ _ T') as [x' [hd' [rc' N']]]. pose proof (n_x _ _ _ _ _ _ _ _ _ _ _ N') as NX. rewrite X1 in NX. injection NX as <-.
    refine (NOP _ _ k0 (n_src _ _ _ _ _ _ _ _ _ _ _ N') _). rewrite <- (n_rc _ _ _ _ _ _ _ _ _ _ _ N'). exact X2. }
  assert (IT : forall i x y rest cur k, nth_error (st_iter (w_st w1)) i = Some x -> si_state x = SIAt rest cur -> nth_error (h_iter (w_h w1)) i = Some y -> i_stream y <> RCur p k).
  { intros i0 x0 y rest cur k0 H1 H2 H3. cbn in H1, H3. rewrite FI in H3. pose proof (re_icov _ _ _ _ RE _ _ H1) as IC. unfold iter_cov in IC. rewrite H2 in IC. destruct IC as [ro' [IN IT0]].
    pose proof (re_ok _ _ _ _ RE ro' IN) as RO. unfold root_ok in RO. rewrite IT0 in RO. pose proof (io_h _ _ _ _ _ RO) as H4. rewrite H3 in H4. injection H4 as ->. cbn. exact (NOP _ _ k0 (io_on _ _ _ _ _ RO)). }
  assert (PP : nth_error (h_pool (w_h w1)) p = Some (s, mkPool l [] 0 0 0 [0; 1] [mkCursor true 0; mkCursor true 0])) by (cbn; rewrite EP; apply nth_error_app_last).
  assert (NEW : idle_at p w1).
  { intros y i Y PI. rewrite PP in Y. injection Y as <-. cbn [snd p_wpos].
    pose proof (co_pool _ _ (re_core _ _ _ _ RE1) _ _ _ PP PI) as PO.
    destruct (main_end Good w1 p c (s_val hd) SFresh i OK1 STC PI UP IT HC1 ltac:(discriminate)) as [v1 [rm [sm [idm TM]]]].
    destruct (thr_le _ _ _ _ _ _ _ _ _ TM) as [k0 [G0 _]].
    assert (LK : linked (st_coll (w_st w1)) v1 (s_val hd)).
    { destruct (thr_node _ _ _ _ _ _ _ _ _ _ TM) as [xm [hm [rcm NM]]]. pose proof (n_hd _ _ _ _ _ _ _ _ _ _ _ NM) as Q1. rewrite HC1 in Q1. injection Q1 as <-.
      rewrite (n_v _ _ _ _ _ _ _ _ _ _ _ NM). destruct (c_obj xm); cbn; eauto. }
    pose proof (thr_within Good _ _ _ (proj1 (proj2 OK1)) _ _ _ _ _ _ TM _ _ LK G0) as WI1.
    cbn [gpos] in G0. cbn [w_g] in PI. cbn [w_g] in G0. rewrite PI in G0. destruct (nth_error (sp_cur (pi_rd i)) 0) as [[n1|]|] eqn:C1; try discriminate. injection G0 as _ <-.
    destruct (po_inv _ _ _ _ PO) as [w0 IV]. pose proof (i_cur _ _ _ _ IV 0 _ _ eq_refl C1) as CO. cbn in CO. lia. }
  intros q y i Y P. destruct (Nat.eq_dec q p) as [-> |D]; [exact (NEW y i Y P)|]. apply (OLD q); [|exact Y|exact P]. apply nth_error_lt in Y. cbn in Y. rewrite EP, app_length in Y. cbn in Y. fold p in Y. fold p. lia.
Qed.

Lemma runs_bind : forall A C (p : iprog A) (k : A -> iprog C) w w1 w2 a b, runs grow Good B p w w1 a -> runs grow Good B (k a) w1 w2 b -> runs grow Good B (ibind p k) w w2 b.
Proof.
  intros A C p k w w1 w2 a b [OK1 [n1 R1]] [OK2 [n2 R2]]. split; [exact OK2|]. exists (Nat.max n1 n2). intros n L. destruct (R1 n ltac:(lia)) as [A1 B1]. destruct (R2 n ltac:(lia)) as [A2 B2].
  destruct (heaps_bind grow _ _ p k n _ _ _ A1) as [H1 H2]. rewrite H1, H2. split; [exact A2|]. apply Forall_app. auto.
Qed.

(** Handles keep their values through a program. *)
Lemma spec_vals : forall A (p : iprog A) st st' a, spec_run p st = Some (st', a) -> vals (st_coll st) (st_coll st').
Proof.
  induction p as [a0| | |v j IH|v j IH|v j IH|v j IH|v j IH|v j IH|v j IH|d j IH|i j IH|i j IH|i j IH|i j IH]; intros st st' a E; cbn [spec_run] in E; try discriminate.
  1: injection E as <- <-; apply vals_refl.
  - destruct (s_advance _ v) as [[t b]|] eqn:X; [|discriminate]. eapply vals_trans; [eapply vals_advance; exact X|exact (IH _ _ _ _ E)].
  - destruct (s_current _ v) as [[t b]|] eqn:X; [|discriminate]. exact (IH _ _ _ _ E).
  - destruct (s_current _ v) as [x|] eqn:X; [|discriminate]. exact (IH _ _ _ _ E).
  - destruct (s_clone _ v) as [[t b]|] eqn:X; [|discriminate]. eapply vals_trans; [eapply vals_clone; exact X|exact (IH _ _ _ _ E)].
  - destruct (s_detach _ v) as [t|] eqn:X; [|discriminate]. eapply vals_trans; [eapply vals_detach; exact X|exact (IH _ _ _ E)].
  - destruct (s_copy _ v) as [[t b]|] eqn:X; [|discriminate]. eapply vals_trans; [eapply vals_copy; exact X|exact (IH _ _ _ _ E)].
  - destruct (s_discard _ v) as [t|] eqn:X; [|discriminate]. eapply vals_trans; [eapply vals_discard; exact X|exact (IH _ _ _ E)].
  - unfold si_new in E. destruct (parse_stream _ d); [|discriminate]. destruct (_ <? _)%Z; [|discriminate]. exact (IH _ _ _ _ E).
  - destruct (si_advance st i) as [[st1 b]|] eqn:X; [|discriminate]. eapply vals_trans; [eapply vals_iter_advance; exact X|exact (IH _ _ _ _ E)].
  - destruct (si_current st i) as [x|] eqn:X; [|discriminate]. exact (IH _ _ _ _ E).
  - unfold si_clone in E. destruct (nth_error (st_iter st) i) as [x|]; [|discriminate]. destruct (si_state x) as [rest [c|]| |]; try discriminate. exact (IH _ _ _ _ E).
  - unfold si_detach in E. destruct (nth_error (st_iter st) i) as [x|]; [|discriminate]. destruct (si_root x); [|discriminate]. destruct (si_state x) as [rest cur| |]; try discriminate.
    + eapply vals_trans; [apply (vals_kill 0 _ cur)|exact (IH _ _ _ E)].
    + exact (IH _ _ _ E).
Qed.

Variable top : nat.
(** The iterators give small values. *)
Definition feeds (st : sstore) : Prop := forall i x rest cur, nth_error (st_iter st) i = Some x -> si_state x = SIAt rest cur ->
  Forall (deep B top) rest /\ forall c, cur = Some c -> exists y, linked (st_coll st) c y /\ deep B top y.
Lemma feeds_vals : forall st t, vals (st_coll st) t -> feeds st -> feeds (mkSt t (st_iter st)).
Proof.
  intros st t V F i x rest cur E S0. destruct (F i x rest cur E S0) as [F1 F2]. split; [exact F1|]. intros c C. destruct (F2 c C) as [y [L D]]. exists y. split; [|exact D]. cbn [st_coll]. eapply linked_vals; eauto.
Qed.
Lemma feeds_advance : forall st i st' b, si_advance st i = Some (st', b) -> feeds st -> feeds st'.
Proof.
  intros st i st' b E F. unfold si_advance in E. destruct (nth_error (st_iter st) i) as [x|] eqn:X; [|discriminate]. destruct (si_state x) as [[|v rest] cur| |] eqn:SX; try discriminate.
  - injection E as <- <-. intros j y rest0 cur0 Y SY. cbn [st_iter st_coll] in *. destruct (Nat.eq_dec j i) as [-> |D].
    + rewrite nth_error_upd_same in Y by (eapply nth_error_lt; exact X). injection Y as <-. discriminate.
    + rewrite nth_error_upd_other in Y by congruence. destruct (F j y _ _ Y SY) as [F1 F2]. split; [exact F1|]. intros c C. destruct (F2 c C) as [z [L Dz]]. exists z. split; [|exact Dz]. eapply linked_vals; [apply vals_kill|exact L].
  - destruct (F i x _ _ X SX) as [FR _]. inversion FR as [|v' r' DV FR']; subst. destruct (alloc _ false v) as [t' ch] eqn:AL. injection E as <- <-. intros j y rest0 cur0 Y SY. cbn [st_iter st_coll] in *. destruct (Nat.eq_dec j i) as [-> |D].
    + rewrite nth_error_upd_same in Y by (eapply nth_error_lt; exact X). injection Y as <-. injection SY as <- <-. split; [exact FR'|]. intros c C. injection C as <-. exists v. split; [eapply linked_alloc; exact AL|exact DV].
    + rewrite nth_error_upd_other in Y by congruence. destruct (F j y _ _ Y SY) as [F1 F2]. split; [exact F1|]. intros c C. destruct (F2 c C) as [z [L Dz]]. exists z. split; [|exact Dz]. eapply linked_vals; [eapply vals_trans; [apply (vals_kill 0 _ cur)|eapply vals_alloc; exact AL]|exact L].
  - injection E as <- <-. exact F.
Qed.
Lemma small_vals : forall t t' n v, vals t t' -> small B t' n v -> small B t n v \/ exists c, at_coll c v /\ length t <= c.
Proof.
  intros t t' n [s|c|c] V Sm; [left; exact I| |]; (destruct (nth_error t c) as [hd|] eqn:E; [left|right; exists c; split; [unfold at_coll; auto|now apply nth_error_ge]]);
    destruct Sm as [hd' [E' D]]; destruct (V _ _ E) as [h2 [E2 V2]]; rewrite E' in E2; injection E2 as <-; exists hd; split; auto; rewrite <- V2; exact D.
Qed.
(** The value an item handle stands for is an item of the collection. *)
Lemma current_item : forall t tf v k o x, wft Good t -> s_current t v = Some (k, o) -> o = Some x -> vals t tf -> item_of (small B tf) v x.
Proof.
  intros t tf v k o x W E -> V. unfold s_current in E. destruct (s_get t v) as [[c hd]|] eqn:G; [|discriminate]. destruct (get_id _ _ _ _ G) as [N HV]. pose proof (wt_at _ _ W _ _ N) as WH. unfold wfh in WH.
  destruct (s_state hd) as [|k' ch rest| |]; try discriminate. injection E as _ <-. destruct WH as [_ [pre [y [IT LK]]]].
  destruct (V _ _ N) as [hf [NF VF]]. assert (IN : In (k', y) (items (s_val hd))) by (rewrite IT; apply in_or_app; right; left; reflexivity).
  pose proof (linked_vals _ _ _ _ V LK) as LF.
  assert (SV : forall n, small B tf n v -> deep B n (s_val hd)) by (intros n Sm; destruct HV as [-> | ->]; destruct Sm as [h3 [N3 D3]]; rewrite NF in N3; injection N3 as <-; rewrite <- VF; exact D3).
  split.
  - intros n Sm. eapply small_linked; [exact LF|]. exact (SV _ Sm k' y IN).
  - intros Sm. eapply small_linked; [exact LF|]. eapply deep_item; [exact IN|exact (SV _ Sm)].
Qed.

Definition good_true : forall (v : jval) (k : option scalar) (x : jval), Good v -> In (k, x) (items v) -> Good x := fun _ _ _ _ _ => I.
Lemma sparing_runs : forall A (p : iprog A) w stf a Q, ok w -> idle w -> feeds (w_st w) -> spec_run p (w_st w) = Some (stf, a) -> sparing (small B (st_coll stf)) top p Q ->
  exists w', w_st w' = stf /\ runs grow Good B p w w' a /\ idle w' /\ Q a.
Proof.
  assert (ST := idle_steady Good B).
  induction p as [a0| | |v j IH|v j IH|v j IH|v j IH|v j IH|v j IH|v j IH|d j IH|i j IH|i j IH|i j IH|i j IH]; intros w stf a Q OK ID FE E SP; cbn [spec_run sparing] in *; try discriminate; try (exfalso; exact SP).
  - injection E as <- <-. exists w. split; [reflexivity|]. split; [|auto]. split; [exact OK|]. exists 0. intros n _. split; [reflexivity|constructor].
  - destruct (s_advance _ v) as [[t b]|] eqn:X; [|discriminate]. cbn [on_coll obind] in E.
    destruct (tri_advance grow Good good_true B 0 idle ST _ v (fun b => IRet b) (fun w _ => idle w)) with (w := w) (st := mkSt t (st_iter (w_st w))) (a := b) as [w1 [S1 [R1 I1]]]; [destruct v; cbn; auto; lia|intro; apply tri_ret; auto|exact OK|exact ID|cbn [spec_run]; rewrite X; reflexivity|].
    destruct (IH b w1 stf a Q (proj1 R1) I1) as [w2 [S2 [R2 I2]]]; [rewrite S1; apply feeds_vals; [eapply vals_advance; exact X|exact FE]|rewrite S1; exact E|apply SP|].
    exists w2. split; [exact S2|]. split; [|exact I2]. exact (runs_bind _ _ (IAdvance v (fun b => IRet b)) j w w1 w2 b a R1 R2).
  - destruct (s_current _ v) as [[t b]|] eqn:X; [|discriminate].
    destruct (IH b w stf a Q OK ID FE E) as [w2 [S2 [R2 I2]]]; [apply SP; intros x Hx; eapply current_item; [apply (proj2 OK)|exact X|exact Hx|eapply spec_vals; exact E]|].
    exists w2. split; [exact S2|]. split; [|exact I2].
    eapply runs_step with (m := fun n => current_value v) (n0 := 0); [reflexivity|reflexivity|intros; exact (op_current _ _ _ _ _ _ (proj1 OK) X)|apply (sd_fits _ _ _ _ ST); assumption|exact R2].
  - destruct (s_current _ v) as [[t b]|] eqn:X; [|discriminate].
    destruct (IH (t, b) w stf a Q OK ID FE E) as [w2 [S2 [R2 I2]]]; [apply SP; intros x Hx; eapply current_item; [apply (proj2 OK)|exact X|exact Hx|eapply spec_vals; exact E]|].
    exists w2. split; [exact S2|]. split; [|exact I2].
    eapply runs_step with (m := fun n => current_key_val v) (n0 := 0); [reflexivity|reflexivity|intros; exact (op_keyval _ _ _ _ _ _ (proj1 OK) X)|apply (sd_fits _ _ _ _ ST); assumption|exact R2].
  - destruct (s_clone _ v) as [[t b]|] eqn:X; [|discriminate]. cbn [on_coll obind] in E. destruct SP as [SV SK]. pose proof (spec_vals _ _ _ _ _ E) as VF. cbn [st_coll] in VF.
    assert (SB : small B (st_coll (w_st w)) 0 v /\ small B (st_coll stf) 0 b).
    { assert (V0 : vals (st_coll (w_st w)) (st_coll stf)) by (eapply vals_trans; [eapply vals_clone; exact X|exact VF]).
      unfold s_clone in X. destruct v as [s|c|c]; [injection X as <- <-; cbn; auto| |].
      all: destruct (s_get _ _) as [[c' hd]|] eqn:G; [|discriminate]; destruct (get_id _ _ _ _ G) as [N HV]; assert (c' = c) by (destruct HV as [HV|HV]; congruence); subst c'.
      all: destruct (s_state hd); try discriminate; injection X as AL; destruct (V0 _ _ N) as [hf [NF VV]]; destruct SV as [h3 [N3 D3]]; rewrite NF in N3; injection N3 as <-; rewrite VV in D3.
      all: split; [exists hd; auto|]; eapply small_linked; [eapply linked_vals; [exact VF|eapply linked_alloc; exact AL]|exact D3]. }
    destruct SB as [SB1 SB2]. destruct (idle_clone w v t b OK ID X SB1) as [w1 [R1 [OK1 [S1 I1]]]].
    destruct (IH b w1 stf a Q OK1 I1) as [w2 [S2 [R2 I2]]]; [rewrite S1; apply feeds_vals; [eapply vals_clone; exact X|exact FE]|rewrite S1; exact E|apply SK; exact SB2|].
    exists w2. split; [exact S2|]. split; [|exact I2].
    eapply runs_step with (m := fun n => clone grow v) (n0 := 0) (w1 := w1); [reflexivity|reflexivity|intros; exact R1|apply (sd_fits _ _ _ _ ST); assumption|exact R2].
  - destruct (s_detach _ v) as [t|] eqn:X; [|discriminate]. cbn [on_coll_ obind] in E.
    destruct (tri_idle_detach grow Good B _ v (IRet tt) (fun w _ => idle w)) with (w := w) (st := mkSt t (st_iter (w_st w))) (a := tt) as [w1 [S1 [R1 I1]]]; [apply tri_ret; auto|exact OK|exact ID|cbn [spec_run]; rewrite X; reflexivity|].
    destruct (IH w1 stf a Q (proj1 R1) I1) as [w2 [S2 [R2 I2]]]; [rewrite S1; apply feeds_vals; [eapply vals_detach; exact X|exact FE]|rewrite S1; exact E|apply SP|].
    exists w2. split; [exact S2|]. split; [|exact I2]. exact (runs_bind _ _ (IDetach v (IRet tt)) (fun _ => j) w w1 w2 tt a R1 R2).
  - destruct (s_copy _ v) as [[t b]|] eqn:X; [|discriminate]. cbn [on_coll obind] in E.
    destruct (tri_copy grow Good B 0 idle ST _ v (fun b => IRet b) (fun w _ => idle w)) with (w := w) (st := mkSt t (st_iter (w_st w))) (a := b) as [w1 [S1 [R1 I1]]]; [destruct v; cbn; auto; lia|intro; apply tri_ret; auto|exact OK|exact ID|cbn [spec_run]; rewrite X; reflexivity|].
    destruct (IH b w1 stf a Q (proj1 R1) I1) as [w2 [S2 [R2 I2]]]; [rewrite S1; apply feeds_vals; [eapply vals_copy; exact X|exact FE]|rewrite S1; exact E|apply SP|].
    exists w2. split; [exact S2|]. split; [|exact I2]. exact (runs_bind _ _ (ICopy v (fun b => IRet b)) j w w1 w2 b a R1 R2).
  - destruct (s_discard _ v) as [t|] eqn:X; [|discriminate]. cbn [on_coll_ obind] in E.
    destruct (tri_discard grow Good B 0 idle ST _ v (IRet tt) (fun w _ => idle w)) with (w := w) (st := mkSt t (st_iter (w_st w))) (a := tt) as [w1 [S1 [R1 I1]]]; [destruct v; cbn; auto; lia|apply tri_ret; auto|exact OK|exact ID|cbn [spec_run]; rewrite X; reflexivity|].
    destruct (IH w1 stf a Q (proj1 R1) I1) as [w2 [S2 [R2 I2]]]; [rewrite S1; apply feeds_vals; [eapply vals_discard; exact X|exact FE]|rewrite S1; exact E|apply SP|].
    exists w2. split; [exact S2|]. split; [|exact I2]. exact (runs_bind _ _ (IDiscard v (IRet tt)) (fun _ => j) w w1 w2 tt a R1 R2).
  - destruct (si_advance _ i) as [[st1 b]|] eqn:X; [|discriminate]. cbn [obind] in E.
    destruct (tri_idle_iter_advance grow Good B _ i (fun b => IRet b) (fun w _ => idle w)) with (w := w) (st := st1) (a := b) as [w1 [S1 [R1 I1]]]; [intro; apply tri_ret; auto|exact OK|exact ID|cbn [spec_run]; rewrite X; reflexivity|].
    destruct (IH b w1 stf a Q (proj1 R1) I1) as [w2 [S2 [R2 I2]]]; [rewrite S1; eapply feeds_advance; [exact X|exact FE]|rewrite S1; exact E|apply SP|].
    exists w2. split; [exact S2|]. split; [|exact I2]. exact (runs_bind _ _ (IIterAdvance i (fun b => IRet b)) j w w1 w2 b a R1 R2).
  - destruct (si_current _ i) as [x|] eqn:X; [|discriminate]. pose proof (spec_vals _ _ _ _ _ E) as VF.
    destruct (IH x w stf a Q OK ID FE E) as [w2 [S2 [R2 I2]]].
    { apply SP. intros y ->. unfold si_current in X. destruct (nth_error (st_iter (w_st w)) i) as [z|] eqn:Z; [|discriminate]. destruct (si_state z) as [rest cur| |] eqn:SZ; try discriminate. injection X as ->.
      destruct (FE i z rest _ Z SZ) as [_ F2]. destruct (F2 y eq_refl) as [u [LU DU]]. eapply small_linked; [eapply linked_vals; [exact VF|exact LU]|exact DU]. }
    exists w2. split; [exact S2|]. split; [|exact I2].
    eapply runs_step with (m := fun n => iter_current i) (n0 := 0); [reflexivity|reflexivity|intros; exact (op_iter_current _ _ _ _ _ _ (proj1 OK) X)|apply (sd_fits _ _ _ _ ST); assumption|exact R2].
Qed.
End Bound.

(** A collection being read, its current child, the current child of that, and
    so on: the thread of a stream.  Reading, discarding and moving on. *)
From Coq Require Import List ZArith Arith Bool Lia.
From Verif Require Import Base Tokens JsonSpec EncSpec CursorModel CursorSpec CursorProofs IterModel IterSpec IterCore.

(* ------------------------------------------------------------------ *)
(** Tokens. *)
Definition span (F : list token) (k : nat) (T : list token) (e : nat) : Prop :=
  e = k + length T /\ exists tl, skipn k F = T ++ tl.

Lemma span_cons : forall F k t T e, span F k (t :: T) e -> nth_error F k = Some t /\ span F (S k) T e.
Proof.
  intros F k t T e [-> [tl E]]. split.
  - rewrite <- (Nat.add_0_r k), <- nth_error_skipn, E. reflexivity.
  - split; [simpl; lia|]. exists tl.
    replace (S k) with (k + 1) by lia. rewrite <- skipn_skipn, E. reflexivity.
Qed.

Lemma span_app : forall F k T1 T2 e, span F k (T1 ++ T2) e -> exists m, span F k T1 m /\ span F m T2 e.
Proof.
  intros F k T1 T2 e [-> [tl E]]. exists (k + length T1). split.
  - split; [reflexivity|]. exists (T2 ++ tl). now rewrite app_assoc.
  - split; [rewrite app_length; lia|]. exists tl.
    rewrite <- skipn_skipn, E, <- app_assoc, skipn_app, skipn_all, Nat.sub_diag. reflexivity.
Qed.

Lemma span_le : forall F k T e, span F k T e -> T <> [] -> e <= length F.
Proof.
  intros F k T e [-> [tl E]] N. apply (f_equal (@length token)) in E.
  rewrite skipn_length, app_length in E. destruct T; [congruence|]. simpl in *. lia.
Qed.

Lemma span_nil : forall F k e, span F k [] e -> e = k.
Proof. intros F k e [-> _]. simpl. lia. Qed.

Definition item_toks (i : option scalar * jval) : list token :=
  match fst i with Some k => [TScalar k] | None => [] end ++ toks (snd i).
Definition end_tok (v : jval) : token := match v with JObj _ _ => TEndObj | _ => TEndArr end.
Definition start_tok (v : jval) : token := match v with JObj _ _ => TStartObj | _ => TStartArr end.
Definition elided (v : jval) : bool := match v with JArr _ e => e | JObj _ e => e | JScalar _ => false end.
Definition is_coll (v : jval) : bool := match v with JScalar _ => false | _ => true end.

(** What remains of the tokens of [v] when the items [rest] are to come. *)
Definition tail_toks (v : jval) (rest : list (option scalar * jval)) : list token :=
  flat_map item_toks rest ++ elision (elided v) ++ [end_tok v].

Lemma toks_coll : forall v, is_coll v = true -> toks v = start_tok v :: tail_toks v (items v).
Proof.
  assert (FM : forall A B C (f : A -> B) (g : B -> list C) l, flat_map g (map f l) = flat_map (fun x => g (f x)) l).
  { intros A B C f g l. induction l as [|x l IH]; [reflexivity|]. cbn [map flat_map]. now rewrite IH. }
  intros [s|l e|l e] H; [discriminate| |]; unfold tail_toks; cbn [toks start_tok items elided end_tok];
  rewrite FM; reflexivity.
Qed.

Lemma tail_toks_nil : forall v rest, tail_toks v rest <> [].
Proof. intros v rest H. apply app_eq_nil in H as [_ H]. apply app_eq_nil in H as [_ H]. discriminate. Qed.

(** Keys are there in objects only. *)
Definition shaped (v : jval) (rest : list (option scalar * jval)) : Prop :=
  forall i, In i rest -> match fst i with None => is_object v = false | Some _ => is_object v = true end.

Lemma shaped_items : forall v, shaped v (items v).
Proof.
  intros [s|l e|l e] i H; cbn [items] in H; [destruct H| |]; apply in_map_iff in H as [x [<- _]]; reflexivity.
Qed.

(** The depth counter of the loops of Discard and Copy. *)
Definition dstep (d : Z) (t : token) : Z :=
  match t with TStartArr | TStartObj => d + 1 | TEndArr | TEndObj => d - 1 | _ => d end.
Fixpoint closes (d : Z) (T : list token) : Prop :=
  match T with
  | [] => False
  | t :: T' => if (dstep d t <? 0)%Z then T' = [] else closes (dstep d t) T'
  end.

Lemma closes_toks : forall v d T, (0 <= d)%Z -> closes d T -> closes d (toks v ++ T).
Proof.
  induction v as [s|l el IH|l el IH] using jval_induction; intros d T P C.
  - cbn [toks app closes dstep]. replace (d <? 0)%Z with false by (symmetry; apply Z.ltb_ge; lia). exact C.
  - cbn [toks app closes dstep]. replace (d + 1 <? 0)%Z with false by (symmetry; apply Z.ltb_ge; lia).
    rewrite <- app_assoc. revert IH. induction l as [|x l IHl]; intro IH.
    + cbn [flat_map app]. destruct el; cbn [elision app closes dstep].
      * replace (d + 1 <? 0)%Z with false by (symmetry; apply Z.ltb_ge; lia).
        replace (d + 1 - 1)%Z with d by lia.
        replace (d <? 0)%Z with false by (symmetry; apply Z.ltb_ge; lia). exact C.
      * replace (d + 1 - 1)%Z with d by lia.
        replace (d <? 0)%Z with false by (symmetry; apply Z.ltb_ge; lia). exact C.
    + cbn [flat_map]. rewrite <- app_assoc. inversion IH as [|? ? H1 H2]; subst.
      apply H1; [lia|]. apply IHl. exact H2.
  - cbn [toks app closes dstep]. replace (d + 1 <? 0)%Z with false by (symmetry; apply Z.ltb_ge; lia).
    rewrite <- app_assoc. revert IH. induction l as [|[k x] l IHl]; intro IH.
    + cbn [flat_map app]. destruct el; cbn [elision app closes dstep].
      * replace (d + 1 <? 0)%Z with false by (symmetry; apply Z.ltb_ge; lia).
        replace (d + 1 - 1)%Z with d by lia.
        replace (d <? 0)%Z with false by (symmetry; apply Z.ltb_ge; lia). exact C.
      * replace (d + 1 - 1)%Z with d by lia.
        replace (d <? 0)%Z with false by (symmetry; apply Z.ltb_ge; lia). exact C.
    + cbn [flat_map fst snd app closes dstep].
      replace (d + 1 <? 0)%Z with false by (symmetry; apply Z.ltb_ge; lia).
      rewrite <- app_assoc. inversion IH as [|? ? H1 H2]; subst.
      apply H1; [lia|]. apply IHl. exact H2.
Qed.

Lemma closes_tail : forall v rest, closes 0 (tail_toks v rest).
Proof.
  intros v rest. unfold tail_toks. induction rest as [|[k x] rest IH].
  - cbn [flat_map app]. destruct (elided v); cbn [elision app closes dstep]; destruct v; reflexivity.
  - cbn [flat_map]. rewrite <- app_assoc. unfold item_toks at 1. cbn [fst snd]. rewrite <- app_assoc.
    destruct k as [k|]; cbn [app].
    + cbn [closes dstep]. change (0 <? 0)%Z with false. apply closes_toks; [lia|exact IH].
    + apply closes_toks; [lia|exact IH].
Qed.

(* ------------------------------------------------------------------ *)
(** The effect of an operation that only touches the streams [rs] and the
    collections [ids]. *)
Record eff (g : ghost) (h : heap) (g' : ghost) (h' : heap) (rs : list rstream) (ids : list nat) : Prop := mkEff {
  ef_core : core g' h';
  ef_gle : gle g g';
  ef_iter : h_iter h' = h_iter h;
  ef_len : length (h_coll h) <= length (h_coll h');
  ef_coll : forall j, j < length (h_coll h) -> ~ In j ids -> nth_error (h_coll h') j = nth_error (h_coll h) j;
  ef_pos : forall r, ~ In r rs -> gpos g r <> None -> gpos g' r = gpos g r;
  ef_act : forall s, act g' s = act g s \/ In (RSrc s) rs
}.

Lemma eff_trans : forall g h g1 h1 g2 h2 rs ids,
  eff g h g1 h1 rs ids -> eff g1 h1 g2 h2 rs ids -> eff g h g2 h2 rs ids.
Proof.
  intros g h g1 h1 g2 h2 rs ids [A1 A2 A3 A4 A5 A6 A7] [B1 B2 B3 B4 B5 B6 B7]. constructor.
  - exact B1.
  - eapply gle_trans; eauto.
  - congruence.
  - lia.
  - intros j L N. rewrite B5 by (auto; lia). now apply A5.
  - intros r N G. rewrite B6; auto. rewrite A6; auto.
  - intro s. destruct (B7 s) as [E|E]; [|auto]. destruct (A7 s) as [E'|E']; [left; congruence|auto].
Qed.

Lemma eff_weaken : forall g h g' h' rs ids rs' ids',
  eff g h g' h' rs ids -> incl rs rs' -> incl ids ids' -> eff g h g' h' rs' ids'.
Proof.
  intros g h g' h' rs ids rs' ids' [A1 A2 A3 A4 A5 A6 A7] I J. constructor; auto.
  intro s. destruct (A7 s); auto.
Qed.

Lemma eff_refl : forall g h rs ids, core g h -> eff g h g h rs ids.
Proof. intros. constructor; auto. apply gle_refl. Qed.

Lemma core_objs : forall g h h', core g h -> h_src h' = h_src h -> h_pool h' = h_pool h -> core g h'.
Proof. intros g h h' [A B C D E F G H] X Y. constructor; rewrite ?X, ?Y; auto. Qed.

Lemma eff_put : forall g h c x rs, core g h -> eff g h g (set_coll h c x) rs [c].
Proof.
  intros g h c x rs C. constructor; auto.
  - eapply core_objs; [exact C| |]; reflexivity.
  - apply gle_refl.
  - cbn [set_coll h_coll]. rewrite upd_length. lia.
  - intros j L N. cbn [set_coll h_coll]. apply nth_error_upd_other. intros ->. apply N. now left.
Qed.

Section Grow.
Variable grow : Z -> Z -> Z.

Lemma snext_eff : forall g h r s k t,
  core g h -> gpos g r = Some (s, k) -> nth_error (full g s) k = Some t -> k < lim g r ->
  exists h' g', snext grow r h = Ok (h', Some t) /\ eff g h g' h' [r] [] /\ same_objs h h' /\
    gpos g' r = Some (s, S k).
Proof.
  intros g h r s k t C G T L.
  destruct (snext_ok grow g h r s k t C G T L) as [h' [g' [E [[O1 O2] [C' [GL [A [G' P]]]]]]]].
  exists h', g'. split; [exact E|]. split; [|split; [split; auto|exact G']].
  constructor; auto.
  - rewrite O1. lia.
  - intros. now rewrite O1.
  - intros r' N. apply P. intros ->. apply N. now left.
  - intro s'. left. unfold act. now rewrite A.
Qed.

Lemma full_on : forall g g' r s, gle g g' -> on_src g r s -> full g' s = full g s.
Proof. intros g g' r s L [A _]. now apply (gl_full _ _ L). Qed.

Lemma gpos_on : forall g h r s k, core g h -> gpos g r = Some (s, k) -> on_src g r s.
Proof.
  intros g h [s'|p c] s k C G; cbn [gpos] in G.
  - destruct (Nat.ltb_spec s' (length (g_F g))); [|discriminate].
    destruct (act g s'); [discriminate|]. injection G as <- _. split; auto.
  - destruct (nth_error (g_P g) p) as [i|] eqn:E; [|discriminate].
    destruct (nth_error (sp_cur (pi_rd i)) c) as [[n|]|]; try discriminate. injection G as <- _.
    destruct (pinfo_ok _ _ _ _ C E) as [x [_ PO]]. split; [apply (po_srcok _ _ _ _ PO)|].
    exists i. auto.
Qed.

Lemma drain_ok : forall T d g h r s k e,
  closes d T -> core g h -> gpos g r = Some (s, k) -> span (full g s) k T e -> e <= lim g r ->
  exists h' g', (forall n, length T < n -> drain grow n r d h = Ok (h', T)) /\
    eff g h g' h' [r] [] /\ same_objs h h' /\ gpos g' r = Some (s, e).
Proof.
  induction T as [|t T IH]; intros d g h r s k e CL C G SP L; [destruct CL|].
  destruct (span_cons _ _ _ _ _ SP) as [N S'].
  assert (K : k < lim g r) by (destruct SP as [-> _]; simpl in L; lia).
  destruct (snext_eff g h r s k t C G N K) as [h1 [g1 [E [EF [O G1]]]]].
  pose proof (gpos_on _ _ _ _ _ C G) as ON.
  assert (ST : forall n, drain grow (S n) r d h =
    if (dstep d t <? 0)%Z then Ok (h1, [t])
    else match drain grow n r (dstep d t) h1 with
         | Ok (h2, ts) => Ok (h2, t :: ts) | Panic => Panic | OutOfFuel => OutOfFuel end).
  { intro n. cbn [drain]. unfold hbind at 1. rewrite E.
    change (match t with TStartArr | TStartObj => (d + 1)%Z | TEndArr | TEndObj => (d - 1)%Z | _ => d end)
      with (dstep d t). destruct (dstep d t <? 0)%Z; reflexivity. }
  cbn [closes] in CL. destruct (dstep d t <? 0)%Z eqn:D.
  - subst T. exists h1, g1. split; [|split; [exact EF|split; [exact O|]]].
    + intros [|n] Hn; [lia|]. rewrite ST. reflexivity.
    + destruct S' as [-> _]. simpl. now rewrite Nat.add_0_r.
  - destruct (IH (dstep d t) g1 h1 r s (S k) e) as [h2 [g2 [E2 [EF2 [O2 G2]]]]]; auto.
    + apply (ef_core _ _ _ _ _ _ EF).
    + now rewrite (full_on _ _ _ _ (ef_gle _ _ _ _ _ _ EF) ON).
    + now rewrite (lim_gle _ _ _ _ (ef_gle _ _ _ _ _ _ EF) ON).
    + exists h2, g2. split; [|split; [|split; [|exact G2]]].
      * intros [|n] Hn; [simpl in Hn; lia|]. rewrite ST, E2 by (simpl in Hn; lia). reflexivity.
      * eapply eff_trans; eauto.
      * destruct O, O2. split; congruence.
Qed.

(* ------------------------------------------------------------------ *)
(** Threads. *)
Record node (g : ghost) (h : heap) (t : list shandle) (v : value) (id : nat) (x : coll) (hd : shandle)
            (r rc : rstream) (s e : nat) : Prop := mkNode {
  n_v : v = if c_obj x then VObj id else VArr id;
  n_x : nth_error (h_coll h) id = Some x;
  n_hd : nth_error t id = Some hd;
  n_coll : is_coll (s_val hd) = true;
  n_kind : c_obj x = is_object (s_val hd);
  n_rc : c_stream x = rc;
  n_sw : rc = r \/ (r = RSrc s /\ exists p c i, rc = RCur p c /\ act g s = Some p /\
                      nth_error (g_P g) p = Some i /\ pi_e i = e);
  n_src : on_src g rc s;
  n_lim : e <= lim g rc
}.

Definition nonroot (t : list shandle) (j : nat) : Prop :=
  exists hd, nth_error t j = Some hd /\ s_root hd = false.

Inductive thr (g : ghost) (h : heap) (t : list shandle) :
  value -> rstream -> nat -> nat -> list nat -> rstream -> Prop :=
| t_scalar : forall sc r s e, gpos g r = Some (s, e) -> thr g h t (VScalar sc) r s e [] r
| t_fresh : forall v id x hd r rc s e k,
    node g h t v id x hd r rc s e ->
    s_state hd = SFresh -> c_started x = false -> c_done x = false -> c_key x = None -> c_val x = None ->
    gpos g rc = Some (s, k) -> span (full g s) k (tail_toks (s_val hd) (items (s_val hd))) e ->
    thr g h t v r s e [id] rc
| t_done : forall v id x hd r rc s e,
    node g h t v id x hd r rc s e ->
    s_state hd = SDone -> c_done x = true -> gpos g rc = Some (s, e) ->
    thr g h t v r s e [id] rc
| t_at : forall v id x hd r rc s e key ch rest k ids l,
    node g h t v id x hd r rc s e ->
    s_state hd = SAt key ch rest -> c_started x = true -> c_done x = false ->
    c_key x = key -> c_val x = Some ch ->
    thr g h t ch rc s k ids l ->
    shaped (s_val hd) rest ->
    span (full g s) k (tail_toks (s_val hd) rest) e ->
    (forall j, In j ids -> id < j /\ nonroot t j) ->
    thr g h t v r s e (id :: ids) l.

Lemma thr_leaf : forall g h t v r s e ids l, thr g h t v r s e ids l ->
  gpos g l <> None /\ (forall p c, r = RCur p c -> l = r) /\ (forall s', l = RSrc s' -> r = l).
Proof.
  induction 1 as [sc r s e G|v id x hd r rc s e k N S1 S2 S3 S4 S5 G SP|v id x hd r rc s e N S1 S2 G
                 |v id x hd r rc s e key ch rest k ids l N S1 S2 S3 S4 S5 T IH SH SP O].
  - split; [congruence|]. auto.
  - split; [congruence|]. destruct (n_sw _ _ _ _ _ _ _ _ _ _ _ N) as [->|[-> [p [c [i [-> _]]]]]]; [auto|].
    split; discriminate.
  - split; [congruence|]. destruct (n_sw _ _ _ _ _ _ _ _ _ _ _ N) as [->|[-> [p [c [i [-> _]]]]]]; [auto|].
    split; discriminate.
  - destruct IH as [A [B C]]. split; [exact A|].
    destruct (n_sw _ _ _ _ _ _ _ _ _ _ _ N) as [->|[-> [p [c [i [-> _]]]]]]; [auto|].
    rewrite (B p c eq_refl). split; discriminate.
Qed.

Lemma thr_ids : forall g h t v r s e ids l, thr g h t v r s e ids l ->
  NoDup ids /\ forall j, In j ids -> j < length t.
Proof.
  induction 1 as [sc r s e G|v id x hd r rc s e k N S1 S2 S3 S4 S5 G SP|v id x hd r rc s e N S1 S2 G
                 |v id x hd r rc s e key ch rest k ids l N S1 S2 S3 S4 S5 T [IH1 IH2] SH SP O].
  - split; [constructor|intros j []].
  - split; [constructor; [intros []|constructor]|]. intros j [<-|[]].
    eapply nth_error_lt. apply (n_hd _ _ _ _ _ _ _ _ _ _ _ N).
  - split; [constructor; [intros []|constructor]|]. intros j [<-|[]].
    eapply nth_error_lt. apply (n_hd _ _ _ _ _ _ _ _ _ _ _ N).
  - split.
    + constructor; [|exact IH1]. intro I. destruct (O _ I). lia.
    + intros j [<-|I]; [|auto]. eapply nth_error_lt. apply (n_hd _ _ _ _ _ _ _ _ _ _ _ N).
Qed.

Lemma node_frame : forall g h t v id x hd r rc s e g' h' t',
  node g h t v id x hd r rc s e -> gle g g' ->
  (r = RSrc s -> rc = r \/ act g' s = act g s) ->
  nth_error (h_coll h') id = nth_error (h_coll h) id -> nth_error t' id = nth_error t id ->
  node g' h' t' v id x hd r rc s e.
Proof.
  intros g h t v id x hd r rc s e g' h' t' [A B C D E F G H I] L AC X Y.
  constructor; auto; try congruence.
  - destruct G as [->|[-> [p [c [i [-> [G1 [G2 G3]]]]]]]]; [auto|].
    destruct (AC eq_refl) as [Q|Q]; [discriminate|].
    right. split; [reflexivity|]. destruct (gl_P _ _ L p i G2) as [i' [G2' [_ [_ [G3' _]]]]].
    exists p, c, i'. repeat split; congruence.
  - eapply on_src_gle; eauto.
  - now rewrite (lim_gle _ _ _ _ L H).
Qed.

Lemma thr_frame : forall g h t v r s e ids l, thr g h t v r s e ids l ->
  forall g' h' t', gle g g' -> gpos g' l = gpos g l ->
  (r = RSrc s -> act g' s = act g s) ->
  (forall j, In j ids -> nth_error (h_coll h') j = nth_error (h_coll h) j /\ nth_error t' j = nth_error t j) ->
  thr g' h' t' v r s e ids l.
Proof.
  induction 1 as [sc r s e G|v id x hd r rc s e k N S1 S2 S3 S4 S5 G SP|v id x hd r rc s e N S1 S2 G
                 |v id x hd r rc s e key ch rest k ids l N S1 S2 S3 S4 S5 T IH SH SP O];
    intros g' h' t' L GL AC FR.
  - constructor. congruence.
  - destruct (FR id (or_introl eq_refl)) as [F1 F2].
    apply (t_fresh g' h' t' v id x hd r rc s e k); auto; try congruence.
    + eapply node_frame; eauto.
    + now rewrite (full_on _ _ _ _ L (n_src _ _ _ _ _ _ _ _ _ _ _ N)).
  - destruct (FR id (or_introl eq_refl)) as [F1 F2].
    eapply t_done; eauto; try congruence. eapply node_frame; eauto.
  - destruct (FR id (or_introl eq_refl)) as [F1 F2].
    assert (N' : node g' h' t' v id x hd r rc s e) by (eapply node_frame; eauto).
    eapply t_at; eauto.
    + apply IH; auto.
      * destruct (n_sw _ _ _ _ _ _ _ _ _ _ _ N) as [->|[-> [p [c [i [-> _]]]]]]; [auto|discriminate].
      * intros j I. apply FR. now right.
    + now rewrite (full_on _ _ _ _ L (n_src _ _ _ _ _ _ _ _ _ _ _ N)).
    + intros j I. destruct (O j I) as [O1 [hd' [O2 O3]]]. split; [exact O1|].
      exists hd'. split; [|exact O3]. destruct (FR j (or_intror I)) as [_ ->]. exact O2.
Qed.

(** The part of a thread from one of its collections on, and putting the part
    back. *)
Lemma thr_focus : forall g h t v r s e ids l, thr g h t v r s e ids l ->
  forall id, In id ids ->
  exists v' r' e' ids1 ids2,
    ids = ids1 ++ id :: ids2 /\ thr g h t v' r' s e' (id :: ids2) l /\
    (r' = r \/ exists p c, r' = RCur p c) /\
    (forall p c, r = RCur p c -> r' = r) /\
    (forall j, In j ids1 -> j < id) /\
    (ids1 = [] -> v' = v /\ r' = r /\ e' = e) /\
    (ids1 <> [] -> forall j, In j (id :: ids2) -> nonroot t j) /\
    (forall g' h' t' ids2' l',
       gle g g' ->
       (r' = RSrc s \/ act g' s = act g s) ->
       (forall j, In j ids1 -> nth_error (h_coll h') j = nth_error (h_coll h) j /\ nth_error t' j = nth_error t j) ->
       (forall j, In j ids2' -> id < j /\ nonroot t' j) ->
       (nonroot t id -> nonroot t' id) ->
       thr g' h' t' v' r' s e' (id :: ids2') l' ->
       thr g' h' t' v r s e (ids1 ++ id :: ids2') l').
Proof.
  induction 1 as [sc r s e G|v id0 x hd r rc s e k N S1 S2 S3 S4 S5 G SP|v id0 x hd r rc s e N S1 S2 G
                 |v id0 x hd r rc s e key ch rest k ids l N S1 S2 S3 S4 S5 T IH SH SP O];
    intros id I.
  - destruct I.
  - destruct I as [<-|[]]. exists v, r, e, [], []. cbn [app].
    split; [reflexivity|]. split; [eapply t_fresh; eauto|]. split; [auto|]. split; [auto|].
    split; [intros j []|]. split; [auto|]. split; [congruence|]. auto.
  - destruct I as [<-|[]]. exists v, r, e, [], []. cbn [app].
    split; [reflexivity|]. split; [eapply t_done; eauto|]. split; [auto|]. split; [auto|].
    split; [intros j []|]. split; [auto|]. split; [congruence|]. auto.
  - destruct (Nat.eq_dec id0 id) as [->|NE].
    + exists v, r, e, [], ids. cbn [app].
      split; [reflexivity|]. split; [eapply t_at; eauto|]. split; [auto|]. split; [auto|].
      split; [intros j []|]. split; [auto|]. split; [congruence|]. auto.
    + destruct I as [I|I]; [congruence|].
      destruct (IH id I) as [v' [r' [e' [ids1 [ids2 [E [T' [R1 [R2 [LT [E0 [NR RB]]]]]]]]]]]].
      exists v', r', e', (id0 :: ids1), ids2. subst ids.
      split; [reflexivity|]. split; [exact T'|].
      assert (SW := n_sw _ _ _ _ _ _ _ _ _ _ _ N).
      split; [|split; [|split; [|split; [discriminate|split]]]].
      * destruct SW as [->|[-> [p [c [i [-> _]]]]]]; [exact R1|].
        rewrite (R2 p c eq_refl). right. eauto.
      * intros p c ->. destruct SW as [->|[Q _]]; [auto|discriminate]. apply (R2 p c eq_refl).
      * intros j [<-|J]; [|auto]. destruct (O id) as [Q _]; [|exact Q]. apply in_or_app. right. now left.
      * intros _ j J. apply O. apply in_or_app. now right.
      * intros g' h' t' ids2' l' L AC FR O2 NR' T2. cbn [app].
        destruct (FR id0 (or_introl eq_refl)) as [F1 F2].
        assert (N' : node g' h' t' v id0 x hd r rc s e).
        { eapply node_frame; eauto. intros ->. destruct SW as [->|[_ [p [c [i [-> [A _]]]]]]]; [auto|].
          destruct AC as [Q|Q]; [|auto]. rewrite (R2 p c eq_refl) in Q. discriminate. }
        eapply t_at; eauto.
        -- eapply RB; eauto. intros j J. apply FR. now right.
        -- now rewrite (full_on _ _ _ _ L (n_src _ _ _ _ _ _ _ _ _ _ _ N)).
        -- intros j J. apply in_app_or in J as [J|[<-|J]].
           ++ destruct (O j) as [O1 [hd' [O3 O4]]]; [apply in_or_app; now left|].
              split; [exact O1|]. exists hd'. split; [|exact O4].
              destruct (FR j (or_intror J)) as [_ ->]. exact O3.
           ++ destruct (O id) as [O1 O3]; [apply in_or_app; right; now left|]. auto.
           ++ destruct (O id) as [O1 _]; [apply in_or_app; right; now left|].
              destruct (O2 j J). split; [lia|auto].
Qed.

(** The specification's [kill] marks exactly the collections of the thread. *)
Definition killed (t t' : list shandle) (ids : list nat) : Prop :=
  length t' = length t /\
  forall j, (In j ids -> exists hd, nth_error t j = Some hd /\ nth_error t' j = Some (mkSh (s_val hd) (s_root hd) SDead))
         /\ (~ In j ids -> nth_error t' j = nth_error t j).

Lemma put_state_len : forall t c s, length (put_state t c s) = length t.
Proof. intros. unfold put_state. destruct (nth_error t c); [apply upd_length|reflexivity]. Qed.
Lemma put_state_same : forall t c s hd, nth_error t c = Some hd ->
  nth_error (put_state t c s) c = Some (mkSh (s_val hd) (s_root hd) s).
Proof. intros. unfold put_state. rewrite H. apply nth_error_upd_same. eapply nth_error_lt; eauto. Qed.
Lemma put_state_other : forall t c s j, c <> j -> nth_error (put_state t c s) j = nth_error t j.
Proof. intros. unfold put_state. destruct (nth_error t c); [now apply nth_error_upd_other|reflexivity]. Qed.

Lemma killed_put : forall t c hd, nth_error t c = Some hd -> killed t (put_state t c SDead) [c].
Proof.
  intros t c hd H. split; [apply put_state_len|]. intro j. split.
  - intros [<-|[]]. exists hd. split; [exact H|]. now apply put_state_same.
  - intro N. apply put_state_other. intros ->. apply N. now left.
Qed.

Lemma kill_ok : forall g h t v r s e ids l, thr g h t v r s e ids l ->
  forall n lo t0, length ids <= n ->
  (forall j, In j ids -> nth_error t0 j = nth_error t j /\ lo <= j /\ nonroot t j) ->
  killed t0 (kill n lo t0 v) ids.
Proof.
  induction 1 as [sc r s e G|v id x hd r rc s e k N S1 S2 S3 S4 S5 G SP|v id x hd r rc s e N S1 S2 G
                 |v id x hd r rc s e key ch rest k ids l N S1 S2 S3 S4 S5 T IH SH SP O];
    intros n lo t0 LN FR.
  - assert (K : kill n lo t0 (VScalar sc) = t0) by (destruct n; reflexivity). rewrite K.
    split; [reflexivity|]. intro j. split; [intros []|auto].
  - destruct n as [|n]; [simpl in LN; lia|].
    destruct (FR id (or_introl eq_refl)) as [F1 [F2 [hd' [F3 F4]]]].
    assert (E : kill (S n) lo t0 v = put_state t0 id SDead).
    { rewrite (n_v _ _ _ _ _ _ _ _ _ _ _ N). rewrite (n_hd _ _ _ _ _ _ _ _ _ _ _ N) in *.
      injection F3 as <-. assert (B : (id <? lo) = false) by (apply Nat.ltb_ge; lia).
      destruct (c_obj x); cbn [kill]; rewrite F1, F4, B; cbn [orb]; now rewrite S1. }
    rewrite E. eapply killed_put. rewrite F1. exact F3.
  - destruct n as [|n]; [simpl in LN; lia|].
    destruct (FR id (or_introl eq_refl)) as [F1 [F2 [hd' [F3 F4]]]].
    assert (E : kill (S n) lo t0 v = put_state t0 id SDead).
    { rewrite (n_v _ _ _ _ _ _ _ _ _ _ _ N). rewrite (n_hd _ _ _ _ _ _ _ _ _ _ _ N) in *.
      injection F3 as <-. assert (B : (id <? lo) = false) by (apply Nat.ltb_ge; lia).
      destruct (c_obj x); cbn [kill]; rewrite F1, F4, B; cbn [orb]; now rewrite S1. }
    rewrite E. eapply killed_put. rewrite F1. exact F3.
  - destruct n as [|n]; [simpl in LN; lia|].
    destruct (FR id (or_introl eq_refl)) as [F1 [F2 [hd' [F3 F4]]]].
    assert (E : kill (S n) lo t0 v = kill n (S id) (put_state t0 id SDead) ch).
    { rewrite (n_v _ _ _ _ _ _ _ _ _ _ _ N). rewrite (n_hd _ _ _ _ _ _ _ _ _ _ _ N) in *.
      injection F3 as <-. assert (B : (id <? lo) = false) by (apply Nat.ltb_ge; lia).
      destruct (c_obj x); cbn [kill]; rewrite F1, F4, B; cbn [orb]; now rewrite S1. }
    rewrite E.
    destruct (IH n (S id) (put_state t0 id SDead)) as [L K].
    + simpl in LN. lia.
    + intros j J. destruct (O j J) as [O1 O2]. split; [|split; [lia|exact O2]].
      rewrite put_state_other by lia. apply FR. now right.
    + rewrite put_state_len in L. split; [exact L|]. intro j. destruct (K j) as [K1 K2]. split.
      * intros [<-|J].
        -- exists hd'. split; [congruence|]. rewrite K2.
           ++ apply put_state_same. congruence.
           ++ intro J. destruct (O _ J). lia.
        -- destruct (K1 J) as [hd2 [K3 K4]]. exists hd2. split; [|exact K4].
           rewrite put_state_other in K3; [exact K3|]. destruct (O _ J). lia.
      * intro NI. rewrite K2.
        -- apply put_state_other. intros ->. apply NI. now left.
        -- intro J. apply NI. now right.
Qed.

Lemma kill_opt_ok : forall g h t v r s e ids l lo, thr g h t v r s e ids l ->
  (forall j, In j ids -> lo <= j /\ nonroot t j) ->
  killed t (kill_opt lo t (Some v)) ids.
Proof.
  intros g h t v r s e ids l lo T O. cbn [kill_opt]. eapply kill_ok; eauto.
  destruct (thr_ids _ _ _ _ _ _ _ _ _ T) as [ND LT].
  assert (I : incl ids (seq 0 (length t))).
  { intros j J. apply in_seq. specialize (LT j J). lia. }
  pose proof (NoDup_incl_length ND I) as X. now rewrite seq_length in X.
Qed.

(* ------------------------------------------------------------------ *)
(** Discarding. *)
Definition idle (v : value) (h : heap) : Prop :=
  match v with
  | VScalar _ => True
  | VArr c | VObj c => exists x, nth_error (h_coll h) c = Some x /\ c_done x = true
  end.

Lemma idle_discard : forall v h n, idle v h -> discard grow (S n) v h = Ok (h, tt).
Proof.
  intros [sc|c|c] h n I; cbn [discard idle] in *; [reflexivity| |];
  destruct I as [x [E D]]; unfold hbind, get_coll; rewrite E, D; reflexivity.
Qed.

(** Discarding a collection leaves its own stream at its end. *)
Lemma discard_step : forall g h t v id x hd r rc s e k rest l ids,
  node g h t v id x hd r rc s e -> core g h -> c_done x = false ->
  (exists n0 h1 g1, (forall n, n0 <= n -> discard_current grow n x h = Ok (h1, tt)) /\
     eff g h g1 h1 [rc; l] ids /\ gpos g1 rc = Some (s, k) /\ length (h_coll h1) = length (h_coll h)) ->
  span (full g s) k (tail_toks (s_val hd) rest) e ->
  exists n0 h' g', (forall n, n0 <= n -> discard grow n v h = Ok (h', tt)) /\
    eff g h g' h' [rc; l] (id :: ids) /\ gpos g' rc = Some (s, e) /\
    nth_error (h_coll h') id = Some (set_done x) /\ length (h_coll h') = length (h_coll h).
Proof.
  intros g h t v id x hd r rc s e k rest l ids N C ND [n0 [h1 [g1 [D1 [EF1 [G1 LE1]]]]]] SP.
  assert (ON := n_src _ _ _ _ _ _ _ _ _ _ _ N).
  assert (L1 := ef_gle _ _ _ _ _ _ EF1).
  set (h2 := set_coll h1 id (set_done x)).
  assert (C2 : core g1 h2) by (apply (ef_core _ _ _ _ _ _ (eff_put g1 h1 id (set_done x) [] (ef_core _ _ _ _ _ _ EF1)))).
  destruct (drain_ok (tail_toks (s_val hd) rest) 0 g1 h2 rc s k e) as [h3 [g3 [D3 [EF3 [[O3 _] G3]]]]].
  - apply closes_tail.
  - exact C2.
  - exact G1.
  - now rewrite (full_on _ _ _ _ L1 ON).
  - rewrite (lim_gle _ _ _ _ L1 ON). apply (n_lim _ _ _ _ _ _ _ _ _ _ _ N).
  - exists (S (Nat.max n0 (S (length (tail_toks (s_val hd) rest))))), h3, g3.
    assert (LI : id < length (h_coll h1)).
    { pose proof (ef_len _ _ _ _ _ _ EF1). pose proof (nth_error_lt _ _ _ _ (n_x _ _ _ _ _ _ _ _ _ _ _ N)). lia. }
    split; [|split; [|split; [exact G3|split]]].
    + intros [|n] Hn; [lia|].
      assert (E : discard grow (S n) v h =
        (discard_current grow n x ;; put_coll id (set_done x) ;; ldo _ <- drain grow n (c_stream x) 0 ; hret tt) h).
      { rewrite (n_v _ _ _ _ _ _ _ _ _ _ _ N). destruct (c_obj x); cbn [discard];
        unfold hbind at 1, get_coll; rewrite (n_x _ _ _ _ _ _ _ _ _ _ _ N), ND; reflexivity. }
      rewrite E. unfold hbind at 1. rewrite D1 by lia. unfold hbind at 1. cbn [put_coll].
      unfold put_coll. fold h2. unfold hbind. rewrite (n_rc _ _ _ _ _ _ _ _ _ _ _ N), D3 by lia. reflexivity.
    + eapply eff_trans; [|eapply eff_trans].
      * eapply eff_weaken; [exact EF1| |]; [apply incl_refl|apply incl_tl, incl_refl].
      * eapply eff_weaken; [apply (eff_put g1 h1 id (set_done x) [] (ef_core _ _ _ _ _ _ EF1))| |].
        -- intros ? [].
        -- intros j [<-|[]]. now left.
      * eapply eff_weaken; [exact EF3| |].
        -- intros j [<-|[]]. now left.
        -- intros ? [].
    + rewrite O3. unfold h2. cbn [set_coll h_coll]. now apply nth_error_upd_same.
    + rewrite O3. unfold h2. cbn [set_coll h_coll]. now rewrite upd_length.
Qed.

(** Once a collection is at its end, the stream it was opened on is, too. *)
Lemma close_node : forall g h t v id x hd r rc s e,
  node g h t v id x hd r rc s e -> core g h -> gpos g rc = Some (s, e) ->
  exists g', eff g h g' h [r] [] /\ gpos g' r = Some (s, e).
Proof.
  intros g h t v id x hd r rc s e N C G.
  destruct (n_sw _ _ _ _ _ _ _ _ _ _ _ N) as [->|[-> [p [c [i [-> [A [P E]]]]]]]].
  - exists g. split; [now apply eff_refl|exact G].
  - destruct (close_ok g h s p c i e C A P E G) as [C' [L [G' [O AA]]]].
    exists (gclose g s). split; [|exact G']. constructor; auto.
    + intros r NI _. apply O. intros ->. apply NI. now left.
    + intro s'. rewrite AA. destruct (Nat.eqb_spec s s') as [->|NE]; [right; now left|now left].
Qed.

Lemma discard_ok : forall g h t v r s e ids l, thr g h t v r s e ids l -> core g h ->
  exists n0 h' g', (forall n, n0 <= n -> discard grow n v h = Ok (h', tt)) /\
    eff g h g' h' [r; l] ids /\ gpos g' r = Some (s, e) /\ idle v h' /\
    length (h_coll h') = length (h_coll h).
Proof.
  intros g h t v r s e ids l T C.
  induction T as [sc r s e G|v id x hd r rc s e k N S1 S2 S3 S4 S5 G SP|v id x hd r rc s e N S1 S2 G
                 |v id x hd r rc s e key ch rest k ids l N S1 S2 S3 S4 S5 T IH SH SP O].
  - exists 1, h, g. split; [|split; [now apply eff_refl|split; [exact G|split; [exact I|reflexivity]]]].
    intros [|n] Hn; [lia|reflexivity].
  - destruct (discard_step g h t v id x hd r rc s e k (items (s_val hd)) rc [] N C S3) as [n0 [h' [g' [D [EF [G' [X LE]]]]]]].
    + exists 0, h, g. split; [|split; [now apply eff_refl|split; [exact G|reflexivity]]].
      intros n _. unfold discard_current. now rewrite S2.
    + exact SP.
    + assert (N' : node g' h' (upd t id hd) v id (set_done x) hd r rc s e).
      { destruct N as [A1 A2 A3 A4 A5 A6 A7 A8 A9]. pose proof (ef_gle _ _ _ _ _ _ EF) as L. constructor; auto.
        - apply nth_error_upd_same. eapply nth_error_lt; exact A3.
        - destruct A7 as [->|[-> [p [c [i [-> [B1 [B2 B3]]]]]]]]; [auto|]. right. split; [auto|].
          destruct (gl_P _ _ L p i B2) as [i' [B2' [_ [_ [B3' _]]]]].
          exists p, c, i'. repeat split; auto; [|congruence].
          destruct (ef_act _ _ _ _ _ _ EF s) as [->|[Q|[Q|[]]]]; [exact B1|discriminate|discriminate].
        - eapply on_src_gle; eauto.
        - now rewrite (lim_gle _ _ _ _ L A8). }
      destruct (close_node _ _ _ _ _ _ _ _ _ _ _ N' (ef_core _ _ _ _ _ _ EF) G') as [g2 [EF2 G2]].
      exists n0, h', g2. split; [exact D|]. split; [|split; [exact G2|split; [|exact LE]]].
      * eapply eff_trans; [eapply eff_weaken; [exact EF| |]|eapply eff_weaken; [exact EF2| |]].
        -- intros y [<-|[<-|[]]]; right; now left.
        -- apply incl_refl.
        -- intros y [<-|[]]. now left.
        -- intros ? [].
      * rewrite (n_v _ _ _ _ _ _ _ _ _ _ _ N). destruct (c_obj x); cbn [idle]; eexists; split; try exact X; reflexivity.
  - destruct (close_node _ _ _ _ _ _ _ _ _ _ _ N C G) as [g2 [EF2 G2]].
    assert (ID : idle v h).
    { rewrite (n_v _ _ _ _ _ _ _ _ _ _ _ N). destruct (c_obj x); cbn [idle]; exists x;
      (split; [apply (n_x _ _ _ _ _ _ _ _ _ _ _ N)|exact S2]). }
    exists 1, h, g2. split; [|split; [|split; [exact G2|split; [exact ID|reflexivity]]]].
    + intros [|n] Hn; [lia|]. now apply idle_discard.
    + eapply eff_weaken; [exact EF2| |].
      * intros y [<-|[]]. now left.
      * intros ? [].
  - destruct IH as [m0 [h1 [g1 [D1 [EF1 [G1 [_ LE1]]]]]]].
    destruct (discard_step g h t v id x hd r rc s e k rest l ids N C S3) as [n0 [h' [g' [D [EF [G' [X LE]]]]]]].
    + exists m0, h1, g1. split; [|split; [exact EF1|split; [exact G1|exact LE1]]].
      intros n Hn. unfold discard_current. rewrite S2, S5. auto.
    + exact SP.
    + assert (LR := proj1 (proj2 (thr_leaf _ _ _ _ _ _ _ _ _ T))).
      assert (N' : node g' h' (upd t id hd) v id (set_done x) hd r rc s e).
      { destruct N as [A1 A2 A3 A4 A5 A6 A7 A8 A9]. pose proof (ef_gle _ _ _ _ _ _ EF) as L. constructor; auto.
        - apply nth_error_upd_same. eapply nth_error_lt; exact A3.
        - destruct A7 as [->|[-> [p [c [i [-> [B1 [B2 B3]]]]]]]]; [auto|]. right. split; [auto|].
          destruct (gl_P _ _ L p i B2) as [i' [B2' [_ [_ [B3' _]]]]].
          exists p, c, i'. repeat split; auto; [|congruence].
          destruct (ef_act _ _ _ _ _ _ EF s) as [->|[Q|[Q|[]]]]; [exact B1|discriminate|].
          rewrite (LR p c eq_refl) in Q. discriminate.
        - eapply on_src_gle; eauto.
        - now rewrite (lim_gle _ _ _ _ L A8). }
      destruct (close_node _ _ _ _ _ _ _ _ _ _ _ N' (ef_core _ _ _ _ _ _ EF) G') as [g2 [EF2 G2]].
      exists n0, h', g2. split; [exact D|]. split; [|split; [exact G2|split; [|exact LE]]].
      * destruct (n_sw _ _ _ _ _ _ _ _ _ _ _ N) as [E|[E [p [c [i [E2 _]]]]]].
        -- subst rc. eapply eff_trans; [exact EF|]. eapply eff_weaken; [exact EF2| |].
           ++ intros y [<-|[]]. now left.
           ++ intros ? [].
        -- rewrite (LR p c E2) in *. eapply eff_trans; [eapply eff_weaken; [exact EF| |]|eapply eff_weaken; [exact EF2| |]].
           ++ intros y [<-|[<-|[]]]; right; now left.
           ++ apply incl_refl.
           ++ intros y [<-|[]]. now left.
           ++ intros ? [].
      * rewrite (n_v _ _ _ _ _ _ _ _ _ _ _ N). destruct (c_obj x); cbn [idle]; eexists; split; try exact X; reflexivity.
Qed.

(* ------------------------------------------------------------------ *)
(** Moving on. *)
Definition vof (n : nat) (y : jval) : value :=
  match y with JScalar s => VScalar s | JArr _ _ => VArr n | JObj _ _ => VObj n end.
Definition cof (y : jval) (r : rstream) : list coll :=
  match y with
  | JScalar _ => []
  | JArr _ _ => [mkColl false r false false false None None]
  | JObj _ _ => [mkColl true r false false false None None]
  end.
Definition hof (y : jval) (root : bool) : list shandle :=
  match y with JScalar _ => [] | _ => [mkSh y root SFresh] end.
Definition iof (n : nat) (y : jval) : list nat := match y with JScalar _ => [] | _ => [n] end.

Lemma alloc_of : forall t root y, alloc t root y = (t ++ hof y root, vof (length t) y).
Proof. intros t root [s|l e|l e]; cbn [alloc hof vof]; [now rewrite app_nil_r|reflexivity|reflexivity]. Qed.

Definition first_tok (y : jval) : token := match y with JScalar s => TScalar s | _ => start_tok y end.
Definition more_toks (y : jval) : list token := match y with JScalar _ => [] | _ => tail_toks y (items y) end.
Lemma toks_first : forall y, toks y = first_tok y :: more_toks y.
Proof. intros [s|l e|l e]; [reflexivity| |]; now apply toks_coll. Qed.

Definition add_colls (h : heap) (l : list coll) : heap := mkHeap (h_src h) (h_pool h) (h_coll h ++ l) (h_iter h).

Lemma next_value_ok : forall y r h,
  next_value (first_tok y) r h = Ok (add_colls h (cof y r), vof (length (h_coll h)) y).
Proof.
  intros [s|l e|l e] r h; cbn [first_tok start_tok next_value vof cof]; [|reflexivity|reflexivity].
  unfold hret, add_colls. rewrite app_nil_r. now destruct h.
Qed.

Lemma nth_snoc : forall A (l : list A) x, nth_error (l ++ [x]) (length l) = Some x.
Proof. intros. apply nth_error_app_last. Qed.

(** A new child is a thread. *)
Lemma thr_new : forall g h t y r s k e n root,
  nth_error (h_coll h) n = nth_error (h_coll (add_colls (mkHeap [] [] (repeat (mkColl false r false false false None None) n) []) (cof y r))) n ->
  nth_error t n = nth_error (repeat (mkSh y root SDead) n ++ hof y root) n ->
  on_src g r s -> e <= lim g r ->
  gpos g r = Some (s, k) -> span (full g s) k (more_toks y) e ->
  thr g h t (vof n y) r s e (iof n y) r.
Proof.
  intros g h t y r s k e n root X T ON LI G SP.
  assert (RA : forall A (a b : A), nth_error (repeat a n ++ [b]) n = Some b).
  { intros A a b. rewrite nth_error_app2; rewrite repeat_length; [|lia]. now rewrite Nat.sub_diag. }
  destruct y as [sc|l el|l el]; cbn [vof iof more_toks cof hof add_colls h_coll] in *.
  - constructor. rewrite G. f_equal. f_equal. symmetry. now apply (span_nil _ _ _ SP).
  - rewrite RA in X, T.
    assert (N : node g h t (VArr n) n _ _ r r s e) by (constructor; [|exact X|exact T| | | | | |]; cbn; auto).
    eapply t_fresh; [exact N|reflexivity|reflexivity|reflexivity|reflexivity|reflexivity|exact G|exact SP].
  - rewrite RA in X, T.
    assert (N : node g h t (VObj n) n _ _ r r s e) by (constructor; [|exact X|exact T| | | | | |]; cbn; auto).
    eapply t_fresh; [exact N|reflexivity|reflexivity|reflexivity|reflexivity|reflexivity|exact G|exact SP].
Qed.

Lemma app_nth_any : forall A (l : list A) a b, nth_error (l ++ b) (length l) = nth_error (repeat a (length l) ++ b) (length l).
Proof.
  intros. rewrite !nth_error_app2; rewrite ?repeat_length; auto.
Qed.

Lemma lim_pos : forall g h r s k, core g h -> gpos g r = Some (s, k) -> lim g r <= length (full g s).
Proof.
  intros g h [s'|p c] s k C G; cbn [gpos lim] in *.
  - destruct (s' <? length (g_F g)); [|discriminate].
    destruct (act g s'); [discriminate|]. injection G as <- _. lia.
  - destruct (nth_error (g_P g) p) as [i|] eqn:E; [|discriminate].
    destruct (nth_error (sp_cur (pi_rd i)) c) as [[n|]|]; try discriminate. injection G as <- _.
    destruct (pinfo_ok _ _ _ _ C E) as [x [_ PO]]. destruct (po_range _ _ _ _ PO). lia.
Qed.

(** The result of moving a collection on to its next item. *)
Lemma move_ok : forall g h c x jv rest s k e,
  core g h -> nth_error (h_coll h) c = Some x -> c_done x = false ->
  (c_started x = true -> exists v, c_val x = Some v /\ idle v h /\ v <> VArr c /\ v <> VObj c) ->
  is_coll jv = true -> c_obj x = is_object jv ->
  gpos g (c_stream x) = Some (s, k) -> span (full g s) k (tail_toks jv rest) e -> e <= lim g (c_stream x) ->
  shaped jv rest ->
  exists h' g',
    (forall n, 3 <= n -> advance grow n c h = Ok (h', match rest with [] => false | _ => true end)) /\
    eff g h g' h' [c_stream x] [c] /\
    match rest with
    | [] => gpos g' (c_stream x) = Some (s, e) /\ length (h_coll h') = length (h_coll h) /\
            exists x', nth_error (h_coll h') c = Some x' /\ c_done x' = true /\
              c_obj x' = c_obj x /\ c_stream x' = c_stream x
    | (key, y) :: rest' =>
        exists k1 k2, gpos g' (c_stream x) = Some (s, k1) /\ span (full g s) k1 (more_toks y) k2 /\
          span (full g s) k2 (tail_toks jv rest') e /\
          h_coll h' = upd (h_coll h) c (set_current x key (vof (length (h_coll h)) y)) ++ cof y (c_stream x)
    end.
Proof.
  intros g h c x jv rest s k e C X ND ST CO OB G SP LI SH.
  assert (ON := gpos_on _ _ _ _ _ C G).
  assert (LC := nth_error_lt _ _ _ _ X).
  assert (DC : forall n, discard_current grow (S n) x h = Ok (h, tt)).
  { intro n. unfold discard_current. destruct (c_started x); [|reflexivity].
    destruct (ST eq_refl) as [v [-> [ID _]]]. now apply idle_discard. }
  destruct rest as [|[key y] rest'].
  - (* the end *)
    unfold tail_toks in SP. cbn [flat_map app] in SP.
    destruct (elided jv) eqn:EL; cbn [elision app] in SP.
    + destruct (span_cons _ _ _ _ _ SP) as [T1 SP1].
      destruct (span_cons _ _ _ _ _ SP1) as [T2 SP2].
      assert (K : S (S k) = e) by (symmetry; now apply (span_nil _ _ _ SP2)).
      destruct (snext_eff g h (c_stream x) s k TElision C G T1) as [h1 [g1 [E1 [EF1 [[O1 _] G1]]]]]; [lia|].
      set (h2 := set_coll h1 c (set_elided x)).
      assert (EFp := eff_put g1 h1 c (set_elided x) [c_stream x] (ef_core _ _ _ _ _ _ EF1)). fold h2 in EFp.
      assert (L1 := ef_gle _ _ _ _ _ _ EF1).
      destruct (snext_eff g1 h2 (c_stream x) s (S k) (end_tok jv) (ef_core _ _ _ _ _ _ EFp) G1) as [h3 [g3 [E3 [EF3 [[O3 _] G3]]]]].
      { now rewrite (full_on _ _ _ _ L1 ON). }
      { rewrite (lim_gle _ _ _ _ L1 ON). lia. }
      set (x2 := set_done (set_elided x)).
      assert (EFq := eff_put g3 h3 c x2 [c_stream x] (ef_core _ _ _ _ _ _ EF3)).
      assert (X2 : nth_error (h_coll h2) c = Some (set_elided x)).
      { unfold h2. cbn [set_coll h_coll]. rewrite O1. now apply nth_error_upd_same. }
      assert (DC2 : forall n, discard_current grow (S n) (set_elided x) h2 = Ok (h2, tt)).
      { intro n. unfold discard_current, set_elided. cbn [c_started c_val]. destruct (c_started x); [|reflexivity].
        destruct (ST eq_refl) as [v [-> [ID [NE1 NE2]]]]. apply idle_discard.
        destruct v as [sc|j|j]; cbn [idle] in *; [exact I| |]; destruct ID as [xx [Q1 Q2]]; exists xx; (split; [|exact Q2]);
        unfold h2; cbn [set_coll h_coll]; rewrite O1, nth_error_upd_other; auto; congruence. }
      exists (set_coll h3 c x2), g3. split; [|split; [|split; [congruence|split]]].
      * intros [|[|[|n]]] Hn; try lia.
        cbn [advance]. unfold hbind at 1, get_coll at 1. rewrite X, ND. unfold hbind at 1. rewrite DC.
        unfold hbind at 1. rewrite E1. rewrite OB.
        assert (R2 : forall m, (put_coll c (set_elided x) ;; advance grow (S (S m)) c) h1 = Ok (set_coll h3 c x2, false)).
        { intro m. unfold hbind at 1, put_coll. fold h2. cbn [advance]. unfold hbind at 1, get_coll. rewrite X2.
          cbn [set_elided c_done]. rewrite ND. unfold hbind at 1.
          fold (set_elided x). rewrite DC2. unfold hbind at 1.
          change (c_stream (set_elided x)) with (c_stream x). rewrite E3.
          change (c_obj (set_elided x)) with (c_obj x). rewrite OB.
          destruct jv as [sc|l el|l el]; [discriminate| |]; reflexivity. }
        destruct (is_object jv); exact (R2 n).
      * eapply eff_trans; [eapply eff_weaken; [exact EF1|apply incl_refl|intros ? []]|].
        eapply eff_trans; [exact EFp|].
        eapply eff_trans; [eapply eff_weaken; [exact EF3|apply incl_refl|intros ? []]|exact EFq].
      * cbn [set_coll h_coll]. rewrite upd_length, O3. unfold h2. cbn [set_coll h_coll]. now rewrite upd_length, O1.
      * exists x2. split; [|auto]. cbn [set_coll h_coll]. apply nth_error_upd_same.
        rewrite O3. eapply nth_error_lt; exact X2.
    + destruct (span_cons _ _ _ _ _ SP) as [T1 SP1].
      assert (K : S k = e) by (symmetry; now apply (span_nil _ _ _ SP1)).
      destruct (snext_eff g h (c_stream x) s k (end_tok jv) C G T1) as [h1 [g1 [E1 [EF1 [[O1 _] G1]]]]]; [lia|].
      assert (EFq := eff_put g1 h1 c (set_done x) [c_stream x] (ef_core _ _ _ _ _ _ EF1)).
      exists (set_coll h1 c (set_done x)), g1. split; [|split; [|split; [congruence|split]]].
      * intros [|[|n]] Hn; try lia.
        cbn [advance]. unfold hbind at 1, get_coll at 1. rewrite X, ND. unfold hbind at 1. rewrite DC.
        unfold hbind at 1. rewrite E1. rewrite OB.
        destruct jv as [sc|l el|l el]; [discriminate| |]; reflexivity.
      * eapply eff_trans; [eapply eff_weaken; [exact EF1|apply incl_refl|intros ? []]|exact EFq].
      * cbn [set_coll h_coll]. now rewrite upd_length, O1.
      * exists (set_done x). split; [|auto]. cbn [set_coll h_coll]. apply nth_error_upd_same. now rewrite O1.
  - (* an item *)
    assert (SHk := SH (key, y) (or_introl eq_refl)). cbn [fst] in SHk.
    unfold tail_toks in SP. cbn [flat_map] in SP. rewrite <- app_assoc in SP. fold (tail_toks jv rest') in SP.
    unfold item_toks at 1 in SP. cbn [fst snd] in SP. rewrite <- app_assoc in SP.
    assert (FIN : forall g0 h0 k0,
      core g0 h0 -> eff g h g0 h0 [c_stream x] [] -> same_objs h h0 -> gpos g0 (c_stream x) = Some (s, k0) ->
      span (full g s) k0 (toks y ++ tail_toks jv rest') e ->
      exists h' g', (ldo item <- snext grow (c_stream x) ;
                     match item with
                     | None => hpanic
                     | Some t2 => ldo v <- next_value t2 (c_stream x) ;
                                  put_coll c (set_current x key v) ;; hret true
                     end) h0 = Ok (h', true) /\
        (exists h1, snext grow (c_stream x) h0 = Ok (h1, Some (first_tok y)) /\
           (ldo v <- next_value (first_tok y) (c_stream x) ; put_coll c (set_current x key v) ;; hret true) h1 = Ok (h', true)) /\
        eff g h g' h' [c_stream x] [c] /\
        exists k1 k2, gpos g' (c_stream x) = Some (s, k1) /\ span (full g s) k1 (more_toks y) k2 /\
          span (full g s) k2 (tail_toks jv rest') e /\
          h_coll h' = upd (h_coll h) c (set_current x key (vof (length (h_coll h)) y)) ++ cof y (c_stream x)).
    { intros g0 h0 k0 C0 EF0 [O0 _] G0 SP0.
      assert (L0 := ef_gle _ _ _ _ _ _ EF0).
      rewrite (toks_first y) in SP0. cbn [app] in SP0.
      destruct (span_cons _ _ _ _ _ SP0) as [T1 SP1].
      assert (K : k0 < e). { destruct SP0 as [-> _]. simpl. lia. }
      destruct (snext_eff g0 h0 (c_stream x) s k0 (first_tok y) C0 G0) as [h1 [g1 [E1 [EF1 [[O1 _] G1]]]]].
      { now rewrite (full_on _ _ _ _ L0 ON). }
      { rewrite (lim_gle _ _ _ _ L0 ON). lia. }
      destruct (span_app _ _ _ _ _ SP1) as [k2 [SP2 SP3]].
      set (h2 := add_colls h1 (cof y (c_stream x))).
      set (x' := set_current x key (vof (length (h_coll h)) y)).
      assert (B : (ldo v <- next_value (first_tok y) (c_stream x) ; put_coll c (set_current x key v) ;; hret true) h1
                  = Ok (set_coll h2 c x', true)).
      { unfold hbind at 1. rewrite next_value_ok. fold h2. rewrite O1, O0. reflexivity. }
      exists (set_coll h2 c x'), g1. split; [|split; [|split]].
      - unfold hbind at 1. rewrite E1. exact B.
      - exists h1. auto.
      - eapply eff_trans; [eapply eff_weaken; [exact EF0|apply incl_refl|intros ? []]|].
        eapply eff_trans; [eapply eff_weaken; [exact EF1|apply incl_refl|intros ? []]|].
        constructor.
        + eapply core_objs; [exact (ef_core _ _ _ _ _ _ EF1)| |]; reflexivity.
        + apply gle_refl.
        + reflexivity.
        + unfold h2. cbn [set_coll add_colls h_coll]. rewrite upd_length, app_length. lia.
        + intros j Lj NI. unfold h2. cbn [set_coll add_colls h_coll].
          rewrite nth_error_upd_other by (intros ->; apply NI; now left).
          now apply nth_error_app_l.
        + auto.
        + auto.
      - exists (S k0), k2. split; [exact G1|]. split; [exact SP2|]. split; [exact SP3|].
        unfold h2. cbn [set_coll add_colls h_coll]. rewrite O1, O0. fold x'.
        assert (UA : forall A (l l' : list A) n a, n < length l -> upd (l ++ l') n a = upd l n a ++ l').
        { induction l as [|b l IHl]; intros l' [|n] a Hn; simpl in *; try lia; auto. f_equal. apply IHl. lia. }
        now apply UA. }
    destruct key as [key|].
    + cbn [app] in SP. destruct (span_cons _ _ _ _ _ SP) as [T1 SP1].
      assert (K : k < e). { destruct SP as [-> _]. simpl. lia. }
      destruct (snext_eff g h (c_stream x) s k (TScalar key) C G T1) as [h1 [g1 [E1 [EF1 [O1 G1]]]]]; [lia|].
      destruct (FIN g1 h1 (S k) (ef_core _ _ _ _ _ _ EF1) EF1 O1 G1 SP1) as [h' [g' [RUN [_ [EF REST]]]]].
      exists h', g'. split; [|split; [exact EF|exact REST]].
      intros [|[|n]] Hn; try lia.
      cbn [advance]. unfold hbind at 1, get_coll at 1. rewrite X, ND. unfold hbind at 1. rewrite DC.
      unfold hbind at 1. rewrite E1, OB, SHk. exact RUN.
    + cbn [app] in SP.
      destruct (FIN g h k C (eff_refl _ _ _ _ C) (conj eq_refl eq_refl) G SP) as [h' [g' [_ [[h1 [E1 RUN]] [EF REST]]]]].
      exists h', g'. split; [|split; [exact EF|exact REST]].
      intros [|[|n]] Hn; try lia.
      cbn [advance]. unfold hbind at 1, get_coll at 1. rewrite X, ND. unfold hbind at 1. rewrite DC.
      unfold hbind at 1. rewrite E1, OB, SHk.
      destruct y as [sc|l el|l el]; exact RUN.
Qed.

End Grow.

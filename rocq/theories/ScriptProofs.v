(** The scripts, run with the API, show what the specification says. *)
From Coq Require Import List ZArith Arith Bool Lia.
From Verif Require Import Base Tokens JsonSpec EncSpec IterModel IterSpec IterCore IterThr IterRel ScriptSpec.

Lemma spec_bind : forall A B (p : iprog A) (f : A -> iprog B) st,
  spec_run (ibind p f) st = obind (spec_run p st) (fun st' a => spec_run (f a) st').
Proof.
  intros A B p f. induction p as [a0| | |v k IH|v k IH|v k IH|v k IH|v k IH|v k IH|v k IH|d k IH|i k IH|i k IH|i k IH|i k IH];
    intro st; cbn [ibind spec_run obind]; auto.
  - destruct (s_advance (st_coll st) v) as [[t b]|]; cbn [on_coll obind]; auto.
  - destruct (s_current (st_coll st) v) as [[k0 x]|]; cbn [obind]; auto.
  - destruct (s_current (st_coll st) v) as [x|]; cbn [obind]; auto.
  - destruct (s_clone (st_coll st) v) as [[t b]|]; cbn [on_coll obind]; auto.
  - destruct (s_detach (st_coll st) v) as [t|]; cbn [on_coll_ obind]; auto.
  - destruct (s_copy (st_coll st) v) as [[t b]|]; cbn [on_coll obind]; auto.
  - destruct (s_discard (st_coll st) v) as [t|]; cbn [on_coll_ obind]; auto.
  - destruct (si_new st d) as [[t b]|]; cbn [obind]; auto.
  - destruct (si_advance st i) as [[t b]|]; cbn [obind]; auto.
  - destruct (si_current st i) as [x|]; cbn [obind]; auto.
  - destruct (si_clone st i) as [[t b]|]; cbn [obind]; auto.
  - destruct (si_detach st i) as [t|]; cbn [obind]; auto.
Qed.

(* ------------------------------------------------------------------ *)
(** A value, its current child, and so on, in the table of handles. *)
Inductive chain (t : list shandle) : value -> list nat -> Prop :=
| ch_scalar : forall s, chain t (VScalar s) []
| ch_leaf : forall v c hd, s_get t v = Some (c, hd) -> s_state hd = SFresh \/ s_state hd = SDone -> chain t v [c]
| ch_at : forall v c hd k ch rest ids, s_get t v = Some (c, hd) -> s_state hd = SAt k ch rest ->
    chain t ch ids -> (forall j, In j ids -> c < j /\ nonroot t j) -> chain t v (c :: ids).

Definition fresh (t : list shandle) (v : value) (x : jval) (ids : list nat) : Prop :=
  match x with
  | JScalar s => v = VScalar s /\ ids = []
  | _ => exists c root, s_get t v = Some (c, mkSh x root SFresh) /\ ids = [c]
  end.

Inductive crel (t : list shandle) : value -> dcursor -> cursor -> list nat -> Prop :=
| cr_unread : forall v x ids, fresh t v x ids -> crel t v (DUnread v) (Unread x) ids
| cr_part : forall v ids, chain t v ids -> crel t v (DPart v) Part ids
| cr_start : forall v c hd, s_get t v = Some (c, hd) -> s_state hd = SFresh ->
    crel t v (DInside v DNothing) (Inside (items (s_val hd)) Nothing) [c]
| cr_done : forall v c hd, s_get t v = Some (c, hd) -> s_state hd = SDone ->
    crel t v (DInside v DNothing) (Inside [] Nothing) [c]
| cr_at : forall v c hd k ch rest d s ids, s_get t v = Some (c, hd) -> s_state hd = SAt k ch rest ->
    crel t ch d s ids -> (forall j, In j ids -> c < j /\ nonroot t j) ->
    crel t v (DInside v d) (Inside rest s) (c :: ids).

Lemma s_get_nth : forall t v c hd, s_get t v = Some (c, hd) -> nth_error t c = Some hd /\
  v = if is_object (s_val hd) then VObj c else VArr c.
Proof.
  intros t v c hd H. unfold s_get in H. destruct v as [s|j|j]; [discriminate| |];
  destruct (nth_error t j) as [hd'|] eqn:E; try discriminate.
  - destruct (is_array (s_val hd')) eqn:A; [|discriminate]. injection H as -> ->. split; [exact E|].
    destruct (s_val hd); [discriminate|reflexivity|discriminate].
  - destruct (is_object (s_val hd')) eqn:A; [|discriminate]. injection H as -> ->. split; [exact E|].
    now rewrite A.
Qed.

Lemma nth_s_get : forall t v c hd hd', s_get t v = Some (c, hd) -> nth_error t c = Some hd' -> s_val hd' = s_val hd ->
  s_get t v = Some (c, hd').
Proof. intros t v c hd hd' H E _. destruct (s_get_nth _ _ _ _ H) as [E' _]. rewrite H. congruence. Qed.

Lemma s_get_frame : forall t t' v c hd hd', s_get t v = Some (c, hd) -> nth_error t' c = Some hd' -> s_val hd' = s_val hd ->
  s_get t' v = Some (c, hd').
Proof.
  intros t t' v c hd hd' H E V. unfold s_get in *. destruct v as [s|j|j]; [discriminate| |];
  destruct (nth_error t j) as [hd0|] eqn:E0; try discriminate.
  - destruct (is_array (s_val hd0)) eqn:A; [|discriminate]. injection H as -> ->. rewrite E, V, A. reflexivity.
  - destruct (is_object (s_val hd0)) eqn:A; [|discriminate]. injection H as -> ->. rewrite E, V, A. reflexivity.
Qed.

Definition agree (t t' : list shandle) (ids : list nat) : Prop := forall j, In j ids -> nth_error t' j = nth_error t j.

Lemma nonroot_agree : forall t t' j, nth_error t' j = nth_error t j -> nonroot t j -> nonroot t' j.
Proof. intros t t' j E [hd [A B]]. exists hd. split; congruence. Qed.

Lemma chain_frame : forall t v ids, chain t v ids -> forall t', agree t t' ids -> chain t' v ids.
Proof.
  induction 1 as [s|v c hd G S|v c hd k ch rest ids G S C IH O]; intros t' A.
  - constructor.
  - destruct (s_get_nth _ _ _ _ G) as [E _]. eapply ch_leaf; [|exact S].
    eapply s_get_frame; [exact G| |reflexivity]. rewrite (A c (or_introl eq_refl)). exact E.
  - destruct (s_get_nth _ _ _ _ G) as [E _]. eapply ch_at; [|exact S| |].
    + eapply s_get_frame; [exact G| |reflexivity]. rewrite (A c (or_introl eq_refl)). exact E.
    + apply IH. intros j J. apply A. now right.
    + intros j J. destruct (O j J). split; [auto|]. eapply nonroot_agree; [apply A; now right|auto].
Qed.

Lemma fresh_frame : forall t t' v x ids, fresh t v x ids -> agree t t' ids -> fresh t' v x ids.
Proof.
  intros t t' v x ids F A.
  assert (Q : forall c root, s_get t v = Some (c, mkSh x root SFresh) -> ids = [c] ->
                s_get t' v = Some (c, mkSh x root SFresh)).
  { intros c root G ->. destruct (s_get_nth _ _ _ _ G) as [E _].
    eapply s_get_frame; [exact G| |reflexivity]. rewrite (A c (or_introl eq_refl)). exact E. }
  destruct x as [s|l e|l e]; cbn [fresh] in *; auto; destruct F as [c [root [G I]]]; eauto.
Qed.

Lemma crel_frame : forall t v d s ids, crel t v d s ids -> forall t', agree t t' ids -> crel t' v d s ids.
Proof.
  induction 1 as [v x ids F|v ids C|v c hd G S|v c hd G S|v c hd k ch rest d s ids G S C IH O]; intros t' A.
  - constructor. eapply fresh_frame; eauto.
  - constructor. eapply chain_frame; eauto.
  - destruct (s_get_nth _ _ _ _ G) as [E _]. apply (cr_start t' v c hd); [|exact S].
    eapply s_get_frame; [exact G| |reflexivity]. rewrite (A c (or_introl eq_refl)). exact E.
  - destruct (s_get_nth _ _ _ _ G) as [E _]. apply (cr_done t' v c hd); [|exact S].
    eapply s_get_frame; [exact G| |reflexivity]. rewrite (A c (or_introl eq_refl)). exact E.
  - destruct (s_get_nth _ _ _ _ G) as [E _]. eapply cr_at; [|exact S| |].
    + eapply s_get_frame; [exact G| |reflexivity]. rewrite (A c (or_introl eq_refl)). exact E.
    + apply IH. intros j J. apply A. now right.
    + intros j J. destruct (O j J). split; [auto|]. eapply nonroot_agree; [apply A; now right|auto].
Qed.

Lemma fresh_chain : forall t v x ids, fresh t v x ids -> chain t v ids.
Proof.
  intros t v [s|l e|l e] ids F; cbn [fresh] in F.
  - destruct F as [-> ->]. constructor.
  - destruct F as [c [root [G ->]]]. eapply ch_leaf; eauto.
  - destruct F as [c [root [G ->]]]. eapply ch_leaf; eauto.
Qed.

Lemma crel_chain : forall t v d s ids, crel t v d s ids -> chain t v ids.
Proof.
  induction 1; eauto using ch_leaf, ch_at, fresh_chain.
Qed.

Lemma chain_ids : forall t v ids, chain t v ids -> NoDup ids /\ forall j, In j ids -> j < length t.
Proof.
  induction 1 as [s|v c hd G S|v c hd k ch rest ids G S C [IH1 IH2] O].
  - split; [constructor|intros j []].
  - destruct (s_get_nth _ _ _ _ G) as [E _]. split; [constructor; [intros []|constructor]|].
    intros j [<-|[]]. eapply nth_error_lt; exact E.
  - destruct (s_get_nth _ _ _ _ G) as [E _]. split.
    + constructor; [|exact IH1]. intro I. destruct (O _ I). lia.
    + intros j [<-|J]; [eapply nth_error_lt; exact E|auto].
Qed.

Lemma chain_kill : forall t v ids, chain t v ids ->
  forall n lo t0, length ids <= n -> (forall j, In j ids -> nth_error t0 j = nth_error t j /\ lo <= j /\ nonroot t j) ->
  killed t0 (kill n lo t0 v) ids.
Proof.
  induction 1 as [s|v c hd G S|v c hd k ch rest ids G S C IH O]; intros n lo t0 LN FR.
  - destruct n; split; cbn [kill]; auto; intro j; (split; [intros []|auto]).
  - destruct n as [|n]; [cbn in LN; lia|]. destruct (FR c (or_introl eq_refl)) as [F1 [F2 [hd' [F3 F4]]]].
    destruct (s_get_nth _ _ _ _ G) as [E V]. assert (hd' = hd) by congruence. subst hd'.
    assert (B : (c <? lo) = false) by (apply Nat.ltb_ge; lia).
    assert (K : kill (Datatypes.S n) lo t0 v = put_state t0 c SDead).
    { rewrite V. destruct (is_object (s_val hd)); cbn [kill]; rewrite F1, E, F4, B; cbn [orb];
      destruct S as [-> | ->]; reflexivity. }
    rewrite K. eapply killed_put. rewrite F1. exact E.
  - destruct n as [|n]; [cbn in LN; lia|]. destruct (FR c (or_introl eq_refl)) as [F1 [F2 [hd' [F3 F4]]]].
    destruct (s_get_nth _ _ _ _ G) as [E V]. assert (hd' = hd) by congruence. subst hd'.
    assert (B : (c <? lo) = false) by (apply Nat.ltb_ge; lia).
    assert (K : kill (Datatypes.S n) lo t0 v = kill n (Datatypes.S c) (put_state t0 c SDead) ch).
    { rewrite V. destruct (is_object (s_val hd)); cbn [kill]; rewrite F1, E, F4, B; cbn [orb]; rewrite S; reflexivity. }
    rewrite K.
    assert (NC : ~ In c ids) by (intro I; destruct (O _ I); lia).
    assert (E0 : nth_error t0 c = Some hd) by congruence.
    destruct (IH n (Datatypes.S c) (put_state t0 c SDead)) as [K1 K2].
    { cbn in LN. lia. }
    { intros j J. destruct (O j J) as [O1 O2]. rewrite put_state_other by lia.
      destruct (FR j (or_intror J)) as [Q _]. split; [exact Q|]. split; [lia|exact O2]. }
    split; [now rewrite K1, put_state_len|]. intro j. destruct (K2 j) as [K3 K4]. split.
    + intros [<-|J].
      * exists hd. split; [exact E0|]. rewrite K4 by exact NC. now apply put_state_same.
      * destruct (K3 J) as [hd' [Q1 Q2]]. exists hd'. split; [|exact Q2].
        rewrite put_state_other in Q1; [exact Q1|]. intros ->. auto.
    + intro J. rewrite K4 by (intro; apply J; now right). apply put_state_other. intros ->. apply J. now left.
Qed.

Lemma chain_kill_opt : forall t v ids lo, chain t v ids -> (forall j, In j ids -> lo <= j /\ nonroot t j) ->
  killed t (kill_opt lo t (Some v)) ids.
Proof.
  intros t v ids lo C O. cbn [kill_opt]. destruct (chain_ids _ _ _ C) as [ND LT].
  eapply chain_kill; eauto.
  assert (I : incl ids (seq 0 (length t))) by (intros j J; apply in_seq; specialize (LT j J); lia).
  pose proof (NoDup_incl_length ND I) as X. now rewrite seq_length in X.
Qed.

(* ------------------------------------------------------------------ *)
(** The change an operation makes to the table: only the handles [ids] change,
    and they keep their value; new handles are added. *)
Record change (t t' : list shandle) (ids : list nat) : Prop := mkChange {
  cg_len : length t <= length t';
  cg_same : forall j, j < length t -> ~ In j ids -> nth_error t' j = nth_error t j;
  cg_kept : forall j hd, nth_error t j = Some hd ->
              exists hd', nth_error t' j = Some hd' /\ s_val hd' = s_val hd /\ s_root hd' = s_root hd
}.

Lemma change_refl : forall t ids, change t t ids.
Proof. intros. constructor; auto. intros j hd E. eauto. Qed.

Lemma change_trans : forall t t1 t2 ids, change t t1 ids -> change t1 t2 ids -> change t t2 ids.
Proof.
  intros t t1 t2 ids [A1 A2 A3] [B1 B2 B3]. constructor.
  - lia.
  - intros j L N. rewrite B2 by (auto; lia). now apply A2.
  - intros j hd E. destruct (A3 j hd E) as [h1 [E1 [V1 R1]]]. destruct (B3 j h1 E1) as [h2 [E2 [V2 R2]]].
    exists h2. repeat split; congruence.
Qed.

Lemma change_weaken : forall t t' ids ids', change t t' ids -> incl ids ids' -> change t t' ids'.
Proof. intros t t' ids ids' [A1 A2 A3] I. constructor; auto. Qed.

Lemma change_put : forall t c s, change t (put_state t c s) [c].
Proof.
  intros t c s. constructor.
  - rewrite put_state_len. lia.
  - intros j _ N. apply put_state_other. intros ->. apply N. now left.
  - intros j hd E. destruct (Nat.eq_dec c j) as [<-|NE].
    + eexists. split; [apply put_state_same; exact E|]. auto.
    + exists hd. rewrite put_state_other by exact NE. auto.
Qed.

Lemma change_killed : forall t t' ids, killed t t' ids -> change t t' ids.
Proof.
  intros t t' ids [L K]. constructor.
  - lia.
  - intros j _ N. now apply K.
  - intros j hd E. destruct (in_dec Nat.eq_dec j ids) as [I|I].
    + destruct (K j) as [K1 _]. destruct (K1 I) as [hd' [Q1 Q2]]. assert (hd' = hd) by congruence. subst.
      eexists. split; [exact Q2|]. auto.
    + exists hd. destruct (K j) as [_ K2]. rewrite K2 by exact I. auto.
Qed.

Lemma change_app : forall t l ids, change t (t ++ l) ids.
Proof.
  intros t l ids. constructor.
  - rewrite app_length. lia.
  - intros j L _. now apply nth_error_app_l.
  - intros j hd E. exists hd. rewrite nth_error_app_l by (eapply nth_error_lt; exact E). auto.
Qed.

Lemma nonroot_change : forall t t' ids j, change t t' ids -> nonroot t j -> nonroot t' j.
Proof.
  intros t t' ids j C [hd [E R]]. destruct (cg_kept _ _ _ C j hd E) as [hd' [E' [_ R']]].
  exists hd'. split; congruence.
Qed.

(** The handles a reader uses are those it used before or new ones, and none is
    new when it is cloned. *)
Definition newer (t : list shandle) (n : option jval) (ids ids' : list nat) : Prop :=
  forall j, In j ids' -> In j ids \/ (length t <= j /\ n = None).

(** A new clone. *)
Definition cloned (t t' : list shandle) (n : option jval) (w : option value) : Prop :=
  match n with
  | None => w = None
  | Some x => exists v ids, w = Some v /\ fresh t' v x ids /\
                (forall j, In j ids -> length t <= j /\ exists hd, nth_error t' j = Some hd /\ s_root hd = true)
  end.

Lemma shape_fresh : forall t v x ids, fresh t v x ids -> shape_of_value v = shape_of x.
Proof.
  intros t v [s|l e|l e] ids F; cbn [fresh] in F.
  - destruct F as [-> _]. reflexivity.
  - destruct F as [c [root [G _]]]. destruct (s_get_nth _ _ _ _ G) as [_ ->]. reflexivity.
  - destruct F as [c [root [G _]]]. destruct (s_get_nth _ _ _ _ G) as [_ ->]. reflexivity.
Qed.

Lemma alloc_fresh : forall t root y,
  fresh (t ++ hof y root) (vof (length t) y) y (iof (length t) y).
Proof.
  intros t root [s|l e|l e]; cbn [fresh hof vof iof].
  - auto.
  - exists (length t), root. unfold s_get. rewrite nth_error_app_last. auto.
  - exists (length t), root. unfold s_get. rewrite nth_error_app_last. auto.
Qed.

Lemma iof_in : forall n y j, In j (iof n y) -> j = n.
Proof. intros n [s|l e|l e] j J; cbn [iof] in J; [destruct J| |]; destruct J as [<-|[]]; reflexivity. Qed.

(** Moving on. *)
Lemma move_crel : forall t c v hd tk ids rest,
  s_get t v = Some (c, hd) -> killed t tk ids -> ~ In c ids ->
  exists t' ids' d', fst (s_move tk c rest) = t' /\
    change t t' (c :: ids) /\ newer t None (c :: ids) ids' /\
    match rest with
    | [] => snd (s_move tk c rest) = false /\ d' = DNothing /\ crel t' v (DInside v d') (Inside [] Nothing) ids'
    | (k, x) :: rest' => snd (s_move tk c rest) = true /\
        exists ch, d' = DUnread ch /\ s_current t' v = Some (k, Some ch) /\ shape_of_value ch = shape_of x /\
          crel t' v (DInside v d') (Inside rest' (Unread x)) ids'
    end.
Proof.
  intros t c v hd tk ids rest G K NI. destruct (s_get_nth _ _ _ _ G) as [E V].
  assert (Ek : nth_error tk c = Some hd) by (destruct (proj2 K c) as [_ Q]; rewrite Q; auto).
  assert (CK := change_killed _ _ _ K).
  assert (CK' : change t tk (c :: ids)) by (eapply change_weaken; [exact CK|apply incl_tl, incl_refl]).
  destruct rest as [|[k x] rest']; cbn [s_move].
  - exists (put_state tk c SDone), [c], DNothing. cbn [fst snd]. split; [reflexivity|].
    assert (E' : nth_error (put_state tk c SDone) c = Some (mkSh (s_val hd) (s_root hd) SDone)) by now apply put_state_same.
    split; [|split; [|split; [reflexivity|split; [reflexivity|]]]].
    + eapply change_trans; [exact CK'|]. eapply change_weaken; [apply change_put|].
      intros j [<-|[]]. now left.
    + intros j [<-|[]]. left. now left.
    + eapply cr_done; [eapply s_get_frame; [exact G|exact E'|reflexivity]|reflexivity].
  - rewrite alloc_of. cbn [fst snd]. set (m := length tk).
    set (t' := put_state (tk ++ hof x false) c (SAt k (vof m x) rest')).
    assert (Lc : c < length tk) by (eapply nth_error_lt; exact Ek).
    assert (Ea : nth_error (tk ++ hof x false) c = Some hd) by (rewrite nth_error_app_l; auto).
    assert (E' : nth_error t' c = Some (mkSh (s_val hd) (s_root hd) (SAt k (vof m x) rest'))) by now apply put_state_same.
    assert (G' : s_get t' v = Some (c, mkSh (s_val hd) (s_root hd) (SAt k (vof m x) rest')))
      by (eapply s_get_frame; [exact G|exact E'|reflexivity]).
    assert (F' : fresh t' (vof m x) x (iof m x)).
    { eapply fresh_frame; [apply alloc_fresh|]. intros j J. apply iof_in in J. subst j.
      apply put_state_other. unfold m. lia. }
    exists t', (c :: iof m x), (DUnread (vof m x)). split; [reflexivity|]. split; [|split; [|split; [reflexivity|]]].
    + eapply change_trans; [exact CK'|]. eapply change_trans; [apply change_app|].
      eapply change_weaken; [apply change_put|]. intros j [<-|[]]. now left.
    + intros j [<-|J]; [left; now left|]. apply iof_in in J. subst j. right. split; [unfold m; rewrite (proj1 K); lia|reflexivity].
    + exists (vof m x). split; [reflexivity|]. split; [|split].
      * unfold s_current. rewrite G'. reflexivity.
      * eapply shape_fresh; exact F'.
      * eapply cr_at; [exact G'|reflexivity|constructor; exact F'|].
        intros j J. pose proof (iof_in _ _ _ J) as ->. split; [exact Lc|].
        destruct x as [s|l e|l e]; cbn [iof] in J; [destruct J| |].
        -- eexists. unfold t'. rewrite put_state_other by (unfold m; lia). unfold m. split; [apply nth_error_app_last|reflexivity].
        -- eexists. unfold t'. rewrite put_state_other by (unfold m; lia). unfold m. split; [apply nth_error_app_last|reflexivity].
Qed.

Lemma next_step : forall t it v d s rest ids, crel t v (DInside v d) (Inside rest s) ids ->
  exists t' ids' d',
    spec_run (IAdvance v (fun b =>
              if b then
                IKeyVal v (fun kv =>
                  match snd kv with
                  | Some ch => IRet (DInside v (DUnread ch), OItem (fst kv) (shape_of_value ch), None)
                  | None => IPanic
                  end)
              else IRet (DInside v DNothing, OEnd, @None value))) (mkSt t it)
    = Some (mkSt t' it, (d', match rest with [] => OEnd | (k, x) :: _ => OItem k (shape_of x) end, None)) /\
    change t t' ids /\ newer t None ids ids' /\
    crel t' v d' (match rest with [] => Inside [] Nothing | (_, x) :: rest' => Inside rest' (Unread x) end) ids'.
Proof.
  intros t it v d s rest ids C.
  assert (X : exists c hd, s_get t v = Some (c, hd) /\
    ((s_state hd = SFresh /\ rest = items (s_val hd) /\ ids = [c]) \/ (s_state hd = SDone /\ rest = [] /\ ids = [c]) \/
     exists k ch ids1, s_state hd = SAt k ch rest /\ chain t ch ids1 /\ ids = c :: ids1 /\ (forall j, In j ids1 -> c < j /\ nonroot t j))).
  { inversion C as [| |? c hd G S|? c hd G S|? c hd k ch ? ? ? ids1 G S C1 O]; subst.
    - exists c, hd. auto.
    - exists c, hd. auto 6.
    - exists c, hd. split; [exact G|]. right. right. exists k, ch, ids1. repeat split; auto; try apply O; auto.
      eapply crel_chain; exact C1. }
  clear C. destruct X as [c [hd [G X]]].
  destruct X as [[S [-> ->]]|[[S [-> ->]]|[k [ch [ids1 [S [C [-> O]]]]]]]].
  - destruct (move_crel t c v hd t [] (items (s_val hd)) G) as [t' [ids' [d' [M1 [M2 [M3 M4]]]]]].
    { split; [reflexivity|]. intro j. split; [intros []|auto]. }
    { intros []. }
    exists t', ids', (DInside v d'). cbn [spec_run st_coll]. unfold s_advance. rewrite G, S. cbn [on_coll].
    destruct (s_move t c (items (s_val hd))) as [t1 b]. cbn [fst snd] in *. subst t1.
    destruct (items (s_val hd)) as [|[k x] rest'].
    + destruct M4 as [-> [-> M4]]. cbn [on_coll obind spec_run]. auto.
    + destruct M4 as [-> [ch [-> [M4 [M5 M6]]]]]. cbn [on_coll obind spec_run st_coll st_iter]. rewrite M4. cbn [fst snd spec_run].
      rewrite M5. auto.
  - exists t, [c], (DInside v DNothing). cbn [spec_run st_coll]. unfold s_advance. rewrite G, S.
    cbn [on_coll obind spec_run st_iter]. split; [reflexivity|]. split; [apply change_refl|].
    split; [intros j J; now left|]. eapply cr_done; eauto.
  - assert (K : killed t (kill_opt (Datatypes.S c) t (Some ch)) ids1).
    { apply chain_kill_opt; [exact C|]. intros j J. destruct (O j J). split; [lia|auto]. }
    destruct (move_crel t c v hd _ ids1 rest G K) as [t' [ids' [d' [M1 [M2 [M3 M4]]]]]].
    { intro J. destruct (O _ J). lia. }
    exists t', ids', (DInside v d'). cbn [spec_run st_coll]. unfold s_advance. rewrite G, S. cbn [on_coll].
    destruct (s_move (kill_opt (Datatypes.S c) t (Some ch)) c rest) as [t1 b]. cbn [fst snd] in *. subst t1.
    destruct rest as [|[k' x] rest'].
    + destruct M4 as [-> [-> M4]]. cbn [on_coll obind spec_run]. auto.
    + destruct M4 as [-> [ch' [-> [M4 [M5 M6]]]]]. cbn [on_coll obind spec_run st_coll st_iter]. rewrite M4. cbn [fst snd spec_run].
      rewrite M5. auto.
Qed.

Lemma s_discard_get : forall t v c hd, s_get t v = Some (c, hd) ->
  s_discard t v = match s_state hd with
                  | SDead => None
                  | SDone => Some t
                  | s => Some (put_state (kill_opt (S c) t (child_of s)) c SDone)
                  end.
Proof. intros t [s|j|j] c hd G; [discriminate| |]; unfold s_discard; rewrite G; destruct (s_state hd); reflexivity. Qed.

Lemma s_copy_get : forall t v c x root, s_get t v = Some (c, mkSh x root SFresh) ->
  s_copy t v = Some (put_state t c SDone, toks x).
Proof. intros t [s|j|j] c x root G; [discriminate| |]; unfold s_copy; rewrite G; reflexivity. Qed.

Lemma s_clone_get : forall t v c x root, s_get t v = Some (c, mkSh x root SFresh) ->
  s_clone t v = Some (t ++ hof x true, vof (length t) x).
Proof. intros t [s|j|j] c x root G; [discriminate| |]; unfold s_clone; rewrite G; cbn [s_state s_val]; now rewrite alloc_of. Qed.

Lemma discard_chain : forall t v ids, chain t v ids ->
  exists t' ids', s_discard t v = Some t' /\ change t t' ids /\ newer t None ids ids' /\ chain t' v ids'.
Proof.
  intros t v ids C.
  assert (DONE : forall c hd t1, s_get t v = Some (c, hd) -> nth_error t1 c = Some hd ->
            chain (put_state t1 c SDone) v [c]).
  { intros c hd t1 G E. eapply ch_leaf; [eapply s_get_frame; [exact G|apply put_state_same; eassumption|reflexivity]|].
    right. reflexivity. }
  inversion C as [s|? c hd G S|? c hd k ch rest ids1 G S C1 O]; subst.
  - exists t, []. split; [reflexivity|]. split; [apply change_refl|]. split; [intros j []|constructor].
  - destruct (s_get_nth _ _ _ _ G) as [E _]. rewrite (s_discard_get _ _ _ _ G). destruct S as [S|S]; rewrite S.
    + exists (put_state t c SDone), [c]. cbn [child_of kill_opt]. split; [reflexivity|]. split; [apply change_put|].
      split; [intros j J; now left|]. eauto.
    + exists t, [c]. split; [reflexivity|]. split; [apply change_refl|]. split; [intros j J; now left|exact C].
  - destruct (s_get_nth _ _ _ _ G) as [E _]. rewrite (s_discard_get _ _ _ _ G), S. cbn [child_of].
    assert (K : killed t (kill_opt (Datatypes.S c) t (Some ch)) ids1).
    { apply chain_kill_opt; [exact C1|]. intros j J. destruct (O j J). split; [lia|auto]. }
    eexists. exists [c]. split; [reflexivity|]. split; [|split].
    + eapply change_trans; [eapply change_weaken; [apply change_killed; exact K|apply incl_tl, incl_refl]|].
      eapply change_weaken; [apply change_put|]. intros j [<-|[]]. now left.
    + intros j [<-|[]]. left. now left.
    + eapply DONE; [exact G|]. destruct (proj2 K c) as [_ Q]. rewrite Q; [exact E|]. intro J. destruct (O _ J). lia.
Qed.

Lemma dinside_inside : forall t v d s ids, crel t v d s ids -> dinside d = inside s.
Proof. intros t v d s ids C. inversion C; reflexivity. Qed.

Lemma crel_down : forall t v c hd k ch rest d s ids, s_get t v = Some (c, hd) -> s_state hd = SAt k ch rest ->
  (forall j, In j ids -> c < j /\ nonroot t j) ->
  forall n t' d' s' ids', change t t' ids -> newer t n ids ids' -> crel t' ch d' s' ids' ->
  (forall j, In j ids' -> length t <= j -> nonroot t' j) -> ~ In c ids ->
  crel t ch d s ids -> crel t' v (DInside v d') (Inside rest s') (c :: ids').
Proof.
  intros t v c hd k ch rest d s ids G S O n t' d' s' ids' CH NW C' NR NI _.
  destruct (s_get_nth _ _ _ _ G) as [E _]. assert (L := nth_error_lt _ _ _ _ E).
  eapply cr_at; [|exact S|exact C'|].
  - eapply s_get_frame; [exact G| |reflexivity]. rewrite (cg_same _ _ _ CH) by auto. exact E.
  - intros j J. destruct (NW j J) as [I|[I _]].
    + destruct (O j I). split; [auto|]. eapply nonroot_change; eauto.
    + split; [lia|]. auto.
Qed.

Lemma crel_nonroot : forall t v d s ids, crel t v d s ids ->
  match ids with [] => True | _ :: tl => forall j, In j tl -> nonroot t j end.
Proof.
  intros t v d s ids C. apply crel_chain in C. inversion C; subst; auto.
  - intros j [].
  - intros j J. match goal with O : forall j, In j _ -> _ |- _ => now apply O end.
Qed.

Lemma chain_head : forall t v ids c ids1, chain t v ids -> ids = c :: ids1 -> exists hd, s_get t v = Some (c, hd).
Proof. intros t v ids c ids1 C ->. inversion C; subst; eauto. Qed.

Lemma same_head : forall t t' v ids ids', chain t v ids -> chain t' v ids' ->
  match ids, ids' with
  | [], [] => True
  | c :: _, c' :: _ => c = c'
  | _, _ => False
  end.
Proof.
  intros t t' v ids ids' C C'. inversion C; subst; inversion C'; subst; auto;
  try discriminate;
  repeat match goal with G : s_get _ _ = Some (_, _) |- _ => apply s_get_nth in G as [_ G] end;
  try discriminate;
  try (destruct (is_object _); discriminate);
  repeat match goal with G : v = if ?b then _ else _ |- _ => destruct b end; congruence.
Qed.

(** One step of a reader. *)
Lemma dstep_ok : forall t v d s ids, crel t v d s ids -> forall c it s' o n,
  sstep c s = (s', o, n) ->
  exists t' d' w ids',
    spec_run (dstep c d) (mkSt t it) = Some (mkSt t' it, (d', o, w)) /\
    change t t' ids /\ newer t n ids ids' /\ crel t' v d' s' ids' /\ cloned t t' n w.
Proof.
  assert (IGN : forall t v d s ids it, crel t v d s ids ->
     exists t' d' w ids',
      spec_run (IRet (d, OIgnored, None)) (mkSt t it) = Some (mkSt t' it, (d', OIgnored, w)) /\
      change t t' ids /\ newer t None ids ids' /\ crel t' v d' s ids' /\ cloned t t' None w).
  { intros t v d s ids it C. exists t, d, None, ids. split; [reflexivity|]. split; [apply change_refl|].
    split; [intros j J; now left|]. split; [exact C|reflexivity]. }
  assert (DISC : forall t v ids it, chain t v ids ->
     exists t' d' w ids',
      spec_run (IDiscard v (IRet (DPart v, ODone, None))) (mkSt t it) = Some (mkSt t' it, (d', ODone, w)) /\
      change t t' ids /\ newer t None ids ids' /\ crel t' v d' Part ids' /\ cloned t t' None w).
  { intros t v ids it C. destruct (discard_chain _ _ _ C) as [t' [ids' [D [CH [NW C']]]]].
    exists t', (DPart v), None, ids'. cbn [spec_run st_coll]. rewrite D. cbn [on_coll_ obind spec_run st_iter].
    split; [reflexivity|]. split; [exact CH|]. split; [exact NW|]. split; [constructor; exact C'|reflexivity]. }
  induction 1 as [v x ids F|v ids C|v c0 hd G S|v c0 hd G S|v c0 hd k ch rest d s ids G S C IH O];
    intros c it s' o n H.
  - pose proof (cr_unread t v x ids F) as C. cbn [sstep] in H. cbn [dstep].
    destruct c; try (injection H as <- <- <-; now apply IGN).
    + (* enter *)
      assert (SC : is_scalar v = negb (collection x)).
      { destruct x as [sc|l e|l e]; cbn [fresh] in F.
        - destruct F as [-> _]. reflexivity.
        - destruct F as [c [root [G _]]]. destruct (s_get_nth _ _ _ _ G) as [_ ->]. reflexivity.
        - destruct F as [c [root [G _]]]. destruct (s_get_nth _ _ _ _ G) as [_ ->]. reflexivity. }
      rewrite SC. destruct (collection x) eqn:CO; cbn [negb]; injection H as <- <- <-; [|now apply IGN].
      exists t, (DInside v DNothing), None, ids. split; [reflexivity|]. split; [apply change_refl|].
      split; [intros j J; now left|]. split; [|reflexivity].
      assert (Q : exists c root, s_get t v = Some (c, mkSh x root SFresh) /\ ids = [c])
        by (destruct x; [discriminate|exact F|exact F]).
      destruct Q as [c [root [G ->]]]. change x with (s_val (mkSh x root SFresh)). now apply cr_start.
    + (* copy *)
      injection H as <- <- <-. cbn [spec_run st_coll].
      destruct x as [sc|l e|l e].
      * destruct F as [-> ->]. cbn [s_copy on_coll obind spec_run st_iter].
        exists t, (DPart (VScalar sc)), None, []. split; [reflexivity|]. split; [apply change_refl|].
        split; [intros j []|]. split; [constructor; constructor|reflexivity].
      * destruct F as [c [root [G ->]]]. destruct (s_get_nth _ _ _ _ G) as [E V]. cbn [is_object] in V.
        rewrite (s_copy_get _ _ _ _ _ G). cbn [on_coll obind spec_run st_iter].
        exists (put_state t c SDone), (DPart v), None, [c]. split; [reflexivity|]. split; [apply change_put|].
        split; [intros j J; now left|]. split; [|reflexivity]. constructor.
        eapply ch_leaf; [eapply s_get_frame; [exact G|apply put_state_same; eassumption|reflexivity]|]. right. reflexivity.
      * destruct F as [c [root [G ->]]]. destruct (s_get_nth _ _ _ _ G) as [E V]. cbn [is_object] in V.
        rewrite (s_copy_get _ _ _ _ _ G). cbn [on_coll obind spec_run st_iter].
        exists (put_state t c SDone), (DPart v), None, [c]. split; [reflexivity|]. split; [apply change_put|].
        split; [intros j J; now left|]. split; [|reflexivity]. constructor.
        eapply ch_leaf; [eapply s_get_frame; [exact G|apply put_state_same; eassumption|reflexivity]|]. right. reflexivity.
    + (* discard *)
      injection H as <- <- <-. apply DISC. eapply fresh_chain; exact F.
    + (* clone *)
      injection H as <- <- <-. cbn [spec_run st_coll].
      assert (Q : s_clone t v = Some (t ++ hof x true, vof (length t) x)).
      { destruct x as [sc|l e|l e]; cbn [fresh] in F.
        - destruct F as [-> ->]. cbn [s_clone hof vof]. now rewrite app_nil_r.
        - destruct F as [c [root [G ->]]]. exact (s_clone_get _ _ _ _ _ G).
        - destruct F as [c [root [G ->]]]. exact (s_clone_get _ _ _ _ _ G). }
      rewrite Q. cbn [on_coll obind spec_run st_iter].
      exists (t ++ hof x true), (DUnread v), (Some (vof (length t) x)), ids. split; [reflexivity|].
      split; [apply change_app|]. split; [intros j J; now left|]. split.
      * constructor. eapply fresh_frame; [exact F|]. intros j J.
        apply nth_error_app_l. apply (proj2 (chain_ids _ _ _ (fresh_chain _ _ _ _ F))). exact J.
      * cbn [cloned]. exists (vof (length t) x), (iof (length t) x). split; [reflexivity|]. split; [apply alloc_fresh|].
        intros j J. pose proof (iof_in _ _ _ J) as ->. split; [lia|].
        destruct x as [sc|l e|l e]; cbn [iof] in J; [destruct J| |]; eexists; (split; [apply nth_error_app_last|reflexivity]).
  - pose proof (cr_part t v ids C) as CR. cbn [sstep] in H. cbn [dstep].
    destruct c; try (injection H as <- <- <-; now apply IGN).
    injection H as <- <- <-. now apply DISC.
  - pose proof (cr_start t v c0 hd G S) as CR. cbn [sstep inside] in H. cbn [dstep dinside].
    destruct c; try (injection H as <- <- <-; cbn [dstep ibind]; now apply IGN).
    + destruct (next_step t it v DNothing Nothing (items (s_val hd)) [c0] CR) as [t' [ids' [d' [R [CH [NW C']]]]]].
      exists t', d', None, ids'.
      destruct (items (s_val hd)) as [|[k x] rest']; injection H as <- <- <-; (split; [exact R|]); repeat split; auto; apply CH.
    + injection H as <- <- <-. exists t, (DPart v), None, [c0]. split; [reflexivity|]. split; [apply change_refl|].
      split; [intros j J; now left|]. split; [|reflexivity]. constructor. eapply ch_leaf; eauto.
  - pose proof (cr_done t v c0 hd G S) as CR. cbn [sstep inside] in H. cbn [dstep dinside].
    destruct c; try (injection H as <- <- <-; cbn [dstep ibind]; now apply IGN).
    + destruct (next_step t it v DNothing Nothing [] [c0] CR) as [t' [ids' [d' [R [CH [NW C']]]]]].
      exists t', d', None, ids'. injection H as <- <- <-. (split; [exact R|]); repeat split; auto; apply CH.
    + injection H as <- <- <-. exists t, (DPart v), None, [c0]. split; [reflexivity|]. split; [apply change_refl|].
      split; [intros j J; now left|]. split; [|reflexivity]. constructor. eapply ch_leaf; eauto.
  - pose proof (cr_at t v c0 hd k ch rest d s ids G S C O) as CR.
    assert (NI : ~ In c0 ids) by (intro J; destruct (O _ J); lia).
    assert (REC : forall s1 o1 n1, sstep c s = (s1, o1, n1) ->
      exists t' d' w ids',
       spec_run (ibind (dstep c d) (fun '(d1, o2, n2) => IRet (DInside v d1, o2, n2))) (mkSt t it) = Some (mkSt t' it, (d', o1, w)) /\
       change t t' (c0 :: ids) /\ newer t n1 (c0 :: ids) ids' /\ crel t' v d' (Inside rest s1) ids' /\ cloned t t' n1 w).
    { intros s1 o1 n1 H1. destruct (IH c it s1 o1 n1 H1) as [t' [d' [w [ids' [R [CH [NW [C' CL]]]]]]]].
      exists t', (DInside v d'), w, (c0 :: ids'). rewrite spec_bind, R. cbn [obind spec_run].
      split; [reflexivity|]. split; [eapply change_weaken; [exact CH|apply incl_tl, incl_refl]|].
      split; [|split; [|exact CL]].
      - intros j [<-|J]; [left; now left|]. destruct (NW j J); [left; now right|now right].
      - eapply crel_down; [exact G|exact S|exact O|exact CH|exact NW|exact C'| |exact NI|exact C].
        intros j J L.
        pose proof (same_head _ _ _ _ _ (crel_chain _ _ _ _ _ C) (crel_chain _ _ _ _ _ C')) as HH.
        pose proof (crel_nonroot _ _ _ _ _ C') as NR.
        destruct ids' as [|a ids']; [destruct J|]. destruct ids as [|b ids]; [destruct HH|]. subst b.
        destruct J as [<-|J]; [|now apply NR].
        destruct (O a (or_introl eq_refl)) as [_ [hd' [E' _]]]. apply nth_error_lt in E'. lia. }
    cbn [sstep] in H. cbn [dstep]. rewrite (dinside_inside _ _ _ _ _ C).
    destruct (inside s) eqn:IN.
    + destruct (sstep c s) as [[s1 o1] n1]. injection H as <- <- <-. now apply REC.
    + assert (H2 : forall z, (let '(s1, o1, n1) := sstep c s in (Inside rest s1, o1, n1)) = z -> z = (s', o, n) ->
         exists t' d' w ids',
          spec_run (ibind (dstep c d) (fun '(d1, o2, n2) => IRet (DInside v d1, o2, n2))) (mkSt t it) = Some (mkSt t' it, (d', o, w)) /\
          change t t' (c0 :: ids) /\ newer t n (c0 :: ids) ids' /\ crel t' v d' s' ids' /\ cloned t t' n w).
      { intros z Z1 Z2. destruct (sstep c s) as [[s1 o1] n1]. subst z. injection Z2 as <- <- <-. now apply REC. }
      destruct c; try (eapply H2; [reflexivity|exact H]).
      * destruct (next_step t it v d s rest (c0 :: ids) CR) as [t' [ids' [d' [R [CH [NW C']]]]]].
        exists t', d', None, ids'.
        destruct rest as [|[k' x] rest']; injection H as <- <- <-; (split; [exact R|]); repeat split; auto; apply CH.
      * injection H as <- <- <-. exists t, (DPart v), None, (c0 :: ids). split; [reflexivity|]. split; [apply change_refl|].
        split; [intros j J; now left|]. split; [|reflexivity]. constructor. eapply crel_chain; exact CR.
Qed.

(* ------------------------------------------------------------------ *)
(** All the readers. *)
Inductive rr (t : list shandle) (it : list siter) : dreader -> reader -> list nat -> Prop :=
| rr_before : forall root rest, it = [mkSi root (SIAt rest None)] ->
    rr t it (DStream 0 DNothing) (RStream rest Nothing) []
| rr_end : forall root, it = [mkSi root SIEnd] ->
    rr t it (DStream 0 DNothing) (RStream [] Nothing) []
| rr_at : forall root rest v d s ids, it = [mkSi root (SIAt rest (Some v))] -> crel t v d s ids ->
    (forall j, In j ids -> nonroot t j) -> rr t it (DStream 0 d) (RStream rest s) ids
| rr_clone : forall v d s ids, crel t v d s ids ->
    (forall c ids1, ids = c :: ids1 -> exists hd, nth_error t c = Some hd /\ s_root hd = true) ->
    rr t it (DClone v d) (RClone s) ids
| rr_gone : rr t it DGone RGone [].

Definition streamy (r : dreader) : bool := match r with DStream _ _ => true | _ => false end.

Lemma rr_ids : forall t it d r ids, rr t it d r ids -> forall j, In j ids -> j < length t.
Proof.
  intros t it d r ids R j J. destruct R; try (now destruct J);
  match goal with C : crel _ _ _ _ _ |- _ => apply crel_chain in C; now apply (chain_ids _ _ _ C) end.
Qed.

Lemma rr_frame : forall t it d r ids t' it', rr t it d r ids -> agree t t' ids -> (streamy d = true -> it' = it) ->
  rr t' it' d r ids.
Proof.
  intros t it d r ids t' it' R A I. destruct R as [root rest E|root E|root rest v d s ids E C N|v d s ids C N|].
  - eapply rr_before. rewrite I by reflexivity. exact E.
  - eapply rr_end. rewrite I by reflexivity. exact E.
  - eapply rr_at; [rewrite I by reflexivity; exact E|eapply crel_frame; eauto|].
    intros j J. eapply nonroot_agree; [apply A; exact J|auto].
  - eapply rr_clone; [eapply crel_frame; eauto|]. intros c ids1 ->. rewrite (A c (or_introl eq_refl)). eauto.
  - constructor.
Qed.

Lemma nothing_step : forall c, sstep c Nothing = (Nothing, OIgnored, None) /\
  dstep c DNothing = IRet (DNothing, OIgnored, None).
Proof. destruct c; split; reflexivity. Qed.

Lemma cloned_none : forall t t' w, cloned t t' None w -> w = None.
Proof. auto. Qed.

Definition newreader (n : option jval) : list reader := match n with Some x => [RClone (Unread x)] | None => [] end.
Definition newd (w : option value) : list dreader := match w with Some v => [DClone v (DUnread v)] | None => [] end.

Lemma s_detach_get : forall t v c hd, s_get t v = Some (c, hd) -> s_root hd = true -> s_state hd <> SDead ->
  s_detach t v = Some (put_state (kill_opt (S c) t (child_of (s_state hd))) c SDead).
Proof.
  intros t [s|j|j] c hd G R S; [discriminate| |]; unfold s_detach; rewrite G, R; destruct (s_state hd); auto; congruence.
Qed.

Lemma detach_chain : forall t v ids, chain t v ids ->
  (forall c ids1, ids = c :: ids1 -> exists hd, nth_error t c = Some hd /\ s_root hd = true) ->
  exists t', s_detach t v = Some t' /\ change t t' ids.
Proof.
  intros t v ids C R. inversion C as [s|? c hd G S|? c hd k ch rest ids1 G S C1 O]; subst.
  - exists t. split; [reflexivity|apply change_refl].
  - destruct (s_get_nth _ _ _ _ G) as [E _]. destruct (R c [] eq_refl) as [hd' [E' R']].
    assert (hd' = hd) by congruence. subst hd'.
    eexists. split; [eapply s_detach_get; eauto; destruct S; congruence|].
    assert (CO : child_of (s_state hd) = None) by (destruct S as [-> | ->]; reflexivity).
    rewrite CO. cbn [kill_opt]. apply change_put.
  - destruct (s_get_nth _ _ _ _ G) as [E _]. destruct (R c ids1 eq_refl) as [hd' [E' R']].
    assert (hd' = hd) by congruence. subst hd'.
    assert (K : killed t (kill_opt (Datatypes.S c) t (Some ch)) ids1).
    { apply chain_kill_opt; [exact C1|]. intros j J. destruct (O j J). split; [lia|auto]. }
    eexists. split; [eapply s_detach_get; eauto; congruence|]. rewrite S. cbn [child_of].
    eapply change_trans; [eapply change_weaken; [apply change_killed; exact K|apply incl_tl, incl_refl]|].
    eapply change_weaken; [apply change_put|]. intros j [<-|[]]. now left.
Qed.

Lemma rr_fresh : forall t it v x ids, fresh t v x ids ->
  (forall j, In j ids -> exists hd, nth_error t j = Some hd /\ s_root hd = true) ->
  rr t it (DClone v (DUnread v)) (RClone (Unread x)) ids.
Proof.
  intros t it v x ids F R. constructor; [constructor; exact F|]. intros c ids1 ->. apply R. now left.
Qed.

(** The iterator moves on. *)
Lemma iter_step : forall t it d s rest ids, rr t it (DStream 0 d) (RStream rest s) ids ->
  exists t' it' d' ids',
    spec_run (IIterAdvance 0 (fun b =>
              if b then
                IIterCurrent 0 (fun x =>
                  match x with
                  | Some ch => IRet (DStream 0 (DUnread ch), OItem None (shape_of_value ch), None)
                  | None => IPanic
                  end)
              else IRet (DStream 0 DNothing, OEnd, @None value))) (mkSt t it)
    = Some (mkSt t' it', (d', match rest with [] => OEnd | x :: _ => OItem None (shape_of x) end, None)) /\
    change t t' ids /\ newer t None ids ids' /\ streamy d' = true /\
    rr t' it' d' (match rest with [] => RStream [] Nothing | x :: rest' => RStream rest' (Unread x) end) ids'.
Proof.
  intros t it d s rest ids R.
  assert (MOVE : forall root cur tk, it = [mkSi root (SIAt rest cur)] -> killed t tk ids -> tk = kill_opt 0 t cur ->
   exists t' it' d' ids',
    spec_run (IIterAdvance 0 (fun b =>
              if b then
                IIterCurrent 0 (fun x =>
                  match x with
                  | Some ch => IRet (DStream 0 (DUnread ch), OItem None (shape_of_value ch), None)
                  | None => IPanic
                  end)
              else IRet (DStream 0 DNothing, OEnd, @None value))) (mkSt t it)
    = Some (mkSt t' it', (d', match rest with [] => OEnd | x :: _ => OItem None (shape_of x) end, None)) /\
    change t t' ids /\ newer t None ids ids' /\ streamy d' = true /\
    rr t' it' d' (match rest with [] => RStream [] Nothing | x :: rest' => RStream rest' (Unread x) end) ids').
  { intros root cur tk -> K TK. cbn [spec_run]. unfold si_advance. cbn [st_iter nth_error si_state st_coll].
    rewrite <- TK. assert (CK := change_killed _ _ _ K).
    destruct rest as [|x rest'].
    - cbn [obind spec_run upd si_root]. eexists _, _, _, []. split; [reflexivity|]. split; [exact CK|].
      split; [intros j []|]. split; [reflexivity|]. eapply rr_end. reflexivity.
    - rewrite alloc_of. cbn [obind spec_run upd si_root]. unfold si_current. cbn [st_iter nth_error si_state spec_run].
      pose proof (alloc_fresh tk false x) as F. rewrite (shape_fresh _ _ _ _ F).
      eexists _, _, _, (iof (length tk) x). split; [reflexivity|].
      split; [eapply change_trans; [exact CK|apply change_app]|].
      split; [intros j J; apply iof_in in J; subst j; right; rewrite (proj1 K); split; [lia|reflexivity]|]. split; [reflexivity|].
      eapply rr_at; [reflexivity|constructor; exact F|]. intros j J. pose proof (iof_in _ _ _ J) as ->.
      destruct x as [sc|l e|l e]; cbn [iof] in J; [destruct J| |]; eexists; (split; [apply nth_error_app_last|reflexivity]). }
  inversion R as [root rest0 E|root E|root rest0 v d0 s0 ids0 E C N| |]; subst.
  - eapply (MOVE root None t eq_refl); [|reflexivity]. split; [reflexivity|]. intro j. split; [intros []|auto].
  - cbn [spec_run]. unfold si_advance. cbn [st_iter nth_error si_state obind spec_run].
    eexists _, _, _, []. split; [reflexivity|]. split; [apply change_refl|]. split; [intros j []|]. split; [reflexivity|exact R].
  - eapply (MOVE root (Some v) _ eq_refl); [|reflexivity]. apply chain_kill_opt; [eapply crel_chain; exact C|].
    intros j J. split; [lia|auto].
Qed.

Lemma rr_step : forall t it d r ids, rr t it d r ids -> forall c r' o n, rstep c r = (r', o, n) ->
  exists t' it' d' w ids',
    spec_run (drstep c d) (mkSt t it) = Some (mkSt t' it', (d', o, w)) /\
    change t t' ids /\ newer t n ids ids' /\ rr t' it' d' r' ids' /\ cloned t t' n w /\
    streamy d' = streamy d /\ (streamy d = false -> it' = it).
Proof.
  intros t it d r ids R c r' o n H.
  assert (CREL : forall v d0 s0 s1 o1 n1, crel t v d0 s0 ids -> sstep c s0 = (s1, o1, n1) ->
    exists t' d' w ids',
     spec_run (dstep c d0) (mkSt t it) = Some (mkSt t' it, (d', o1, w)) /\
     change t t' ids /\ newer t n1 ids ids' /\ crel t' v d' s1 ids' /\ cloned t t' n1 w)
   by (intros; eapply dstep_ok; eauto).
  destruct r as [rest s|s|].
  - (* the stream *)
    assert (X : exists d0, d = DStream 0 d0 /\ dinside d0 = inside s).
    { inversion R; subst; eauto using dinside_inside. }
    destruct X as [d0 [-> IN]]. cbn [rstep] in H. cbn [drstep]. rewrite IN.
    assert (DOWN : forall s1 o1 n1, sstep c s = (s1, o1, n1) ->
      exists t' it' d' w ids',
       spec_run (ibind (dstep c d0) (fun '(d1, o2, n2) => IRet (DStream 0 d1, o2, n2))) (mkSt t it) = Some (mkSt t' it', (d', o1, w)) /\
       change t t' ids /\ newer t n1 ids ids' /\ rr t' it' d' (RStream rest s1) ids' /\ cloned t t' n1 w /\
       streamy d' = true /\ (true = false -> it' = it)).
    { intros s1 o1 n1 H1.
      inversion R as [root rest0 E|root E|root rest0 v d1 s2 ids0 E C N| |]; subst.
      - destruct (nothing_step c) as [N1 N2]. rewrite N1 in H1. injection H1 as <- <- <-. rewrite N2. cbn [ibind spec_run].
        eexists _, _, _, _, []. split; [reflexivity|]. split; [apply change_refl|]. split; [intros j []|].
        split; [exact R|]. split; [reflexivity|]. split; [reflexivity|discriminate].
      - destruct (nothing_step c) as [N1 N2]. rewrite N1 in H1. injection H1 as <- <- <-. rewrite N2. cbn [ibind spec_run].
        eexists _, _, _, _, []. split; [reflexivity|]. split; [apply change_refl|]. split; [intros j []|].
        split; [exact R|]. split; [reflexivity|]. split; [reflexivity|discriminate].
      - destruct (CREL v d0 s s1 o1 n1 C H1) as [t' [d' [w [ids' [Q [CH [NW [C' CL]]]]]]]].
        exists t', [mkSi root (SIAt rest (Some v))], (DStream 0 d'), w, ids'. rewrite spec_bind, Q. cbn [obind spec_run].
        split; [reflexivity|]. split; [exact CH|]. split; [exact NW|]. split; [|split; [exact CL|split; [reflexivity|discriminate]]].
        eapply rr_at; [reflexivity|exact C'|].
        intros j J. pose proof (crel_nonroot _ _ _ _ _ C') as NR.
        pose proof (same_head _ _ _ _ _ (crel_chain _ _ _ _ _ C) (crel_chain _ _ _ _ _ C')) as HH.
        destruct ids' as [|a ids']; [destruct J|]. destruct ids as [|b ids]; [destruct HH|]. subst b.
        destruct J as [<-|J]; [|now apply NR].
        eapply nonroot_change; [exact CH|]. apply N. now left. }
    assert (H2 : forall z, (let '(s1, o1, n1) := sstep c s in (RStream rest s1, o1, n1)) = z -> z = (r', o, n) ->
      exists t' it' d' w ids',
       spec_run (ibind (dstep c d0) (fun '(d1, o2, n2) => IRet (DStream 0 d1, o2, n2))) (mkSt t it) = Some (mkSt t' it', (d', o, w)) /\
       change t t' ids /\ newer t n ids ids' /\ rr t' it' d' r' ids' /\ cloned t t' n w /\
       streamy d' = streamy (DStream 0 d0) /\ (streamy (DStream 0 d0) = false -> it' = it)).
    { intros z Z1 Z2. destruct (sstep c s) as [[s1 o1] n1]. subst z. injection Z2 as <- <- <-. now apply DOWN. }
    destruct (inside s); [eapply H2; [reflexivity|exact H]|].
    destruct c; try (eapply H2; [reflexivity|exact H]).
    destruct (iter_step t it d0 s rest ids R) as [t' [it' [d' [ids' [Q [CH [NW [ST R']]]]]]]].
    exists t', it', d', None, ids'.
    destruct rest as [|x rest']; injection H as <- <- <-; (split; [exact Q|]); repeat split; auto; try apply CH; discriminate.
  - (* a clone *)
    inversion R as [| | |v d0 s0 ids0 C N|]; subst. cbn [rstep] in H. cbn [drstep].
    assert (H2 : forall z, (let '(s1, o1, n1) := sstep c s in (RClone s1, o1, n1)) = z -> z = (r', o, n) ->
      exists t' it' d' w ids',
       spec_run (ibind (dstep c d0) (fun '(d1, o2, n2) => IRet (DClone v d1, o2, n2))) (mkSt t it) = Some (mkSt t' it', (d', o, w)) /\
       change t t' ids /\ newer t n ids ids' /\ rr t' it' d' r' ids' /\ cloned t t' n w /\
       streamy d' = false /\ (false = false -> it' = it)).
    { intros z Z1 Z2. destruct (sstep c s) as [[s1 o1] n1] eqn:SS. subst z. injection Z2 as <- <- <-.
      destruct (CREL v d0 s s1 o1 n1 C SS) as [t' [d' [w [ids' [Q [CH [NW [C' CL]]]]]]]].
      exists t', it, (DClone v d'), w, ids'. rewrite spec_bind, Q. cbn [obind spec_run].
      split; [reflexivity|]. split; [exact CH|]. split; [exact NW|]. split; [|split; [exact CL|split; [reflexivity|reflexivity]]].
      constructor; [exact C'|]. intros c1 ids1 ->.
      pose proof (same_head _ _ _ _ _ (crel_chain _ _ _ _ _ C) (crel_chain _ _ _ _ _ C')) as HH.
      destruct ids as [|b ids]; [destruct HH|]. subst b. destruct (N c1 ids eq_refl) as [hd [E RT]].
      destruct (cg_kept _ _ _ CH c1 hd E) as [hd' [E' [_ RT']]]. exists hd'. split; [exact E'|congruence]. }
    destruct c; try (eapply H2; [reflexivity|exact H]).
    injection H as <- <- <-. destruct (detach_chain t v ids (crel_chain _ _ _ _ _ C) N) as [t' [D CH]].
    exists t', it, DGone, None, []. cbn [spec_run st_coll]. rewrite D. cbn [on_coll_ obind spec_run st_iter].
    split; [reflexivity|]. split; [exact CH|]. split; [intros j []|]. split; [constructor|].
    split; [reflexivity|]. split; reflexivity.
  - inversion R; subst. cbn [rstep] in H. injection H as <- <- <-. cbn [drstep spec_run].
    exists t, it, DGone, None, []. split; [reflexivity|]. split; [apply change_refl|]. split; [intros j []|].
    split; [constructor|]. split; [reflexivity|]. split; reflexivity.
Qed.

Record readers_rel (t : list shandle) (it : list siter) (ds : list dreader) (rs : list reader) (f : nat -> list nat) : Prop := mkRR {
  rd_len : length ds = length rs;
  rd_each : forall i d r, nth_error ds i = Some d -> nth_error rs i = Some r -> rr t it d r (f i);
  rd_disj : forall i j x, i < length ds -> j < length ds -> i <> j -> In x (f i) -> ~ In x (f j);
  rd_stream : forall i d, nth_error ds i = Some d -> streamy d = true -> i = 0
}.

Lemma readers_step : forall t it ds rs f, readers_rel t it ds rs f -> forall a rs' o, step_readers rs a = (rs', o) ->
  exists t' it' ds' f', spec_run (dstep_readers ds a) (mkSt t it) = Some (mkSt t' it', (ds', o)) /\
    readers_rel t' it' ds' rs' f'.
Proof.
  intros t it ds rs f [LEN EACH DISJ STR] [i c] rs' o H. unfold step_readers in H. cbn [fst snd] in H.
  unfold dstep_readers. cbn [fst snd].
  destruct (nth_error rs i) as [r|] eqn:RI.
  2:{ assert (DI : nth_error ds i = None) by (apply nth_error_None in RI; apply nth_error_None; lia).
      rewrite DI. injection H as <- <-. exists t, it, ds, f. split; [reflexivity|]. constructor; auto. }
  assert (LI : i < length ds) by (apply nth_error_lt in RI; lia).
  destruct (nth_error ds i) as [d|] eqn:DI; [|apply nth_error_None in DI; lia].
  destruct (rstep c r) as [[r' o'] n] eqn:RS. injection H as <- <-.
  destruct (rr_step t it d r (f i) (EACH i d r DI RI) c r' o' n RS) as [t' [it' [d' [w [ids' [Q [CH [NW [R' [CL [ST IT]]]]]]]]]]].
  rewrite spec_bind, Q. cbn [obind spec_run].
  (* the other readers *)
  assert (OTHER : forall j dj rj, j <> i -> nth_error ds j = Some dj -> nth_error rs j = Some rj ->
            rr t' it' dj rj (f j) /\ (forall x, In x (f j) -> x < length t /\ ~ In x ids')).
  { intros j dj rj NE DJ RJ. pose proof (EACH j dj rj DJ RJ) as RRj.
    assert (LJ : j < length ds) by (eapply nth_error_lt; exact DJ).
    split.
    - eapply rr_frame; [exact RRj| |].
      + intros x X. apply (cg_same _ _ _ CH); [eapply rr_ids; eauto|]. eapply DISJ; [exact LJ|exact LI|exact NE|exact X].
      + intro SJ. apply IT. destruct (streamy d) eqn:SD; [|reflexivity]. exfalso. apply NE.
        rewrite (STR _ _ DJ SJ), (STR _ _ DI SD). reflexivity.
    - intros x X. split; [eapply rr_ids; eauto|]. intro X'. destruct (NW x X') as [I|[I _]].
      + exact (DISJ j i x LJ LI NE X I).
      + pose proof (rr_ids _ _ _ _ _ RRj x X). lia. }
  assert (STR' : forall j dj, nth_error (upd ds i d') j = Some dj -> streamy dj = true -> j = 0).
  { intros j dj DJ SJ. destruct (Nat.eq_dec i j) as [<-|NE].
    - rewrite nth_error_upd_same in DJ by exact LI. injection DJ as <-. rewrite ST in SJ. eapply STR; eauto.
    - rewrite nth_error_upd_other in DJ by exact NE. eauto. }
  set (f0 := fun j => if Nat.eq_dec j i then ids' else f j).
  assert (F0i : f0 i = ids') by (unfold f0; destruct (Nat.eq_dec i i); congruence).
  assert (F0j : forall j, j <> i -> f0 j = f j) by (intros j NE; unfold f0; destruct (Nat.eq_dec j i); congruence).
  assert (EACH0 : forall j dj rj, nth_error (upd ds i d') j = Some dj -> nth_error (upd rs i r') j = Some rj -> rr t' it' dj rj (f0 j)).
  { intros j dj rj DJ RJ. destruct (Nat.eq_dec i j) as [<-|NE].
    - rewrite nth_error_upd_same in DJ by exact LI. rewrite nth_error_upd_same in RJ by lia.
      injection DJ as <-. injection RJ as <-. now rewrite F0i.
    - rewrite nth_error_upd_other in DJ, RJ by exact NE. rewrite F0j by congruence. apply (OTHER j dj rj); auto. }
  assert (DISJ0 : forall j k x, j < length ds -> k < length ds -> j <> k -> In x (f0 j) -> ~ In x (f0 k)).
  { assert (SYM : forall k x, k < length ds -> k <> i -> In x (f k) -> ~ In x ids').
    { intros k x LK NE X. destruct (nth_error ds k) as [dk|] eqn:DK; [|apply nth_error_None in DK; lia].
      destruct (nth_error rs k) as [rk|] eqn:RK; [|apply nth_error_None in RK; lia].
      now apply (proj2 (OTHER k dk rk NE DK RK) x X). }
    intros j k x LJ LK NE X. destruct (Nat.eq_dec j i) as [->|NJ].
    - rewrite F0i in X. rewrite F0j by congruence. intro Y. exact (SYM k x LK (fun e => NE (eq_sym e)) Y X).
    - rewrite F0j in X by exact NJ. destruct (Nat.eq_dec k i) as [->|NK].
      + rewrite F0i. now apply (SYM j x LJ NJ).
      + rewrite F0j by exact NK. exact (DISJ j k x LJ LK NE X). }
  destruct n as [x|]; cbn [cloned] in CL.
  - destruct CL as [v [nid [-> [FR NEW]]]].
    exists t', it', (upd ds i d' ++ [DClone v (DUnread v)]).
    exists (fun j => if Nat.eq_dec j (length ds) then nid else f0 j). split; [reflexivity|].
    set (f1 := fun j => if Nat.eq_dec j (length ds) then nid else f0 j).
    assert (F1n : f1 (length ds) = nid) by (unfold f1; destruct (Nat.eq_dec (length ds) (length ds)); congruence).
    assert (F1o : forall j, j < length ds -> f1 j = f0 j) by (intros j L; unfold f1; destruct (Nat.eq_dec j (length ds)); [lia|reflexivity]).
    (* the new handle is new *)
    assert (NN : forall j y, j < length ds -> In y (f0 j) -> ~ In y nid).
    { intros j y LJ Y YN. destruct (NEW y YN) as [GE [hd [E RT]]].
      destruct (nth_error (upd ds i d') j) as [dj|] eqn:DJ; [|apply nth_error_None in DJ; rewrite upd_length in DJ; lia].
      destruct (nth_error (upd rs i r') j) as [rj|] eqn:RJ; [|apply nth_error_None in RJ; rewrite upd_length in RJ; lia].
      destruct (Nat.eq_dec j i) as [->|NE].
      - rewrite F0i in Y.
        destruct (NW y Y) as [I|[_ I]]; [|discriminate].
        pose proof (rr_ids _ _ _ _ _ (EACH i d r DI RI) y I). lia.
      - rewrite F0j in Y by exact NE. rewrite nth_error_upd_other in DJ, RJ by congruence.
        destruct (proj2 (OTHER j dj rj NE DJ RJ) y Y). lia. }
    assert (LU : length (upd ds i d') = length ds) by apply upd_length.
    assert (LV : length (upd rs i r') = length ds) by (rewrite upd_length; auto).
    assert (SPL : forall A (l : list A) a j z, length l = length ds -> nth_error (l ++ [a]) j = Some z ->
              (j < length ds /\ nth_error l j = Some z) \/ (j = length ds /\ z = a)).
    { intros A l a j z L Z. destruct (Nat.lt_ge_cases j (length ds)) as [LT|GE].
      - left. rewrite nth_error_app_l in Z by lia. auto.
      - right. assert (j = length ds).
        { apply nth_error_lt in Z. rewrite app_length in Z. cbn in Z. lia. }
        subst j. rewrite <- L, nth_error_app_last in Z. injection Z as <-. auto. }
    constructor.
    + rewrite !app_length. cbn [length]. lia.
    + intros j dj rj DJ RJ. fold f1. destruct (SPL _ _ _ _ _ LU DJ) as [[LT DJ']|[-> ->]];
      destruct (SPL _ _ _ _ _ LV RJ) as [[LT2 RJ']|[E2 ->]]; try lia.
      * rewrite F1o by exact LT. auto.
      * rewrite F1n. apply rr_fresh; [exact FR|]. intros y Y. now apply NEW.
    + fold f1. rewrite app_length. cbn [length]. rewrite LU. intros j k y LJ LK NE Y.
      destruct (Nat.eq_dec j (length ds)) as [->|NJ].
      * rewrite F1n in Y. rewrite F1o by lia. intro Y2. exact (NN k y ltac:(lia) Y2 Y).
      * rewrite F1o in Y by lia. destruct (Nat.eq_dec k (length ds)) as [->|NK].
        -- rewrite F1n. apply (NN j); [lia|exact Y].
        -- rewrite F1o by lia. apply (DISJ0 j k); auto; lia.
    + intros j dj DJ SJ. destruct (SPL _ _ _ _ _ LU DJ) as [[LT DJ']|[-> ->]]; [eauto|discriminate].
  - subst w. exists t', it', (upd ds i d'), f0. rewrite !app_nil_r. split; [reflexivity|].
    constructor; auto.
    + rewrite !upd_length. exact LEN.
    + rewrite upd_length. exact DISJ0.
Qed.

Lemma run_script_ok : forall l t it ds rs f, readers_rel t it ds rs f ->
  exists st', spec_run (run_script ds l) (mkSt t it) = Some (st', run_readers rs l).
Proof.
  induction l as [|a l IH]; intros t it ds rs f R; cbn [run_script run_readers spec_run].
  - eauto.
  - destruct (step_readers rs a) as [rs' o] eqn:SR.
    destruct (readers_step _ _ _ _ _ R a rs' o SR) as [t' [it' [ds' [f' [Q R']]]]].
    rewrite spec_bind, Q. cbn [obind]. rewrite spec_bind.
    destruct (IH t' it' ds' rs' f' R') as [st' Q']. rewrite Q'. cbn [obind spec_run]. eauto.
Qed.

Theorem script_ok : forall vs l, exists st', spec_run (script l) (spec_start vs) = Some (st', run_readers (readers_of vs) l).
Proof.
  intros vs l. eapply run_script_ok with (f := fun _ => []). constructor.
  - reflexivity.
  - intros [|[|i]] d r D R; cbn in D, R; try discriminate. injection D as <-. injection R as <-.
    eapply rr_before. reflexivity.
  - intros i j x _ _ _ [].
  - intros [|[|i]] d D _; cbn in D; [reflexivity|discriminate|discriminate].
Qed.


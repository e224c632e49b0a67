(** Reasoning about programs that use iterators in a structured way, on top of
    the specification of the iterators. *)
From Coq Require Import List ZArith Arith Bool Lia.
From Verif Require Import Base Tokens JsonSpec EncSpec IterModel IterSpec IterCore IterThr IterRel ScriptSpec ScriptProofs.

(** A collection with the items [rest] still to come. *)
Definition opened (t : list shandle) (v : value) (rest : list (option scalar * jval)) (ids : list nat) : Prop :=
  exists c hd, s_get t v = Some (c, hd) /\
    ((s_state hd = SFresh /\ rest = items (s_val hd) /\ ids = [c]) \/
     (s_state hd = SDone /\ rest = [] /\ ids = [c]) \/
     exists k ch ids1, s_state hd = SAt k ch rest /\ chain t ch ids1 /\ ids = c :: ids1 /\
        (forall j, In j ids1 -> c < j /\ nonroot t j)).

(** A collection whose current item is [ch]. *)
Definition atc (t : list shandle) (v : value) (c : nat) (k : option scalar) (ch : value) (rest : list (option scalar * jval)) : Prop :=
  exists hd, s_get t v = Some (c, hd) /\ s_state hd = SAt k ch rest.

Definition sep (a b : list nat) : Prop := forall j, In j a -> ~ In j b.
Definition above (n : nat) (a : list nat) : Prop := forall j, In j a -> n <= j.

Lemma sep_sym : forall a b, sep a b -> sep b a.
Proof. intros a b S j J K. exact (S j K J). Qed.

Lemma opened_chain : forall t v rest ids, opened t v rest ids -> chain t v ids.
Proof.
  intros t v rest ids [c [hd [G [[S [_ ->]]|[[S [_ ->]]|[k [ch [ids1 [S [C [-> O]]]]]]]]]]]; eauto using ch_leaf, ch_at.
Qed.

Lemma chain_lt : forall t v ids j, chain t v ids -> In j ids -> j < length t.
Proof. intros t v ids j C J. now apply (proj2 (chain_ids _ _ _ C)). Qed.
Lemma fresh_lt : forall t v x ids j, fresh t v x ids -> In j ids -> j < length t.
Proof. intros. eapply chain_lt; [eapply fresh_chain; eassumption|assumption]. Qed.
Lemma opened_lt : forall t v r ids j, opened t v r ids -> In j ids -> j < length t.
Proof. intros. eapply chain_lt; [eapply opened_chain; eassumption|assumption]. Qed.

Lemma opened_frame : forall t t' v rest ids, opened t v rest ids -> agree t t' ids -> opened t' v rest ids.
Proof.
  intros t t' v rest ids [c [hd [G H]]] A. destruct (s_get_nth _ _ _ _ G) as [E _].
  exists c, hd. split.
  - eapply s_get_frame; [exact G| |reflexivity]. rewrite A; [exact E|].
    destruct H as [[_ [_ ->]]|[[_ [_ ->]]|[k [ch [ids1 [_ [_ [-> _]]]]]]]]; now left.
  - destruct H as [H|[H|[k [ch [ids1 [S [C [-> O]]]]]]]]; auto. right. right.
    exists k, ch, ids1. split; [exact S|]. split; [eapply chain_frame; [exact C|intros j J; apply A; now right]|].
    split; [reflexivity|]. intros j J. destruct (O j J). split; [auto|].
    eapply nonroot_agree; [apply A; now right|auto].
Qed.

Lemma opened_fresh : forall t v x ids, fresh t v x ids -> collection x = true -> opened t v (items x) ids.
Proof.
  intros t v x ids F C. assert (Q : exists c root, s_get t v = Some (c, mkSh x root SFresh) /\ ids = [c])
    by (destruct x; [discriminate|exact F|exact F]).
  destruct Q as [c [root [G ->]]]. exists c, (mkSh x root SFresh). split; [exact G|]. left. auto.
Qed.

Lemma atc_current : forall t v c k ch rest, atc t v c k ch rest -> s_current t v = Some (k, Some ch).
Proof. intros t v c k ch rest [hd [G S]]. unfold s_current. now rewrite G, S. Qed.

Lemma atc_lt : forall t v c k ch rest, atc t v c k ch rest -> c < length t.
Proof. intros t v c k ch rest [hd [G S]]. destruct (s_get_nth _ _ _ _ G) as [E _]. eapply nth_error_lt; exact E. Qed.

Lemma atc_frame : forall t t' v c k ch rest, atc t v c k ch rest -> nth_error t' c = nth_error t c -> atc t' v c k ch rest.
Proof.
  intros t t' v c k ch rest [hd [G S]] E. exists hd. split; [|exact S]. destruct (s_get_nth _ _ _ _ G) as [E0 _].
  eapply s_get_frame; [exact G|congruence|reflexivity].
Qed.

Lemma atc_opened : forall t v c k ch rest idc, atc t v c k ch rest -> chain t ch idc ->
  (forall j, In j idc -> c < j /\ nonroot t j) -> opened t v rest (c :: idc).
Proof.
  intros t v c k ch rest idc [hd [G S]] C O. exists c, hd. split; [exact G|]. right. right. exists k, ch, idc. auto.
Qed.

Lemma adv_opened : forall t v rest ids, opened t v rest ids ->
  exists t' b, s_advance t v = Some (t', b) /\ change t t' ids /\
  match rest with
  | [] => b = false /\ exists ids', opened t' v [] ids' /\ incl ids' ids
  | (k, y) :: rest' => b = true /\ exists c ch idc, atc t' v c k ch rest' /\ fresh t' ch y idc /\ In c ids /\
       above (length t) idc /\ (forall j, In j idc -> nonroot t' j)
  end.
Proof.
  assert (MOVE : forall t v c hd tk ids rest, s_get t v = Some (c, hd) -> killed t tk ids -> ~ In c ids ->
    exists t' b, s_move tk c rest = (t', b) /\ change t t' (c :: ids) /\
    match rest with
    | [] => b = false /\ exists ids', opened t' v [] ids' /\ incl ids' (c :: ids)
    | (k, y) :: rest' => b = true /\ exists c0 ch idc, atc t' v c0 k ch rest' /\ fresh t' ch y idc /\ In c0 (c :: ids) /\
         above (length t) idc /\ (forall j, In j idc -> nonroot t' j)
    end).
  { intros t v c hd tk ids rest G K NI. destruct (s_get_nth _ _ _ _ G) as [E V].
    assert (Ek : nth_error tk c = Some hd) by (destruct (proj2 K c) as [_ Q]; rewrite Q; auto).
    assert (CK := change_killed _ _ _ K).
    assert (CK' : change t tk (c :: ids)) by (eapply change_weaken; [exact CK|apply incl_tl, incl_refl]).
    destruct rest as [|[k x] rest']; cbn [s_move].
    - exists (put_state tk c SDone), false. split; [reflexivity|].
      assert (E' : nth_error (put_state tk c SDone) c = Some (mkSh (s_val hd) (s_root hd) SDone)) by (apply put_state_same; exact Ek).
      split; [|split; [reflexivity|]].
      + eapply change_trans; [exact CK'|]. eapply change_weaken; [apply change_put|]. intros j [<-|[]]. now left.
      + exists [c]. split; [|intros j [<-|[]]; now left]. exists c. eexists. split; [eapply s_get_frame; [exact G|exact E'|reflexivity]|].
        right. left. auto.
    - rewrite alloc_of. set (m := length tk).
      set (t' := put_state (tk ++ hof x false) c (SAt k (vof m x) rest')).
      assert (Lc : c < length tk) by (eapply nth_error_lt; exact Ek).
      assert (Ea : nth_error (tk ++ hof x false) c = Some hd) by (rewrite nth_error_app_l; auto).
      assert (E' : nth_error t' c = Some (mkSh (s_val hd) (s_root hd) (SAt k (vof m x) rest'))) by now apply put_state_same.
      assert (G' : s_get t' v = Some (c, mkSh (s_val hd) (s_root hd) (SAt k (vof m x) rest')))
        by (eapply s_get_frame; [exact G|exact E'|reflexivity]).
      assert (F' : fresh t' (vof m x) x (iof m x)).
      { eapply fresh_frame; [apply alloc_fresh|]. intros j J. apply iof_in in J. subst j.
        apply put_state_other. unfold m. lia. }
      exists t', true. split; [reflexivity|]. split; [|split; [reflexivity|]].
      + eapply change_trans; [exact CK'|]. eapply change_trans; [apply change_app|].
        eapply change_weaken; [apply change_put|]. intros j [<-|[]]. now left.
      + exists c, (vof m x), (iof m x). split; [|split; [exact F'|split; [now left|split]]].
        * eexists. split; [exact G'|reflexivity].
        * intros j J. apply iof_in in J. subst j. unfold m. rewrite (proj1 K). lia.
        * intros j J. pose proof (iof_in _ _ _ J) as ->. unfold m.
          destruct x as [s|l e|l e]; cbn [iof] in J; [destruct J| |];
          eexists; unfold t'; rewrite put_state_other by (unfold m; lia); unfold m; (split; [apply nth_error_app_last|reflexivity]). }
  intros t v rest ids [c [hd [G H]]]. unfold s_advance. rewrite G.
  destruct H as [[S [-> ->]]|[[S [-> ->]]|[k [ch [ids1 [S [C [-> O]]]]]]]].
  - rewrite S. destruct (MOVE t v c hd t [] (items (s_val hd)) G) as [t' [b [-> R]]].
    + split; [reflexivity|]. intro j. split; [intros []|auto].
    + intros [].
    + exists t', b. split; [reflexivity|exact R].
  - rewrite S. exists t, false. split; [reflexivity|]. split; [apply change_refl|]. split; [reflexivity|].
    exists [c]. split; [|apply incl_refl]. exists c, hd. split; [exact G|]. auto.
  - rewrite S. assert (K : killed t (kill_opt (Datatypes.S c) t (Some ch)) ids1).
    { apply chain_kill_opt; [exact C|]. intros j J. destruct (O j J). split; [lia|auto]. }
    destruct (MOVE t v c hd _ ids1 rest G K) as [t' [b [-> R]]].
    + intro J. destruct (O _ J). lia.
    + exists t', b. split; [reflexivity|exact R].
Qed.

(** After something was done with the current item. *)
Lemma child_order : forall t t' ch y idc idc' F c n,
  fresh t ch y idc -> (forall j, In j idc -> nonroot t j) -> above (S c) idc -> c < length t ->
  change t t' F -> newer t n idc idc' -> chain t' ch idc' ->
  forall j, In j idc' -> c < j /\ nonroot t' j.
Proof.
  intros t t' ch y idc idc' F c n FR NR AB L CH NW C j J. split.
  - destruct (NW j J) as [I|[I _]]; [apply AB; exact I|lia].
  - pose proof (same_head _ _ _ _ _ (fresh_chain _ _ _ _ FR) C) as HH.
    inversion C as [s|? c0 hd G S|? c0 hd k0 ch0 rest ids1 G S C1 O]; subst; [destruct J| |].
    + destruct J as [<-|[]]. destruct idc as [|b idc]; [destruct HH|]. subst b. eapply nonroot_change; [exact CH|]. apply NR. now left.
    + destruct J as [<-|J]; [|now apply O]. destruct idc as [|b idc]; [destruct HH|]. subst b.
      eapply nonroot_change; [exact CH|]. apply NR. now left.
Qed.

(** Changes one after the other, the second possibly to handles made by the first. *)
Lemma change_then : forall t t1 t2 F F', change t t1 F -> change t1 t2 F' ->
  (forall j, In j F' -> In j F \/ length t <= j) -> change t t2 F.
Proof.
  intros t t1 t2 F F' [A1 A2 A3] [B1 B2 B3] I. constructor.
  - lia.
  - intros j L N. rewrite B2; [now apply A2|lia|]. intro J. destruct (I j J); [auto|lia].
  - intros j hd E. destruct (A3 j hd E) as [h1 [E1 [V1 R1]]]. destruct (B3 j h1 E1) as [h2 [E2 [V2 R2]]].
    exists h2. repeat split; congruence.
Qed.

Lemma change_agree : forall t t' F ids, change t t' F -> (forall j, In j ids -> j < length t) -> sep ids F -> agree t t' ids.
Proof. intros t t' F ids C L S j J. apply (cg_same _ _ _ C); auto. Qed.

Lemma newer_then : forall t t1 F ids ids1 ids2, change t t1 F -> newer t None ids ids1 -> newer t1 None ids1 ids2 -> newer t None ids ids2.
Proof.
  intros t t1 F ids ids1 ids2 C A B j J. destruct (B j J) as [I|[I _]]; [auto|].
  right. split; [|reflexivity]. pose proof (cg_len _ _ _ C). lia.
Qed.

Lemma newer_refl : forall t n ids, newer t n ids ids.
Proof. intros t n ids j J. now left. Qed.

(** Clone and detach. *)
Lemma clone_fresh : forall t v x ids, fresh t v x ids ->
  s_clone t v = Some (t ++ hof x true, vof (length t) x) /\
  fresh (t ++ hof x true) (vof (length t) x) x (iof (length t) x) /\
  (forall j, In j (iof (length t) x) -> exists hd, nth_error (t ++ hof x true) j = Some hd /\ s_root hd = true).
Proof.
  intros t v x ids F. split; [|split; [apply alloc_fresh|]].
  - destruct x as [sc|l e|l e]; cbn [fresh] in F.
    + destruct F as [-> ->]. cbn [s_clone hof vof]. now rewrite app_nil_r.
    + destruct F as [c [root [G ->]]]. exact (s_clone_get _ _ _ _ _ G).
    + destruct F as [c [root [G ->]]]. exact (s_clone_get _ _ _ _ _ G).
  - intros j J. pose proof (iof_in _ _ _ J) as ->.
    destruct x as [sc|l e|l e]; cbn [iof] in J; [destruct J| |]; eexists; (split; [apply nth_error_app_last|reflexivity]).
Qed.

(** A clone that was read. *)
Lemma root_head : forall t t' v x ids ids' F,
  fresh t v x ids -> (forall j, In j ids -> exists hd, nth_error t j = Some hd /\ s_root hd = true) ->
  change t t' F -> chain t' v ids' ->
  forall c ids1, ids' = c :: ids1 -> exists hd, nth_error t' c = Some hd /\ s_root hd = true.
Proof.
  intros t t' v x ids ids' F FR RT CH C c ids1 ->.
  pose proof (same_head _ _ _ _ _ (fresh_chain _ _ _ _ FR) C) as HH.
  destruct ids as [|b ids]; [destruct HH|]. subst b. destruct (RT c (or_introl eq_refl)) as [hd [E R]].
  destruct (cg_kept _ _ _ CH c hd E) as [hd' [E' [_ R']]]. exists hd'. split; [exact E'|congruence].
Qed.

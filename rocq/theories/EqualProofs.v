(** Equal, run with the iterators, computes a function of the two values. *)
From Coq Require Import List ZArith Arith Bool Lia.
From Verif Require Import Base Tokens JsonSpec EncSpec ScalarModel IterModel IterSpec IterCore IterThr IterRel
  ScriptSpec ScriptProofs IterLib EqualModel.

(** The same algorithm on values. *)
Definition ok {A} (r : res A) : option A := match r with Ok a => Some a | _ => None end.

Fixpoint pfind (k : scalar) (p : list (scalar * jval)) : option (option (jval * list (scalar * jval))) :=
  match p with
  | [] => Some None
  | (k', y) :: p' =>
      match ok (scalar_equal k k') with
      | None => None
      | Some true => Some (Some (y, p'))
      | Some false =>
          match pfind k p' with
          | None => None
          | Some None => Some None
          | Some (Some (w, q)) => Some (Some (w, (k', y) :: q))
          end
      end
  end.

(** The value, the members that come after it, those pending. *)
Fixpoint pright (k : scalar) (l2 p : list (scalar * jval)) : option (option (jval * list (scalar * jval) * list (scalar * jval))) :=
  match l2 with
  | [] => Some None
  | (k', y) :: l2' =>
      match ok (scalar_equal k k') with
      | None => None
      | Some true => Some (Some (y, l2', p))
      | Some false => pright k l2' (p ++ [(k', y)])
      end
  end.

Definition is_nil {A} (l : list A) : bool := match l with [] => true | _ => false end.

Fixpoint peq_items (eq : jval -> jval -> option bool) (l1 l2 : list jval) : option bool :=
  match l1, l2 with
  | [], [] => Some true
  | y1 :: l1', y2 :: l2' =>
      match eq y1 y2 with
      | Some true => peq_items eq l1' l2'
      | r => r
      end
  | _, _ => Some false
  end.

Fixpoint peq_members (eq : jval -> jval -> option bool) (l1 l2 p : list (scalar * jval)) : option bool :=
  match l1 with
  | [] => Some (is_nil p && is_nil l2)
  | (k, y) :: l1' =>
      match pfind k p with
      | None => None
      | Some (Some (w, q)) => match eq y w with Some true => peq_members eq l1' l2 q | r => r end
      | Some None =>
          match pright k l2 p with
          | None => None
          | Some None => Some false
          | Some (Some (w, l2', q)) => match eq y w with Some true => peq_members eq l1' l2' q | r => r end
          end
      end
  end.

Fixpoint peq (n : nat) (x1 x2 : jval) : option bool :=
  match n with
  | O => None
  | S m =>
      match x1, x2 with
      | JScalar s, JScalar t => ok (scalar_equal s t)
      | JArr l1 _, JArr l2 _ => peq_items (peq m) l1 l2
      | JObj l1 _, JObj l2 _ => peq_members (peq m) l1 l2 []
      | _, _ => Some false
      end
  end.

Fixpoint size (x : jval) : nat :=
  match x with
  | JScalar _ => 1
  | JArr l _ => 2 + list_sum (map size l)
  | JObj l _ => 2 + list_sum (map (fun kv => size (snd kv)) l)
  end.

Lemma size_pos : forall x, 1 <= size x.
Proof. destruct x; cbn [size]; lia. Qed.

Lemma items_len : forall l, length l <= list_sum (map size l).
Proof. induction l as [|x l IH]; [auto|]. cbn [length map list_sum]. pose proof (size_pos x). unfold list_sum in *. cbn [fold_right]. lia. Qed.
Lemma members_len : forall l : list (scalar * jval), length l <= list_sum (map (fun kv => size (snd kv)) l).
Proof. induction l as [|[k x] l IH]; [auto|]. pose proof (size_pos x). unfold list_sum in *. cbn [length map fold_right snd]. lia. Qed.

(* ------------------------------------------------------------------ *)
(** [eq] is right on values up to a size. *)
Definition eq_ok (m : nat) (eq : value -> value -> iprog bool) (pe : jval -> jval -> option bool) : Prop :=
  forall x1 x2 b, pe x1 x2 = Some b -> size x1 + size x2 < m ->
  forall t it v1 v2 ids1 ids2, fresh t v1 x1 ids1 -> fresh t v2 x2 ids2 -> sep ids1 ids2 ->
  exists t' ids1' ids2', spec_run (eq v1 v2) (mkSt t it) = Some (mkSt t' it, b) /\
    change t t' (ids1 ++ ids2) /\ newer t None ids1 ids1' /\ newer t None ids2 ids2' /\
    chain t' v1 ids1' /\ chain t' v2 ids2' /\ sep ids1' ids2'.

(** SafeValuesEqual changes nothing: it only adds handles. *)
Lemma safe_ok : forall m eq pe, eq_ok m eq pe ->
  forall x1 x2 b, pe x1 x2 = Some b -> size x1 + size x2 < m ->
  forall t it v1 v2 ids1 ids2, fresh t v1 x1 ids1 -> fresh t v2 x2 ids2 ->
  exists t', spec_run (safe_equal eq v1 v2) (mkSt t it) = Some (mkSt t' it, b) /\ change t t' [].
Proof.
  intros m eq pe EQ x1 x2 b P SZ t it v1 v2 ids1 ids2 F1 F2.
  destruct (clone_fresh t v1 x1 ids1 F1) as [C1 [FC1 R1]].
  set (t1 := t ++ hof x1 true) in *. set (c1 := vof (length t) x1) in *. set (i1 := iof (length t) x1) in *.
  assert (F2' : fresh t1 v2 x2 ids2).
  { eapply fresh_frame; [exact F2|]. intros j J. apply nth_error_app_l. exact (fresh_lt _ _ _ _ _ F2 J). }
  destruct (clone_fresh t1 v2 x2 ids2 F2') as [C2 [FC2 R2]].
  set (t2 := t1 ++ hof x2 true) in *. set (c2 := vof (length t1) x2) in *. set (i2 := iof (length t1) x2) in *.
  assert (FC1' : fresh t2 c1 x1 i1).
  { eapply fresh_frame; [exact FC1|]. intros j J. apply nth_error_app_l. exact (fresh_lt _ _ _ _ _ FC1 J). }
  assert (R1' : forall j, In j i1 -> exists hd, nth_error t2 j = Some hd /\ s_root hd = true).
  { intros j J. unfold t2. rewrite nth_error_app_l by exact (fresh_lt _ _ _ _ _ FC1 J). auto. }
  assert (SP : sep i1 i2).
  { intros j J K. apply iof_in in K. pose proof (fresh_lt _ _ _ _ _ FC1 J). lia. }
  destruct (EQ x1 x2 b P SZ t2 it c1 c2 i1 i2 FC1' FC2 SP) as [t3 [j1 [j2 [RUN [CH [N1 [N2 [CC1 [CC2 SJ]]]]]]]]].
  assert (L12 : length t <= length t1) by (unfold t1; rewrite app_length; lia).
  assert (L23 : length t1 <= length t2) by (unfold t2; rewrite app_length; lia).
  assert (A1 : above (length t) j1).
  { intros j J. destruct (N1 j J) as [I|[I _]]; [apply iof_in in I; lia|lia]. }
  assert (A2 : above (length t) j2).
  { intros j J. destruct (N2 j J) as [I|[I _]]; [apply iof_in in I; lia|lia]. }
  assert (CH02 : change t t2 []).
  { eapply change_trans; [apply change_app|]. apply change_app. }
  assert (CH03 : change t t3 []).
  { eapply change_then; [exact CH02|exact CH|]. intros j J. right. apply in_app_or in J as [J|J]; apply iof_in in J; lia. }
  destruct (detach_chain t3 c2 j2 CC2) as [t4 [D2 CH4]].
  { eapply root_head; [exact FC2|exact R2|exact CH|exact CC2]. }
  assert (CC1' : chain t4 c1 j1).
  { eapply chain_frame; [exact CC1|]. eapply change_agree; [exact CH4| |exact SJ]. intros j J. exact (chain_lt _ _ _ _ CC1 J). }
  destruct (detach_chain t4 c1 j1 CC1') as [t5 [D1 CH5]].
  { eapply root_head; [exact FC1'|exact R1'| |exact CC1'].
    eapply change_then with (F := i1 ++ i2 ++ j2); [eapply change_weaken; [exact CH|]|exact CH4|].
    - intros j J. apply in_app_or in J. apply in_or_app. destruct J; [auto|]. right. apply in_or_app. auto.
    - intros j J. left. apply in_or_app. right. apply in_or_app. auto. }
  exists t5. split.
  - unfold safe_equal. cbn [spec_run st_coll]. rewrite C1. cbn [on_coll obind spec_run st_coll st_iter].
    rewrite C2. cbn [on_coll obind st_iter]. rewrite spec_bind, RUN. cbn [obind spec_run st_coll]. rewrite D2.
    cbn [on_coll_ obind spec_run st_coll]. rewrite D1. cbn [on_coll_ obind spec_run st_iter]. reflexivity.
  - eapply change_then; [eapply change_then; [exact CH03|exact CH4|]|exact CH5|].
    + intros j J. right. auto.
    + intros j J. right. auto.
Qed.

(** A little more on separation. *)
Lemma sep_new : forall t F t1 a b a' b', (forall j, In j a -> j < length t) -> (forall j, In j b -> j < length t) ->
  sep a b -> newer t None a a' -> (forall j, In j a' -> j < length t1) -> change t t1 F -> newer t1 None b b' -> sep a' b'.
Proof.
  intros t F t1 a b a' b' LA LB S NA LA' CH NB j J K.
  pose proof (LA' j J). destruct (NB j K) as [I|[I _]]; [|lia].
  destruct (NA j J) as [I'|[I' _]]; [exact (S j I' I)|]. specialize (LB j I). lia.
Qed.

Lemma arrays_ok : forall m eq pe, eq_ok m eq pe ->
  forall n l1 l2 b, peq_items pe l1 l2 = Some b -> length l1 < n ->
  (forall x y, In x l1 -> In y l2 -> size x + size y < m) ->
  forall t it v1 v2 ids1 ids2, opened t v1 (map (fun x => (None, x)) l1) ids1 -> opened t v2 (map (fun x => (None, x)) l2) ids2 ->
  sep ids1 ids2 ->
  exists t' ids1' ids2', spec_run (arrays_equal eq n v1 v2) (mkSt t it) = Some (mkSt t' it, b) /\
    change t t' (ids1 ++ ids2) /\ newer t None ids1 ids1' /\ newer t None ids2 ids2' /\
    chain t' v1 ids1' /\ chain t' v2 ids2' /\ sep ids1' ids2'.
Proof.
  intros m eq pe EQ. induction n as [|n IH]; intros l1 l2 b P LN Z t it v1 v2 ids1 ids2 O1 O2 SP; [lia|].
  cbn [arrays_equal spec_run st_coll].
  assert (L1 : forall j, In j ids1 -> j < length t) by (intros j J; eapply opened_lt; [|exact J]; eassumption).
  assert (L2 : forall j, In j ids2 -> j < length t) by (intros j J; eapply opened_lt; [|exact J]; eassumption).
  destruct (adv_opened _ _ _ _ O1) as [t1 [b1 [-> [CH1 A1]]]]. cbn [on_coll obind st_iter].
  assert (CH1' : change t t1 (ids1 ++ ids2)) by (eapply change_weaken; [exact CH1|apply incl_appl, incl_refl]).
  assert (O2' : opened t1 v2 (map (fun x => (None, x)) l2) ids2).
  { eapply opened_frame; [exact O2|]. eapply change_agree; [exact CH1|exact L2|now apply sep_sym]. }
  assert (LE1 := cg_len _ _ _ CH1).
  destruct (adv_opened _ _ _ _ O2') as [t2 [b2 [AD2 [CH2 A2]]]].
  assert (LE2 := cg_len _ _ _ CH2).
  assert (CH12 : change t t2 (ids1 ++ ids2)).
  { eapply change_then; [exact CH1'|exact CH2|]. intros j J. left. apply in_or_app. auto. }
  destruct l1 as [|y1 l1]; cbn [map] in A1.
  - destruct A1 as [-> [i1 [O1' I1]]].
    cbn [spec_run st_coll]. rewrite AD2. cbn [on_coll obind spec_run st_iter].
    assert (CC1 : chain t2 v1 i1).
    { eapply chain_frame; [eapply opened_chain; exact O1'|]. eapply change_agree; [exact CH2| |].
      - intros j J. eapply opened_lt; [exact O1'|exact J].
      - intros j J K. exact (SP j (I1 j J) K). }
    destruct l2 as [|y2 l2]; cbn [map] in A2; cbn [peq_items] in P; injection P as <-.
    + destruct A2 as [-> [i2 [O2'' I2]]]. exists t2, i1, i2. split; [reflexivity|]. split; [exact CH12|].
      split; [intros j J; left; auto|]. split; [intros j J; left; auto|]. split; [exact CC1|].
      split; [eapply opened_chain; exact O2''|]. intros j J K. exact (SP j (I1 j J) (I2 j K)).
    + destruct A2 as [-> [c2 [ch2 [id2 [AT2 [F2 [IN2 [AB2 NR2]]]]]]]]. exists t2, i1, (c2 :: id2).
      split; [reflexivity|]. split; [exact CH12|]. split; [intros j J; left; auto|].
      assert (NW2 : newer t None ids2 (c2 :: id2)).
      { intros j [<-|J]; [now left|]. right. split; [specialize (AB2 j J); lia|reflexivity]. }
      split; [exact NW2|]. split; [exact CC1|]. split.
      * eapply opened_chain. eapply atc_opened; [exact AT2|eapply fresh_chain; exact F2|].
        intros j J. split; [|auto]. specialize (AB2 j J). specialize (L2 _ IN2). lia.
      * intros j J [<-|K]; [exact (SP c2 (I1 c2 J) IN2)|]. specialize (AB2 j K). specialize (L1 j (I1 j J)). lia.
  - destruct A1 as [-> [c1 [ch1 [id1 [AT1 [F1 [IN1 [AB1 NR1]]]]]]]].
    cbn [spec_run st_coll]. rewrite AD2. cbn [on_coll obind spec_run st_iter].
    assert (Lc1 := L1 _ IN1).
    assert (S1 : sep (c1 :: id1) ids2).
    { intros j [<-|J] K; [exact (SP c1 IN1 K)|]. specialize (AB1 j J). specialize (L2 j K). lia. }
    assert (LI1 : forall j, In j (c1 :: id1) -> j < length t1).
    { intros j [<-|J]; [lia|exact (fresh_lt _ _ _ _ _ F1 J)]. }
    assert (AG : agree t1 t2 (c1 :: id1)) by (eapply change_agree; eauto).
    assert (AT1' : atc t2 v1 c1 None ch1 (map (fun x => (None, x)) l1)) by (eapply atc_frame; [exact AT1|apply AG; now left]).
    assert (F1' : fresh t2 ch1 y1 id1) by (eapply fresh_frame; [exact F1|intros j J; apply AG; now right]).
    assert (NR1' : forall j, In j id1 -> nonroot t2 j) by (intros j J; eapply nonroot_agree; [apply AG; now right|auto]).
    assert (NW1 : newer t None ids1 (c1 :: id1)).
    { intros j [<-|J]; [now left|]. right. split; [specialize (AB1 j J); lia|reflexivity]. }
    destruct l2 as [|y2 l2]; cbn [map] in A2; cbn [peq_items] in P.
    + injection P as <-. destruct A2 as [-> [i2 [O2'' I2]]]. cbn [spec_run].
      exists t2, (c1 :: id1), i2. split; [reflexivity|]. split; [exact CH12|]. split; [exact NW1|].
      split; [intros j J; left; auto|]. split; [|split; [eapply opened_chain; exact O2''|]].
      * eapply opened_chain. eapply atc_opened; [exact AT1'|eapply fresh_chain; exact F1'|].
        intros j J. split; [specialize (AB1 j J); lia|auto].
      * intros j J K. exact (S1 j J (I2 j K)).
    + destruct A2 as [-> [c2 [ch2 [id2 [AT2 [F2 [IN2 [AB2 NR2]]]]]]]].
      assert (Lc2 := L2 _ IN2).
      cbn [spec_run st_coll]. rewrite (atc_current _ _ _ _ _ _ AT1'). cbn [need ibind spec_run st_coll].
      rewrite (atc_current _ _ _ _ _ _ AT2). cbn [need ibind]. rewrite spec_bind.
      destruct (pe y1 y2) as [e|] eqn:PE; [|discriminate].
      assert (SP2 : sep id1 id2).
      { intros j J K. specialize (AB2 j K). specialize (LI1 j (or_intror J)). lia. }
      destruct (EQ y1 y2 e PE) with (t := t2) (it := it) (v1 := ch1) (v2 := ch2) (ids1 := id1) (ids2 := id2)
        as [t3 [j1 [j2 [RUN [CH3 [N1 [N2 [CC1 [CC2 SJ]]]]]]]]]; auto.
      { apply Z; now left. }
      rewrite RUN. cbn [obind].
      assert (LE3 := cg_len _ _ _ CH3).
      assert (CH13 : change t t3 (ids1 ++ ids2)).
      { eapply change_then; [exact CH12|exact CH3|]. intros j J. right. apply in_app_or in J as [J|J].
        - exact (AB1 j J).
        - specialize (AB2 j J). lia. }
      assert (OUT : forall c, c < length t -> nth_error t3 c = nth_error t2 c).
      { intros c LC. apply (cg_same _ _ _ CH3); [lia|]. intro J. apply in_app_or in J as [J|J].
        - specialize (AB1 _ J). lia.
        - specialize (AB2 _ J). lia. }
      assert (OR1 : forall j, In j j1 -> c1 < j /\ nonroot t3 j).
      { eapply child_order; [exact F1'|exact NR1'| | |exact CH3|exact N1|exact CC1]; [|lia].
        intros j J. specialize (AB1 j J). lia. }
      assert (OR2 : forall j, In j j2 -> c2 < j /\ nonroot t3 j).
      { eapply child_order; [exact F2|exact NR2| | |exact CH3|exact N2|exact CC2]; [|lia].
        intros j J. specialize (AB2 j J). lia. }
      assert (AT1'' : atc t3 v1 c1 None ch1 (map (fun x => (None, x)) l1)) by (eapply atc_frame; [exact AT1'|now apply OUT]).
      assert (AT2'' : atc t3 v2 c2 None ch2 (map (fun x => (None, x)) l2)) by (eapply atc_frame; [exact AT2|now apply OUT]).
      assert (OP1 := atc_opened _ _ _ _ _ _ _ AT1'' CC1 OR1).
      assert (OP2 := atc_opened _ _ _ _ _ _ _ AT2'' CC2 OR2).
      assert (B1 : forall j, In j j1 -> length t <= j).
      { intros j J. destruct (N1 j J) as [I|[I _]]; [exact (AB1 j I)|lia]. }
      assert (B2 : forall j, In j j2 -> length t <= j).
      { intros j J. destruct (N2 j J) as [I|[I _]]; [specialize (AB2 j I); lia|lia]. }
      assert (SP3 : sep (c1 :: j1) (c2 :: j2)).
      { intros j [<-|J] [E|K].
        - subst c2. exact (SP c1 IN1 IN2).
        - specialize (B2 _ K). lia.
        - subst j. specialize (B1 _ J). lia.
        - exact (SJ j J K). }
      assert (NW1' : newer t None ids1 (c1 :: j1)).
      { intros j [<-|J]; [now left|]. right. split; [auto|reflexivity]. }
      assert (NW2' : newer t None ids2 (c2 :: j2)).
      { intros j [<-|J]; [now left|]. right. split; [auto|reflexivity]. }
      destruct e.
      * destruct (IH l1 l2 b P) with (t := t3) (it := it) (v1 := v1) (v2 := v2) (ids1 := c1 :: j1) (ids2 := c2 :: j2)
          as [t4 [k1 [k2 [RUN4 [CH4 [M1 [M2 [D1 [D2 SK]]]]]]]]]; auto.
        { cbn [length] in LN. lia. } { intros x y X Y. apply Z; now right. }
        exists t4, k1, k2. split; [exact RUN4|]. split.
        { eapply change_then; [exact CH13|exact CH4|]. intros j J.
          assert (Q : In j ids1 \/ In j ids2 \/ length t <= j).
          { apply in_app_or in J as [J|J].
            - destruct (NW1' j J) as [I|[I _]]; auto.
            - destruct (NW2' j J) as [I|[I _]]; auto. }
          destruct Q as [Q|[Q|Q]]; [left; apply in_or_app; auto|left; apply in_or_app; auto|now right]. }
        split; [eapply newer_then; eauto|]. split; [eapply newer_then; eauto|]. auto.
      * injection P as <-. cbn [spec_run]. exists t3, (c1 :: j1), (c2 :: j2).
        split; [reflexivity|]. split; [exact CH13|]. split; [exact NW1'|]. split; [exact NW2'|].
        split; [eapply opened_chain; exact OP1|]. split; [eapply opened_chain; exact OP2|exact SP3].
Qed.

(* ------------------------------------------------------------------ *)
(** Objects. *)
Inductive pend (t : list shandle) : pending -> list (scalar * jval) -> list nat -> Prop :=
| pd_nil : pend t [] [] []
| pd_cons : forall k w y iw p pl ids, fresh t w y iw ->
    (forall j, In j iw -> exists hd, nth_error t j = Some hd /\ s_root hd = true) ->
    pend t p pl ids -> sep iw ids -> pend t ((Some k, w) :: p) ((k, y) :: pl) (iw ++ ids).

Lemma pend_lt : forall t p pl ids, pend t p pl ids -> forall j, In j ids -> j < length t.
Proof.
  induction 1 as [|k w y iw p pl ids F R P IH S]; intros j J; [destruct J|].
  apply in_app_or in J as [J|J]; [exact (fresh_lt _ _ _ _ _ F J)|auto].
Qed.

Lemma pend_frame : forall t p pl ids, pend t p pl ids -> forall t', agree t t' ids -> pend t' p pl ids.
Proof.
  induction 1 as [|k w y iw p pl ids F R P IH S]; intros t' A; constructor; auto.
  - eapply fresh_frame; [exact F|]. intros j J. apply A. apply in_or_app. auto.
  - intros j J. rewrite A by (apply in_or_app; auto). auto.
  - apply IH. intros j J. apply A. apply in_or_app. auto.
Qed.

Lemma pend_snoc : forall t p pl ids k w y iw, pend t p pl ids -> fresh t w y iw ->
  (forall j, In j iw -> exists hd, nth_error t j = Some hd /\ s_root hd = true) -> sep ids iw ->
  pend t (p ++ [(Some k, w)]) (pl ++ [(k, y)]) (ids ++ iw).
Proof.
  intros t p pl ids k w y iw P F R. induction P as [|k0 w0 y0 iw0 p pl ids F0 R0 P IH S]; intro SP; cbn [app].
  - rewrite <- (app_nil_r iw). constructor; auto; [constructor|]. intros j _ [].
  - rewrite <- app_assoc. constructor; auto.
    + apply IH. intros j J. apply SP. apply in_or_app. auto.
    + intros j J K. apply in_app_or in K as [K|K]; [exact (S j J K)|]. apply (SP j); [apply in_or_app; auto|exact K].
Qed.

Lemma find_pending_ok : forall t p pl ids, pend t p pl ids -> forall k r, pfind k pl = Some r ->
  match r with
  | None => find_pending (Some k) p = Ok None
  | Some (y, q) => exists w q' iw iq, find_pending (Some k) p = Ok (Some (w, q')) /\ fresh t w y iw /\
      (forall j, In j iw -> exists hd, nth_error t j = Some hd /\ s_root hd = true) /\
      pend t q' q iq /\ sep iw iq /\ incl iw ids /\ incl iq ids
  end.
Proof.
  induction 1 as [|k0 w y iw p pl ids F R P IH S]; intros k r H; cbn [pfind] in H.
  - injection H as <-. reflexivity.
  - cbn [find_pending key_equal]. destruct (scalar_equal k k0) as [b| |] eqn:E; cbn [ok] in H; try discriminate.
    destruct b.
    + injection H as <-. cbn [bind]. exists w, p, iw, ids. repeat split; auto; [apply incl_appl, incl_refl|apply incl_appr, incl_refl].
    + cbn [bind]. destruct (pfind k pl) as [r'|] eqn:PF; [|discriminate]. specialize (IH k r' PF).
      destruct r' as [[y' q]|]; injection H as <-.
      * destruct IH as [w' [q' [iw' [iq [-> [F' [R' [P' [S' [I1 I2]]]]]]]]]]. cbn [bind].
        exists w', ((Some k0, w) :: q'), iw', (iw ++ iq). repeat split; auto.
        -- constructor; auto. intros j J K. exact (S j J (I2 j K)).
        -- intros j J K. apply in_app_or in K as [K|K]; [exact (S j K (I1 j J))|exact (S' j J K)].
        -- intros j J. apply in_or_app. auto.
        -- intros j J. apply in_or_app. apply in_app_or in J as [J|J]; auto.
      * rewrite IH. reflexivity.
Qed.

Lemma detach_fresh : forall t w y iw, fresh t w y iw ->
  (forall j, In j iw -> exists hd, nth_error t j = Some hd /\ s_root hd = true) ->
  exists t', s_detach t w = Some t' /\ change t t' iw.
Proof.
  intros t w y iw F R. apply detach_chain; [eapply fresh_chain; exact F|]. intros c i1 ->. apply R. now left.
Qed.

Lemma detach_all_ok : forall A (k : iprog A) p pl ids t it, pend t p pl ids ->
  exists t', spec_run (detach_all p k) (mkSt t it) = spec_run k (mkSt t' it) /\ change t t' ids.
Proof.
  intros A k p. induction p as [|[k0 w] p IH]; intros pl ids t it P.
  - inversion P; subst. exists t. split; [reflexivity|apply change_refl].
  - inversion P as [|k1 w1 y iw p1 pl1 ids1 F R P1 S]; subst. cbn [detach_all spec_run st_coll].
    destruct (detach_fresh _ _ _ _ F R) as [t1 [-> CH1]]. cbn [on_coll_ obind st_iter].
    assert (P1' : pend t1 p pl1 ids1).
    { eapply pend_frame; [exact P1|]. eapply change_agree; [exact CH1|eapply pend_lt; exact P1|]. now apply sep_sym. }
    destruct (IH pl1 ids1 t1 it P1') as [t2 [-> CH2]]. exists t2. split; [reflexivity|].
    eapply change_then; [eapply change_weaken; [exact CH1|apply incl_appl, incl_refl]|exact CH2|].
    intros j J. left. apply in_or_app. auto.
Qed.

Definition members (l : list (scalar * jval)) : list (option scalar * jval) := map (fun kv => (Some (fst kv), snd kv)) l.

Lemma find_right_ok : forall m eq pe, eq_ok m eq pe ->
  forall k val y n l2 pl r b, pright k l2 pl = Some r -> length l2 < n ->
  match r with Some (w, _, _) => pe y w = Some b /\ size y + size w < m | None => b = false end ->
  forall t it v2 p ids2 pids idv, opened t v2 (members l2) ids2 -> pend t p pl pids -> fresh t val y idv ->
  sep ids2 pids -> sep ids2 idv ->
  exists t' p' pl' rest ids2' pids', spec_run (find_right eq n (Some k) val v2 p) (mkSt t it) = Some (mkSt t' it, (b, p')) /\
    change t t' ids2 /\ newer t None ids2 ids2' /\ newer t None pids pids' /\
    opened t' v2 (members rest) ids2' /\ pend t' p' pl' pids' /\ sep ids2' pids' /\
    match r with Some (_, l2', q) => rest = l2' /\ pl' = q | None => True end.
Proof.
  intros m eq pe EQ k val y. induction n as [|n IH]; intros l2 pl r b P LN RB t it v2 p ids2 pids idv O2 PD FV SP SV; [lia|].
  cbn [find_right spec_run st_coll].
  assert (L2 : forall j, In j ids2 -> j < length t) by (intros j J; eapply opened_lt; eauto).
  assert (LP : forall j, In j pids -> j < length t) by (eapply pend_lt; eauto).
  assert (LV : forall j, In j idv -> j < length t) by (intros j J; exact (fresh_lt _ _ _ _ _ FV J)).
  destruct (adv_opened _ _ _ _ O2) as [t1 [b1 [-> [CH1 A1]]]]. cbn [on_coll obind st_iter].
  assert (LE1 := cg_len _ _ _ CH1).
  assert (PD1 : pend t1 p pl pids).
  { eapply pend_frame; [exact PD|]. eapply change_agree; [exact CH1|exact LP|now apply sep_sym]. }
  assert (FV1 : fresh t1 val y idv).
  { eapply fresh_frame; [exact FV|]. eapply change_agree; [exact CH1|exact LV|now apply sep_sym]. }
  destruct l2 as [|[k2 y2] l2]; cbn [members map fst snd] in A1; cbn [pright] in P.
  - injection P as <-. subst b. destruct A1 as [-> [i2 [O2' I2]]]. cbn [spec_run].
    exists t1, p, pl, [], i2, pids. split; [reflexivity|]. split; [exact CH1|]. split; [intros j J; left; auto|].
    split; [apply newer_refl|]. split; [exact O2'|]. split; [exact PD1|]. split; [|exact I].
    intros j J K. exact (SP j (I2 j J) K).
  - destruct A1 as [-> [c2 [ch2 [id2 [AT2 [F2 [IN2 [AB2 NR2]]]]]]]].
    assert (Lc2 := L2 _ IN2).
    cbn [spec_run st_coll]. rewrite (atc_current _ _ _ _ _ _ AT2). cbn [fst snd need ibind key_equal].
    assert (NW2 : newer t None ids2 (c2 :: id2)).
    { intros j [<-|J]; [now left|]. right. split; [exact (AB2 j J)|reflexivity]. }
    assert (OR2 : forall t', change t1 t' [] -> forall j, In j id2 -> c2 < j /\ nonroot t' j).
    { intros t' CT j J. split; [specialize (AB2 j J); lia|]. eapply nonroot_change; [exact CT|auto]. }
    assert (LI2 : forall j, In j (c2 :: id2) -> j < length t1).
    { intros j [<-|J]; [lia|exact (fresh_lt _ _ _ _ _ F2 J)]. }
    assert (OPN : forall t', change t1 t' [] -> opened t' v2 (members l2) (c2 :: id2)).
    { intros t' CT. assert (AG : agree t1 t' (c2 :: id2)) by (eapply change_agree; [exact CT|exact LI2|intros j _ []]).
      eapply atc_opened; [eapply atc_frame; [exact AT2|apply AG; now left]| |auto].
      eapply chain_frame; [eapply fresh_chain; exact F2|]. intros j J. apply AG. now right. }
    assert (S2P : sep (c2 :: id2) pids).
    { intros j [<-|J] K; [exact (SP c2 IN2 K)|]. specialize (AB2 j J). specialize (LP j K). lia. }
    destruct (scalar_equal k k2) as [e| |] eqn:SE; cbn [ok] in P; try discriminate. destruct e; cbn [of_res ibind].
    + injection P as <-. destruct RB as [RB SZ]. rewrite spec_bind.
      destruct (safe_ok m eq pe EQ y y2 b RB SZ t1 it val ch2 idv id2 FV1 F2) as [t2 [RUN CH2]].
      rewrite RUN. cbn [obind spec_run].
      exists t2, p, pl, l2, (c2 :: id2), pids. split; [reflexivity|].
      split; [eapply change_then; [exact CH1|exact CH2|intros j []]|]. split; [exact NW2|]. split; [apply newer_refl|].
      split; [now apply OPN|]. split; [|split; [exact S2P|auto]].
      eapply pend_frame; [exact PD1|]. eapply change_agree; [exact CH2|eapply pend_lt; exact PD1|intros j _ []].
    + cbn [spec_run st_coll]. destruct (clone_fresh _ _ _ _ F2) as [CL [FC RC]]. rewrite CL. cbn [on_coll obind st_iter].
      set (t2 := t1 ++ hof y2 true) in *. set (w := vof (length t1) y2) in *. set (iw := iof (length t1) y2) in *.
      assert (CH2 : change t1 t2 []) by apply change_app.
      assert (LE2 := cg_len _ _ _ CH2).
      assert (ABW : above (length t1) iw) by (intros j J; apply iof_in in J; lia).
      destruct (IH l2 (pl ++ [(k2, y2)]) r b P) with (t := t2) (it := it) (v2 := v2) (p := p ++ [(Some k2, w)])
        (ids2 := c2 :: id2) (pids := pids ++ iw) (idv := idv)
        as [t3 [p' [pl' [rest [ids2' [pids' [RUN [CH3 [N2 [NP [O3 [PD3 [S3 RR]]]]]]]]]]]]]; auto.
      * cbn [length] in LN. lia.
      * apply pend_snoc; auto.
        -- eapply pend_frame; [exact PD1|]. eapply change_agree; [exact CH2|eapply pend_lt; exact PD1|intros j _ []].
        -- intros j J K. specialize (ABW j K). specialize (LP j J). lia.
      * eapply fresh_frame; [exact FV1|]. eapply change_agree; [exact CH2|intros j J; exact (fresh_lt _ _ _ _ _ FV1 J)|intros j _ []].
      * intros j J K. apply in_app_or in K as [K|K]; [exact (S2P j J K)|]. specialize (ABW j K). specialize (LI2 j J). lia.
      * intros j [<-|J] K; [exact (SV c2 IN2 K)|]. specialize (AB2 j J). specialize (LV j K). lia.
      * assert (CH02 : change t t2 ids2) by (eapply change_then; [exact CH1|exact CH2|intros j []]).
        exists t3, p', pl', rest, ids2', pids'. split; [exact RUN|]. split.
        { eapply change_then; [exact CH02|exact CH3|]. intros j J. destruct (NW2 j J) as [I|[I _]]; auto. }
        split; [eapply newer_then; eauto|]. split; [|auto].
        assert (NWP : newer t None pids (pids ++ iw)).
        { intros j J. apply in_app_or in J as [J|J]; [now left|]. right. split; [specialize (ABW j J); lia|reflexivity]. }
        eapply newer_then; eauto.
Qed.

Lemma pfind_in : forall k pl w q, pfind k pl = Some (Some (w, q)) -> (exists k', In (k', w) pl) /\ incl q pl.
Proof.
  intros k. induction pl as [|[k0 y] pl IH]; intros w q H; cbn [pfind] in H; [discriminate|].
  destruct (ok (scalar_equal k k0)) as [[|]|]; try discriminate.
  - injection H as <- <-. split; [exists k0; now left|]. intros z Z. now right.
  - destruct (pfind k pl) as [[[w' q']|]|]; try discriminate. injection H as <- <-.
    destruct (IH w' q' eq_refl) as [[k' I] J]. split; [exists k'; now right|].
    intros z [<-|Z]; [now left|right; auto].
Qed.

Lemma pright_in : forall k l2 pl w l2' q, pright k l2 pl = Some (Some (w, l2', q)) ->
  (exists k', In (k', w) l2) /\ incl l2' l2 /\ length l2' < length l2 /\ incl q (l2 ++ pl).
Proof.
  intros k. induction l2 as [|[k0 y] l2 IH]; intros pl w l2' q H; cbn [pright] in H; [discriminate|].
  destruct (ok (scalar_equal k k0)) as [[|]|]; try discriminate.
  - injection H as <- <- <-. split; [exists k0; now left|]. split; [intros z Z; now right|]. split; [cbn; lia|].
    intros z Z. apply in_or_app. now right.
  - destruct (IH _ _ _ _ H) as [[k' I] [J [L Q]]]. split; [exists k'; now right|]. split; [intros z Z; right; auto|].
    split; [cbn; lia|]. intros z Z. specialize (Q z Z). apply in_app_or in Q as [Q|Q]; [right; apply in_or_app; auto|].
    apply in_app_or in Q as [Q|[<-|[]]]; [apply in_or_app; auto|now left].
Qed.

Lemma objects_ok : forall m eq pe, eq_ok m eq pe ->
  forall n l1 l2 pl b, peq_members pe l1 l2 pl = Some b -> length l1 + length l2 < n ->
  (forall x y, In x l1 -> In y (l2 ++ pl) -> size (snd x) + size (snd y) < m) ->
  forall t it v1 v2 p ids1 ids2 pids, opened t v1 (members l1) ids1 -> opened t v2 (members l2) ids2 -> pend t p pl pids ->
  sep ids1 ids2 -> sep ids1 pids -> sep ids2 pids ->
  exists t' p' pl' ids1' ids2' pids', spec_run (objects_loop eq n v1 v2 p) (mkSt t it) = Some (mkSt t' it, (b, p')) /\
    change t t' (ids1 ++ ids2 ++ pids) /\ newer t None ids1 ids1' /\ newer t None ids2 ids2' /\ newer t None pids pids' /\
    chain t' v1 ids1' /\ chain t' v2 ids2' /\ pend t' p' pl' pids' /\ sep ids1' ids2' /\ sep ids1' pids' /\ sep ids2' pids'.
Proof.
  intros m eq pe EQ. induction n as [|n IH];
    intros l1 l2 pl b P LN Z t it v1 v2 p ids1 ids2 pids O1 O2 PD S12 S1P S2P; [lia|].
  cbn [objects_loop spec_run st_coll].
  assert (L1 : forall j, In j ids1 -> j < length t) by (intros j J; exact (opened_lt _ _ _ _ _ O1 J)).
  assert (L2 : forall j, In j ids2 -> j < length t) by (intros j J; exact (opened_lt _ _ _ _ _ O2 J)).
  assert (LP : forall j, In j pids -> j < length t) by (eapply pend_lt; eauto).
  destruct (adv_opened _ _ _ _ O1) as [t1 [b1 [-> [CH1 A1]]]]. cbn [on_coll obind st_iter].
  assert (LE1 := cg_len _ _ _ CH1).
  assert (CH1' : change t t1 (ids1 ++ ids2 ++ pids)) by (eapply change_weaken; [exact CH1|apply incl_appl, incl_refl]).
  assert (O2' : opened t1 v2 (members l2) ids2).
  { eapply opened_frame; [exact O2|]. eapply change_agree; [exact CH1|exact L2|now apply sep_sym]. }
  assert (PD1 : pend t1 p pl pids).
  { eapply pend_frame; [exact PD|]. eapply change_agree; [exact CH1|exact LP|now apply sep_sym]. }
  destruct l1 as [|[k y] l1]; cbn [members map fst snd] in A1; cbn [peq_members] in P.
  - destruct A1 as [-> [i1 [O1' I1]]]. injection P as <-. cbn [spec_run].
    assert (CC1 := opened_chain _ _ _ _ O1').
    assert (Li1 : forall j, In j i1 -> j < length t1) by (intros j J; exact (chain_lt _ _ _ _ CC1 J)).
    destruct p as [|pv p].
    + inversion PD; subst. cbn [is_nil andb]. cbn [spec_run st_coll].
      destruct (adv_opened _ _ _ _ O2') as [t2 [b2 [-> [CH2 A2]]]]. cbn [on_coll obind spec_run st_iter].
      assert (LE2 := cg_len _ _ _ CH2).
      assert (CH12 : change t t2 (ids1 ++ ids2 ++ [])).
      { eapply change_then; [exact CH1'|exact CH2|]. intros j J. left. apply in_or_app. right. apply in_or_app. auto. }
      assert (CC1' : chain t2 v1 i1).
      { eapply chain_frame; [exact CC1|]. eapply change_agree; [exact CH2|exact Li1|]. intros j J K. exact (S12 j (I1 j J) K). }
      assert (RES : exists ids2', b2 = negb (is_nil l2) /\ newer t None ids2 ids2' /\ chain t2 v2 ids2' /\ sep i1 ids2').
      { destruct l2 as [|[k2 y2] l2]; cbn [members map fst snd] in A2.
        - destruct A2 as [-> [i2 [O2'' I2]]]. exists i2. split; [reflexivity|]. split; [intros j J; left; auto|].
          split; [eapply opened_chain; exact O2''|]. intros j J K. exact (S12 j (I1 j J) (I2 j K)).
        - destruct A2 as [-> [c2 [ch2 [id2 [AT2 [F2 [IN2 [AB2 NR2]]]]]]]]. exists (c2 :: id2). split; [reflexivity|].
          assert (Lc2 := L2 _ IN2). split; [|split].
          + intros j [<-|J]; [now left|]. right. split; [specialize (AB2 j J); lia|reflexivity].
          + eapply opened_chain. eapply atc_opened; [exact AT2|eapply fresh_chain; exact F2|].
            intros j J. split; [specialize (AB2 j J); lia|auto].
          + intros j J [<-|K]; [exact (S12 _ (I1 _ J) IN2)|]. specialize (AB2 j K). specialize (L1 j (I1 j J)). lia. }
      destruct RES as [ids2' [-> [N2 [CC2 SQ]]]]. rewrite negb_involutive.
      exists t2, [], [], i1, ids2', []. split; [reflexivity|]. split; [exact CH12|].
      split; [intros j J; left; auto|]. split; [exact N2|]. split; [intros j []|]. split; [exact CC1'|]. split; [exact CC2|].
      split; [constructor|]. split; [exact SQ|]. split; intros j _ [].
    + assert (NP : is_nil pl = false) by (inversion PD; reflexivity). rewrite NP. cbn [andb spec_run].
      exists t1, (pv :: p), pl, i1, ids2, pids. split; [reflexivity|]. split; [exact CH1'|].
      split; [intros j J; left; auto|]. split; [apply newer_refl|]. split; [apply newer_refl|]. split; [exact CC1|].
      split; [eapply opened_chain; exact O2'|]. split; [exact PD1|].
      split; [intros j J K; exact (S12 j (I1 j J) K)|]. split; [intros j J K; exact (S1P j (I1 j J) K)|exact S2P].
  - destruct A1 as [-> [c1 [ch1 [id1 [AT1 [F1 [IN1 [AB1 NR1]]]]]]]].
    assert (Lc1 := L1 _ IN1).
    cbn [spec_run st_coll]. rewrite (atc_current _ _ _ _ _ _ AT1). cbn [fst snd need ibind].
    assert (NW1 : newer t None ids1 (c1 :: id1)).
    { intros j [<-|J]; [now left|]. right. split; [exact (AB1 j J)|reflexivity]. }
    assert (LI1 : forall j, In j (c1 :: id1) -> j < length t1).
    { intros j [<-|J]; [lia|exact (fresh_lt _ _ _ _ _ F1 J)]. }
    assert (OPN : forall t' F, change t1 t' F -> sep (c1 :: id1) F -> opened t' v1 (members l1) (c1 :: id1)).
    { intros t' F CT SF. assert (AG : agree t1 t' (c1 :: id1)) by (eapply change_agree; eauto).
      eapply atc_opened; [eapply atc_frame; [exact AT1|apply AG; now left]| |].
      - eapply chain_frame; [eapply fresh_chain; exact F1|]. intros j J. apply AG. now right.
      - intros j J. split; [specialize (AB1 j J); lia|]. eapply nonroot_change; [exact CT|auto]. }
    assert (S12' : sep (c1 :: id1) ids2).
    { intros j [<-|J] K; [exact (S12 _ IN1 K)|]. specialize (AB1 j J). specialize (L2 j K). lia. }
    assert (S1P' : sep (c1 :: id1) pids).
    { intros j [<-|J] K; [exact (S1P _ IN1 K)|]. specialize (AB1 j J). specialize (LP j K). lia. }
    assert (FIN : forall t' q qids l2' ql p' ids2',
       change t t' (ids1 ++ ids2 ++ pids) ->
       opened t' v1 (members l1) (c1 :: id1) -> opened t' v2 (members l2') ids2' -> pend t' p' ql qids ->
       newer t None ids2 ids2' -> newer t None pids qids -> sep (c1 :: id1) ids2' -> sep (c1 :: id1) qids -> sep ids2' qids ->
       q = p' -> peq_members pe l1 l2' ql = Some b -> length l2' <= length l2 -> incl (l2' ++ ql) (l2 ++ pl) ->
       exists t'' p'' pl'' ids1'' ids2'' pids'', spec_run (objects_loop eq n v1 v2 q) (mkSt t' it) = Some (mkSt t'' it, (b, p'')) /\
         change t t'' (ids1 ++ ids2 ++ pids) /\ newer t None ids1 ids1'' /\ newer t None ids2 ids2'' /\ newer t None pids pids'' /\
         chain t'' v1 ids1'' /\ chain t'' v2 ids2'' /\ pend t'' p'' pl'' pids'' /\ sep ids1'' ids2'' /\ sep ids1'' pids'' /\ sep ids2'' pids'').
    { intros t' q qids l2' ql p' ids2' CH O1' O2'' PD' N2 NP SA SB SC -> P' LL IN.
      destruct (IH l1 l2' ql b P') with (t := t') (it := it) (v1 := v1) (v2 := v2) (p := p') (ids1 := c1 :: id1) (ids2 := ids2') (pids := qids)
        as [t2 [p2 [pl2 [i1 [i2 [i3 [RUN [CH2 [M1 [M2 [M3 [D1 [D2 [D3 [Q1 [Q2 Q3]]]]]]]]]]]]]]]]; auto.
      - cbn [length] in LN. lia.
      - intros x z X Y. apply Z; [now right|]. apply IN. exact Y.
      - exists t2, p2, pl2, i1, i2, i3. split; [exact RUN|]. split.
        + eapply change_then; [exact CH|exact CH2|]. intros j J. rewrite !in_app_iff in *.
          destruct J as [J|[J|J]]; [destruct (NW1 j J) as [I|[I _]]|destruct (N2 j J) as [I|[I _]]|destruct (NP j J) as [I|[I _]]]; auto.
        + split; [eapply newer_then; eauto|]. split; [eapply newer_then; eauto|]. split; [eapply newer_then; eauto|]. auto 8. }
    rewrite spec_bind. destruct (pfind k pl) as [r|] eqn:PF; [|discriminate].
    pose proof (find_pending_ok _ _ _ _ PD1 k r PF) as FP.
    destruct r as [[w q]|].
    + destruct FP as [wv [q' [iw [iq [FPE [FW [RW [PQ [SW [IW IQ]]]]]]]]]]. rewrite FPE. cbn [of_res spec_run obind].
      rewrite spec_bind. destruct (pfind_in _ _ _ _ PF) as [[kw INW] INQ].
      destruct (pe y w) as [e|] eqn:PE; [|discriminate].
      assert (SZ : size y + size w < m).
      { apply (Z (k, y) (kw, w)); [now left|]. apply in_or_app. now right. }
      destruct (safe_ok m eq pe EQ y w e PE SZ t1 it ch1 wv id1 iw F1 FW) as [t2 [RUN CH2]]. rewrite RUN. cbn [obind].
      assert (CH12 : change t t2 (ids1 ++ ids2 ++ pids)) by (eapply change_then; [exact CH1'|exact CH2|intros j []]).
      assert (FR2 : forall ids, (forall j, In j ids -> j < length t1) -> agree t1 t2 ids).
      { intros ids L. eapply change_agree; [exact CH2|exact L|intros j _ []]. }
      assert (O2'' : opened t2 v2 (members l2) ids2) by (eapply opened_frame; [exact O2'|apply FR2; intros j J; specialize (L2 j J); lia]).
      destruct e.
      * cbn [spec_run st_coll].
        assert (FW2 : fresh t2 wv w iw) by (eapply fresh_frame; [exact FW|apply FR2; intros j J; exact (fresh_lt _ _ _ _ _ FW J)]).
        assert (RW2 : forall j, In j iw -> exists hd, nth_error t2 j = Some hd /\ s_root hd = true).
        { intros j J. rewrite (FR2 iw) by (auto; intros j' J'; exact (fresh_lt _ _ _ _ _ FW J')). auto. }
        destruct (detach_fresh _ _ _ _ FW2 RW2) as [t3 [-> CH3]]. cbn [on_coll_ obind st_iter].
        assert (CH13 : change t1 t3 iw) by (eapply change_then; [eapply change_weaken; [exact CH2|intros j []]|exact CH3|auto]).
        eapply FIN with (p' := q') (qids := iq) (l2' := l2) (ql := q) (ids2' := ids2); auto.
        -- eapply change_then; [exact CH12|exact CH3|]. intros j J. left. rewrite !in_app_iff. right. right. apply IW. exact J.
        -- eapply OPN; [exact CH13|]. intros j J K. exact (S1P' j J (IW j K)).
        -- eapply opened_frame; [exact O2'|]. eapply change_agree; [exact CH13|intros j J; specialize (L2 j J); lia|].
           intros j J K. exact (S2P j J (IW j K)).
        -- eapply pend_frame; [exact PQ|]. eapply change_agree; [exact CH13|eapply pend_lt; exact PQ|now apply sep_sym].
        -- apply newer_refl.
        -- intros j J. left. apply IQ. exact J.
        -- intros j J K. exact (S1P' j J (IQ j K)).
        -- intros j J K. exact (S2P j J (IQ j K)).
        -- intros z I. apply in_app_or in I as [I|I]; apply in_or_app; auto.
      * injection P as <-. cbn [spec_run].
        exists t2, p, pl, (c1 :: id1), ids2, pids. split; [reflexivity|]. split; [exact CH12|]. split; [exact NW1|].
        split; [apply newer_refl|]. split; [apply newer_refl|].
        split; [eapply opened_chain; eapply OPN; [exact CH2|intros j _ []]|]. split; [eapply opened_chain; exact O2''|].
        split; [|auto]. eapply pend_frame; [exact PD1|apply FR2; eapply pend_lt; exact PD1].
    + rewrite FP. cbn [of_res spec_run obind]. rewrite spec_bind.
      destruct (pright k l2 pl) as [r|] eqn:PR; [|discriminate].
      assert (X : exists b', match r with Some (w, _, _) => pe y w = Some b' /\ size y + size w < m | None => b' = false end).
      { destruct r as [[[w l2'] q]|]; [|eauto]. destruct (pe y w) as [e|] eqn:PE; [|discriminate]. exists e. split; [reflexivity|].
        destruct (pright_in _ _ _ _ _ _ PR) as [[kw INW] _]. apply (Z (k, y) (kw, w)); [now left|]. apply in_or_app. now left. }
      destruct X as [b' RB].
      destruct (find_right_ok m eq pe EQ k ch1 y n l2 pl r b' PR) with (t := t1) (it := it) (v2 := v2) (p := p) (ids2 := ids2) (pids := pids) (idv := id1)
        as [t2 [p' [pl' [rest [ids2' [pids' [RUN [CH2 [N2 [NP [O3 [PD3 [S3 RR]]]]]]]]]]]]]; auto.
      { cbn [length] in LN. lia. } { intros j J K. exact (S12' j (or_intror K) J). }
      rewrite RUN. cbn [obind].
      assert (LE2 := cg_len _ _ _ CH2).
      assert (CH12 : change t t2 (ids1 ++ ids2 ++ pids)).
      { eapply change_then; [exact CH1'|exact CH2|]. intros j J. left. rewrite !in_app_iff. auto. }
      assert (N2' : newer t None ids2 ids2') by (eapply newer_then; [exact CH1|apply newer_refl|exact N2]).
      assert (NP' : newer t None pids pids') by (eapply newer_then; [exact CH1|apply newer_refl|exact NP]).
      assert (O1' : opened t2 v1 (members l1) (c1 :: id1)) by (eapply OPN; [exact CH2|exact S12']).
      assert (SA : sep (c1 :: id1) ids2').
      { intros j J K. destruct (N2 j K) as [I|[I _]]; [exact (S12' j J I)|]. specialize (LI1 j J). lia. }
      assert (SB : sep (c1 :: id1) pids').
      { intros j J K. destruct (NP j K) as [I|[I _]]; [exact (S1P' j J I)|]. specialize (LI1 j J). lia. }
      assert (STOP : b' = false -> b = false -> exists t'' p'' pl'' ids1'' ids2'' pids'',
         spec_run (IRet (false, p')) (mkSt t2 it) = Some (mkSt t'' it, (b, p'')) /\
         change t t'' (ids1 ++ ids2 ++ pids) /\ newer t None ids1 ids1'' /\ newer t None ids2 ids2'' /\ newer t None pids pids'' /\
         chain t'' v1 ids1'' /\ chain t'' v2 ids2'' /\ pend t'' p'' pl'' pids'' /\ sep ids1'' ids2'' /\ sep ids1'' pids'' /\ sep ids2'' pids'').
      { intros -> ->. exists t2, p', pl', (c1 :: id1), ids2', pids'. split; [reflexivity|]. split; [exact CH12|].
        split; [exact NW1|]. split; [exact N2'|]. split; [exact NP'|]. split; [eapply opened_chain; exact O1'|].
        split; [eapply opened_chain; exact O3|]. auto. }
      destruct r as [[[w l2'] q]|].
      * destruct RB as [PE SZ]. destruct RR as [-> ->]. rewrite PE in P. destruct b'.
        -- destruct (pright_in _ _ _ _ _ _ PR) as [_ [I1 [I2 I3]]].
           eapply FIN with (p' := p') (qids := pids') (l2' := l2') (ql := q) (ids2' := ids2'); auto; [lia|].
           intros z I. apply in_app_or in I as [I|I]; [apply in_or_app; auto|auto].
        -- injection P as <-. now apply STOP.
      * subst b'. injection P as <-. now apply STOP.
Qed.

Lemma list_sum_in : forall l x, In x l -> x <= list_sum l.
Proof. induction l as [|y l IH]; intros x []; unfold list_sum in *; cbn [fold_right]; [lia|]. specialize (IH x H). lia. Qed.

Lemma equal_ok : forall n, eq_ok n (equal n) (peq n).
Proof.
  induction n as [|m IH]; intros x1 x2 b P SZ t it v1 v2 ids1 ids2 F1 F2 SP; [discriminate|].
  cbn [peq] in P.
  assert (SH1 := shape_fresh _ _ _ _ F1). assert (SH2 := shape_fresh _ _ _ _ F2).
  assert (NO : spec_run (IRet false) (mkSt t it) = Some (mkSt t it, false)) by reflexivity.
  assert (TRIV : exists t' ids1' ids2', spec_run (IRet false) (mkSt t it) = Some (mkSt t' it, false) /\
    change t t' (ids1 ++ ids2) /\ newer t None ids1 ids1' /\ newer t None ids2 ids2' /\
    chain t' v1 ids1' /\ chain t' v2 ids2' /\ sep ids1' ids2').
  { exists t, ids1, ids2. split; [reflexivity|]. split; [apply change_refl|]. split; [apply newer_refl|]. split; [apply newer_refl|].
    split; [eapply fresh_chain; exact F1|]. split; [eapply fresh_chain; exact F2|exact SP]. }
  destruct x1 as [s1|l1 e1|l1 e1], x2 as [s2|l2 e2|l2 e2]; cbn [shape_of] in SH1, SH2;
    destruct v1 as [s1'|j1|j1]; try discriminate; destruct v2 as [s2'|j2|j2]; try discriminate;
    cbn [equal]; try (injection P as <-; exact TRIV).
  - injection SH1 as ->. injection SH2 as ->. destruct (scalar_equal s1 s2) as [e| |]; try discriminate. injection P as ->.
    cbn [of_res]. destruct TRIV as [t' [i1 [i2 [R Q]]]]. injection R as <-. exists t, i1, i2. split; [reflexivity|exact Q].
  - cbn [size] in SZ. eapply arrays_ok; [exact IH|exact P| | | | |exact SP].
    + pose proof (items_len l1). lia.
    + intros x y X Y. apply (in_map size) in X, Y. apply list_sum_in in X, Y. lia.
    + apply (opened_fresh t (VArr j1) (JArr l1 e1) ids1 F1 eq_refl).
    + apply (opened_fresh t (VArr j2) (JArr l2 e2) ids2 F2 eq_refl).
  - cbn [size] in SZ. rewrite spec_bind.
    destruct (objects_ok m (equal m) (peq m) IH m l1 l2 [] b P) with (t := t) (it := it) (v1 := VObj j1) (v2 := VObj j2) (p := @nil (option scalar * value))
      (ids1 := ids1) (ids2 := ids2) (pids := @nil nat)
      as [t2 [p2 [pl2 [i1 [i2 [i3 [RUN [CH2 [M1 [M2 [M3 [D1 [D2 [D3 [Q1 [Q2 Q3]]]]]]]]]]]]]]]]; auto.
    + pose proof (members_len l1). pose proof (members_len l2). lia.
    + rewrite app_nil_r. intros x y X Y. apply (in_map (fun kv => size (snd kv))) in X, Y. apply list_sum_in in X, Y. lia.
    + apply (opened_fresh t (VObj j1) (JObj l1 e1) ids1 F1 eq_refl).
    + apply (opened_fresh t (VObj j2) (JObj l2 e2) ids2 F2 eq_refl).
    + constructor.
    + intros j _ [].
    + intros j _ [].
    + rewrite RUN. cbn [obind]. destruct (detach_all_ok _ (IRet b) p2 pl2 i3 t2 it D3) as [t3 [-> CH3]]. cbn [spec_run].
      exists t3, i1, i2. split; [reflexivity|]. split.
      * rewrite app_nil_r in CH2. eapply change_then; [exact CH2|exact CH3|]. intros j J. destruct (M3 j J) as [[]|[I _]]. now right.
      * split; [exact M1|]. split; [exact M2|].
        split; [eapply chain_frame; [exact D1|]; eapply change_agree; [exact CH3|intros j J; exact (chain_lt _ _ _ _ D1 J)|exact Q2]|].
        split; [eapply chain_frame; [exact D2|]; eapply change_agree; [exact CH3|intros j J; exact (chain_lt _ _ _ _ D2 J)|exact Q3]|].
        exact Q1.
Qed.

(** Queries whose first segments go forward. *)
From Coq Require Import List ZArith NArith Arith Bool Lia.
From Verif Require Import Base Tokens JsonSpec EncSpec CursorModel IterModel IterSpec IterCore IterThr IterRel IterOps IterOps2 IterOps3 IterSound IterLib ScriptProofs
  EqualModel SplitModel SelectModel PathModel PathTop StreamModel StreamRead StreamW StreamEngine.

(** A processor that uses no value but those it is given. *)
Definition steady (B : base) : Prop := forall T, closed T false B.
Lemma steady_write : steady at_write.
Proof. intro T. apply closed_write. Qed.

(** A dispatcher with nothing pending. *)
Definition idle (sel : selector) (s : state value) : Prop := st_sel s = sel /\ st_pending s = [].
Definition idle_on (sel : selector) (B : base) : base := fun o P =>
  exists cl ss next, P = PDisp cl ss next /\ B o next /\ (ss = [] \/ exists s, ss = [s] /\ idle sel s).

Section Forward.
Variable sel : selector.
Hypothesis FW : sel_reverses sel = false.
Variable B : base.
Hypothesis SB : steady B.
Notation idle_disp := (idle_on sel B).

Lemma idle_one : forall cl s o next, idle sel s -> B o next -> idle_disp o (PDisp cl [s] next).
Proof. intros cl s o next I N. exists cl, [s], next. eauto 6. Qed.
Lemma closed_clean : steady idle_disp.
Proof.
  intros T o P v [cl [ss [next [-> [N H]]]]] V. cbn [process]. destruct H as [->|[s [-> [I1 I2]]]].
  - exists cl, [], next. auto.
  - destruct (st_selected s).
    + apply Q_clone_if; [exact V|]. intros c C. rewrite I1, FW. eapply Q_bind; [apply SB; [exact N|exact C]|]. intros o' [next' b] N'. cbn [fst] in N'. apply Q_detach_if; [exact C|].
      destruct b; cbn [push_all ibind]; apply idle_one; auto; split; assumption.
    + cbn [push_all ibind]. apply idle_one; auto. split; assumption.
Qed.

Lemma clean_next : forall o D, idle_disp o D -> B o (snd (disp_parts D)).
Proof. intros o D [cl [ss [next [-> [N H]]]]]. exact N. Qed.
Lemma clean_with : forall o o' D next, idle_disp o D -> B o' next -> idle_disp o' (with_next D next).
Proof. intros o o' D next [cl [ss [next0 [-> [N H]]]]] N'. exists cl, ss, next. auto. Qed.
Lemma finish_clean : forall o D r, idle_disp o D -> exists next, B o next /\ finish D r = IRet (next, r).
Proof.
  intros o D r [cl [ss [next [-> [N H]]]]]. exists next. split; [exact N|]. unfold finish. cbn [disp_parts]. destruct H as [->|[s [-> [I1 I2]]]]; [reflexivity|].
  cbn [flush_states]. unfold in_order. rewrite I1, I2, FW. reflexivity.
Qed.

Section Loops.
  Variable tv : segment -> value -> proc value -> iprog (proc value * bool).
  Variable ev : cond -> value -> iprog bool.
  Hypothesis TV : forall T B, closed T false B -> forall seg v o P, B o P -> avoid T v -> Q T false (fun o' r => B o' (fst r)) o (tv seg v P).
  Hypothesis EV : forall T c v, avoid T v -> Q T false (fun _ _ => True) None (ev c v).
  Notation dpost := (fun o' r => idle_disp o' (fst r)).

  (** What is decided of an item, and what is then left to do. *)
  Lemma Q_decide : forall T s decide v, idle sel s -> (avoid T v \/ match sel with SFilter _ => False | _ => True end) ->
    Q T false (fun _ r => snd (fst r) <= 1 /\ exists s1, fst (fst r) = [s1] /\ idle sel s1) None (decide_all decide (fun c => ev c v) 0 0 0 [s]).
  Proof.
    intros T s decide v [I1 I2] V. cbn [decide_all]. destruct (st_done s); cbn [ibind].
    - cbn. split; [lia|]. eexists. split; [reflexivity|]. split; assumption.
    - eapply q_bind with (P := fun _ => True).
      + destruct (d_yes _); [exact Logic.I|]. destruct (d_no _); [exact Logic.I|]. rewrite I1. destruct sel; try exact Logic.I. destruct V as [V|[]]. now apply EV.
      + intros b _. cbn. split; [destruct (_ && _); lia|]. eexists. split; [reflexivity|]. split; assumption.
  Qed.
  Definition dispatched (cl : bool) (next : proc value) (v : value) (following : option segment) (p : iprog (proc value * bool)) : Prop :=
    p = IRet (PDisp cl [] next, true) \/ exists s1, idle sel s1 /\
      (p = IRet (PDisp cl [s1] next, true) \/ exists cl', p = match following with None => process (PDisp cl' [s1] next) v | Some seg => tv seg v (PDisp cl' [s1] next) end).
  Lemma dispatch_form : forall cl s next v decide following, exists f, dispatch tv ev (PDisp cl [s] next) v decide following = ibind (decide_all decide (fun c => ev c v) 0 0 0 [s]) f /\
    forall ss1 first count s1, first <= 1 -> ss1 = [s1] -> idle sel s1 -> dispatched cl next v following (f (ss1, first, count)).
  Proof.
    intros cl s next v decide following. unfold dispatch, dispatch_item. cbn [disp_parts]. eexists. split; [reflexivity|]. intros ss1 first count s1 LF -> [J1 J2]. cbv beta iota.
    destruct first as [|[|first]]; [| |lia].
    - cbn [Nat.ltb Nat.leb ibind skipn negb]. rewrite J2, andb_false_r. cbn [ibind negb]. right. exists s1. split; [split; assumption|].
      destruct count as [|count]; [left; reflexivity|right; eexists; reflexivity].
    - cbn [Nat.ltb Nat.leb firstn flush_states]. unfold in_order. rewrite J1, J2, FW. cbn [flush_values ibind skipn]. left. reflexivity.
  Qed.

  Lemma Q_dispatch_clean : forall T D v decide following o, idle_disp o D -> avoid T v -> Q T false dpost o (dispatch tv ev D v decide following).
  Proof.
    intros T D v decide following o [cl [ss [next [-> [N H]]]]] V. destruct H as [->|[s [-> I]]]; [exists cl, [], next; auto|].
    destruct (dispatch_form cl s next v decide following) as [f [-> F]].
    eapply Q_after; [apply Q_decide; [exact I|now left]|]. intros [[ss1 first] count] [LF [s1 [E1 J]]]. cbn [fst snd] in *.
    destruct (F ss1 first count s1 LF E1 J) as [->|[s2 [I2 [->|[cl' ->]]]]]; [exists cl, [], next; auto|now apply idle_one|]. destruct following as [seg|].
    - apply (TV T idle_disp (closed_clean T)); [now apply idle_one|exact V].
    - apply (closed_clean T); [now apply idle_one|exact V].
  Qed.

  Lemma W_item : forall d T A (x : option value) (f : value -> iprog A) R o, avoid_opt T x -> (forall y, avoid T y -> W d T R o (f y)) -> W d T R o (ilet y <- need x; f y).
  Proof. intros d T A [y|] f R o X F; [apply F; exact X|exact Logic.I]. Qed.
  Lemma W_clone_if : forall d T A cl v (k : value -> iprog A) R o, avoid T v -> (forall c, avoid T c -> W d T R o (k c)) -> W d T R o (clone_if cl v k).
  Proof. intros d T A [|] v k R o H K; cbn [clone_if]; [split; auto|auto]. Qed.
  Lemma W_detach_if : forall d T A cl v (k : iprog A) R o, avoid T v -> W d T R o k -> W d T R o (detach_if cl v k).
  Proof. intros d T A [|] v k R o H K; cbn [detach_if]; [split; auto|auto]. Qed.
  Lemma W_after : forall d T A C (p : iprog A) (f : A -> iprog C) (P : A -> Prop) R o,
    Q T false (fun _ a => P a) None p -> (forall a, P a -> W d T R o (f a)) -> W d T R o (ibind p f).
  Proof. intros d T A C p f P R o H F. apply Q_lift with (o := o) in H. eapply Q_W_bind; [exact H|]. intros o' a [-> K]. auto. Qed.

  (** The collection, and what is done with an item that is tracked too. *)
  Variable v : value.
  Variable c : nat.
  Variable anc : list nat.
  Hypothesis IV : idof v = Some c.
  Hypothesis NI : ~ In c anc.
  Variable d : nat.
  Variable desc : bool.
  Variable following : option segment.
  Hypothesis PUSH : match d with
    | O => True
    | S d' => desc = false /\ match sel with SFilter _ => False | _ => True end /\
        exists seg', following = Some seg' /\ forall x c' T o P, idof x = Some c' -> ~ In c' T -> idle_disp o P -> W d' (c' :: T) dpost o (tv seg' x P)
    end.
  Notation T := (c :: anc).

  Lemma around : forall T', In c T' -> tracked T' v = true.
  Proof. intros T' J. now apply (tracked_in T' v c IV). Qed.
  Lemma W_advance : forall A (k : bool -> iprog A) R o, W d T R o (k true) -> (forall d' c', d = S d' -> ~ In c' T -> W d' (c' :: T) R o (k true)) ->
    Sil anc (R o) (k false) -> W d T R o (IAdvance v k).
  Proof.
    intros A k R o H1 H2 H3. cbn [W tl]. rewrite (around T) by now left.
    destruct (tracked anc v) eqn:TR; [exfalso; apply NI; now apply (tracked_in anc v c IV)|]. split; [exact H1|]. split; [|exact H3]. destruct d as [|d']; auto.
  Qed.
  Lemma push_desc : forall d', d = S d' -> desc = false.
  Proof. intros d' E. rewrite E in PUSH. apply PUSH. Qed.
  Lemma W_over : forall A (k : bool -> iprog A) R o d' c' ext, Sil (ext ++ T) (R o) (k false) -> W d' (c' :: ext ++ T) R o (IAdvance v k).
  Proof. intros A k R o d' c' ext H. cbn [W tl]. rewrite around by (apply in_or_app; right; now left). exact H. Qed.
  Lemma Sil_over : forall A (k : bool -> iprog A) R, Sil T R (k false) -> Sil T R (IAdvance v k).
  Proof. intros A k R H. cbn [Sil]. rewrite around by now left. exact H. Qed.

  (** The tracked item. *)
  Lemma W_dispatch_push : forall d' x c' D decide o, d = S d' -> idof x = Some c' -> ~ In c' T -> idle_disp o D -> W d' (c' :: T) dpost o (dispatch tv ev D x decide following).
  Proof.
    intros d' x c' D decide o E IX N' [cl [ss [next [-> [N H]]]]]. rewrite E in PUSH. destruct PUSH as [_ [NF [seg' [EF TW]]]].
    destruct H as [->|[s [-> I]]]; [exists cl, [], next; auto|]. destruct (dispatch_form cl s next x decide following) as [f [-> F]].
    eapply W_after; [apply Q_decide; [exact I|now right]|]. intros [[ss1 first] count] [LF [s1 [E1 J]]]. cbn [fst snd] in *.
    destruct (F ss1 first count s1 LF E1 J) as [->|[s2 [I2 [->|[cl' ->]]]]]; [exists cl, [], next; auto|now apply idle_one|]. rewrite EF. apply TW; auto. now apply idle_one.
  Qed.
  (** After it nothing is done. *)
  Lemma W_pushed : forall d' x c' D decide o (f : proc value * bool -> iprog (proc value * bool)), d = S d' -> idof x = Some c' -> ~ In c' T -> idle_disp o D ->
    (forall d1 c1 ext o1 D1 r, idle_disp o1 D1 -> W d1 (c1 :: ext ++ T) dpost o1 (f (D1, r))) ->
    (forall o1 D1 r, idle_disp o1 D1 -> Sil T (dpost o1) (f (D1, r))) ->
    W d' (c' :: T) dpost o (ibind (dispatch tv ev D x decide following) f).
  Proof.
    intros d' x c' D decide o f E IX N' HD F1 F2. eapply W_bind; [eapply W_dispatch_push; eauto| | |].
    - intros o1 [D1 r] H1. exact (F1 d' c' [] o1 D1 r H1).
    - intros d1 c1 ext o1 [D1 r] H1. pose proof (F1 d1 c1 (ext ++ [c']) o1 D1 r H1) as Q. rewrite <- app_assoc in Q. exact Q.
    - intros o1 [D1 r] H1. now apply F2.
  Qed.
  Lemma W_current : forall A (k : option value -> iprog A) R o d' c', (forall x, idof x = Some c' -> W d' (c' :: T) R o (k (Some x))) -> W d' (c' :: T) R o (ICurrent v k).
  Proof. intros A k R o d' c' H. cbn [W tl]. rewrite around by now left. split; [exact IV|exact H]. Qed.
  Lemma W_keyval : forall A (k : option scalar * option value -> iprog A) R o d' c', (forall key x, idof x = Some c' -> W d' (c' :: T) R o (k (key, Some x))) -> W d' (c' :: T) R o (IKeyVal v k).
  Proof. intros A k R o d' c' H. cbn [W tl]. rewrite around by now left. split; [exact IV|exact H]. Qed.

  Lemma W_this : forall A (k : option value -> iprog A) R o, (forall x, avoid_opt T x -> W d T R o (k x)) -> W d T R o (ICurrent v k).
  Proof. intros A k R o H. cbn [W tl]. destruct (tracked anc v) eqn:TR; [exfalso; apply NI; now apply (tracked_in anc v c IV)|exact H]. Qed.
  Lemma W_thiskey : forall A (k : option scalar * option value -> iprog A) R o, (forall x, avoid_opt T (snd x) -> W d T R o (k x)) -> W d T R o (IKeyVal v k).
  Proof. intros A k R o H. cbn [W tl]. destruct (tracked anc v) eqn:TR; [exfalso; apply NI; now apply (tracked_in anc v c IV)|exact H]. Qed.

  Lemma W_object_relaxed : forall n seg D o, idle_disp o D -> W d T dpost o (object_relaxed tv ev n seg desc following v D).
  Proof.
    induction n as [|n IH]; intros seg D o HD; [exact Logic.I|]. cbn [object_relaxed]. apply W_advance; [| |exact HD].
    - apply W_thiskey. intros kv X. eapply W_after; [apply (q_need _ _ _ _ (fun _ => True)); auto|]. intros key _. apply W_item; [exact X|]. intros x AX. apply W_clone_if; [exact AX|]. intros x2 A2.
      eapply W_after; [apply q_of_res|]. intros k _. eapply Q_W_bind; [apply Q_dispatch_clean; [exact HD|exact AX]|]. intros o1 [D1 r] HD1. cbn [fst] in HD1.
      destruct (negb r); [apply W_detach_if; [exact A2|exact HD1]|]. destruct desc.
      + eapply Q_W_bind; [apply (TV T B (SB T)); [apply clean_next; exact HD1|exact A2]|]. intros o2 [next' r2] N'. cbn [fst] in N'. split; [exact A2|].
        assert (HD2 := clean_with _ _ _ _ HD1 N'). destruct r2; [now apply IH|exact HD2].
      + destruct (no_states D1); [exact HD1|now apply IH].
    - intros d' c' Ed N'. rewrite (push_desc d' Ed). clear IH.
      apply W_keyval. intros key x IX. cbn [fst snd]. eapply W_after; [apply (q_need _ _ _ _ (fun _ => True)); auto|]. intros key' _. cbn [need ibind clone_if]. eapply W_after; [apply q_of_res|]. intros k _.
      apply (W_pushed d' x c' D _ o); auto.
      + intros d1 c1 ext o1 D1 r H1. destruct (negb r); [exact H1|]. destruct (no_states D1); [exact H1|]. destruct n; [exact Logic.I|]. cbn [object_relaxed]. apply W_over. exact H1.
      + intros o1 D1 r H1. destruct (negb r); [exact H1|]. destruct (no_states D1); [exact H1|]. destruct n; [exact Logic.I|]. cbn [object_relaxed]. apply Sil_over. exact H1.
  Qed.
  Lemma W_array_relaxed : forall n seg index neg D o, idle_disp o D -> W d T dpost o (array_relaxed tv ev n seg desc following v None index neg D).
  Proof.
    induction n as [|n IH]; intros seg index neg D o HD; [exact Logic.I|]. cbn [array_relaxed]. apply W_advance; [| |exact HD].
    - apply W_this. intros x0 X. apply W_item; [exact X|]. intros x AX. apply W_clone_if; [exact AX|]. intros x2 A2.
      eapply Q_W_bind; [apply Q_dispatch_clean; [exact HD|exact AX]|]. intros o1 [D1 r] HD1. cbn [fst] in HD1.
      destruct (negb r); [apply W_detach_if; [exact A2|exact HD1]|]. cbn [step_ahead]. destruct desc.
      + eapply Q_W_bind; [apply (TV T B (SB T)); [apply clean_next; exact HD1|exact A2]|]. intros o2 [next' r2] N'. cbn [fst] in N'. split; [exact A2|].
        assert (HD2 := clean_with _ _ _ _ HD1 N'). destruct r2; [now apply IH|exact HD2].
      + destruct (no_states D1); [exact HD1|now apply IH].
    - intros d' c' Ed N'. rewrite (push_desc d' Ed). clear IH.
      apply W_current. intros x IX. cbn [need ibind clone_if step_ahead].
      apply (W_pushed d' x c' D _ o); auto.
      + intros d1 c1 ext o1 D1 r H1. destruct (negb r); [exact H1|]. destruct (no_states D1); [exact H1|]. destruct n; [exact Logic.I|]. cbn [array_relaxed]. apply W_over. exact H1.
      + intros o1 D1 r H1. destruct (negb r); [exact H1|]. destruct (no_states D1); [exact H1|]. destruct n; [exact Logic.I|]. cbn [array_relaxed]. apply Sil_over. exact H1.
  Qed.
  Lemma W_object_strict : forall n D o, idle_disp o D -> W d T dpost o (object_strict tv ev n following v D).
  Proof.
    induction n as [|n IH]; intros D o HD; [exact Logic.I|]. cbn [object_strict]. apply W_advance; [| |exact HD].
    - apply W_thiskey. intros kv X. eapply W_after; [apply (q_need _ _ _ _ (fun _ => True)); auto|]. intros key _. apply W_item; [exact X|]. intros x AX.
      eapply W_after; [apply q_of_res|]. intros k _. eapply Q_W_bind; [apply Q_dispatch_clean; [exact HD|exact AX]|]. intros o1 [D1 r] HD1. cbn [fst] in HD1.
      destruct (negb r); [exact HD1|]. destruct (no_states D1); [exact HD1|now apply IH].
    - intros d' c' Ed N'. clear IH.
      apply W_keyval. intros key x IX. cbn [fst snd]. eapply W_after; [apply (q_need _ _ _ _ (fun _ => True)); auto|]. intros key' _. cbn [need ibind]. eapply W_after; [apply q_of_res|]. intros k _.
      apply (W_pushed d' x c' D _ o); auto.
      + intros d1 c1 ext o1 D1 r H1. destruct (negb r); [exact H1|]. destruct (no_states D1); [exact H1|]. destruct n; [exact Logic.I|]. cbn [object_strict]. apply W_over. exact H1.
      + intros o1 D1 r H1. destruct (negb r); [exact H1|]. destruct (no_states D1); [exact H1|]. destruct n; [exact Logic.I|]. cbn [object_strict]. apply Sil_over. exact H1.
  Qed.
  Lemma W_array_strict : forall n index neg D o, idle_disp o D -> W d T dpost o (array_strict tv ev n following v None index neg D).
  Proof.
    induction n as [|n IH]; intros index neg D o HD; [exact Logic.I|]. cbn [array_strict]. apply W_advance; [| |exact HD].
    - apply W_this. intros x0 X. apply W_item; [exact X|]. intros x AX.
      eapply Q_W_bind; [apply Q_dispatch_clean; [exact HD|exact AX]|]. intros o1 [D1 r] HD1. cbn [fst] in HD1.
      destruct (negb r); [exact HD1|]. cbn [step_ahead]. destruct (no_states D1); [exact HD1|now apply IH].
    - intros d' c' Ed N'. clear IH.
      apply W_current. intros x IX. cbn [need ibind step_ahead].
      apply (W_pushed d' x c' D _ o); auto.
      + intros d1 c1 ext o1 D1 r H1. destruct (negb r); [exact H1|]. destruct (no_states D1); [exact H1|]. destruct n; [exact Logic.I|]. cbn [array_strict]. apply W_over. exact H1.
      + intros o1 D1 r H1. destruct (negb r); [exact H1|]. destruct (no_states D1); [exact H1|]. destruct n; [exact Logic.I|]. cbn [array_strict]. apply Sil_over. exact H1.
  Qed.

  Lemma W_body : forall n look strict o P, (look <= 0)%Z -> (strict = true -> desc = false) -> B o P ->
    W d T (fun o' r => B o' (fst r)) o (transform_body tv ev n (Seg [sel] look desc strict following) v P).
  Proof.
    intros n look strict o P L SD N.
    assert (HD : idle_disp o (PDisp false (new_states [sel]) P)) by (apply idle_one; [split; reflexivity|exact N]).
    assert (FIN : forall p : iprog (proc value * bool), W d T dpost o p -> W d T (fun o' r => B o' (fst r)) o (ilet (D1, r) <- p ; finish D1 r)).
    { intros p H. eapply W_bind; [exact H| | |].
      - intros o1 [D1 r] H1. cbn [fst] in H1; destruct (finish_clean _ _ r H1) as [next [N1 ->]]. exact N1.
      - intros d' c' ext o1 [D1 r] H1. cbn [fst] in H1; destruct (finish_clean _ _ r H1) as [next [N1 ->]]. exact N1.
      - intros o1 [D1 r] H1. cbn [fst] in H1; destruct (finish_clean _ _ r H1) as [next [N1 ->]]. exact N1. }
    unfold transform_body. destruct v as [s|e|e] eqn:Ev; [discriminate IV| |]; rewrite <- Ev in *.
    - unfold start_ahead. replace (0 <? look)%Z with false by (symmetry; apply Z.ltb_ge; lia). cbn [end_ahead]. destruct strict.
      + rewrite SD by reflexivity. apply FIN. now apply W_array_strict.
      + apply FIN. now apply W_array_relaxed.
    - destruct strict.
      + rewrite SD by reflexivity. apply FIN. now apply W_object_strict.
      + apply FIN. now apply W_object_relaxed.
  Qed.
End Loops.
End Forward.

(** Segments that go forward: [d] of them select without looking into the items. *)
Fixpoint spine (d : nat) (seg : segment) : Prop :=
  match seg with
  | Seg sels look desc strict following => exists sel, sels = [sel] /\ sel_reverses sel = false /\ (look <= 0)%Z /\ (strict = true -> desc = false) /\
      match d with
      | O => True
      | S d' => desc = false /\ match sel with SFilter _ => False | _ => True end /\ match following with Some seg' => spine d' seg' | None => False end
      end
  end.

(** A whole query. *)
Section Query.
Variable find : bytes -> bytes -> option (nat * nat).
Lemma W_transform : forall n d seg, spine d seg -> forall B, steady B -> forall v c anc o P, idof v = Some c -> ~ In c anc -> B o P ->
  W d (c :: anc) (fun o' r => B o' (fst r)) o (transform_value find (mkCtx [] []) n seg v P).
Proof.
  induction n as [|n IH]; intros d [sels look desc strict following] SP B SB v c anc o P IV NI N; [exact Logic.I|].
  change (transform_value find (mkCtx [] []) (S n) (Seg sels look desc strict following) v P)
    with (transform_body (transform_value find (mkCtx [] []) n) (eval_cond find (mkCtx [] []) n) n (Seg sels look desc strict following) v P).
  destruct d as [|d]; cbn [spine] in SP; destruct SP as [sel [-> [FW [L [SD R]]]]].
  - apply W_body; auto; intros; apply (engine _ false find (mkCtx [] []) (or_introl (conj eq_refl eq_refl)) n); auto.
  - apply W_body; auto; try (intros; apply (engine _ false find (mkCtx [] []) (or_introl (conj eq_refl eq_refl)) n); auto; fail).
    destruct R as [DE [NF FO]]. split; [exact DE|]. split; [exact NF|]. destruct following as [seg'|]; [|destruct FO]. exists seg'. split; [reflexivity|].
    intros x c' T o' P' IX NX HP. apply (IH d seg' FO (idle_on sel B)); auto. now apply closed_clean.
Qed.

Definition rootless (r : runner) : Prop := rn_singular r = [] /\ rn_queries r = [].
Lemma run_rootless : forall n r v, rootless r -> run_query find n r v =
  (ilet (P, _) <- map_value (mkCtx [] []) (transform_value find (mkCtx [] []) n) n (rn_main r) v (PWrite []) ; match P with PWrite ts => IRet ts | _ => IPanic end).
Proof. intros n r v [E1 E2]. unfold run_query, compute_context. rewrite E1, E2. reflexivity. Qed.

Lemma Q_query : forall T n r v, rootless r -> avoid T v -> Q T false (fun o ts => o = Some ts) (Some []) (run_query find n r v).
Proof.
  intros T n r v RL V. rewrite run_rootless by exact RL. destruct (engine T false find (mkCtx [] []) (or_introl (conj eq_refl eq_refl)) n) as [TV [EV EC]].
  eapply Q_bind; [apply (Q_map_value T false (mkCtx [] []) (or_introl (conj eq_refl eq_refl)) _ TV at_write (closed_write T false)); [exists []; auto|exact V]|]. intros o [P b] [out [-> E]]. cbn [fst] in E. subst P. reflexivity.
Qed.
Lemma W_query : forall n r v c d seg, rootless r -> rn_main r = QFirst (Some seg) -> spine d seg -> idof v = Some c ->
  W d [c] (fun o ts => o = Some ts) (Some []) (run_query find n r v).
Proof.
  intros n r v c d seg RL E SP IV. rewrite run_rootless by exact RL. rewrite E. cbn [map_value].
  eapply W_bind; [apply (W_transform n d seg SP at_write steady_write); [exact IV|intros []|exists []; auto]| | |].
  - intros o [P b] [out [-> EP]]; cbn [fst] in EP; subst P; reflexivity.
  - intros d' c' ext o [P b] [out [-> EP]]; cbn [fst] in EP; subst P; reflexivity.
  - intros o [P b] [out [-> EP]]; cbn [fst] in EP; subst P; reflexivity.
Qed.
End Query.

(* ------------------------------------------------------------------ *)
(** All the values of the input. *)
Section Values.
Variable grow : Z -> Z -> Z.

Lemma iter_advance_streams : forall n h h' b, iter_advance grow n 0 h = Ok (h', b) -> on_input h ->
  on_input h' /\ (b = true -> exists y, nth_error (h_iter h') 0 = Some y /\ forall v c, i_val y = Some v -> idof v = Some c -> stream_of h' c = Some (RSrc 0)).
Proof.
  intros n h h' b E [y [Y1 Y2]]. unfold iter_advance in E. unfold hbind at 1, get_iter in E. rewrite Y1, Y2 in E. unfold hbind at 1 in E.
  destruct ((match i_val y with Some v => discard grow n v | None => hret tt end) h) as [[h1 x1]| |] eqn:E1; try discriminate.
  assert (K1 : fixed h h1) by (destruct (i_val y); [eapply keeps_discard; eauto|eapply keeps_ret; eauto]).
  unfold hbind at 1 in E. destruct (snext grow (RSrc 0) h1) as [[h2 item]| |] eqn:E2; try discriminate. pose proof (keeps_snext _ _ _ _ _ E2) as K2.
  assert (L2 : 0 < length (h_iter h2)) by (destruct K1 as [A _], K2 as [B _]; rewrite B, A; eapply nth_error_lt; eauto).
  destruct item as [t|].
  - unfold hbind at 1 in E. destruct (next_value t (RSrc 0) h2) as [[h3 v]| |] eqn:E3; try discriminate.
    unfold hbind, put_iter, hret in E. injection E as <- <-. pose proof (keeps_next_value _ _ _ _ _ E3) as [A3 _].
    split; [eexists; split; [cbn [set_iter h_iter]; apply nth_error_upd_same; rewrite A3; exact L2|reflexivity]|]. intros _. eexists. split; [cbn [set_iter h_iter]; apply nth_error_upd_same; rewrite A3; exact L2|].
    cbn [i_val]. intros v' c Q IV. injection Q as <-. unfold stream_of. cbn.
    destruct t; cbn in E3; try discriminate; injection E3 as <- <-; cbn in IV; try discriminate; injection IV as <-; cbn; now rewrite nth_error_app_last.
  - unfold hbind, put_iter, hret in E. injection E as <- <-. split; [|discriminate]. eexists. split; [cbn [set_iter h_iter]; apply nth_error_upd_same; exact L2|reflexivity].
Qed.

Lemma emits_bind : forall A B (p : iprog A) (f : A -> iprog B) n h h' a, irun grow n p h = Ok (h', a) ->
  emits grow n (ibind p f) h = emits grow n p h ++ emits grow n (f a) h'.
Proof.
  intros A B p f n. induction p as [a0| | |v k IH|v k IH|v k IH|v k IH|v k IH|v k IH|v k IH|d k IH|i k IH|i k IH|i k IH|i k IH];
    intros h h' a E; cbn [irun ibind emits] in *; unfold hret, hpanic, hfuel, hbind, after in *; try discriminate.
  - injection E as <- <-. reflexivity.
  - destruct (coll_of v h) as [[h0 c]| |]; try discriminate. destruct (advance grow n c h0) as [[h1 b]| |]; try discriminate. now apply IH.
  - destruct (current_value v h) as [[h1 b]| |]; try discriminate. now apply IH.
  - destruct (current_key_val v h) as [[h1 b]| |]; try discriminate. now apply IH.
  - destruct (clone grow v h) as [[h1 b]| |]; try discriminate. now apply IH.
  - destruct (detach grow v h) as [[h1 b]| |]; try discriminate. now apply IH.
  - destruct (copy grow n v h) as [[h1 b]| |]; try discriminate. cbn [app]. f_equal. now apply IH.
  - destruct (discard grow n v h) as [[h1 b]| |]; try discriminate. now apply IH.
  - destruct (iter_from_data d h) as [[h1 b]| |]; try discriminate. now apply IH.
  - destruct (iter_advance grow n i h) as [[h1 b]| |]; try discriminate. now apply IH.
  - destruct (iter_current i h) as [[h1 b]| |]; try discriminate. now apply IH.
  - destruct (iter_clone grow i h) as [[h1 b]| |]; try discriminate. now apply IH.
  - destruct (iter_detach grow i h) as [[h1 b]| |]; try discriminate. now apply IH.
Qed.
Lemma irun_bind : forall A B (p : iprog A) (f : A -> iprog B) n h h' a, irun grow n p h = Ok (h', a) -> irun grow n (ibind p f) h = irun grow n (f a) h'.
Proof.
  intros A B p f n. induction p as [a0| | |v k IH|v k IH|v k IH|v k IH|v k IH|v k IH|v k IH|d k IH|i k IH|i k IH|i k IH|i k IH];
    intros h h' a E; cbn [irun ibind] in *; unfold hret, hpanic, hfuel, hbind in *; try discriminate.
  - injection E as <- <-. reflexivity.
  - destruct (coll_of v h) as [[h0 c]| |]; try discriminate. destruct (advance grow n c h0) as [[h1 b]| |]; try discriminate. now apply IH.
  - destruct (current_value v h) as [[h1 b]| |]; try discriminate. now apply IH.
  - destruct (current_key_val v h) as [[h1 b]| |]; try discriminate. now apply IH.
  - destruct (clone grow v h) as [[h1 b]| |]; try discriminate. now apply IH.
  - destruct (detach grow v h) as [[h1 b]| |]; try discriminate. now apply IH.
  - destruct (copy grow n v h) as [[h1 b]| |]; try discriminate. now apply IH.
  - destruct (discard grow n v h) as [[h1 b]| |]; try discriminate. now apply IH.
  - destruct (iter_from_data d h) as [[h1 b]| |]; try discriminate. now apply IH.
  - destruct (iter_advance grow n i h) as [[h1 b]| |]; try discriminate. now apply IH.
  - destruct (iter_current i h) as [[h1 b]| |]; try discriminate. now apply IH.
  - destruct (iter_clone grow i h) as [[h1 b]| |]; try discriminate. now apply IH.
  - destruct (iter_detach grow i h) as [[h1 b]| |]; try discriminate. now apply IH.
Qed.

Lemma before_weaken : forall w u E, before (w ++ u) E -> before u E.
Proof. intros w u E H. eapply Forall_impl; [|exact H]. intros e [a Q]. exists (a ++ w). now rewrite <- app_assoc. Qed.

(** [x] is the last value. *)
Lemma values_before : forall (tv : value -> iprog (list token)) d x u, deep d x u ->
  (forall v, Q [] false (fun o ts => o = Some ts) (Some []) (tv v)) ->
  (forall v c, idof v = Some c -> W d [c] (fun o ts => o = Some ts) (Some []) (tv v)) ->
  forall n pre g h st roots b cur st' out, rel g h st roots -> on_input h -> nth_error (st_iter st) 0 = Some (mkSi b (SIAt (pre ++ [x]) cur)) ->
  spec_run (transform_values tv n 0) st = Some (st', out) ->
  exists n0 h' E, written E = out /\ before u E /\
    forall m, n0 <= m -> irun grow m (transform_values tv n 0) h = Ok (h', out) /\ emits grow m (transform_values tv n 0) h = E.
Proof.
  intros tv d x u DX HQ HW. assert (CX := deep_coll _ _ _ DX). induction n as [|n IH]; intros pre g h st roots b cur st' out RE ON IT SR; [discriminate|].
  cbn [transform_values spec_run] in SR. destruct (si_advance st 0) as [[st1 b1]|] eqn:SA; [|discriminate]. cbn [obind] in SR.
  destruct (op_iter_advance grow _ _ _ _ _ _ _ RE SA) as [n1 [h1 [g1 [r1 [R1 RE1]]]]].
  destruct (iter_advance_streams _ _ _ _ (R1 n1 (le_n _)) ON) as [ON1 ST1].
  assert (IA : exists t ch y its, b1 = true /\ st1 = mkSt t (upd (st_iter st) 0 (mkSi b (SIAt its (Some ch)))) /\ pre ++ [x] = y :: its /\
     exists t0, t = t0 ++ hof y false /\ ch = vof (length t0) y).
  { unfold si_advance in SA. rewrite IT in SA. cbn [si_state si_root] in SA. destruct (pre ++ [x]) as [|y its] eqn:EP; [destruct pre; discriminate|].
    rewrite alloc_of in SA. injection SA as <- <-. eexists _, _, y, its. split; [reflexivity|]. split; [reflexivity|]. split; [reflexivity|]. eexists. split; reflexivity. }
  destruct IA as [t [ch [y [its [-> [-> [EP [t0 [Et Ec]]]]]]]]]. cbn [spec_run] in SR.
  assert (LI : 0 < length (st_iter st)) by (eapply nth_error_lt; eauto).
  assert (IT1 : nth_error (st_iter (mkSt t (upd (st_iter st) 0 (mkSi b (SIAt its (Some ch)))))) 0 = Some (mkSi b (SIAt its (Some ch)))) by (cbn [st_iter]; now apply nth_error_upd_same).
  assert (SC : si_current (mkSt t (upd (st_iter st) 0 (mkSi b (SIAt its (Some ch))))) 0 = Some (Some ch)) by (unfold si_current; now rewrite IT1).
  rewrite SC in SR. cbn [need ibind] in SR. rewrite spec_bind in SR.
  pose proof (op_iter_current _ _ _ _ _ _ RE1 SC) as RC.
  destruct (spec_run (tv ch) _) as [[st2 ts]|] eqn:SV; [|discriminate]. cbn [obind] in SR. rewrite spec_bind in SR.
  destruct (spec_run (transform_values tv n 0) st2) as [[st3 rs]|] eqn:SR2; [|discriminate]. cbn [obind spec_run] in SR. injection SR as <- <-.
  assert (FIN : forall E1 E2 n2 n3 h2 h3, (forall m, n2 <= m -> irun grow m (tv ch) h1 = Ok (h2, ts) /\ emits grow m (tv ch) h1 = E1) ->
     (forall m, n3 <= m -> irun grow m (transform_values tv n 0) h2 = Ok (h3, rs) /\ emits grow m (transform_values tv n 0) h2 = E2) ->
     forall m, n1 + n2 + n3 <= m -> irun grow m (transform_values tv (S n) 0) h = Ok (h3, ts ++ rs) /\ emits grow m (transform_values tv (S n) 0) h = E1 ++ E2).
  { intros E1 E2 n2 n3 h2 h3 H2 H3 m LM. destruct (H2 m ltac:(lia)) as [A2 B2]. destruct (H3 m ltac:(lia)) as [A3 B3].
    cbn [transform_values irun emits]. unfold hbind, after. rewrite R1 by lia. cbn [irun emits]. unfold hbind, after. rewrite RC. cbn [need ibind]. split.
    - rewrite (irun_bind _ _ _ _ _ _ _ _ A2), (irun_bind _ _ _ _ _ _ _ _ A3). reflexivity.
    - rewrite (emits_bind _ _ _ _ _ _ _ _ A2), (emits_bind _ _ _ _ _ _ _ _ A3), B2, B3. cbn [emits]. now rewrite app_nil_r. }
  destruct pre as [|p0 pre].
  - (* the last value *)
    injection EP as <- <-.
    assert (IV : exists c, idof ch = Some c /\ c = length t0) by (subst ch; destruct x; [discriminate CX| |]; eexists; split; reflexivity).
    destruct IV as [c [IV Lc]].
    assert (AL : alive d [c] h1 (mkSt t (upd (st_iter st) 0 (mkSi b (SIAt [] (Some ch))))) u).
    { split; [exact ON1|]. exists (mkSh x false SFresh), (items x), u, []. split; [exists b, [], ch; split; [exact IT1|split; [exact IV|reflexivity]]|].
      split.
      - destruct (ST1 eq_refl) as [y [Y1 Y2]]. unfold iter_current, hbind, get_iter in RC. rewrite Y1 in RC. unfold hret in RC. injection RC as RC. eapply Y2; eauto.
      - split; [cbn; subst t c; destruct x; [discriminate CX| |]; cbn [hof]; apply nth_error_app_last|]. split; [left; split; reflexivity|]. split; [exact (deep_items _ _ _ DX)|]. now rewrite app_nil_r. }
    destruct (W_sound grow _ _ _ _ _ _ _ _ _ _ _ _ _ RE1 AL (HW ch c IV) SV) as [SI [n2 [h2 [g2 [r2 [o' [E [RE2 [HI [RO [MO [BE R2]]]]]]]]]]]].
    subst o'. cbn [more app] in MO. injection MO as MO.
    destruct n as [|n]; [discriminate|]. cbn [transform_values spec_run] in SR2.
    assert (SA2 : exists t', si_advance st2 0 = Some (mkSt t' (upd (st_iter st2) 0 (mkSi b SIEnd)), false)).
    { unfold si_advance. rewrite SI. rewrite IT1. cbn [si_state si_root]. eexists. reflexivity. }
    destruct SA2 as [t' SA2]. rewrite SA2 in SR2. cbn [obind spec_run] in SR2. injection SR2 as <- <-.
    destruct (op_iter_advance grow _ _ _ _ _ _ _ RE2 SA2) as [n3 [h3 [g3 [r3 [R3 RE3]]]]].
    exists (n1 + n2 + n3), h3, (E ++ []). split; [unfold written in *; now rewrite !app_nil_r, <- MO|]. split; [now rewrite app_nil_r|].
    eapply FIN; [exact R2|]. intros m LM. cbn [transform_values irun emits]. unfold hbind, after. rewrite R3 by lia. split; reflexivity.
  - injection EP as -> EI.
    assert (AL : alive d [] h1 (mkSt t (upd (st_iter st) 0 (mkSi b (SIAt its (Some ch))))) (stream its)).
    { split; [exact ON1|]. exists b, its, (Some ch). split; [exact IT1|reflexivity]. }
    destruct (W_sound grow _ _ _ _ _ _ _ _ _ _ _ _ _ RE1 AL (Q_W d [] _ _ _ _ (HQ ch)) SV) as [SI [n2 [h2 [g2 [r2 [o' [E [RE2 [HI [RO [MO [BE R2]]]]]]]]]]]].
    subst o'. cbn [more app] in MO. injection MO as MO. subst its.
    destruct (IH pre g2 h2 st2 r2 b (Some ch) st3 rs RE2 (on_fixed _ _ HI ON1)) as [n3 [h3 [E3 [W3 [B3 R3]]]]]; [rewrite SI; exact IT1|exact SR2|].
    exists (n1 + n2 + n3), h3, (E ++ E3). split; [unfold written in *; rewrite map_app, concat_app, <- MO, W3; reflexivity|].
    split; [|eapply FIN; eauto]. apply Forall_app. split; [|exact B3].
    assert (SX : exists w, stream (pre ++ [x]) = w ++ u).
    { unfold stream. rewrite flat_map_app. cbn [flat_map]. rewrite app_nil_r. destruct (deep_toks _ _ _ DX) as [w ->]. exists (flat_map toks pre ++ w). now rewrite <- app_assoc. }
    destruct SX as [w SX]. rewrite SX in BE. eapply before_weaken; eauto.
Qed.
End Values.

(** Programs that copy nothing once a given collection has come to its end. *)
From Coq Require Import List ZArith Arith Bool Lia.
From Verif Require Import Base Tokens JsonSpec EncSpec CursorModel IterModel IterSpec IterCore IterThr IterRel
  IterOps IterOps2 IterOps3 IterSound StreamModel StreamRead.

(** [T]: the collections to be tracked, each the last item of the next. *)
Definition tracked (T : list nat) (v : value) : bool := match idof v with Some d => existsb (Nat.eqb d) T | None => false end.
Definition avoid (T : list nat) (v : value) : Prop := tracked T v = false.
Definition avoid_opt (T : list nat) (o : option value) : Prop := match o with Some v => avoid T v | None => True end.

Lemma tracked_in : forall T v c, idof v = Some c -> (tracked T v = true <-> In c T).
Proof.
  intros T v c E. unfold tracked. rewrite E, existsb_exists. split; [|intro J; exists c; split; [exact J|apply Nat.eqb_refl]].
  intros [x [J Q]]. apply Nat.eqb_eq in Q. now subst x.
Qed.
Lemma avoid_nil : forall v, avoid [] v.
Proof. intros [s|e|e]; reflexivity. Qed.
Lemma avoid_off : forall T v, avoid T v <-> off T v.
Proof.
  intros T v. unfold off, avoid. split.
  - intros H c E J. apply (tracked_in T v c E) in J. congruence.
  - intro H. destruct (tracked T v) eqn:Q; [|reflexivity]. destruct (idof v) as [c|] eqn:E; [|unfold tracked in Q; rewrite E in Q; discriminate].
    exfalso. apply (H c eq_refl). now apply (tracked_in T v c E).
Qed.
Lemma avoid_incl : forall T T' v, (forall c, In c T' -> In c T) -> avoid T v -> avoid T' v.
Proof. intros T T' v I H. apply avoid_off. apply avoid_off in H. intros c E J. exact (H c E (I c J)). Qed.
Lemma avoid_tl : forall T v, avoid T v -> avoid (tl T) v.
Proof. intros [|c T] v H; [exact H|]. eapply avoid_incl; [|exact H]. intros d J. now right. Qed.

(** [Sil T R p]: [p] copies nothing; the collections [T] have no further items. *)
Fixpoint Sil (T : list nat) {A} (R : A -> Prop) (p : iprog A) : Prop :=
  match p with
  | IRet a => R a
  | IPanic | IFuel => True
  | IAdvance v k => if tracked T v then Sil T R (k false) else forall b, Sil T R (k b)
  | ICurrent v k => forall x, Sil T R (k x)
  | IKeyVal v k => forall x, Sil T R (k x)
  | IClone v k => forall x, Sil T R (k x)
  | IDetach v k | IDiscard v k => Sil T R k
  | _ => False
  end.

(** [W d T R o p]: [p] reads the innermost of the tracked collections and copies
    other values; once that collection has come to its end, or one around it has
    moved on, nothing is copied.  Up to [d] times a further item may come to be
    tracked.  [o] is what has been copied so far; nothing is to be copied when it
    is [None]. *)
Fixpoint W (d : nat) (T : list nat) {A} (R : option (list token) -> A -> Prop) (o : option (list token)) (p : iprog A) {struct p} : Prop :=
  match p with
  | IRet a => R o a
  | IPanic | IFuel => True
  | IAdvance v k =>
      if tracked (tl T) v then Sil (tl T) (R o) (k false)
      else if tracked T v then
        W d T R o (k true) /\ match d with S d' => forall c, ~ In c T -> W d' (c :: T) R o (k true) | O => True end /\ Sil (tl T) (R o) (k false)
      else forall b, W d T R o (k b)
  | ICurrent v k =>
      if tracked (tl T) v then match T with c :: p :: _ => idof v = Some p /\ forall x, idof x = Some c -> W d T R o (k (Some x)) | _ => False end
      else forall x, avoid_opt T x -> W d T R o (k x)
  | IKeyVal v k =>
      if tracked (tl T) v then match T with c :: p :: _ => idof v = Some p /\ forall key x, idof x = Some c -> W d T R o (k (key, Some x)) | _ => False end
      else forall x, avoid_opt T (snd x) -> W d T R o (k x)
  | IClone v k => avoid T v /\ forall x, avoid T x -> W d T R o (k x)
  | IDetach v k | IDiscard v k => avoid T v /\ W d T R o k
  | ICopy v k => avoid T v /\ match o with Some out => forall ts, W d T R (Some (out ++ ts)) (k ts) | None => False end
  | _ => False
  end.

Ltac cases p IH := induction p as [a0| | |v k IH|v k IH|v k IH|v k IH|v k IH|v k IH|v k IH|dt k IH|i k IH|i k IH|i k IH|i k IH].
Lemma Sil_more : forall A (p : iprog A) T T' (R : A -> Prop), (forall c, In c T -> In c T') -> Sil T R p -> Sil T' R p.
Proof.
  intros A p T T' R I. cases p IH; cbn; intro H; auto.
  destruct (tracked T v) eqn:E1, (tracked T' v) eqn:E2; auto. exfalso. destruct (idof v) as [c|] eqn:E; [|unfold tracked in E1; rewrite E in E1; discriminate].
  apply (tracked_in T v c E) in E1. apply I in E1. apply (tracked_in T' v c E) in E1. congruence.
Qed.
Lemma Sil_bind : forall T A B (p : iprog A) (f : A -> iprog B) (R : A -> Prop) (R' : B -> Prop),
  Sil T R p -> (forall a, R a -> Sil T R' (f a)) -> Sil T R' (ibind p f).
Proof. intros T A B p f R R'. cases p IH; cbn; intros H F; auto; try contradiction. destruct (tracked T v); auto. Qed.
Lemma W_bind : forall A B (p : iprog A) (f : A -> iprog B) R R' d T o,
  W d T R o p -> (forall o' a, R o' a -> W d T R' o' (f a)) -> (forall d' c ext o' a, R o' a -> W d' (c :: ext ++ T) R' o' (f a)) ->
  (forall o' a, R o' a -> Sil (tl T) (R' o') (f a)) -> W d T R' o (ibind p f).
Proof.
  intros A B p f R R'. cases p IH; cbn [W ibind]; intros d T o H F1 F2 F3; auto; try contradiction.
  - destruct (tracked (tl T) v); [eapply Sil_bind; [exact H|apply F3]|]. destruct (tracked T v); [|auto]. destruct H as [H1 [H2 H3]]. split; [auto|]. split; [|eapply Sil_bind; [exact H3|apply F3]].
    destruct d as [|d]; [exact Logic.I|]. intros c NI. apply IH; [now apply H2| | |].
    + intros o' a K. exact (F2 d c [] o' a K).
    + intros d' c' ext o' a K. pose proof (F2 d' c' (ext ++ [c]) o' a K) as Q. rewrite <- app_assoc in Q. exact Q.
    + intros o' a K. cbn [tl]. eapply Sil_more; [|apply F3; exact K]. intros e J. destruct T; [destruct J|now right].
  - destruct (tracked (tl T) v); [|auto]. destruct T as [|c [|p T]]; try contradiction. destruct H as [H1 H2]. split; [exact H1|]. intros x E. apply IH; auto.
  - destruct (tracked (tl T) v); [|auto]. destruct T as [|c [|p T]]; try contradiction. destruct H as [H1 H2]. split; [exact H1|]. intros key x E. apply IH; auto.
  - destruct H. split; auto.
  - destruct H. split; auto.
  - destruct H as [H1 H2]. split; auto. destruct o; [|contradiction]. auto.
  - destruct H. split; auto.
Qed.
(** A program in which no value tracked is used. *)
Fixpoint Q (T : list nat) (it : bool) {A} (R : option (list token) -> A -> Prop) (o : option (list token)) (p : iprog A) : Prop :=
  match p with
  | IRet a => R o a
  | IPanic | IFuel => True
  | IAdvance v k => avoid T v /\ forall b, Q T it R o (k b)
  | ICurrent v k => avoid T v /\ forall x, avoid_opt T x -> Q T it R o (k x)
  | IKeyVal v k => avoid T v /\ forall x, avoid_opt T (snd x) -> Q T it R o (k x)
  | IClone v k => avoid T v /\ forall x, avoid T x -> Q T it R o (k x)
  | IDetach v k | IDiscard v k => avoid T v /\ Q T it R o k
  | ICopy v k => avoid T v /\ match o with Some out => forall ts, Q T it R (Some (out ++ ts)) (k ts) | None => False end
  | IIterNew _ k | IIterClone _ k => if it then forall i, Q T it R o (k i) else False
  | IIterAdvance _ k => if it then forall b, Q T it R o (k b) else False
  | IIterCurrent _ k => if it then forall x, Q T it R o (k x) else False
  | IIterDetach _ k => if it then Q T it R o k else False
  end.
Lemma Q_bind : forall T it A B (p : iprog A) (f : A -> iprog B) R R' o,
  Q T it R o p -> (forall o' a, R o' a -> Q T it R' o' (f a)) -> Q T it R' o (ibind p f).
Proof.
  intros T it A B p f R R'. cases p IH; cbn; intros o H F1; auto; try contradiction; try (destruct it; [intros; now auto|contradiction]); destruct H as [H1 H2]; split; auto.
  destruct o; [|contradiction]. auto.
Qed.
Lemma Q_mono : forall T it A (p : iprog A) (R R' : option (list token) -> A -> Prop) o, Q T it R o p -> (forall o' a, R o' a -> R' o' a) -> Q T it R' o p.
Proof.
  intros T it A p R R'. cases p IH; cbn; intros o H F1; auto; try contradiction; try (destruct it; [intros; now auto|contradiction]); destruct H as [H1 H2]; split; auto.
  destruct o; [|contradiction]. auto.
Qed.
(** What is quiet does not depend on what has been copied. *)
Lemma Q_lift : forall T it A (p : iprog A) (R : option (list token) -> A -> Prop) o, Q T it R None p -> Q T it (fun o' a => o' = o /\ R None a) o p.
Proof.
  intros T it A p R. cases p IH; cbn; intros o H; auto; try contradiction; try (destruct it; [intros; now auto|contradiction]); destruct H as [H1 H2]; split; auto.
  contradiction.
Qed.
Lemma Q_W_bind : forall d T A B (p : iprog A) (f : A -> iprog B) R R' o,
  Q T false R o p -> (forall o' a, R o' a -> W d T R' o' (f a)) -> W d T R' o (ibind p f).
Proof.
  intros d T A B p f R R'. cases p IH; cbn; intros o H F1; auto; try contradiction; destruct H as [H1 H2];
    try (rewrite (avoid_tl _ _ H1), ?H1; now auto); split; auto.
  destruct o; [|contradiction]. auto.
Qed.
Lemma Q_W : forall d T A (p : iprog A) (R : option (list token) -> A -> Prop) o, Q T false R o p -> W d T R o p.
Proof.
  intros d T A p R. cases p IH; cbn; intros o H; auto; try contradiction; destruct H as [H1 H2];
    try (rewrite (avoid_tl _ _ H1), ?H1; now auto); split; auto.
  destruct o; [|contradiction]. auto.
Qed.

(* ------------------------------------------------------------------ *)
(** What this says of runs. *)
Section Grow.
Variable grow : Z -> Z -> Z.

Definition events := list (list token * list token).
Definition written (E : events) : list token := concat (map fst E).
(** Of what has been read [u] is not a part. *)
Definition before (u : list token) (E : events) : Prop := Forall (fun e => exists a, snd e = a ++ u) E.

(** [u] follows the items of [x], or of its last item, or of the last item of
    that, and so on down to [d] levels. *)
Inductive deep : nat -> jval -> list token -> Prop :=
| deep_here : forall d x, is_coll x = true -> deep d x (tail_toks x [])
| deep_in : forall d x l k y u, is_coll x = true -> items x = l ++ [(k, y)] -> deep d y u -> deep (S d) x (u ++ tail_toks x []).
(** The same where the items [rest] are still to come. *)
Definition deep_rest (d : nat) (x : jval) (rest : list (option scalar * jval)) (u : list token) : Prop :=
  u = tail_toks x [] \/ exists d' l k y u', d = S d' /\ rest = l ++ [(k, y)] /\ deep d' y u' /\ u = u' ++ tail_toks x [].
Lemma deep_items : forall d x u, deep d x u -> deep_rest d x (items x) u.
Proof. intros d x u H. destruct H as [d x C|d x l k y u C E H]; [now left|right; eauto 10]. Qed.
Lemma deep_coll : forall d x u, deep d x u -> is_coll x = true.
Proof. intros d x u H. now destruct H. Qed.
Lemma tail_split : forall v rest, exists w, tail_toks v rest = w ++ tail_toks v [].
Proof. intros v rest. unfold tail_toks. exists (flat_map item_toks rest). reflexivity. Qed.
Lemma deep_toks : forall d x u, deep d x u -> exists w, toks x = w ++ u.
Proof.
  induction 1 as [d x C|d x l k y u C E H [w IH]].
  - rewrite toks_coll by exact C. destruct (tail_split x (items x)) as [w ->]. exists (start_tok x :: w). reflexivity.
  - rewrite toks_coll by exact C. rewrite E. unfold tail_toks at 1. rewrite flat_map_app. cbn [flat_map]. unfold item_toks at 2. cbn [fst snd]. rewrite IH, app_nil_r.
    exists (start_tok x :: flat_map item_toks l ++ match k with Some k0 => [TScalar k0] | None => [] end ++ w). cbn [app]. rewrite <- !app_assoc. reflexivity.
Qed.
Lemma deep_rest_tail : forall d x rest u, deep_rest d x rest u -> exists w, tail_toks x rest = w ++ u.
Proof.
  intros d x rest u [->|[d' [l [k [y [u' [-> [-> [H ->]]]]]]]]]; [apply tail_split|]. destruct (deep_toks _ _ _ H) as [w E].
  unfold tail_toks at 1. rewrite flat_map_app. cbn [flat_map]. unfold item_toks at 2. cbn [fst snd]. rewrite E, app_nil_r.
  exists (flat_map item_toks l ++ match k with Some k0 => [TScalar k0] | None => [] end ++ w). rewrite <- !app_assoc. reflexivity.
Qed.

(** The tracked collections have not come to their ends; [u] follows the last
    item, [d] levels down at most, of the innermost. *)
Definition at_rest (hd : shandle) (rest : list (option scalar * jval)) : Prop :=
  s_state hd = SFresh /\ rest = items (s_val hd) \/ exists k ch, s_state hd = SAt k ch rest.
Definition alive (d : nat) (T : list nat) (h : heap) (st : sstore) (u : list token) : Prop :=
  on_input h /\
  match T with
  | [] => exists b its cur, nth_error (st_iter st) 0 = Some (mkSi b (SIAt its cur)) /\ u = stream its
  | c :: anc => exists hd rest u0 u1, above h st anc c u1 /\ stream_of h c = Some (RSrc 0) /\ nth_error (st_coll st) c = Some hd /\
      at_rest hd rest /\ deep_rest d (s_val hd) rest u0 /\ u = u0 ++ u1
  end.

Lemma alive_unread : forall d T g h st roots u, rel g h st roots -> alive d T h st u -> exists a, unread h = a ++ u.
Proof.
  intros d T g h st roots u RE [ON A]. destruct T as [|c anc].
  - destruct A as [b [its [cur [IT ->]]]]. eapply unread_iter; eauto.
  - destruct A as [hd [rest [u0 [u1 [A [SO [HD [AR [DR ->]]]]]]]]]. destruct (unread_item _ _ _ _ _ _ _ _ RE ON A SO HD rest AR) as [w ->].
    destruct (deep_rest_tail _ _ _ _ DR) as [w' ->]. exists (w ++ w'). now rewrite <- !app_assoc.
Qed.
Lemma on_fixed : forall h h', h_iter h' = h_iter h -> on_input h -> on_input h'.
Proof. intros h h' E [y Y]. exists y. now rewrite E. Qed.

(** They are children of none but each other. *)
Lemma alive_family : forall d c anc g h st roots u, rel g h st roots -> alive d (c :: anc) h st u ->
  nochild (st_coll st) (c :: anc) /\ (forall e, In e (c :: anc) -> e < length (st_coll st)) /\ NoDup (c :: anc) /\
  (forall hd k ch rest, nth_error (st_coll st) c = Some hd -> s_state hd = SAt k ch rest -> off (c :: anc) ch).
Proof. intros d c anc g h st roots u RE [ON [hd [rest [u0 [u1 [A _]]]]]]. eapply above_family; eauto. Qed.
Lemma alive_nochild : forall d T g h st roots u, rel g h st roots -> alive d T h st u -> nochild (st_coll st) T /\ forall e, In e T -> e < length (st_coll st).
Proof.
  intros d [|c anc] g h st roots u RE A; [|destruct (alive_family _ _ _ _ _ _ _ _ RE A) as [N1 [N2 _]]; auto].
  split; [intros j hd k ch rest _ _ _ c _ []|intros e []].
Qed.

(** A step that leaves the tracked collections alone. *)
Lemma above_step : forall h st h' t' anc c u, above h st anc c u ->
  (forall e, In e anc -> (forall r, stream_of h e = Some r -> stream_of h' e = Some r) /\ nth_error t' e = nth_error (st_coll st) e) ->
  above h' (mkSt t' (st_iter st)) anc c u.
Proof.
  intros h st h' t'. induction anc as [|p anc IH]; intros c u A K; cbn [above] in *; [exact A|].
  destruct A as [hd [k [ch [u' [HD [SO [SS [IC [A ->]]]]]]]]]. destruct (K p (or_introl eq_refl)) as [K1 K2].
  exists hd, k, ch, u'. cbn [st_coll]. rewrite K2. split; [exact HD|]. split; [auto|]. split; [exact SS|]. split; [exact IC|]. split; [|reflexivity]. apply IH; [exact A|]. intros e J. apply K. now right.
Qed.
Lemma alive_step : forall d T h st u h' t', alive d T h st u -> h_iter h' = h_iter h ->
  (forall c, In c T -> (forall r, stream_of h c = Some r -> stream_of h' c = Some r) /\ nth_error t' c = nth_error (st_coll st) c) ->
  alive d T h' (mkSt t' (st_iter st)) u.
Proof.
  intros d T h st u h' t' [ON A] EI K. split; [eapply on_fixed; eauto|]. destruct T as [|c anc]; [exact A|].
  destruct A as [hd [rest [u0 [u1 [A [SO [HD R]]]]]]]. destruct (K c (or_introl eq_refl)) as [K1 K2].
  exists hd, rest, u0, u1. cbn [st_coll]. rewrite K2. split; [|split; [auto|split; [exact HD|exact R]]]. apply above_step with (h := h); [exact A|]. intros e J. apply K. now right.
Qed.

Lemma Sil_sound : forall A (p : iprog A) T (R : A -> Prop) g h st roots st' a, rel g h st roots -> Sil T R p -> Forall (spent (st_coll st)) T -> spec_run p st = Some (st', a) ->
  R a /\ st_iter st' = st_iter st /\ exists n0 h' g' roots', rel g' h' st' roots' /\ h_iter h' = h_iter h /\
    forall n, n0 <= n -> irun grow n p h = Ok (h', a) /\ emits grow n p h = [].
Proof.
  intros A p T R. cases p IH;
    intros g h st roots st' a RE S SP SR; cbn [spec_run] in SR; cbn [Sil] in S; try discriminate; try contradiction.
  - injection SR as <- <-. split; [exact S|]. split; [reflexivity|]. exists 0, h, g, roots. auto.
  - destruct (s_advance (st_coll st) v) as [[t b]|] eqn:E; [|discriminate]. cbn [on_coll obind] in SR.
    destruct (op_advance grow _ _ _ _ _ _ _ RE E) as [n1 [h1 [g1 [r1 [R1 RE1]]]]].
    assert (SP1 : Forall (spent t) T) by (eapply Forall_impl; [|exact SP]; intros c K; eapply spent_advance; eauto).
    assert (Sb : Sil T R (k b)).
    { destruct (tracked T v) eqn:TR; [|apply S]. destruct (idof v) as [c|] eqn:IV; [|unfold tracked in TR; rewrite IV in TR; discriminate]. apply (tracked_in _ _ _ IV) in TR.
      rewrite Forall_forall in SP. destruct (spent_advance _ _ _ _ _ E (SP c TR)) as [_ K]. rewrite (K IV). exact S. }
    destruct (IH _ _ _ _ _ _ _ RE1 Sb SP1 SR) as [RA [SI [n2 [h2 [g2 [r2 [RE2 [HI R2]]]]]]]]. split; [exact RA|]. split; [exact SI|].
    assert (HI1 : h_iter h1 = h_iter h). { eapply (keeps_bind _ _ _ _ (keeps_coll_of v) (fun c => keeps_advance grow _ c)). apply (R1 n1). lia. }
    exists (Nat.max n1 n2), h2, g2, r2. split; [exact RE2|]. split; [congruence|]. intros n Hn. cbn [irun emits]. unfold after.
    specialize (R1 n ltac:(lia)). unfold hbind in *. destruct (coll_of v h) as [[h0 c]| |]; try discriminate. rewrite R1. apply R2. lia.
  - destruct (s_current (st_coll st) v) as [[k0 x]|] eqn:E; [|discriminate].
    pose proof (op_current _ _ _ _ _ _ RE E) as R1. cbn [snd] in R1.
    destruct (IH _ _ _ _ _ _ _ RE (S x) SP SR) as [RA [SI [n2 [h2 [g2 [r2 [RE2 [HI R2]]]]]]]]. split; [exact RA|]. split; [exact SI|].
    exists n2, h2, g2, r2. split; [exact RE2|]. split; [exact HI|]. intros n Hn. cbn [irun emits]. unfold hbind, after. rewrite R1. auto.
  - destruct (s_current (st_coll st) v) as [x|] eqn:E; [|discriminate].
    pose proof (op_keyval _ _ _ _ _ _ RE E) as R1.
    destruct (IH _ _ _ _ _ _ _ RE (S x) SP SR) as [RA [SI [n2 [h2 [g2 [r2 [RE2 [HI R2]]]]]]]]. split; [exact RA|]. split; [exact SI|].
    exists n2, h2, g2, r2. split; [exact RE2|]. split; [exact HI|]. intros n Hn. cbn [irun emits]. unfold hbind, after. rewrite R1. auto.
  - destruct (s_clone (st_coll st) v) as [[t x]|] eqn:E; [|discriminate]. cbn [on_coll obind] in SR.
    destruct (op_clone grow _ _ _ _ _ _ _ RE E) as [h1 [g1 [r1 [R1 RE1]]]].
    assert (SP1 : Forall (spent t) T) by (eapply Forall_impl; [|exact SP]; intros c K; eapply spent_clone; eauto).
    destruct (IH _ _ _ _ _ _ _ RE1 (S x) SP1 SR) as [RA [SI [n2 [h2 [g2 [r2 [RE2 [HI R2]]]]]]]]. split; [exact RA|]. split; [exact SI|].
    exists n2, h2, g2, r2. split; [exact RE2|]. split; [destruct (clone_fixed _ _ _ _ _ R1); congruence|]. intros n Hn. cbn [irun emits]. unfold hbind, after. rewrite R1. auto.
  - destruct (s_detach (st_coll st) v) as [t|] eqn:E; [|discriminate]. cbn [on_coll_ obind] in SR.
    destruct (op_detach grow _ _ _ _ _ _ RE E) as [h1 [g1 [r1 [R1 RE1]]]].
    assert (SP1 : Forall (spent t) T) by (eapply Forall_impl; [|exact SP]; intros c K; eapply spent_detach; eauto).
    destruct (IH _ _ _ _ _ _ RE1 S SP1 SR) as [RA [SI [n2 [h2 [g2 [r2 [RE2 [HI R2]]]]]]]]. split; [exact RA|]. split; [exact SI|].
    exists n2, h2, g2, r2. split; [exact RE2|]. split; [destruct (keeps_detach _ _ _ _ _ R1); congruence|]. intros n Hn. cbn [irun emits]. unfold hbind, after. rewrite R1. auto.
  - destruct (s_discard (st_coll st) v) as [t|] eqn:E; [|discriminate]. cbn [on_coll_ obind] in SR.
    destruct (op_discard grow _ _ _ _ _ _ RE E) as [n1 [h1 [g1 [r1 [R1 RE1]]]]].
    assert (SP1 : Forall (spent t) T) by (eapply Forall_impl; [|exact SP]; intros c K; eapply spent_discard; eauto).
    destruct (IH _ _ _ _ _ _ RE1 S SP1 SR) as [RA [SI [n2 [h2 [g2 [r2 [RE2 [HI R2]]]]]]]]. split; [exact RA|]. split; [exact SI|].
    exists (Nat.max n1 n2), h2, g2, r2. split; [exact RE2|]. split; [pose proof (keeps_discard _ _ _ _ _ _ (R1 n1 (le_n _))) as [K _]; congruence|].
    intros n Hn. cbn [irun emits]. unfold hbind, after. rewrite R1 by lia. apply R2. lia.
Qed.

Definition more (o : option (list token)) (E : events) (o' : option (list token)) : Prop :=
  match o with Some out => o' = Some (out ++ written E) | None => o' = None /\ E = [] end.
Lemma more_nil : forall o, more o [] o.
Proof. intros [out|]; cbn; [unfold written; cbn; now rewrite app_nil_r|auto]. Qed.

(** The collections around the innermost have no further items. *)
Lemma above_spent : forall h st anc c u, above h st anc c u -> Forall (spent (st_coll st)) anc.
Proof.
  intros h st. induction anc as [|p anc IH]; intros c u A; constructor; cbn [above] in A; destruct A as [hd [k [ch [u' [HD [SO [SS [IC [A _]]]]]]]]]; [|eapply IH; eauto].
  exists hd. split; [exact HD|]. now rewrite SS.
Qed.
Lemma alive_spent : forall d T h st u, alive d T h st u -> Forall (spent (st_coll st)) (tl T).
Proof. intros d [|c anc] h st u [ON A]; [constructor|]. destruct A as [hd [rest [u0 [u1 [A _]]]]]. eapply above_spent; eauto. Qed.
(** What the one around the innermost is at. *)
Lemma alive_parent : forall d c p T h st u v key x, alive d (c :: p :: T) h st u -> idof v = Some p -> s_current (st_coll st) v = Some (key, x) -> exists w, x = Some w /\ idof w = Some c.
Proof.
  intros d c p T h st u v key x [ON [hd [rest [u0 [u1 [A _]]]]]] IV E. cbn [above] in A. destruct A as [hd' [k [ch [u' [HD [SO [SS [IC _]]]]]]]].
  unfold s_current in E. destruct (s_get (st_coll st) v) as [[e hd0]|] eqn:G; [|discriminate]. rewrite (s_get_id _ _ _ _ G) in IV. injection IV as ->.
  destruct (s_get_hd _ _ _ _ G) as [HD0 _]. rewrite HD in HD0. injection HD0 as <-. rewrite SS in E. injection E as _ <-. eauto.
Qed.
Lemma alive_other : forall d T g h st roots u v key x, rel g h st roots -> alive d T h st u -> tracked (tl T) v = false -> s_current (st_coll st) v = Some (key, x) -> avoid_opt T x.
Proof.
  intros d T g h st roots u v key x RE AL TV E. destruct x as [w|]; [|exact Logic.I]. cbn [avoid_opt]. destruct T as [|c anc]; [unfold avoid, tracked; destruct (idof w); reflexivity|].
  cbn [tl] in TV. destruct (alive_family _ _ _ _ _ _ _ _ RE AL) as [NC [LT [ND CH]]]. apply avoid_off.
  destruct (tracked (c :: anc) v) eqn:TR.
  - destruct (idof v) as [e|] eqn:IV; [|unfold tracked in TR; rewrite IV in TR; discriminate]. apply (tracked_in _ _ _ IV) in TR. destruct TR as [->|J]; [|apply (tracked_in _ _ _ IV) in J; congruence].
    unfold s_current in E. destruct (s_get (st_coll st) v) as [[e' hd0]|] eqn:G; [|discriminate]. rewrite (s_get_id _ _ _ _ G) in IV. injection IV as ->.
    destruct (s_get_hd _ _ _ _ G) as [HD0 _]. destruct (s_state hd0) as [|k' ch rest| |] eqn:ES; try discriminate. injection E as _ <-. eapply CH; eauto.
  - eapply current_other; eauto. now apply avoid_off.
Qed.
(** Moving on the innermost: it is tracked still, or its new item is. *)
Lemma alive_advance : forall d c anc g h st roots u v t h1 n0, rel g h st roots -> alive d (c :: anc) h st u -> idof v = Some c -> s_advance (st_coll st) v = Some (t, true) ->
  advance grow n0 c h = Ok (h1, true) -> fixed h h1 ->
  (forall k x, s_current t v = Some (k, x) -> current_value v h1 = Ok (h1, x)) ->
  alive d (c :: anc) h1 (mkSt t (st_iter st)) u \/
  exists d' c', d = S d' /\ ~ In c' (c :: anc) /\ alive d' (c' :: c :: anc) h1 (mkSt t (st_iter st)) u.
Proof.
  intros d c anc g h st roots u v t h1 n0 RE AL IV E ADV [FI FX] CUR. destruct (alive_family _ _ _ _ _ _ _ _ RE AL) as [NC [LT [ND CH]]].
  destruct AL as [ON [hd [rest [u0 [u1 [A [SO [HD [AR [DR ->]]]]]]]]]].
  destruct (advance_self _ _ _ _ _ _ E NC IV HD ND (fun e J => LT e (or_intror J)) (fun k ch rest => CH hd k ch rest HD)) as [k [x [rest' [S1 S2]]]].
  assert (NS : s_state hd <> SDone) by (destruct AR as [[Q _]|[k0 [ch0 Q]]]; congruence). destruct (S2 NS) as [T1 [T2 T3]]. clear S2.
  assert (ER : rest = (k, x) :: rest').
  { destruct AR as [[Q ->]|[k0 [ch0 Q]]]; destruct S1 as [[S1 S1']|[[k1 [ch1 S1]]|S1]]; congruence. }
  subst rest. set (hd1 := mkSh (s_val hd) (s_root hd) (SAt k (vof (length (st_coll st)) x) rest')) in *.
  assert (A1 : above h1 (mkSt t (st_iter st)) anc c u1) by (apply above_step with (h := h); [exact A|]; intros e J; split; [apply FX|apply T3; exact J]).
  assert (STAY : deep_rest d (s_val hd) rest' u0 -> alive d (c :: anc) h1 (mkSt t (st_iter st)) (u0 ++ u1)).
  { intro DR'. split; [eapply on_fixed; eauto|]. exists hd1, rest', u0, u1. split; [exact A1|]. split; [now apply FX|]. split; [exact T1|]. split; [right; cbn; eauto|]. split; [exact DR'|reflexivity]. }
  destruct DR as [->|[d' [l [k' [y [u' [-> [EL [DY ->]]]]]]]]]; [left; apply STAY; now left|]. destruct l as [|[k2 x2] l]; cbn [app] in EL.
  - injection EL as -> -> ->. right. exists d', (length (st_coll st)). split; [reflexivity|]. assert (CY := deep_coll _ _ _ DY).
    split; [intro J; specialize (LT _ J); lia|]. split; [eapply on_fixed; eauto|].
    assert (IC : idof (vof (length (st_coll st)) y) = Some (length (st_coll st))) by (destruct y; [discriminate| |]; reflexivity).
    exists (mkSh y false SFresh), (items y), u', (tail_toks (s_val hd) [] ++ u1). split.
    { cbn [above st_coll]. exists hd1, k', (vof (length (st_coll st)) y), u1. split; [exact T1|]. split; [now apply FX|]. split; [reflexivity|]. split; [exact IC|]. split; [exact A1|reflexivity]. }
    split.
    { destruct (advance_item grow _ _ _ _ _ ADV SO) as [z [Z1 Z2]].
      assert (SC : s_current t v = Some (k', Some (vof (length (st_coll st)) y))).
      { assert (G1 : s_get t v = Some (c, hd1)).
        { unfold s_advance in E. destruct (s_get (st_coll st) v) as [[e hd0]|] eqn:G; [|discriminate].
          destruct v as [s|e'|e']; cbn in IV; try discriminate; injection IV as ->; cbn [s_get] in *; rewrite HD in G; rewrite T1; change (s_val hd1) with (s_val hd);
            [destruct (is_array (s_val hd))|destruct (is_object (s_val hd))]; try discriminate; reflexivity. }
        unfold s_current. rewrite G1. reflexivity. }
      specialize (CUR _ _ SC). unfold current_value, hbind in CUR.
      assert (CO : coll_of v h1 = Ok (h1, c)) by (destruct v as [s|e|e]; cbn in IV; try discriminate; injection IV as ->; reflexivity).
      rewrite CO in CUR. unfold get_coll in CUR. rewrite Z1 in CUR. destruct (c_done z); [discriminate|]. unfold hret in CUR. injection CUR as CUR. eapply Z2; eauto. }
    split; [cbn [st_coll]; now apply T2|]. split; [left; split; reflexivity|]. split; [now apply deep_items|]. now rewrite <- app_assoc.
  - injection EL as -> -> ->. left. apply STAY. right. exists d', l, k', y, u'. auto.
Qed.

Theorem W_sound : forall A (p : iprog A) R d T o g h st roots st' a u,
  rel g h st roots -> alive d T h st u -> W d T R o p -> spec_run p st = Some (st', a) ->
  st_iter st' = st_iter st /\ exists n0 h' g' roots' o' E, rel g' h' st' roots' /\ h_iter h' = h_iter h /\ R o' a /\ more o E o' /\ before u E /\
    forall n, n0 <= n -> irun grow n p h = Ok (h', a) /\ emits grow n p h = E.
Proof.
  intros A p R. cases p IH;
    intros d T o g h st roots st' a u RE AL S SR; cbn [spec_run] in SR; cbn [W] in S; try discriminate; try contradiction.
  - injection SR as <- <-. split; [reflexivity|]. exists 0, h, g, roots, o, []. split; [exact RE|]. split; [reflexivity|]. split; [exact S|]. split; [apply more_nil|]. split; [constructor|auto].
  - destruct (s_advance (st_coll st) v) as [[t b]|] eqn:E; [|discriminate]. cbn [on_coll obind] in SR.
    destruct (op_advance grow _ _ _ _ _ _ _ RE E) as [n1 [h1 [g1 [r1 [R1 RE1]]]]].
    assert (FX : fixed h h1). { eapply (keeps_bind _ _ _ _ (keeps_coll_of v) (fun c => keeps_advance grow _ c)). apply (R1 n1). lia. }
    assert (HI1 := proj1 FX).
    assert (FIN : forall (E0 : events) n2 h2,
        (forall n, n2 <= n -> irun grow n (k b) h1 = Ok (h2, a) /\ emits grow n (k b) h1 = E0) ->
        forall n, Nat.max n1 n2 <= n -> irun grow n (IAdvance v k) h = Ok (h2, a) /\ emits grow n (IAdvance v k) h = E0).
    { intros E0 n2 h2 R2 n Hn. cbn [irun emits]. unfold after. specialize (R1 n ltac:(lia)). unfold hbind in *.
      destruct (coll_of v h) as [[h0 c]| |]; try discriminate. rewrite R1. apply R2. lia. }
    assert (SIL : b = false -> Sil (tl T) (R o) (k false) -> st_iter st' = st_iter st /\ exists n0 h' g' roots' o' E, rel g' h' st' roots' /\ h_iter h' = h_iter h /\ R o' a /\ more o E o' /\ before u E /\
      forall n, n0 <= n -> irun grow n (IAdvance v k) h = Ok (h', a) /\ emits grow n (IAdvance v k) h = E).
    { intros -> S2. assert (SP1 : Forall (spent t) (tl T)) by (eapply Forall_impl; [|eapply alive_spent; exact AL]; intros c K; eapply spent_advance; eauto).
      destruct (Sil_sound _ _ _ _ _ _ _ _ _ _ RE1 S2 SP1 SR) as [RA [SI [n2 [h2 [g2 [r2 [RE2 [HI2 R2]]]]]]]]. split; [exact SI|].
      exists (Nat.max n1 n2), h2, g2, r2, o, []. split; [exact RE2|]. split; [congruence|]. split; [exact RA|]. split; [apply more_nil|]. split; [constructor|]. eapply FIN; eauto. }
    assert (ON : forall d1 T1, alive d1 T1 h1 (mkSt t (st_iter st)) u -> W d1 T1 R o (k b) -> st_iter st' = st_iter st /\ exists n0 h' g' roots' o' E, rel g' h' st' roots' /\ h_iter h' = h_iter h /\ R o' a /\ more o E o' /\ before u E /\
      forall n, n0 <= n -> irun grow n (IAdvance v k) h = Ok (h', a) /\ emits grow n (IAdvance v k) h = E).
    { intros d1 T1 AL1 S1. destruct (IH _ _ _ _ _ _ _ _ _ _ _ RE1 AL1 S1 SR) as [SI [n2 [h2 [g2 [r2 [o' [E0 [RE2 [HI2 [RA [MO [BE R2]]]]]]]]]]]]. split; [exact SI|].
      exists (Nat.max n1 n2), h2, g2, r2, o', E0. split; [exact RE2|]. split; [congruence|]. split; [exact RA|]. split; [exact MO|]. split; [exact BE|]. eapply FIN; eauto. }
    destruct (tracked (tl T) v) eqn:TR1; [|destruct (tracked T v) eqn:TR].
    + apply SIL; [|exact S]. destruct (idof v) as [c|] eqn:IV; [|unfold tracked in TR1; rewrite IV in TR1; discriminate]. apply (tracked_in _ _ _ IV) in TR1.
      pose proof (alive_spent _ _ _ _ _ AL) as SP. rewrite Forall_forall in SP. now apply (spent_advance _ _ _ _ _ E (SP c TR1)).
    + destruct S as [S1 [S2 S3]]. destruct b; [|now apply SIL].
      destruct T as [|c anc]; [unfold tracked in TR; destruct (idof v); discriminate|]. cbn [tl] in TR1.
      assert (IV : idof v = Some c).
      { destruct (idof v) as [e|] eqn:IV; [|unfold tracked in TR; rewrite IV in TR; discriminate]. apply (tracked_in _ _ _ IV) in TR. destruct TR as [->|J]; [reflexivity|]. apply (tracked_in _ _ _ IV) in J. congruence. }
      assert (ADV : advance grow n1 c h = Ok (h1, true)).
      { specialize (R1 n1 (le_n _)). unfold hbind in R1. assert (CO : coll_of v h = Ok (h, c)) by (destruct v as [s|e|e]; cbn in IV; try discriminate; injection IV as ->; reflexivity). now rewrite CO in R1. }
      destruct (alive_advance _ _ _ _ _ _ _ _ _ _ _ _ RE AL IV E ADV FX) as [AL1|[d' [c' [-> [NI AL1]]]]].
      * intros k0 x SC. pose proof (op_current _ _ _ _ _ _ RE1 SC) as Q. exact Q.
      * eapply ON; eauto.
      * eapply ON; [exact AL1|now apply S2].
    + eapply ON; [|apply S]. destruct (alive_nochild _ _ _ _ _ _ _ RE AL) as [NC LT].
      apply (alive_step d T h st u h1 t AL HI1). intros c J. split; [intro r; apply FX|]. eapply advance_other; eauto. now apply avoid_off.
  - destruct (s_current (st_coll st) v) as [[k0 x]|] eqn:E; [|discriminate].
    pose proof (op_current _ _ _ _ _ _ RE E) as R1. cbn [snd] in R1.
    assert (Sx : W d T R o (k x)).
    { destruct (tracked (tl T) v) eqn:TR; [|apply S; eapply alive_other; eauto]. destruct T as [|c [|p0 T]]; try contradiction. destruct S as [IV S]. destruct (alive_parent _ _ _ _ _ _ _ _ _ _ AL IV E) as [w [-> IW]]. now apply S. }
    destruct (IH _ _ _ _ _ _ _ _ _ _ _ RE AL Sx SR) as [SI [n2 [h2 [g2 [r2 [o' [E0 [RE2 [HI2 [RA [MO [BE R2]]]]]]]]]]]]. split; [exact SI|].
    exists n2, h2, g2, r2, o', E0. split; [exact RE2|]. split; [exact HI2|]. split; [exact RA|]. split; [exact MO|]. split; [exact BE|].
    intros n Hn. cbn [irun emits]. unfold hbind, after. rewrite R1. auto.
  - destruct (s_current (st_coll st) v) as [[k0 x]|] eqn:E; [|discriminate].
    pose proof (op_keyval _ _ _ _ _ _ RE E) as R1.
    assert (Sx : W d T R o (k (k0, x))).
    { destruct (tracked (tl T) v) eqn:TR; [|apply S; cbn [snd]; eapply alive_other; eauto]. destruct T as [|c [|p0 T]]; try contradiction. destruct S as [IV S]. destruct (alive_parent _ _ _ _ _ _ _ _ _ _ AL IV E) as [w [-> IW]]. now apply S. }
    destruct (IH _ _ _ _ _ _ _ _ _ _ _ RE AL Sx SR) as [SI [n2 [h2 [g2 [r2 [o' [E0 [RE2 [HI2 [RA [MO [BE R2]]]]]]]]]]]]. split; [exact SI|].
    exists n2, h2, g2, r2, o', E0. split; [exact RE2|]. split; [exact HI2|]. split; [exact RA|]. split; [exact MO|]. split; [exact BE|].
    intros n Hn. cbn [irun emits]. unfold hbind, after. rewrite R1. auto.
  - destruct (s_clone (st_coll st) v) as [[t x]|] eqn:E; [|discriminate]. cbn [on_coll obind] in SR.
    destruct (op_clone grow _ _ _ _ _ _ _ RE E) as [h1 [g1 [r1 [R1 RE1]]]]. destruct (clone_fixed _ _ _ _ _ R1) as [HI1 FX]. destruct S as [AV S]. apply avoid_off in AV.
    destruct (alive_nochild _ _ _ _ _ _ _ RE AL) as [NC LT].
    assert (AX : avoid T x) by (apply avoid_off; intros c IX J; destruct (clone_other _ _ _ _ _ E (LT c J)) as [_ K2]; congruence).
    assert (AL1 : alive d T h1 (mkSt t (st_iter st)) u).
    { apply (alive_step d T h st u h1 t AL HI1). intros c J. destruct (clone_other _ _ _ _ _ E (LT c J)) as [K1 _]. split; [|exact K1]. intros r. apply FX. intro Q. exact (AV c Q J). }
    destruct (IH _ _ _ _ _ _ _ _ _ _ _ RE1 AL1 (S x AX) SR) as [SI [n2 [h2 [g2 [r2 [o' [E0 [RE2 [HI2 [RA [MO [BE R2]]]]]]]]]]]]. split; [exact SI|].
    exists n2, h2, g2, r2, o', E0. split; [exact RE2|]. split; [congruence|]. split; [exact RA|]. split; [exact MO|]. split; [exact BE|].
    intros n Hn. cbn [irun emits]. unfold hbind, after. rewrite R1. auto.
  - destruct (s_detach (st_coll st) v) as [t|] eqn:E; [|discriminate]. cbn [on_coll_ obind] in SR.
    destruct (op_detach grow _ _ _ _ _ _ RE E) as [h1 [g1 [r1 [R1 RE1]]]]. destruct (keeps_detach _ _ _ _ _ R1) as [HI1 FX]. destruct S as [AV S]. apply avoid_off in AV.
    destruct (alive_nochild _ _ _ _ _ _ _ RE AL) as [NC LT].
    assert (AL1 : alive d T h1 (mkSt t (st_iter st)) u) by (apply (alive_step d T h st u h1 t AL HI1); intros c J; split; [intro r; apply FX|]; eapply detach_other; eauto).
    destruct (IH _ _ _ _ _ _ _ _ _ _ RE1 AL1 S SR) as [SI [n2 [h2 [g2 [r2 [o' [E0 [RE2 [HI2 [RA [MO [BE R2]]]]]]]]]]]]. split; [exact SI|].
    exists n2, h2, g2, r2, o', E0. split; [exact RE2|]. split; [congruence|]. split; [exact RA|]. split; [exact MO|]. split; [exact BE|].
    intros n Hn. cbn [irun emits]. unfold hbind, after. rewrite R1. auto.
  - destruct (s_copy (st_coll st) v) as [[t ts]|] eqn:E; [|discriminate]. cbn [on_coll obind] in SR.
    destruct (op_copy grow _ _ _ _ _ _ _ RE E) as [n1 [h1 [g1 [r1 [R1 RE1]]]]]. destruct (keeps_copy _ _ _ _ _ _ (R1 n1 (le_n _))) as [HI1 FX]. destruct S as [AV S]. apply avoid_off in AV.
    destruct o as [out|]; [|contradiction].
    assert (AL1 : alive d T h1 (mkSt t (st_iter st)) u).
    { apply (alive_step d T h st u h1 t AL HI1). intros c J. split; [intro r; apply FX|]. eapply copy_other; eauto. intro Q. exact (AV c Q J). }
    destruct (IH _ _ _ _ _ _ _ _ _ _ _ RE1 AL1 (S ts) SR) as [SI [n2 [h2 [g2 [r2 [o' [E0 [RE2 [HI2 [RA [MO [BE R2]]]]]]]]]]]]. split; [exact SI|].
    exists (Nat.max n1 n2), h2, g2, r2, o', ((ts, unread h1) :: E0). split; [exact RE2|]. split; [congruence|]. split; [exact RA|].
    split; [cbn [more] in *; rewrite MO; unfold written; cbn [map concat fst]; now rewrite <- app_assoc|].
    split; [constructor; [cbn [snd]; eapply alive_unread; eauto|exact BE]|].
    intros n Hn. cbn [irun emits]. unfold hbind, after. rewrite R1 by lia. destruct (R2 n ltac:(lia)) as [-> ->]. auto.
  - destruct (s_discard (st_coll st) v) as [t|] eqn:E; [|discriminate]. cbn [on_coll_ obind] in SR.
    destruct (op_discard grow _ _ _ _ _ _ RE E) as [n1 [h1 [g1 [r1 [R1 RE1]]]]]. destruct (keeps_discard _ _ _ _ _ _ (R1 n1 (le_n _))) as [HI1 FX]. destruct S as [AV S]. apply avoid_off in AV.
    destruct (alive_nochild _ _ _ _ _ _ _ RE AL) as [NC LT].
    assert (AL1 : alive d T h1 (mkSt t (st_iter st)) u) by (apply (alive_step d T h st u h1 t AL HI1); intros c J; split; [intro r; apply FX|]; eapply discard_other; eauto).
    destruct (IH _ _ _ _ _ _ _ _ _ _ RE1 AL1 S SR) as [SI [n2 [h2 [g2 [r2 [o' [E0 [RE2 [HI2 [RA [MO [BE R2]]]]]]]]]]]]. split; [exact SI|].
    exists (Nat.max n1 n2), h2, g2, r2, o', E0. split; [exact RE2|]. split; [congruence|]. split; [exact RA|]. split; [exact MO|]. split; [exact BE|].
    intros n Hn. cbn [irun emits]. unfold hbind, after. rewrite R1 by lia. apply R2. lia.
Qed.
End Grow.

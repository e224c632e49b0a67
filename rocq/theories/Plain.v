(** Programs that copy a value as soon as its first token has been received, and
    that clone nothing: what they write is a sequence of pieces of the input,
    each written when it is read, and no pool is made. *)
From Coq Require Import List ZArith Arith Bool Lia.
From Verif Require Import Base Tokens CursorModel IterModel SplitModel SelectModel PathModel StreamModel PlainSpec.

Section Growth.
Variable grow : Z -> Z -> Z.
Notation heaps := (heaps grow).
Lemma pieces_later : forall a ts E, pieces ts E -> pieces (a ++ ts) E.
Proof. intros a ts E H. destruct H as [ts|b p r E H]; [constructor|]. rewrite app_assoc. now constructor. Qed.

(** ------------------------------------------------------------------ *)
(** The value that the last token received starts: none, a value in hand, the
    current value of a collection or of an iterator. *)
Inductive recent := FNone | FVal (v : value) | FCur (v : value) | FIter (i : nat).
Definition coll_eqb (v w : value) : bool :=
  match v, w with VArr c, VArr d | VObj c, VObj d => (c =? d)%nat | _, _ => false end.
Definition recent_of (f : recent) (v : value) (o : option value) : recent :=
  match f, o with FCur w, Some x => if coll_eqb v w then FVal x else FNone | _, _ => FNone end.
Definition recent_iter (f : recent) (i : nat) (o : option value) : recent :=
  match f, o with FIter j, Some x => if (i =? j)%nat then FVal x else FNone | _, _ => FNone end.

Fixpoint track {A} (Q : recent -> list token -> A -> Prop) (f : recent) (acc : list token) (p : iprog A) : Prop :=
  match p with
  | IRet a => Q f acc a
  | IPanic | IFuel => True
  | IAdvance v k => track Q (FCur v) acc (k true) /\ track Q FNone acc (k false)
  | ICurrent v k => forall o, track Q (recent_of f v o) acc (k o)
  | IKeyVal v k => forall key o, track Q (recent_of f v o) acc (k (key, o))
  | IClone _ _ => False
  | IDetach _ _ => False
  | ICopy v k => f = FVal v /\ forall ts, track Q FNone (acc ++ ts) (k ts)
  | IDiscard v k => track Q FNone acc k
  | IIterNew _ _ => False
  | IIterAdvance i k => track Q (FIter i) acc (k true) /\ track Q FNone acc (k false)
  | IIterCurrent i k => forall o, track Q (recent_iter f i o) acc (k o)
  | IIterClone _ _ => False
  | IIterDetach _ _ => False
  end.

Lemma track_bind : forall A B (p : iprog A) (k : A -> iprog B) Q R f acc,
  track R f acc p -> (forall f' acc' a, R f' acc' a -> track Q f' acc' (k a)) -> track Q f acc (ibind p k).
Proof.
  intros A B p k Q R. induction p as [a| | |v j IH|v j IH|v j IH|v j IH|v j IH|v j IH|v j IH|d j IH|i j IH|i j IH|i j IH|i j IH]; intros f acc T K; cbn [ibind track] in *;
    auto; try tauto; try (destruct T; split; solve [eauto]); try (intros; eapply IH; eauto).
Qed.
Lemma track_mono : forall A (p : iprog A) (Q R : recent -> list token -> A -> Prop) f acc,
  track R f acc p -> (forall f' acc' a, R f' acc' a -> Q f' acc' a) -> track Q f acc p.
Proof.
  intros A p Q R. induction p as [a| | |v j IH|v j IH|v j IH|v j IH|v j IH|v j IH|v j IH|d j IH|i j IH|i j IH|i j IH|i j IH]; intros f acc T K; cbn [track] in *;
    auto; try tauto; try (destruct T; split; solve [eauto]); try (intros; eapply IH; eauto).
Qed.

(** ------------------------------------------------------------------ *)
(** The heaps of such programs: one source, read by everything. *)
Record lone (h : heap) : Prop := mkLone {
  ln_src : h_src h = [unread h];
  ln_pool : h_pool h = [];
  ln_coll : forall c x, nth_error (h_coll h) c = Some x -> c_stream x = RSrc 0;
  ln_iter : forall i x, nth_error (h_iter h) i = Some x -> i_stream x = RSrc 0
}.
Definition head_of (h : heap) (v : value) (t : token) : Prop :=
  match v with
  | VScalar s => t = TScalar s
  | VArr c | VObj c => exists x, nth_error (h_coll h) c = Some x /\ c_started x = false /\ t = if c_obj x then TStartObj else TStartArr
  end.
(** What is still to be received, with the token that starts the recent value. *)
Definition ahead_of (h : heap) (f : recent) (l : list token) : Prop :=
  match f with
  | FNone => l = unread h
  | FVal v => exists t, head_of h v t /\ l = t :: unread h
  | FCur w => exists c x v t, (w = VArr c \/ w = VObj c) /\ nth_error (h_coll h) c = Some x /\ c_val x = Some v /\ head_of h v t /\ l = t :: unread h
  | FIter i => exists x v t, nth_error (h_iter h) i = Some x /\ i_val x = Some v /\ head_of h v t /\ l = t :: unread h
  end.

(** An operation on the one source. *)
Definition alone {A} (m : hm A) : Prop := forall h h' a, m h = Ok (h', a) -> lone h -> lone h' /\ exists l, unread h = l ++ unread h'.

Lemma alone_ret : forall A (x : A), alone (hret x).
Proof. intros A x h h' a E L. injection E as <- <-. split; [exact L|exists []; reflexivity]. Qed.
Lemma alone_panic : forall A, alone (@hpanic A).
Proof. intros A h h' a E. discriminate. Qed.
Lemma alone_fuel : forall A, alone (@hfuel A).
Proof. intros A h h' a E. discriminate. Qed.
Lemma alone_bind : forall A B (m : hm A) (f : A -> hm B), alone m -> (forall x, alone (f x)) -> alone (hbind m f).
Proof.
  intros A B m f M F h h' b E L. unfold hbind in E. destruct (m h) as [[h1 a]| |] eqn:E1; try discriminate.
  destruct (M _ _ _ E1 L) as [L1 [l1 U1]]. destruct (F _ _ _ _ E L1) as [L2 [l2 U2]]. split; [exact L2|]. exists (l1 ++ l2). rewrite U1, U2. now rewrite app_assoc.
Qed.
Lemma alone_get_coll : forall c, alone (get_coll c).
Proof. intros c h h' a E L. unfold get_coll in E. destruct (nth_error _ _); [|discriminate]. injection E as <- <-. split; [exact L|exists []; reflexivity]. Qed.
Lemma alone_get_iter : forall c, alone (get_iter c).
Proof. intros c h h' a E L. unfold get_iter in E. destruct (nth_error _ _); [|discriminate]. injection E as <- <-. split; [exact L|exists []; reflexivity]. Qed.
Lemma nth_upd_any : forall A (l : list A) i j x y, nth_error (upd l i x) j = Some y -> y = x \/ nth_error l j = Some y.
Proof.
  induction l as [|a l IH]; intros [|i] [|j] x y E; cbn in *; auto; try discriminate.
  - injection E as <-. auto.
  - eapply IH; eauto.
Qed.
Lemma lone_put_coll : forall h c x, lone h -> c_stream x = RSrc 0 -> lone (set_coll h c x).
Proof.
  intros h c x [S P C I0] X. constructor; auto. intros d y E. cbn in E. destruct (nth_upd_any _ _ _ _ _ _ E) as [->|E']; eauto.
Qed.
Lemma lone_put_iter : forall h c x, lone h -> i_stream x = RSrc 0 -> lone (set_iter h c x).
Proof.
  intros h c x [S P C I0] X. constructor; auto. intros d y E. cbn in E. destruct (nth_upd_any _ _ _ _ _ _ E) as [->|E']; eauto.
Qed.

(** Hoare triples on such heaps; [l] is what is received meanwhile. *)
Definition does {A} (h : heap) (m : hm A) (Q : heap -> list token -> A -> Prop) : Prop :=
  forall h' a, m h = Ok (h', a) -> lone h' /\ exists l, unread h = l ++ unread h' /\ Q h' l a.
Lemma does_ret : forall A (x : A) h (Q : heap -> list token -> A -> Prop), lone h -> Q h [] x -> does h (hret x) Q.
Proof. intros A x h Q L H h' a E. injection E as <- <-. split; [exact L|]. exists []. auto. Qed.
Lemma does_panic : forall A h (Q : heap -> list token -> A -> Prop), does h hpanic Q.
Proof. intros A h Q h' a E. discriminate. Qed.
Lemma does_fuel : forall A h (Q : heap -> list token -> A -> Prop), does h hfuel Q.
Proof. intros A h Q h' a E. discriminate. Qed.
Lemma does_bind : forall A B h (m : hm A) (f : A -> hm B) P (Q : heap -> list token -> B -> Prop),
  does h m P -> (forall h1 l1 a, lone h1 -> unread h = l1 ++ unread h1 -> P h1 l1 a -> does h1 (f a) (fun h' l b => Q h' (l1 ++ l) b)) -> does h (hbind m f) Q.
Proof.
  intros A B h m f P Q M F h' b E. unfold hbind in E. destruct (m h) as [[h1 a]| |] eqn:E1; try discriminate.
  destruct (M _ _ E1) as [L1 [l1 [U1 P1]]]. destruct (F h1 l1 a L1 U1 P1 _ _ E) as [L2 [l2 [U2 P2]]]. split; [exact L2|]. exists (l1 ++ l2). rewrite U1, U2, app_assoc. auto.
Qed.
Lemma does_mono : forall A h (m : hm A) (P Q : heap -> list token -> A -> Prop), does h m P -> (forall h' l a, P h' l a -> Q h' l a) -> does h m Q.
Proof. intros A h m P Q M I0 h' a E. destruct (M _ _ E) as [L [l [U H]]]. eauto 6. Qed.
Lemma does_get_coll : forall c h, lone h -> does h (get_coll c) (fun h' l x => h' = h /\ l = [] /\ nth_error (h_coll h) c = Some x /\ c_stream x = RSrc 0).
Proof.
  intros c h L h' x E. unfold get_coll in E. destruct (nth_error (h_coll h) c) as [y|] eqn:N; [|discriminate]. injection E as <- <-.
  split; [exact L|]. exists []. split; [reflexivity|]. repeat split; auto. eapply ln_coll; eauto.
Qed.
Lemma does_get_iter : forall c h, lone h -> does h (get_iter c) (fun h' l x => h' = h /\ l = [] /\ nth_error (h_iter h) c = Some x /\ i_stream x = RSrc 0).
Proof.
  intros c h L h' x E. unfold get_iter in E. destruct (nth_error (h_iter h) c) as [y|] eqn:N; [|discriminate]. injection E as <- <-.
  split; [exact L|]. exists []. split; [reflexivity|]. repeat split; auto. eapply ln_iter; eauto.
Qed.
Lemma does_put_coll : forall c x h, lone h -> c_stream x = RSrc 0 -> does h (put_coll c x) (fun h' l _ => h' = set_coll h c x /\ l = []).
Proof. intros c x h L X h' a E. injection E as <- <-. split; [now apply lone_put_coll|]. exists []. auto. Qed.
Lemma does_put_iter : forall c x h, lone h -> i_stream x = RSrc 0 -> does h (put_iter c x) (fun h' l _ => h' = set_iter h c x /\ l = []).
Proof. intros c x h L X h' a E. injection E as <- <-. split; [now apply lone_put_iter|]. exists []. auto. Qed.
Lemma does_next : forall h, lone h -> does h (snext grow (RSrc 0)) (fun h' l o => match o with None => h' = h /\ l = [] | Some t => h_coll h' = h_coll h /\ h_iter h' = h_iter h /\ l = [t] end).
Proof.
  intros h L h' o E. cbn [snext] in E. rewrite (ln_src h L) in E. cbn [nth_error] in E. destruct (unread h) as [|t r] eqn:U.
  - injection E as <- <-. split; [exact L|]. exists []. rewrite U. auto.
  - injection E as <- <-. unfold set_src. rewrite (ln_src h L). cbn [upd]. split.
    + destruct L as [S P C I0]. constructor; auto.
    + exists [t]. cbn. auto.
Qed.
Lemma does_drain : forall n d h, lone h -> does h (drain grow n (RSrc 0) d) (fun h' l ts => l = ts /\ h_coll h' = h_coll h /\ h_iter h' = h_iter h).
Proof.
  induction n as [|n IH]; intros d h L; cbn [drain]; [apply does_fuel|]. eapply does_bind; [apply does_next; exact L|].
  intros h1 l1 [t|] L1 U1 H; [|destruct H as [-> ->]; apply does_ret; auto]. destruct H as [C1 [I1 ->]].
  destruct (_ <? 0)%Z.
  - apply does_ret; [exact L1|]. auto.
  - eapply does_bind; [apply IH; exact L1|]. intros h2 l2 ts L2 U2 [-> [C2 I2]]. apply does_ret; [exact L2|]. cbn in *. rewrite app_nil_r. repeat split; congruence.
Qed.
Lemma does_discard : forall n v h, lone h -> does h (discard grow n v) (fun h' _ _ => h_iter h' = h_iter h /\ length (h_coll h') = length (h_coll h)).
Proof.
  induction n as [|n IH]; intros v h L; cbn [discard]; [apply does_fuel|]. destruct v as [s|c|c]; [apply does_ret; auto| |].
  all: eapply does_bind; [apply does_get_coll; exact L|]; intros h1 l1 x L1 U1 [-> [-> [N X]]]; destruct (c_done x); [apply does_ret; auto|];
    (eapply does_bind; [destruct (c_started x); [destruct (c_val x) as [v'|]; [apply IH; exact L|apply does_panic]|apply does_ret; auto]|]);
    intros h2 l2 w2 L2 U2 I2; (eapply does_bind; [apply does_put_coll; [exact L2|exact X]|]); intros h3 l3 w3 L3 U3 [-> ->];
    rewrite X; (eapply does_bind; [apply does_drain; exact L3|]); intros h4 l4 ts L4 U4 [-> [C4 I4]]; apply does_ret; [exact L4|]; destruct I2 as [I2 K2]; cbn in *; rewrite C4, upd_length; split; congruence.
Qed.
Lemma nth_upd_same : forall A (l : list A) i x y, nth_error l i = Some y -> nth_error (upd l i x) i = Some x.
Proof. induction l as [|a l IH]; intros [|i] x y E; cbn in *; try discriminate; eauto. Qed.
Lemma nth_upd_other : forall A (l : list A) i j x, i <> j -> nth_error (upd l i x) j = nth_error l j.
Proof. induction l as [|a l IH]; intros [|i] [|j] x E; cbn in *; auto; lia. Qed.

Lemma does_copy : forall n v h, lone h -> does h (copy grow n v) (fun h' l ts => exists t r, head_of h v t /\ ts = t :: r /\ l = r).
Proof.
  intros n v h L. destruct v as [s|c|c]; cbn [copy]; [apply does_ret; [exact L|]; exists (TScalar s), []; cbn; auto| |].
  all: eapply does_bind; [apply does_get_coll; exact L|]; intros h1 l1 x L1 U1 [-> [-> [N X]]]; destruct (c_started x) eqn:ST; [apply does_panic|];
    (eapply does_bind; [apply does_put_coll; [exact L|exact X]|]); intros h3 l3 w3 L3 U3 [-> ->];
    rewrite X; (eapply does_bind; [apply does_drain; exact L3|]); intros h4 l4 ts L4 U4 [-> [C4 I4]]; apply does_ret; [exact L4|];
    eexists _, ts; cbn [head_of app]; rewrite app_nil_r; split; [exists x; auto|split; reflexivity].
Qed.
(** A value that has just begun. *)
Lemma does_value : forall t h, lone h -> does h (next_value t (RSrc 0)) (fun h' l v => l = [] /\ head_of h' v t /\ h_src h' = h_src h /\ h_iter h' = h_iter h /\
  forall c x, nth_error (h_coll h) c = Some x -> nth_error (h_coll h') c = Some x /\ v <> VArr c /\ v <> VObj c).
Proof.
  intros t h L.
  assert (K : forall ob, does h (ldo c <- new_coll (mkColl ob (RSrc 0) false false false None None); hret (if ob : bool then VObj c else VArr c)) (fun h' l v => l = [] /\ head_of h' v (if ob then TStartObj else TStartArr) /\ h_src h' = h_src h /\ h_iter h' = h_iter h /\
    forall c x, nth_error (h_coll h) c = Some x -> nth_error (h_coll h') c = Some x /\ v <> VArr c /\ v <> VObj c)).
  { intros ob h' v E. cbv [hbind new_coll hret] in E. injection E as <- <-. split; [|exists []; split; [reflexivity|]; split; [reflexivity|split; [|split; [reflexivity|split; [reflexivity|]]]]].
    - destruct L as [S P C I0]. constructor; auto. intros c x N. cbn in N. destruct (Nat.lt_ge_cases c (length (h_coll h))) as [LT|GE].
      + rewrite nth_error_app1 in N by exact LT. eauto.
      + rewrite nth_error_app2 in N by exact GE. destruct (c - _) as [|k]; [injection N as <-; reflexivity|destruct k; discriminate].
    - destruct ob; cbn; (eexists; split; [rewrite nth_error_app2, Nat.sub_diag by auto; reflexivity|]); auto.
    - intros c x N. assert (c < length (h_coll h)) by (apply nth_error_Some; congruence). cbn. rewrite nth_error_app1 by assumption. split; [exact N|]. destruct ob; split; intro; try discriminate; match goal with H : _ = _ |- _ => injection H as ?; lia end. }
  destruct t as [| | | | |s]; cbn [next_value]; try apply does_panic.
  - apply (K true).
  - apply (K false).
  - apply does_ret; [exact L|]. cbn. repeat split; auto; discriminate.
Qed.

(** The current value is the one that the last token received has started. *)
Definition begins (h' : heap) (c : nat) (l : list token) (b : bool) : Prop :=
  b = true -> exists x v t l', nth_error (h_coll h') c = Some x /\ c_val x = Some v /\ head_of h' v t /\ l = l' ++ [t].
Lemma does_current : forall h c x k t (b : bool), lone h -> c_stream x = RSrc 0 -> c < length (h_coll h) ->
  does h (ldo v <- next_value t (RSrc 0) ; put_coll c (set_current x k v) ;; hret b) (fun h' l _ => l = [] /\ exists y v, nth_error (h_coll h') c = Some y /\ c_val y = Some v /\ head_of h' v t).
Proof.
  intros h c x k t b L X C. apply nth_error_Some in C. destruct (nth_error (h_coll h) c) as [x0|] eqn:N; [|congruence].
  eapply does_bind; [apply does_value; exact L|]. intros h1 l1 v L1 U1 [-> [HD [S1 [I1 K]]]]. destruct (K _ _ N) as [N1 [NA NO]].
  eapply does_bind; [apply does_put_coll; [exact L1|exact X]|]. intros h2 l2 w L2 U2 [-> ->]. apply does_ret; [exact L2|]. split; [reflexivity|].
  eexists _, v. split; [cbn; eapply nth_upd_same; exact N1|]. split; [reflexivity|].
  destruct v as [s|d|d]; cbn [head_of] in *; auto; destruct HD as [y [D1 D2]]; exists y; (split; [|exact D2]); cbn; rewrite nth_upd_other; auto; congruence.
Qed.
Lemma does_advance : forall n c h, lone h -> does h (advance grow n c) (fun h' l b => begins h' c l b).
Proof.
  induction n as [|n IH]; intros c h L; cbn [advance]; [apply does_fuel|]. eapply does_bind; [apply does_get_coll; exact L|]. intros h1 l1 x L1 U1 [-> [-> [N X]]].
  assert (LC : c < length (h_coll h)) by (apply nth_error_Some; congruence).
  destruct (c_done x); [apply does_ret; [exact L|intro; discriminate]|].
  eapply does_bind with (P := fun h' _ _ => length (h_coll h') = length (h_coll h)).
  { unfold discard_current. destruct (c_started x); [|apply does_ret; auto]. destruct (c_val x) as [v|]; [|apply does_panic]. eapply does_mono; [apply does_discard; exact L|]. now intros h' l a [_ Q]. }
  intros h2 l2 w2 L2 U2 C2. rewrite X. eapply does_bind; [apply does_next; exact L2|]. intros h3 l3 [t|] L3 U3 H3; [|apply does_panic]. destruct H3 as [C3 [I3 ->]].
  assert (STOP : forall h l0 x', lone h -> c_stream x' = RSrc 0 -> does h (put_coll c x' ;; hret false) (fun h' l r => begins h' c (l0 ++ l) r)).
  { intros h0 l0 x' L0 X0. eapply does_bind; [apply does_put_coll; [exact L0|exact X0]|]. intros h' l' w' L' U' [-> ->]. apply does_ret; [exact L'|]. intros Q. discriminate. }
  assert (AGAIN : forall h l0 x', lone h -> c_stream x' = RSrc 0 -> does h (put_coll c x' ;; advance grow n c) (fun h' l r => begins h' c (l0 ++ l) r)).
  { intros h0 l0 x' L0 X0. eapply does_bind; [apply does_put_coll; [exact L0|exact X0]|]. intros h' l' w' L' U' [-> ->]. eapply does_mono; [apply IH; exact L'|]. cbn. intros h5 l5 r B Q.
    destruct (B Q) as [y [v [t' [l6 [D1 [D2 [D3 ->]]]]]]]. exists y, v, t', (l0 ++ l6). rewrite app_assoc. auto. }
  assert (CURR : forall h l0 k t', lone h -> c < length (h_coll h) -> does h (ldo v <- next_value t' (RSrc 0) ; put_coll c (set_current x k v) ;; hret true) (fun h' l r => begins h' c (l0 ++ [t'] ++ l) r)).
  { intros h0 l0 k t' L0 C0. eapply does_mono; [apply does_current; [exact L0|exact X|exact C0]|]. cbn. intros h5 l5 r [-> [y [v [D1 [D2 D3]]]]] _. exists y, v, t', l0. auto. }
  assert (C3' : c < length (h_coll h3)) by (rewrite C3, C2; exact LC).
  cbn [app]. destruct (c_obj x).
  - destruct t as [| | | | |key]; try apply does_panic.
    + eapply does_mono; [apply STOP with (l0 := l2 ++ [TEndObj]); [exact L3|exact X]|]. cbn. intros h' l r. now rewrite <- app_assoc.
    + eapply does_mono; [apply AGAIN with (l0 := l2 ++ [TElision]); [exact L3|exact X]|]. cbn. intros h' l r. now rewrite <- app_assoc.
    + eapply does_bind; [apply does_next; exact L3|]. intros h4 l4 [t2|] L4 U4 H4; [|apply does_panic]. destruct H4 as [C4 [I4 ->]].
      eapply does_mono; [apply CURR with (l0 := l2 ++ [TScalar key]); [exact L4|rewrite C4; exact C3']|]. cbn. intros h' l r. now rewrite <- app_assoc.
  - destruct t as [| | | | |key]; try (eapply does_mono; [apply CURR with (l0 := l2); [exact L3|exact C3']|]; cbn; intros h' l r; exact (fun z => z)).
    + eapply does_mono; [apply STOP with (l0 := l2 ++ [TEndArr]); [exact L3|exact X]|]. cbn. intros h' l r. now rewrite <- app_assoc.
    + eapply does_mono; [apply AGAIN with (l0 := l2 ++ [TElision]); [exact L3|exact X]|]. cbn. intros h' l r. now rewrite <- app_assoc.
Qed.
Lemma does_iter_advance : forall n i h, lone h -> does h (iter_advance grow n i) (fun h' l b => b = true -> exists x v t l', nth_error (h_iter h') i = Some x /\ i_val x = Some v /\ head_of h' v t /\ l = l' ++ [t]).
Proof.
  intros n i h L. unfold iter_advance. eapply does_bind; [apply does_get_iter; exact L|]. intros h1 l1 x L1 U1 [-> [-> [N X]]].
  eapply does_bind with (P := fun h' _ _ => h_iter h' = h_iter h).
  { destruct (i_val x) as [v|]; [|apply does_ret; auto]. eapply does_mono; [apply does_discard; exact L|]. now intros h' l a [Q _]. }
  intros h2 l2 w2 L2 U2 I2. rewrite X. eapply does_bind; [apply does_next; exact L2|]. intros h3 l3 [t|] L3 U3 H3.
  - destruct H3 as [C3 [I3 ->]]. eapply does_bind; [apply does_value; exact L3|]. intros h4 l4 v L4 U4 [-> [HD [S4 [I4 K]]]].
    eapply does_bind; [apply does_put_iter; [exact L4|reflexivity]|]. intros h5 l5 w5 L5 U5 [-> ->]. apply does_ret; [exact L5|]. intros _.
    assert (N4 : nth_error (h_iter h4) i = Some x) by congruence.
    eexists _, v, t, l2. split; [cbn; eapply nth_upd_same; exact N4|]. split; [reflexivity|]. split; [|now rewrite !app_nil_r].
    destruct v; exact HD.
  - destruct H3 as [-> ->]. eapply does_bind; [apply does_put_iter; [exact L2|reflexivity]|]. intros h5 l5 w5 L5 U5 [-> ->]. apply does_ret; [exact L5|]. intro; discriminate.
Qed.

(** ------------------------------------------------------------------ *)
Lemma lone_ahead : forall f h ts, ahead_of h f ts -> exists a, ts = a ++ unread h.
Proof.
  intros [|v|w|i] h ts H; cbn in H.
  - exists []. exact H.
  - destruct H as [t [_ ->]]. exists [t]. reflexivity.
  - destruct H as [c [x [v [t [_ [_ [_ [_ ->]]]]]]]]. exists [t]. reflexivity.
  - destruct H as [x [v [t [_ [_ [_ ->]]]]]]. exists [t]. reflexivity.
Qed.

Theorem track_sound : forall A n (p : iprog A) Q f acc h ts, track Q f acc p -> lone h -> ahead_of h f ts ->
  pieces ts (emits grow n p h) /\ Forall lone (heaps n p h) /\
  forall h' a, irun grow n p h = Ok (h', a) -> exists f', Q f' (acc ++ concat (map fst (emits grow n p h))) a.
Proof.
  intros A n p Q.
  assert (X : forall B (m : hm B) (k : B -> iprog A) f1 acc h ts (Po : heap -> list token -> B -> Prop),
    (forall b f acc h ts, track Q f acc (k b) -> lone h -> ahead_of h f ts ->
       pieces ts (emits grow n (k b) h) /\ Forall lone (heaps n (k b) h) /\
       forall h' a, irun grow n (k b) h = Ok (h', a) -> exists f', Q f' (acc ++ concat (map fst (emits grow n (k b) h))) a) ->
    lone h -> ahead_of h f1 ts -> does h m Po ->
    (forall h' l b, unread h = l ++ unread h' -> Po h' l b -> exists f' ts', ahead_of h' f' ts' /\ track Q f' acc (k b) /\ exists a, ts = a ++ ts') ->
    pieces ts (after m h (fun b => emits grow n (k b))) /\ Forall lone (next m h (fun b => heaps n (k b))) /\
    forall h' a, (ldo b <- m ; irun grow n (k b)) h = Ok (h', a) -> exists f', Q f' (acc ++ concat (map fst (after m h (fun b => emits grow n (k b))))) a).
  { intros B m k f1 acc h ts Po IH L AH D F. unfold after, next, hbind. destruct (m h) as [[h1 b]| |] eqn:E; [|split; [constructor|split; [constructor|discriminate]]..].
    destruct (D _ _ E) as [L1 [l [U P]]]. destruct (F _ _ _ U P) as [f' [ts' [AH' [T [a ->]]]]]. destruct (IH b f' acc h1 ts' T L1 AH') as [Z1 [Z2 Z3]].
    split; [now apply pieces_later|]. split; [constructor; assumption|exact Z3]. }
  induction p as [a| | |v k IH|v k IH|v k IH|v k IH|v k IH|v k IH|v k IH|d k IH|i k IH|i k IH|i k IH|i k IH]; intros f acc h ts T L AH; cbn [track emits heaps irun] in *; try tauto;
    try (split; [constructor|split; [constructor|intros; discriminate]]; fail).
  - split; [constructor|split; [constructor|]]. intros h' b E. injection E as <- <-. exists f. cbn. now rewrite app_nil_r.
  - destruct T as [T1 T2]. destruct (lone_ahead _ _ _ AH) as [a0 ->].
    assert (Y : forall c, (v = VArr c \/ v = VObj c) -> does h (ldo c <- coll_of v ; advance grow n c) (fun h' l b => begins h' c l b)).
    { intros c [->| ->]; (eapply does_bind with (P := fun h' l c' => h' = h /\ l = [] /\ c' = c); [apply does_ret; auto|]); intros h1 l1 c' L1 U1 [-> [-> ->]]; cbn [app]; apply does_advance; exact L. }
    assert (Z : does h (ldo c <- coll_of v ; advance grow n c) (fun h' l b => exists c, (v = VArr c \/ v = VObj c) /\ begins h' c l b)).
    { destruct v as [s|c|c]; [intros ? ? E; discriminate|eapply does_mono; [apply (Y c); auto|]; cbn; eauto..]. }
    assert (E : forall h' a, (ldo c <- coll_of v; ldo b <- advance grow n c; irun grow n (k b)) h = Ok (h', a) -> (ldo b <- (ldo c <- coll_of v ; advance grow n c) ; irun grow n (k b)) h = Ok (h', a)).
    { intros h' a. cbv [hbind]. destruct (coll_of v h) as [[h1 c]| |]; auto. }
    destruct (X bool _ k f acc h (a0 ++ unread h) _ IH L AH Z) as [Z1 [Z2 Z3]].
    + intros h' l b U [c [VC B]]. rewrite U. destruct b.
      * destruct (B eq_refl) as [x [v' [t [l' [D1 [D2 [D3 ->]]]]]]]. exists (FCur v), (t :: unread h'). split; [exists c, x, v', t; auto 6|]. split; [exact T1|]. exists (a0 ++ l'). now rewrite <- !app_assoc.
      * exists FNone, (unread h'). split; [reflexivity|]. split; [exact T2|]. exists (a0 ++ l). now rewrite app_assoc.
    + split; [exact Z1|]. split; [exact Z2|]. intros h' a Q0. apply Z3 with h'. now apply E.
  - eapply (X _ _ k f acc h ts (fun h' l o => h' = h /\ exists c x, (v = VArr c \/ v = VObj c) /\ nth_error (h_coll h) c = Some x /\ o = c_val x)); auto.
    + intros h' o E. unfold current_value in E. destruct v as [s|c|c]; [discriminate|..]; cbv [hbind coll_of hret get_coll hpanic] in E;
        (destruct (nth_error (h_coll h) c) as [x|] eqn:N; [|discriminate]); destruct (c_done x); try discriminate; injection E as <- <-; (split; [exact L|]); exists []; (split; [reflexivity|]); split; eauto 8.
    + intros h' l o U [-> [c [x [VC [N ->]]]]]. specialize (T (c_val x)). unfold recent_of in T. destruct f as [|w|w|i]; try (exists FNone, (unread h); split; [reflexivity|split; [exact T|exact (lone_ahead _ _ _ AH)]]).
      destruct (c_val x) as [y|] eqn:CV; [|exists FNone, (unread h); split; [reflexivity|split; [exact T|exact (lone_ahead _ _ _ AH)]]].
      destruct (coll_eqb v w) eqn:EQ; [|exists FNone, (unread h); split; [reflexivity|split; [exact T|exact (lone_ahead _ _ _ AH)]]].
      destruct AH as [d [x2 [v2 [t [VD [N2 [CV2 [HD ->]]]]]]]].
      assert (d = c) as ->. { destruct v, w; cbn in EQ; try discriminate; apply Nat.eqb_eq in EQ; destruct VC, VD; congruence. }
      exists (FVal y), (t :: unread h). split; [exists t; split; [|reflexivity]; congruence|]. split; [exact T|]. exists []. reflexivity.
  - eapply (X _ _ k f acc h ts (fun h' l o => h' = h /\ exists c x, (v = VArr c \/ v = VObj c) /\ nth_error (h_coll h) c = Some x /\ snd o = c_val x)); auto.
    + intros h' o E. unfold current_key_val in E. destruct v as [s|c|c]; [discriminate|..]; cbv [hbind coll_of hret get_coll hpanic] in E;
        (destruct (nth_error (h_coll h) c) as [x|] eqn:N; [|discriminate]); destruct (c_done x); try discriminate; injection E as <- <-; (split; [exact L|]); exists []; (split; [reflexivity|]); split; eauto 8.
    + intros h' l [key o] U [-> [c [x [VC [N Eo]]]]]. cbn in Eo. subst o. specialize (T key (c_val x)). unfold recent_of in T. destruct f as [|w|w|i]; try (exists FNone, (unread h); split; [reflexivity|split; [exact T|exact (lone_ahead _ _ _ AH)]]).
      destruct (c_val x) as [y|] eqn:CV; [|exists FNone, (unread h); split; [reflexivity|split; [exact T|exact (lone_ahead _ _ _ AH)]]].
      destruct (coll_eqb v w) eqn:EQ; [|exists FNone, (unread h); split; [reflexivity|split; [exact T|exact (lone_ahead _ _ _ AH)]]].
      destruct AH as [d [x2 [v2 [t [VD [N2 [CV2 [HD ->]]]]]]]].
      assert (d = c) as ->. { destruct v, w; cbn in EQ; try discriminate; apply Nat.eqb_eq in EQ; destruct VC, VD; congruence. }
      exists (FVal y), (t :: unread h). split; [exists t; split; [|reflexivity]; congruence|]. split; [exact T|]. exists []. reflexivity.
  - destruct T as [-> T]. destruct AH as [t [HD ->]]. pose proof (does_copy n v h L) as D. unfold after, next, hbind.
    destruct (copy grow n v h) as [[h1 out]| |] eqn:E; [|split; [constructor|split; [constructor|discriminate]]..].
    destruct (D _ _ E) as [L1 [l [U [t' [r [HD' [-> ->]]]]]]].
    assert (t' = t) as ->. { destruct v; cbn in HD, HD'; [congruence|..]; destruct HD as [x [N1 [_ ->]]], HD' as [x' [N2 [_ ->]]]; rewrite N1 in N2; injection N2 as <-; reflexivity. }
    destruct (IH (t :: r) FNone (acc ++ t :: r) h1 (unread h1) (T _) L1 eq_refl) as [Z1 [Z2 Z3]].
    split; [rewrite U; apply (pieces_cons []) with (piece := t :: r); exact Z1|]. split; [constructor; assumption|].
    intros h' a Q0. destruct (Z3 h' a Q0) as [f' Z4]. exists f'. cbn [map concat fst]. now rewrite app_assoc.
  - eapply (X unit _ (fun _ => k) f acc h ts (fun _ _ _ => True)); auto; [eapply does_mono; [apply does_discard; exact L|]; trivial|].
    intros h' l b U _. exists FNone, (unread h'). split; [reflexivity|]. split; [exact T|]. destruct (lone_ahead _ _ _ AH) as [a ->]. exists (a ++ l). rewrite U. now rewrite app_assoc.
  - destruct T as [T1 T2]. destruct (lone_ahead _ _ _ AH) as [a0 ->].
    eapply (X _ _ k f acc h (a0 ++ unread h)); [exact IH|exact L|exact AH|apply does_iter_advance; exact L|]. cbn.
    intros h' l b U B. rewrite U. destruct b.
    + destruct (B eq_refl) as [x [v' [t [l' [D1 [D2 [D3 ->]]]]]]]. exists (FIter i), (t :: unread h'). split; [exists x, v', t; auto|]. split; [exact T1|]. exists (a0 ++ l'). now rewrite <- !app_assoc.
    + exists FNone, (unread h'). split; [reflexivity|]. split; [exact T2|]. exists (a0 ++ l). now rewrite app_assoc.
  - eapply (X _ _ k f acc h ts (fun h' l o => h' = h /\ exists x, nth_error (h_iter h) i = Some x /\ o = i_val x)); auto.
    + intros h' o E. unfold iter_current in E. cbv [hbind hret get_iter] in E.
      destruct (nth_error (h_iter h) i) as [x|] eqn:N; [|discriminate]. injection E as <- <-. split; [exact L|]. exists []. split; [reflexivity|]. split; eauto.
    + intros h' l o U [-> [x [N ->]]]. specialize (T (i_val x)). unfold recent_iter in T. destruct f as [|w|w|j]; try (exists FNone, (unread h); split; [reflexivity|split; [exact T|exact (lone_ahead _ _ _ AH)]]).
      destruct (i_val x) as [y|] eqn:CV; [|exists FNone, (unread h); split; [reflexivity|split; [exact T|exact (lone_ahead _ _ _ AH)]]].
      destruct (i =? j) eqn:EQ; [|exists FNone, (unread h); split; [reflexivity|split; [exact T|exact (lone_ahead _ _ _ AH)]]].
      apply Nat.eqb_eq in EQ. subst j. destruct AH as [x2 [v2 [t [N2 [CV2 [HD ->]]]]]].
      exists (FVal y), (t :: unread h). split; [exists t; split; [|reflexivity]; congruence|]. split; [exact T|]. exists []. reflexivity.
Qed.
End Growth.

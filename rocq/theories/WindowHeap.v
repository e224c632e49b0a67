(** The calls that clone nothing, on the heap: collections and iterators keep
    their streams, windows move forward only, pairs of cursors stay as in
    WindowPool.v. *)
From Coq Require Import List ZArith Arith Bool Lia.
From Verif Require Import Base Tokens CursorModel CursorSpec CursorProofs CursorBound IterModel IterCore Plain WindowPool.

Definition duo (p : nat) (h : heap) : Prop :=
  exists s0 pl l F s, nth_error (h_pool h) p = Some (s0, pl) /\ nth_error (h_src h) s0 = Some l /\ pair_ok F (with_src pl l) s.
(** The windows of the pools. *)
Definition forward (h h' : heap) : Prop :=
  forall q s pl, nth_error (h_pool h) q = Some (s, pl) -> exists pl', nth_error (h_pool h') q = Some (s, pl') /\ (p_wpos pl <= p_wpos pl')%Z.
Record evolve (h h' : heap) : Prop := mkEvolve {
  ev_coll : forall j x, nth_error (h_coll h) j = Some x -> exists x', nth_error (h_coll h') j = Some x' /\ c_stream x' = c_stream x;
  ev_iter : forall j x, nth_error (h_iter h') j = Some x -> exists x', nth_error (h_iter h) j = Some x' /\ i_stream x' = i_stream x;
  ev_pools : length (h_pool h') = length (h_pool h);
  ev_fwd : forward h h';
  ev_duo : forall p, duo p h -> duo p h'
}.
Lemma forward_refl : forall h, forward h h.
Proof. intros h q s pl E. exists pl. split; [exact E|lia]. Qed.
Lemma forward_trans : forall h h1 h2, forward h h1 -> forward h1 h2 -> forward h h2.
Proof. intros h h1 h2 A B q s pl E. destruct (A _ _ _ E) as [p1 [E1 L1]]. destruct (B _ _ _ E1) as [p2 [E2 L2]]. exists p2. split; [exact E2|lia]. Qed.
Lemma evolve_refl : forall h, evolve h h.
Proof. intro h. constructor; eauto. apply forward_refl. Qed.
Lemma evolve_trans : forall h h1 h2, evolve h h1 -> evolve h1 h2 -> evolve h h2.
Proof.
  intros h h1 h2 [A1 A2 A3 A4 A5] [B1 B2 B3 B4 B5]. constructor; eauto using forward_trans.
  - intros j x E. destruct (A1 _ _ E) as [x1 [E1 S1]]. destruct (B1 _ _ E1) as [x2 [E2 S2]]. exists x2. split; congruence.
  - intros j x E. destruct (B2 _ _ E) as [x1 [E1 S1]]. destruct (A2 _ _ E1) as [x2 [E2 S2]]. exists x2. split; congruence.
  - congruence.
Qed.

Section Grow.
Variable grow : Z -> Z -> Z.
(** [m] changes [h] as above. *)
Definition evo {A} (h : heap) (m : hm A) (Q : heap -> A -> Prop) : Prop := forall h' a, m h = Ok (h', a) -> evolve h h' /\ Q h' a.
Lemma evo_ret : forall A (x : A) h (Q : heap -> A -> Prop), Q h x -> evo h (hret x) Q.
Proof. intros A x h Q H h' a E. injection E as <- <-. split; [apply evolve_refl|exact H]. Qed.
Lemma evo_panic : forall A h (Q : heap -> A -> Prop), evo h hpanic Q.
Proof. intros A h Q h' a E. discriminate. Qed.
Lemma evo_fuel : forall A h (Q : heap -> A -> Prop), evo h hfuel Q.
Proof. intros A h Q h' a E. discriminate. Qed.
Lemma evo_bind : forall A B h (m : hm A) (f : A -> hm B) P (Q : heap -> B -> Prop),
  evo h m P -> (forall h1 a, evolve h h1 -> P h1 a -> evo h1 (f a) Q) -> evo h (hbind m f) Q.
Proof.
  intros A B h m f P Q M F h' b E. unfold hbind in E. destruct (m h) as [[h1 a]| |] eqn:E1; try discriminate.
  destruct (M _ _ E1) as [V1 P1]. destruct (F h1 a V1 P1 _ _ E) as [V2 Q2]. split; [eapply evolve_trans; eauto|exact Q2].
Qed.
Lemma evo_mono : forall A h (m : hm A) (P Q : heap -> A -> Prop), evo h m P -> (forall h' a, P h' a -> Q h' a) -> evo h m Q.
Proof. intros A h m P Q M I0 h' a E. destruct (M _ _ E) as [V H]. auto. Qed.
Definition any {A} : heap -> A -> Prop := fun _ _ => True.

Lemma duo_src : forall p h s l k, nth_error (h_src h) s = Some l -> duo p h -> duo p (set_src h s (skipn k l)).
Proof.
  intros p h s l k E [s0 [pl [l0 [F [rd [E1 [E2 PR]]]]]]]. destruct (Nat.eq_dec s s0) as [->|N].
  - rewrite E in E2. injection E2 as <-. destruct (pair_refit _ _ _ k _ PR) as [F' PR']. exists s0, pl, (skipn k l), F', rd. cbn. rewrite nth_error_upd_same by (eapply nth_error_lt; exact E). auto.
  - exists s0, pl, l0, F, rd. cbn. rewrite nth_error_upd_other by exact N. auto.
Qed.
Lemma evolve_src : forall h s l k, nth_error (h_src h) s = Some l -> evolve h (set_src h s (skipn k l)).
Proof. intros h s l k E. constructor; cbn; eauto; [exact (forward_refl h)|]. intros p. now apply duo_src. Qed.
Lemma evo_pool_op : forall p o h, plain_op o -> evo h (pool_op grow p o) (fun h' _ => h_coll h' = h_coll h /\ h_iter h' = h_iter h).
Proof.
  intros p o h PO h' x E. unfold pool_op in E. destruct (nth_error (h_pool h) p) as [[s pl]|] eqn:Ep; [|discriminate]. destruct (nth_error (h_src h) s) as [l|] eqn:Es; [|discriminate].
  destruct (step grow (with_src pl l) o) as [[pl' y]| |] eqn:St; try discriminate. injection E as <- <-. split; [|split; reflexivity].
  destruct (step_moves grow _ _ _ _ St) as [A [[k B] _]]. cbn [with_src p_wpos p_src] in A, B. rewrite B.
  constructor; cbn; eauto.
  - now rewrite upd_length.
  - intros q s1 pl1 E. cbn. destruct (Nat.eq_dec p q) as [<-|N].
    + rewrite Ep in E. injection E as <- <-. exists pl'. rewrite nth_error_upd_same by (eapply nth_error_lt; exact Ep). auto.
    + exists pl1. rewrite nth_error_upd_other by exact N. split; [exact E|lia].
  - intros q D. destruct (Nat.eq_dec p q) as [<-|N].
    + destruct D as [s0 [pl0 [l0 [F [rd [E1 [E2 PR]]]]]]]. rewrite Ep in E1. injection E1 as <- <-. rewrite Es in E2. injection E2 as <-.
      exists s, pl', (skipn k l), F, (fst (spec_step F rd o)). cbn. rewrite nth_error_upd_same by (eapply nth_error_lt; exact Ep). rewrite nth_error_upd_same by (eapply nth_error_lt; exact Es).
      split; [reflexivity|]. split; [reflexivity|]. pose proof (pair_step grow _ _ _ _ _ _ PR PO St) as PR'. rewrite <- B. destruct pl'. exact PR'.
    + pose proof (duo_src q h s l k Es D) as [s0 [pl0 [l0 [F [rd [E1 [E2 PR]]]]]]]. exists s0, pl0, l0, F, rd. cbn in *. rewrite nth_error_upd_other by exact N. auto.
Qed.
Lemma evo_next : forall r h, evo h (snext grow r) (fun h' _ => h_coll h' = h_coll h /\ h_iter h' = h_iter h).
Proof.
  intros [s|p c] h; cbn [snext].
  - intros h' o E. destruct (nth_error (h_src h) s) as [[|t l]|] eqn:Es; [| |discriminate].
    + injection E as <- <-. split; [apply evolve_refl|auto].
    + injection E as <- <-. split; [|auto]. apply (evolve_src h s (t :: l) 1 Es).
  - eapply evo_bind; [apply evo_pool_op; exact I|]. intros h1 x V H. destruct x; try apply evo_panic. apply evo_ret. exact H.
Qed.
Lemma evo_detach_stream : forall r h, evo h (detach_stream grow r) any.
Proof.
  intros [s|p c] h; cbn [detach_stream]; [apply evo_panic|]. eapply evo_bind; [apply evo_pool_op; exact I|]. intros h1 x V H. apply evo_ret. exact I.
Qed.
Lemma evo_get_coll : forall c h, evo h (get_coll c) (fun h' x => h' = h /\ nth_error (h_coll h) c = Some x).
Proof. intros c h h' x E. unfold get_coll in E. destruct (nth_error (h_coll h) c) as [y|] eqn:N; [|discriminate]. injection E as <- <-. split; [apply evolve_refl|auto]. Qed.
Lemma evo_get_iter : forall c h, evo h (get_iter c) (fun h' x => h' = h /\ nth_error (h_iter h) c = Some x).
Proof. intros c h h' x E. unfold get_iter in E. destruct (nth_error (h_iter h) c) as [y|] eqn:N; [|discriminate]. injection E as <- <-. split; [apply evolve_refl|auto]. Qed.
Definition streams (h : heap) (c : nat) (r : rstream) : Prop := exists y, nth_error (h_coll h) c = Some y /\ c_stream y = r.
Definition istreams (h : heap) (c : nat) (r : rstream) : Prop := forall y, nth_error (h_iter h) c = Some y -> i_stream y = r.
Lemma evo_put_coll : forall c x h, streams h c (c_stream x) -> evo h (put_coll c x) any.
Proof.
  intros c x h [y0 [E0 X]] h' a E. injection E as <- <-. split; [|exact I]. constructor; cbn; eauto; [|exact (forward_refl h)]. intros j y N.
  destruct (Nat.eq_dec c j) as [<-|NE].
  - exists x. rewrite nth_error_upd_same by (eapply nth_error_lt; exact N). split; [reflexivity|]. congruence.
  - exists y. rewrite nth_error_upd_other by exact NE. auto.
Qed.
Lemma evo_put_iter : forall c x h, istreams h c (i_stream x) -> evo h (put_iter c x) any.
Proof.
  intros c x h X h' a E. injection E as <- <-. split; [|exact I]. constructor; cbn; eauto; [|exact (forward_refl h)]. intros j y N.
  destruct (Nat.eq_dec c j) as [<-|NE].
  - destruct (nth_error (h_iter h) c) as [z|] eqn:Z.
    + rewrite nth_error_upd_same in N by (eapply nth_error_lt; exact Z). injection N as <-. exists z. split; [reflexivity|]. now apply X.
    + apply nth_error_ge in Z. apply nth_error_lt in N. rewrite upd_length in N. lia.
  - rewrite nth_error_upd_other in N by exact NE. eauto.
Qed.
Lemma evo_new_coll : forall x h, evo h (new_coll x) any.
Proof.
  intros x h h' a E. injection E as <- <-. split; [|exact I]. constructor; cbn; eauto; [|exact (forward_refl h)]. intros j y N. exists y. rewrite nth_error_app_l by (eapply nth_error_lt; exact N). auto.
Qed.
Lemma streams_evolve : forall h h' c r, evolve h h' -> streams h c r -> streams h' c r.
Proof. intros h h' c r V [y [E S]]. destruct (ev_coll _ _ V _ _ E) as [y' [E' S']]. exists y'. split; congruence. Qed.
Lemma istreams_evolve : forall h h' c r, evolve h h' -> istreams h c r -> istreams h' c r.
Proof. intros h h' c r V H y E. destruct (ev_iter _ _ V _ _ E) as [y' [E' S']]. rewrite <- S'. now apply H. Qed.

Lemma evo_drain : forall n r d h, evo h (drain grow n r d) any.
Proof.
  induction n as [|n IH]; intros r d h; cbn [drain]; [apply evo_fuel|]. eapply evo_bind; [apply evo_next|].
  intros h1 [t|] V H; [|apply evo_ret; exact I]. destruct (_ <? 0)%Z; [apply evo_ret; exact I|]. eapply evo_bind; [apply IH|]. intros h2 ts V2 _. apply evo_ret. exact I.
Qed.
Lemma evo_discard : forall n v h, evo h (discard grow n v) any.
Proof.
  induction n as [|n IH]; intros v h; cbn [discard]; [apply evo_fuel|]. destruct v as [s|c|c]; [apply evo_ret; exact I| |].
  all: eapply evo_bind; [apply evo_get_coll|]; intros h1 x V1 [-> N]; destruct (c_done x); [apply evo_ret; exact I|];
    (eapply evo_bind; [destruct (c_started x); [destruct (c_val x) as [v'|]; [apply IH|apply evo_panic]|apply evo_ret; exact I]|]);
    intros h2 w2 V2 _; (eapply evo_bind; [apply evo_put_coll; eapply streams_evolve; [exact V2|exists x; auto]|]); intros h3 w3 V3 _;
    (eapply evo_bind; [apply evo_drain|]); intros h4 ts V4 _; apply evo_ret; exact I.
Qed.
Lemma evo_copy : forall n v h, evo h (copy grow n v) any.
Proof.
  intros n v h. destruct v as [s|c|c]; cbn [copy]; [apply evo_ret; exact I| |].
  all: eapply evo_bind; [apply evo_get_coll|]; intros h1 x V1 [-> N]; destruct (c_started x); [apply evo_panic|];
    (eapply evo_bind; [apply evo_put_coll; exists x; auto|]); intros h3 w3 V3 _;
    (eapply evo_bind; [apply evo_drain|]); intros h4 ts V4 _; apply evo_ret; exact I.
Qed.
Lemma evo_value : forall t r h, evo h (next_value t r) any.
Proof.
  intros t r h. destruct t; cbn [next_value]; try apply evo_panic; try (apply evo_ret; exact I); (eapply evo_bind; [apply evo_new_coll|]); intros; apply evo_ret; exact I.
Qed.
Lemma evo_advance : forall n c h, evo h (advance grow n c) any.
Proof.
  induction n as [|n IH]; intros c h; cbn [advance]; [apply evo_fuel|]. eapply evo_bind; [apply evo_get_coll|]. intros h1 x V1 [-> N].
  assert (SX : streams h c (c_stream x)) by (exists x; auto).
  destruct (c_done x); [apply evo_ret; exact I|].
  eapply evo_bind; [unfold discard_current; destruct (c_started x); [destruct (c_val x) as [v'|]; [apply evo_discard|apply evo_panic]|apply evo_ret; exact I]|].
  intros h2 w2 V2 _. eapply evo_bind; [apply evo_next|]. intros h3 [t|] V3 _; [|apply evo_panic].
  assert (S3 : streams h3 c (c_stream x)) by (eapply streams_evolve; [exact V3|eapply streams_evolve; [exact V2|exact SX]]).
  assert (STOP : forall x', c_stream x' = c_stream x -> evo h3 (put_coll c x' ;; hret false) any).
  { intros x' E. eapply evo_bind; [apply evo_put_coll; rewrite E; exact S3|]. intros; apply evo_ret; exact I. }
  assert (AGAIN : forall x', c_stream x' = c_stream x -> evo h3 (put_coll c x' ;; advance grow n c) any).
  { intros x' E. eapply evo_bind; [apply evo_put_coll; rewrite E; exact S3|]. intros; apply IH. }
  assert (CURR : forall h4 k t', streams h4 c (c_stream x) -> evo h4 (ldo v <- next_value t' (c_stream x) ; put_coll c (set_current x k v) ;; hret true) any).
  { intros h4 k t' S4. eapply evo_bind; [apply evo_value|]. intros h5 v V5 _. eapply evo_bind; [apply evo_put_coll; eapply streams_evolve; [exact V5|exact S4]|]. intros; apply evo_ret; exact I. }
  destruct (c_obj x).
  - destruct t as [| | | | |key]; try apply evo_panic; try (apply STOP; reflexivity); try (apply AGAIN; reflexivity).
    eapply evo_bind; [apply evo_next|]. intros h4 [t2|] V4 _; [|apply evo_panic]. apply CURR. eapply streams_evolve; [exact V4|exact S3].
  - destruct t as [| | | | |key]; try (apply CURR; exact S3); [apply STOP|apply AGAIN]; reflexivity.
Qed.
Lemma evo_detach : forall v h, evo h (detach grow v) any.
Proof.
  intros v h. destruct v as [s|c|c]; cbn [detach]; [apply evo_ret; exact I| |]; (eapply evo_bind; [apply evo_get_coll|]); intros h1 x V1 [-> N]; apply evo_detach_stream.
Qed.
Lemma evo_iter_advance : forall n i h, evo h (iter_advance grow n i) any.
Proof.
  intros n i h. unfold iter_advance. eapply evo_bind; [apply evo_get_iter|]. intros h1 x V1 [-> N].
  assert (SX : istreams h i (i_stream x)) by (intros y E; congruence).
  eapply evo_bind; [destruct (i_val x) as [v|]; [apply evo_discard|apply evo_ret; exact I]|]. intros h2 w2 V2 _.
  eapply evo_bind; [apply evo_next|]. intros h3 [t|] V3 _.
  - eapply evo_bind; [apply evo_value|]. intros h4 v V4 _. eapply evo_bind; [apply evo_put_iter; eapply istreams_evolve; [exact V4|eapply istreams_evolve; [exact V3|eapply istreams_evolve; [exact V2|exact SX]]]|]. intros; apply evo_ret; exact I.
  - eapply evo_bind; [apply evo_put_iter; eapply istreams_evolve; [exact V3|eapply istreams_evolve; [exact V2|exact SX]]|]. intros; apply evo_ret; exact I.
Qed.

(** Cloning a collection: either a new pool with two cursors at its start, or a
    new cursor of a pool. *)
Lemma clone_forward : forall v h h' w, clone grow v h = Ok (h', w) -> forward h h'.
Proof.
  assert (PO : forall p o h h' x, pool_op grow p o h = Ok (h', x) -> forward h h').
  { intros p o h h' x E. unfold pool_op in E. destruct (nth_error (h_pool h) p) as [[s pl]|] eqn:Ep; [|discriminate]. destruct (nth_error (h_src h) s) as [l|] eqn:Es; [|discriminate].
    destruct (step grow (with_src pl l) o) as [[pl' y]| |] eqn:St; try discriminate. injection E as <- <-. destruct (step_moves grow _ _ _ _ St) as [A _]. cbn in A.
    intros q s1 pl1 E. cbn. destruct (Nat.eq_dec p q) as [<-|N].
    + rewrite Ep in E. injection E as <- <-. exists pl'. rewrite nth_error_upd_same by (eapply nth_error_lt; exact Ep). auto.
    + exists pl1. rewrite nth_error_upd_other by exact N. split; [exact E|lia]. }
  assert (CS : forall r h h' x, clone_stream grow r h = Ok (h', x) -> forward h h').
  { intros [s|p c] h h' x E; cbn [clone_stream] in E; unfold hbind in E.
    - set (h0 := mkHeap _ _ _ _) in E.
      assert (F0 : forward h h0). { intros q s1 pl1 E1. exists pl1. cbn. rewrite nth_error_app_l by (eapply nth_error_lt; exact E1). split; [exact E1|lia]. }
      destruct (pool_op grow _ ONew h0) as [[h1 y]| |] eqn:E1; try discriminate. destruct y as [|c| |]; try discriminate.
      destruct (pool_op grow _ (OClone c) h1) as [[h2 z]| |] eqn:E2; try discriminate. destruct z as [|c2| |]; try discriminate. injection E as <- _.
      eapply forward_trans; [exact F0|]. eapply forward_trans; [eapply PO; exact E1|eapply PO; exact E2].
    - destruct (pool_op grow p (OClone c) h) as [[h2 z]| |] eqn:E2; try discriminate. destruct z as [|c2| |]; try discriminate. injection E as <- _. eapply PO; exact E2. }
  intros v h h' w E. destruct v as [s|c|c]; cbn [clone] in E; [injection E as <- <-; apply forward_refl| |]; unfold hbind, get_coll, put_coll, new_coll in E;
    (destruct (nth_error (h_coll h) c) as [x|]; [|discriminate]); (destruct (c_started x); [discriminate|]);
    (destruct (clone_stream grow (c_stream x) h) as [[h1 rs]| |] eqn:E1; try discriminate); injection E as <- _; exact (CS _ _ _ _ E1).
Qed.
End Grow.

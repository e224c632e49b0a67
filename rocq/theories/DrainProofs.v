(** The transformers of NetModel.v read their input to the end. *)
From Coq Require Import List ZArith NArith Arith Bool Lia.
From Verif Require Import Base Tokens CursorModel IterModel SplitModel P_Split PathModel PathTop StreamModel
  PipelineModel PipelineSpec PipelineStages P_Pipeline NetModel NetProofs.
Import ListNotations.

Lemma forever_reads : forall R, reads_all (@forever R).
Proof. intro R. cofix CH. rewrite (frob_eq _ forever). cbn [frob forever]. constructor. exact CH. Qed.

(* ------------------------------------------------------------------ *)
(** Operations that leave the iterators as they are. *)
Section Heap.
Variable grow : Z -> Z -> Z.
Definition frames {A} (m : hm A) : Prop := forall h h' a, m h = Ok (h', a) -> h_iter h' = h_iter h.
Lemma frames_bind : forall A B (m : hm A) (f : A -> hm B), frames m -> (forall a, frames (f a)) -> frames (hbind m f).
Proof. intros A B m f M F h h' b E. unfold hbind in E. destruct (m h) as [[h1 a]| |] eqn:E1; try discriminate. rewrite (F _ _ _ _ E). exact (M _ _ _ E1). Qed.
Lemma frames_ret : forall A (a : A), frames (hret a).
Proof. intros A a h h' b E. injection E as <- _. reflexivity. Qed.
Lemma frames_panic : forall A, frames (@hpanic A).
Proof. intros A h h' b E. discriminate. Qed.
Lemma frames_fuel : forall A, frames (@hfuel A).
Proof. intros A h h' b E. discriminate. Qed.
Lemma frames_get : forall c, frames (get_coll c).
Proof. intros c h h' b E. unfold get_coll in E. destruct (nth_error _ _); [|discriminate]. injection E as <- _. reflexivity. Qed.
Lemma frames_put : forall c x, frames (put_coll c x).
Proof. intros c x h h' b E. injection E as <- _. reflexivity. Qed.
Lemma frames_new : forall x, frames (new_coll x).
Proof. intros x h h' b E. injection E as <- _. reflexivity. Qed.
Lemma frames_geti : forall c, frames (get_iter c).
Proof. intros c h h' b E. unfold get_iter in E. destruct (nth_error _ _); [|discriminate]. injection E as <- _. reflexivity. Qed.
Lemma frames_op : forall p o, frames (pool_op grow p o).
Proof.
  intros p o h h' b E. unfold pool_op in E. destruct (nth_error (h_pool h) p) as [[s pl]|]; [|discriminate]. destruct (nth_error (h_src h) s); [|discriminate].
  destruct (CursorModel.step grow _ o) as [[pl' x]| |]; try discriminate. injection E as <- _. reflexivity.
Qed.
Lemma frames_snext : forall r, frames (snext grow r).
Proof.
  intros [s|p c]; cbn [snext].
  - intros h h' b E. destruct (nth_error _ _) as [[|t l]|]; try discriminate; injection E as <- _; reflexivity.
  - apply frames_bind; [apply frames_op|intros []; (apply frames_ret || apply frames_panic)].
Qed.
Ltac fr := repeat first [apply frames_ret | apply frames_panic | apply frames_fuel | apply frames_get | apply frames_put | apply frames_new | apply frames_geti | apply frames_op | apply frames_snext
  | (apply frames_bind; [|intro]) | match goal with |- frames (match ?x with _ => _ end) => destruct x end | match goal with |- frames (if ?x then _ else _) => destruct x end ].
Lemma frames_clone_stream : forall r, frames (clone_stream grow r).
Proof. intros [s|p c]; cbn [clone_stream]; fr. intros h h' b E. injection E as <- _. reflexivity. Qed.
Lemma frames_detach_stream : forall r, frames (detach_stream grow r).
Proof. intros [s|p c]; cbn [detach_stream]; fr. Qed.
Lemma frames_next_value : forall t r, frames (next_value t r).
Proof. intros [] r; cbn [next_value]; fr. Qed.
Lemma frames_drain : forall f r d, frames (drain grow f r d).
Proof. induction f as [|f IH]; intros r d; cbn [drain]; fr; apply IH. Qed.
Lemma frames_discard : forall f v, frames (discard grow f v).
Proof. induction f as [|f IH]; intro v; cbn [discard]; fr; try apply IH; apply frames_drain. Qed.
Lemma frames_advance : forall f c, frames (advance grow f c).
Proof.
  induction f as [|f IH]; intro c; cbn [advance]; [apply frames_fuel|]. apply frames_bind; [fr|intro x]. unfold discard_current. fr; try apply IH; try apply frames_next_value; apply frames_discard.
Qed.
Lemma frames_current : forall v, frames (current_value v).
Proof. intros []; unfold current_value, coll_of; fr. Qed.
Lemma frames_keyval : forall v, frames (current_key_val v).
Proof. intros []; unfold current_key_val, coll_of; fr. Qed.
Lemma frames_clone : forall v, frames (clone grow v).
Proof. intros []; cbn [clone]; fr; apply frames_clone_stream. Qed.
Lemma frames_detach : forall v, frames (detach grow v).
Proof. intros []; cbn [detach]; fr; apply frames_detach_stream. Qed.

(** The iterator over the input reads the input; [busy]: it has a current value. *)
Definition reading (h : heap) : Prop := exists o, nth_error (h_iter h) 0 = Some (mkIter (RSrc 0) o).
Definition busy (h : heap) : Prop := exists v, nth_error (h_iter h) 0 = Some (mkIter (RSrc 0) (Some v)).
Definition holds {A} (m : hm A) : Prop := forall h h' a, busy h -> m h = Ok (h', a) -> busy h' \/ unread h' = [].
Lemma frames_holds : forall A (m : hm A), frames m -> holds m.
Proof. intros A m F h h' a B E. left. unfold busy in *. now rewrite (F _ _ _ E). Qed.
Lemma put_iter_other : forall i x h, i <> 0 -> nth_error (h_iter (set_iter h i x)) 0 = nth_error (h_iter h) 0.
Proof. intros [|i] x h NE; [contradiction|]. unfold set_iter. cbn [h_iter]. destruct (h_iter h); reflexivity. Qed.
Lemma iter_advance_0 : forall f h h' b, reading h -> iter_advance grow f 0 h = Ok (h', b) -> (b = true /\ busy h') \/ unread h' = [].
Proof.
  intros f h h' b [o O] E. unfold iter_advance, hbind at 1, get_iter in E. rewrite O in E. cbn [i_val i_stream] in E. unfold hbind at 1 in E.
  destruct ((match o with Some v => discard grow f v | None => hret tt end) h) as [[h1 u]| |] eqn:D; try discriminate.
  assert (F1 : h_iter h1 = h_iter h) by (destruct o; [exact (frames_discard _ _ _ _ _ D)|exact (frames_ret _ _ _ _ _ D)]).
  unfold hbind at 1 in E. cbn [snext] in E. destruct (nth_error (h_src h1) 0) as [[|t l]|] eqn:S1; try discriminate.
  - right. unfold hbind, put_iter, hret in E. injection E as <- _. unfold unread. cbn [set_iter h_src]. destruct (h_src h1) as [|x r]; [discriminate|]. cbn in *. congruence.
  - left. unfold hbind at 1 in E. destruct (next_value t (RSrc 0) (set_src h1 0 l)) as [[h2 v]| |] eqn:NV; try discriminate.
    assert (F2 : h_iter h2 = h_iter h) by (rewrite (frames_next_value _ _ _ _ _ NV); exact F1).
    unfold hbind, put_iter, hret in E. injection E as <- <-. split; [reflexivity|]. exists v. unfold set_iter. cbn [h_iter]. rewrite F2. destruct (h_iter h); [discriminate|reflexivity].
Qed.
Lemma holds_iter_advance : forall f i, holds (iter_advance grow f i).
Proof.
  intros f i h h' b B E. destruct (Nat.eq_dec i 0) as [->|NE].
  - destruct B as [v V]. destruct (iter_advance_0 f h h' b (ex_intro _ _ V) E) as [[_ H]|H]; auto.
  - left. unfold iter_advance, hbind at 1 in E. destruct (get_iter i h) as [[h0 x]| |] eqn:G; try discriminate. unfold hbind at 1 in E.
    destruct ((match i_val x with Some v => discard grow f v | None => hret tt end) h0) as [[h1 u]| |] eqn:D; try discriminate.
    assert (F1 : h_iter h1 = h_iter h) by (rewrite <- (frames_geti _ _ _ _ G); destruct (i_val x); [exact (frames_discard _ _ _ _ _ D)|exact (frames_ret _ _ _ _ _ D)]).
    unfold hbind at 1 in E. destruct (snext grow (i_stream x) h1) as [[h2 item]| |] eqn:S1; try discriminate. assert (F2 : h_iter h2 = h_iter h) by (rewrite (frames_snext _ _ _ _ S1); exact F1).
    unfold busy in *. destruct item as [t|].
    + unfold hbind at 1 in E. destruct (next_value t (i_stream x) h2) as [[h3 v]| |] eqn:NV; try discriminate. unfold hbind, put_iter, hret in E. injection E as <- _.
      rewrite put_iter_other by exact NE. rewrite (frames_next_value _ _ _ _ _ NV), F2. exact B.
    + unfold hbind, put_iter, hret in E. injection E as <- _. rewrite put_iter_other by exact NE. rewrite F2. exact B.
Qed.
Lemma holds_iter_current : forall i, holds (iter_current i).
Proof. intro i. apply frames_holds. unfold iter_current. fr. Qed.
Lemma holds_iter_detach : forall i, holds (iter_detach grow i).
Proof. intro i. apply frames_holds. unfold iter_detach. fr. apply frames_detach_stream. Qed.
Lemma busy_more : forall h h' x, busy h -> h_iter h' = h_iter h ++ [x] -> busy h'.
Proof. intros h h' x [v V] E. exists v. rewrite E. destruct (h_iter h); [discriminate|exact V]. Qed.
Lemma holds_iter_new : forall d, holds (iter_from_data d).
Proof. intros d h h' i B E. left. injection E as <- _. eapply busy_more; [exact B|reflexivity]. Qed.
Lemma holds_iter_clone : forall i, holds (iter_clone grow i).
Proof.
  intros i h h' j B E. left. unfold iter_clone, hbind at 1, get_iter in E. destruct (nth_error (h_iter h) i) as [x|] eqn:G; [|discriminate].
  destruct (i_val x) eqn:IV; [discriminate|]. destruct (Nat.eq_dec i 0) as [->|NE]; [destruct B as [v V]; rewrite V in G; injection G as <-; discriminate|].
  unfold hbind at 1 in E. destruct (clone_stream grow (i_stream x) h) as [[h1 rs]| |] eqn:C; try discriminate. unfold hbind, put_iter, new_iter in E. injection E as <- _.
  apply (busy_more (set_iter h1 i (mkIter (fst rs) None)) _ (mkIter (snd rs) None)); [|reflexivity]. unfold busy in *. rewrite put_iter_other by exact NE. rewrite (frames_clone_stream _ _ _ _ C). exact B.
Qed.

(* ------------------------------------------------------------------ *)
(** The processes. *)
Context {R : Type}.
Lemma try_inv : forall A (m : hm A) h h' a, try m h = Some (h', a) -> exists h1, m (set_src h 0 (unread h ++ [probe])) = Ok (h1, a) /\ unread h1 <> [] /\ h_iter h' = h_iter h1.
Proof.
  intros A m h h' a E. unfold try in E. destruct (m _) as [[h1 a1]| |]; try discriminate. destruct (unread h1) eqn:U; [discriminate|]. injection E as <- <-. exists h1. split; [reflexivity|]. split; [congruence|reflexivity].
Qed.
Lemma await_reads : forall A (m : hm A) (k : bool -> heap -> A -> proc R) (P : list iter -> Prop) h,
  P (h_iter h) ->
  (forall h h' a, P (h_iter h) -> m h = Ok (h', a) -> unread h' <> [] -> forall h2, h_iter h2 = h_iter h' -> reads_all (k false h2 a)) ->
  reads_all (await m false h k).
Proof.
  intros A m k P h PH K. revert h PH. cofix CH. intros h PH. rewrite await_open. destruct (try m h) as [[h' a]|] eqn:T.
  - constructor. destruct (try_inv _ _ _ _ _ T) as (h1 & E & U & J). eapply K; [|exact E|exact U|exact J]. exact PH.
  - constructor. intro t. apply CH. exact PH.
Qed.
Definition is_busy (l : list iter) : Prop := exists v, nth_error l 0 = Some (mkIter (RSrc 0) (Some v)).
Lemma await_holds : forall A (m : hm A) (k : bool -> heap -> A -> proc R) h, holds m -> busy h -> (forall h' a, busy h' -> reads_all (k false h' a)) -> reads_all (await m false h k).
Proof.
  intros A m k h M B K. apply (await_reads A m k is_busy h B). intros h0 h' a B0 E U h2 J. apply K. destruct (M h0 h' a B0 E) as [H|H]; [|contradiction]. unfold busy in *. now rewrite J.
Qed.
Lemma put_reads : forall loud t (p : proc R), reads_all p -> reads_all (put loud t p).
Proof. intros [] t p H; constructor; exact H. Qed.
Lemma copy_loop_reads : forall loud f r d h (k : bool -> heap -> list token -> proc R), busy h -> (forall h' a, busy h' -> reads_all (k false h' a)) -> reads_all (copy_loop grow loud f r d false h k).
Proof.
  intros loud f. induction f as [|f IH]; intros r d h k B K; cbn [copy_loop]; [apply forever_reads|]. apply await_holds; [apply frames_holds, frames_snext|exact B|].
  intros h' [item|] B'; [|now apply K]. apply put_reads. destruct (_ <? 0)%Z; [now apply K|]. apply IH; [exact B'|]. intros h2 ts B2. now apply K.
Qed.
Lemma copy_value_reads : forall loud f v h (k : bool -> heap -> list token -> proc R), busy h -> (forall h' a, busy h' -> reads_all (k false h' a)) -> reads_all (copy_value grow loud f v false h k).
Proof.
  intros loud f v h k B K. destruct v as [s|c|c]; cbn [copy_value]; [apply put_reads; now apply K| |];
    (apply await_holds; [apply frames_holds; fr|exact B|]; intros h' x B'; apply put_reads; apply copy_loop_reads; [exact B'|]; intros h2 ts B2; now apply K).
Qed.
Lemma perform_reads : forall A loud f (p : iprog A) h (k : bool -> heap -> A -> proc R), busy h -> (forall h' a, busy h' -> reads_all (k false h' a)) -> reads_all (perform grow loud f p false h k).
Proof.
  intros A loud f p. induction p as [a| | |v c IH|v c IH|v c IH|v c IH|v c IH|v c IH|v c IH|d c IH|i c IH|i c IH|i c IH|i c IH]; intros h k B K; cbn [perform];
    try apply forever_reads; try (now apply K); try (apply copy_value_reads; [exact B|]; intros h' ts B'; now apply IH);
    (apply await_holds; [|exact B|intros h' x B'; now apply IH]).
  - apply frames_holds. destruct v; unfold coll_of; fr; apply frames_advance.
  - apply frames_holds, frames_current.
  - apply frames_holds, frames_keyval.
  - apply frames_holds, frames_clone.
  - apply frames_holds, frames_detach.
  - apply frames_holds, frames_discard.
  - apply holds_iter_new.
  - apply holds_iter_advance.
  - apply holds_iter_current.
  - apply holds_iter_clone.
  - apply holds_iter_detach.
Qed.
Lemma values_reads : forall C (first : value -> iprog C) second f n h (r : R), reading h -> reads_all (values_stage grow first second f n false h r).
Proof.
  intros C first second f n. induction n as [|n IH]; intros h r RD; cbn [values_stage]; [apply forever_reads|].
  apply (await_reads _ _ _ (fun l => exists o, nth_error l 0 = Some (mkIter (RSrc 0) o)) h RD).
  intros h0 h1 b R0 E U h2 J. destruct (iter_advance_0 f h0 h1 b R0 E) as [[-> B]|N]; [|contradiction].
  assert (B2 : busy h2) by (unfold busy in *; now rewrite J).
  apply await_holds; [apply holds_iter_current|exact B2|]. intros h3 [v|] B3; [|apply forever_reads].
  apply perform_reads; [exact B3|]. intros h4 c B4. apply perform_reads; [exact B4|]. intros h5 a B5. apply IH. destruct B5 as [v5 V5]. now exists (Some v5).
Qed.
End Heap.

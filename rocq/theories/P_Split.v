(** C24: split and join. *)
From Coq Require Import List ZArith Arith Bool Lia.
From Verif Require Import Base Tokens JsonSpec EncSpec TransformModel CursorModel IterModel IterSpec IterCore IterSound
  SplitModel UseLib P_Transform.

(** The split transformer on a stream of tokens; [n] bounds its loops. *)
Definition split (n : nat) : iprog (list token) := transform_values (explode n) n 0.

(** Specification: arrays are replaced by their items. *)
Definition spread (x : jval) : list jval := match x with JArr l _ => l | _ => [x] end.

Lemma exploded_spread : forall vs, flat_map exploded vs = stream (flat_map spread vs).
Proof.
  unfold stream. induction vs as [|x vs IH]; [reflexivity|]. cbn [flat_map]. rewrite IH, flat_map_app. f_equal.
  destruct x; cbn [exploded spread flat_map]; now rewrite ?app_nil_r.
Qed.

(** C24, split: every stream of values comes out with its arrays spread. *)
Theorem C24_split : forall grow vs, (Z.of_nat (length (stream vs)) < maxint)%Z ->
  exists n0, forall n, n0 <= n -> exists f0 h', forall f, f0 <= f ->
    irun grow f (split n) (start (stream vs)) = Ok (h', stream (flat_map spread vs)).
Proof.
  intros grow vs L. exists (S (length vs + list_sum (map width vs))). intros n N.
  assert (W : forall x, In x vs -> width x <= list_sum (map width vs)).
  { clear. induction vs as [|y vs IH]; intros x I; [destruct I|].
    change (list_sum (map width (y :: vs))) with (width y + list_sum (map width vs)).
    destruct I as [->|I]; [lia|]. specialize (IH x I). lia. }
  destruct (transform_values_ok (explode n) exploded vs) with (n := n) as [st' R].
  - intros x I. apply uses_explode. specialize (W x I). lia.
  - lia.
  - rewrite <- exploded_spread. exact (iterators_follow_spec grow _ _ _ _ _ L R).
Qed.

(** C24: split undoes join. *)
Theorem C24_split_join : forall grow vs, (Z.of_nat (length (join_stream (stream vs))) < maxint)%Z ->
  exists n0, forall n, n0 <= n -> exists f0 h', forall f, f0 <= f ->
    irun grow f (split n) (start (join_stream (stream vs))) = Ok (h', stream vs).
Proof.
  intros grow vs L. rewrite C24_join_makes_one_array in *. destruct (C24_split grow _ L) as [n0 H]. exists n0.
  cbn [flat_map spread] in H. rewrite app_nil_r in H. exact H.
Qed.

(** C24: join undoes split, for an array. *)
Theorem C24_join_split : forall grow l e, (Z.of_nat (length (stream [JArr l e])) < maxint)%Z ->
  exists n0, forall n, n0 <= n -> exists f0 h' ts, (forall f, f0 <= f ->
    irun grow f (split n) (start (stream [JArr l e])) = Ok (h', ts)) /\ join_stream ts = stream [JArr l false].
Proof.
  intros grow l e L. destruct (C24_split grow _ L) as [n0 H]. exists n0. intros n N. destruct (H n N) as [f0 [h' R]].
  exists f0, h', (stream l). split; [|apply C24_join_makes_one_array].
  cbn [flat_map spread] in R. rewrite app_nil_r in R. exact R.
Qed.

Example split_example : exists h, irun (fun _ _ => 1%Z) 100 (split 10)
  (start (stream [JArr [JScalar (new_scalar TNum [49%N]); JArr [] false] false; JScalar (new_scalar TNull null_bytes)]))
  = Ok (h, [TScalar (new_scalar TNum [49%N]); TStartArr; TEndArr; TScalar (new_scalar TNull null_bytes)]).
Proof. eexists. vm_compute. reflexivity. Qed.

Print Assumptions C24_split.
Print Assumptions C24_split_join.
Print Assumptions C24_join_split.

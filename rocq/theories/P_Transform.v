(** C23 and part of C24: the depth and join transformers. *)
From Coq Require Import List ZArith Bool Lia.
From Verif Require Import Base Tokens JsonSpec EncSpec TransformModel.

(** Specification.  The collections at depth [n] (the top-level value being at
    depth 0) lose their contents; everything above is left as it is. *)
Fixpoint truncate (n : nat) (v : jval) {struct v} : jval :=
  match v with
  | JScalar s => JScalar s
  | JArr l e =>
      match n with
      | O => JArr [] true
      | S m => JArr (map (truncate m) l) e
      end
  | JObj l e =>
      match n with
      | O => JObj [] true
      | S m => JObj (map (fun kv => (fst kv, truncate m (snd kv))) l) e
      end
  end.

Local Open Scope Z_scope.

(** Below the limit nothing comes out. *)
Lemma below : forall max v d ts, max < d ->
  max_depth_loop max d (toks v ++ ts) = max_depth_loop max d ts.
Proof.
  intros max v. induction v as [s|l e IH|l e IH] using jval_induction; intros d ts D.
  - cbn. replace (d <=? max) with false by (symmetry; apply Z.leb_gt; lia).
    replace (d =? max) with false by (symmetry; apply Z.eqb_neq; lia).
    cbn. now rewrite Z.add_0_r.
  - cbn [toks app max_depth_loop].
    replace (d <=? max) with false by (symmetry; apply Z.leb_gt; lia).
    replace (d =? max) with false by (symmetry; apply Z.eqb_neq; lia).
    cbn [app andb]. rewrite <- !app_assoc.
    assert (I : forall r, max_depth_loop max (d + 1) (flat_map toks l ++ r) = max_depth_loop max (d + 1) r).
    { intro r. induction IH as [|x l H _ IHl]; [reflexivity|].
      cbn [flat_map]. rewrite <- app_assoc, H by lia. exact IHl. }
    rewrite I. destruct e; cbn [elision app max_depth_loop];
    repeat match goal with |- context [?a <=? max] => replace (a <=? max) with false by (symmetry; apply Z.leb_gt; lia)
    | |- context [?a =? max] => replace (a =? max) with false by (symmetry; apply Z.eqb_neq; lia) end;
    cbn [app andb]; f_equal; lia.
  - cbn [toks app max_depth_loop].
    replace (d <=? max) with false by (symmetry; apply Z.leb_gt; lia).
    replace (d =? max) with false by (symmetry; apply Z.eqb_neq; lia).
    cbn [app andb]. rewrite <- !app_assoc.
    assert (I : forall r, max_depth_loop max (d + 1) (flat_map (fun m => TScalar (fst m) :: toks (snd m)) l ++ r)
                          = max_depth_loop max (d + 1) r).
    { intro r. induction IH as [|x l H _ IHl]; [reflexivity|].
      cbn [flat_map app max_depth_loop].
      replace (d + 1 <=? max) with false by (symmetry; apply Z.leb_gt; lia).
      replace (d + 1 =? max) with false by (symmetry; apply Z.eqb_neq; lia).
      cbn [app andb]. rewrite Z.add_0_r, <- app_assoc, H by lia. exact IHl. }
    rewrite I. destruct e; cbn [elision app max_depth_loop];
    repeat match goal with |- context [?a <=? max] => replace (a <=? max) with false by (symmetry; apply Z.leb_gt; lia)
    | |- context [?a =? max] => replace (a =? max) with false by (symmetry; apply Z.eqb_neq; lia) end;
    cbn [app andb]; f_equal; lia.
Qed.

Lemma below_all : forall max l d r, max < d ->
  max_depth_loop max d (flat_map toks l ++ r) = max_depth_loop max d r.
Proof.
  intros max l d r D. induction l as [|x l IH]; [reflexivity|].
  cbn [flat_map]. rewrite <- app_assoc, below by lia. exact IH.
Qed.

Lemma below_members : forall max l d r, max < d ->
  max_depth_loop max d (flat_map (fun m : scalar * jval => TScalar (fst m) :: toks (snd m)) l ++ r)
  = max_depth_loop max d r.
Proof.
  intros max l d r D. induction l as [|x l IH]; [reflexivity|].
  cbn [flat_map app max_depth_loop].
  replace (d <=? max) with false by (symmetry; apply Z.leb_gt; lia).
  replace (d =? max) with false by (symmetry; apply Z.eqb_neq; lia).
  cbn [app andb]. rewrite Z.add_0_r, <- app_assoc, below by lia. exact IH.
Qed.

Lemma truncates : forall v n d max ts, max = d + Z.of_nat n ->
  max_depth_loop max d (toks v ++ ts) = toks (truncate n v) ++ max_depth_loop max d ts.
Proof.
  induction v as [s|l e IH|l e IH] using jval_induction; intros n d max ts E.
  - cbn. replace (d <=? max) with true by (symmetry; apply Z.leb_le; lia).
    rewrite andb_false_r. cbn. now rewrite Z.add_0_r.
  - cbn [toks app max_depth_loop]. rewrite <- !app_assoc.
    replace (d <=? max) with true by (symmetry; apply Z.leb_le; lia).
    destruct n as [|n]; cbn [truncate].
    + replace (d =? max) with true by (symmetry; apply Z.eqb_eq; lia).
      cbn [app andb Z.ltb Z.compare]. rewrite below_all by lia.
      destruct e; cbn [elision app max_depth_loop toks flat_map];
      repeat match goal with
      | |- context [?a <=? max] => first [replace (a <=? max) with false by (symmetry; apply Z.leb_gt; lia)
                                         |replace (a <=? max) with true by (symmetry; apply Z.leb_le; lia)]
      end; rewrite ?andb_false_r; cbn [app]; replace (d + 1 + 0 - 1) with d by lia;
        replace (d + 1 - 1) with d by lia;
      repeat match goal with
      | |- context [?a <=? max] => replace (a <=? max) with true by (symmetry; apply Z.leb_le; lia)
      end; cbn [app]; now rewrite Z.add_0_r.
    + replace (d =? max) with false by (symmetry; apply Z.eqb_neq; lia).
      cbn [app andb toks]. f_equal. rewrite <- !app_assoc.
      assert (I : forall r, max_depth_loop max (d + 1) (flat_map toks l ++ r)
                            = flat_map toks (map (truncate n) l) ++ max_depth_loop max (d + 1) r).
      { intro r. induction IH as [|x l H _ IHl]; [reflexivity|].
        cbn [flat_map map]. rewrite <- !app_assoc, (H n) by lia. now rewrite IHl. }
      rewrite I. f_equal.
      assert (T : max_depth_loop max (d + 1) (TEndArr :: ts) = TEndArr :: max_depth_loop max d ts).
      { cbn [max_depth_loop]. replace (d + 1 - 1) with d by lia.
        replace (d <=? max) with true by (symmetry; apply Z.leb_le; lia).
        rewrite andb_false_r. cbn [app]. now rewrite Z.add_0_r. }
      destruct e; cbn [elision app]; [|exact T].
      cbn [max_depth_loop]. replace (d + 1 <=? max) with true by (symmetry; apply Z.leb_le; lia).
      rewrite andb_false_r. cbn [app]. rewrite Z.add_0_r. fold (max_depth_loop max). now rewrite <- T.
  - cbn [toks app max_depth_loop]. rewrite <- !app_assoc.
    replace (d <=? max) with true by (symmetry; apply Z.leb_le; lia).
    destruct n as [|n]; cbn [truncate].
    + replace (d =? max) with true by (symmetry; apply Z.eqb_eq; lia).
      cbn [app andb Z.ltb Z.compare]. rewrite below_members by lia.
      destruct e; cbn [elision app max_depth_loop toks flat_map];
      repeat match goal with
      | |- context [?a <=? max] => first [replace (a <=? max) with false by (symmetry; apply Z.leb_gt; lia)
                                         |replace (a <=? max) with true by (symmetry; apply Z.leb_le; lia)]
      end; rewrite ?andb_false_r; cbn [app]; replace (d + 1 + 0 - 1) with d by lia;
        replace (d + 1 - 1) with d by lia;
      repeat match goal with
      | |- context [?a <=? max] => replace (a <=? max) with true by (symmetry; apply Z.leb_le; lia)
      end; cbn [app]; now rewrite Z.add_0_r.
    + replace (d =? max) with false by (symmetry; apply Z.eqb_neq; lia).
      cbn [app andb toks]. f_equal. rewrite <- !app_assoc.
      assert (I : forall r, max_depth_loop max (d + 1) (flat_map (fun m => TScalar (fst m) :: toks (snd m)) l ++ r)
                            = flat_map (fun m => TScalar (fst m) :: toks (snd m))
                                (map (fun kv => (fst kv, truncate n (snd kv))) l) ++ max_depth_loop max (d + 1) r).
      { intro r. induction IH as [|x l H _ IHl]; [reflexivity|].
        cbn [flat_map map fst snd app max_depth_loop].
        replace (d + 1 <=? max) with true by (symmetry; apply Z.leb_le; lia).
        rewrite andb_false_r. cbn [app]. rewrite Z.add_0_r.
        rewrite <- !app_assoc, (H n) by lia. now rewrite IHl. }
      rewrite I. f_equal.
      assert (T : max_depth_loop max (d + 1) (TEndObj :: ts) = TEndObj :: max_depth_loop max d ts).
      { cbn [max_depth_loop]. replace (d + 1 - 1) with d by lia.
        replace (d <=? max) with true by (symmetry; apply Z.leb_le; lia).
        rewrite andb_false_r. cbn [app]. now rewrite Z.add_0_r. }
      destruct e; cbn [elision app]; [|exact T].
      cbn [max_depth_loop]. replace (d + 1 <=? max) with true by (symmetry; apply Z.leb_le; lia).
      rewrite andb_false_r. cbn [app]. rewrite Z.add_0_r. fold (max_depth_loop max). now rewrite <- T.
Qed.

(** C23: for every stream of values and every depth. *)
Theorem C23_truncates_at_depth :
  forall (n : nat) (vs : list jval),
    max_depth_filter (Z.of_nat n) (stream vs) = stream (map (truncate n) vs).
Proof.
  intros n vs. unfold max_depth_filter, stream. induction vs as [|v vs IH]; [reflexivity|].
  cbn [flat_map map]. rewrite (truncates v n) by lia. now rewrite IH.
Qed.
Print Assumptions C23_truncates_at_depth.

(** A negative depth, which the type int of MaxDepth allows, leaves nothing. *)
Theorem C23_negative_depth :
  forall (max : Z) (vs : list jval), max < 0 -> max_depth_filter max (stream vs) = [].
Proof.
  intros max vs H. unfold max_depth_filter, stream. induction vs as [|v vs IH]; [reflexivity|].
  cbn [flat_map]. rewrite below by lia. exact IH.
Qed.
Print Assumptions C23_negative_depth.

(** The example of the Go documentation, [1, 2, {x: [3, 4], y: 2}], at depths
    0, 1 and 2. *)
Definition num (d : N) : jval := JScalar (new_scalar TNum [d]).
Definition doc_example : jval :=
  JArr [num 49; num 50; JObj [(new_key TStr [34; 120; 34]%N, JArr [num 51; num 52] false);
                              (new_key TStr [34; 121; 34]%N, num 50)] false] false.
Example truncate_0 : truncate 0 doc_example = JArr [] true.
Proof. reflexivity. Qed.
Example truncate_1 : truncate 1 doc_example = JArr [num 49; num 50; JObj [] true] false.
Proof. reflexivity. Qed.
Example truncate_2 : truncate 2 doc_example =
  JArr [num 49; num 50; JObj [(new_key TStr [34; 120; 34]%N, JArr [] true);
                              (new_key TStr [34; 121; 34]%N, num 50)] false] false.
Proof. reflexivity. Qed.
Example filtered : max_depth_filter 1 (stream [doc_example; num 49])
  = [TStartArr; TScalar (new_scalar TNum [49%N]); TScalar (new_scalar TNum [50%N]);
     TStartObj; TElision; TEndObj; TEndArr; TScalar (new_scalar TNum [49%N])].
Proof. reflexivity. Qed.

(** C24, join: the stream of one array that holds the values. *)
Theorem C24_join_makes_one_array :
  forall vs : list jval, join_stream (stream vs) = stream [JArr vs false].
Proof.
  intro vs. unfold join_stream, stream. cbn [flat_map toks elision app]. now rewrite app_nil_r.
Qed.
Print Assumptions C24_join_makes_one_array.

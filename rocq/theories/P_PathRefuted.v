(** Where compiled queries depart from RFC 9535 (C34 to C38): each theorem gives a
    query and a value that are not [tame], with the outcome of the run. *)
From Coq Require Import List ZArith NArith Arith Bool Lia.
From Verif Require Import Base Tokens JsonSpec ScalarSpec IterModel P_Scalar P_Equal SelectModel SelectSpec P_Select CursorModel EqualSpec
  PathModel PathTop PathAst PathSpec PathTame PathStep PathSel CompileModel PathRun P_Path.

(** The run of the query on the values, in the default or the strict mode, ends
    with the result [o]: the tokens written, or a panic. *)
Definition ends find strict (segs : list jsegment) (vs : list jval) (o : res (list token)) : Prop :=
  exists r grow n m, compile strict (JQuery true segs) = Some r /\
    match irun grow m (run_stream find n r) (start (stream vs)) with
    | Ok (_, out) => o = Ok out
    | Panic => o = Panic
    | OutOfFuel => False
    end.
Definition no_find (p t : bytes) : option (nat * nat) := None.
Ltac run := eexists; exists (fun _ _ => 1%Z), 100, 1000; (split; [reflexivity|vm_compute; reflexivity]).

Definition arr (l : list jval) : jval := JArr l false.
Definition one_to_four : jval := arr [arr [num 1; num 2]; arr [num 3; num 4]].
(** The values are JSON values. *)
Ltac cleans := split; [|split];
  [repeat first [apply num_decent; lia | exact (num_decent 1 ltac:(lia)) | apply key_decent; lia | constructor]
  |intros l e m J K; cbn in J; repeat match goal with H : _ \/ _ |- _ => destruct H | H : False |- _ => destruct H | H : _ = _ |- _ => discriminate H end;
     try match goal with H : _ = JObj _ _ |- _ => injection H as <- <- end; cbn in K; repeat match goal with H : _ \/ _ |- _ => destruct H | H : False |- _ => destruct H end; subst m; reflexivity
  |cbn; lia].
Lemma clean_four : clean one_to_four.
Proof. cleans. Qed.

(** The nodelist of queries with indexes, slices and wildcards only. *)
Definition positional (s : jselector) : Prop := match s with JName _ | JFilter _ => False | _ => True end.
Definition positions_of (s : jselector) (x : jval) : list nat :=
  match s, x with
  | JWild, _ => seq 0 (length (children x))
  | JIndex i, JArr l _ => map Z.to_nat (rfc_index i (Z.of_nat (length l)))
  | JSlice a b st, JArr l _ => map Z.to_nat (rfc_slice a b st (length l))
  | _, _ => []
  end.
Definition child_nodes_of (sels : list jselector) (x : jval) : list jval := pick (children x) (flat_map (fun s => positions_of s x) sels).
Definition segment_nodes_of (seg : jsegment) (x : jval) : list jval :=
  match seg with JSegment desc sels => if desc then flat_map (child_nodes_of sels) (descendants x) else child_nodes_of sels x end.
Definition path_of (segs : list jsegment) (x : jval) : list jval := fold_left (fun xs seg => flat_map (segment_nodes_of seg) xs) segs [x].
Section Eval.
  Variable matches : bytes -> bytes -> Prop.
  Variable root : jval.
  Lemma selects_of : forall strict s x is, positional s -> (selects matches strict root s x is <-> is = positions_of s x).
  Proof. intros strict [n| |i|a b st|c] [sc|l e|l e] is P; try destruct P; reflexivity. Qed.
  Lemma child_of : forall strict sels x is, Forall positional sels ->
    (exists iss, each (fun s => selects matches strict root s x) sels iss /\ is = concat iss) <-> is = flat_map (fun s => positions_of s x) sels.
  Proof.
    intros strict sels x is F. revert is. induction F as [|s sels P F IH]; intro is; cbn [flat_map].
    - split; [intros [iss [E ->]]; destruct iss; [reflexivity|destruct E]|intros ->; exists []; split; [exact I|reflexivity]].
    - split.
      + intros [iss [E ->]]. destruct iss as [|i1 iss]; [destruct E|]. destruct E as [E1 E2]. cbn [concat]. f_equal; [now apply (selects_of strict)|]. apply IH. eauto.
      + intros ->. destruct (proj2 (IH _) eq_refl) as [iss [E1 E2]]. exists (positions_of s x :: iss). split; [split; [now apply selects_of|exact E1]|]. cbn [concat]. now rewrite E2.
  Qed.
  Definition plainly (strict : bool) (seg : jsegment) : Prop := match seg with JSegment desc sels => Forall positional sels /\ (desc = true -> strict = true) end.
  Lemma segment_of : forall strict seg x l, plainly strict seg -> (segment_nodes matches strict root seg x l <-> l = segment_nodes_of seg x).
  Proof.
    intros strict [desc sels] x l [F D]. cbn [segment_nodes segment_nodes_of].
    assert (C : forall y r, (exists is, (exists iss, each (fun s => selects matches strict root s y) sels iss /\ is = concat iss) /\ r = pick (children y) is) <-> r = child_nodes_of sels y).
    { intros y r. unfold child_nodes_of. split.
      - intros [is [H ->]]. apply child_of in H; [|exact F]. now subst.
      - intros ->. eexists. split; [now apply child_of|reflexivity]. }
    destruct desc; [|apply C]. rewrite (D eq_refl) in *. rewrite flat_map_concat_map. split.
    - intros [ls [H ->]]. f_equal. apply (forall2_iff _ _ _ (child_nodes_of sels)) in H; [exact H|]. intros y _. apply C.
    - intros ->. eexists. split; [|reflexivity]. apply (forall2_iff _ _ _ (child_nodes_of sels)); [|reflexivity]. intros y _. apply C.
  Qed.
  Lemma nodes_of : forall strict segs x l, Forall (plainly strict) segs -> (nodes matches strict root (JQuery false segs) x l <-> l = path_of segs x).
  Proof.
    intros strict segs x l F. rewrite nodes_path. unfold path_of. generalize [x]. revert l. induction F as [|seg segs P F IH]; intros l xs; cbn [path fold_left]; [reflexivity|].
    rewrite <- IH. rewrite flat_map_concat_map. split.
    - intros [ls [H K]]. apply (forall2_iff _ _ _ (segment_nodes_of seg)) in H; [now subst|]. intros y _ r. now apply segment_of.
    - intro K. exists (map (segment_nodes_of seg) xs). split; [|exact K]. apply (forall2_iff _ _ _ (segment_nodes_of seg)); [|reflexivity]. intros y _ r. now apply segment_of.
  Qed.
End Eval.
Lemma root_nodes_of : forall matches strict segs x l, Forall (plainly strict) segs -> (nodes matches strict x (JQuery true segs) x l <-> l = path_of segs x).
Proof. intros. rewrite <- (nodes_of matches x strict) by assumption. reflexivity. Qed.

(** C34: [$[::-1][ * ]] on [[[1,2],[3,4]]] gives 4, 3, 2, 1 and not 3, 4, 1, 2. *)
Definition reversed : jselector := JSlice None None (-1).
Theorem C34_reversed_refuted : forall matches,
  clean one_to_four /\
  ends no_find false [JSegment false [reversed]; JSegment false [JWild]] [one_to_four] (Ok (stream [num 4; num 3; num 2; num 1])) /\
  forall l, nodes matches false one_to_four (JQuery true [JSegment false [reversed]; JSegment false [JWild]]) one_to_four l <-> l = [num 3; num 4; num 1; num 2].
Proof.
  intro matches. split; [exact clean_four|]. split; [run|]. intro l. rewrite root_nodes_of by (repeat constructor; discriminate). reflexivity.
Qed.
Print Assumptions C34_reversed_refuted.

(** C34, strict mode: [$..[1,0]] on [[[1,2],[3,4]]] gives [[3,4]], 2, 1, 4, 3,
    [[1,2]] and not [[3,4]], [[1,2]], 2, 1, 4, 3. *)
Definition both : list jsegment := [JSegment true [JIndex 1; JIndex 0]].
Theorem C34_strict_order_refuted : forall matches,
  clean one_to_four /\
  ends no_find true both [one_to_four] (Ok (stream [arr [num 3; num 4]; num 2; num 1; num 4; num 3; arr [num 1; num 2]])) /\
  forall l, nodes matches true one_to_four (JQuery true both) one_to_four l <-> l = [arr [num 3; num 4]; arr [num 1; num 2]; num 2; num 1; num 4; num 3].
Proof.
  intro matches. split; [exact clean_four|]. split; [run|]. intro l. rewrite root_nodes_of by (repeat constructor; discriminate). reflexivity.
Qed.
Print Assumptions C34_strict_order_refuted.

(** C35: [$[?@[1,0]]] on [[[1,2],[3]]] does not keep [[3]], which has an item 0. *)
Definition tests : jlogical := JTest (JQuery false [JSegment false [JIndex 1; JIndex 0]]).
Definition two_one : jval := arr [arr [num 1; num 2]; arr [num 3]].
Theorem C35_existence_refuted : forall matches,
  clean two_one /\
  ends no_find false (filter_query tests) [two_one] (Ok (stream [arr [num 1; num 2]])) /\
  holds matches false two_one tests (arr [num 1; num 2]) /\ holds matches false two_one tests (arr [num 3]).
Proof.
  intro matches. split; [cleans|]. split; [run|]. split.
  - exists (num 2), [num 1]. refine (proj2 (nodes_of matches two_one false [JSegment false [JIndex 1; JIndex 0]] _ _ _) _); [repeat constructor; discriminate|reflexivity].
  - exists (num 3), []. refine (proj2 (nodes_of matches two_one false [JSegment false [JIndex 1; JIndex 0]] _ _ _) _); [repeat constructor; discriminate|reflexivity].
Qed.
Print Assumptions C35_existence_refuted.

(** C36: [$[?length(@) == 1]] on [[[1],{"a":1}]] does not keep the object, which
    has one member. *)
Definition length_one : jlogical := JCompare (JValueCall (JCall n_length [JArgQuery (JQuery false [])])) OpEq (JLit (new_scalar TNum [49%N])).
Definition single_object : jval := JObj [(key 97, num 1)] false.
Definition arr_obj : jval := arr [arr [num 1]; single_object].
Theorem C36_length_object_refuted : forall matches,
  clean arr_obj /\
  ends no_find false (filter_query length_one) [arr_obj] (Ok (stream [arr [num 1]])) /\
  holds matches false arr_obj length_one single_object.
Proof.
  intro matches. split; [cleans|]. split; [run|].
  exists (Some (number 1)), (Some (JScalar (new_scalar TNum [49%N]))). split; [|split; [reflexivity|]].
  - left. split; [reflexivity|]. exists (Some single_object). split; [|reflexivity]. right. exists single_object. split; reflexivity.
  - constructor. apply eq_value; [exact (num_decent 1 ltac:(lia))|exact (num_decent 1 ltac:(lia))|reflexivity].
Qed.
Print Assumptions C36_length_object_refuted.

(** C36: [length($[0])] reads the value of [$[0]], which is shared: it is 2 for
    the first item and no longer for the second. *)
Definition length_two : jlogical := JCompare (JValueCall (JCall n_length [JArgQuery (JQuery true [JSegment false [JIndex 0]])])) OpEq (JLit (new_scalar TNum [50%N])).
Theorem C36_length_twice_refuted : forall matches,
  clean one_to_four /\
  ends no_find false (filter_query length_two) [one_to_four] (Ok (stream [arr [num 1; num 2]])) /\
  holds matches false one_to_four length_two (arr [num 1; num 2]) /\ holds matches false one_to_four length_two (arr [num 3; num 4]).
Proof.
  intro matches. split; [exact clean_four|]. split; [run|].
  assert (H : forall y, holds matches false one_to_four length_two y); [|split; apply H]. intro y.
  exists (Some (number 2)), (Some (JScalar (new_scalar TNum [50%N]))). split; [|split; [reflexivity|]].
  - left. split; [reflexivity|]. exists (Some (arr [num 1; num 2])). split; [|reflexivity]. right. exists (arr [num 1; num 2]). split; [|reflexivity].
    change (nodes matches false one_to_four (JQuery true [JSegment false [JIndex 0]]) one_to_four [arr [num 1; num 2]]). rewrite root_nodes_of by (repeat constructor; discriminate). reflexivity.
  - constructor. apply eq_value; [exact (num_decent 2 ltac:(lia))|exact (num_decent 2 ltac:(lia))|reflexivity].
Qed.
Print Assumptions C36_length_twice_refuted.

(** C36: match() takes the leftmost match that Go's regular expressions prefer.
    The pattern a|ab matches ab, but Go finds a first. *)
Definition text (b : bytes) : scalar := new_scalar TStr (34%N :: b ++ [34%N]).
Definition match_ab : jlogical := JTestCall (JCall n_match [JArgQuery (JQuery false []); JArgLit (text [97; 124; 97; 98]%N)]).
Definition ab : jval := JScalar (text [97; 98]%N).
Lemma spelled : forall l, Forall (fun c => (32 <= c < 128 /\ c <> 34 /\ c <> 92)%N) l -> denotes l l.
Proof.
  induction 1 as [|c l [A [B C]] F IH]; [constructor|]. assert (U : utf8 c = [c]) by (unfold utf8; destruct (N.ltb_spec c 128); [reflexivity|lia]).
  pose proof (dn_char c l l ltac:(unfold unicode; lia) ltac:(lia) B C IH) as H. rewrite U in H. exact H.
Qed.
Definition pattern : bytes := [97; 124; 97; 98]%N.
(** What Go answers for this pattern and this string. *)
Definition find_a (p t : bytes) : option (nat * nat) :=
  if bytes_eqb p pattern && bytes_eqb t [97; 98]%N then Some (0, 1) else None.
Theorem C36_match_refuted : forall (matches : bytes -> bytes -> Prop), matches pattern [97; 98]%N ->
  ends find_a false (filter_query match_ab) [arr [ab]] (Ok []) /\ holds matches false (arr [ab]) match_ab ab.
Proof.
  intros matches M. split; [run|].
  exists (Some ab), (Some (JScalar (text pattern))). split; [|split; [reflexivity|]].
  - right. exists ab. split; reflexivity.
  - left. split; [reflexivity|]. exists [97; 98]%N, pattern. split; [|split; [|exact M]].
    + exists [97; 98]%N. split; [|reflexivity]. split; [reflexivity|]. exists [97; 98]%N. split; [reflexivity|].
      apply spelled. repeat (constructor; [lia|]). constructor.
    + exists pattern. split; [|reflexivity]. split; [reflexivity|]. exists pattern. split; [reflexivity|].
      apply spelled. repeat (constructor; [lia|]). constructor.
Qed.
Print Assumptions C36_match_refuted.

(** C37: [$[?$[5] == 1]] panics on an array of less than 6 items; so does
    [$[?$ == 1]] on a scalar. *)
Definition compare_root (l : list jstep) : jlogical := JCompare (JSing (JSingular true l)) OpEq (JLit (new_scalar TNum [49%N])).
Theorem C37_missing_value_refuted : clean (arr [num 1]) /\ ends no_find false (filter_query (compare_root [JStepIndex 5])) [arr [num 1]] Panic.
Proof. split; [cleans|run]. Qed.
Theorem C37_scalar_root_refuted : clean (num 1) /\ ends no_find false (filter_query (compare_root [])) [num 1] Panic.
Proof. split; [cleans|run]. Qed.
Print Assumptions C37_missing_value_refuted.

(** C38: [$[::-1]] on [[[1],[2]]] does not write the tokens of values. *)
Theorem C38_reversed_refuted : clean (arr [arr [num 1]; arr [num 2]]) /\
  exists out, ends no_find false [JSegment false [reversed]] [arr [arr [num 1]; arr [num 2]]] (Ok out) /\ forall ws, out <> stream ws.
Proof.
  split; [cleans|]. eexists. split; [run|]. intros ws E. pose proof (parse_stream_ok ws (S (length (stream ws))) ltac:(lia)) as P. rewrite <- E in P. vm_compute in P. discriminate.
Qed.
Print Assumptions C38_reversed_refuted.

(** C34, C38 and C56 for descendant segments with several selectors: which nodes
    are written, whatever their order. *)
From Coq Require Import List ZArith NArith Arith Bool Lia Permutation.
From Verif Require Import Base Tokens JsonSpec IterModel P_Scalar P_Equal SelectModel SelectSpec P_Select CursorModel EqualSpec
  PathModel PathTop PathAst PathSpec PathTame PathStep PathSel CompileModel PathRun P_Path PathRfc PathBagRun PathBagRfc PathOrder P_PathRefuted P_PathTypes.
Import ListNotations.

(** The queries and values that are [tame] (PathTame.v), but descendant segments
    outside of filters may have several selectors. *)
Definition tame_any matches find (strict : bool) (q : jquery) (x : jval) : Prop :=
  tame_query matches find strict x q x /\
  inner_query
    (fun sq => ~ scalar_node x /\ match sq with JSingular _ l => Forall safe_step l end /\ exists y, singular_node x sq x (Some y))
    (fun q' => ~ scalar_node x /\ simple q' /\ tame_query matches find strict x q' x /\
               forall l, nodes matches strict x q' x l -> (Z.of_nat (length (stream l)) < maxint)%Z) q.

Lemma tame_tame_any : forall matches find strict q x, tame matches find strict q x -> tame_any matches find strict q x.
Proof. intros matches find strict q x [_ T]. exact T. Qed.
(** With or without -strict, the same queries and values are tame. *)
Lemma tame_any_modes : forall matches find st st' q x, tame_any matches find st q x -> tame_any matches find st' q x.
Proof.
  intros matches find st st' q x [T I]. split; [eapply tame_all; exact T|]. eapply inner_impl; [| |exact I].
  - auto.
  - intros q' (A & B & C & D). split; [exact A|]. split; [exact B|]. split; [eapply tame_all; exact C|].
    intros l N. destruct (proj1 (same_all matches x) q' st' st x l N) as [l' [N' P]]. rewrite (stream_perm _ _ P). auto.
Qed.

Lemma forall2_length : forall (A B : Type) (R : A -> B -> Prop) l l', Forall2 R l l' -> length l = length l'.
Proof. intros A B R l l' F. induction F; cbn; congruence. Qed.
Lemma stream_concat : forall outs, flat_map stream outs = stream (concat outs).
Proof. unfold stream. induction outs as [|l outs IH]; [reflexivity|]. cbn [flat_map concat]. now rewrite flat_map_app, IH. Qed.

(* ------------------------------------------------------------------ *)
(** C34: all the nodes of the query are written, each as often as it is in the
    nodelist, and nothing else, one value after the other.  Partial: the order is
    not stated; see [C34_rfc9535_partial] for that. *)
Theorem C34_same_nodes_partial : forall matches find strict grow segs r vs,
  let q := JQuery true segs in
  compile strict q = Some r ->
  Forall clean vs -> Forall (tame_any matches find strict q) vs ->
  (Z.of_nat (length (stream vs)) < maxint)%Z ->
  exists lists outs,
    (* the nodelist of the query for each value, *)
    Forall2 (fun x l => forall l', nodes matches strict x q x l' <-> l' = l) vs lists /\
    (* in some order, *)
    Forall2 (@Permutation jval) lists outs /\
    (* one after the other *)
    writes find grow r vs (flat_map stream outs).
Proof.
  intros matches find strict grow segs r vs q E C T L.
  assert (H : Forall (fun x => fine_program find r x /\ exists l0, (forall l, nodes matches strict x q x l <-> l = l0) /\ Permutation l0 (main_values find r x)) vs).
  { rewrite Forall_forall in *. intros x J. apply program_ok; auto. exact (T x J). }
  assert (X : exists lists, Forall2 (fun x l => forall l', nodes matches strict x q x l' <-> l' = l) vs lists /\ Forall2 (@Permutation jval) lists (map (main_values find r) vs)).
  { clear - H. induction H as [|x vs [_ [l0 [A B]]] F [ls [IH1 IH2]]]; [exists []; split; constructor|]. exists (l0 :: ls). split; constructor; auto. }
  destruct X as [ls [A B]]. exists ls, (map (main_values find r) vs). split; [exact A|]. split; [exact B|].
  destruct (run_program_stream find grow r vs) as [N K]; [|exact L|].
  - eapply Forall_impl; [|exact H]. intros x [F _]. exact F.
  - exists N. intros n LN. destruct (K n LN) as [n0 [h' R]]. exists n0, h'. intros m LM. rewrite (R m LM). do 2 f_equal. rewrite !flat_map_concat_map. now rewrite map_map.
Qed.
Print Assumptions C34_same_nodes_partial.

(** C37, C38: no panic, and tokens of values. *)
Theorem C38_all_selectors_partial : forall matches find strict grow segs r vs,
  compile strict (JQuery true segs) = Some r ->
  Forall clean vs -> Forall (tame_any matches find strict (JQuery true segs)) vs ->
  (Z.of_nat (length (stream vs)) < maxint)%Z ->
  exists ws, writes find grow r vs (stream ws).
Proof.
  intros matches find strict grow segs r vs E C T L. destruct (C34_same_nodes_partial matches find strict grow segs r vs E C T L) as [ls [outs [_ [_ W]]]].
  exists (concat outs). rewrite <- stream_concat. exact W.
Qed.
Print Assumptions C38_all_selectors_partial.

(** C56: with and without -strict the same results are written for each value of
    the input, in a different order perhaps. *)
Theorem C56_strict_changes_order_only_partial : forall matches find grow grow' segs r vs,
  compile false (JQuery true segs) = Some r ->
  Forall clean vs -> Forall (tame_any matches find false (JQuery true segs)) vs ->
  (Z.of_nat (length (stream vs)) < maxint)%Z ->
  exists r' outs outs',
    compile true (JQuery true segs) = Some r' /\
    length outs = length vs /\
    Forall2 (@Permutation jval) outs outs' /\
    writes find grow r vs (flat_map stream outs) /\
    writes find grow' r' vs (flat_map stream outs').
Proof.
  intros matches find grow grow' segs r vs E C T L.
  assert (X : exists r', compile true (JQuery true segs) = Some r').
  { apply C40_compiles_iff_well_typed. eapply C40_compiles_iff_well_typed. exists r. exact E. }
  destruct X as [r' E'].
  destruct (C34_same_nodes_partial matches find false grow segs r vs E C T L) as [ls [outs [A [B W]]]].
  assert (T' : Forall (tame_any matches find true (JQuery true segs)) vs).
  { eapply Forall_impl; [|exact T]. intros x. apply tame_any_modes. }
  destruct (C34_same_nodes_partial matches find true grow' segs r' vs E' C T' L) as [ls' [outs' [A' [B' W']]]].
  exists r', outs, outs'. split; [exact E'|]. split; [|split; [|split; assumption]].
  - apply forall2_length in A. apply forall2_length in B. congruence.
  - assert (P : Forall2 (@Permutation jval) ls ls').
    { clear - A A'. revert ls' A'. induction A as [|x l vs ls H A IH]; intros ls' A'; inversion A' as [|? l' ? ls1 H' A1]; subst; constructor; auto.
      destruct (proj1 (same_all matches x) (JQuery true segs) false true x l (proj2 (H l) eq_refl)) as [l1 [N1 P1]]. apply H' in N1. now subst l1. }
    clear - P B B'. revert ls' outs' P B'. induction B as [|l o ls outs H B IH]; intros ls' outs' P B'; inversion P; subst; inversion B'; subst; constructor; [|eauto].
    etransitivity; [symmetry; eassumption|]. etransitivity; eassumption.
Qed.
Print Assumptions C56_strict_changes_order_only_partial.

(** A query and a value that meet the hypotheses: [$..[1,0]] on [[[1,2],[3,4]]];
    the two orders differ. *)
Example ex_both : exists r r',
  compile false (JQuery true both) = Some r /\ compile true (JQuery true both) = Some r' /\
  clean one_to_four /\ (forall matches, tame_any matches no_find false (JQuery true both) one_to_four) /\
  ends no_find false both [one_to_four] (Ok (stream [num 2; num 1; arr [num 3; num 4]; num 4; num 3; arr [num 1; num 2]])) /\
  ends no_find true both [one_to_four] (Ok (stream [arr [num 3; num 4]; num 2; num 1; num 4; num 3; arr [num 1; num 2]])).
Proof.
  eexists. eexists. split; [reflexivity|]. split; [reflexivity|]. split; [exact clean_four|]. split; [|split; [|run]].
  - intro matches. split; [|cbn; tauto]. split; [|split; [discriminate|intros l _ y _; exact Logic.I]].
    intros y _. split; [unfold safe; cbn; lia|]. split; [unfold safe; cbn; lia|exact Logic.I].
  - run.
Qed.

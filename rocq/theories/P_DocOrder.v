(** C57: in the default mode the results come in the order of the document. *)
From Coq Require Import List ZArith NArith Arith Bool Lia Sorted Permutation.
From Verif Require Import Base Tokens JsonSpec IterModel P_Scalar P_Equal SelectModel SelectSpec P_Select CursorModel EqualSpec
  PathModel PathTop PathAst PathSpec PathTame PathMarks PathStep PathInd PathSel CompileModel PathRun P_Path P_PathRefuted.
Import ListNotations.

(* ------------------------------------------------------------------ *)
(** Specification.  The place of a value in a document: which child to take at
    each level. *)
Fixpoint value_at (x : jval) (place : list nat) : option jval :=
  match place with
  | [] => Some x
  | i :: p => match nth_error (children x) i with Some y => value_at y p | None => None end
  end.
(** The value at [p] starts before the one at [q]: it contains it, or it is in an
    earlier child of a value that contains both. *)
Inductive before : list nat -> list nat -> Prop :=
| before_inside : forall i q, before [] (i :: q)
| before_left : forall i j p q, i < j -> before (i :: p) (j :: q)
| before_below : forall i p q, before p q -> before (i :: p) (i :: q).
(** The values [l] are at different places of [x], and in the order of these. *)
Definition in_order (x : jval) (l : list jval) : Prop :=
  exists places, Forall2 (fun p y => value_at x p = Some y) places l /\ StronglySorted before places.
(** Segments with one selector, and [..] in the last one only. *)
Fixpoint ordered (segs : list jsegment) : Prop :=
  match segs with
  | [] => True
  | [seg] => plain_segment seg
  | JSegment desc sels :: rest => desc = false /\ single sels /\ ordered rest
  end.

(* ------------------------------------------------------------------ *)
Inductive apart : list nat -> list nat -> Prop :=
| apart_left : forall i j p q, i < j -> apart (i :: p) (j :: q)
| apart_below : forall i p q, apart p q -> apart (i :: p) (i :: q).
Lemma apart_app : forall p q, apart p q -> forall a b, apart (p ++ a) (q ++ b).
Proof. intros p q H. induction H; intros a b; cbn; [now apply apart_left|]. apply apart_below. auto. Qed.
Lemma apart_before : forall p q, apart p q -> before p q.
Proof. intros p q H. induction H; [now apply before_left|now apply before_below]. Qed.
Lemma before_app : forall p a b, before a b -> before (p ++ a) (p ++ b).
Proof. induction p; cbn; intros; [assumption|]. apply before_below. auto. Qed.
Lemma apart_last : forall p i j, i < j -> apart (p ++ [i]) (p ++ [j]).
Proof. induction p; cbn; intros; [now apply apart_left|apply apart_below; auto]. Qed.
Lemma value_at_app : forall p x q, value_at x (p ++ q) = match value_at x p with Some y => value_at y q | None => None end.
Proof. induction p as [|i p IH]; intros x q; cbn [app value_at]; [reflexivity|]. destruct (nth_error (children x) i); [apply IH|reflexivity]. Qed.

Section Sorted.
Context {A : Type}.
Variable R : A -> A -> Prop.
Lemma sorted_app : forall l l', StronglySorted R l -> StronglySorted R l' -> (forall a b, In a l -> In b l' -> R a b) -> StronglySorted R (l ++ l').
Proof.
  intros l l' S1 S2 H. induction S1 as [|a l S1 IH F]; cbn [app]; [exact S2|]. constructor.
  - apply IH. intros b c B. apply H. now right.
  - apply Forall_app. split; [exact F|]. apply Forall_forall. intros b B. apply H; [now left|exact B].
Qed.
Lemma sorted_map : forall B (f : B -> A) (Q : B -> B -> Prop) l, (forall a b, Q a b -> R (f a) (f b)) -> StronglySorted Q l -> StronglySorted R (map f l).
Proof.
  intros B f Q l H S1. induction S1 as [|a l S1 IH F]; cbn [map]; constructor; [exact IH|]. apply Forall_forall. intros b J. apply in_map_iff in J as [c [<- J]]. rewrite Forall_forall in F. auto.
Qed.
End Sorted.

(** Selected positions increase. *)
Lemma kept_from : forall A (P : A -> Prop) i l is, kept P i l is -> StronglySorted lt is /\ Forall (fun j => i <= j) is.
Proof.
  intros A P i l is K. induction K as [i|i a l is H K [S1 F]|i a l is H K [S1 F]].
  - split; constructor.
  - split; constructor; [exact S1| |lia|]; eapply Forall_impl; [|exact F| |exact F]; cbn; intros; lia.
  - split; [exact S1|]. eapply Forall_impl; [|exact F]. cbn; intros; lia.
Qed.
Lemma seq_sorted : forall n i, StronglySorted lt (seq i n).
Proof. induction n as [|n IH]; intro i; cbn [seq]; constructor; [apply IH|]. apply Forall_forall. intros j J. apply in_seq in J. lia. Qed.
Lemma selects_sorted : forall matches strict root s x is, forward s = true -> selects matches strict root s x is -> StronglySorted lt is.
Proof.
  intros matches strict root [name| |i|start stop step|c] x is F H; cbn [selects] in H.
  - destruct x as [s|l e|l e]; try (subst; constructor). eapply kept_from; exact H.
  - change (is = seq 0 (length (children x))) in H. subst. apply seq_sorted.
  - destruct x as [s|l e|l e]; try (subst; constructor). subst. unfold rfc_index. destruct (_ && _); cbn; repeat constructor.
  - destruct x as [s|l e|l e]; try (subst; constructor). subst. cbn [forward] in F. apply Z.leb_le in F. unfold rfc_slice. destruct (bounds start stop step (Z.of_nat (length l))) as [lower upper] eqn:B.
    destruct (Z.ltb_spec 0 step) as [L|L]; [|destruct (Z.ltb_spec step 0); [lia|constructor]].
    assert (LO : (0 <= lower)%Z). { unfold bounds in B. replace (0 <=? step)%Z with true in B by (symmetry; apply Z.leb_le; lia). injection B as <- _. lia. }
    destruct (go_up_sorted (length l) lower upper step L) as [S1 G]. revert S1 G. generalize (go_up (length l) lower upper step). clear - LO.
    intros zs S1 G. induction S1 as [|z zs S1 IH F]; cbn [map]; constructor.
    + apply IH. intros j J. apply G. now right.
    + apply Forall_forall. intros n J. apply in_map_iff in J as [y [<- J]]. rewrite Forall_forall in F. specialize (F y J). specialize (G z (or_introl eq_refl)). lia.
  - change (kept (holds matches strict root c) 0 (children x) is) in H. eapply kept_from; exact H.
Qed.
Lemma chosen_sorted : forall matches strict root sels x is, single sels ->
  (exists iss, each (fun s => selects matches strict root s x) sels iss /\ is = concat iss) -> StronglySorted lt is.
Proof.
  intros matches strict root [|s [|]] x is F [iss [E ->]]; try contradiction. destruct iss as [|is [|]]; cbn [each] in E; try tauto. cbn [concat]. rewrite app_nil_r. eapply selects_sorted; [exact F|exact (proj1 E)].
Qed.

(** The children at increasing positions. *)
Lemma pick_order : forall (l : list jval) is, StronglySorted lt is -> exists js, StronglySorted lt js /\ incl js is /\ Forall2 (fun j y => nth_error l j = Some y) js (pick l is).
Proof.
  intros l is S1. induction S1 as [|i is S1 [js [A [B C]]] F]; [exists []; repeat split; try constructor; intros a []|]. unfold pick. cbn [flat_map]. fold (pick l is). destruct (nth_error l i) as [y|] eqn:E.
  - exists (i :: js). split; [|split].
    + constructor; [exact A|]. rewrite Forall_forall in *. auto.
    + intros j [->|J]; [now left|right; auto].
    + cbn [app]. constructor; auto.
  - exists js. split; [exact A|]. split; [|exact C]. intros j J. right; auto.
Qed.

(** What is selected below a value. *)
Definition inside (x : jval) (l : list jval) (i : nat) : Prop :=
  exists places, Forall2 (fun p y => value_at x p = Some y) places l /\ StronglySorted before places /\
    Forall (fun p => match p with j :: _ => i <= j | [] => False end) places.
Lemma merge_order : forall x is, NoDup is -> forall l below i, skipn i (children x) = l -> Forall2 (fun y b => inside y b 0) l below -> inside x (merge i is l below) i.
Proof.
  intros x is ND. induction l as [|y l IH]; intros below i E F; inversion F as [|? b ? below' H F']; subst; cbn [merge]; [exists []; repeat split; constructor|].
  assert (N : nth_error (children x) i = Some y).
  { clear - E. revert i E. induction (children x) as [|z zs IHz]; intros [|i] E; cbn in *; try discriminate; [now injection E as -> _|auto]. }
  assert (E' : skipn (S i) (children x) = l).
  { clear - E. revert i E. induction (children x) as [|z zs IHz]; intros [|i] E; cbn [skipn] in *; try discriminate; [now injection E as _ ->|exact (IHz i E)]. }
  destruct (IH below' (S i) E' F') as [rest [R1 [R2 R3]]]. destruct H as [ps [P1 [P2 P3]]].
  set (here := repeat [i] (count_occ Nat.eq_dec is i)).
  assert (C : here = [] \/ here = [[i]]).
  { unfold here. pose proof (proj1 (NoDup_count_occ Nat.eq_dec is) ND i). destruct (count_occ Nat.eq_dec is i) as [|[|]]; [now left|now right|lia]. }
  exists (here ++ map (cons i) ps ++ rest). split; [|split].
  - apply Forall2_app; [|apply Forall2_app; [|exact R1]].
    + unfold here. clear - N. induction (count_occ Nat.eq_dec is i); cbn [repeat]; constructor; [|assumption]. cbn [value_at]. now rewrite N.
    + clear - P1 N. induction P1 as [|p z ps b H P1 IH]; cbn [map]; constructor; [|exact IH]. cbn [value_at]. now rewrite N.
  - assert (T : StronglySorted before (map (cons i) ps ++ rest)).
    { apply sorted_app; [eapply sorted_map; [|exact P2]; intros; now apply before_below|exact R2|].
      intros a c J K. apply in_map_iff in J as [a' [<- J]]. rewrite Forall_forall in R3. specialize (R3 c K). destruct c as [|j c]; [contradiction|]. apply before_left. lia. }
    destruct C as [-> | ->]; [exact T|]. cbn [app]. constructor; [exact T|]. apply Forall_app. split; apply Forall_forall; intros c J.
    + apply in_map_iff in J as [c' [<- J]]. rewrite Forall_forall in P3. specialize (P3 c' J). destruct c'; [contradiction|]. apply before_below, before_inside.
    + rewrite Forall_forall in R3. specialize (R3 c J). destruct c as [|j c]; [contradiction|]. apply before_left. lia.
  - apply Forall_app. split; [destruct C as [-> | ->]; repeat constructor|]. apply Forall_app. split.
    + apply Forall_forall. intros c J. apply in_map_iff in J as [c' [<- J]]. lia.
    + eapply Forall_impl; [|exact R3]. intros [|j c]; [auto|lia].
Qed.
Lemma walk_order : forall (R : jval -> list nat -> Prop), (forall x is, R x is -> StronglySorted lt is) -> forall x l, walk R x l -> inside x l 0.
Proof.
  intros R HR x. induction x as [x IH] using children_ind. intros l W. inversion W as [? is below C F]; subst. apply merge_order; [|reflexivity|].
  - specialize (HR _ _ C). clear - HR. induction HR as [|i is S1 IH F]; constructor; [|exact IH]. intro J. rewrite Forall_forall in F. specialize (F i J). lia.
  - assert (IH' : forall y, In y (children x) -> forall l, walk R y l -> inside y l 0) by auto. clear - F IH'. induction F as [|y b ys below H1 F IHF]; constructor; [apply IH'; [now left|exact H1]|]. apply IHF. intros z Z. apply IH'. now right.
Qed.

(** Several values, none inside another. *)
Definition side_by_side (x : jval) (l : list jval) : Prop :=
  exists places, Forall2 (fun p y => value_at x p = Some y) places l /\ StronglySorted apart places.
Section Steps.
Variable x : jval.
Variable R : jval -> list jval -> Prop.
(** Each value is replaced with values inside it. *)
Lemma spread : forall (Q Q' : list nat -> list nat -> Prop) (ok : list nat -> list nat -> Prop),
  (forall p a b, Q a b -> Q' (p ++ a) (p ++ b)) -> (forall p q a b, apart p q -> Q' (p ++ a) (q ++ b)) ->
  (forall y l, R y l -> exists places, Forall2 (fun p z => value_at y p = Some z) places l /\ StronglySorted Q places) ->
  forall ps ys, Forall2 (fun p y => value_at x p = Some y) ps ys -> StronglySorted apart ps -> forall ls, Forall2 R ys ls ->
  exists places, Forall2 (fun p y => value_at x p = Some y) places (concat ls) /\ StronglySorted Q' places /\ Forall (fun p => exists q a, In q ps /\ p = q ++ a) places.
Proof.
  intros Q Q' _ HQ HA HR ps ys F. induction F as [|p y ps ys H F IH]; intros S1 ls G; inversion G as [|? l ? ls' H1 G']; subst; cbn [concat]; [exists []; repeat split; constructor|].
  inversion S1 as [|? ? S2 F2]; subst. destruct (IH S2 ls' G') as [rest [R1 [R2 R3]]]. destruct (HR y l H1) as [here [L1 L2]].
  exists (map (app p) here ++ rest). split; [|split].
  - apply Forall2_app; [|exact R1]. clear - L1 H. induction L1 as [|a z here l E L1 IH]; cbn [map]; constructor; [|exact IH]. now rewrite value_at_app, H.
  - apply sorted_app; [eapply sorted_map; [|exact L2]; intros; now apply HQ|exact R2|].
    intros a c J K. apply in_map_iff in J as [a' [<- J]]. rewrite Forall_forall in R3. destruct (R3 c K) as [q [c' [J' ->]]]. apply HA. rewrite Forall_forall in F2. auto.
  - apply Forall_app. split.
    + apply Forall_forall. intros c J. apply in_map_iff in J as [c' [<- J]]. exists p, c'. split; [now left|reflexivity].
    + eapply Forall_impl; [|exact R3]. intros c [q [a [J ->]]]. exists q, a. split; [now right|reflexivity].
Qed.
End Steps.

Section Path.
Variable matches : bytes -> bytes -> Prop.
Variable root : jval.
Lemma path_order : forall segs x xs l, ordered segs -> side_by_side x xs -> path matches false root segs xs l -> in_order x l.
Proof.
  induction segs as [|[desc sels] segs IH]; intros x xs l O [ps [F S1]] H; cbn [path] in H.
  - subst l. exists ps. split; [exact F|]. clear - S1. induction S1; constructor; auto. eapply Forall_impl; [|eassumption]. intros. now apply apart_before.
  - destruct H as [ls [G H]].
    assert (SS : single sels) by (destruct segs; cbn [ordered plain_segment] in O; tauto).
    assert (ST := fun y is => chosen_sorted matches false root sels y is SS).
    destruct desc.
    + destruct segs as [|seg segs]; [|cbn [ordered] in O; destruct O; discriminate]. cbn [path] in H. subst l.
      destruct (spread x (segment_nodes matches false root (JSegment true sels)) before before (fun _ _ => True)) with (ps := ps) (ys := xs) (ls := ls) as [places [A [B _]]]; auto.
      * intros. now apply before_app.
      * intros. now apply apart_before, apart_app.
      * intros y l0 W. change (walk (fun x is => exists iss, each (fun s => selects matches false root s x) sels iss /\ is = concat iss) y l0) in W. destruct (walk_order _ ST y l0 W) as [places [A [B _]]]. exists places. auto.
      * exists places. auto.
    + apply (IH x (concat ls)); [destruct segs; [exact Logic.I|cbn [ordered] in O; tauto]| |exact H].
      destruct (spread x (segment_nodes matches false root (JSegment false sels)) apart apart (fun _ _ => True)) with (ps := ps) (ys := xs) (ls := ls) as [places [A [B _]]]; auto.
      * intros p a b AB. clear - AB. induction p; cbn; [exact AB|now apply apart_below].
      * intros. now apply apart_app.
      * intros y l0 [is [C ->]]. destruct (pick_order (children y) is (ST y is C)) as [js [A [_ B]]]. exists (map (fun j => [j]) js). split.
        -- clear - B. induction B as [|j z js l E B IH]; cbn [map]; constructor; [|exact IH]. cbn [value_at]. now rewrite E.
        -- eapply sorted_map; [|exact A]. intros a b L. now apply apart_left.
      * exists places. auto.
Qed.
End Path.

(** C57.  Partial: queries with one selector in each segment and [..] in the last
    one only; [C57_descendant_first_refuted] shows that it does not hold for all. *)
Theorem C57_document_order_partial : forall matches find grow segs r vs,
  let q := JQuery true segs in
  compile false q = Some r -> ordered segs ->
  Forall clean vs -> Forall (tame matches find false q) vs ->
  (Z.of_nat (length (stream vs)) < maxint)%Z ->
  exists outs,
    (* the results for each value are the nodes of the query, *)
    Forall2 (fun x l => forall l', nodes matches false x q x l' <-> l' = l) vs outs /\
    (* in the order of the document, *)
    Forall2 in_order vs outs /\
    (* one after the other *)
    writes find grow r vs (flat_map stream outs).
Proof.
  intros matches find grow segs r vs q E O C T L. destruct (path_runs matches find false grow segs r vs E C T L) as [outs [F W]]. exists outs. split; [exact F|]. split; [|exact W].
  unfold q in F. clear - F O. induction F as [|x l vs outs H F IH]; constructor; [|exact IH].
  assert (N := proj2 (H l) eq_refl). rewrite nodes_path in N. eapply path_order; [exact O| |exact N].
  exists [[]]. split; repeat constructor.
Qed.
Print Assumptions C57_document_order_partial.

(** A query and a value that meet the hypotheses: [$.a..[ * ]] on
    [{"a":{"b":{"c":1},"d":2}}] gives [{"c":1}], 1 and 2. *)
Definition deep : jval := JObj [(key 97, JObj [(key 98, JObj [(key 99, num 1)] false); (key 100, num 2)] false)] false.
Definition deep_query : list jsegment := [JSegment false [JName [97%N]]; JSegment true [JWild]].
Example ex_deep : ordered deep_query /\ clean deep /\ (forall matches, tame matches no_find false (JQuery true deep_query) deep) /\
  ends no_find false deep_query [deep] (Ok (stream [JObj [(key 99, num 1)] false; num 1; num 2])).
Proof.
  split; [repeat split|]. split; [|split; [|run]].
  - split; [|split].
    + repeat first [apply num_decent; lia | apply key_decent; lia | apply key_differ; [lia|lia|vm_compute; reflexivity] | constructor].
    + intros l e m J K. cbn in J. repeat match goal with H : _ \/ _ |- _ => destruct H | H : False |- _ => destruct H end;
        match goal with H : _ = JObj _ _ |- _ => try discriminate H; injection H as <- <- end; cbn in K; repeat match goal with H : _ \/ _ |- _ => destruct H | H : False |- _ => destruct H end; subst m; reflexivity.
    + cbn. lia.
  - intro matches. split; [repeat constructor|]. split; [|cbn; tauto]. split; [exact (conj Logic.I Logic.I)|]. split; [discriminate|]. intros l _ y _. split; [intros z _; exact (conj Logic.I Logic.I)|]. split; [discriminate|]. intros l' _ z _. exact Logic.I.
Qed.

(** [$..a.b] on [{"a":{"a":{"b":1},"b":2}}] gives 2 before 1. *)
Definition nested : jval := JObj [(key 97, JObj [(key 97, JObj [(key 98, num 1)] false); (key 98, num 2)] false)] false.
Definition nested_query : list jsegment := [JSegment true [JName [97%N]]; JSegment false [JName [98%N]]].
Theorem C57_descendant_first_refuted :
  clean nested /\
  ends no_find false nested_query [nested] (Ok (stream [num 2; num 1])) /\ ~ in_order nested [num 2; num 1].
Proof.
  split; [|split; [run|]].
  - split; [|split].
    + repeat first [apply num_decent; lia | apply key_decent; lia | apply key_differ; [lia|lia|vm_compute; reflexivity] | constructor].
    + intros l e m J K. cbn in J. repeat match goal with H : _ \/ _ |- _ => destruct H | H : False |- _ => destruct H end;
        match goal with H : _ = JObj _ _ |- _ => try discriminate H; injection H as <- <- end; cbn in K; repeat match goal with H : _ \/ _ |- _ => destruct H | H : False |- _ => destruct H end; subst m; reflexivity.
    + cbn. lia.
  - assert (ONE : forall p, value_at nested p = Some (num 1) -> p = [0; 0; 0]).
    { intros p. destruct p as [|[|i] p]; cbn; try discriminate; [|destruct i; discriminate]. destruct p as [|[|[|i]] p]; cbn; try discriminate.
      - destruct p as [|[|i] p]; cbn; try discriminate; [|destruct i; discriminate]. destruct p as [|j p]; [reflexivity|]. cbn. destruct j; discriminate.
      - destruct p as [|j p]; cbn; [discriminate|]. destruct j; discriminate.
      - destruct i; discriminate. }
    assert (TWO : forall p, value_at nested p = Some (num 2) -> p = [0; 1]).
    { intros p. destruct p as [|[|i] p]; cbn; try discriminate; [|destruct i; discriminate]. destruct p as [|[|[|i]] p]; cbn; try discriminate.
      - destruct p as [|[|i] p]; cbn; try discriminate; [|destruct i; discriminate]. destruct p as [|j p]; [discriminate|]. cbn. destruct j; discriminate.
      - destruct p as [|j p]; cbn; [reflexivity|]. destruct j; discriminate.
      - destruct i; discriminate. }
    intros [ps [F S1]]. inversion F as [|p ? ps1 ? H F1]; subst. inversion F1 as [|p2 ? ps2 ? H2 F2]; subst. inversion F2; subst.
    apply TWO in H. apply ONE in H2. subst. inversion S1 as [|? ? _ G]; subst. inversion G as [|? ? B _]; subst.
    inversion B as [|? ? ? ? L|? ? ? B']; subst; [lia|]. inversion B' as [|? ? ? ? L|? ? ? B'']; subst. lia.
Qed.
Print Assumptions C57_descendant_first_refuted.

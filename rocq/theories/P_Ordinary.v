(** C34, C35, C37, C38: queries for which nothing has to be assumed of the values
    but that they are JSON values, and nothing of regular expressions. *)
From Coq Require Import List ZArith NArith Arith Bool Lia Sorted.
From Verif Require Import Base Tokens JsonSpec IterModel P_Scalar P_Equal SelectModel SelectSpec P_Select CursorModel EqualSpec
  PathModel PathTop PathAst PathSpec PathTame PathMarks PathStep PathInd PathSel CompileModel PathRun P_Path P_PathRefuted P_DocOrder.
Import ListNotations.

(* ------------------------------------------------------------------ *)
(** Specification: ordinary queries.  No slices that go down, slices with a step
    other than 1 start at a position counted from the front, descendant segments
    have one selector.  Filters may use comparisons of literals, of singular
    queries that start at the current node and of count(), existence tests, and
    ||, && and !; the queries of existence tests and of count() start at the
    current node and have one selector in each segment, those of count() have no
    descendant segments.  [decent] (P_Scalar.v) says that a literal has a value. *)
Definition child_segment (seg : jsegment) : Prop := match seg with JSegment desc _ => desc = false end.
Definition child_only (q : jquery) : Prop := match q with JQuery _ segs => Forall child_segment segs end.
Fixpoint ordinary (q : jquery) : Prop :=
  match q with JQuery _ segs => all ordinary_segment segs end
with ordinary_segment (seg : jsegment) : Prop :=
  match seg with JSegment desc sels => (desc = true -> length sels = 1) /\ all ordinary_selector sels end
with ordinary_selector (s : jselector) : Prop :=
  match s with
  | JName _ => True
  | JWild => True
  | JIndex i => safe i
  | JSlice start stop step =>
      safe_opt start /\ safe_opt stop /\ (0 <= step)%Z /\ (step = 1%Z \/ match start with Some a => (0 <= a)%Z | None => True end)
  | JFilter c => ordinary_logical c
  end
with ordinary_logical (c : jlogical) : Prop :=
  match c with
  | JOr l => all ordinary_logical l
  | JAnd l => all ordinary_logical l
  | JNot c' => ordinary_logical c'
  | JCompare a _ b => ordinary_value a /\ ordinary_value b
  | JTest q => absolute q = false /\ plain q /\ ordinary q
  | JTestCall _ => False
  end
with ordinary_value (a : jcomparable) : Prop :=
  match a with
  | JLit s => decent s
  | JSing (JSingular root l) => root = false /\ Forall safe_step l
  | JValueCall f => ordinary_call f
  end
with ordinary_call (f : jcall) : Prop :=
  match f with
  | JCall name args => name = n_count /\ all ordinary_arg args
  end
with ordinary_arg (a : jarg) : Prop :=
  match a with
  | JArgQuery q => absolute q = false /\ plain q /\ child_only q /\ ordinary q
  | _ => False
  end.

(* ------------------------------------------------------------------ *)
Lemma all_forall : forall A (P : A -> Prop) l, all P l <-> Forall P l.
Proof. intros A P. induction l as [|a l IH]; cbn [all]; [split; constructor|]. rewrite IH. split; [intros []; now constructor|intro H; inversion H; auto]. Qed.

(** The nodes of a query with child segments do not overlap. *)
Definition weight (l : list jval) : nat := length (stream l).
Lemma pick_weight : forall (l : list jval) is, StronglySorted lt is -> forall i pre, length pre = i -> Forall (fun j => i <= j) is -> weight (pick (pre ++ l) is) <= weight l.
Proof.
  induction l as [|y l IH]; intros is S1 i pre L F.
  - assert (E : pick (pre ++ []) is = []).
    { clear - L F. rewrite app_nil_r. unfold pick. induction F as [|j is H F IH]; [reflexivity|]. cbn [flat_map]. rewrite (proj2 (nth_error_None pre j)) by lia. exact IH. }
    rewrite E. reflexivity.
  - replace (pre ++ y :: l) with ((pre ++ [y]) ++ l) by (now rewrite <- app_assoc). unfold weight at 2. cbn [stream flat_map]. rewrite app_length.
    assert (LP : length (pre ++ [y]) = S i) by (rewrite app_length; cbn; lia).
    destruct S1 as [|j is S1 G].
    + cbn. lia.
    + inversion F as [|? ? H F']; subst. destruct (Nat.eq_dec j (length pre)) as [->|NE].
      * unfold pick. cbn [flat_map]. rewrite nth_error_app1 by (rewrite app_length; cbn; lia). rewrite nth_error_app2 by lia. rewrite Nat.sub_diag. cbn [nth_error app].
        unfold weight. cbn [stream flat_map]. rewrite app_length. apply Nat.add_le_mono_l. apply (IH is S1 _ _ LP). eapply Forall_impl; [|exact G]. cbn. intros; lia.
      * transitivity (weight l); [|unfold weight, stream; lia]. apply (IH _ (SSorted_cons _ S1 G) _ _ LP). constructor; [lia|]. eapply Forall_impl; [|exact G]. cbn. intros; lia.
Qed.
Lemma children_weight : forall x, weight (children x) <= length (toks x).
Proof.
  unfold weight, stream. intros [s|l e|l e]; cbn [children]; [cbn; lia| |]; cbn [toks length]; rewrite app_length.
  - lia.
  - assert (L : length (flat_map toks (map snd l)) <= length (flat_map (fun m : scalar * jval => TScalar (fst m) :: toks (snd m)) l)); [|lia].
    induction l as [|y l IH]; [cbn; lia|]. cbn [map flat_map app length]. rewrite !app_length. lia.
Qed.
Lemma stream_app : forall a b, stream (a ++ b) = stream a ++ stream b.
Proof. intros. apply flat_map_app. Qed.

Section Ordinary.
Variable matches : bytes -> bytes -> Prop.
Variable find : bytes -> bytes -> option (nat * nat).
Variable strict : bool.
Variable root : jval.
Variable P : jsingular -> Prop.
Variable Q : jquery -> Prop.

Lemma child_weight : forall sels x l, single sels -> segment_nodes matches strict root (JSegment false sels) x l -> weight l <= length (toks x).
Proof.
  intros sels x l SS [is [C ->]]. etransitivity; [|apply children_weight].
  apply (pick_weight (children x) is (chosen_sorted _ _ _ _ _ _ SS C) 0 [] eq_refl). apply Forall_forall. intros; lia.
Qed.
Lemma path_weight : forall segs xs l, Forall child_segment segs -> Forall plain_segment segs -> path matches strict root segs xs l -> weight l <= weight xs.
Proof.
  induction segs as [|[desc sels] segs IH]; intros xs l C S1 H; cbn [path] in H; [subst; reflexivity|]. inversion C as [|? ? C1 C2]; subst. inversion S1 as [|? ? S2 S3]; subst. cbn in C1. subst desc.
  destruct H as [ls [F H]]. etransitivity; [eapply IH; eassumption|]. clear - F S2. induction F as [|x l xs ls H F IHF]; [reflexivity|]. cbn [concat].
  unfold weight in *. rewrite stream_app, app_length. cbn [stream flat_map]. rewrite app_length. apply Nat.add_le_mono; [|exact IHF]. eapply child_weight; [exact S2|exact H].
Qed.
Lemma weight_length : forall l, length l <= weight l.
Proof. unfold weight, stream. induction l as [|x l IH]; [reflexivity|]. cbn [flat_map length]. rewrite app_length. assert (1 <= length (toks x)) by (destruct x; cbn; lia). lia. Qed.
Lemma count_fits : forall q x l, absolute q = false -> plain q -> child_only q -> clean x -> nodes matches strict root q x l -> (Z.of_nat (length l) < 2 ^ 53)%Z.
Proof.
  intros [r segs] x l A PL CO C N. cbn in A. subst r. rewrite nodes_path in N. pose proof (path_weight segs [x] l CO PL N) as W. pose proof (weight_length l) as L.
  destruct C as [_ [_ S1]]. unfold weight in W at 2. cbn [stream flat_map] in W. rewrite app_nil_r in W. lia.
Qed.

Theorem ordinary_tame :
  (forall q, ordinary q -> (forall x, clean x -> (absolute q = true -> clean root) -> tame_query matches find strict root q x) /\ inner_query P Q q) /\
  (forall g, ordinary_segment g -> (forall x, clean x -> tame_segment matches find strict root g x) /\ inner_segment P Q g /\ reverses_some g = false) /\
  (forall s, ordinary_selector s -> (forall x, clean x -> tame_selector matches find strict root s x) /\ inner_selector P Q s /\ forward s = true) /\
  (forall c, ordinary_logical c -> (forall x, clean x -> tame_logical matches find strict root c x) /\ inner_logical P Q c) /\
  (forall v, ordinary_value v -> (forall x, clean x -> tame_value matches find strict root v x) /\ inner_value P Q v) /\
  (forall f, ordinary_call f -> (forall x, clean x -> tame_call matches find strict root f x) /\ inner_call P Q f) /\
  (forall a, ordinary_arg a -> (forall x, clean x -> tame_arg matches find strict root a x) /\ inner_arg P Q true a).
Proof.
  apply path_ind.
  - intros r segs F O. change (all ordinary_segment segs) in O. apply all_forall in O. split.
    + intros x C CR.
      assert (CX : clean (if r then root else x)) by (destruct r; auto). change (PathRfc.tame_path matches find strict root segs (if r then root else x)). revert CX. generalize (if r then root else x). clear x C CR.
      induction F as [|seg segs H F IH]; intros x C; [exact Logic.I|]. inversion O as [|? ? O1 O2]; subst. destruct (H O1) as (T & _ & R). split; [auto|]. split; [rewrite R; discriminate|].
      intros l N y Y. apply IH; [exact O2|]. pose proof (PathRfc.segment_clean matches strict root seg x l C N) as CL. rewrite Forall_forall in CL. auto.
    + change (all (inner_segment P Q) segs). apply all_forall. rewrite Forall_forall in *. intros g J. apply F; auto.
  - intros d sels F [L O]. apply all_forall in O. split; [|split].
    + assert (A : forall x, clean x -> all (fun s => tame_selector matches find strict root s x) sels).
      { intros x C. apply all_forall. rewrite Forall_forall in *. intros s J. apply F; auto. }
      intros x C. destruct d; [|exact (A x C)]. change (forall y, In y (descendants x) -> all (fun s => tame_selector matches find strict root s y) sels). intros y Y. apply A. eapply clean_descendant; eauto.
    + change (all (inner_selector P Q) sels). apply all_forall. rewrite Forall_forall in *. intros s J. apply F; auto.
    + cbn [reverses_some]. rewrite Forall_forall in *. destruct (existsb _ sels) eqn:E; [|reflexivity]. apply existsb_exists in E as [s [J N]]. destruct (F s J (O s J)) as (_ & _ & W). now rewrite W in N.
  - intros n _. repeat split.
  - intros _. repeat split.
  - intros i S1. repeat split; intros; exact S1 || exact Logic.I.
  - intros a b step (A & B & C & D). split; [|split; [exact Logic.I|now apply Z.leb_le]]. intros x _. split; [exact A|]. split; [exact B|]. destruct a as [a|]; [|exact Logic.I]. cbv zeta. destruct D as [D|D]; [now left|]. right. right. left. lia.
  - intros c IH O. destruct (IH O) as [T I]. split; [|split; [exact I|reflexivity]]. intros x C. change (forall y, In y (children x) -> tame_logical matches find strict root c y). intros y Y. apply T. eapply clean_child; eauto.
  - intros l F O. change (all ordinary_logical l) in O. apply all_forall in O. split.
    + intros x C. change (all (fun c => tame_logical matches find strict root c x) l). apply all_forall. rewrite Forall_forall in *. intros c J. apply F; auto.
    + change (all (inner_logical P Q) l). apply all_forall. rewrite Forall_forall in *. intros c J. apply F; auto.
  - intros l F O. change (all ordinary_logical l) in O. apply all_forall in O. split.
    + intros x C. change (all (fun c => tame_logical matches find strict root c x) l). apply all_forall. rewrite Forall_forall in *. intros c J. apply F; auto.
    + change (all (inner_logical P Q) l). apply all_forall. rewrite Forall_forall in *. intros c J. apply F; auto.
  - intros c IH O. destruct (IH O) as [T I]. split; [exact T|exact I].
  - intros a op b HA HB [A B]. destruct (HA A) as [A1 A2], (HB B) as [B1 B2]. split; [intros x C; split; [exact (A1 x C)|exact (B1 x C)]|split; [exact A2|exact B2]].
  - intros q IH (A & PL & O). destruct (IH O) as [T I]. split.
    + intros x C. split; [exact PL|]. apply T; [exact C|]. rewrite A. discriminate.
    + split; [rewrite A; discriminate|exact I].
  - intros f _ [].
  - intros s D. split; [intros x _; exact D|exact Logic.I].
  - intros [r l] [R S1]. split; [intros x _; exact S1|]. subst r. change (false = true -> P (JSingular false l)). discriminate.
  - intros f IH O. destruct (IH O) as [T I]. split; [exact T|exact I].
  - intros n args F [-> O]. apply all_forall in O. split.
    + intros x C. split.
      * change (all (fun a => tame_arg matches find strict root a x) args). apply all_forall. rewrite Forall_forall in *. intros a J. apply F; auto.
      * destruct args as [|a [|b [|c args]]]; try exact Logic.I.
        -- split; [discriminate|]. split; [|discriminate]. intros _. inversion O as [|? ? O1 _]; subst. destruct a as [s|q|c|f]; try contradiction. destruct O1 as (A & PL & CO & OQ). split.
           ++ destruct q as [r segs]. cbn [plain] in PL. cbn [simple]. eapply Forall_impl; [|exact PL]. intros [d sels] SS _. exact SS.
           ++ intros l N. eapply count_fits; eassumption.
        -- intros u v t p _ _ _ _. split; discriminate.
    + change (all (inner_arg P Q (takes_nodes n_count)) args). apply all_forall. rewrite Forall_forall in *. intros a J. apply F; auto.
  - intros s [].
  - intros q IH (A & PL & CO & O). destruct (IH O) as [T I]. split.
    + intros x C. split; [apply T; [exact C|rewrite A; discriminate]|]. clear IH T I. intros l E. destruct q as [r segs]. clear - O E. revert l E. induction segs as [|seg segs IH]; intros l E; [injection E as <-; constructor|].
      destruct O as [O1 O2]. specialize (IH O2). cbn [singular_steps] in E. destruct seg as [[|] [|[n| |i|a b st|c] [|s2 sels]]]; try discriminate.
      * destruct (singular_steps segs) as [l'|]; [|discriminate]. injection E as <-. constructor; [exact Logic.I|auto].
      * destruct (singular_steps segs) as [l'|]; [|discriminate]. injection E as <-. constructor; [|auto]. destruct O1 as [_ [S1 _]]. exact S1.
    + split; [rewrite A; discriminate|exact I].
  - intros c _ [].
  - intros f _ [].
Qed.
End Ordinary.

Lemma ordinary_is_tame : forall matches find strict segs x, ordinary (JQuery true segs) -> clean x -> tame matches find strict (JQuery true segs) x.
Proof.
  intros matches find strict segs x O C. split; [|split].
  - cbn [simple]. change (all ordinary_segment segs) in O. apply all_forall in O. eapply Forall_impl; [|exact O]. intros [d sels] [L A] E. specialize (L E).
    destruct sels as [|s [|]]; try discriminate. cbn [single]. apply (proj1 (proj2 (proj2 (ordinary_tame matches find strict x (fun _ => True) (fun _ => True)))) s). exact (proj1 A).
  - exact (proj1 (proj1 (ordinary_tame matches find strict x (fun _ => True) (fun _ => True)) _ O) x C (fun _ => C)).
  - exact (proj2 (proj1 (ordinary_tame matches find strict x _ _) _ O)).
Qed.

(* ------------------------------------------------------------------ *)
(** C34, C37, C38: an ordinary query that compiles gives on every stream of JSON
    values the nodes of RFC 9535, in both modes, without a panic.  Partial: other
    queries; see also [C34_rfc9535_partial]. *)
Theorem C34_ordinary_queries_partial : forall matches find strict grow segs r vs,
  let q := JQuery true segs in
  compile strict q = Some r -> ordinary q ->
  Forall clean vs -> (Z.of_nat (length (stream vs)) < maxint)%Z ->
  exists outs,
    (* the nodelist of the query for each value, *)
    Forall2 (fun x l => forall l', nodes matches strict x q x l' <-> l' = l) vs outs /\
    (* one after the other *)
    writes find grow r vs (flat_map stream outs).
Proof.
  intros matches find strict grow segs r vs q E O C L. apply path_runs; auto. eapply Forall_impl; [|exact C]. intros x CX. now apply ordinary_is_tame.
Qed.
Print Assumptions C34_ordinary_queries_partial.

(** A query that meets the hypotheses:
    [$.l[?@.a > 1 && (count(@[ * ]) == 2 || !@..b)]..a[0:9:2,-1]]. *)
Definition ord_segs : list jsegment :=
  [JSegment false [JName [108%N]];
   JSegment false [JFilter (JAnd [JCompare (JSing (JSingular false [JStepName [97%N]])) OpGt (JLit (new_scalar TNum [49%N]));
     JOr [JCompare (JValueCall (JCall n_count [JArgQuery (JQuery false [JSegment false [JWild]])])) OpEq (JLit (new_scalar TNum [50%N]));
          JNot (JTest (JQuery false [JSegment true [JName [98%N]]]))]])];
   JSegment true [JName [97%N]];
   JSegment false [JSlice (Some 0%Z) (Some 9%Z) 2; JIndex (-1)]].
Example ex_ordinary : ordinary (JQuery true ord_segs) /\ exists r, compile false (JQuery true ord_segs) = Some r.
Proof.
  split; [|eexists; reflexivity]. pose proof (num_decent 1 ltac:(lia)) as D1. pose proof (num_decent 2 ltac:(lia)) as D2.
  cbn. unfold child_segment, plain_segment, safe. repeat split; try discriminate; try exact D1; try exact D2; try lia; repeat constructor.
  all: cbn; try lia; try discriminate.
  all: first [exact (proj1 D1)|exact (proj2 D1)|exact (proj1 D2)|exact (proj2 D2)].

Qed.

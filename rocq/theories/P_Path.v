(** C33 to C38: what a compiled query writes. *)
From Coq Require Import List ZArith NArith Arith Bool Lia.
From Verif Require Import Base Tokens JsonSpec IterModel P_Scalar P_Equal SelectModel SelectSpec P_Select CursorModel EqualSpec
  PathModel PathTop PathAst PathSpec PathTame PathStep PathSel CompileModel PathRun.

(** Running the program [r] (a compiled query) on the tokens of the values [vs]
    ends, without a panic, after writing the tokens [out].  [find] is how Go's
    regular expressions match; [grow] is how its slices grow; [n] and [m] are
    the fuel of the model. *)
Definition writes find grow (r : runner) (vs : list jval) (out : list token) : Prop :=
  exists N, forall n, N <= n -> exists n0 h', forall m, n0 <= m ->
    irun grow m (run_stream find n r) (start (stream vs)) = Ok (h', out).

Lemma writes_fun : forall find grow r vs out out', writes find grow r vs out -> writes find grow r vs out' -> out = out'.
Proof.
  intros find grow r vs out out' [N H] [N' H']. destruct (H (N + N')) as [n0 [h K]]; [lia|]. destruct (H' (N + N')) as [n0' [h' K']]; [lia|].
  specialize (K (n0 + n0') ltac:(lia)). specialize (K' (n0 + n0') ltac:(lia)). congruence.
Qed.

(* ------------------------------------------------------------------ *)
(** C34.  Partial: for the queries and values that are [tame] (PathTame.v); the
    theorems [C34_*_refuted] below show that it does not hold for all. *)
Theorem C34_rfc9535_partial : forall matches find strict grow segs r vs,
  let q := JQuery true segs in
  compile strict q = Some r ->
  Forall clean vs -> Forall (tame matches find strict q) vs ->
  (Z.of_nat (length (stream vs)) < maxint)%Z ->
  exists outs,
    (* the nodelist of the query for each value, *)
    Forall2 (fun x l => forall l', nodes matches strict x q x l' <-> l' = l) vs outs /\
    (* one after the other *)
    writes find grow r vs (flat_map stream outs).
Proof. intros matches find strict grow segs r vs q. apply path_runs. Qed.
Print Assumptions C34_rfc9535_partial.

(** C37, C38: no panic, and tokens of values. *)
Theorem C38_well_formed_partial : forall matches find strict grow segs r vs,
  compile strict (JQuery true segs) = Some r ->
  Forall clean vs -> Forall (tame matches find strict (JQuery true segs)) vs ->
  (Z.of_nat (length (stream vs)) < maxint)%Z ->
  exists ws, writes find grow r vs (stream ws).
Proof.
  intros matches find strict grow segs r vs E C T L. destruct (path_runs matches find strict grow segs r vs E C T L) as [outs [_ W]].
  exists (concat outs). replace (stream (concat outs)) with (flat_map stream outs); [exact W|].
  clear W. unfold stream. induction outs as [|l outs IH]; [reflexivity|]. cbn [flat_map concat]. now rewrite flat_map_app, IH.
Qed.
Print Assumptions C38_well_formed_partial.

(* ------------------------------------------------------------------ *)
(** One value. *)
Lemma one_value : forall matches find strict grow segs r x,
  compile strict (JQuery true segs) = Some r -> clean x -> tame matches find strict (JQuery true segs) x ->
  exists l, (forall l', nodes matches strict x (JQuery true segs) x l' <-> l' = l) /\ writes find grow r [x] (stream l).
Proof.
  intros matches find strict grow segs r x E C T. destruct (path_runs matches find strict grow segs r [x] E) as [outs [F W]]; [constructor; auto|constructor; auto| |].
  - destruct C as [_ [_ L]]. cbn [stream flat_map]. rewrite app_nil_r. unfold maxint. lia.
  - inversion F as [|? l ? ? H F']; subst. inversion F'; subst. cbn [flat_map] in W. rewrite app_nil_r in W. eauto.
Qed.

(** C33: [$[S1,...,Sn]] writes what [$[S1]], ..., [$[Sn]] write, in this order. *)
Lemma child_nodes : forall matches strict x sels l, nodes matches strict x (JQuery true [JSegment false sels]) x l <->
  exists iss, each (fun s => selects matches strict x s x) sels iss /\ l = pick (children x) (concat iss).
Proof.
  intros matches strict x sels l. rewrite nodes_path. cbn [path]. split.
  - intros [ls [F ->]]. inversion F as [|? l1 ? ls' H F']; subst. inversion F'; subst. cbn [concat]. rewrite app_nil_r.
    destruct H as [is [[iss [H ->]] ->]]. eauto.
  - intros [iss [H ->]]. exists [pick (children x) (concat iss)]. split; [constructor; [|constructor]|cbn [concat]; now rewrite app_nil_r].
    exists (concat iss). split; [eauto|reflexivity].
Qed.
Lemma pick_app : forall A (l : list A) is js, pick l (is ++ js) = pick l is ++ pick l js.
Proof. intros. apply flat_map_app. Qed.
Lemma pick_concat : forall A (l : list A) iss, pick l (concat iss) = concat (map (pick l) iss).
Proof. intros A l. induction iss as [|is iss IH]; [reflexivity|]. cbn [concat map]. now rewrite pick_app, IH. Qed.
Lemma all_member : forall A (P : A -> Prop) l, all P l -> forall a, In a l -> P a.
Proof. intros A P. induction l as [|b l IH]; intros H a J; [destruct J|]. destruct H as [H1 H2], J as [<-|J]; auto. Qed.
Lemma each_in : forall A B (R : A -> B -> Prop) l l', each R l l' -> forall a, In a l -> forall b', R a b' -> exists m, each R l m /\ In b' m.
Proof.
  intros A B R. induction l as [|c l IH]; intros [|b l'] H a J b' K; cbn [each] in H; try tauto; [destruct J|]. destruct H as [H1 H2]. destruct J as [<-|J].
  - exists (b' :: l'). split; [split; auto|now left].
  - destruct (IH l' H2 a J b' K) as [m [M1 M2]]. exists (b :: m). split; [split; auto|now right].
Qed.
Theorem C33_selectors_in_order_partial : forall matches find strict grow sels r rs x,
  let query l := JQuery true [JSegment false l] in
  compile strict (query sels) = Some r ->
  Forall2 (fun s r' => compile strict (query [s]) = Some r') sels rs ->
  clean x -> tame matches find strict (query sels) x ->
  exists outs, Forall2 (fun r' out => writes find grow r' [x] out) rs outs /\ writes find grow r [x] (concat outs).
Proof.
  intros matches find strict grow sels r rs x query E ES C T. destruct (one_value matches find strict grow _ _ x E C T) as [l [H W]].
  assert (N := proj2 (H l) eq_refl). apply child_nodes in N as [iss [EI EL]].
  assert (T1 : forall s, In s sels -> tame matches find strict (query [s]) x).
  { intros s J. destruct T as (T1 & T2 & T3). split; [constructor; [discriminate|constructor]|]. split.
    - change (tame_segment matches find strict x (JSegment false sels) x /\ (reverses_some (JSegment false sels) = true -> @nil jsegment = [] /\ forall l, segment_nodes matches strict x (JSegment false sels) x l -> Forall scalar_node l) /\
              (forall l, segment_nodes matches strict x (JSegment false sels) x l -> forall y, In y l -> True)) in T2. destruct T2 as (A & B & _).
      change (tame_segment matches find strict x (JSegment false [s]) x /\ (reverses_some (JSegment false [s]) = true -> @nil jsegment = [] /\ forall l, segment_nodes matches strict x (JSegment false [s]) x l -> Forall scalar_node l) /\
              (forall l, segment_nodes matches strict x (JSegment false [s]) x l -> forall y, In y l -> True)). split; [|split; [|auto]].
      + change (all (fun s => tame_selector matches find strict x s x) sels) in A. split; [|exact I]. exact (all_member _ _ _ A s J).
      + intro R. split; [reflexivity|]. intros l0 [is [[iss0 [E0 ->]] ->]]. destruct iss0 as [|is0 [|]]; cbn [each] in E0; try tauto. destruct E0 as [E0 _]. cbn [concat]. rewrite app_nil_r.
        assert (RS : reverses_some (JSegment false sels) = true).
        { cbn [reverses_some existsb] in *. rewrite orb_false_r in R. apply existsb_exists. exists s. auto. }
        destruct (each_in _ _ _ _ _ EI s J is0 E0) as [m [M1 M2]]. destruct (B RS) as [_ SC].
        specialize (SC (pick (children x) (concat m)) ltac:(exists (concat m); split; [exists m; auto|reflexivity])).
        rewrite Forall_forall in SC |- *. intros y Y. apply SC. apply in_flat_map in Y as [i [I1 I2]]. apply in_flat_map. exists i. split; [|exact I2]. apply in_concat. eauto.
    - cbn [inner_query all inner_segment] in *. destruct T3 as [T3 _]. split; [|exact I]. split; [|exact I]. exact (all_member _ _ _ T3 s J). }
  assert (K : exists outs, Forall2 (fun r' out => writes find grow r' [x] out) rs outs /\ map (fun is => stream (pick (children x) is)) iss = outs).
  { clear E T H W EL l r. revert iss EI. assert (T1' := T1). clear T1. induction ES as [|s r' sels rs E1 ES IH]; intros iss EI.
    - destruct iss; [|destruct EI]. exists []. split; [constructor|reflexivity].
    - destruct iss as [|is iss]; [destruct EI|]. destruct EI as [EI1 EI2]. destruct (IH (fun s0 J => T1' s0 (or_intror J)) iss EI2) as [outs [F M]].
      destruct (one_value matches find strict grow _ _ x E1 C (T1' s (or_introl eq_refl))) as [l0 [H0 W0]].
      assert (N0 : nodes matches strict x (query [s]) x (pick (children x) is)) by (apply child_nodes; exists [is]; split; [split; [exact EI1|exact I]|cbn [concat]; now rewrite app_nil_r]).
      apply H0 in N0. subst l0. exists (stream (pick (children x) is) :: outs). split; [constructor; assumption|]. cbn [map]. now rewrite M. }
  destruct K as [outs [F M]]. exists outs. split; [exact F|]. rewrite EL in W. subst outs. rewrite pick_concat in W.
  replace (concat (map (fun is => stream (pick (children x) is)) iss)) with (stream (concat (map (pick (children x)) iss))); [exact W|].
  clear. unfold stream. induction iss as [|is iss IH]; [reflexivity|]. cbn [map concat]. now rewrite flat_map_app, IH.
Qed.
Print Assumptions C33_selectors_in_order_partial.

(** C35: [$[?c]] writes the children for which [c] holds. *)
Definition filter_query (c : jlogical) : list jsegment := [JSegment false [JFilter c]].
Theorem C35_filters_partial : forall matches find strict grow c r x,
  compile strict (JQuery true (filter_query c)) = Some r -> clean x -> tame matches find strict (JQuery true (filter_query c)) x ->
  exists is, kept (holds matches strict x c) 0 (children x) is /\ writes find grow r [x] (stream (pick (children x) is)).
Proof.
  intros matches find strict grow c r x E C T. destruct (one_value matches find strict grow _ _ x E C T) as [l [H W]].
  assert (N := proj2 (H l) eq_refl). apply child_nodes in N as [iss [EI ->]]. destruct iss as [|is [|]]; cbn [each] in EI; try tauto.
  destruct EI as [EI _]. exists is. split; [exact EI|]. cbn [concat] in W. now rewrite app_nil_r in W.
Qed.
Print Assumptions C35_filters_partial.

(** C36: functions in comparisons and tests. *)
Lemma kept_same : forall A (P Q : A -> Prop) l i is, (forall a, In a l -> (P a <-> Q a)) -> kept P i l is -> kept Q i l is.
Proof.
  intros A P Q. induction l as [|a l IH]; intros i is H K; inversion K; subst; [constructor|apply kept_yes|apply kept_no].
  - apply H; [now left|assumption].
  - apply IH; [intros; apply H; now right|assumption].
  - rewrite <- H by now left. assumption.
  - apply IH; [intros; apply H; now right|assumption].
Qed.
Theorem C36_functions_partial : forall matches find strict grow f r x,
  clean x ->
  (forall s, let q := filter_query (JCompare (JValueCall f) OpEq (JLit s)) in
   compile strict (JQuery true q) = Some r -> tame matches find strict (JQuery true q) x ->
   exists is, kept (fun y => exists v, call_value matches strict x f y (Some v) /\ same v (JScalar s)) 0 (children x) is /\
     writes find grow r [x] (stream (pick (children x) is))) /\
  (let q := filter_query (JTestCall f) in
   compile strict (JQuery true q) = Some r -> tame matches find strict (JQuery true q) x ->
   exists is, kept (call_holds matches strict x f) 0 (children x) is /\
     writes find grow r [x] (stream (pick (children x) is))).
Proof.
  intros matches find strict grow f r x C. split.
  - intros s q E T. destruct (C35_filters_partial matches find strict grow _ r x E C T) as [is [K W]]. exists is. split; [|exact W].
    eapply kept_same; [|exact K]. intros y _.
    change (holds matches strict x (JCompare (JValueCall f) OpEq (JLit s)) y) with (exists u v, call_value matches strict x f y u /\ v = Some (JScalar s) /\ equal_values u v). split.
    + intros (u & v & U & -> & S1). destruct u as [u|]; [|destruct S1]. eauto.
    + intros (v & V & S1). exists (Some v), (Some (JScalar s)). auto.
  - intros q E T. exact (C35_filters_partial matches find strict grow _ r x E C T).
Qed.
Print Assumptions C36_functions_partial.

(* ------------------------------------------------------------------ *)
(** A query and a value that meet the hypotheses:
    the query [$..[?@.a > $.m && count(@[ * ]) == 2][ * ]] on the value
    [{"m":1,"l":[{"a":2,"b":3},{"a":1,"b":4}]}]. *)
Definition num (n : N) : jval := JScalar (new_scalar TNum [(48 + n)%N]).
Definition key (c : N) : scalar := str c.
Definition ex_cond : jlogical :=
  JAnd [JCompare (JSing (JSingular false [JStepName [97%N]])) OpGt (JSing (JSingular true [JStepName [109%N]]));
        JCompare (JValueCall (JCall n_count [JArgQuery (JQuery false [JSegment false [JWild]])])) OpEq (JLit (new_scalar TNum [50%N]))].
Definition ex_segs : list jsegment := [JSegment true [JFilter ex_cond]; JSegment false [JWild]].
Definition ex_item (a b : N) : jval := JObj [(key 97, num a); (key 98, num b)] false.
Definition ex_root : jval := JObj [(key 109, num 1); (key 108, JArr [ex_item 2 3; ex_item 1 4] false)] false.
Lemma key_decent : forall b, (97 <= b < 123)%N -> decent (key b).
Proof. intros b H. apply ex_decent_str; lia. Qed.
Lemma num_decent : forall n, (1 <= n <= 4)%N -> decent (new_scalar TNum [(48 + n)%N]).
Proof.
  intros n H. assert (N4 : n = 1%N \/ n = 2%N \/ n = 3%N \/ n = 4%N) by lia.
  destruct N4 as [->|[->|[->| ->]]]; (apply ex_decent_num; [cbn; lia|vm_compute; discriminate]).
Qed.
Lemma key_differ : forall a b, (97 <= a < 123)%N -> (97 <= b < 123)%N -> ScalarModel.scalar_equal (key a) (key b) = Ok false -> ~ same_scalar_value (key a) (key b).
Proof.
  intros a b A B N H. apply eq_value in H; [|apply key_decent; exact A|apply key_decent; exact B]. congruence.
Qed.
Example ex_clean : clean ex_root.
Proof.
  assert (D : forall n, (1 <= n <= 4)%N -> comparable (num n)) by (intros n H; constructor; now apply num_decent).
  assert (IT : forall a b, (1 <= a <= 4)%N -> (1 <= b <= 4)%N -> comparable (ex_item a b)).
  { intros a b A B. constructor; [repeat (constructor; [apply key_decent; lia|now apply D|]); constructor|]. repeat constructor. apply key_differ; [lia|lia|vm_compute; reflexivity]. }
  split; [|split].
  - constructor; [constructor; [apply key_decent; lia|apply D; lia|constructor; [apply key_decent; lia| |constructor]]|repeat constructor; apply key_differ; [lia|lia|vm_compute; reflexivity]].
    constructor. repeat (constructor; [apply IT; lia|]). constructor.
  - intros l e m J K. cbn in J. repeat match goal with H : _ \/ _ |- _ => destruct H | H : False |- _ => destruct H | H : JArr _ _ = JObj _ _ |- _ => discriminate H | H : JScalar _ = JObj _ _ |- _ => discriminate H end;
      match goal with H : _ = JObj _ _ |- _ => try discriminate H; injection H as <- <- end; cbn in K; repeat match goal with H : _ \/ _ |- _ => destruct H | H : False |- _ => destruct H end; subst m; reflexivity.
  - cbn. lia.
Qed.
Lemma wild_nodes : forall matches strict root x l, nodes matches strict root (JQuery false [JSegment false [JWild]]) x l -> l = children x.
Proof.
  intros matches strict root x l H. rewrite nodes_path in H. destruct H as [ls [F ->]]. inversion F as [|? l1 ? ls' H F']; subst. inversion F'; subst.
  destruct H as [is [[iss [E ->]] ->]]. destruct iss as [|is [|]]; cbn [each] in E; try tauto. destruct E as [E _]. cbn [concat]. rewrite !app_nil_r.
  change (is = seq 0 (length (children x))) in E. subst is. unfold pick. generalize (children x). clear. intro l.
  assert (H : forall pre, flat_map (fun i => match nth_error (pre ++ l) i with Some a => [a] | None => [] end) (seq (length pre) (length l)) = l).
  { induction l as [|a l IH]; intro pre; [reflexivity|]. cbn [length seq flat_map]. rewrite nth_error_app2, Nat.sub_diag by lia. cbn [nth_error app]. f_equal.
    specialize (IH (pre ++ [a])). rewrite app_length, <- app_assoc in IH. cbn [length app] in IH. now rewrite Nat.add_1_r in IH. }
  exact (H []).
Qed.
Example ex_tame : forall matches find strict, tame matches find strict (JQuery true ex_segs) ex_root.
Proof.
  intros matches find strict. split; [|split].
  - constructor; [intros _; reflexivity|]. constructor; [discriminate|constructor].
  - split; [|split; [discriminate|]].
    + intros y Y. split; [|exact I]. intros z Z. assert (C : clean z) by (eapply clean_child; [eapply clean_descendant; [exact ex_clean|exact Y]|exact Z]).
      split; [split; repeat constructor|]. split; [|exact I]. split; [|exact (num_decent 2 ltac:(lia))].
      split; [split; [|exact I]|split; [discriminate|split; [|discriminate]]].
      * split; [split; [split; [exact I|exact I]|split; [discriminate|intros; exact I]]|discriminate].
      * intros _. split; [constructor; [discriminate|constructor]|]. intros l N. apply wild_nodes in N. subst l. exact (clean_length z C).
    + intros l _ y _. split; [split; [exact I|exact I]|]. split; [discriminate|intros; exact I].
  - split; [|split; [split; [exact I|exact I]|exact I]]. split; [|exact I]. split; [|split; [|exact I]].
    + split; [discriminate|]. intros _. split; [intros []|]. split; [repeat constructor|]. exists (num 1).
      apply (proj1 (steps_iff [JStepName [109%N]] ex_root ex_clean ltac:(repeat constructor))). vm_compute. reflexivity.
    + split; [|exact I]. split; [|exact I]. split; [discriminate|]. split; [split; [exact I|exact I]|exact I].
Qed.
Example ex_query : forall matches find strict grow, exists r l, compile strict (JQuery true ex_segs) = Some r /\
  nodes matches strict ex_root (JQuery true ex_segs) ex_root l /\ writes find grow r [ex_root] (stream l).
Proof.
  intros matches find strict grow. destruct (compile strict (JQuery true ex_segs)) as [r|] eqn:E; [|discriminate].
  destruct (one_value matches find strict grow ex_segs r ex_root E ex_clean (ex_tame matches find strict)) as [l [H W]]. exists r, l. split; [reflexivity|]. split; [now apply H|exact W].
Qed.
(** It is the members of the first item. *)
Example ex_query_runs : forall find, exists r h, compile false (JQuery true ex_segs) = Some r /\
  irun (fun _ _ => 1%Z) 1000 (run_stream find 100 r) (start (stream [ex_root])) = Ok (h, stream [num 2; num 3]).
Proof. intro find. eexists. eexists. split; [reflexivity|]. vm_compute. reflexivity. Qed.

(** C42: items are written before the input after them is read. *)
From Coq Require Import List ZArith NArith Arith Bool Lia.
From Verif Require Import Base Tokens JsonSpec EncSpec CursorModel P_Scalar P_Equal SelectSpec P_Select IterModel IterSpec IterCore IterThr IterRel IterSound SplitModel UseLib PathMain SelectModel PathModel PathTop
  PathAst PathSpec PathTame CompileModel PathRun P_Path StreamModel StreamSpec StreamCausal StreamRead StreamW StreamEngine StreamTop StreamCompile.

Lemma opened_toks : forall x, collection x -> exists u, u = tail_toks x [] /\ u <> [] /\ toks x = opened x ++ u.
Proof.
  intros [s|l e|l e] C; [destruct C| |]; eexists; (split; [reflexivity|]); unfold tail_toks; cbn [flat_map app elided end_tok];
    (split; [intro Q; apply (f_equal (@length _)) in Q; rewrite app_length in Q; cbn in Q; lia|]); reflexivity.
Qed.

Lemma leads_spine : forall strict desc, (strict = true -> desc = false) -> forall d seg, leads strict d desc seg -> spine d seg.
Proof.
  intros strict desc SD. induction d as [|d IH]; intros [sels look desc' strict' following] H; cbn [leads] in H; cbn [spine]; destruct H as [s [-> [S1 [S2 [-> H]]]]]; exists s; (split; [reflexivity|]); (split; [exact S1|]); (split; [exact S2|]).
  - subst desc'. split; [exact SD|exact Logic.I].
  - destruct H as [-> [H1 H2]]. split; [reflexivity|]. split; [reflexivity|]. split; [exact H1|]. destruct following as [seg'|]; [now apply IH|exact H2].
Qed.
Lemma open_deep : forall d x ts, open_at d x ts -> exists u, deep d x u /\ u <> [] /\ toks x = ts ++ u.
Proof.
  intros d x ts H. induction H as [d x C|d l y e ts H [u [DY [NE TY]]]|d l k y e ts H [u [DY [NE TY]]]].
  - destruct (opened_toks x C) as [u [-> [NE TX]]]. exists (tail_toks x []). split; [constructor; destruct x; [destruct C| |]; reflexivity|]. auto.
  - exists (u ++ tail_toks (JArr (l ++ [y]) e) []). split; [|split].
    + apply deep_in with (l := map (fun v => (None, v)) l) (k := None) (y := y); [reflexivity| |exact DY]. cbn [items]. now rewrite map_app.
    + intro Q. apply app_eq_nil in Q. tauto.
    + unfold tail_toks. cbn [toks flat_map app elided end_tok]. change ((fix go (l : list jval) : list token := match l with [] => [] | v :: l' => toks v ++ go l' end) (l ++ [y])) with (flat_map toks (l ++ [y])).
      rewrite flat_map_app. cbn [flat_map]. rewrite TY, app_nil_r. cbn [app]. now rewrite <- !app_assoc.
  - exists (u ++ tail_toks (JObj (l ++ [(k, y)]) e) []). split; [|split].
    + apply deep_in with (l := map (fun m => (Some (fst m), snd m)) l) (k := Some k) (y := y); [reflexivity| |exact DY]. cbn [items]. now rewrite map_app.
    + intro Q. apply app_eq_nil in Q. tauto.
    + unfold tail_toks. cbn [toks flat_map app elided end_tok].
      change ((fix go (l : list (scalar * jval)) : list token := match l with [] => [] | m :: l' => TScalar (fst m) :: toks (snd m) ++ go l' end) (l ++ [(k, y)])) with (flat_map (fun m => TScalar (fst m) :: toks (snd m)) (l ++ [(k, y)])).
      rewrite flat_map_app. cbn [flat_map fst snd]. rewrite TY, app_nil_r. cbn [app]. rewrite <- !app_assoc. cbn [app]. now rewrite <- !app_assoc.
Qed.

(** [x] is the last value of the input, of which [seen] has arrived: a
    collection inside [x] is open, with the items that have arrived so far, and
    so are the collections around it.  [rest] is all that is still to come: more
    items, the end of the collections, more values, or what is not JSON at all.
    Before any of it is read, the output is all that the query selects from
    [pre] and [x].

    The open collection is at most as deep in [x] as there are segments in
    [prefix]: for [$.users[?@.email]] it is [x] itself or the array of users.

    [E] is the log of what is written (StreamModel.v): the tokens, and the
    tokens of the input not read at that time.

    Partial: the segments of [prefix] and the one after them have one selector,
    which does not count from the end of arrays (so that no lookahead is
    needed); those of [prefix] are child segments without filters; the one after
    them is a descendant segment only in the default mode; [$] is not used in
    filters.  The segments after these are any. *)
Theorem C42_streaming_partial : forall matches find strict grow prefix desc sel segs r pre x seen,
  let q := JQuery true (prefix ++ JSegment desc [sel] :: segs) in
  compile strict q = Some r ->
  Forall direct_segment prefix -> onward sel -> (strict = true -> desc = false) -> lone_query q ->
  open_at (length prefix) x seen ->
  Forall clean (pre ++ [x]) -> Forall (tame matches find strict q) (pre ++ [x]) ->
  (Z.of_nat (length (stream (pre ++ [x]))) < maxint)%Z ->
  exists outs,
    (* what the query selects from the values *)
    Forall2 (fun y l => forall l', nodes matches strict y q y l' <-> l' = l) (pre ++ [x]) outs /\
    exists N, forall n, N <= n -> exists n0, forall m, n0 <= m -> forall rest,
      exists E E',
        emits grow m (run_stream find n r) (start (stream pre ++ seen ++ rest)) = E ++ E' /\
        (* is what is written *)
        concat (map fst E) = flat_map stream outs /\
        (* with nothing read of the rest *)
        Forall (fun e => exists unread_items, snd e = unread_items ++ rest) E.
Proof.
  intros matches find strict grow prefix desc sel segs r pre x seen q CO DP ON SD LO OA CL TA L. rewrite Forall_forall in CL, TA.
  destruct (compile_onward strict _ _ _ _ _ _ CO DP ON LO) as [R1 [R2 [seg [R3 R4]]]]. pose proof (leads_spine _ _ SD _ _ R4) as SP.
  assert (RU : forall y, In y (pre ++ [x]) -> fine_runner find r y /\ forall l', nodes matches strict y q y l' <-> l' = query_values find r y).
  { intros y J. split; apply (runner_ok matches find strict y (CL y J) _ r CO (TA y J)). }
  exists (map (query_values find r) (pre ++ [x])). split.
  { clear - RU. induction (pre ++ [x]) as [|y l IH]; constructor; [apply RU; now left|apply IH; intros; apply RU; now right]. }
  destruct (fuel_list _ (pre ++ [x]) (fun n y => uses_ext (run_query find n r) y (stream (query_values find r y))) (fun y J => run_query_ok find r y (proj1 (RU y J)))) as [N H].
  exists (N + S (length (pre ++ [x]))). intros n LN.
  destruct (transform_values_ext (run_query find n r) (fun y => stream (query_values find r y)) (pre ++ [x]) (H n ltac:(lia)) n ltac:(lia)) as [st' SR].
  destruct (rel_start (pre ++ [x]) L) as [g [roots RE]].
  destruct (open_deep _ _ _ OA) as [u [DX [NE TX]]].
  destruct (values_before grow (run_query find n r) (length prefix) x u) with (n := n) (pre := pre) (g := g) (h := start (stream (pre ++ [x]))) (st := spec_start (pre ++ [x])) (roots := roots)
    (b := false) (cur := @None IterModel.value) (st' := st') (out := flat_map (fun y => stream (query_values find r y)) (pre ++ [x])) as [n0 [h' [E [WE [BE RN]]]]].
  - exact DX.
  - intro v. apply Q_query; [split; assumption|apply avoid_nil].
  - intros v c IV. eapply W_query; eauto. split; assumption.
  - exact RE.
  - exists (mkIter (RSrc 0) None). split; reflexivity.
  - reflexivity.
  - exact SR.
  - exists n0. intros m LM rest. destruct (RN m LM) as [_ EM].
    assert (ST : stream (pre ++ [x]) = (stream pre ++ seen) ++ u) by (unfold stream; rewrite flat_map_app; cbn [flat_map]; rewrite app_nil_r, TX; now rewrite app_assoc).
    destruct (emits_prefix grow _ (run_stream find n r) m (stream pre ++ seen) u rest NE) as [E1 [E2 [P1 P2]]].
    { rewrite <- ST. change (run_stream find n r) with (transform_values (run_query find n r) n 0). rewrite EM. eapply Forall_impl; [|exact BE]. intros e [a ->]. rewrite app_length. lia. }
    rewrite <- ST in P2. change (run_stream find n r) with (transform_values (run_query find n r) n 0) in P2. rewrite EM in P2.
    exists E1, E2. rewrite app_assoc. split; [exact P1|]. split.
    + assert (WX : written E1 = written E) by (clear - P2; induction P2 as [|e e2 l l2 [S1 _] F IH]; [reflexivity|]; unfold written in *; cbn [map concat]; now rewrite IH, S1).
      unfold written in *. rewrite WX, WE. now rewrite !flat_map_concat_map, map_map.
    + clear - P2. induction P2 as [|e e2 l l2 [_ [a [_ S2]]] F IH]; constructor; [exists a; exact S2|exact IH].
Qed.
Print Assumptions C42_streaming_partial.

(* ------------------------------------------------------------------ *)
(** Non-vacuity: [$[?@.a > 1].b] on an array of objects. *)
Definition exs_cond : jlogical := JCompare (JSing (JSingular false [JStepName [97%N]])) OpGt (JLit (new_scalar TNum [49%N])).
Definition exs_segs : list jsegment := [JSegment false [JName [98%N]]].
Definition exs_query : jquery := JQuery true (JSegment false [JFilter exs_cond] :: exs_segs).
Definition exs_array : jval := JArr [ex_item 2 3; ex_item 1 4; ex_item 4 1] false.

Example exs_clean : clean exs_array.
Proof.
  assert (D : forall n, (1 <= n <= 4)%N -> comparable (num n)) by (intros n H; constructor; now apply num_decent).
  assert (IT : forall a b, (1 <= a <= 4)%N -> (1 <= b <= 4)%N -> comparable (ex_item a b)).
  { intros a b A B. constructor; [repeat (constructor; [apply key_decent; lia|now apply D|]); constructor|]. repeat constructor. apply key_differ; [lia|lia|vm_compute; reflexivity]. }
  split; [|split].
  - constructor. repeat (constructor; [apply IT; lia|]). constructor.
  - intros l e m J K. cbn in J. repeat match goal with H : _ \/ _ |- _ => destruct H | H : False |- _ => destruct H | H : JArr _ _ = JObj _ _ |- _ => discriminate H | H : JScalar _ = JObj _ _ |- _ => discriminate H end;
      match goal with H : _ = JObj _ _ |- _ => try discriminate H; injection H as <- <- end; cbn in K; repeat match goal with H : _ \/ _ |- _ => destruct H | H : False |- _ => destruct H end; subst m; reflexivity.
  - cbn. lia.
Qed.
Example exs_tame : forall matches find strict, tame matches find strict exs_query exs_array.
Proof.
  intros matches find strict. split; [|split].
  - constructor; [discriminate|]. constructor; [discriminate|constructor].
  - split; [|split; [discriminate|]].
    + split; [|exact Logic.I]. intros y Y. split; [repeat constructor|exact (num_decent 1 ltac:(lia))].
    + intros l _ y _. split; [split; [exact Logic.I|exact Logic.I]|]. split; [discriminate|intros; exact Logic.I].
  - split; [|split; [split; [exact Logic.I|exact Logic.I]|exact Logic.I]]. split; [|exact Logic.I]. split; [discriminate|exact Logic.I].
Qed.
Example exs_streaming : forall matches find strict grow, exists r outs,
  compile strict exs_query = Some r /\
  Forall2 (fun y l => forall l', nodes matches strict y exs_query y l' <-> l' = l) [exs_array] outs /\
  exists N, forall n, N <= n -> exists n0, forall m, n0 <= m -> forall rest, exists E E',
    emits grow m (run_stream find n r) (start (opened exs_array ++ rest)) = E ++ E' /\
    concat (map fst E) = flat_map stream outs /\
    Forall (fun e => exists unread_items, snd e = unread_items ++ rest) E.
Proof.
  intros matches find strict grow. destruct (compile strict exs_query) as [r|] eqn:CO; [|discriminate].
  destruct (C42_streaming_partial matches find strict grow [] false (JFilter exs_cond) exs_segs r [] exs_array (opened exs_array) CO) as [outs H].
  - constructor.
  - exact Logic.I.
  - reflexivity.
  - cbn. tauto.
  - constructor. exact Logic.I.
  - constructor; [exact exs_clean|constructor].
  - constructor; [apply exs_tame|constructor].
  - unfold maxint. cbn. lia.
  - exists r, outs. split; [reflexivity|]. exact H.
Qed.

(** The log itself, where what comes after the second item is not JSON: the
    value selected from the first item is written when it has been read, with
    everything after it still to be read. *)
Example exs_log : forall find, exists r, compile false exs_query = Some r /\
  let input k := TStartArr :: flat_map toks (firstn k [ex_item 2 3; ex_item 1 4]) in
  emits (fun _ _ => 1%Z) 1000 (run_stream find 100 r) (start (input 2 ++ [TEndObj])) =
    [([TScalar (new_scalar TNum [51%N])], TEndObj :: skipn (length (input 1)) (input 2) ++ [TEndObj])].
Proof. intro find. eexists. split; [reflexivity|]. vm_compute. reflexivity. Qed.

(** [$.l[?@.a > 1].b] on an object of which the array [l] is the last member:
    both are open. *)
Definition exd_prefix : list jsegment := [JSegment false [JName [108%N]]].
Definition exd_query : jquery := JQuery true (exd_prefix ++ JSegment false [JFilter exs_cond] :: exs_segs).
Definition exd_seen : list token := TStartObj :: (TScalar (key 109) :: toks (num 1)) ++ TScalar (key 108) :: TStartArr :: toks (ex_item 2 3) ++ toks (ex_item 1 4).
Example exd_tame : forall matches find strict, tame matches find strict exd_query ex_root.
Proof.
  intros matches find strict. split; [|split].
  - constructor; [discriminate|]. constructor; [discriminate|]. constructor; [discriminate|constructor].
  - split; [split; exact Logic.I|]. split; [discriminate|]. intros l0 _ y0 _. split; [|split; [discriminate|]].
    + split; [|exact Logic.I]. intros y Y. split; [repeat constructor|exact (num_decent 1 ltac:(lia))].
    + intros l _ y _. split; [split; [exact Logic.I|exact Logic.I]|]. split; [discriminate|intros; exact Logic.I].
  - split; [split; exact Logic.I|]. split; [|split; [split; [exact Logic.I|exact Logic.I]|exact Logic.I]]. split; [|exact Logic.I]. split; [discriminate|exact Logic.I].
Qed.
Example exd_streaming : forall matches find strict grow, exists r outs,
  compile strict exd_query = Some r /\
  Forall2 (fun y l => forall l', nodes matches strict y exd_query y l' <-> l' = l) [ex_root] outs /\
  exists N, forall n, N <= n -> exists n0, forall m, n0 <= m -> forall rest, exists E E',
    emits grow m (run_stream find n r) (start (exd_seen ++ rest)) = E ++ E' /\
    concat (map fst E) = flat_map stream outs /\
    Forall (fun e => exists unread_items, snd e = unread_items ++ rest) E.
Proof.
  intros matches find strict grow. destruct (compile strict exd_query) as [r|] eqn:CO; [|discriminate].
  destruct (C42_streaming_partial matches find strict grow exd_prefix false (JFilter exs_cond) exs_segs r [] ex_root exd_seen CO) as [outs H].
  - constructor; [|constructor]. exists (JName [108%N]). split; [reflexivity|]. split; exact Logic.I.
  - exact Logic.I.
  - reflexivity.
  - cbn. tauto.
  - exact (oa_obj 0 [(key 109, num 1)] (key 108) _ false _ (oa_here 0 (JArr [ex_item 2 3; ex_item 1 4] false) Logic.I)).
  - constructor; [exact ex_clean|constructor].
  - constructor; [apply exd_tame|constructor].
  - unfold maxint. cbn. lia.
  - exists r, outs. split; [reflexivity|]. exact H.
Qed.
(** Where what comes next is not JSON. *)
Example exd_log : forall find, exists r, compile false exd_query = Some r /\ exists unread,
  emits (fun _ _ => 1%Z) 1000 (run_stream find 100 r) (start (exd_seen ++ [TEndObj])) = [([TScalar (new_scalar TNum [51%N])], unread)] /\ unread = TEndObj :: toks (ex_item 1 4) ++ [TEndObj].
Proof. intro find. eexists. split; [reflexivity|]. eexists. split; [vm_compute; reflexivity|]. vm_compute. reflexivity. Qed.

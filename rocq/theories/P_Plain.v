(** C58: direct queries keep nothing of the input and write each result while it
    is being read; C42 for them at every depth. *)
From Coq Require Import List ZArith NArith Arith Bool Lia.
From Verif Require Import Base Tokens JsonSpec EncSpec CursorModel P_Scalar P_Equal IterModel SelectModel SelectSpec P_Select PathModel PathTop
  PathAst PathSpec PathTame PathInd CompileModel PathRun P_Path P_PathRefuted P_Ordinary StreamModel StreamSpec StreamCausal StreamCompile PlainSpec Plain PlainQuery.
Import ListNotations.

(** Direct queries are compiled to what PlainQuery.v is about. *)
Lemma direct_compiled : forall strict segs t o t', Forall direct_segment segs -> compile_segments (compile_segment strict) segs t = Some (o, t') -> slim_opt o /\ t' = t.
Proof.
  intros strict segs t o t' D. revert o t'. induction D as [|seg segs [s [-> [ON NF]]] D IH]; intros o t' E; cbn [compile_segments] in E; [injection E as <- <-; split; [exact I|reflexivity]|].
  destruct (compile_segments (compile_segment strict) segs t) as [[fo t1]|] eqn:E1; [|discriminate]. destruct (IH _ _ eq_refl) as [SO ->].
  change (compile_segment strict (JSegment false [s]) fo t) with (let? (l, t1) := compile_list (compile_selector strict) [s] t in Some (Seg l (max_lookahead l) false strict fo, t1)) in E.
  cbn [compile_list] in E. destruct (compile_selector strict s t) as [[s' t2]|] eqn:E2; [|discriminate]. injection E as <- <-.
  destruct (onward_compiled _ _ _ _ _ ON E2) as [R1 R2].
  assert (T2 : t2 = t /\ match s' with SFilter _ => False | _ => True end).
  { destruct s as [n| |i|a b st|c]; try (cbn in E2; injection E2 as <- <-; split; [reflexivity|exact I]). destruct NF. }
  destruct T2 as [-> T2]. split; [|reflexivity]. cbn [slim_opt slim]. split.
  - unfold max_lookahead. cbn [fold_left]. destruct (0 <? sel_lookahead s')%Z; lia.
  - split; [reflexivity|]. split; [exists s'; split; [reflexivity|split; assumption]|exact SO].
Qed.
Lemma direct_runner : forall strict segs r, Forall direct_segment segs -> compile strict (JQuery true segs) = Some r -> slim_runner r.
Proof.
  intros strict segs r D E. unfold compile in E. destruct (compile_query strict _ _) as [[m t]|] eqn:C; [|discriminate]. injection E as <-.
  change (compile_query strict (JQuery true segs) (mkTables [] [])) with (let? (first, t1) := compile_segments (compile_segment strict) segs (mkTables [] []) in Some (QFirst first, t1)) in C.
  destruct (compile_segments (compile_segment strict) segs (mkTables [] [])) as [[fo t1]|] eqn:E1; [|discriminate]. injection C as <- <-.
  destruct (direct_compiled _ _ _ _ _ D E1) as [S0 ->]. split; [reflexivity|]. split; [reflexivity|exact S0].
Qed.

(** For every input, JSON or not.  [emits] (StreamModel.v) is the log of what is
    written, with what had not been received of the input at that time. *)
Theorem C58_direct_queries : forall find strict grow segs r,
  Forall direct_segment segs -> compile strict (JQuery true segs) = Some r ->
  forall input n m,
    let program := run_stream find n r in
    let log := emits grow m program (start input) in
    (* the results are pieces of the input, from left to right, each written
       when it is received: nothing after it has been asked for *)
    pieces input log /\
    (* they are the output *)
    (forall h' out, irun grow m program (start input) = Ok (h', out) -> out = concat (map fst log)) /\
    (* and nothing is ever kept *)
    Forall (fun h => h_pool h = []) (heaps grow m program (start input)).
Proof.
  intros find strict grow segs r D E input n m program log.
  assert (L : lone (start input)).
  { constructor; cbn; auto; [intros [|c] x N; discriminate|]. intros [|[|i]] x N; cbn in N; try discriminate. injection N as <-. reflexivity. }
  destruct (track_sound grow _ m program _ FNone [] (start input) input (track_stream find n r n [] FNone (direct_runner _ _ _ D E)) L eq_refl) as [P [H O]].
  split; [exact P|]. split.
  - intros h' out R. destruct (O h' out R) as [f' Q]. cbn in Q. symmetry. exact Q.
  - eapply Forall_impl; [|exact H]. intros h LH. exact (ln_pool h LH).
Qed.
Print Assumptions C58_direct_queries.

(* ------------------------------------------------------------------ *)
(** Direct queries are ordinary. *)
Lemma direct_ordinary : forall segs, Forall direct_segment segs -> ordinary (JQuery true segs).
Proof.
  intros segs D. cbn [ordinary]. induction D as [|seg segs [s [-> [ON NF]]] D IH]; [exact I|]. split; [|exact IH].
  change ((false = true -> length [s] = 1) /\ ordinary_selector s /\ True). split; [discriminate|]. split; [|exact I].
  destruct s as [n| |i|a b st|c]; try exact I.
  - cbn in *. unfold safe, from_start in *. lia.
  - destruct ON as [A [B S0]]. cbn. unfold safe_opt, from_start_opt, safe, from_start in *.
    split; [destruct a; auto; lia|]. split; [destruct b; auto; lia|]. split; [exact S0|]. right. destruct a; auto. lia.
  - destruct NF.
Qed.

(** The entries of a log logged before the rest of the input gets shorter than
    [k]. *)
Lemma pieces_shorter : forall ts E, pieces ts E -> Forall (fun e => length (snd e) <= length ts) E.
Proof.
  induction 1 as [ts|b p r E H IH]; constructor; [cbn; rewrite !app_length; lia|]. eapply Forall_impl; [|exact IH]. cbn. intros e K. rewrite !app_length. lia.
Qed.
Lemma pieces_split : forall k ts E, pieces ts E -> exists E1 E2, E = E1 ++ E2 /\ Forall (fun e => k <= length (snd e)) E1 /\ Forall (fun e => length (snd e) < k) E2.
Proof.
  intro k. induction 1 as [ts|b p r E H [E1 [E2 [-> [F1 F2]]]]]; [exists [], []; auto|].
  destruct (Nat.le_gt_cases k (length r)) as [GE|LT].
  - exists ((p, r) :: E1), E2. split; [reflexivity|]. split; [constructor; assumption|assumption].
  - exists [], ((p, r) :: E1 ++ E2). split; [reflexivity|]. split; [constructor|]. constructor; [exact LT|].
    eapply Forall_impl; [|apply (pieces_shorter _ _ H)]. cbn. intros e K. lia.
Qed.

(** Take values [vs] and cut their tokens anywhere, at any depth: [seen] has been
    received.  Then the results of which the last token is in [seen] (the part
    [early] of the log for [vs]) are written before anything else is received,
    whatever comes next. *)
Theorem C42_direct_queries_partial : forall matches find strict grow segs r vs seen unseen,
  let q := JQuery true segs in
  Forall direct_segment segs -> compile strict q = Some r ->
  Forall clean vs -> (Z.of_nat (length (stream vs)) < maxint)%Z ->
  stream vs = seen ++ unseen -> unseen <> [] ->
  exists outs,
    (* what the query selects from the values, *)
    Forall2 (fun x l => forall l', nodes matches strict x q x l' <-> l' = l) vs outs /\
    exists N, forall n, N <= n -> exists n0, forall m, n0 <= m ->
      exists early late,
        let log input := emits grow m (run_stream find n r) (start input) in
        (* is what is written for [vs]: pieces of the input, *)
        log (stream vs) = early ++ late /\
        concat (map fst (early ++ late)) = flat_map stream outs /\
        pieces (stream vs) (early ++ late) /\
        (* first those that end in [seen], then those that do not; *)
        Forall (fun e => length unseen <= length (snd e)) early /\
        Forall (fun e => length (snd e) < length unseen) late /\
        (* the former are written whatever comes after [seen], when none of it has been received *)
        forall rest, exists early' late',
          log (seen ++ rest) = early' ++ late' /\
          Forall2 (fun e e' => fst e' = fst e /\ exists a, snd e = a ++ unseen /\ snd e' = a ++ rest) early early'.
Proof.
  intros matches find strict grow segs r vs seen unseen q D E C L ST NE.
  destruct (C34_ordinary_queries_partial matches find strict grow segs r vs E (direct_ordinary segs D) C L) as [outs [NO [N W]]].
  exists outs. split; [exact NO|]. exists N. intros n LN. destruct (W n LN) as [n0 [h' K]]. exists n0. intros m LM.
  destruct (C58_direct_queries find strict grow segs r D E (stream vs) n m) as [P [O _]].
  destruct (pieces_split (length unseen) _ _ P) as [early [late [EL [F1 F2]]]]. exists early, late. cbv zeta. split; [exact EL|]. rewrite <- EL. split; [symmetry; exact (O h' _ (K m LM))|].
  split; [exact P|]. split; [exact F1|]. split; [exact F2|]. intro rest. rewrite ST in EL.
  exact (emits_prefix_part grow _ (run_stream find n r) m seen unseen rest early late NE EL F1).
Qed.
Print Assumptions C42_direct_queries_partial.

(* ------------------------------------------------------------------ *)
(** Non-vacuity: [$.a[*].b]. *)
Definition exp_segs : list jsegment := [JSegment false [JName [97%N]]; JSegment false [JWild]; JSegment false [JName [98%N]]].
Example exp_direct : Forall direct_segment exp_segs.
Proof. repeat constructor; eexists; (split; [reflexivity|]); split; exact I. Qed.
Definition exp_value : jval := JObj [(key 97, JArr [ex_item 2 3; ex_item 1 4; ex_item 4 1] false)] false.
Example exp_clean : clean exp_value.
Proof.
  assert (D : forall n, (1 <= n <= 4)%N -> comparable (num n)) by (intros n H; constructor; now apply num_decent).
  assert (IT : forall a b, (1 <= a <= 4)%N -> (1 <= b <= 4)%N -> comparable (ex_item a b)).
  { intros a b A B. constructor; [repeat (constructor; [apply key_decent; lia|now apply D|]); constructor|]. repeat constructor. apply key_differ; [lia|lia|vm_compute; reflexivity]. }
  split; [|split].
  - constructor; [|repeat constructor]. constructor; [apply key_decent; lia| |constructor]. constructor. repeat (constructor; [apply IT; lia|]). constructor.
  - intros l e m J K. cbn in J. repeat match goal with H : _ \/ _ |- _ => destruct H | H : False |- _ => destruct H | H : JArr _ _ = JObj _ _ |- _ => discriminate H | H : JScalar _ = JObj _ _ |- _ => discriminate H end;
      match goal with H : _ = JObj _ _ |- _ => try discriminate H; injection H as <- <- end; cbn in K; repeat match goal with H : _ \/ _ |- _ => destruct H | H : False |- _ => destruct H end; subst m; reflexivity.
  - cbn. lia.
Qed.
(** All the hypotheses of C42_direct_queries_partial are met, with the input cut inside
    the second object of the array. *)
Example exp_cut : forall strict, exists r, compile strict (JQuery true exp_segs) = Some r /\
  stream [exp_value] = firstn 12 (stream [exp_value]) ++ skipn 12 (stream [exp_value]) /\ skipn 12 (stream [exp_value]) <> [] /\
  (Z.of_nat (length (stream [exp_value])) < maxint)%Z.
Proof. intro strict. eexists. split; [reflexivity|]. split; [now rewrite firstn_skipn|]. split; [discriminate|]. unfold maxint. cbn. lia. Qed.
(** The log when what follows is not JSON: the first result has been written,
    with only the tokens up to its end received. *)
Example exp_log : forall find, exists r, compile false (JQuery true exp_segs) = Some r /\
  emits (fun _ _ => 1%Z) 1000 (run_stream find 100 r) (start (firstn 10 (stream [exp_value]) ++ [TEndArr])) =
    [([TScalar (new_scalar TNum [51%N])], skipn 8 (firstn 10 (stream [exp_value])) ++ [TEndArr])].
Proof. intro find. eexists. split; [reflexivity|]. vm_compute. reflexivity. Qed.
(** Other queries do keep tokens: [$.a[-1]] has pools. *)
Example exp_keeps : forall find, exists r, compile false (JQuery true [JSegment false [JName [97%N]]; JSegment false [JIndex (-1)]]) = Some r /\
  Exists (fun h => h_pool h <> []) (heaps (fun _ _ => 1%Z) 1000 (run_stream find 100 r) (start (stream [exp_value]))).
Proof.
  intro find. eexists. split; [reflexivity|]. apply Exists_exists.
  match goal with |- exists x, In x ?l /\ _ => set (L := l) end.
  exists (nth 6 L (start [])). split; [apply nth_In; vm_compute; lia|]. vm_compute. discriminate.
Qed.

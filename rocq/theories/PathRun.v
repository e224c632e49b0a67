(** The runner writes the nodes that the query selects. *)
From Coq Require Import List ZArith NArith Arith Bool Lia.
From Verif Require Import Base Tokens JsonSpec IterModel IterSpec P_Scalar P_Equal SelectModel SelectSpec P_Select CursorModel
  PathModel PathAbs PathPure PathSim PathBody PathSing PathComp PathFun PathMain PathTop PathAst PathSpec PathTame PathMarks PathSel PathVal PathStep PathInd CompileModel PathRfc.

Section Run.
Variable matches : bytes -> bytes -> Prop.
Variable find : bytes -> bytes -> option (nat * nat).
Variable strict : bool.
Variable root : jval.
Hypothesis root_clean : clean root.
Notation nodes := (nodes matches strict root).
Notation good := (good matches find strict root).
Notation covers := (covers matches strict root).
Notation cov_inner := (cov_inner matches strict root).

Lemma not_scalar_node : forall x, ~ scalar_node x -> not_scalar x.
Proof. intros [s|l e|l e] H; cbn in *; auto. Qed.

Lemma inner_values_ok : forall sing t, good t -> cov_sing root (tb_sing t) sing -> forall post pre done, tb_inner t = pre ++ post -> length done = length pre -> cov_inner pre done ->
  fine_queries find sing done (map snd post) root /\ cov_inner (pre ++ post) (inner_values find sing done (map snd post) root).
Proof.
  intros sing t [GS GI] CS. induction post as [|e post IH]; intros pre done E L C; cbn [map fine_queries inner_values].
  - rewrite app_nil_r. split; [exact Logic.I|exact C].
  - destruct (GI pre e post E) as (AB & [NS [SQ [TQ FT]]] & SI & H). destruct (H sing done CS C) as [FQ HN].
    set (r := sem_query find sing done (snd e) root) in *.
    assert (C' : cov_inner (pre ++ [e]) (done ++ [r])).
    { intros i e' N. destruct (lt_dec i (length pre)) as [LI|LI].
      - rewrite nth_error_app1 in N by exact LI. rewrite nth_error_app1 by lia. now apply C.
      - assert (i = length pre) as -> by (assert (i < length (pre ++ [e])) by (apply nth_error_Some; congruence); rewrite app_length in *; cbn [length] in *; lia).
        rewrite nth_error_app2, Nat.sub_diag in N by lia. injection N as <-. rewrite <- L, nth_error_app2, Nat.sub_diag by lia. exists r. split; [reflexivity|exact HN]. }
    destruct (IH (pre ++ [e]) (done ++ [r])) as [F1 F2]; [now rewrite E, <- app_assoc|rewrite !app_length; cbn; lia|exact C'|]. rewrite <- app_assoc in F2. cbn [app] in F2.
    split; [|exact F2]. split; [now apply not_scalar_node|]. split; [exact FQ|]. split; [exact SI|]. split; [|exact F1]. apply FT. now apply HN.
Qed.

Theorem runner_ok : forall segs r, compile strict (JQuery true segs) = Some r -> tame matches find strict (JQuery true segs) root ->
  fine_runner find r root /\ forall l, nodes (JQuery true segs) root l <-> l = query_values find r root.
Proof.
  intros segs r E (SQ & TQ & IQ). set (q := JQuery true segs) in *. unfold compile in E. destruct (compile_query strict q (mkTables [] [])) as [[r0 t]|] eqn:EC; [|discriminate]. injection E as <-.
  assert (G0 : good (mkTables [] [])).
  { split; [intros e []|]. intros pre e post H. destruct pre; discriminate. }
  destruct (proj1 (all_goals matches find strict root root_clean) q _ _ _ EC G0 IQ) as (G & _ & SS & _ & H).
  unfold fine_runner, query_values. cbn [rn_singular rn_queries rn_main]. set (sing := singular_values (map snd (tb_sing t)) root).
  assert (CS : cov_sing root (tb_sing t) sing).
  { intros i e N. unfold sing, singular_values. rewrite map_map. apply (map_nth_error (fun e => singular (snd e) root)). exact N. }
  destruct (inner_values_ok sing t G CS (tb_inner t) [] []) as [FQ CI]; [reflexivity|reflexivity|intros i e N; destruct i; discriminate|]. cbn [app] in CI.
  destruct (H sing _ (conj CS CI) root root_clean SQ TQ) as [FM HN]. split; [|exact HN]. split; [|split; [exact FQ|split; [exact FM|now apply SS]]].
  apply Forall_forall. intros c J. apply in_map_iff in J as [e [<- J]]. destruct (proj1 G e J) as [l [-> [NS [SL [y SY]]]]]. cbn [snd].
  destruct (steps_iff l root root_clean SL) as [A [B D]]. change (steps l root (Some y)) in SY. apply A in SY. split; [now apply not_scalar_node|]. split; [exact B|].
  exists y. split; [now symmetry|]. rewrite <- SY in D. destruct D as [_ [_ D]]. unfold fits. cbn [stream flat_map]. rewrite app_nil_r. unfold maxint. lia.
Qed.
End Run.

Theorem path_runs : forall matches find strict grow segs r vs,
  compile strict (JQuery true segs) = Some r ->
  Forall clean vs -> Forall (tame matches find strict (JQuery true segs)) vs ->
  (Z.of_nat (length (stream vs)) < maxint)%Z ->
  exists outs,
    Forall2 (fun x l => forall l', nodes matches strict x (JQuery true segs) x l' <-> l' = l) vs outs /\
    exists N, forall n, N <= n -> exists n0 h', forall m, n0 <= m ->
      irun grow m (run_stream find n r) (IterModel.start (stream vs)) = Ok (h', flat_map stream outs).
Proof.
  intros matches find strict grow segs r vs E C T L. rewrite Forall_forall in C, T.
  exists (map (query_values find r) vs). split.
  - assert (K : forall x, In x vs -> forall l', nodes matches strict x (JQuery true segs) x l' <-> l' = query_values find r x).
    { intros x J. apply (runner_ok matches find strict x (C x J) segs r E (T x J)). }
    clear - K. induction vs as [|x vs IH]; constructor; [apply K; now left|apply IH; intros; apply K; now right].
  - destruct (run_stream_ok find grow r vs) as [N H]; [|exact L|].
    + apply Forall_forall. intros x J. apply (runner_ok matches find strict x (C x J) segs r E (T x J)).
    + exists N. intros n LN. destruct (H n LN) as [n0 [h' K]]. exists n0, h'. intros m Lm. rewrite (K m Lm). now rewrite !flat_map_concat_map, map_map.
Qed.

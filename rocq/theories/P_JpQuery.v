(** C53: jp with a query, from the bytes read to the bytes written. *)
From Coq Require Import List Arith ZArith NArith Bool Lia.
From Verif Require Import Base Tokens ScannerModel ScannerSpec ProgModel JsonDecValue JsonSpec EncSpec PrinterModel JsonEncModel JpvEncModel
  JsonDecModel P_JsonDec P_JsonEnc MainModel P_Main
  IterModel P_Scalar P_Equal SelectModel SelectSpec P_Select CursorModel EqualSpec
  PathModel PathTop PathAst PathSpec PathTame PathMarks PathStep PathSel PathRfc CompileModel PathRun P_Path.

(** The program [r] turns the tokens [ts] into the tokens [out] (as [writes] in
    P_Path.v, which is for the tokens of complete values). *)
Definition turns find grow (r : runner) (ts out : list token) : Prop :=
  exists N, forall n, N <= n -> exists n0 h', forall m, n0 <= m ->
    irun grow m (run_stream find n r) (IterModel.start ts) = Ok (h', out).

(** [jp -in json -out json QUERY], the query compiled to [r], on the input read
    from [rd]: the decoder returns [x] and the process ends with [oc].
    main.go:143-261. *)
Definition queries find grow (o : jp_options) (r : runner) (rd : reader) (x : dres unit) (oc : outcome) : Prop :=
  exists size ts out, 2 <= size /\ decodes rd size ts x /\ turns find grow r ts out /\ leaves_behind o false None out oc.

Lemma turns_unique : forall find grow r ts a b, turns find grow r ts a -> turns find grow r ts b -> a = b.
Proof.
  intros find grow r ts a b [N H] [N' H']. destruct (H (N + N')) as [n0 [h K]]; [lia|]. destruct (H' (N + N')) as [n0' [h' K']]; [lia|].
  specialize (K (n0 + n0') ltac:(lia)). specialize (K' (n0 + n0') ltac:(lia)). congruence.
Qed.

(** What holds for the value of the input and for the children of every value for
    which it holds, holds for all nodes. *)
Section Closed.
  Variable P : jval -> Prop.
  Hypothesis closed : forall x, P x -> Forall P (children x).
  Lemma closed_descendants : forall x, P x -> Forall P (descendants x).
  Proof.
    apply (children_ind (fun x => P x -> Forall P (descendants x))). intros x IH PX. rewrite descendants_eq. constructor; [exact PX|].
    pose proof (closed x PX) as C. apply Forall_forall. intros y J. apply in_flat_map in J as [z [Z J]].
    rewrite Forall_forall in C. specialize (IH z Z (C z Z)). rewrite Forall_forall in IH. auto.
  Qed.
  Lemma closed_segment : forall matches strict root seg x l, P x -> segment_nodes matches strict root seg x l -> Forall P l.
  Proof.
    intros matches strict root [desc sels] x l PX H. apply Forall_forall. intros y Y.
    assert (S1 : In y (flat_map children (descendants x))).
    { cbn [PathSpec.segment_nodes] in H. destruct desc; [destruct strict|].
      - destruct H as [ls [F ->]]. clear PX. induction F as [|z b zs bs [is [_ ->]] F IHF]; [destruct Y|]. cbn [concat flat_map] in *. apply in_or_app.
        apply in_app_or in Y as [Y|Y]; [left; eapply pick_in; exact Y|right; auto].
      - eapply walk_sub; eauto.
      - destruct H as [is [_ ->]]. rewrite descendants_eq. cbn [flat_map]. apply in_or_app. left. eapply pick_in; exact Y. }
    apply in_flat_map in S1 as [z [Z J]]. pose proof (closed_descendants x PX) as D. rewrite Forall_forall in D.
    pose proof (closed z (D z Z)) as C. rewrite Forall_forall in C. auto.
  Qed.
  Lemma closed_nodes : forall matches strict x segs l, P x -> nodes matches strict x (JQuery true segs) x l -> Forall P l.
  Proof.
    intros matches strict root segs l PX H. rewrite nodes_path in H. assert (C : Forall P [root]) by (constructor; auto).
    revert l H C. generalize [root] as xs. induction segs as [|seg segs IH]; intros xs l H C; cbn [path] in H; [now subst|].
    destruct H as [ls [F H]]. eapply IH; [exact H|]. clear H. induction F as [|x b xs bs HX F IHF]; [constructor|].
    inversion C; subst. cbn [concat]. apply Forall_app. split; [eapply closed_segment; eauto|auto].
  Qed.
End Closed.

Definition settled (x : jval) : Prop := valid true x /\ canon x = x.
Lemma settled_closed : forall x, settled x -> Forall settled (children x).
Proof.
  intros x [V E]. inversion V as [s W|l W|l W]; subst; cbn [children]; [constructor| |].
  - cbn [canon] in E. assert (E' : map canon l = l) by (injection E; auto). clear E V.
    induction W as [|y l H W IH]; [constructor|]. cbn [map] in E'. constructor; [split; [exact H|now injection E']|apply IH; now injection E'].
  - cbn [canon] in E.
    assert (E' : map (fun m => (key_scalar (contents (sc_bytes (fst m))), canon (snd m))) l = l) by (injection E; auto). clear E V.
    induction W as [|[k y] l H W IH]; [constructor|]. cbn [map fst snd] in E'. cbn [map fst snd] in *. constructor.
    + split; [exact (proj2 H)|now injection E'].
    + apply IH. now injection E'.
Qed.

Lemma stext_settled : forall vs t, stext true ws_separated vs t -> Forall settled vs.
Proof.
  intros vs t T. induction T as [|w v t vs r0 W V _ S A]; [constructor|]. constructor; [|exact A].
  destruct (vtext_canon true) as [H _]. exact (H v t V).
Qed.
Lemma settled_fix : forall l, Forall settled l -> map canon l = l /\ Forall (valid true) l.
Proof. induction 1 as [|x l [V E] F [A B]]; [auto|]. cbn [map]. rewrite E, A. auto. Qed.

(** C53.  For every valid JSON text [t] of the values [vs], however it is
    delivered: jp leaves behind a valid JSON text of the nodes that RFC 9535
    gives for each of them, one after the other, and the status 0; and this
    outcome depends on nothing else. *)
Theorem C53_query_end_to_end_partial :
  forall matches find grow strict segs r (o : jp_options) (t : bytes) (vs : list jval),
    let q := JQuery true segs in
    json_options o -> compile strict q = Some r ->
    stext true ws_separated vs t ->
    Forall clean vs -> Forall (tame matches find strict q) vs ->
    (Z.of_nat (length (stream vs)) < maxint)%Z ->
    exists nodelists t',
      Forall2 (fun x l => forall l', nodes matches strict x q x l' <-> l' = l) vs nodelists /\
      stext true ws_separated (concat nodelists) t' /\
      forall rd, delivers rd t ->
        queries find grow o r rd (DOk tt) (mkOutcome t' 0) /\
        forall x oc, queries find grow o r rd x oc -> x = DOk tt /\ oc = mkOutcome t' 0.
Proof.
  intros matches find grow strict segs r o t vs q [J NC] E T C TM L.
  destruct (C34_rfc9535_partial matches find strict grow segs r vs E C TM L) as [outs [F W]]. fold q in F.
  assert (W' : turns find grow r (stream vs) (stream (concat outs))).
  { replace (stream (concat outs)) with (flat_map stream outs); [exact W|].
    clear. unfold stream. induction outs as [|l outs IH]; [reflexivity|]. cbn [flat_map concat]. now rewrite flat_map_app, IH. }
  assert (S : Forall settled (concat outs)).
  { pose proof (stext_settled _ _ T) as S. clear - F S. induction F as [|x l vs outs H F IH]; [constructor|]. inversion S; subst. cbn [concat].
    apply Forall_app. split; [|auto]. eapply (closed_nodes settled settled_closed); [eassumption|]. apply H. reflexivity. }
  destruct (settled_fix _ S) as [FX V].
  destruct (C13_round_trip (mkSettings (jo_color o) (jo_width o) 2 (jo_indent o) (jo_tty o)) true _ NC V) as [out [EN [ST _]]].
  rewrite FX in ST. exists outs, out. split; [exact F|]. split; [exact ST|]. intros rd [I [K FN]]. rewrite <- I in T.
  pose proof (fun size SZ => C07_valid_json_is_decoded rd size vs SZ K FN T) as D.
  assert (LB : leaves_behind o false None (stream (concat outs)) (mkOutcome out 0)).
  { eapply C49_complete_output; [eapply prints_encodes; eauto|discriminate]. }
  split.
  - exists 16, (stream vs), (stream (concat outs)). split; [lia|]. split; [apply D; lia|]. split; [exact W'|exact LB].
  - intros x oc (size & ts & out' & SZ & D' & TU & LB'). destruct (decodes_unique _ _ _ _ _ _ D' (D size SZ)) as [-> ->].
    rewrite (turns_unique _ _ _ _ _ _ TU W') in LB'. split; [reflexivity|]. exact (leaves_unique _ _ _ _ _ _ LB' LB).
Qed.
Print Assumptions C53_query_end_to_end_partial.

(** [jp '$[1:]'] on the text [[1,2,3] [4]]. *)
Definition ex53_segs : list jsegment := [JSegment false [JSlice (Some 1%Z) None 1%Z]].
Definition ex53_vals : list jval := [JArr [num 1; num 2; num 3] false; JArr [num 4] false].
Definition ex53_text : bytes := [91; 49; 44; 50; 44; 51; 93; 32; 91; 52; 93]%N.
Lemma ex53_digit : forall n, (1 <= n <= 4)%N -> vtext true (num n) [(48 + n)%N].
Proof.
  intros n H. apply vt_num. exists [], [(48 + n)%N], [], []. split; [reflexivity|]. split; [now left|]. split.
  - right. exists (48 + n)%N, []. split; [reflexivity|]. split; [lia|constructor].
  - split; now left.
Qed.
Example C53_hypotheses : forall matches find strict,
  json_options default_options /\
  (exists r, compile strict (JQuery true ex53_segs) = Some r) /\
  stext true ws_separated ex53_vals ex53_text /\
  Forall clean ex53_vals /\ Forall (tame matches find strict (JQuery true ex53_segs)) ex53_vals /\
  (Z.of_nat (length (stream ex53_vals)) < maxint)%Z.
Proof.
  intros matches find strict. split; [split; reflexivity|]. split; [eexists; reflexivity|]. split.
  { assert (W : ws []) by constructor.
    change ex53_text with ([] ++ (91 :: [49; 44; 50; 44; 51] ++ [93]) ++ [32; 91; 52; 93])%N. constructor; [exact W| | |].
    - apply vt_arr. apply (el_cons true [] (num 1) [49%N] [] _ _ W (ex53_digit 1 ltac:(lia)) W).
      apply (el_cons true [] (num 2) [50%N] [] _ _ W (ex53_digit 2 ltac:(lia)) W). apply (el_one true [] (num 3) [51%N] [] W (ex53_digit 3 ltac:(lia)) W).
    - right. eexists _, _. split; [reflexivity|]. unfold ws_byte. lia.
    - change [32; 91; 52; 93]%N with ([32] ++ (91 :: [52] ++ [93]) ++ [])%N. constructor; [|apply vt_arr, (el_one true [] (num 4) [52%N] [] W (ex53_digit 4 ltac:(lia)) W)|now left|constructor; exact W].
      repeat constructor. }
  assert (CL : forall l, Forall (fun x => exists n, x = num n /\ (1 <= n <= 4)%N) l -> length l <= 3 -> clean (JArr l false)).
  { intros l F LN. split; [|split].
    - constructor. induction F as [|x l [n [-> H]] F IH]; constructor; [constructor; now apply num_decent|apply IH; cbn in LN; lia].
    - intros l' e m J K. cbn in J. destruct J as [J|J]; [discriminate|]. apply in_flat_map in J as [y [Y J]]. rewrite Forall_forall in F.
      destruct (F y Y) as [n [-> _]]. cbn in J. destruct J as [J|[]]. discriminate.
    - destruct l as [|a [|b [|c [|]]]]; cbn [length] in LN; try lia;
        repeat match goal with F : Forall _ (_ :: _) |- _ => inversion F as [|? ? [? [-> _]] ?]; subst; clear F end; cbn; lia. }
  split; [|split].
  - constructor; [|constructor; [|constructor]]; apply CL; cbn; try lia; repeat (constructor; [eexists; split; [reflexivity|lia]|]); constructor.
  - repeat constructor; try discriminate; try (intros; exact I); try exact I; cbn; try lia; unfold safe; try lia.
  - vm_compute. reflexivity.
Qed.

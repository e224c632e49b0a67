(** The JPV decoder ends on every input, normally or by a panic. *)
From Coq Require Import List Arith ZArith NArith Bool Lia.
From Verif Require Import Base Tokens ScannerModel ScannerSpec ScannerProofs ProgModel ProgProofs
  JsonDecModel JsonSpec JsonDecProofs JsonDecValue P_JsonDec
  ScalarModel ScalarSpec ScalarProofs JpvDecModel JpvSpec JpvProofs.

(** [wr E a p Q]: on a buffered scanner that simulates [a] the program does not
    exhaust its loop bounds; unless it panics or its result is in [E], the final
    scanner simulates a plain one that satisfies [Q]. *)
Definition wr {A} (E : A -> Prop) (a : ast) (p : prog A) (Q : ast -> A -> Prop) : Prop :=
  forall c, sim a c ->
    match prun cstep c p with
    | Ok (c', _, x) => E x \/ exists a', sim a' c' /\ Q a' x
    | Panic => True
    | OutOfFuel => False
    end.

Lemma wr_runs : forall A (E : A -> Prop) a p (Q : ast -> A -> Prop),
  runs a p (fun a' _ x => E x \/ Q a' x) -> wr E a p Q.
Proof.
  intros A E a p Q [a' [ts [x [R H]]]] c SM.
  destruct (prun_sim _ _ _ _ _ _ _ SM R) as [c' [C S']]. rewrite C.
  destruct H as [H|H]; [now left|right; eauto].
Qed.

Lemma prun_bind_any : forall S (step : S -> sop -> res (S * sobs)) A B (p : prog A) (f : A -> prog B) s,
  prun step s (pbind p f) =
  match prun step s p with
  | Ok (s1, t1, x) => match prun step s1 (f x) with
                      | Ok (s2, t2, y) => Ok (s2, t1 ++ t2, y)
                      | Panic => Panic
                      | OutOfFuel => OutOfFuel
                      end
  | Panic => Panic
  | OutOfFuel => OutOfFuel
  end.
Proof.
  intros S step A B p f. induction p as [x|o k IH|t k IH|]; intros s; cbn [pbind prun].
  - destruct (prun step s (f x)) as [[[s2 t2] y]| |]; reflexivity.
  - destruct (step s o) as [[s1 x]| |]; auto.
  - rewrite IH. destruct (prun step s k) as [[[s1 t1] x]| |]; auto.
    destruct (prun step s1 (f x)) as [[[s2 t2] y]| |]; reflexivity.
  - reflexivity.
Qed.

Lemma wr_bind_any : forall A B (E : A -> Prop) (E' : B -> Prop) a (p : prog A) (f : A -> prog B) Q,
  wr E a p (fun a' x => wr E' a' (f x) Q) ->
  (forall x, E x -> forall c, match prun cstep c (f x) with
                              | Ok (_, _, y) => E' y | Panic => True | OutOfFuel => False end) ->
  wr E' a (pbind p f) Q.
Proof.
  intros A B E E' a p f Q H K c SM. specialize (H c SM). rewrite prun_bind_any.
  destruct (prun cstep c p) as [[[c1 t1] x]| |]; auto. destruct H as [H|[a1 [S1 H]]].
  - specialize (K x H c1). destruct (prun cstep c1 (f x)) as [[[c2 t2] y]| |]; auto.
  - specialize (H c1 S1). destruct (prun cstep c1 (f x)) as [[[c2 t2] y]| |]; auto.
Qed.

Lemma wr_bind : forall A B (E : A -> Prop) (E' : B -> Prop) a (p : prog A) (f : A -> prog B) Q,
  wr E a p (fun a' x => wr E' a' (f x) Q) ->
  (forall x, E x -> exists y, f x = Ret y /\ E' y) ->
  wr E' a (pbind p f) Q.
Proof.
  intros A B E E' a p f Q H K. eapply wr_bind_any; [exact H|].
  intros x X c. destruct (K x X) as [y [-> Y]]. exact Y.
Qed.

Lemma wr_conseq : forall A (E : A -> Prop) a (p : prog A) (Q Q' : ast -> A -> Prop),
  wr E a p Q -> (forall a' x, Q a' x -> Q' a' x) -> wr E a p Q'.
Proof.
  intros A E a p Q Q' H K c SM. specialize (H c SM).
  destruct (prun cstep c p) as [[[c1 t1] x]| |]; auto. destruct H as [H|[a1 [S1 H]]]; eauto.
Qed.

Lemma wr_ret : forall A (E : A -> Prop) a (x : A) (Q : ast -> A -> Prop), E x \/ Q a x -> wr E a (Ret x) Q.
Proof. intros A E a x Q H c SM. cbn [prun]. destruct H; [now left|right; eauto]. Qed.

Lemma wr_emit_all : forall A (E : A -> Prop) ts a (p : prog A) Q, wr E a p Q -> wr E a (emit_all ts p) Q.
Proof.
  intros A E ts a p Q H c SM. specialize (H c SM). induction ts as [|t ts IH]; cbn [emit_all]; [exact H|].
  cbn [prun]. destruct (prun cstep c (emit_all ts p)) as [[[c1 t1] x]| |]; auto.
Qed.

(** The result is not a success. *)
Definition bad {A} (x : jres A) : Prop := match x with JOk _ => False | _ => True end.

Lemma wr_back_unexpected : forall A a (Q : ast -> jres A -> Prop), wr bad a back_unexpected Q.
Proof.
  intros A a Q c SM. unfold back_unexpected, unexpected_byte, op_unit, op_byte.
  cbn [pbind prun cstep]. unfold c_back.
  destruct ((c_cur c <=? 0) || _); [exact I|]. destruct (c_prev c) as [pr|]; [|exact I].
  assert (G : forall c1, match prun cstep c1 (Op SPos (fun _ => Op SRead (fun x =>
      pbind (match ProgModel.byte_of x with DErr e => Ret (DErr e) | DOk _ => Ret (DErr DSyntax) end)
            (fun r => Ret (@jlift A r))))) with
    | Ok (c', _, x) => bad x \/ exists a', sim a' c' /\ Q a' x
    | Panic => True | OutOfFuel => False end).
  { intros c1. cbn [prun cstep]. unfold c_read.
    set (s := if c_fill c1 <=? c_cur c1 then fill_buf c1 else c1). cbv zeta.
    destruct (c_cur s <? c_fill s).
    - destruct (nth_error (c_buf s) (c_cur s)); [|exact I]. cbn. auto.
    - destruct (c_err s) as [[[]|]|]; cbn; auto. }
  destruct (c_eof c); apply G.
Qed.

Ltac wr_jbindd := unfold jbindd; apply (wr_bind _ _ (fun x => exists e, x = DErr e) bad);
  [|intros x0 [e0 ->]; eexists; split; [reflexivity|exact I]].
Ltac wr_jbind := unfold jbind; apply (wr_bind _ _ bad bad);
  [|intros [x0|e0|] BX; [contradiction| |]; eexists; (split; [reflexivity|exact I])].
Ltac wr_let := apply (wr_bind _ _ (fun _ => False) bad); [|intros ? []].

Section Fin.
Variable fin : rerr.
Notation st := (st fin).
Notation peeked := (peeked fin).

Lemma read_any : forall a s tk, st a s tk ->
  wr (fun x => exists e, x = DErr e) a (op_byte_eof SRead)
    (fun a' x => exists b r, x = DOk b /\ s = b :: r /\ b <> EOFb /\ peeked a' s tk b).
Proof.
  intros a s tk S. apply wr_runs. destruct s as [|b r].
  - destruct S as [I [T [E F]]]. destruct (a_fin a) eqn:FA.
    + eapply runs_op; [simpl; rewrite I, FA; reflexivity|]. apply runs_ret. left. simpl. eauto.
    + eapply runs_op; [simpl; rewrite I, FA; reflexivity|]. apply runs_ret. left. simpl. eauto.
  - unfold op_byte_eof. apply runs_bind. eapply runs_conseq; [apply wp_read_cons; eauto|].
    cbv beta. intros a1 t x [-> [-> P]]. apply runs_ret. simpl.
    destruct (N.eqb_spec b EOFb); [left; eauto|]. right. exists b, r. auto.
Qed.

Lemma name_loop_any : forall f a s tk, st a s (Some tk) -> length s < f ->
  wr bad a (name_loop f) (fun a' _ => exists s', st a' s' None /\ length s' <= length s).
Proof.
  induction f as [|f IH]; intros a s tk S L; [lia|]. cbn [name_loop]. wr_jbindd.
  eapply wr_conseq; [apply (read_any a s (Some tk) S)|]. cbv beta. intros a1 x [b [r [-> [-> [NE P]]]]].
  destruct (is_alnum b).
  - apply peeked_st in P. destruct P as [S1 B1].
    eapply wr_conseq; [eapply (IH a1 r); [exact S1|simpl in L; lia]|]. cbv beta.
    intros a2 x [s' [S2 L2]]. exists s'. split; [exact S2|simpl; lia].
  - apply wr_runs. apply runs_bind. eapply runs_conseq; [eapply wp_back; eauto|]. cbv beta.
    intros a2 t2 x2 [-> S2]. apply runs_bind. eapply runs_conseq; [eapply wp_end; eauto|]. cbv beta.
    intros a3 t3 x3 [-> [-> S3]]. apply runs_ret. right. exists (b :: r). auto.
Qed.

Lemma parse_path_any : forall f a s acc, st a s None -> length s < f ->
  wr bad a (parse_path f acc) (fun a' _ => exists s', st a' s' None /\ length s' <= length s).
Proof.
  induction f as [|f IH]; intros a s acc S L; [lia|]. cbn [parse_path].
  assert (STEP : forall a1 s1 acc1, st a1 s1 None -> length s1 < length s ->
    wr bad a1 (parse_path f acc1) (fun a' _ => exists s', st a' s' None /\ length s' <= length s)).
  { intros a1 s1 acc1 S1 L1. eapply wr_conseq; [apply (IH a1 s1 acc1 S1); lia|]. cbv beta.
    intros a2 x [s' [S2 L2]]. exists s'. split; [exact S2|lia]. }
  wr_jbindd. eapply wr_conseq; [apply (read_any a s None S)|]. cbv beta.
  intros a1 x [b [r [-> [-> [NE P]]]]].
  destruct (N.eqb b 91).
  - apply peeked_st in P. destruct P as [S1 B1]. cbn [tok_app] in S1. wr_jbindd. apply wr_runs.
    unfold op_byte_eof. apply runs_bind. eapply runs_conseq; [eapply wp_peek; eauto|]. cbv beta.
    intros a2 t x [-> [-> X]]. apply runs_ret.
    destruct r as [|b1 r].
    + left. destruct X as [->|[_ [e ->]]]; simpl; eauto.
    + subst x. cbn [check_eof]. destruct (N.eqb_spec b1 EOFb); [left; eauto|]. right.
      destruct (N.eqb_spec b1 34) as [->|N34].
      * wr_jbindd. apply wr_runs.
        eapply runs_conseq; [apply (parse_string_any fin a1 (34%N :: r) f S1); [discriminate|simpl in *; lia]|].
        cbv beta. intros a2 t [sc|e] [-> H]; [|left; eauto]. right.
        destruct H as [c [r2 [E [C [-> S2]]]]]. injection E as ->.
        wr_jbindd. eapply wr_conseq; [apply (read_any a2 r2 None S2)|]. cbv beta.
        intros a3 x [b3 [r3 [-> [-> [NE3 P3]]]]]. apply peeked_st in P3. destruct P3 as [S3 B3].
        destruct (N.eqb b3 93); [|apply wr_ret; left; exact I].
        apply (STEP a3 r3); [exact S3|]. simpl. rewrite app_length. simpl. lia.
      * wr_let. apply wr_runs. eapply runs_conseq; [eapply wp_start; eauto|]. cbv beta.
        intros a2 t [] [-> S2]. right. destruct f as [|f]; [simpl in L; lia|]. cbn [read_digits].
        unfold jbindd, ebind.
        apply (wr_bind _ _ (fun x => exists e, x = DErr e) bad);
          [|intros x0 [e0 ->]; eexists; split; [reflexivity|exact I]].
        apply (wr_bind _ _ (fun x => exists e, x = DErr e) (fun x => exists e, x = DErr e));
          [|intros x0 [e0 ->]; eexists; split; [reflexivity|eauto]].
        apply wr_runs. eapply runs_conseq; [apply wp_read_cons; eauto|]. cbv beta.
        intros a3 t x [-> [-> P3]]. right.
        destruct (N.eqb b1 EOFb || negb (is_digit b1)).
        { apply wr_ret. right. cbn [Nat.eqb]. apply wr_back_unexpected. }
        apply peeked_st in P3. destruct P3 as [S3 B3]. cbn [tok_app app] in S3. apply wr_runs.
        eapply runs_conseq; [apply (wp_digits_any fin f a3 r _ 1 S3 B3); simpl in L; lia|]. cbv beta.
        intros a4 t [[b4 n4]|e] [-> H]; [|left; eauto]. right.
        destruct H as [ds [s' [-> [F [-> P4]]]]]. cbn [Nat.add Nat.eqb].
        destruct s' as [|c s'].
        { assert (b4 = EOFb) by (eapply peeked_nil; eauto). subst b4.
          destruct P4 as [F4 [B4 [[r4 [E _]]|[_ [_ [FN [I4 [E4 T4]]]]]]]]; [discriminate|].
          apply wr_runs. apply runs_bind. eapply runs_op; [simpl; rewrite T4; reflexivity|].
          apply runs_ret. cbn [N.eqb EOFb Pos.eqb]. apply runs_ret. left. exact I. }
        assert (b4 = c) by (eapply peeked_hd; eauto). subst c.
        apply peeked_st in P4. destruct P4 as [S4 B4]. cbn [tok_app] in S4.
        wr_let. apply wr_runs. eapply runs_conseq; [eapply wp_end; eauto|]. cbv beta.
        intros a5 t5 x5 [-> [-> S5]]. right. destruct (N.eqb b4 93); [|apply wr_ret; left; exact I].
        apply (STEP a5 s'); [exact S5|]. simpl. rewrite app_length. simpl. lia.
  - destruct (N.eqb b 46).
    + apply peeked_st in P. destruct P as [S1 B1]. cbn [tok_app] in S1.
      wr_let. apply wr_runs. eapply runs_conseq; [eapply wp_start; eauto|]. cbv beta.
      intros a2 t [] [-> S2]. right. wr_jbindd. eapply wr_conseq; [apply (read_any a2 r (Some []) S2)|]. cbv beta.
      intros a3 x [b3 [r3 [-> [-> [NE3 P3]]]]]. destruct (is_alpha b3); [|apply wr_back_unexpected].
      apply peeked_st in P3. destruct P3 as [S3 B3]. cbn [tok_app app] in S3.
      wr_jbind. eapply wr_conseq; [apply (name_loop_any f a3 r3 [b3] S3); simpl in L; lia|]. cbv beta.
      intros a4 [t4|e|] [s' [S4 L4]]; [|apply wr_ret; left; exact I..].
      apply (STEP a4 s'); [exact S4|simpl; lia].
    + apply wr_runs. apply runs_bind. eapply runs_conseq; [eapply wp_back; eauto|]. cbv beta.
      intros a2 t [] [-> S2]. apply runs_ret. right. exists (b :: r). auto.
Qed.

(** The result of a line is not a success. *)
Definition bad_line (x : jres unit * list scalar) : Prop := bad (fst x).

Lemma wr_line_end : forall A a (Q : ast -> jres A * list scalar -> Prop) last,
  wr (fun x => bad (fst x)) a (pbind back_unexpected (fun r => Ret (r, last))) Q.
Proof.
  intros A a Q last. apply (wr_bind _ _ bad (fun x => bad (fst x))); [apply wr_back_unexpected|].
  intros x B. exists (x, last). split; [reflexivity|exact B].
Qed.

Lemma skip_read_any : forall a s, st a s None ->
  wr (fun x => exists e, x = DErr e) a (op_byte_eof SSkipRead)
    (fun a' x => exists b r, x = DOk b /\ st a' r None /\ length r < length s).
Proof.
  intros a s S. apply wr_runs. destruct S as [I [T [E F]]].
  assert (LS : length (a_in (a_skip a)) <= length s).
  { unfold a_skip. cbn [a_in]. rewrite skipn_length, I. lia. }
  unfold op_byte_eof. apply runs_bind. destruct (a_in (a_skip a)) as [|b r] eqn:SK.
  - eapply runs_op; [cbn [astep]; rewrite SK; reflexivity|]. apply runs_ret. apply runs_ret. left.
    unfold a_end_obs. destruct (a_fin (a_skip a)); simpl; eauto.
  - eapply runs_op; [cbn [astep]; rewrite SK; reflexivity|]. apply runs_ret. apply runs_ret.
    simpl. destruct (N.eqb_spec b EOFb); [left; eauto|]. right. exists b, r. split; [reflexivity|].
    cbn [length] in LS. split; [|lia]. unfold a_skip in *. repeat split; cbn [a_in a_tok a_eof a_fin] in *; auto.
    now rewrite T.
Qed.

Lemma parse_line_any : forall f a s last, st a s None -> s <> [] -> 2 * length s <= f ->
  wr bad_line a (parse_line f last) (fun a' _ => exists s', st a' s' None /\ length s' < length s).
Proof.
  intros f a s last S NE L. unfold parse_line, bad_line.
  apply (wr_bind _ _ (fun _ => False) (fun x => bad (fst x))); [|intros ? []].
  apply wr_runs. eapply runs_conseq; [apply (wp_expect_any fin a s None 36%N S); now left|]. cbv beta.
  intros a1 t [[]|e] [-> H]; right; [|apply wr_ret; left; exact I].
  destruct H as [[r [-> [S1 B1]]]|[-> _]]; [|congruence]. cbn [tok_app] in S1. simpl in L.
  apply (wr_bind _ _ bad (fun x => bad (fst x)));
    [|intros [x0|e0|] BX; [contradiction| |]; eexists; (split; [reflexivity|exact I])].
  eapply wr_conseq; [apply (parse_path_any f a1 r [] S1); lia|]. cbv beta.
  intros a2 [path|e|] [s2 [S2 L2]]; [|apply wr_ret; left; exact I..].
  apply (wr_bind _ _ (fun x => exists e, x = DErr e) (fun x => bad (fst x)));
    [|intros x0 [e0 ->]; eexists; split; [reflexivity|exact I]].
  eapply wr_conseq; [apply (skip_read_any a2 s2 S2)|]. cbv beta.
  intros a3 x [b [s3 [-> [S3 L3]]]].
  destruct (N.eqb b 61); [|apply wr_line_end].
  destruct (update_path last path) as [ts|e|]; [|apply wr_ret; left; exact I..].
  apply wr_emit_all.
  apply (wr_bind _ _ (fun _ => False) (fun x => bad (fst x))); [|intros ? []].
  apply wr_runs. eapply runs_conseq; [apply (proj1 (values_sound fin f) a3 s3 S3); lia|].
  intros a4 t [[]|e] H; right; [|apply wr_ret; left; exact I].
  destruct H as [w [v [t' [r4 [E [_ [_ [_ S4]]]]]]]]. apply wr_ret. right. exists r4. split; [exact S4|].
  assert (LE : length s3 = length w + (length t' + length r4)) by (rewrite E, !app_length; lia).
  simpl. lia.
Qed.

Lemma emit_all_ends : forall A ts (x : A) c,
  exists ts', prun cstep c (emit_all ts (Ret x)) = Ok (c, ts', x).
Proof.
  intros A ts x c. induction ts as [|t ts [ts' IH]]; cbn [emit_all prun]; [eauto|]. rewrite IH. eauto.
Qed.

Lemma jproduce_any : forall f a s last, st a s None -> 2 * length s + 1 <= f ->
  wr (fun _ => True) a (jproduce f last) (fun _ _ => True).
Proof.
  induction f as [|f IH]; intros a s last S L; [lia|]. cbn [jproduce].
  assert (FIN : forall a1 l (x : jres unit),
    wr (fun _ => True) a1 (emit_all (unwind_path l false) (Ret x)) (fun _ _ => True)).
  { intros a1 l x. apply wr_emit_all. apply wr_ret. now left. }
  apply (wr_bind _ _ (fun _ => False) (fun _ => True)); [|intros ? []].
  apply wr_runs. eapply runs_conseq; [apply wp_skip_raw; eauto|]. cbv beta.
  intros a1 t x [-> [S1 ->]]. right.
  destruct (skipn (ws_len s) s) as [|b r] eqn:SK.
  { destruct fin; [rewrite N.eqb_refl|]; apply FIN. }
  destruct (N.eqb b EOFb); [apply FIN|].
  assert (LS : length (b :: r) <= length s) by (rewrite <- SK, skipn_length; lia).
  apply (wr_bind_any _ _ bad_line (fun _ => True)).
  - eapply wr_conseq; [apply (parse_line_any f a1 (b :: r) last S1); [discriminate|lia]|]. cbv beta.
    intros a2 [[[]|e|] last'] [s' [S2 L2]]; [|apply FIN..]. apply (IH a2 s' last' S2). lia.
  - intros [[[]|e|] last'] B c; [contradiction| |];
      destruct (emit_all_ends (jres unit) (unwind_path last' false)) with (x := @JErr unit e) (c := c) as [? ->]
      || destruct (emit_all_ends (jres unit) (unwind_path last' false) JPanic c) as [? ->]; exact I.
Qed.
End Fin.

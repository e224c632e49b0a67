(** Properties C17-C19: the JPV format. *)
From Coq Require Import List Arith ZArith NArith Bool Lia.
From Verif Require Import Base Tokens ScannerModel ScannerSpec ScannerProofs ProgModel ProgProofs
  JsonDecModel JsonSpec JsonDecProofs JsonDecValue P_JsonDec
  EncSpec PrinterModel JsonEncModel JsonEncProofs P_JsonEnc
  ScalarModel ScalarSpec ScalarProofs P_Scalar
  JpvEncModel JpvDecModel JpvSpec JpvProofs JpvTree JpvValue JpvEncProofs JpvTotal.

(** [encodes_jpv quote indent flusher ts out res]: consuming the tokens [ts]
    the encoder (without colours; [quote] is AlwaysQuoteKeys) writes [out] and
    ends with [res].  [n] only bounds the loops of the model. *)
Definition encodes_jpv (quote : bool) (indent : Z) (flusher : bool) (ts : list token)
    (out : bytes) (res : consumed) : Prop :=
  exists n, forall fuel, n <= fuel ->
    consume_jpv fuel None quote indent flusher None ts = (out, res).

(** [decodes_jpv r size ts x]: reading from [r] through a buffer of [size] bytes
    the decoder ends normally, having emitted [ts] and returning [x]. *)
Definition decodes_jpv (r : reader) (size : nat) (ts : list token) (x : dres unit) : Prop :=
  exists n, forall fuel, n <= fuel -> decode_jpv fuel r size = Ok (ts, x).

(** The decoder panics. *)
Definition jpv_panics (r : reader) (size : nat) : Prop :=
  exists n, forall fuel, n <= fuel -> decode_jpv fuel r size = Panic.

Lemma decodes_jpv_unique : forall r size ts1 x1 ts2 x2,
  decodes_jpv r size ts1 x1 -> decodes_jpv r size ts2 x2 -> ts1 = ts2 /\ x1 = x2.
Proof.
  intros r size ts1 x1 ts2 x2 [n1 H1] [n2 H2].
  specialize (H1 (n1 + n2) ltac:(lia)). specialize (H2 (n1 + n2) ltac:(lia)).
  rewrite H1 in H2. injection H2 as -> ->. auto.
Qed.

(** More fuel does not change a result. *)
Lemma ple_jbind : forall A B (p q : prog (jres A)) (f g : A -> prog (jres B)),
  ple p q -> (forall a, ple (f a) (g a)) -> ple (jbind p f) (jbind q g).
Proof. intros A B p q f g H K. apply ple_bind; [exact H|]. intros [a|e|]; auto using ple_refl. Qed.
Lemma ple_jbindd : forall A B (p q : prog (dres A)) (f g : A -> prog (jres B)),
  ple p q -> (forall a, ple (f a) (g a)) -> ple (jbindd p f) (jbindd q g).
Proof. intros A B p q f g H K. apply ple_bind; [exact H|]. intros [a|e]; auto using ple_refl. Qed.
Lemma ple_emit_all : forall A ts (p q : prog A), ple p q -> ple (emit_all ts p) (emit_all ts q).
Proof. induction ts; intros p q H; cbn [emit_all]; [exact H|]. apply ple_emit. auto. Qed.

Ltac jple_tac :=
  repeat first
    [ assumption
    | apply ple_refl
    | apply ple_stuck
    | match goal with H : forall _, ple _ _ |- _ => apply H end
    | apply ple_jbindd; [|intros]
    | apply ple_jbind; [|intros]
    | apply ple_bind; [|intros]
    | apply ple_emit_all
    | match goal with
      | |- ple (if ?b then _ else _) _ => destruct b
      | |- ple (let '(_, _) := ?x in _) _ => destruct x
      | |- ple (match ?x with _ => _ end) _ => destruct x
      end
    | match goal with H : _ |- _ => apply H end ].

Lemma name_loop_mono : forall f g, f <= g -> ple (name_loop f) (name_loop g).
Proof.
  induction f as [|f IH]; intros g L; [apply ple_stuck|].
  destruct g as [|g]; [lia|]. assert (L' : f <= g) by lia. specialize (IH g L').
  cbn [name_loop]. jple_tac.
Qed.

Lemma parse_path_mono : forall f g acc, f <= g -> ple (parse_path f acc) (parse_path g acc).
Proof.
  induction f as [|f IH]; intros g acc L; [apply ple_stuck|].
  destruct g as [|g]; [lia|]. assert (L' : f <= g) by lia.
  pose proof (fun acc => IH g acc L') as IH'. clear IH.
  pose proof (parse_string_mono f g L'). pose proof (fun n => read_digits_mono f g n L').
  pose proof (name_loop_mono f g L').
  cbn [parse_path]. jple_tac.
Qed.

Lemma parse_line_mono : forall f g last, f <= g -> ple (parse_line f last) (parse_line g last).
Proof.
  intros f g last L. pose proof (fun acc => parse_path_mono f g acc L).
  destruct (values_mono f g L) as [V _]. unfold parse_line. jple_tac.
Qed.

Lemma jproduce_mono : forall f g last, f <= g -> ple (jproduce f last) (jproduce g last).
Proof.
  induction f as [|f IH]; intros g last L; [apply ple_stuck|].
  destruct g as [|g]; [lia|]. assert (L' : f <= g) by lia.
  pose proof (fun last => IH g last L') as IH'. clear IH.
  pose proof (fun last => parse_line_mono f g last L').
  cbn [jproduce]. jple_tac.
Qed.

(** From the plain to the buffered scanner. *)
Lemma decodes_jpv_intro : forall r size ts,
  2 <= size -> ok_runs 99 (rd_chunks r) = true ->
  (exists f, runs (a_init (input r) (rd_fin r)) (jproduce f []) (fun _ ts' x => ts' = ts /\ x = JOk tt)) ->
  decodes_jpv r size ts (DOk tt).
Proof.
  intros r size ts L K [f [a' [ts' [x [R [-> ->]]]]]].
  destruct (prun_sim _ _ _ _ _ _ _ (init_sim r size L K) R) as [c [C _]].
  exists f. intros g G. unfold decode_jpv.
  now rewrite (ple_run _ _ cstep _ _ (jproduce_mono f g [] G) _ _ C).
Qed.

(* ------------------------------------------------------------------ *)
(** Texts of lines. *)
Lemma leaves_representable : forall R quote v, representable R quote v ->
  Forall (fun l => representable R quote (snd l)) (leaves quote v).
Proof.
  intros R quote. apply (jval_induction (fun v => representable R quote v ->
    Forall (fun l => representable R quote (snd l)) (leaves quote v))).
  - intros s H. cbn [leaves]. constructor; [exact H|constructor].
  - intros [|x l] e IH RP; [cbn [leaves]; constructor; [exact RP|constructor]|].
    inversion RP as [|? F LN|]; subst. cbn [leaves]. generalize 0%N.
    clear RP LN. revert IH F. generalize (x :: l). clear x l.
    induction l as [|x l IHl]; intros IH F n; cbn [imap]; [constructor|].
    inversion IH; subst. inversion F; subst. apply Forall_app. split; [|auto].
    apply Forall_map. cbn [below snd]. auto.
  - intros [|x l] e IH RP; [cbn [leaves]; constructor; [exact RP|constructor]|].
    inversion RP as [| |? F D]; subst. cbn [leaves].
    clear RP D. revert IH F. generalize (x :: l). clear x l.
    induction l as [|x l IHl]; intros IH F; cbn [flat_map]; [constructor|].
    inversion IH as [|? ? H1 H2]; subst. inversion F as [|? ? [T [S [A RP]]] F']; subst.
    apply Forall_app. split; [|auto]. apply Forall_map. cbn [below snd]. auto.
Qed.

Lemma leaf_vtext : forall R quote v t, representable R quote v -> leaf_text v t ->
  vtext false (jpv_canon quote v) t.
Proof.
  intros R quote v t RP H. destruct RP as [s V|l F LN|l F D]; cbn [leaf_text jpv_canon] in *.
  - subst. now apply valid_scalar_text.
  - destruct l; [|contradiction]. subst. cbn [map]. apply (vt_arr0 false []). constructor.
  - destruct l; [|contradiction]. subst. cbn [map]. apply (vt_obj0 false []). constructor.
Qed.

Definition ends (e w : bytes) : Prop := e = [10%N] /\ ws w \/ e = [] /\ w = [10%N].

Lemma lines_ltext : forall R quote e w, ends e w -> forall ls ts,
  Forall2 line_text ls ts -> Forall (fun l => representable R quote (snd l)) ls ->
  forall w0, ws w0 ->
  exists pls, Forall2 (pl_ok []) (map (cline quote) ls) pls /\
    ltext RdEOF (map join pls) (w0 ++ flat_map (fun t => t ++ e) ts ++ w).
Proof.
  intros R quote e w E ls ts F. induction F as [|l t ls ts LT F IH]; intros RP w0 W0.
  - exists []. split; [constructor|]. cbn [map flat_map app]. constructor. apply ws_app; [exact W0|].
    destruct E as [[_ W]|[_ ->]]; [exact W|]. constructor; [unfold ws_byte; lia|constructor].
  - inversion RP as [|? ? RPL RP']; subst.
    assert (WE : ws e).
    { destruct E as [[-> _]|[-> _]]; [constructor; [unfold ws_byte; lia|]|]; constructor. }
    destruct (IH RP' e WE) as [pls [P L]].
    destruct LT as [p [x [PT [LX ->]]]]. destruct (path_parsed _ _ PT) as [ks [FK PK]].
    exists (([], ks, jpv_canon quote (snd l)) :: pls). split.
    + cbn [map]. constructor; [|exact P]. split; [constructor|]. split; [exact FK|reflexivity].
    + cbn [map flat_map]. unfold join at 1. cbn [fst snd app].
      pose proof (lt_cons RdEOF w0 ks (jpv_canon quote (snd l)) p x (map join pls)
        (e ++ flat_map (fun t => t ++ e) ts ++ w) W0 PK (leaf_vtext _ _ _ _ RPL LX)) as H.
      assert (SEP : sep_ok RdEOF x (e ++ flat_map (fun t => t ++ e) ts ++ w)).
      { intros _. right. destruct E as [[-> _]|[-> ->]].
        - exists 10%N, (flat_map (fun t => t ++ [10%N]) ts ++ w). split; [reflexivity|].
          unfold continues_number, digit. lia.
        - cbn [app]. destruct ts as [|t ts]; [exists 10%N, []|].
          + split; [reflexivity|]. unfold continues_number, digit. lia.
          + inversion F as [|l2 ? ls2 ? [p2 [x2 [_ [_ E2]]]] F2]; subst.
            exists 36%N. eexists. split; [reflexivity|]. unfold continues_number, digit. lia. }
      specialize (H SEP L). repeat (progress (cbn [app] in * || rewrite <- !app_assoc in H || rewrite <- !app_assoc)). exact H.
Qed.

(** The decoder on the lines of some of the leaves of a value. *)
Lemma decode_leaves : forall R quote v keep ts e w r size,
  representable R quote v ->
  ((forall p, keep p = true) /\ (forall ks, R ks -> adjacent_differ ks)) \/
  (forall ks, R ks -> all_differ ks) ->
  Forall2 line_text (filter (fun l => keep (fst l)) (leaves quote v)) ts ->
  ends e w ->
  2 <= size -> ok_runs 99 (rd_chunks r) = true -> rd_fin r = RdEOF ->
  input r = flat_map (fun t => t ++ e) ts ++ w ->
  decodes_jpv r size
    (match restrict quote keep v with Some v' => toks (jpv_canon quote v') | None => [] end) (DOk tt).
Proof.
  intros R quote v keep ts e w r size RP M F E L K FN IN.
  assert (RPL : Forall (fun l => representable R quote (snd l)) (filter (fun l => keep (fst l)) (leaves quote v))).
  { pose proof (leaves_representable R quote v RP) as A. rewrite Forall_forall in *.
    intros l I. apply filter_In in I. apply A. tauto. }
  destruct (lines_ltext R quote e w E _ ts F RPL [] ltac:(constructor)) as [pls [P LT]].
  cbn [app] in LT. rewrite <- IN in LT.
  apply decodes_jpv_intro; auto. exists (2 * length (input r) + 2). rewrite FN.
  rewrite <- lines_of_tree in P.
  pose proof (toks_of_tree R quote v RP keep) as TT. unfold same_toks in TT.
  destruct (tree_of quote keep v) as [t|] eqn:TE.
  - destruct (restrict quote keep v) as [v'|]; [|contradiction]. rewrite <- TT.
    assert (W : wf t) by (eapply tree_wf; eauto).
    cbn [tree_lines opt flat_map] in P. rewrite app_nil_r in P.
    destruct (walk_tree t W [] pls ltac:(constructor) P)
      as [p1 [q1 [v1 [rest [ts' [pn [qn [-> [WK [P1 [PN T]]]]]]]]]]].
    inversion P1; subst. inversion PN; subst. cbn [app] in WK.
    eapply runs_conseq; [eapply (produce_lines RdEOF _ _ LT eq_refl _ _ [] (follow_path q1 false ++ toks v1 ++ ts') qn)|].
    + apply st_init.
    + cbn [map walk]. unfold join at 1. cbn [fst snd app]. cbn [walk update_path]. unfold pline in *. rewrite WK. reflexivity.
    + lia.
    + cbv beta. intros _ t2 x [-> ->]. split; [|reflexivity]. rewrite <- T. rewrite <- !app_assoc. reflexivity.
  - destruct (restrict quote keep v) as [v'|]; [contradiction|].
    cbn [tree_lines opt flat_map] in P. inversion P; subst.
    eapply runs_conseq; [eapply (produce_lines RdEOF _ _ LT eq_refl _ _ [] [] [])|].
    + apply st_init.
    + reflexivity.
    + lia.
    + cbv beta. intros _ t2 x [-> ->]. auto.
Qed.

(* ------------------------------------------------------------------ *)
(** The text written. *)
Lemma rel_line_root : forall l t, rel_line [] l t -> line_text l t.
Proof. intros l t [p [x [P [X ->]]]]. exists p, x. auto. Qed.

Lemma encoder_text : forall R quote indent flusher v, representable R quote v ->
  exists lines e, Forall2 line_text (leaves quote v) lines /\
    (e = if (indent <? 0)%Z then [] else [10%N]) /\
    encodes_jpv quote indent flusher (toks v) (flat_map (fun l => l ++ e) lines ++ [10%N]) CNil.
Proof.
  intros R quote indent flusher v RP.
  exists (jlines quote [] v), (if (indent <? 0)%Z then [] else [10%N]).
  split; [|split; [reflexivity|]].
  - pose proof (jlines_ok quote R v RP []) as F.
    induction F; constructor; auto.
  - destruct (jconsume_run indent flusher quote R v RP) as [n [cs [RN T]]].
    exists n. intros f L. unfold consume_jpv. rewrite RN by exact L. cbn [failing_write].
    change (written (printer_run indent flusher 0 cs)) with (text indent flusher 0 cs). rewrite T.
    assert (NL : nl indent flusher 0 = if (indent <? 0)%Z then [] else [10%N]).
    { unfold nl, new_line. destruct (indent <? 0)%Z; [reflexivity|].
      rewrite Z.mul_0_r. cbn [Z.to_nat repeat]. rewrite app_nil_r. apply written_nl. }
    unfold lines_text. rewrite NL. reflexivity.
Qed.

Lemma restrict_all : forall R quote v keep, representable R quote v -> (forall p, keep p = true) ->
  restrict quote keep v = Some v.
Proof.
  intros R quote v keep. revert v keep.
  apply (jval_induction (fun v => forall keep, representable R quote v -> (forall p, keep p = true) ->
    restrict quote keep v = Some v)).
  - intros s keep _ K. cbn [restrict]. now rewrite K.
  - intros l e IH keep RP K. inversion RP as [|? F LN|]; subst.
    destruct l as [|x l]; [cbn [restrict]; now rewrite K|]. cbn [restrict].
    assert (A : forall l n, Forall (fun v => forall keep, representable R quote v -> (forall p, keep p = true) ->
        restrict quote keep v = Some v) l -> Forall (representable R quote) l ->
      imap (fun i x => match restrict quote (fun p => keep (SIndex i :: p)) x with
        | Some x => [x] | None => [] end) n l = l).
    { clear - K. induction l as [|x l IHl]; intros n IH F; cbn [imap]; [reflexivity|].
      inversion IH; subst. inversion F; subst. rewrite H1; auto. cbn [app]. now rewrite IHl. }
    rewrite A by auto. reflexivity.
  - intros l e IH keep RP K. inversion RP as [| |? F D]; subst.
    destruct l as [|x l]; [cbn [restrict]; now rewrite K|]. cbn [restrict].
    assert (A : forall l, Forall (fun m => forall keep, representable R quote (snd m) -> (forall p, keep p = true) ->
        restrict quote keep (snd m) = Some (snd m)) l ->
      Forall (fun m => sc_type (fst m) = TStr /\ string_text false (sc_bytes (fst m)) /\
         (sc_alnum (fst m) = true -> quote = false -> identifier (contents (sc_bytes (fst m))) = true) /\
         representable R quote (snd m)) l ->
      flat_map (fun m : scalar * jval => map (fun x => (fst m, x))
        match restrict quote (fun p => keep (key_step quote (fst m) :: p)) (snd m) with
        | Some x => [x] | None => [] end) l = l).
    { clear - K. induction l as [|[k x] l IHl]; intros IH F; cbn [flat_map]; [reflexivity|].
      inversion IH as [|? ? H1 H2]; subst. inversion F as [|? ? [_ [_ [_ RP]]] F']; subst.
      cbn [fst snd] in *. rewrite H1; auto. cbn [map app]. now rewrite IHl. }
    rewrite A by auto. reflexivity.
Qed.

(* ------------------------------------------------------------------ *)
(** C17.  A value written as JPV is read back, whatever the settings of the
    printer, and for every chunking of the text and every size of the buffer.
    The value read has the flags the JPV decoder gives; see
    [C17_only_flags_change]. *)
Theorem C17_jpv_round_trip :
  forall (quote : bool) (indent : Z) (flusher : bool) (v : jval) (out : bytes) (r : reader) (size : nat),
    representable adjacent_differ quote v ->
    encodes_jpv quote indent flusher (toks v) out CNil ->
    2 <= size -> ok_runs 99 (rd_chunks r) = true -> rd_fin r = RdEOF -> input r = out ->
    decodes_jpv r size (toks (jpv_canon quote v)) (DOk tt).
Proof.
  intros quote indent flusher v out r size RP EN L K FN IN.
  destruct (encoder_text adjacent_differ quote indent flusher v RP) as [lines [e [F [E EN']]]].
  assert (EO : out = flat_map (fun l => l ++ e) lines ++ [10%N]).
  { destruct EN as [n1 H1], EN' as [n2 H2]. specialize (H1 (n1 + n2) ltac:(lia)).
    specialize (H2 (n1 + n2) ltac:(lia)). rewrite H1 in H2. now injection H2. }
  pose proof (decode_leaves adjacent_differ quote v (fun _ => true) lines e [10%N] r size RP) as D.
  rewrite (restrict_all adjacent_differ quote v (fun _ => true) RP (fun _ => eq_refl)) in D.
  apply D; auto.
  - assert (FA : forall l : list line, filter (fun _ => true) l = l)
      by (induction l as [|x l IHl]; cbn [filter]; [reflexivity|now rewrite IHl]).
    rewrite FA. exact F.
  - unfold ends. subst e. destruct (indent <? 0)%Z; [right; auto|left]. split; [reflexivity|].
    constructor; [unfold ws_byte; lia|constructor].
  - now rewrite IN, EO.
Qed.
Print Assumptions C17_jpv_round_trip.

(** The encoder writes every such value without an error. *)
Theorem C17_encoder_succeeds :
  forall (quote : bool) (indent : Z) (flusher : bool) (v : jval),
    representable adjacent_differ quote v ->
    exists out, encodes_jpv quote indent flusher (toks v) out CNil.
Proof.
  intros quote indent flusher v RP.
  destruct (encoder_text adjacent_differ quote indent flusher v RP) as [lines [e [_ [_ H]]]]. eauto.
Qed.
Print Assumptions C17_encoder_succeeds.

(** Reading back changes nothing but flags. *)
Theorem C17_only_flags_change :
  forall (R : list scalar -> Prop) (quote : bool) (v : jval), representable R quote v ->
    map unflag_token (toks (jpv_canon quote v)) = map unflag_token (toks v).
Proof.
  intros R quote.
  assert (SC : forall s, valid_scalar false s -> unflag (canon_scalar s) = unflag s).
  { intros [b t k al un] V. unfold valid_scalar, canon_scalar, unflag in *. cbn [sc_type sc_bytes] in *.
    destruct t; try reflexivity. destruct V as [c [-> C]]. rewrite contents_quoted. reflexivity. }
  apply (jval_induction (fun v => representable R quote v ->
    map unflag_token (toks (jpv_canon quote v)) = map unflag_token (toks v))).
  - intros s RP. inversion RP; subst. cbn. now rewrite SC.
  - intros l e IH RP. inversion RP as [|? F LN|]; subst. cbn [jpv_canon toks map]. f_equal.
    rewrite !map_app. f_equal. clear RP LN.
    induction l as [|x l IHl]; [reflexivity|]. inversion IH; subst. inversion F; subst.
    cbn [map flat_map]. rewrite !map_app. f_equal; auto.
  - intros l e IH RP. inversion RP as [| |? F D]; subst. cbn [jpv_canon toks map]. f_equal.
    rewrite !map_app. f_equal. clear RP D.
    induction l as [|[k x] l IHl]; [reflexivity|]. inversion IH as [|? ? H1 H2]; subst.
    inversion F as [|? ? [T [S [A RP]]] F']; subst. cbn [fst snd] in *.
    cbn [map flat_map fst snd app]. f_equal; [|rewrite !map_app; f_equal; auto].
    cbn [unflag_token]. f_equal. destruct S as [c [E C]]. unfold key_step, unflag. rewrite T, E, contents_quoted.
    destruct (sc_alnum k && negb quote); reflexivity.
Qed.
Print Assumptions C17_only_flags_change.

(** An instance: [{"a":[1,{"b c":[]}],"é\n":"x"}]. *)
Definition jex_key (c : bytes) : scalar := key_scalar c.
Definition jex : jval :=
  JObj [(jex_key [97%N],
         JArr [JScalar (new_scalar TNum [49%N]);
               JObj [(jex_key [98; 32; 99]%N, JArr [] false)] false] false);
        (jex_key [195; 169; 92; 110]%N, JScalar (string_scalar [120%N]))] false.
Lemma jex_keys_differ : differ (jex_key [97%N]) (jex_key [195; 169; 92; 110]%N).
Proof.
  exists [97%N], [233; 10]%N. split; [|split].
  - apply (dn_char 97 [] []); try (unfold unicode; lia). constructor.
  - apply C31_strings_example.
  - discriminate.
Qed.
Lemma jex_representable : forall R : list scalar -> Prop,
  R [jex_key [98; 32; 99]%N] -> R [jex_key [97%N]; jex_key [195; 169; 92; 110]%N] ->
  representable R false jex.
Proof.
  intros R R1 R2.
  assert (K : forall c, chars false c -> decoded_alnum c = true -> identifier c = true ->
    sc_type (key_scalar c) = TStr /\ string_text false (sc_bytes (key_scalar c)) /\
    (sc_alnum (key_scalar c) = true -> false = false ->
     identifier (contents (sc_bytes (key_scalar c))) = true)).
  { intros c C A I. split; [reflexivity|]. split; [exists c; auto|]. intros _ _.
    cbn [key_scalar sc_bytes]. now rewrite contents_quoted. }
  assert (K2 : forall c, chars false c -> decoded_alnum c = false ->
    sc_type (key_scalar c) = TStr /\ string_text false (sc_bytes (key_scalar c)) /\
    (sc_alnum (key_scalar c) = true -> false = false ->
     identifier (contents (sc_bytes (key_scalar c))) = true)).
  { intros c C A. split; [reflexivity|]. split; [exists c; auto|].
    cbn [key_scalar sc_alnum]. rewrite A. discriminate. }
  assert (PL : forall b, plain_byte b -> forall l, chars false l -> chars false (b :: l)) by (intros; now constructor).
  constructor.
  - constructor; [|constructor; [|constructor]]; cbn [fst snd].
    + destruct (K [97%N]) as [K1 [K3 K4]]; [apply PL; [unfold plain_byte; lia|constructor]|reflexivity..|].
      repeat (split; [assumption|]). constructor; [|reflexivity].
      constructor; [|constructor; [|constructor]].
      * constructor. cbn [new_scalar sc_type sc_bytes]. exists [], [49%N], [], []. split; [reflexivity|].
        split; [now left|]. split; [right; exists 49%N, []; repeat split; auto; lia|]. split; now left.
      * constructor; [|exact R1]. constructor; [|constructor]. cbn [fst snd].
        destruct (K2 [98; 32; 99]%N) as [A [B C]]; [repeat (apply PL; [unfold plain_byte; lia|]); constructor|reflexivity|].
        repeat (split; [assumption|]). constructor; [constructor|reflexivity].
    + destruct (K2 [195; 169; 92; 110]%N) as [A [B C]].
      { repeat (apply PL; [unfold plain_byte; lia|]). apply ch_esc; [unfold escape_letter; simpl; tauto|constructor]. }
      { reflexivity. }
      repeat (split; [assumption|]). constructor. exists [120%N]. split; [reflexivity|].
      apply PL; [unfold plain_byte; lia|constructor].
  - exact R2.
Qed.
Example C17_example : representable adjacent_differ false jex.
Proof. apply jex_representable; cbn [adjacent_differ]; auto using jex_keys_differ. Qed.

(** ... which is written
<<
$.a[0] = 1
$.a[1]["b c"] = []
$["é\n"] = "x"
>> *)
Example C17_example_text :
  encodes_jpv false 2 false (toks jex)
    ([36; 46; 97; 91; 48; 93; 32; 61; 32; 49; 10;
      36; 46; 97; 91; 49; 93; 91; 34; 98; 32; 99; 34; 93; 32; 61; 32; 91; 93; 10;
      36; 91; 34; 195; 169; 92; 110; 34; 93; 32; 61; 32; 34; 120; 34; 10; 10]%N) CNil.
Proof.
  destruct (jconsume_run 2 false false adjacent_differ jex C17_example) as [n [cs [H T]]].
  exists n. intros f L. unfold consume_jpv. rewrite H by exact L. cbn [failing_write].
  change (written (printer_run 2 false 0 cs)) with (text 2 false 0 cs). rewrite T. reflexivity.
Qed.

(* ------------------------------------------------------------------ *)
(** C18. *)
Definition step_eq_dec : forall a b : jstep, {a = b} + {a <> b}.
Proof. decide equality; try (apply list_eq_dec; apply N.eq_dec). apply N.eq_dec. Defined.
Definition path_eqb (p q : list jstep) : bool := if list_eq_dec step_eq_dec p q then true else false.

(** The elements of a list whose position is marked in the mask. *)
Fixpoint select {A} (mask : list bool) (l : list A) : list A :=
  match mask, l with
  | true :: m, x :: r => x :: select m r
  | false :: m, _ :: r => select m r
  | _, _ => []
  end.

(** The path is that of a marked leaf. *)
Definition marked (quote : bool) (v : jval) (mask : list bool) (p : list jstep) : bool :=
  existsb (path_eqb p) (map fst (select mask (leaves quote v))).

Lemma select_in : forall A (l : list A) m x, In x (select m l) -> In x l.
Proof.
  induction l as [|y l IH]; intros [|[] m] x I; cbn [select] in I; try contradiction.
  - destruct I as [->|I]; [now left|right; eauto].
  - right; eauto.
Qed.

Lemma select_filter : forall (ls : list line) m, NoDup (map fst ls) -> length m = length ls ->
  filter (fun l => existsb (path_eqb (fst l)) (map fst (select m ls))) ls = select m ls.
Proof.
  assert (PE : forall p q, path_eqb p q = true <-> p = q).
  { intros p q. unfold path_eqb. destruct (list_eq_dec step_eq_dec p q); split; congruence. }
  assert (EX : forall p l, existsb (path_eqb p) l = true <-> In p l).
  { intros p l. rewrite existsb_exists. split; [intros [q [I E]]; apply PE in E; now subst|].
    intros I. exists p. split; [exact I|]. now apply PE. }
  assert (G : forall (ls : list line) m acc, NoDup (map fst ls) -> length m = length ls ->
    (forall l, In l ls -> ~ In (fst l) acc) ->
    filter (fun l => existsb (path_eqb (fst l)) (acc ++ map fst (select m ls))) ls = select m ls).
  { induction ls as [|l ls IH]; intros [|b m] acc ND LE DJ; try discriminate; [reflexivity|].
    cbn [map] in ND. inversion ND as [|? ? NI ND']; subst. cbn [length] in LE. injection LE as LE.
    cbn [filter]. destruct b; cbn [select map].
    - assert (T : existsb (path_eqb (fst l)) (acc ++ fst l :: map fst (select m ls)) = true).
      { apply EX. apply in_or_app. right. now left. }
      rewrite T. f_equal.
      specialize (IH m (acc ++ [fst l]) ND' LE). rewrite <- app_assoc in IH. cbn [app] in IH. apply IH.
      intros x I J. apply in_app_or in J. destruct J as [J|[J|[]]].
      + apply (DJ x); [now right|exact J].
      + apply NI. rewrite J. now apply in_map.
    - assert (T : existsb (path_eqb (fst l)) (acc ++ map fst (select m ls)) = false).
      { apply not_true_is_false. intro C. apply EX in C. apply in_app_or in C. destruct C as [C|C].
        - apply (DJ l); [now left|exact C].
        - apply NI. apply in_map_iff in C. destruct C as [x [E I]]. apply select_in in I.
          rewrite <- E. now apply in_map. }
      rewrite T. apply IH; auto. intros x I. apply DJ. now right. }
  intros ls m ND LE. apply (G ls m [] ND LE). intros l _ [].
Qed.

Lemma NoDup_below : forall s ls, NoDup (map fst ls) -> NoDup (map fst (map (below s) ls)).
Proof.
  intros s ls. induction ls as [|l ls IH]; intros ND; cbn [map] in *; constructor; inversion ND; subst; auto.
  intros I. apply in_map_iff in I. destruct I as [x [E I]]. apply in_map_iff in I. destruct I as [y [<- I]].
  cbn [below fst] in E. injection E as E. apply H1. rewrite <- E. now apply in_map.
Qed.
Lemma NoDup_app_disjoint : forall A (a b : list A), NoDup a -> NoDup b ->
  (forall x, In x a -> ~ In x b) -> NoDup (a ++ b).
Proof.
  induction a as [|x a IH]; intros b NA NB D; cbn [app]; [exact NB|]. inversion NA; subst.
  constructor.
  - intros I. apply in_app_or in I. destruct I as [I|I]; [contradiction|]. apply (D x); [now left|exact I].
  - apply IH; auto. intros y I. apply D. now right.
Qed.

Lemma leaves_distinct : forall quote v, representable all_differ quote v ->
  NoDup (map fst (leaves quote v)).
Proof.
  intros quote. apply (jval_induction (fun v => representable all_differ quote v ->
    NoDup (map fst (leaves quote v)))).
  - intros s _. cbn. constructor; [intros []|constructor].
  - intros [|x l] e IH RP; [cbn; constructor; [intros []|constructor]|].
    inversion RP as [|? F LN|]; subst. cbn [leaves].
    assert (G : forall l n, Forall (fun v => NoDup (map fst (leaves quote v))) l ->
      NoDup (map fst (imap (fun i x => map (below (SIndex i)) (leaves quote x)) n l)) /\
      forall p, In p (map fst (imap (fun i x => map (below (SIndex i)) (leaves quote x)) n l)) ->
        exists i q, p = SIndex i :: q /\ (n <= i)%N).
    { clear. induction l as [|x l IHl]; intros n H; cbn [imap map]; [split; [constructor|intros p []]|].
      inversion H as [|? ? H1 H2]; subst. destruct (IHl (n + 1)%N H2) as [ND IN]. rewrite map_app.
      split.
      - apply NoDup_app_disjoint; [now apply NoDup_below|exact ND|].
        intros p I J. apply IN in J. destruct J as [i [q [-> L]]].
        rewrite map_map in I. apply in_map_iff in I. destruct I as [y [E _]]. cbn [below fst] in E.
        injection E as E1 E2. lia.
      - intros p I. apply in_app_or in I. destruct I as [I|I].
        + rewrite map_map in I. apply in_map_iff in I. destruct I as [y [<- _]]. cbn [below fst].
          eexists _, _. split; [reflexivity|lia].
        + apply IN in I. destruct I as [i [q [-> L]]]. eexists _, _. split; [reflexivity|lia]. }
    apply G. rewrite Forall_forall in *. intros y I. apply IH; auto.
  - intros [|x l] e IH RP; [cbn; constructor; [intros []|constructor]|].
    inversion RP as [| |? F D]; subst. cbn [leaves]. clear RP.
    revert IH F D. generalize (x :: l). clear x l.
    induction l as [|x l IHl]; intros IH F D; cbn [flat_map map]; [constructor|].
    inversion IH as [|? ? H1 H2]; subst. inversion F as [|? ? [T [S [A RP]]] F']; subst.
    cbn [map] in D. inversion D as [|? ? D1 D2]; subst. rewrite map_app.
    apply NoDup_app_disjoint; [apply NoDup_below; auto|auto|].
    intros p I J. rewrite map_map in I. apply in_map_iff in I. destruct I as [y [<- _]].
    apply in_map_iff in J. destruct J as [z [E J]]. apply in_flat_map in J.
    destruct J as [m [J1 J2]]. apply in_map_iff in J2. destruct J2 as [z' [<- _]].
    cbn [below fst] in E. injection E as E _.
    rewrite Forall_forall in D1. destruct (D1 (fst m)) as [u [u' [DU [DU' NE]]]]; [apply in_map; exact J1|].
    assert (EC : contents (sc_bytes (fst m)) = contents (sc_bytes (fst x))).
    { unfold key_step in E. destruct (sc_alnum (fst m) && negb quote), (sc_alnum (fst x) && negb quote);
        congruence. }
    rewrite EC in DU'. apply NE. eapply denotes_unique; eauto.
Qed.

Lemma Forall2_select : forall A B (R : A -> B -> Prop) l l' m, Forall2 R l l' ->
  Forall2 R (select m l) (select m l').
Proof.
  intros A B R l l' m F. revert m. induction F as [|x y l l' H F IH]; intros [|[] m]; cbn [select]; auto.
Qed.

(** C18.  The encoder writes one line per leaf (and an empty line at the end);
    whichever lines are kept, in whichever chunks they are read, they decode to
    the value restricted to the leaves whose lines are kept.  Without any line
    nothing is decoded. *)
Theorem C18_any_subset_of_lines :
  forall (quote : bool) (indent : Z) (flusher : bool) (v : jval),
    representable all_differ quote v -> (0 <= indent)%Z ->
    exists lines : list bytes,
      Forall2 line_text (leaves quote v) lines /\
      encodes_jpv quote indent flusher (toks v) (flat_map (fun l => l ++ [10%N]) lines ++ [10%N]) CNil /\
      forall (mask : list bool) (w : bytes) (r : reader) (size : nat),
        length mask = length lines -> ws w ->
        2 <= size -> ok_runs 99 (rd_chunks r) = true -> rd_fin r = RdEOF ->
        input r = flat_map (fun l => l ++ [10%N]) (select mask lines) ++ w ->
        decodes_jpv r size
          (match restrict quote (marked quote v mask) v with
           | Some v' => toks (jpv_canon quote v')
           | None => []
           end) (DOk tt).
Proof.
  intros quote indent flusher v RP IND.
  destruct (encoder_text all_differ quote indent flusher v RP) as [lines [e [F [E EN]]]].
  assert (E1 : e = [10%N]) by (subst e; destruct (Z.ltb_spec indent 0); [lia|reflexivity]).
  rewrite E1 in EN. exists lines. split; [exact F|]. split; [exact EN|].
  intros mask w r size LM W L K FN IN.
  apply (decode_leaves all_differ quote v (marked quote v mask) (select mask lines) [10%N] w); auto.
  - unfold marked. rewrite select_filter.
    + now apply Forall2_select.
    + now apply leaves_distinct.
    + rewrite LM. symmetry. eapply Forall2_length'; eauto.
  - left. auto.
Qed.
Print Assumptions C18_any_subset_of_lines.

(** The value above without its first line is [{"a":[{"b c":[]}],"é\n":"x"}]. *)
Example C18_example :
  representable all_differ false jex /\
  restrict false (marked false jex [false; true; true]) jex =
  Some (JObj [(jex_key [97%N], JArr [JObj [(jex_key [98; 32; 99]%N, JArr [] false)] false] false);
              (jex_key [195; 169; 92; 110]%N, JScalar (string_scalar [120%N]))] false).
Proof.
  split; [|reflexivity].
  apply jex_representable; unfold all_differ; repeat constructor. apply jex_keys_differ.
Qed.

(* ------------------------------------------------------------------ *)
(** What C17-C19 cannot say of the code.  [with_fuel 60] computes with any fuel of
    at least 60. *)
Ltac with_fuel n :=
  exists n; let f := fresh in let L := fresh in intros f L;
  replace f with (n + (f - n)) by lia; generalize (f - n); clear f L; intro f; vm_compute; reflexivity.

(** The round trip fails for the JSON value [{"":1}]: the empty key counts as
    alphanumeric, the text is [$. = 1], and the decoder rejects it. *)
Definition empty_key_object : jval :=
  JObj [(key_scalar [], JScalar (new_scalar TNum [49%N]))] false.
Theorem C17_empty_key_refuted :
  valid true empty_key_object /\
  encodes_jpv false 2 false (toks empty_key_object) [36; 46; 32; 61; 32; 49; 10; 10]%N CNil /\
  exists ts, decodes_jpv (one_chunk [36; 46; 32; 61; 32; 49; 10; 10]%N) 16 ts (DErr DSyntax).
Proof.
  split; [|split].
  - repeat constructor; cbn.
    + exists []. split; [reflexivity|constructor].
    + exists [], [49%N], [], []. repeat split; auto; try (now left). right. exists 49%N, []. repeat split; auto; lia.
  - with_fuel 60.
  - eexists. with_fuel 60.
Qed.
Print Assumptions C17_empty_key_refuted.

(** It fails for [{"a":1,"a":2}], which the JSON decoder accepts: the second
    line is rejected. *)
Definition twice_a : jval :=
  JObj [(key_scalar [97%N], JScalar (new_scalar TNum [49%N]));
        (key_scalar [97%N], JScalar (new_scalar TNum [50%N]))] false.
Definition twice_a_text : bytes :=
  [36; 46; 97; 32; 61; 32; 49; 10; 36; 46; 97; 32; 61; 32; 50; 10; 10]%N.
Theorem C17_repeated_key_refuted :
  valid true twice_a /\
  encodes_jpv false 2 false (toks twice_a) twice_a_text CNil /\
  exists ts, decodes_jpv (one_chunk twice_a_text) 16 ts (DErr DSyntax).
Proof.
  split; [|split].
  - assert (K : string_text true (sc_bytes (key_scalar [97%N]))).
    { exists [97%N]. split; [reflexivity|]. apply ch_plain; [unfold plain_byte; lia|constructor]. }
    assert (D : forall d, (49 <= d <= 57)%N -> valid true (JScalar (new_scalar TNum [d]))).
    { intros d D. constructor. exists [], [d], [], []. repeat split; auto; try (now left).
      right. exists d, []. repeat split; auto; lia. }
    constructor. constructor; [|constructor; [|constructor]]; cbn [fst snd]; (split; [exact K|apply D; lia]).
  - with_fuel 60.
  - eexists. with_fuel 60.
Qed.
Print Assumptions C17_repeated_key_refuted.

(** It fails for streams of more than one value: [[1,2] [3]] comes back as
    [[1,2,3]]. *)
Definition num1 (d : N) : jval := JScalar (new_scalar TNum [d]).
Theorem C17_streams_refuted :
  exists out, encodes_jpv false 2 false
      (toks (JArr [num1 49; num1 50] false) ++ toks (JArr [num1 51] false)) out CNil /\
    decodes_jpv (one_chunk out) 16 (toks (JArr [num1 49; num1 50; num1 51] false)) (DOk tt).
Proof.
  exists [36; 91; 48; 93; 32; 61; 32; 49; 10; 36; 91; 49; 93; 32; 61; 32; 50; 10; 10;
          36; 91; 48; 93; 32; 61; 32; 51; 10; 10]%N.
  split; with_fuel 60.
Qed.
Print Assumptions C17_streams_refuted.

(** C19 does not hold.  The decoder panics: on a line whose path is a prefix of
    the path of the line before, *)
Theorem C19_prefix_path_refuted :
  jpv_panics (one_chunk [36; 46; 97; 46; 98; 32; 61; 32; 49; 10; 36; 46; 97; 32; 61; 32; 50]%N) 16.
Proof. with_fuel 60. Qed.
Print Assumptions C19_prefix_path_refuted.
(** on [$.a x], where [=] is missing, *)
Theorem C19_missing_equals_refuted :
  jpv_panics (one_chunk [36; 46; 97; 32; 120]%N) 16.
Proof. with_fuel 60. Qed.
Print Assumptions C19_missing_equals_refuted.
(** and on keys with an escape that the decoder lets through, when they are
    compared: [$["\x"] = 1] followed by [$.a = 2]. *)
Theorem C19_bad_escape_refuted :
  jpv_panics (one_chunk [36; 91; 34; 92; 120; 34; 93; 32; 61; 32; 49; 10;
                         36; 46; 97; 32; 61; 32; 50]%N) 16.
Proof. with_fuel 60. Qed.
Print Assumptions C19_bad_escape_refuted.

(** What remains of C19: on every input the decoder ends, by a result, an error
    or a panic; it never loops.  Missing: the absence of panics, which does not
    hold. *)
Lemma ple_run_any : forall A S (step : S -> sop -> res (S * sobs)) (p q : prog A), ple p q ->
  forall s, prun step s p <> OutOfFuel -> prun step s q = prun step s p.
Proof.
  intros A S step p q H. induction H; intros s E; cbn [prun] in *; auto; try congruence.
  - destruct (step s o) as [[s1 x]| |]; auto.
  - rewrite IHple; [reflexivity|]. destruct (prun step s p) as [[[s1 ts] a]| |]; congruence.
Qed.

Theorem C19_terminates_partial :
  forall (r : reader) (size : nat), 2 <= size -> ok_runs 99 (rd_chunks r) = true ->
    (exists ts x, decodes_jpv r size ts x) \/ jpv_panics r size.
Proof.
  intros r size L K. set (f := 2 * length (input r) + 1).
  pose proof (jproduce_any (rd_fin r) f (a_init (input r) (rd_fin r)) (input r) []
    (st_init (input r) (rd_fin r)) ltac:(unfold f; lia) _ (init_sim r size L K)) as H.
  assert (NF : prun cstep (new_scanner r size) (jproduce f []) <> OutOfFuel).
  { intro E. rewrite E in H. exact H. }
  assert (M : forall g, f <= g -> decode_jpv g r size = decode_jpv f r size).
  { intros g G. unfold decode_jpv.
    now rewrite (ple_run_any _ _ cstep _ _ (jproduce_mono f g [] G) _ NF). }
  unfold decodes_jpv, jpv_panics.
  destruct (decode_jpv f r size) as [[ts x]| |] eqn:D.
  - left. exists ts, x, f. auto.
  - right. exists f. auto.
  - exfalso. unfold decode_jpv in D.
    destruct (prun cstep (new_scanner r size) (jproduce f [])) as [[[c ts] [[]|e|]]| |]; congruence.
Qed.
Print Assumptions C19_terminates_partial.

(** Properties C13-C16 and C44: the JSON encoder. *)
From Coq Require Import List Arith ZArith NArith Bool Lia.
From Verif Require Import Base Tokens ScannerModel ScannerSpec ScannerProofs ProgModel ProgProofs
  JsonDecModel JsonSpec JsonDecProofs JsonDecValue P_JsonDec
  EncSpec PrinterModel JsonEncModel JsonEncProofs JsonEncRel.

(** The settings of an encoder and its printer. *)
Record settings := mkSettings {
  se_color : option colorizer;
  se_width : Z;     (* CompactWidthLimit *)
  se_items : Z;     (* CompactObjectMaxItems *)
  se_indent : Z;    (* IndentSize *)
  se_flush : bool   (* the printer has a Flusher *)
}.

(** [encodes c fail ts out res]: consuming the tokens [ts] the encoder writes
    [out] and ends with [res]; [fail] says when the writer fails, if it does
    (see [failing_write]).  [n] only bounds the loops of the model. *)
Definition encodes (c : settings) (fail : option (nat * nat)) (ts : list token)
    (out : bytes) (res : consumed) : Prop :=
  exists n, forall fuel, n <= fuel ->
    consume_json fuel (se_color c) (se_width c) (se_items c) (se_indent c) (se_flush c) fail ts
    = (out, res).

Lemma encodes_unique : forall c fail ts o1 r1 o2 r2,
  encodes c fail ts o1 r1 -> encodes c fail ts o2 r2 -> o1 = o2 /\ r1 = r2.
Proof.
  intros c fail ts o1 r1 o2 r2 [n1 H1] [n2 H2].
  specialize (H1 (n1 + n2) ltac:(lia)). specialize (H2 (n1 + n2) ltac:(lia)).
  rewrite H1 in H2. injection H2 as -> ->. auto.
Qed.

Lemma encodes_vm : forall c fail ts out res,
  consume_json (2 * length ts + 2) (se_color c) (se_width c) (se_items c) (se_indent c)
    (se_flush c) fail ts = (out, res) -> encodes c fail ts out res.
Proof.
  intros c fail ts out res H. exists (2 * length ts + 2). intros f L. rewrite <- H.
  unfold consume_json. erewrite (consume_mono _ _ _ (2 * length ts + 2) f ts L); [reflexivity|].
  pose proof (lands_consume (se_color c) (se_width c) (se_items c) (2 * length ts + 2) ts (le_n _)) as K.
  unfold lands in K. destruct (snd _); [discriminate|discriminate|contradiction].
Qed.

(** The encoder terminates on every stream of tokens. *)
Theorem C44_encoder_terminates : forall c fail ts,
  exists out res, encodes c fail ts out res /\ res <> CFuel.
Proof.
  intros c fail ts. eexists _, _. split.
  - apply encodes_vm. apply surjective_pairing.
  - unfold consume_json.
    pose proof (lands_consume (se_color c) (se_width c) (se_items c) (2 * length ts + 2) ts (le_n _)) as K.
    unfold lands in K. destruct (consume_loop _ _ _ _ ts) as [cs o]. cbn [snd] in K.
    destruct (failing_write _ _) as [o' []]; [discriminate|]. cbn [snd].
    destruct o; [discriminate|discriminate|contradiction].
Qed.
Print Assumptions C44_encoder_terminates.

(* ------------------------------------------------------------------ *)
(** Values and texts. *)
Lemma valid_ind : forall strict (P : jval -> Prop),
  (forall s, valid_scalar strict s -> P (JScalar s)) ->
  (forall l, Forall (valid strict) l -> Forall P l -> P (JArr l false)) ->
  (forall l, Forall (fun m => string_text strict (sc_bytes (fst m)) /\ valid strict (snd m)) l ->
     Forall (fun m => P (snd m)) l -> P (JObj l false)) ->
  forall v, valid strict v -> P v.
Proof.
  intros strict P HS HA HO v. revert v. apply (jval_induction (fun v => valid strict v -> P v)).
  - intros s V. inversion V; auto.
  - intros l e IH V. inversion V as [|l' F|]; subst. apply HA; auto.
    rewrite Forall_forall in *. intros x I. apply IH; auto.
  - intros l e IH V. inversion V as [| |l' F]; subst. apply HO; auto.
    rewrite Forall_forall in *. intros x I. apply IH; auto. apply F; auto.
Qed.

Lemma contents_quoted : forall c, contents (34%N :: c ++ [34%N]) = c.
Proof. intros c. unfold contents. cbn [tl]. apply removelast_last. Qed.

Lemma valid_scalar_text : forall strict s, valid_scalar strict s ->
  vtext strict (JScalar (canon_scalar s)) (sc_bytes s).
Proof.
  intros strict [b t k al un] V. unfold valid_scalar, canon_scalar in *. cbn [sc_bytes sc_type] in *.
  destruct t.
  - subst. apply vt_null.
  - destruct V as [->| ->]; [apply vt_true|apply vt_false].
  - apply vt_num. exact V.
  - destruct V as [c [-> C]]. rewrite contents_quoted. apply vt_str. exact C.
Qed.

Lemma ptail_elems : forall strict,
  (forall v t, ptext v t -> valid strict v -> vtext strict (canon v) t) /\
  (forall l e r, ptail l e r -> e = false -> Forall (valid strict) l ->
     forall v t w, ws w -> vtext strict v t -> elems strict (v :: map canon l) (w ++ t ++ r)) /\
  (forall l e r, qtail l e r -> e = false ->
     Forall (fun m => string_text strict (sc_bytes (fst m)) /\ valid strict (snd m)) l ->
     forall c v t w w1 w2, ws w -> ws w1 -> ws w2 -> chars strict c -> vtext strict v t ->
       members strict ((key_scalar c, v) ::
           map (fun m => (key_scalar (contents (sc_bytes (fst m))), canon (snd m))) l)
         (w ++ (34%N :: c ++ [34%N]) ++ w1 ++ 58%N :: w2 ++ t ++ r)).
Proof.
  intros strict. apply ptext_tails_ind.
  - intros s V. inversion V; subst. apply valid_scalar_text. auto.
  - intros e w1 w2 W1 W2 V. inversion V; subst. cbn [dots app]. apply vt_arr0. apply ws_app; auto.
  - intros v l e w t r W _ IHv _ IHl V. inversion V as [|l' F|]; subst. inversion F; subst.
    cbn [canon map]. apply vt_arr. apply IHl; auto.
  - intros e w1 w2 W1 W2 V. inversion V; subst. cbn [dots app]. apply vt_obj0. apply ws_app; auto.
  - intros k v l e w w1 w2 t r W W1 W2 _ IHv _ IHl V. inversion V as [| |l' F]; subst.
    inversion F as [|? ? [S Vv] F']; subst. cbn [fst snd] in *.
    destruct S as [c [E C]]. cbn [canon map fst snd]. rewrite E, contents_quoted.
    apply vt_obj. apply IHl; auto.
  - intros e w1 w2 W1 W2 -> _ v t w W V. cbn [map dots app]. apply el_one; auto. apply ws_app; auto.
  - intros v l e w w' t r W W' _ IHv _ IHl -> F v0 t0 w0 W0 V0. inversion F; subst.
    cbn [map]. apply el_cons; auto.
  - intros e w1 w2 W1 W2 -> _ c v t w w' w'' W W' W'' C V. cbn [map dots app].
    apply me_one; auto. apply ws_app; auto.
  - intros k v l e w w' w1 w2 t r W W' W1 W2 _ IHv _ IHl -> F c0 v0 t0 w0 w01 w02 W0 W01 W02 C0 V0.
    inversion F as [|? ? [S Vv] F']; subst. cbn [fst snd] in *.
    destruct S as [c [E C]]. cbn [map fst snd]. rewrite E, contents_quoted.
    apply me_cons; auto.
Qed.

(** What decoding produces is valid and canonical. *)
Lemma vtext_canon : forall strict,
  (forall v t, vtext strict v t -> valid strict v /\ canon v = v) /\
  (forall l t, elems strict l t -> Forall (valid strict) l /\ map canon l = l) /\
  (forall l t, members strict l t ->
     Forall (fun m => string_text strict (sc_bytes (fst m)) /\ valid strict (snd m)) l /\
     map (fun m => (key_scalar (contents (sc_bytes (fst m))), canon (snd m))) l = l).
Proof.
  intros strict. apply vtext_elems_members_ind.
  - split; [constructor|]; reflexivity.
  - split; [constructor; left|]; reflexivity.
  - split; [constructor; right|]; reflexivity.
  - intros l N. split; [constructor; exact N|reflexivity].
  - intros c C. split; [constructor; exists c; auto|]. cbn [canon]. unfold canon_scalar.
    cbn [string_scalar sc_type sc_bytes]. rewrite contents_quoted. reflexivity.
  - intros w W. split; [repeat constructor|reflexivity].
  - intros l t _ [F E]. split; [constructor; auto|]. cbn [canon]. rewrite E. reflexivity.
  - intros w W. split; [repeat constructor|reflexivity].
  - intros l t _ [F E]. split; [constructor; auto|]. cbn [canon]. rewrite E. reflexivity.
  - intros w1 v t w2 _ _ [V E] _. split; [auto|]. cbn [map]. rewrite E. reflexivity.
  - intros w1 v t w2 l r _ _ [V E] _ _ [F E']. split; [auto|]. cbn [map]. rewrite E, E'. reflexivity.
  - intros w1 c w2 w3 v t w4 _ C _ _ _ [V E] _. split.
    + constructor; [|constructor]. split; [exists c; auto|exact V].
    + cbn [map fst snd key_scalar sc_bytes]. rewrite contents_quoted, E. reflexivity.
  - intros w1 c w2 w3 v t w4 l r _ C _ _ _ [V E] _ _ [F E']. split.
    + constructor; [|exact F]. split; [exists c; auto|exact V].
    + cbn [map fst snd key_scalar sc_bytes]. rewrite contents_quoted, E, E'. reflexivity.
Qed.

Lemma lines_stext : forall strict vs ls, Forall2 (fun v t => vtext strict v t) vs ls ->
  forall w, ws w -> stext strict ws_separated vs (w ++ concat (map (fun t => t ++ [10%N]) ls)).
Proof.
  induction 1 as [|v t vs ls V F IH]; intros w W.
  - cbn [map concat]. rewrite app_nil_r. constructor. exact W.
  - cbn [map concat]. rewrite <- app_assoc. apply st_cons; auto.
    + right. exists 10%N. eexists. split; [reflexivity|]. unfold ws_byte. auto.
    + apply (IH [10%N]). constructor; [unfold ws_byte; auto|constructor].
Qed.

(** Any stream of values, elided or not, is written without an error or a
    panic: one text per value, each followed by a line feed. *)
Theorem C13_output_is_a_text_per_value : forall c vs, se_color c = None ->
  exists ls, Forall2 ptext vs ls /\
    encodes c None (stream vs) (concat (map (fun t => t ++ [10%N]) ls)) CNil.
Proof.
  intros c vs NC.
  destruct (consume_run (se_indent c) (se_flush c) (se_width c) (se_items c) vs) as [n [cs [R T]]].
  destruct (T 0%Z) as [ls [F E]]. exists ls. split; [exact F|].
  exists n. intros f L. unfold consume_json. rewrite NC, R by exact L.
  cbn [failing_write]. unfold text in E. rewrite E. reflexivity.
Qed.
Print Assumptions C13_output_is_a_text_per_value.

(** C13.  For every sequence of valid values the output is a JSON text of these
    values ([strict = true]: of RFC 8259), and decoding it, in any chunks and
    with any buffer, gives the values back, with the flags of decoded
    scalars. *)
Theorem C13_round_trip : forall c strict vs, se_color c = None -> Forall (valid strict) vs ->
  exists out, encodes c None (stream vs) out CNil /\
    stext strict ws_separated (map canon vs) out /\
    forall r size, 2 <= size -> ok_runs 99 (rd_chunks r) = true -> rd_fin r = RdEOF ->
      input r = out -> decodes r size (stream (map canon vs)) (DOk tt).
Proof.
  intros c strict vs NC V.
  destruct (C13_output_is_a_text_per_value c vs NC) as [ls [F E]].
  assert (T : stext strict ws_separated (map canon vs) (concat (map (fun t => t ++ [10%N]) ls))).
  { apply (lines_stext strict (map canon vs) ls) with (w := []); [|constructor].
    clear E. induction F as [|v t vs ls P F IH]; [constructor|]. inversion V; subst.
    constructor; [|auto]. apply (ptail_elems strict); auto. }
  eexists. split; [exact E|]. split; [exact T|].
  intros r size L K FN EI. rewrite <- EI in T.
  destruct (decodes_intro r size (fun ts x => ts = stream (map canon vs) /\ x = DOk tt) L K)
    as [ts [x [D [-> ->]]]]; [|exact D].
  exists (2 * length (input r) + 2).
  eapply runs_conseq; [eapply (produce_complete (rd_fin r) strict (map canon vs))|]; auto.
  - eapply stext_sep; [|exact T]. intros t r0 S. rewrite FN.
    now apply delimited_sep_ok, ws_separated_delimited.
  - apply st_init.
Qed.
Print Assumptions C13_round_trip.

(** Formatting is the identity on what has been decoded: decode, encode with
    any settings (without colours), decode: the same tokens, flags included. *)
Theorem C13_decode_encode_decode : forall c r size ts, se_color c = None ->
  2 <= size -> ok_runs 99 (rd_chunks r) = true -> decodes r size ts (DOk tt) ->
  exists out, encodes c None ts out CNil /\
    forall r' size', 2 <= size' -> ok_runs 99 (rd_chunks r') = true -> rd_fin r' = RdEOF ->
      input r' = out -> decodes r' size' ts (DOk tt).
Proof.
  intros c r size ts NC L K D.
  destruct (C08_accepted_texts_partial r size ts L K D) as [vs [t [-> [S _]]]].
  assert (V : Forall (valid false) vs /\ map canon vs = vs).
  { clear -S. induction S as [|w v t vs r W V _ S [F E]]; [auto|].
    destruct (vtext_canon false) as [H _]. destruct (H v t V) as [Vv Ev].
    split; [auto|]. cbn [map]. rewrite Ev, E. reflexivity. }
  destruct V as [F E]. destruct (C13_round_trip c false vs NC F) as [out [EN [_ H]]].
  exists out. split; [exact EN|]. rewrite E in H. exact H.
Qed.
Print Assumptions C13_decode_encode_decode.

(** A compact setting of 20 columns on [{"a":1} [[2],{},"x"]]. *)
Definition ex_settings : settings := mkSettings None 20 2 2 true.
Definition ex_vals : list jval :=
  [JObj [(new_key TStr [34; 97; 34]%N, JScalar (new_scalar TNum [49%N]))] false;
   JArr [JArr [JScalar (new_scalar TNum [50%N])] false; JObj [] false;
         JScalar (new_scalar TStr [34; 120; 34]%N)] false].
Example C13_example : Forall (valid true) ex_vals /\
  encodes ex_settings None (stream ex_vals)
    ([123; 34; 97; 34; 58; 32; 49; 125; 10] ++
     [91; 10; 32; 32; 91; 50; 93; 44; 10; 32; 32; 123; 125; 44; 10; 32; 32; 34; 120; 34; 10; 93; 10])%N CNil.
Proof.
  split.
  - assert (N1 : forall d, (49 <= d <= 57)%N -> number_text [d]).
    { intros d D. exists [], [d], [], []. repeat split; auto; try (now left).
      right. exists d, []. auto. }
    assert (ST : forall b, plain_byte b -> string_text true [34; b; 34]%N).
    { intros b B. exists [b]. split; [reflexivity|]. apply ch_plain; [exact B|constructor]. }
    repeat constructor; cbn [fst snd]; try (apply N1; lia); try (apply ST; unfold plain_byte; lia).
  - apply encodes_vm. vm_compute. reflexivity.
Qed.

(* ------------------------------------------------------------------ *)
(** C14.  With a negative IndentSize the output is one line per value, each a
    text of its value. *)
Definition no_byte (b : N) (t : token) : Prop :=
  match t with TScalar s => ~ In b (sc_bytes s) | _ => True end.

Lemma absent_write : forall b col wl mi size flusher,
  (b = 10%N \/ b = 27%N) -> (b = 10%N -> (size < 0)%Z) -> col = None ->
  forall f v ts cs o, Forall (no_byte b) ts -> QV (no_byte b) v ->
    write_value col wl mi f v ts = (cs, o) -> o <> EFuel ->
    forall lvl, ~ In b (text size flusher lvl cs).
Proof.
  intros b col wl mi size flusher B SZ -> f v ts cs o F HV E NF.
  assert (NLN : forall lvl, ~ In b (nl size flusher lvl)).
  { intros lvl I. destruct B as [->| ->].
    - unfold nl, new_line in I. replace (size <? 0)%Z with true in I; [destruct I|].
      symmetry. apply Z.ltb_lt. auto.
    - pose proof (nl_ws size flusher lvl) as W. unfold ws in W. rewrite Forall_forall in W.
      apply W in I. unfold ws_byte in I. lia. }
  destruct (erel_write None None wl mi (fun a _ => forall lvl, ~ In b (text size flusher lvl a)) (no_byte b)
    ) with (f := f) (g := f) as [H _].
  - intros lvl [].
  - intros a a' c c' H1 H2 lvl. rewrite text_app, in_app_iff. intros [I|I]; [eapply H1|eapply H2]; eauto.
  - intros lvl. rewrite text_indent, app_nil_r. apply NLN.
  - intros lvl. rewrite text_dedent, app_nil_r. apply NLN.
  - intros lvl. rewrite text_newline, app_nil_r. apply NLN.
  - intros c I lvl. rewrite text_bytes, app_nil_r. simpl in I.
    intuition subst; simpl in *; intuition discriminate.
  - intros s NB lvl. cbn [print_scalar]. rewrite text_bytes, app_nil_r. exact NB.
  - lia.
  - specialize (H v HV ts F). rewrite E in H. cbn [fst snd] in H.
    destruct H as [H|[_ [H _]]]; [contradiction|exact H].
Qed.

Theorem C14_one_line_per_value : forall c vs, se_color c = None -> (se_indent c < 0)%Z ->
  Forall (no_byte 10) (stream vs) ->
  exists ls, Forall2 ptext vs ls /\ Forall (fun l => ~ In 10%N l) ls /\
    encodes c None (stream vs) (concat (map (fun l => l ++ [10%N]) ls)) CNil.
Proof.
  intros c vs NC NEG F.
  assert (H : exists n cs,
    (forall f, n <= f -> consume_loop None (se_width c) (se_items c) f (stream vs) = (cs, EDone tt [])) /\
    forall lvl, exists ls, Forall2 ptext vs ls /\ Forall (fun l => ~ In 10%N l) ls /\
      text (se_indent c) (se_flush c) lvl cs = concat (map (fun t => t ++ [10%N]) ls)).
  { induction vs as [|v vs IH].
    - exists 1, []. split; [intros [|f] L; [lia|]; reflexivity|]. intros lvl. exists []. auto.
    - unfold stream in F. cbn [flat_map] in F. apply Forall_app in F. destruct F as [F1 F2].
      destruct (IH F2) as [n2 [cs2 [R2 T2]]]. clear IH.
      destruct (write_value_run (se_indent c) (se_flush c) (se_width c) (se_items c) v) as [n1 [cs1 [R1 T1]]].
      assert (NB : forall lvl, ~ In 10%N (text (se_indent c) (se_flush c) lvl cs1)).
      { rewrite toks_split in F1. inversion F1 as [|? ? H1 H2]; subst.
        eapply (absent_write 10 None (se_width c) (se_items c)) with (f := n1) (v := ev v) (ts := body v ++ []);
          [auto|auto|auto| | |apply R1; lia|discriminate].
        - rewrite app_nil_r. exact H2.
        - destruct v; simpl in *; auto. }
      exists (S (n1 + n2)), (cs1 ++ [PReset] ++ cs2). split.
      + intros [|f] L; [lia|]. cbn [consume_loop stream flat_map]. rewrite toks_split.
        eapply ebnd_eq; [reflexivity| |reflexivity].
        eapply ebnd_eq; [apply next_value_hd| |reflexivity].
        eapply ebnd_eq; [apply R1; lia| |reflexivity].
        eapply ebnd_eq; [reflexivity| |reflexivity]. apply R2; lia.
      + intros lvl. tx. destruct (T2 0%Z) as [ls [FP [FN ->]]].
        exists (text (se_indent c) (se_flush c) lvl cs1 :: ls).
        split; [constructor; auto|]. split; [constructor; auto|].
        cbn [map concat]. rewrite <- app_assoc. reflexivity. }
  destruct H as [n [cs [R T]]]. destruct (T 0%Z) as [ls [FP [FN E]]].
  exists ls. split; [exact FP|]. split; [exact FN|].
  exists n. intros f L. unfold consume_json. rewrite NC, R by exact L.
  cbn [failing_write]. unfold text in E. rewrite E. reflexivity.
Qed.
Print Assumptions C14_one_line_per_value.

(** The hypothesis on bytes holds of every valid value: JSON literals contain
    no control characters, in particular no line feed and no escape. *)
Lemma chars_no_control : forall c, chars true c -> Forall (fun b => (32 <= b)%N) c.
Proof.
  induction 1; repeat constructor; auto; try lia;
    unfold plain_byte, escape_letter, hex in *; simpl in *; try lia; discriminate.
Qed.
Lemma number_no_control : forall l, number_text l -> Forall (fun b => (32 <= b)%N) l.
Proof.
  intros l [sg [i [f [e [-> [SG [IT [FT ET]]]]]]]].
  assert (D : forall ds, Forall digit ds -> Forall (fun b => (32 <= b)%N) ds).
  { intros ds. apply Forall_impl. intros b B. unfold digit in B. lia. }
  repeat rewrite Forall_app. repeat split.
  - destruct SG as [->| ->]; repeat constructor; lia.
  - destruct IT as [->|[d [ds [-> [B F]]]]]; repeat constructor; auto; lia.
  - destruct FT as [->|[ds [-> [_ F]]]]; repeat constructor; auto; lia.
  - destruct ET as [->|[eb [sg2 [ds [-> [EB [SG2 [_ F]]]]]]]]; [constructor|].
    constructor; [lia|]. apply Forall_app. split; auto.
    destruct SG2 as [->|[->| ->]]; repeat constructor; lia.
Qed.
Lemma valid_no_byte : forall b v, (b < 32)%N -> valid true v -> Forall (no_byte b) (toks v).
Proof.
  intros b v B. revert v.
  assert (NB : forall l, Forall (fun b => (32 <= b)%N) l -> ~ In b l).
  { intros l F I. rewrite Forall_forall in F. apply F in I. lia. }
  assert (ST : forall l, string_text true l -> ~ In b l).
  { intros l [c [-> C]]. apply NB. constructor; [lia|]. apply Forall_app.
    split; [apply chars_no_control; exact C|]. constructor; [lia|constructor]. }
  apply valid_ind.
  - intros s V. constructor; [|constructor]. simpl. unfold valid_scalar in V. destruct (sc_type s).
    + rewrite V. apply NB. repeat constructor; lia.
    + destruct V as [->| ->]; apply NB; repeat constructor; lia.
    + apply NB, number_no_control, V.
    + apply ST, V.
  - intros l _ H. cbn [toks]. constructor; [exact I|]. apply Forall_app. split; [|repeat constructor].
    induction H; cbn [flat_map]; [constructor|]. apply Forall_app. auto.
  - intros l V H. cbn [toks]. constructor; [exact I|]. apply Forall_app. split; [|repeat constructor].
    induction H as [|m l Hm H IH]; cbn [flat_map]; [constructor|]. inversion V as [|? ? [S Vm] V']; subst.
    constructor; [simpl; apply ST, S|]. apply Forall_app. auto.
Qed.
Lemma stream_no_byte : forall b vs, (b < 32)%N -> Forall (valid true) vs ->
  Forall (no_byte b) (stream vs).
Proof.
  intros b vs B. induction 1; [constructor|]. apply Forall_app. split; auto using valid_no_byte.
Qed.

Theorem C14_json_lines : forall c vs, se_color c = None -> (se_indent c < 0)%Z ->
  Forall (valid true) vs ->
  exists ls, Forall2 (vtext true) (map canon vs) ls /\ Forall (fun l => ~ In 10%N l) ls /\
    encodes c None (stream vs) (concat (map (fun l => l ++ [10%N]) ls)) CNil.
Proof.
  intros c vs NC NEG V.
  destruct (C14_one_line_per_value c vs NC NEG (stream_no_byte 10 vs ltac:(lia) V))
    as [ls [FP [FN E]]].
  exists ls. split; [|auto]. clear E FN.
  induction FP as [|v t vs ls P F IH]; [constructor|]. inversion V; subst.
  constructor; [|auto]. apply (ptail_elems true); auto.
Qed.
Print Assumptions C14_json_lines.

(* ------------------------------------------------------------------ *)
(** C15.  Colours only insert colour codes. *)
Definition codes (co : colorizer) : list bytes :=
  [co_key co; co_null co; co_bool co; co_num co; co_str co; co_reset co].

(** [colored co a b]: [b] is [a] without some occurrences of colour codes. *)
Inductive colored (co : colorizer) : bytes -> bytes -> Prop :=
| cl_nil : colored co [] []
| cl_byte : forall x a b, colored co a b -> colored co (x :: a) (x :: b)
| cl_code : forall c a b, In c (codes co) -> colored co a b -> colored co (c ++ a) b.

Inductive crel (co : colorizer) : list pcall -> list pcall -> Prop :=
| cr_nil : crel co [] []
| cr_same : forall c a b, crel co a b -> crel co (c :: a) (c :: b)
| cr_code : forall c a b, In c (codes co) -> crel co a b -> crel co (PBytes c :: a) b.

Lemma crel_app : forall co a a' b b', crel co a a' -> crel co b b' -> crel co (a ++ b) (a' ++ b').
Proof. induction 1; intros H'; cbn [app]; auto; constructor; auto. Qed.
Lemma colored_app : forall co l a b, colored co a b -> colored co (l ++ a) (l ++ b).
Proof. induction l; intros a0 b H; cbn [app]; auto. constructor. auto. Qed.
Lemma crel_scalar : forall co s, crel co (print_scalar (Some co) s) (print_scalar None s).
Proof.
  intros co s. cbn [print_scalar]. apply cr_code.
  - unfold scalar_color, codes. destruct (sc_key s); [|destruct (sc_type s)]; simpl; tauto.
  - apply cr_same. apply cr_code; [unfold codes; simpl; tauto|constructor].
Qed.
Lemma crel_text : forall co size flusher a b, crel co a b ->
  forall lvl, colored co (text size flusher lvl a) (text size flusher lvl b).
Proof.
  induction 1 as [|c a b H IH|c a b I H IH]; intros lvl.
  - constructor.
  - unfold text in *. cbn [printer_run]. destruct (printer_call size flusher lvl c) as [w l'].
    rewrite !written_app. apply colored_app. apply IH.
  - rewrite text_bytes. apply cl_code; auto.
Qed.

Lemma crel_consume : forall co wl mi f ts,
  snd (consume_loop (Some co) wl mi f ts) <> EFuel ->
  snd (consume_loop None wl mi f ts) = snd (consume_loop (Some co) wl mi f ts) /\
  crel co (fst (consume_loop (Some co) wl mi f ts)) (fst (consume_loop None wl mi f ts)).
Proof.
  intros co wl mi f ts NF.
  destruct (erel_consume (Some co) None wl mi (crel co) (fun _ => True)) with (f := f) (g := f) (ts := ts)
    as [E|[E [HC _]]]; try (intros; repeat constructor; fail); auto.
  - intros; apply crel_app; auto.
  - intros; apply crel_scalar.
  - apply Forall_forall. auto.
  - contradiction.
Qed.

Theorem C15_colors_only_insert_codes : forall co wl mi indent flush ts out res,
  encodes (mkSettings (Some co) wl mi indent flush) None ts out res ->
  exists out', encodes (mkSettings None wl mi indent flush) None ts out' res /\
    colored co out out'.
Proof.
  intros co wl mi indent flush ts out res H.
  destruct (C44_encoder_terminates (mkSettings (Some co) wl mi indent flush) None ts)
    as [o1 [r1 [H1 NF]]]. destruct (encodes_unique _ _ _ _ _ _ _ H H1) as [-> ->]. clear H.
  destruct (C44_encoder_terminates (mkSettings None wl mi indent flush) None ts)
    as [o2 [r2 [H2 NF2]]].
  destruct H1 as [n1 H1], H2 as [n2 H2].
  pose proof (H1 (n1 + n2) ltac:(lia)) as E1. pose proof (H2 (n1 + n2) ltac:(lia)) as E2.
  unfold consume_json in E1, E2. cbn [se_color se_width se_items se_indent se_flush failing_write] in *.
  pose proof (crel_consume co wl mi (n1 + n2) ts) as R.
  destruct (consume_loop (Some co) wl mi (n1 + n2) ts) as [c1 s1].
  destruct (consume_loop None wl mi (n1 + n2) ts) as [c2 s2]. cbn [fst snd] in R.
  injection E1 as <- <-. injection E2 as <- <-.
  destruct R as [-> R]; [intros ->; apply NF; reflexivity|].
  exists (written (printer_run indent flush 0 c2)). split; [exists n2; exact H2|].
  apply (crel_text co indent flush _ _ R 0).
Qed.
Print Assumptions C15_colors_only_insert_codes.

(** Removing the terminal escape sequences ESC ... m restores the plain
    output, if the colours are such sequences and no scalar contains ESC. *)
Fixpoint strip (inside : bool) (l : bytes) : bytes :=
  match l with
  | [] => []
  | b :: r =>
      if inside then strip (negb (N.eqb b 109)) r
      else if N.eqb b 27 then strip true r
      else b :: strip false r
  end.
Definition ansi (c : bytes) : Prop := exists mid, c = 27%N :: mid ++ [109%N] /\ ~ In 109%N mid.

Lemma strip_code : forall c r, ansi c -> strip false (c ++ r) = strip false r.
Proof.
  intros c r [mid [-> NI]]. cbn [app strip]. rewrite <- app_assoc.
  replace (27 =? 27)%N with true by reflexivity.
  induction mid as [|b mid IH]; [reflexivity|]. cbn [app strip].
  destruct (N.eqb_spec b 109) as [->|NE]; [exfalso; apply NI; left; reflexivity|].
  apply IH. intros I. apply NI. right. exact I.
Qed.
Lemma strip_colored : forall co a b, Forall ansi (codes co) -> colored co a b ->
  ~ In 27%N b -> strip false a = b.
Proof.
  intros co a b A. rewrite Forall_forall in A. induction 1 as [|x a b H IH|c a b I H IH]; intros NI.
  - reflexivity.
  - cbn [strip]. destruct (N.eqb_spec x 27) as [->|NE]; [exfalso; apply NI; left; reflexivity|].
    rewrite IH; auto. intros I. apply NI. right. exact I.
  - rewrite strip_code by auto. auto.
Qed.

Lemma absent_consume : forall wl mi size flusher f ts,
  Forall (no_byte 27) ts -> snd (consume_loop None wl mi f ts) <> EFuel ->
  forall lvl, ~ In 27%N (text size flusher lvl (fst (consume_loop None wl mi f ts))).
Proof.
  intros wl mi size flusher f ts F NF.
  assert (NLN : forall lvl, ~ In 27%N (nl size flusher lvl)).
  { intros lvl I. pose proof (nl_ws size flusher lvl) as W. unfold ws in W. rewrite Forall_forall in W.
    apply W in I. unfold ws_byte in I. lia. }
  destruct (erel_consume None None wl mi (fun a _ => forall lvl, ~ In 27%N (text size flusher lvl a)) (no_byte 27)
    ) with (f := f) (g := f) (ts := ts) as [H|[_ [H _]]]; auto; try contradiction.
  - intros a a' c c' H1 H2 lvl. rewrite text_app, in_app_iff. intros [I|I]; [eapply H1|eapply H2]; eauto.
  - intros lvl. rewrite text_indent, app_nil_r. apply NLN.
  - intros lvl. rewrite text_dedent, app_nil_r. apply NLN.
  - intros lvl. rewrite text_newline, app_nil_r. apply NLN.
  - intros c I lvl. rewrite text_bytes, app_nil_r. simpl in I.
    intuition subst; simpl in *; intuition discriminate.
  - intros s NB lvl. cbn [print_scalar]. rewrite text_bytes, app_nil_r. exact NB.
  - intros lvl. rewrite text_reset. rewrite text_nil. simpl. intuition discriminate.
Qed.

Theorem C15_stripping_colors_gives_plain_output : forall co wl mi indent flush ts out res,
  Forall ansi (codes co) -> Forall (no_byte 27) ts ->
  encodes (mkSettings (Some co) wl mi indent flush) None ts out res ->
  encodes (mkSettings None wl mi indent flush) None ts (strip false out) res.
Proof.
  intros co wl mi indent flush ts out res A F H.
  destruct (C15_colors_only_insert_codes co wl mi indent flush ts out res H) as [out' [H' C]].
  replace (strip false out) with out'; [exact H'|]. symmetry. apply (strip_colored co); auto.
  destruct (C44_encoder_terminates (mkSettings None wl mi indent flush) None ts) as [o2 [r2 [H2 NF2]]].
  destruct (encodes_unique _ _ _ _ _ _ _ H' H2) as [-> ->].
  destruct H2 as [n H2]. specialize (H2 n (le_n _)). unfold consume_json in H2.
  cbn [se_color se_width se_items se_indent se_flush failing_write] in H2.
  pose proof (absent_consume wl mi indent flush n ts F) as N.
  destruct (consume_loop None wl mi n ts) as [cs o]. cbn [fst snd] in N.
  injection H2 as <- <-. apply (N ltac:(intros ->; apply NF2; reflexivity) 0%Z).
Qed.
Print Assumptions C15_stripping_colors_gives_plain_output.

(** The colours of cmd/jp/main.go:328-364. *)
Definition jp_colors : colorizer :=
  mkColorizer [27; 91; 51; 52; 59; 49; 109]%N [27; 91; 51; 55; 59; 50; 109]%N
    [27; 91; 51; 51; 109]%N [27; 91; 51; 55; 109]%N [27; 91; 51; 50; 109]%N [27; 91; 48; 109]%N.
Example C15_example : Forall ansi (codes jp_colors) /\ Forall (no_byte 27) (stream ex_vals).
Proof.
  split.
  - assert (A : forall c, c = 27%N :: removelast (tl c) ++ [109%N] -> existsb (N.eqb 109) (removelast (tl c)) = false -> ansi c).
    { intros c E H. exists (removelast (tl c)). split; [exact E|]. intros I.
      assert (existsb (N.eqb 109) (removelast (tl c)) = true); [|congruence].
      apply existsb_exists. exists 109%N. auto. }
    repeat constructor; apply A; reflexivity.
  - apply stream_no_byte; [lia|]. apply C13_example.
Qed.

(* ------------------------------------------------------------------ *)
(** C16.  A failure of the writer at any operation: what has been written is a
    prefix of the full output, and either the failure is returned as an error or
    the output is complete. *)
Lemma written_prefix : forall k ws, exists rest, written ws = written (firstn k ws) ++ rest.
Proof.
  intros k ws. exists (written (skipn k ws)). rewrite <- written_app, firstn_skipn. reflexivity.
Qed.

Theorem C16_write_errors_are_returned : forall c fail ts out res out' res',
  encodes c None ts out res -> encodes c fail ts out' res' ->
  (exists rest, out = out' ++ rest) /\
  (res' = CPrinterError \/ out' = out /\ res' = res).
Proof.
  intros c fail ts out res out' res' [n1 H1] [n2 H2].
  specialize (H1 (n1 + n2) ltac:(lia)). specialize (H2 (n1 + n2) ltac:(lia)).
  unfold consume_json in H1, H2.
  destruct (consume_loop _ _ _ (n1 + n2) ts) as [cs o].
  set (ws := printer_run (se_indent c) (se_flush c) 0 cs) in *.
  cbn [failing_write] in H1. injection H1 as <- <-.
  destruct fail as [[k part]|]; cbn [failing_write] in H2.
  - destruct (nth_error ws k) as [[b|]|] eqn:E; injection H2 as <- <-.
    + split; [|auto].
      apply nth_error_split in E. destruct E as [l1 [l2 [-> <-]]].
      rewrite firstn_app, Nat.sub_diag, firstn_all. cbn [firstn]. rewrite app_nil_r.
      rewrite written_app. cbn [written]. exists (skipn part b ++ written l2).
      rewrite <- !app_assoc. f_equal. rewrite app_assoc, firstn_skipn. reflexivity.
    + split; [apply written_prefix|auto].
    + split; [exists []; rewrite app_nil_r; reflexivity|auto].
  - injection H2 as <- <-. split; [exists []; rewrite app_nil_r; reflexivity|auto].
Qed.
Print Assumptions C16_write_errors_are_returned.

(** A failing writer never turns a completed run into a panic. *)
Theorem C16_no_panic_on_complete_streams : forall c fail vs, se_color c = None ->
  exists out res, encodes c fail (stream vs) out res /\ (res = CNil \/ res = CPrinterError).
Proof.
  intros c fail vs NC.
  destruct (C13_output_is_a_text_per_value c vs NC) as [ls [_ E]].
  destruct (C44_encoder_terminates c fail (stream vs)) as [out [res [H _]]].
  exists out, res. split; [exact H|].
  destruct (C16_write_errors_are_returned _ _ _ _ _ _ _ E H) as [_ [->|[_ ->]]]; auto.
Qed.
Print Assumptions C16_no_panic_on_complete_streams.

(** The writer fails at its fifth operation after writing nothing of it. *)
Example C16_example :
  encodes ex_settings (Some (4, 0)) (stream ex_vals) [123; 34; 97; 34; 58; 32; 49]%N CPrinterError.
Proof. apply encodes_vm. vm_compute. reflexivity. Qed.

(* ------------------------------------------------------------------ *)
(** C44.  Malformed input should give an error.  It does at the decoder (see
    C11), but the tokens emitted before the error are an incomplete stream, on
    which the encoder panics: the input [[1]. *)
Theorem C44_truncated_input_refuted :
  exists ts e, decodes (one_chunk [91; 49]%N) 16 ts (DErr e) /\
    forall c, exists out, encodes c None ts out CPanic.
Proof.
  eexists _, _. split; [apply (decodes_vm _ _ 12); vm_compute; reflexivity|].
  intros [col wl mi ind fl].
  destruct (C44_encoder_terminates (mkSettings col wl mi ind fl) None
    [TStartArr; TScalar (new_scalar TNum [49%N])]) as [out [res [H NF]]].
  exists out. pose proof H as [n E]. specialize (E (n + 6) ltac:(lia)).
  unfold consume_json in E. cbn [se_color se_width se_items se_indent se_flush failing_write] in E.
  replace (n + 6) with (S (S (S (S (S (S n)))))) in E by lia.
  destruct (consume_loop col wl mi (S (S (S (S (S (S n)))))) _) as [cs o] eqn:R.
  injection E as _ Er.
  assert (P : o = EPanic).
  { clear -R. cbn [consume_loop] in R. unfold ebnd at 1 in R. cbn [enext] in R.
    unfold ebnd at 1 in R. cbn [next_value eret] in R. rewrite wv_eq in R.
    destruct (0 <? wl)%Z; cbv [ebnd pb ecalls] in R.
    - cbn [array_items_compact] in R. cbv [ebnd arr_advance] in R. cbn in R.
      destruct (_ <=? wl)%Z; cbn in R; [congruence|]. 
      cbv [ebnd ecalls] in R. cbn in R. congruence.
    - cbn [array_items] in R. cbv [ebnd arr_advance] in R. cbn in R. congruence. }
  subst o. subst res. exact H.
Qed.
Print Assumptions C44_truncated_input_refuted.

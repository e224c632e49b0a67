(** Properties C07-C12 and C43: the JSON decoder. *)
From Coq Require Import List Arith NArith Bool Lia.
From Verif Require Import Base Tokens ScannerModel ScannerSpec ScannerProofs
  ProgModel ProgProofs JsonDecModel JsonSpec JsonDecProofs JsonDecValue.

(** [decodes r size ts x]: reading from [r] through a buffer of [size] bytes the
    decoder ends normally, having emitted [ts] and returning [x].  The number
    [n] only bounds the loops of the model. *)
Definition decodes (r : reader) (size : nat) (ts : list token) (x : dres unit) : Prop :=
  exists n, forall fuel, n <= fuel -> decode_json fuel r size = Ok (ts, x).

Lemma decodes_unique : forall r size ts1 x1 ts2 x2,
  decodes r size ts1 x1 -> decodes r size ts2 x2 -> ts1 = ts2 /\ x1 = x2.
Proof.
  intros r size ts1 x1 ts2 x2 [n1 H1] [n2 H2].
  specialize (H1 (n1 + n2) ltac:(lia)). specialize (H2 (n1 + n2) ltac:(lia)).
  rewrite H1 in H2. injection H2 as -> ->. auto.
Qed.

Definition input (r : reader) : bytes := concat (rd_chunks r).


(** More fuel does not change a result. *)
Ltac ple_tac :=
  repeat first
    [ assumption
    | apply ple_refl
    | apply ple_stuck
    | apply ple_ebind; [|intros]
    | apply ple_bind; [|intros]
    | apply ple_emit
    | match goal with
      | |- ple (if ?b then _ else _) _ => destruct b
      | |- ple (let '(_, _) := ?x in _) _ => destruct x
      end
    | match goal with H : _ |- _ => apply H end ].

Lemma string_loop_mono : forall f g al un fst, f <= g ->
  ple (string_loop f al un fst) (string_loop g al un fst).
Proof.
  induction f as [|f IH]; intros g al un fst L; [apply ple_stuck|].
  destruct g as [|g]; [lia|]. assert (L' : f <= g) by lia.
  specialize (IH g). cbn [string_loop]. ple_tac.
Qed.

Lemma parse_string_mono : forall f g, f <= g -> ple (parse_string f) (parse_string g).
Proof.
  intros f g L. pose proof (fun al un fst => string_loop_mono f g al un fst L).
  unfold parse_string. ple_tac.
Qed.

Lemma read_digits_mono : forall f g n, f <= g -> ple (read_digits f n) (read_digits g n).
Proof.
  induction f as [|f IH]; intros g n L; [apply ple_stuck|].
  destruct g as [|g]; [lia|]. assert (L' : f <= g) by lia.
  specialize (IH g). cbn [read_digits]. ple_tac.
Qed.

Lemma number_exp_mono : forall f g b, f <= g -> ple (number_exp f b) (number_exp g b).
Proof.
  intros f g b L. pose proof (fun n => read_digits_mono f g n L). unfold number_exp. ple_tac.
Qed.

Lemma number_frac_mono : forall f g b, f <= g -> ple (number_frac f b) (number_frac g b).
Proof.
  intros f g b L. pose proof (fun n => read_digits_mono f g n L).
  pose proof (fun b => number_exp_mono f g b L).
  unfold number_frac. ple_tac.
Qed.

Lemma parse_number_mono : forall f g, f <= g -> ple (parse_number f) (parse_number g).
Proof.
  intros f g L. pose proof (fun n => read_digits_mono f g n L).
  pose proof (fun b => number_frac_mono f g b L).
  unfold parse_number. ple_tac.
Qed.

Lemma values_mono : forall f g, f <= g -> ple (parse_value f) (parse_value g) /\
  ple (array_loop f) (array_loop g) /\ ple (object_loop f) (object_loop g).
Proof.
  induction f as [|f IH]; intros g L; [split; [|split]; apply ple_stuck|].
  destruct g as [|g]; [lia|]. assert (L' : f <= g) by lia.
  destruct (IH g L') as [IH1 [IH2 IH3]].
  pose proof (parse_string_mono f g L'). pose proof (parse_number_mono f g L').
  cbn [parse_value array_loop object_loop]. split; [|split]; ple_tac.
Qed.

Lemma produce_mono : forall f g, f <= g -> ple (produce f) (produce g).
Proof.
  induction f as [|f IH]; intros g L; [apply ple_stuck|].
  destruct g as [|g]; [lia|]. assert (L' : f <= g) by lia.
  specialize (IH g L'). destruct (values_mono f g L') as [H _]. cbn [produce]. ple_tac.
Qed.

Lemma decode_mono : forall f g r size ts x, f <= g ->
  decode_json f r size = Ok (ts, x) -> decode_json g r size = Ok (ts, x).
Proof.
  intros f g r size ts x L H. unfold decode_json in *.
  destruct (prun cstep (new_scanner r size) (produce f)) as [[[c ts1] x1]| |] eqn:E;
    try discriminate.
  now rewrite (ple_run _ _ cstep _ _ (produce_mono f g L) _ _ E).
Qed.

(** From the plain to the buffered scanner. *)
Lemma decodes_intro : forall r size (Q : list token -> dres unit -> Prop),
  2 <= size -> ok_runs 99 (rd_chunks r) = true ->
  (exists f, runs (a_init (input r) (rd_fin r)) (produce f) (fun _ ts x => Q ts x)) ->
  exists ts x, decodes r size ts x /\ Q ts x.
Proof.
  intros r size Q L K [f [a' [ts [x [R H]]]]].
  destruct (prun_sim _ _ _ _ _ _ _ (init_sim r size L K) R) as [c [C _]].
  exists ts, x. split; [|exact H]. exists f. intros g G. eapply decode_mono; [exact G|].
  unfold decode_json. now rewrite C.
Qed.

Lemma st_init : forall l fin, st fin (a_init l fin) l None.
Proof. repeat split. Qed.

Lemma stext_sep : forall strict (P Q : bytes -> bytes -> Prop) vs t,
  (forall x r, P x r -> Q x r) -> stext strict P vs t -> stext strict Q vs t.
Proof. intros strict P Q vs t H. induction 1; constructor; auto. Qed.

Lemma ws_separated_delimited : forall t r, ws_separated t r -> delimited t r.
Proof.
  intros t r [->|[b [r' [-> W]]]] _ b' r2 E; [discriminate|]. injection E as <- <-.
  unfold ws_byte, continues_number, digit in *. lia.
Qed.

Lemma delimited_sep_ok : forall t r, delimited t r -> sep_ok RdEOF t r.
Proof.
  intros t r D E. destruct r as [|b r]; [now left|]. right. exists b, r. split; auto. eapply D; eauto.
Qed.

(* ------------------------------------------------------------------ *)
(** C07.  White-space-separated RFC 8259 values are decoded to their token
    streams, for every chunking of the input and every buffer size. *)
Theorem C07_valid_json_is_decoded :
  forall (r : reader) (size : nat) (vs : list jval),
    2 <= size -> ok_runs 99 (rd_chunks r) = true -> rd_fin r = RdEOF ->
    stext true ws_separated vs (input r) ->
    decodes r size (stream vs) (DOk tt).
Proof.
  intros r size vs L K FN H.
  destruct (decodes_intro r size (fun ts x => ts = stream vs /\ x = DOk tt) L K)
    as [ts [x [D [-> ->]]]]; [|exact D].
  exists (2 * length (input r) + 2).
  eapply runs_conseq; [eapply (produce_complete (rd_fin r) true vs)|].
  - eapply stext_sep; [|exact H]. intros t r0 S. rewrite FN.
    now apply delimited_sep_ok, ws_separated_delimited.
  - exact FN.
  - apply st_init.
  - lia.
  - auto.
Qed.
Print Assumptions C07_valid_json_is_decoded.

(** Separation is needed only after numbers. *)
Theorem C07_only_numbers_need_separation :
  forall (r : reader) (size : nat) (vs : list jval),
    2 <= size -> ok_runs 99 (rd_chunks r) = true -> rd_fin r = RdEOF ->
    stext true delimited vs (input r) ->
    decodes r size (stream vs) (DOk tt).
Proof.
  intros r size vs L K FN H.
  destruct (decodes_intro r size (fun ts x => ts = stream vs /\ x = DOk tt) L K)
    as [ts [x [D [-> ->]]]]; [|exact D].
  exists (2 * length (input r) + 2).
  eapply runs_conseq; [eapply (produce_complete (rd_fin r) true vs)|]; auto.
  - eapply stext_sep; [|exact H]. intros t r0 S. rewrite FN. now apply delimited_sep_ok.
  - apply st_init.
Qed.
Print Assumptions C07_only_numbers_need_separation.

(** A text that meets the hypotheses: [[1,{"a":"\n"}] 0] in three chunks. *)
Definition ex_reader : reader :=
  mkReader [[91; 49; 44; 123; 34]; []; [97; 34; 58; 34; 92; 110; 34; 125; 93; 32]; [48]]%N RdEOF true.
Definition ex_values : list jval :=
  [JArr [JScalar (new_scalar TNum [49%N]);
         JObj [(key_scalar [97%N], JScalar (string_scalar [92; 110]%N))] false] false;
   JScalar (new_scalar TNum [48%N])].

Example C07_example :
  ok_runs 99 (rd_chunks ex_reader) = true /\ rd_fin ex_reader = RdEOF /\
  stext true ws_separated ex_values (input ex_reader).
Proof.
  split; [reflexivity|]. split; [reflexivity|].
  assert (N1 : number_text [49%N]).
  { exists [], [49%N], [], []. repeat split; auto; try (now left).
    right. exists 49%N, []. repeat split; auto; lia. }
  assert (N0 : number_text [48%N]).
  { exists [], [48%N], [], []. repeat split; auto; now left. }
  assert (C1 : chars true [97%N]).
  { apply ch_plain; [unfold plain_byte; lia|constructor]. }
  assert (C2 : chars true [92; 110]%N).
  { apply ch_esc; [unfold escape_letter; simpl; tauto|constructor]. }
  assert (WN : ws []) by constructor.
  apply (st_cons true ws_separated [] _
    [91; 49; 44; 123; 34; 97; 34; 58; 34; 92; 110; 34; 125; 93]%N _ [32; 48]%N); auto.
  - apply (vt_arr true _ [49; 44; 123; 34; 97; 34; 58; 34; 92; 110; 34; 125]%N).
    apply (el_cons true [] _ [49%N] [] _ [123; 34; 97; 34; 58; 34; 92; 110; 34; 125]%N); auto.
    + now apply vt_num.
    + apply (el_one true [] _ [123; 34; 97; 34; 58; 34; 92; 110; 34; 125]%N []); auto.
      apply (vt_obj true _ [34; 97; 34; 58; 34; 92; 110; 34]%N).
      apply (me_one true [] [97%N] [] [] _ [34; 92; 110; 34]%N []); auto.
      now apply (vt_str true [92; 110]%N).
  - right. exists 32%N, [48%N]. split; [reflexivity|unfold ws_byte; auto].
  - apply (st_cons true ws_separated [32%N] _ [48%N] [] []); auto.
    + constructor; [unfold ws_byte; auto|constructor].
    + now apply vt_num.
    + now left.
    + now constructor.
Qed.

(* ------------------------------------------------------------------ *)
Lemma decodes_sound : forall r size, 2 <= size -> ok_runs 99 (rd_chunks r) = true ->
  exists ts x, decodes r size ts x /\
    match x with
    | DOk _ => exists vs t, ts = stream vs /\ stext false juxtaposed vs t /\
                 (input r = t /\ rd_fin r = RdEOF \/ exists u, input r = t ++ EOFb :: u)
    | DErr _ => (exists vs suf, ts ++ suf = stream vs) /\ spelled ts (input r)
    end.
Proof.
  intros r size L K. apply decodes_intro; auto.
  exists (2 * length (input r) + 2). apply produce_sound; auto. apply st_init.
Qed.

(** C11.  On every input, well formed or not, with any read error, the decoder
    ends normally: no panic, no endless loop. *)
Theorem C11_decoder_terminates_without_panic :
  forall (r : reader) (size : nat),
    2 <= size -> ok_runs 99 (rd_chunks r) = true ->
    exists ts x, decodes r size ts x.
Proof.
  intros r size L K. destruct (decodes_sound r size L K) as [ts [x [D _]]]. eauto.
Qed.
Print Assumptions C11_decoder_terminates_without_panic.

(** C08.  What the decoder accepts: values of the grammar with liberal escapes
    (a backslash before any byte), which need not be separated; a byte 0xFF
    ends the input. *)
Theorem C08_accepted_texts_partial :
  forall (r : reader) (size : nat) (ts : list token),
    2 <= size -> ok_runs 99 (rd_chunks r) = true ->
    decodes r size ts (DOk tt) ->
    exists vs t, ts = stream vs /\ stext false juxtaposed vs t /\
      (input r = t \/ exists u, input r = t ++ 255%N :: u).
Proof.
  intros r size ts L K D. destruct (decodes_sound r size L K) as [ts' [x [D' H]]].
  destruct (decodes_unique _ _ _ _ _ _ D D') as [<- <-].
  destruct H as [vs [t [-> [S [[E _]|E]]]]]; exists vs, t; auto.
Qed.
Print Assumptions C08_accepted_texts_partial.

(** In particular an input without the byte 0xFF is a text of the grammar. *)
Theorem C08_accepted_utf8_texts_partial :
  forall (r : reader) (size : nat) (ts : list token),
    2 <= size -> ok_runs 99 (rd_chunks r) = true -> ~ In 255%N (input r) ->
    decodes r size ts (DOk tt) ->
    exists vs, ts = stream vs /\ stext false juxtaposed vs (input r).
Proof.
  intros r size ts L K N D.
  destruct (C08_accepted_texts_partial r size ts L K D) as [vs [t [-> [S [->|[u E]]]]]]; eauto.
  exfalso. apply N. rewrite E. apply in_or_app. right. now left.
Qed.
Print Assumptions C08_accepted_utf8_texts_partial.

Definition one_chunk (l : bytes) : reader := mkReader [l] RdEOF true.

Lemma decodes_vm : forall r size n ts x, decode_json n r size = Ok (ts, x) -> decodes r size ts x.
Proof. intros. exists n. intros. eapply decode_mono; eauto. Qed.

(** The string "\x" is accepted although \x is not an escape of RFC 8259. *)
Theorem C08_strict_escapes_refuted :
  exists ts, decodes (one_chunk [34; 92; 120; 34]%N) 16 ts (DOk tt) /\
    forall vs, ~ stext true juxtaposed vs [34; 92; 120; 34]%N.
Proof.
  eexists. split; [apply (decodes_vm _ _ 10); vm_compute; reflexivity|].
  intros vs H. inversion H as [w W E1 E|w v t vs' u W V _ H' E1 E]; subst.
  - inversion W; subst. unfold ws_byte in *. lia.
  - destruct w as [|b w].
    2:{ inversion W; subst. injection E as E0 _. unfold ws_byte in *. lia. }
    cbn [app] in E. inversion V; subst; try discriminate.
    + destruct (number_first _ H0) as [b [t' [-> B]]]. injection E as -> _.
      unfold digit in B. lia.
    + cbn [app] in E. injection E as E. rewrite <- app_assoc in E. cbn [app] in E.
      inversion H0; subst; cbn [app] in E; injection E; intros; subst; try discriminate.
      * unfold plain_byte in *. lia.
      * unfold escape_letter in *. simpl in *. lia.
Qed.
Print Assumptions C08_strict_escapes_refuted.

(** The text 01 is accepted (as the two values 0 and 1). *)
Theorem C08_separation_refuted :
  exists ts, decodes (one_chunk [48; 49]%N) 16 ts (DOk tt) /\
    forall vs, ~ stext true ws_separated vs [48; 49]%N.
Proof.
  eexists. split; [apply (decodes_vm _ _ 10); vm_compute; reflexivity|].
  intros vs H. inversion H as [w W E1 E|w v t vs' u W V SP H' E1 E]; subst.
  - inversion W; subst. unfold ws_byte in *. lia.
  - destruct w as [|b w].
    2:{ inversion W; subst. injection E as E0 _. unfold ws_byte in *. lia. }
    cbn [app] in E. inversion V; subst; try discriminate.
    destruct SP as [->|[b [u' [-> B]]]].
    + rewrite app_nil_r in E. subst. destruct H0 as [sg [i [f [e [E [SG [IT [FT ET]]]]]]]].
      destruct SG as [->| ->]; [|discriminate]. cbn [app] in E.
      destruct IT as [->|[d [ds [-> [D _]]]]].
      * cbn [app] in E. injection E as E.
        destruct FT as [->|[ds [-> _]]]; [|discriminate].
        destruct ET as [->|[eb [sg [ds [-> [EB _]]]]]]; [discriminate|].
        injection E as E1 _. lia.
      * injection E as E1 _. lia.
    + destruct t as [|t1 [|t2 t3]]; cbn [app] in E.
      * destruct (number_first _ H0) as [? [? [? _]]]. discriminate.
      * injection E as _ E1 _. unfold ws_byte in B. lia.
      * injection E as _ _ E. destruct t3; discriminate.
Qed.
Print Assumptions C08_separation_refuted.

(** A byte 0xFF between values hides everything that follows. *)
Theorem C08_byte_255_refuted :
  exists ts, decodes (one_chunk [49; 32; 255; 93]%N) 16 ts (DOk tt) /\
    forall strict vs, ~ stext strict juxtaposed vs [49; 32; 255; 93]%N.
Proof.
  eexists. split; [apply (decodes_vm _ _ 12); vm_compute; reflexivity|].
  intros strict vs H.
  assert (SP : forall vs t, stext strict juxtaposed vs t -> spells strict (stream vs) t).
  { induction 1 as [w W|w v t vs0 u W V _ H0 IH]; [now apply spells_ws|].
    apply spells_wsl; auto. unfold stream. cbn [flat_map]. apply spells_app; auto.
    now apply (spells_value strict). }
  apply SP in H.
  (* every byte of a spelled text before the last token is accounted for *)
  assert (NL : forall s p q, literal strict s -> sc_bytes s ++ p = 255%N :: q -> False).
  { intros s p q [I|[[l [NT ->]]|[c [_ [->| ->]]]]] E.
    - simpl in I. destruct I as [<-|[<-|[<-|[]]]]; discriminate.
    - destruct (number_first _ NT) as [b [t' [-> B]]]. injection E as E0 _. unfold digit in B. lia.
    - discriminate.
    - discriminate. }
  assert (NO : forall ts q, ~ spells strict ts (255%N :: q)).
  { intros ts q S. inversion S; subst; try (unfold gap_byte, ws_byte in *; lia).
    eapply NL; eauto. }
  assert (N2 : forall ts q, ~ spells strict ts (32%N :: 255%N :: q)).
  { intros ts q S. inversion S as [|b ts0 p GB S'|s ts0 p LS S' EQ1 EQ2| | | |]; subst.
    - eapply NO; eauto.
    - destruct LS as [I|[[l [NT ->]]|[c [_ [->| ->]]]]]; try discriminate.
      + simpl in I. destruct I as [<-|[<-|[<-|[]]]]; discriminate.
      + destruct (number_first _ NT) as [b [t' [-> B]]]. injection EQ2 as E0 _. unfold digit in B. lia. }
  assert (LIT : forall s p q, literal strict s -> sc_bytes s ++ p = 49%N :: 32%N :: 255%N :: q ->
     p = 32%N :: 255%N :: q).
  { intros s p q [I|[[l [NT ->]]|[c [_ [->| ->]]]]] E; try discriminate.
    - simpl in I. destruct I as [<-|[<-|[<-|[]]]]; discriminate.
    - cbn [sc_bytes new_scalar] in E.
      assert (ND : forall x, In x l -> x <> 32%N).
      { intros x IX ->. clear -NT IX.
        destruct NT as [sg [i [f [e [-> [SG [IT [FT ET]]]]]]]].
        rewrite !in_app_iff in IX.
        destruct IX as [X|[X|[X|X]]].
        - destruct SG as [->| ->]; simpl in X; [tauto|]. lia.
        - destruct IT as [->|[d0 [ds [-> [D0 F]]]]]; simpl in X; [lia|].
          destruct X as [X|X]; [lia|]. rewrite Forall_forall in F. apply F in X. unfold digit in X; lia.
        - destruct FT as [->|[ds [-> [_ F]]]]; simpl in X; [tauto|].
          destruct X as [X|X]; [lia|]. rewrite Forall_forall in F. apply F in X. unfold digit in X; lia.
        - destruct ET as [->|[eb [sg2 [ds [-> [EB [SG2 [_ F]]]]]]]]; simpl in X; [tauto|].
          rewrite in_app_iff in X. rewrite Forall_forall in F.
          destruct X as [X|[X|X]]; [lia| |apply F in X; unfold digit in X; lia].
          destruct SG2 as [->|[->| ->]]; simpl in X; lia. }
      destruct l as [|x1 [|x2 x3]].
      + destruct (number_first _ NT) as [? [? [? _]]]. discriminate.
      + cbn [app] in E. injection E as _ ->. reflexivity.
      + cbn [app] in E. injection E as _ -> _. exfalso. apply (ND 32%N); simpl; auto. }
  inversion H; subst.
  - unfold gap_byte, ws_byte in *. lia.
  - match goal with L : literal strict ?s, E : sc_bytes ?s ++ ?p = _ |- _ =>
      pose proof (LIT s p _ L E); subst end.
    eapply N2; eauto.
Qed.
Print Assumptions C08_byte_255_refuted.

(* ------------------------------------------------------------------ *)
(** C09.  The emitted tokens spell a prefix of the input: every scalar carries
    its own bytes, only white space, commas and colons lie between tokens.
    Without an error (and without a byte 0xFF) they spell all of it. *)
Theorem C09_literals_keep_their_spelling :
  forall (r : reader) (size : nat) (ts : list token) (x : dres unit),
    2 <= size -> ok_runs 99 (rd_chunks r) = true ->
    decodes r size ts x ->
    exists p rest, input r = p ++ rest /\ spells false ts p /\
      (x = DOk tt -> rest = [] \/ exists u, rest = 255%N :: u).
Proof.
  intros r size ts x L K D. destruct (decodes_sound r size L K) as [ts' [x' [D' H]]].
  destruct (decodes_unique _ _ _ _ _ _ D D') as [<- <-].
  assert (SP : forall vs t, stext false juxtaposed vs t -> spells false (stream vs) t).
  { induction 1 as [w W|w v t vs u W V _ H0 IH]; [now apply spells_ws|].
    apply spells_wsl; auto. unfold stream. cbn [flat_map]. apply spells_app; auto.
    now apply (spells_value false). }
  destruct x as [[]|e].
  - destruct H as [vs [t [-> [S [[E _]|[u E]]]]]].
    + exists t, []. rewrite app_nil_r. auto.
    + exists t, (255%N :: u). split; auto. split; eauto.
  - destruct H as [_ [p [rest [E S]]]]. exists p, rest. repeat split; auto. discriminate.
Qed.
Print Assumptions C09_literals_keep_their_spelling.

(** C10.  The tokens emitted are a prefix of the token stream of some values,
    and all of it when there is no error. *)
Theorem C10_output_is_a_prefix_of_a_stream :
  forall (r : reader) (size : nat) (ts : list token) (x : dres unit),
    2 <= size -> ok_runs 99 (rd_chunks r) = true ->
    decodes r size ts x ->
    exists vs suf, ts ++ suf = stream vs /\ (x = DOk tt -> suf = []).
Proof.
  intros r size ts x L K D. destruct (decodes_sound r size L K) as [ts' [x' [D' H]]].
  destruct (decodes_unique _ _ _ _ _ _ D D') as [<- <-].
  destruct x as [[]|e].
  - destruct H as [vs [t [-> _]]]. exists vs, []. rewrite app_nil_r. auto.
  - destruct H as [[vs [suf E]] _]. exists vs, suf. split; auto. discriminate.
Qed.
Print Assumptions C10_output_is_a_prefix_of_a_stream.

(** The input [[1,{"a":\n2 x]: an error after five tokens. *)
Example C10_example :
  decodes (mkReader [[91; 49; 44; 123; 34; 97]; [34; 58; 10; 50; 32; 120]]%N RdEOF false) 16
    [TStartArr; TScalar (new_scalar TNum [49%N]); TStartObj; TScalar (key_scalar [97%N]);
     TScalar (new_scalar TNum [50%N])] (DErr DSyntax).
Proof. apply (decodes_vm _ _ 30). vm_compute. reflexivity. Qed.

(** C12.  Flags of the string scalars: never an escape in an "unescaped" string. *)
Lemma spells_literals : forall strict ts p, spells strict ts p ->
  forall s, In (TScalar s) ts -> literal strict s.
Proof.
  intros strict ts p H. induction H; intros s0 I; simpl in I; try tauto;
    try (destruct I as [I|I]; [discriminate|auto]); auto.
  destruct I as [I|I]; [injection I as <-; auto|auto].
Qed.

Theorem C12_string_flags :
  forall (r : reader) (size : nat) (ts : list token) (x : dres unit) (s : scalar),
    2 <= size -> ok_runs 99 (rd_chunks r) = true ->
    decodes r size ts x -> In (TScalar s) ts -> sc_type s = TStr ->
    exists c, sc_bytes s = 34%N :: c ++ [34%N] /\
      (sc_unesc s = true <-> ~ In 92%N c) /\
      (* the alnum flag, when there is no escape and the string is not empty *)
      (~ In 92%N c -> c <> [] -> sc_alnum s = identifier c).
Proof.
  intros r size ts x s L K D I T.
  destruct (C09_literals_keep_their_spelling r size ts x L K D) as [p [rest [_ [SP _]]]].
  assert (ESC : forall c, negb (has_escape c) = true <-> ~ In 92%N c).
  { intro c. unfold has_escape. rewrite negb_true_iff. split.
    - intros E X. assert (X2 : existsb (N.eqb 92) c = true)
        by (apply existsb_exists; exists 92%N; split; auto).
      congruence.
    - intro N. destruct (existsb (N.eqb 92) c) eqn:E; auto.
      apply existsb_exists in E. destruct E as [y [Y E]]. apply N.eqb_eq in E. subst. tauto. }
  assert (UN : forall c, ~ In 92%N c -> unescaped_chars c = c).
  { induction c as [|b c IH]; intro N; [reflexivity|]. simpl in N. simpl.
    destruct (N.eqb_spec b 92); [intuition congruence|]. f_equal. apply IH. tauto. }
  assert (AL : forall c, ~ In 92%N c -> c <> [] -> decoded_alnum c = identifier c).
  { intros c N NE. unfold decoded_alnum. rewrite UN by auto. destruct c; [congruence|reflexivity]. }
  destruct (spells_literals _ _ _ SP s I) as [Q|[[l [_ ->]]|[c [_ [->| ->]]]]].
  - simpl in Q. destruct Q as [<-|[<-|[<-|[]]]]; discriminate.
  - discriminate.
  - exists c. split; [reflexivity|]. split; [apply ESC|apply AL].
  - exists c. split; [reflexivity|]. split; [apply ESC|apply AL].
Qed.
Print Assumptions C12_string_flags.

(** The alnum flag is also set on "" and on strings with escapes such as
    "\n", which are not identifiers. *)
Theorem C12_alnum_flag_refuted :
  (exists s, decodes (one_chunk [34; 34]%N) 16 [TScalar s] (DOk tt) /\ sc_alnum s = true) /\
  (exists s, decodes (one_chunk [34; 92; 110; 34]%N) 16 [TScalar s] (DOk tt) /\ sc_alnum s = true).
Proof.
  split; eexists; (split; [apply (decodes_vm _ _ 10); vm_compute; reflexivity|reflexivity]).
Qed.
Print Assumptions C12_alnum_flag_refuted.

Example C12_example : exists ts s, decodes ex_reader 7 ts (DOk tt) /\ In (TScalar s) ts /\
  sc_type s = TStr /\ sc_unesc s = true /\ sc_alnum s = true.
Proof.
  exists (stream ex_values), (key_scalar [97%N]). split.
  - apply (decodes_vm _ _ 40). vm_compute. reflexivity.
  - split; [simpl; auto 10|]. repeat split; reflexivity.
Qed.

(** C43.  When the reader fails before the end of the input, the decoder
    reports an error (it cannot mistake a truncated input for a complete one),
    unless a byte 0xFF made it stop before. *)
Theorem C43_read_errors_are_reported :
  forall (r : reader) (size : nat) (ts : list token) (x : dres unit),
    2 <= size -> ok_runs 99 (rd_chunks r) = true ->
    rd_fin r = RdFail -> ~ In 255%N (input r) ->
    decodes r size ts x -> exists e, x = DErr e.
Proof.
  intros r size ts x L K F N D. destruct (decodes_sound r size L K) as [ts' [x' [D' H]]].
  destruct (decodes_unique _ _ _ _ _ _ D D') as [<- <-].
  destruct x as [[]|e]; [|eauto].
  destruct H as [vs [t [_ [_ [[_ E]|[u E]]]]]]; [congruence|].
  exfalso. apply N. rewrite E. apply in_or_app. right. now left.
Qed.
Print Assumptions C43_read_errors_are_reported.

Example C43_example : decodes (mkReader [[49; 32]; [50]]%N RdFail false) 16
  [TScalar (new_scalar TNum [49%N])] (DErr DIo).
Proof. apply (decodes_vm _ _ 10). vm_compute. reflexivity. Qed.

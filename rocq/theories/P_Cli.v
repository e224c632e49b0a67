(** C59 and C60: the command jp as a whole. *)
From Coq Require Import String List Arith ZArith NArith Bool Lia.
From Verif Require Import Base Tokens ScannerModel ScannerSpec JsonSpec EncSpec
  JsonDecModel P_JsonDec P_JsonEnc CsvModel CsvSpec P_Csv FormatModel FormatSpec P_Format MainModel P_Main
  P_Transform P_Split P_Scalar P_Equal SelectModel SelectSpec P_Select CursorModel EqualSpec
  PathModel PathTop PathAst PathTypes PathSpec PathTame PathRfc CompileModel P_PathTypes P_Path P_JpQuery
  GrammarModel GrammarSpec LexModel ParseModel QuerySyntax SyntaxText P_Syntax P_Ordinary CliModel CliSpec.
Import ListNotations.

Ltac names := repeat match goal with
  | |- context [bytes_eqb ?a ?b] => let E := fresh "E" in destruct (bytes_eqb a b) eqn:E; [apply bytes_eqb_eq in E|]
  end.
Lemma eqb_false : forall a b, bytes_eqb a b = false -> a <> b.
Proof. intros a b E ->. rewrite bytes_eqb_refl in E. discriminate. Qed.
Lemma empty_ok : forall s, empty s = true <-> s = [].
Proof. destruct s; cbn; split; congruence. Qed.

(** The format of the input. *)
Lemma guessed_ok : forall start name, guessed start name <-> exists f, guess_format start = Some f /\ name = format_name f.
Proof.
  intros start name. split.
  - intros [|b r B|s H|s H N J].
    + exists FJpv. split; reflexivity.
    + exists FJson. split; [now apply C41_json_detected|reflexivity].
    + exists FCsvHeader. split; [now apply C41_csv_header_detected|reflexivity].
    + exists FCsv. split; [now apply C41_csv_detected|reflexivity].
  - intros (f & G & ->). destruct f; cbn [format_name].
    + destruct start as [|b s]; [constructor|]. exfalso. apply (proj1 C41_jpv_refuted (b :: s)); [discriminate|exact G].
    + destruct start as [|b s]; [discriminate|]. apply gs_json. unfold guess_format, guessers in G. cbn [guess_loop] in G.
      destruct (re_match re_jpv (b :: s)); [discriminate|]. destruct (re_match re_json (b :: s)) eqn:J.
      * apply re_match_ok in J as (s1 & s2 & E & M). apply set_inv in M as (b' & -> & P). injection E as <- _. unfold is in P.
        apply orb_true_iff in P as [P|P]; apply N.eqb_eq in P; auto.
      * destruct (re_match re_csv_header (b :: s)); [discriminate|]. destruct (re_match re_csv (b :: s)); discriminate.
    + apply gs_header. now apply C41_csv_header_detected.
    + apply C41_csv_detected in G as (A & B & C). now apply gs_csv.
Qed.
Lemma begins_ok : forall rd start, begins rd start <-> exists rd', reader_read rd 40 = (start, None, rd').
Proof.
  intros [cs fin wi] start. unfold begins, reader_read. cbn [rd_chunks rd_fin rd_with]. split.
  - intros (c & l & -> & -> & H). destruct (Nat.leb_spec (length c) 40) as [L|L]; [|eauto]. rewrite firstn_all2 by exact L.
    destruct l; [|eauto]. destruct wi; [|eauto]. specialize (H eq_refl eq_refl). lia.
  - intros (rd' & H). destruct cs as [|c l]; [discriminate|]. destruct (Nat.leb_spec (length c) 40) as [L|L].
    + exists c, l. split; [reflexivity|]. rewrite firstn_all2 by exact L. destruct l; [destruct wi; [discriminate|]|]; injection H as <- _; split; try reflexivity; discriminate.
    + injection H as <- _. exists c, l. split; [reflexivity|]. split; [reflexivity|]. lia.
Qed.
(** What the decoder reads. *)
Definition format_and_input (c : command) (rd : reader) : option (bytes * reader) :=
  if bytes_eqb (cm_in c) (text "auto")
  then match detect rd with Some (f, rd') => Some (format_name f, rd') | None => None end
  else Some (cm_in c, rd).
Lemma format_ok : forall c rd name, input_format c rd name <-> exists rd', format_and_input c rd = Some (name, rd').
Proof.
  intros c rd name. unfold input_format, format_and_input. destruct (bytes_eqb (cm_in c) (text "auto")) eqn:E.
  - apply bytes_eqb_eq in E. rewrite E. unfold detect. split.
    + intros [[N _]|[_ (start & B & G)]]; [congruence|]. apply begins_ok in B as (rd' & ->). apply guessed_ok in G as (f & -> & ->). eauto.
    + intros (rd' & H). right. split; [reflexivity|]. destruct (reader_read rd 40) as [[start err] r'] eqn:R. destruct err; [discriminate|].
      destruct (guess_format start) as [f|] eqn:G; [|discriminate]. injection H as <- _. exists start. split; [apply begins_ok; eauto|]. apply guessed_ok. eauto.
  - apply eqb_false in E. split.
    + intros [[_ ->]|[A _]]; [eauto|congruence].
    + intros (rd' & H). injection H as <- _. auto.
Qed.
(** The bytes are the same, and there are not more empty pieces. *)
Lemma input_kept : forall c rd name rd', format_and_input c rd = Some (name, rd') ->
  input rd' = input rd /\ rd_fin rd' = rd_fin rd /\ (ok_runs 99 (rd_chunks rd) = true -> ok_runs 99 (rd_chunks rd') = true).
Proof.
  intros c rd name rd' H. unfold format_and_input in H. destruct (bytes_eqb (cm_in c) (text "auto")); [|injection H as _ <-; auto].
  destruct (detect rd) as [[f r]|] eqn:D; [|discriminate]. injection H as _ <-. destruct (C41_input_kept _ _ _ D) as [A B].
  split; [exact A|]. split; [exact B|]. destruct rd as [cs fin wi]. unfold detect, reader_read in D. cbn [rd_chunks rd_fin rd_with] in *. destruct cs as [|c0 l]; [discriminate|].
  destruct (Nat.leb_spec (length c0) 40) as [L|L].
  - destruct l; [destruct wi; [discriminate|]|]; (destruct (guess_format c0); [|discriminate]); injection D as _ <-; exact (fun x => x).
  - clear A B.
    assert (P : firstn 40 c0 <> []) by (intro Z; apply (f_equal (@length N)) in Z; rewrite firstn_length in Z; cbn [length] in Z; lia).
    assert (Q : skipn 40 c0 <> []) by (intro Z; apply (f_equal (@length N)) in Z; rewrite skipn_length in Z; cbn [length] in Z; lia).
    destruct (firstn 40 c0) as [|a fs]; [congruence|]. destruct (skipn 40 c0) as [|a' sk]; [congruence|].
    destruct (guess_format (a :: fs)); [|discriminate]. injection D as _ <-. destruct c0; [cbn [length] in L; lia|]. exact (fun x => x).
Qed.

(** The arguments. *)
Lemma known_ok : forall float_text strict a, known_argument float_text a <-> exists st, stage_of float_text strict a = Some st.
Proof.
  intros ft strict a. unfold known_argument, stage_of. split.
  - intros [->|[->|[->|[(t & z & -> & H)|(r & q & E & Q & T)]]]]; try (eexists; reflexivity).
    + assert (P : parse_transformer (text "depth=" ++ t) = Some (TrDepth z)) by (apply C52_arguments; exact (sf_depth t z H)). rewrite P. eauto.
    + assert (P : parse_transformer a = Some (TrQuery a)) by (subst a; apply C52_arguments; exact (sf_query r)). rewrite P, Q.
      apply (C40_compiles_iff_well_typed strict) in T as [run ->]. eauto.
  - intros [st H]. destruct (parse_transformer a) as [tr|] eqn:P; [|discriminate]. apply C52_arguments in P. destruct P as [| | |t z D|r]; auto.
    + right. right. right. left. exists t, z. split; [reflexivity|exact D].
    + right. right. right. right. destruct (query_of_string ft (36%N :: r)) as [q|] eqn:Q; [|discriminate].
      destruct (compile strict q) as [run|] eqn:C; [|discriminate]. exists r, q. split; [reflexivity|]. split; [reflexivity|].
      apply (C40_compiles_iff_well_typed strict). eauto.
Qed.
Lemma stages_ok : forall float_text strict args, Forall (known_argument float_text) args <-> exists sts, stages_of float_text strict args = Some sts.
Proof.
  intros ft strict args. induction args as [|a args IH]; cbn [stages_of].
  - split; [eauto|constructor].
  - split.
    + intro F. inversion F as [|? ? K F']; subst. apply (known_ok ft strict) in K as [st ->]. apply IH in F' as [sts ->]. eauto.
    + intros [sts H]. destruct (stage_of ft strict a) as [st|] eqn:S1; [|discriminate]. destruct (stages_of ft strict args) as [l|] eqn:S2; [|discriminate].
      constructor; [apply (known_ok ft strict); eauto|]. apply IH. eauto.
Qed.

(** The decoder that is chosen. *)
Definition source_of (header : bytes) (name : bytes) : option source :=
  if negb (empty header) && (bytes_eqb name (text "csv-with-header") || bytes_eqb name (text "csvh")) then None
  else if bytes_eqb name (text "json") then Some SrcJson
  else if bytes_eqb name (text "jpv") || bytes_eqb name (text "path") then Some SrcJpv
  else if bytes_eqb name (text "csv") then
    if empty header then Some (SrcCsv false false []) else Some (SrcCsv true false (split_commas header))
  else if bytes_eqb name (text "csv-with-header") || bytes_eqb name (text "csvh") || bytes_eqb name (text "csv-header") then
    Some (SrcCsv true true [])
  else None.
Lemma choose_source_ok : forall c rd, choose_source c rd =
  match format_and_input c rd with
  | Some (name, rd') => match source_of (cm_csv_header c) name with Some s => Some (s, rd') | None => None end
  | None => None
  end.
Proof.
  intros c rd. unfold choose_source. fold (format_and_input c rd). destruct (format_and_input c rd) as [[name rd']|]; [|reflexivity].
  unfold source_of. repeat match goal with |- context [if ?b then _ else _] => destruct b end; reflexivity.
Qed.
Lemma source_known : forall header name, (exists s, source_of header name = Some s) <->
  In name [text "json"; text "jpv"; text "path"; text "csv"; text "csv-with-header"; text "csvh"; text "csv-header"] /\
  (header <> [] -> name <> text "csv-with-header" /\ name <> text "csvh").
Proof.
  intros header name. split.
  - intros [s H]. unfold source_of in H. destruct (negb (empty header) && _) eqn:G; [discriminate|].
    split.
    + revert H. names; cbn [orb In]; intro; auto 10; discriminate.
    + intro NE. destruct header as [|b h]; [congruence|]. cbn [empty negb andb] in G. apply orb_false_iff in G as [A B]. split; now apply eqb_false.
  - intros [I H]. unfold source_of. destruct header as [|b h].
    + cbn [empty negb andb]. cbn [In] in I. repeat destruct I as [<-|I]; try destruct I; eexists; reflexivity.
    + destruct (H ltac:(discriminate)) as [A B]. cbn [empty negb andb]. cbn [In] in I. repeat destruct I as [<-|I]; try destruct I; try (exfalso; congruence); eexists; reflexivity.
Qed.

(** Everything that is decided before the first token is written. *)
Lemma prepare_ok : forall float_text tty c rd, acceptable float_text c rd <-> exists p, prepare float_text tty c rd = Some p.
Proof.
  intros ft tty c rd. unfold acceptable, prepare. split.
  - intros (CO & -> & (name & IF & SN) & AR & OU). apply format_ok in IF as [rd' IF]. apply source_known in SN as [s SN].
    apply (stages_ok ft (cm_strict c)) in AR as [sts AR]. rewrite choose_source_ok, IF, SN, AR. cbn [empty].
    assert (C : exists co, choose_color tty (cm_color c) = Some co).
    { cbn [In] in CO. repeat destruct CO as [<-|CO]; try destruct CO; eexists; reflexivity. }
    destruct C as [co ->].
    assert (O : exists e, choose_encoder (cm_out c) = Some e).
    { cbn [In] in OU. repeat destruct OU as [<-|OU]; try destruct OU; eexists; reflexivity. }
    destruct O as [e ->]. eauto.
  - intros [p H]. destruct (choose_color tty (cm_color c)) as [co|] eqn:CO; [|discriminate]. destruct (empty (cm_file c)) eqn:FI; [|discriminate].
    rewrite choose_source_ok in H. destruct (format_and_input c rd) as [[name rd']|] eqn:IF; [|discriminate].
    destruct (source_of (cm_csv_header c) name) as [s|] eqn:SN; [|discriminate].
    destruct (stages_of ft (cm_strict c) (cm_args c)) as [sts|] eqn:AR; [|discriminate].
    destruct (choose_encoder (cm_out c)) as [e|] eqn:OU; [|discriminate].
    split; [|split; [now apply empty_ok|split; [|split; [apply (stages_ok ft (cm_strict c)); eauto|]]]].
    + revert CO. unfold choose_color. names; cbn [In]; intro; auto; discriminate.
    + exists name. split; [apply format_ok; eauto|]. apply source_known. eauto.
    + revert OU. unfold choose_encoder. names; cbn [In orb]; intro; auto; discriminate.
Qed.

Lemma prepared_options : forall float_text tty c rd p, prepare float_text tty c rd = Some p -> pl_options p = output_options tty c.
Proof.
  intros ft tty c rd p H. unfold prepare in H. destruct (choose_color tty (cm_color c)) as [co|] eqn:CO; [|discriminate]. destruct (empty (cm_file c)); [|discriminate].
  destruct (choose_source c rd) as [[s rd']|]; [|discriminate]. destruct (stages_of _ _ _); [|discriminate].
  destruct (choose_encoder (cm_out c)) as [e|] eqn:OU; [|discriminate]. injection H as <-. cbn [pl_options]. unfold output_options.
  replace (negb (bytes_eqb (cm_out c) (text "json"))) with e.
  2:{ revert OU. unfold choose_encoder. destruct (bytes_eqb (cm_out c) (text "json")); cbn [negb]; [congruence|]. destruct (_ || _); [congruence|discriminate]. }
  replace (if bytes_eqb (cm_color c) (text "always") || bytes_eqb (cm_color c) (text "auto") && tty then Some default_colorizer else None) with co; [reflexivity|].
  revert CO. unfold choose_color. destruct (bytes_eqb (cm_color c) (text "always")) eqn:A; [cbn [orb]; congruence|].
  destruct (bytes_eqb (cm_color c) (text "never")) eqn:B.
  - apply bytes_eqb_eq in B. rewrite B. intro H. injection H as <-. reflexivity.
  - destruct (bytes_eqb (cm_color c) (text "auto")); [|discriminate]. cbn [orb andb]. congruence.
Qed.

(* ------------------------------------------------------------------ *)
(** C59.  A command that cannot be carried out is refused: nothing is written to
    standard output and the status is 1.  A command that can be carried out never
    ends with that status while standard output takes what is written. *)
Theorem C59_refused_commands :
  forall float_text csv_records find grow (tty epipe : bool) (room : option nat) (c : command) (rd : reader),
    let jp := jp float_text csv_records find grow tty epipe in
    (~ acceptable float_text c rd -> forall oc, jp room c rd oc <-> oc = mkOutcome [] 1) /\
    (acceptable float_text c rd -> forall oc, jp None c rd oc -> oc_status oc = 0%Z).
Proof.
  intros ft csv find grow tty epipe room c rd jp0. unfold jp0, jp. split.
  - intros N oc. destruct (prepare ft tty c rd) as [p|] eqn:P; [|tauto]. exfalso. apply N. apply (prepare_ok ft tty). eauto.
  - intros A oc. apply (prepare_ok ft tty) in A as [p ->]. intros (ts & out & _ & _ & L). eapply C50_status_ignores_the_input; eauto.
Qed.
Print Assumptions C59_refused_commands.

(** Queries of RFC 9535 that are well typed, with numbers in range, are among the
    acceptable arguments; of the others in UTF-8 that begin with a dollar, only
    those with blanks at more places and integers out of range in ..[ ]. *)
Theorem C59_query_arguments :
  (forall float_text g s, rfc_query marked g s -> GrammarSpec.valid true g -> floats g ->
     exists q, reads_query float_text g q /\ (known_argument float_text s <-> typed_query q)) /\
  (forall float_text r, LexSound.is_utf8 (36%N :: r) -> known_argument float_text (36%N :: r) ->
     exists g, lax_query marked g (36%N :: r) /\ GrammarSpec.valid false g).
Proof.
  split.
  - intros ft g s R V F. destruct (C54_rfc_queries_are_read ft g s R V F) as (q & RJ & E & _). exists q. split; [exact RJ|].
    destruct (rfc_ends _ _ _ R) as [[r ->] _]. split.
    + intros [X|[X|[X|[(t & z & X & _)|(r' & q' & X & Q & T)]]]]; try discriminate. congruence.
    + intro T. right. right. right. right. exists r, q. auto.
  - intros ft r U [X|[X|[X|[(t & z & X & _)|(r' & q' & X & Q & T)]]]]; try discriminate.
    destruct (C55_only_queries_are_read ft (36%N :: r) q' U) as (g & L & H & _); [exists [], r; split; [constructor|reflexivity]|exact Q|].
    exists g. split; [exact L|]. apply (C40_compiles_iff_well_typed false) in T as [run C]. exact (proj2 (H false run C)).
Qed.
Print Assumptions C59_query_arguments.

(* ------------------------------------------------------------------ *)
(** C60.  The transformers on complete values. *)
Lemma stage_applies : forall float_text matches find grow strict a vs mid,
  (Z.of_nat (length (stream vs)) < maxint)%Z -> applies float_text matches strict a vs mid ->
  exists st, stage_of float_text strict a = Some st /\ forall out, stage_turns find grow st (stream vs) out <-> out = stream mid.
Proof.
  intros ft matches find grow strict a vs mid L H. unfold stage_of. destruct H as [vs|vs|vs|t n vs D|t z vs D N|r segs vs outs q Q T O C F].
  - exists StSplit. split; [reflexivity|]. intro out. cbn [stage_turns]. destruct (C24_split grow vs L) as [n0 S0]. split.
    + intros [n1 S1]. destruct (S0 (n0 + n1)) as (f0 & h0 & R0); [lia|]. destruct (S1 (n0 + n1)) as (f1 & h1 & R1); [lia|].
      specialize (R0 (f0 + f1) ltac:(lia)). specialize (R1 (f0 + f1) ltac:(lia)). congruence.
    + intros ->. exists n0. exact S0.
  - exists StJoin. split; [reflexivity|]. intro out. cbn [stage_turns]. now rewrite C24_join_makes_one_array.
  - exists StTrace. split; [reflexivity|]. intro out. reflexivity.
  - assert (P : parse_transformer (text "depth=" ++ t) = Some (TrDepth (Z.of_nat n))) by (apply C52_arguments; exact (sf_depth t _ D)). rewrite P.
    eexists. split; [reflexivity|]. intro out. cbn [stage_turns]. now rewrite C23_truncates_at_depth.
  - assert (P : parse_transformer (text "depth=" ++ t) = Some (TrDepth z)) by (apply C52_arguments; exact (sf_depth t _ D)). rewrite P.
    eexists. split; [reflexivity|]. intro out. cbn [stage_turns]. now rewrite C23_negative_depth.
  - assert (P : parse_transformer (text "$" ++ r) = Some (TrQuery (text "$" ++ r))) by (apply C52_arguments; exact (sf_query r)). rewrite P, Q.
    apply (C40_compiles_iff_well_typed strict) in T as [run E]. rewrite E. exists (StQuery run). split; [reflexivity|].
    destruct (C34_ordinary_queries_partial matches find strict grow segs run vs E O C L) as [ls [F' W]]. fold q in F'.
    assert (EQ : ls = outs).
    { clear - F F'. revert outs F. induction F' as [|x l vs ls H F' IH]; intros outs F; inversion F; subst; [reflexivity|]. f_equal; [symmetry; now apply H|auto]. }
    subst ls. assert (W' : turns find grow run (stream vs) (stream (concat outs))).
    { replace (stream (concat outs)) with (flat_map stream outs); [exact W|].
      clear. unfold stream. induction outs as [|l outs IH]; [reflexivity|]. cbn [flat_map concat]. now rewrite flat_map_app, IH. }
    intro out. cbn [stage_turns]. split; [intro TU; eapply turns_unique; eauto|]. intros ->. exact W'.
Qed.
Lemma stages_applied : forall float_text matches find grow strict args vs ws, applied float_text matches strict args vs ws ->
  exists sts, stages_of float_text strict args = Some sts /\ forall out, stages_turn find grow sts (stream vs) out <-> out = stream ws.
Proof.
  intros ft matches find grow strict args vs ws H. induction H as [vs|a args vs mid ws L A _ (sts & S1 & IH)].
  - exists []. split; [reflexivity|]. intro out. split; [intro H; now inversion H|]. intros ->. constructor.
  - destruct (stage_applies ft matches find grow strict a vs mid L A) as (st & S0 & H). exists (st :: sts). cbn [stages_of]. rewrite S0, S1. split; [reflexivity|].
    intro out. split.
    + intro T. inversion T as [|? ? ? m ? T0 T1]; subst. apply H in T0 as ->. now apply IH.
    + intros ->. econstructor; [apply H; reflexivity|]. apply IH. reflexivity.
Qed.

(** Streams of tokens stand for one list of values. *)
Lemma stream_injective : forall a b, stream a = stream b -> a = b.
Proof.
  intros a b E. pose proof (PathTop.parse_stream_ok a (S (length (stream a))) ltac:(lia)) as A.
  pose proof (PathTop.parse_stream_ok b (S (length (stream a)))) as B. rewrite E in A, B. specialize (B ltac:(lia)). congruence.
Qed.

(** The names in -csv-header. *)
Lemma split_listed : forall names s, listed names s -> split_commas s = names.
Proof.
  intros names s (n & ns & -> & -> & F). revert n F. 
  assert (W : forall n rest, ~ In 44%N n -> split_commas (n ++ 44%N :: rest) = n :: split_commas rest).
  { induction n as [|b n IH]; intros rest N; cbn [app split_commas]; [reflexivity|].
    destruct (N.eqb_spec b 44) as [->|]; [exfalso; apply N; now left|]. rewrite IH; [reflexivity|]. intro I. apply N. now right. }
  assert (W0 : forall n, ~ In 44%N n -> split_commas n = [n]).
  { induction n as [|b n IH]; intro N; cbn [split_commas]; [reflexivity|].
    destruct (N.eqb_spec b 44) as [->|]; [exfalso; apply N; now left|]. rewrite IH; [reflexivity|]. intro I. apply N. now right. }
  induction ns as [|m ns IH]; intros n F; cbn [flat_map]; inversion F as [|? ? A F']; subst.
  - rewrite app_nil_r. now apply W0.
  - rewrite <- app_comm_cons, W by exact A. f_equal. now apply IH.
Qed.
Lemma split_lists : forall s, listed (split_commas s) s.
Proof.
  induction s as [|b s IH]; cbn [split_commas].
  - exists [], []. repeat split. repeat constructor. exact (fun x => x).
  - destruct IH as (n & ns & E & -> & F). destruct (N.eqb_spec b 44) as [->|N].
    + exists [], (split_commas (n ++ flat_map (fun m => 44%N :: m) ns)). split; [reflexivity|]. rewrite E. split; [reflexivity|]. constructor; [exact (fun x => x)|now rewrite <- E].
    + rewrite E in *. exists (b :: n), ns. split; [reflexivity|]. split; [reflexivity|]. inversion F as [|? ? A F']; subst. constructor; [|exact F'].
      intros [X|X]; [congruence|auto].
Qed.
Lemma split_bytes_in : forall s f b, In f (split_commas s) -> In b f -> In b s.
Proof.
  intros s f b I J. destruct (split_lists s) as (n & ns & E & ES & _). rewrite E in I. clear E. subst s. apply in_or_app. destruct I as [<-|I]; [now left|].
  right. apply in_flat_map. exists f. split; [exact I|now right].
Qed.

(** Any source that sends the tokens of [vs]. *)
Lemma pipeline : forall float_text csv_records matches find grow tty epipe c rd name rd' src vs ws,
  In (cm_color c) [text "auto"; text "always"; text "never"] -> cm_file c = [] -> In (cm_out c) [text "json"; text "jpv"; text "path"] ->
  format_and_input c rd = Some (name, rd') -> source_of (cm_csv_header c) name = Some src ->
  (forall ts, source_sends csv_records src rd' ts <-> ts = stream vs) ->
  applied float_text matches (cm_strict c) (cm_args c) vs ws ->
  exists out ok, prints (output_options tty c) (stream ws) out ok /\
    forall oc, jp float_text csv_records find grow tty epipe None c rd oc <-> oc = mkOutcome out 0.
Proof.
  intros ft csv matches find grow tty epipe c rd name rd' src vs ws CO FI OU IF SO SE AP.
  destruct (stages_applied ft matches find grow _ _ _ _ AP) as (sts & ST & TU).
  assert (A : acceptable ft c rd).
  { split; [exact CO|]. split; [exact FI|]. split; [|split; [apply (stages_ok ft (cm_strict c)); eauto|exact OU]].
    exists name. split; [apply format_ok; eauto|]. apply source_known. eauto. }
  apply (prepare_ok ft tty) in A as [p P]. pose proof (prepared_options _ _ _ _ _ P) as PO.
  assert (PS : pl_source p = src /\ pl_input p = rd' /\ pl_stages p = sts).
  { unfold prepare in P. rewrite choose_source_ok, IF, SO, ST in P. destruct (choose_color tty (cm_color c)); [|discriminate].
    destruct (empty (cm_file c)); [|discriminate]. destruct (choose_encoder (cm_out c)); [|discriminate]. injection P as <-. auto. }
  destruct PS as (<- & <- & <-). destruct (C49_output_defined (pl_options p) (stream ws)) as (out & ok & PR).
  pose proof (C49_complete_output _ epipe _ _ _ None PR ltac:(discriminate)) as LB.
  exists out, ok. rewrite <- PO. split; [exact PR|]. intro oc. unfold jp. rewrite P. split.
  - intros (ts & o & S & T & L). apply SE in S as ->. apply TU in T as ->. eapply leaves_unique; eauto.
  - intros ->. exists (stream vs), (stream ws). split; [apply SE; reflexivity|]. split; [apply TU; reflexivity|exact LB].
Qed.

Lemma json_sends : forall csv_records c rd vs, json_input c rd vs ->
  exists rd', format_and_input c rd = Some (text "json", rd') /\
    forall ts, source_sends csv_records SrcJson rd' ts <-> ts = stream vs.
Proof.
  intros csv c rd vs [IF (t & (I & K & F) & T)]. apply format_ok in IF as [rd' IF]. exists rd'. split; [exact IF|].
  destruct (input_kept _ _ _ _ IF) as (I' & F' & K'). intros ts. cbn [source_sends].
  assert (D : decodes rd' jp_scanner (stream vs) (ProgModel.DOk tt)).
  { apply C07_valid_json_is_decoded; auto; [unfold jp_scanner; lia|now rewrite F'|]. rewrite I', I. exact T. }
  split; [|intros ->; eauto]. intros [x D']. exact (proj1 (decodes_unique _ _ _ _ _ _ D' D)).
Qed.

(** JSON input: jp applies its arguments, from left to right, to the values of the
    text, and writes what results, in the format and with the options that were
    asked for; the status is 0; and nothing else can happen. *)
Theorem C60_arguments_in_order :
  forall float_text csv_records matches find grow tty epipe (c : command) (rd : reader) (vs ws : list jval),
    In (cm_color c) [text "auto"; text "always"; text "never"] -> cm_file c = [] -> In (cm_out c) [text "json"; text "jpv"; text "path"] ->
    json_input c rd vs ->
    applied float_text matches (cm_strict c) (cm_args c) vs ws ->
    exists out ok, prints (output_options tty c) (stream ws) out ok /\
      forall oc, jp float_text csv_records find grow tty epipe None c rd oc <-> oc = mkOutcome out 0.
Proof.
  intros ft csv matches find grow tty epipe c rd vs ws CO FI OU JI AP.
  destruct (json_sends csv c rd vs JI) as (rd' & IF & SE). eapply pipeline; eauto.
  unfold source_of. destruct (negb (empty (cm_csv_header c))); reflexivity.
Qed.
Print Assumptions C60_arguments_in_order.

(** Applying an argument other than depth=N preserves what is closed under taking
    children and making arrays. *)
Lemma applies_keeps : forall (P : jval -> Prop), (forall x, P x -> Forall P (children x)) -> (forall l, Forall P l -> P (JArr l false)) ->
  forall float_text matches strict a vs mid, applies float_text matches strict a vs mid -> (forall t, a <> text "depth=" ++ t) ->
  Forall P vs -> Forall P mid.
Proof.
  intros P CH AR ft matches strict a vs mid H D F. destruct H as [vs|vs|vs|t n vs X|t z vs X N|r segs vs outs q Q T O C N].
  - apply Forall_forall. intros y Y. apply in_flat_map in Y as [x [I Y]]. rewrite Forall_forall in F. specialize (F x I). destruct x as [s|l e|l e]; cbn [spread] in Y.
    + now destruct Y as [<-|[]].
    + specialize (CH _ F). cbn [children] in CH. rewrite Forall_forall in CH. auto.
    + now destruct Y as [<-|[]].
  - constructor; [auto|constructor].
  - constructor.
  - now destruct (D t).
  - constructor.
  - clear C. induction N as [|x l vs outs H N IH]; [constructor|]. inversion F; subst. cbn [concat]. apply Forall_app. split; [|auto].
    eapply (closed_nodes P CH); eauto.
Qed.
Lemma applied_keeps : forall (P : jval -> Prop), (forall x, P x -> Forall P (children x)) -> (forall l, Forall P l -> P (JArr l false)) ->
  forall float_text matches strict args vs ws, applied float_text matches strict args vs ws -> without_depth args ->
  Forall P vs -> Forall P ws.
Proof.
  intros P CH AR ft matches strict args vs ws H. induction H as [vs|a args vs mid ws L A _ IH]; intros W F; [exact F|].
  inversion W; subst. apply IH; [assumption|]. eapply (applies_keeps P CH AR); eauto.
Qed.

Lemma settled_array : forall l, Forall settled l -> settled (JArr l false).
Proof. intros l F. destruct (settled_fix l F) as [E V]. split; [now constructor|]. cbn [canon]. now rewrite E. Qed.

Lemma plain_options : forall tty c, plain_json tty c -> json_options (output_options tty c) /\
  In (cm_color c) [text "auto"; text "always"; text "never"] /\ In (cm_out c) [text "json"; text "jpv"; text "path"].
Proof.
  intros tty c [O [C|[C ->]]]; unfold output_options, json_options; rewrite O, C; (split; [split; [reflexivity|try destruct tty; reflexivity]|split; cbn; auto]).
Qed.

(** Without depth=N, and with JSON output, what is written is a JSON text of the
    values that result. *)
Theorem C60_json_to_json :
  forall float_text csv_records matches find grow tty epipe (c : command) (rd : reader) (vs ws : list jval),
    plain_json tty c -> cm_file c = [] -> without_depth (cm_args c) ->
    json_input c rd vs ->
    applied float_text matches (cm_strict c) (cm_args c) vs ws ->
    exists t', stext true ws_separated ws t' /\
      forall oc, jp float_text csv_records find grow tty epipe None c rd oc <-> oc = mkOutcome t' 0.
Proof.
  intros ft csv matches find grow tty epipe c rd vs ws PJ FI WD JI AP. destruct (plain_options tty c PJ) as ([J NC] & CO & OU).
  destruct (C60_arguments_in_order ft csv matches find grow tty epipe c rd vs ws CO FI OU JI AP) as (out & ok & PR & H).
  assert (S : Forall settled ws).
  { eapply (applied_keeps settled settled_closed settled_array); eauto. destruct JI as [_ (t & _ & T)]. eapply stext_settled; eauto. }
  destruct (settled_fix _ S) as [FX V].
  destruct (C13_round_trip (mkSettings (jo_color (output_options tty c)) (jo_width (output_options tty c)) 2 (jo_indent (output_options tty c)) (jo_tty (output_options tty c))) true _ NC V) as [out' [EN [ST _]]].
  rewrite FX in ST. exists out'. split; [exact ST|]. replace out' with out; [exact H|].
  apply (prints_encodes _ _ _ J) in EN. destruct PR as [n P1], EN as [m P2]. specialize (P1 (n + m) ltac:(lia)). specialize (P2 (n + m) ltac:(lia)). congruence.
Qed.
Print Assumptions C60_json_to_json.

(** Every known argument, with a query of the kind of C34, does something to all
    values, and one thing only. *)
Theorem C60_each_argument_applies : forall float_text matches strict a vs,
  known_argument float_text a ->
  (forall q, query_of_string float_text a = Some q -> ordinary q /\ exists segs, q = JQuery true segs) ->
  Forall clean vs -> (Z.of_nat (length (stream vs)) < maxint)%Z ->
  exists ws, applies float_text matches strict a vs ws /\ forall ws', applies float_text matches strict a vs ws' -> ws' = ws.
Proof.
  intros ft matches strict a vs K Q C L.
  assert (E : exists ws, applies ft matches strict a vs ws).
  { destruct K as [->|[->|[->|[(t & z & -> & D)|(r & q & -> & E & T)]]]]; try (eexists; constructor; fail).
    - destruct (Z_lt_le_dec z 0) as [N|N]; [eexists; eapply ap_negative_depth; eauto|].
      rewrite <- (Z2Nat.id z N) in D. eexists. eapply ap_depth. exact D.
    - destruct (Q q E) as [O [segs ->]]. destruct (proj2 (C40_compiles_iff_well_typed strict (JQuery true segs)) T) as [run CQ].
      destruct (C34_ordinary_queries_partial matches (fun _ _ => None) strict (fun _ _ => 1%Z) segs run vs CQ O C L) as [ls [F _]].
      exists (concat ls). eapply ap_query; eauto. clear - F. induction F as [|x l vs ls H F IH]; constructor; [now apply H|exact IH]. }
  destruct E as [ws A]. exists ws. split; [exact A|]. intros ws' A'.
  destruct (stage_applies ft matches (fun _ _ => None) (fun _ _ => 1%Z) strict a vs ws L A) as (st & S & H).
  destruct (stage_applies ft matches (fun _ _ => None) (fun _ _ => 1%Z) strict a vs ws' L A') as (st' & S' & H').
  assert (EQ : st' = st) by congruence. subst st'. apply stream_injective, H, H'. reflexivity.
Qed.
Print Assumptions C60_each_argument_applies.

(** CSV input: the same, with a value for each record. *)
Lemma csv_sends : forall csv_records objects (header : bool) (named : list bytes) rd',
  exists vs, Forall2 (record_value objects (named ++ if header then hd [] (fst (csv_read csv_records rd')) else []))
      (if header then tl (fst (csv_read csv_records rd')) else fst (csv_read csv_records rd')) vs /\
    (forall ts, source_sends csv_records (SrcCsv objects header named) rd' ts <-> ts = stream vs) /\
    ((forall r f b, In r (named :: fst (csv_read csv_records rd')) -> In f r -> In b f -> ((32 <= b \/ b = 10) /\ b <> 255)%N) -> Forall (EncSpec.valid true) vs).
Proof.
  intros csv objects header named rd'.
  destruct (C20_records_become_values jp_scanner objects header named (fst (csv_read csv rd')) (snd (csv_read csv rd')) ltac:(unfold jp_scanner; lia)) as (vs & E & F).
  exists vs. split; [exact F|]. split.
  - intros ts. cbn [source_sends]. rewrite E. split; [intros [x H]; congruence|intros ->; eauto].
  - intro H. destruct (C22_values_are_valid_partial jp_scanner objects header named (fst (csv_read csv rd')) (snd (csv_read csv rd')) ltac:(unfold jp_scanner; lia) H) as (vs' & E' & V).
    replace vs with vs'; [exact V|]. apply stream_injective. congruence.
Qed.

(** A format of CSV, and -csv-header where it is allowed. *)
Definition csv_format (c : command) (rd : reader) : Prop :=
  exists name, input_format c rd name /\ In name [text "csv"; text "csv-with-header"; text "csvh"; text "csv-header"] /\
    (cm_csv_header c <> [] -> name <> text "csv-with-header" /\ name <> text "csvh").
(** Bytes that may stand in a string of JSON, line feeds and quotes escaped. *)
Definition printable (b : N) : Prop := ((32 <= b \/ b = 10) /\ b <> 255)%N.

Theorem C60_csv_records_in_order :
  forall float_text csv_records matches find grow tty epipe (c : command) (rd : reader),
    let records := fst (csv_records (input rd) (rd_fin rd)) in
    let jp := jp float_text csv_records find grow tty epipe None c rd in
    In (cm_color c) [text "auto"; text "always"; text "never"] -> cm_file c = [] -> In (cm_out c) [text "json"; text "jpv"; text "path"] ->
    csv_format c rd ->
    exists vs, csv_input records c rd vs /\
      (forall ws, applied float_text matches (cm_strict c) (cm_args c) vs ws ->
         exists out ok, prints (output_options tty c) (stream ws) out ok /\ forall oc, jp oc <-> oc = mkOutcome out 0) /\
      (plain_json tty c -> without_depth (cm_args c) ->
       Forall printable (cm_csv_header c) -> Forall (Forall (Forall printable)) records ->
       forall ws, applied float_text matches (cm_strict c) (cm_args c) vs ws ->
         exists t', stext true ws_separated (map canon ws) t' /\ forall oc, jp oc <-> oc = mkOutcome t' 0).
Proof.
  intros ft csv matches find grow tty epipe c rd records jp0 CO FI OU (name & IF & IN & HD). pose proof IF as IF0. apply format_ok in IF as [rd' IF].
  destruct (input_kept _ _ _ _ IF) as (I' & F' & _).
  assert (RE : csv_read csv rd' = csv (input rd) (rd_fin rd)) by (unfold csv_read; rewrite <- I', <- F'; reflexivity).
  assert (S : exists objects header named, source_of (cm_csv_header c) name = Some (SrcCsv objects header named) /\
    (Forall printable (cm_csv_header c) -> Forall (Forall printable) named) /\
    forall vs, Forall2 (record_value objects (named ++ if header then hd [] records else [])) (if header then tl records else records) vs ->
      csv_input records c rd vs).
  { unfold source_of. destruct (cm_csv_header c) as [|h0 h] eqn:CH.
    - cbn [empty negb andb]. cbn [In] in IN. destruct IN as [<-|[<-|[<-|[<-|[]]]]]; cbn; eexists _, _, _; (split; [reflexivity|]); (split; [constructor|]); intros vs F; cbn [app] in F.
      + left. auto.
      + right. right. exists (text "csv-with-header"). split; [exact IF0|]. split; [|exact F]. left. cbn; auto.
      + right. right. exists (text "csvh"). split; [exact IF0|]. split; [|exact F]. left. cbn; auto.
      + right. right. exists (text "csv-header"). split; [exact IF0|]. split; [|exact F]. now right.
    - destruct (HD ltac:(discriminate)) as [A B]. cbn [empty negb andb]. cbn [In] in IN. destruct IN as [<-|[X|[X|[<-|[]]]]]; try congruence; cbn - [split_commas]; eexists _, _, _; (split; [reflexivity|]).
      + split.
        * intro P. apply Forall_forall. intros f J. apply Forall_forall. intros b K. rewrite Forall_forall in P. apply P. eapply split_bytes_in; eauto.
        * intros vs F. rewrite app_nil_r in F. right. left. split; [exact IF0|]. exists (split_commas (h0 :: h)). rewrite CH. split; [discriminate|]. split; [apply split_lists|exact F].
      + split; [constructor|]. intros vs F. right. right. exists (text "csv-header"). split; [exact IF0|]. split; [|exact F]. now right. }
  destruct S as (objects & header & named & SO & PN & CI). destruct (csv_sends csv objects header named rd') as (vs & FV & SE & VA). rewrite RE in *. fold records in FV, VA.
  exists vs. split; [now apply CI|].
  assert (A : forall ws, applied ft matches (cm_strict c) (cm_args c) vs ws ->
         exists out ok, prints (output_options tty c) (stream ws) out ok /\ forall oc, jp0 oc <-> oc = mkOutcome out 0).
  { intros ws AP. eapply pipeline; eauto. }
  split; [exact A|]. intros PJ WD PH PR ws AP. destruct (A ws AP) as (out & ok & P1 & H). destruct (plain_options tty c PJ) as ([J NC] & _ & _).
  assert (V : Forall (EncSpec.valid true) ws).
  { eapply (applied_keeps (EncSpec.valid true)); eauto.
    - intros x V. inversion V as [s W|l W|l W]; subst; cbn [children]; [constructor|exact W|]. apply Forall_map. eapply Forall_impl; [|exact W]. intros m [_ M]. exact M.
    - now constructor.
    - apply VA. specialize (PN PH). intros r f b [<-|I1] I2 I3.
      + rewrite Forall_forall in PN. specialize (PN f I2). rewrite Forall_forall in PN. now apply PN.
      + rewrite Forall_forall in PR. specialize (PR r I1). rewrite Forall_forall in PR. specialize (PR f I2). rewrite Forall_forall in PR. now apply PR. }
  destruct (C13_round_trip (mkSettings (jo_color (output_options tty c)) (jo_width (output_options tty c)) 2 (jo_indent (output_options tty c)) (jo_tty (output_options tty c))) true _ NC V) as [out' [EN [ST _]]].
  exists out'. split; [exact ST|]. replace out' with out; [exact H|].
  apply (prints_encodes _ _ _ J) in EN. destruct P1 as [n P1], EN as [m P2]. specialize (P1 (n + m) ltac:(lia)). specialize (P2 (n + m) ltac:(lia)). congruence.
Qed.
Print Assumptions C60_csv_records_in_order.

(* ------------------------------------------------------------------ *)
(** Examples. *)
Definition plain_command (args : list bytes) : command :=
  mkCommand (text "auto") (text "auto") [] (text "json") 2 true 60 false false [] args.

(** Acceptable: [jp split '$.a' join]; not acceptable: [jp '.a'], [jp -in csvh
    -csv-header x], [jp] on an input that begins with a letter. *)
Definition stdin (t : bytes) : reader := mkReader [t] RdEOF false.
Example C59_example :
  acceptable (fun _ => []) (plain_command [text "split"; text "$.a"; text "join"]) (stdin (text "[1]")) /\
  ~ acceptable (fun _ => []) (plain_command [text ".a"]) (stdin (text "[1]")) /\
  ~ acceptable (fun _ => []) (mkCommand (text "auto") (text "csvh") (text "x") (text "json") 2 true 60 false false [] []) (stdin (text "a,b")) /\
  ~ acceptable (fun _ => []) (plain_command []) (stdin (text "hello")).
Proof.
  split; [|split; [|split]].
  - apply (prepare_ok _ false). eexists. vm_compute. reflexivity.
  - intro A. apply (prepare_ok _ false) in A as [p P]. vm_compute in P. discriminate.
  - intro A. apply (prepare_ok _ false) in A as [p P]. vm_compute in P. discriminate.
  - intro A. apply (prepare_ok _ false) in A as [p P]. vm_compute in P. discriminate.
Qed.

(** [jp -json-compact split '$[1:]' join] on the text [[[1,2,3],[4]]]: the values
    are [[[1,2,3],[4]]], then [1,2,3] and [4], then 2 and 3, then [[2,3]]. *)
Definition ex60 : command := plain_command [text "split"; text "$[1:]"; text "join"].
Definition ex60_input : reader := stdin (text "[[1,2,3],[4]]").
Local Notation num := P_Path.num.
Example C60_example : forall float_text csv_records matches find grow,
  json_input ex60 ex60_input [JArr ex53_vals false] /\
  applied float_text matches false (cm_args ex60) [JArr ex53_vals false] [JArr [num 2; num 3] false] /\
  jp float_text csv_records find grow false false None ex60 ex60_input (mkOutcome (text "[2, 3]" ++ [10%N]) 0).
Proof.
  intros ft csv matches find grow. destruct (C53_hypotheses matches find false) as (_ & _ & _ & CL & _ & _).
  assert (JI : json_input ex60 ex60_input [JArr ex53_vals false]).
  { split; [apply format_ok; eexists; vm_compute; reflexivity|]. exists (text "[[1,2,3],[4]]"). split; [repeat split|].
    assert (W : ws []) by constructor.
    change (text "[[1,2,3],[4]]") with ([] ++ (91 :: ([] ++ (91 :: ([49; 44; 50; 44; 51]) ++ [93]) ++ [] ++ 44 :: ([] ++ (91 :: [52] ++ [93]) ++ [])) ++ [93]) ++ [])%N.
    constructor; [exact W| |now left|constructor; exact W]. apply vt_arr. apply el_cons; [exact W| |exact W|].
    - apply vt_arr. apply (el_cons true [] (num 1) [49%N] [] _ _ W (ex53_digit 1 ltac:(lia)) W).
      apply (el_cons true [] (num 2) [50%N] [] _ _ W (ex53_digit 2 ltac:(lia)) W). apply (el_one true [] (num 3) [51%N] [] W (ex53_digit 3 ltac:(lia)) W).
    - apply el_one; [exact W| |exact W]. apply vt_arr, (el_one true [] (num 4) [52%N] [] W (ex53_digit 4 ltac:(lia)) W). }
  assert (AP : applied ft matches false (cm_args ex60) [JArr ex53_vals false] [JArr [num 2; num 3] false]).
  { assert (LT : forall vs, length (stream vs) <= 100 -> (Z.of_nat (length (stream vs)) < maxint)%Z).
    { intros l H. apply Z.le_lt_trans with 100%Z; [lia|reflexivity]. }
    apply (ad_cons ft matches false _ _ _ ex53_vals); [apply LT; cbn; lia|exact (ap_split ft matches false [JArr ex53_vals false])|].
    apply (ad_cons ft matches false _ _ _ [num 2; num 3]); [apply LT; cbn; lia| |].
    2:{ apply (ad_cons ft matches false _ _ _ [JArr [num 2; num 3] false]); [apply LT; cbn; lia|apply ap_join|apply ad_nil]. }
    change [num 2; num 3] with (concat [[num 2; num 3]; []]).
    apply (ap_query ft matches false (text "[1:]") ex53_segs); [vm_compute; reflexivity|..].
    - apply (C40_compiles_iff_well_typed false). eexists. reflexivity.
    - cbn. unfold safe. repeat split; auto; lia.
    - exact CL.
    - assert (N : forall l, nodes matches false (JArr l false) (JQuery true ex53_segs) (JArr l false)
        (pick l (map Z.to_nat (rfc_slice (Some 1%Z) None 1%Z (length l))))).
      { intro l. exists [pick l (map Z.to_nat (rfc_slice (Some 1%Z) None 1%Z (length l)))].
        split; [|cbn [concat]; now rewrite app_nil_r]. constructor; [|constructor].
        exists (map Z.to_nat (rfc_slice (Some 1%Z) None 1%Z (length l))). split; [|reflexivity].
        exists [map Z.to_nat (rfc_slice (Some 1%Z) None 1%Z (length l))]. split; [cbn; auto|]. cbn [concat]. now rewrite app_nil_r. }
      constructor; [exact (N [num 1; num 2; num 3])|]. constructor; [exact (N [num 4])|constructor]. }
  split; [exact JI|]. split; [exact AP|]. 
  destruct (C60_arguments_in_order ft csv matches find grow false false ex60 ex60_input _ _ ltac:(cbn; auto) eq_refl ltac:(cbn; auto) JI AP) as (out & ok & PR & H).
  apply H. symmetry. eapply leaves_unique; [exact (C49_complete_output _ false _ _ _ None PR ltac:(discriminate))|]. apply leaves_vm. vm_compute. reflexivity.
Qed.

(** [jp -in csv -csv-header a,b -json-compact join] on one record, when encoding/csv
    gives what it should. *)
Definition ex60_csv : command := mkCommand (text "never") (text "csv") (text "a,b") (text "json") 2 true 60 false false [] [text "join"].
Definition ex60_records : list (list bytes) := [[text "1"; text "x"]].
Example C60_csv_example : forall float_text find grow,
  csv_format ex60_csv (stdin (text "1,x")) /\ plain_json false ex60_csv /\ without_depth (cm_args ex60_csv) /\
  Forall printable (cm_csv_header ex60_csv) /\ Forall (Forall (Forall printable)) ex60_records /\
  jp float_text (fun _ _ => (ex60_records, false)) find grow false false None ex60_csv (stdin (text "1,x"))
    (mkOutcome [91; 123; 34; 97; 34; 58; 32; 49; 44; 32; 34; 98; 34; 58; 32; 34; 120; 34; 125; 93; 10]%N 0).
Proof.
  intros ft find grow. split; [|split; [|split; [|split; [|split]]]].
  - exists (text "csv"). split; [left; split; [discriminate|reflexivity]|]. split; [cbn; auto|]. intros _. split; discriminate.
  - split; [reflexivity|now left].
  - repeat constructor. intro t. discriminate.
  - cbn. repeat apply Forall_cons; try apply Forall_nil; unfold printable; lia.
  - unfold ex60_records. cbn. repeat (apply Forall_cons || apply Forall_nil); unfold printable; lia.
  - unfold jp. destruct (prepare ft false ex60_csv (stdin (text "1,x"))) as [p|] eqn:P; [|discriminate]. vm_compute in P. injection P as <-.
    eexists _, _. split; [eexists; vm_compute; reflexivity|]. split; [econstructor; [reflexivity|constructor]|]. apply leaves_vm. vm_compute. reflexivity.
Qed.

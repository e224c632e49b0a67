(** C53 from the text of the query. *)
From Coq Require Import List Arith ZArith NArith Bool Lia.
From Verif Require Import Base Tokens ScannerModel ScannerSpec JsonSpec EncSpec JsonDecModel P_JsonDec P_JsonEnc MainModel P_Main
  SelectModel SelectSpec P_Select CursorModel EqualSpec
  PathModel PathTop PathAst PathTypes PathSpec PathTame PathRfc CompileModel P_PathTypes P_Path P_JpQuery
  GrammarModel GrammarSpec LexModel ParseModel QuerySyntax SyntaxText P_Syntax P_Ordinary.

(** [jp -in json -out json QUERY] where the argument [s] is a text of the query
    [g] in RFC 9535, with integers in the range of I-JSON and numbers in that of
    float64: it is read as the query [q] that it spells; that is compiled exactly
    if it is well typed; and what jp makes of a JSON text is a JSON text of the
    nodes that RFC 9535 selects with [q], for the values and queries of C34. *)
Theorem C53_from_query_string_partial :
  forall float_text g s, rfc_query marked g s -> GrammarSpec.valid true g -> floats g ->
  exists q, reads_query float_text g q /\
    parse_transformer s = Some (TrQuery s) /\ query_of_string float_text s = Some q /\
    forall strict, (typed_query q <-> exists r, compile strict q = Some r) /\
    forall matches find grow r (o : jp_options) (t : bytes) (vs : list jval),
    compile strict q = Some r -> json_options o ->
    stext true ws_separated vs t ->
    Forall clean vs -> Forall (tame matches find strict q) vs ->
    (Z.of_nat (length (stream vs)) < maxint)%Z ->
    exists nodelists t',
      Forall2 (fun x l => forall l', nodes matches strict x q x l' <-> l' = l) vs nodelists /\
      stext true ws_separated (concat nodelists) t' /\
      forall rd, delivers rd t ->
        queries find grow o r rd (ProgModel.DOk tt) (mkOutcome t' 0) /\
        forall x oc, queries find grow o r rd x oc -> x = ProgModel.DOk tt /\ oc = mkOutcome t' 0.
Proof.
  intros ft g s R V F. destruct (C54_rfc_queries_are_read ft g s R V F) as (q & RQ & E & _). exists q. split; [exact RQ|].
  split; [destruct (rfc_ends _ _ _ R) as [[r ->] _]; reflexivity|]. split; [exact E|]. intro strict. split; [symmetry; apply C40_compiles_iff_well_typed|].
  intros matches find grow r o t vs C J T CL TM L.
  destruct R as [[segs ->] _]. destruct q as [root l]. destruct RQ as [<- _]. now apply (C53_query_end_to_end_partial matches find grow strict l r o t vs).
Qed.
Print Assumptions C53_from_query_string_partial.

(** The same for ordinary queries (P_Ordinary.v), where nothing is assumed of
    regular expressions, and of the values only that they are [clean]. *)
Theorem C53_ordinary_partial :
  forall float_text g s, rfc_query marked g s -> GrammarSpec.valid true g -> floats g ->
  exists q, reads_query float_text g q /\
    parse_transformer s = Some (TrQuery s) /\ query_of_string float_text s = Some q /\
    forall strict matches find grow r (o : jp_options) (t : bytes) (vs : list jval),
    compile strict q = Some r -> ordinary q -> json_options o ->
    stext true ws_separated vs t ->
    Forall clean vs -> (Z.of_nat (length (stream vs)) < maxint)%Z ->
    exists nodelists t',
      Forall2 (fun x l => forall l', nodes matches strict x q x l' <-> l' = l) vs nodelists /\
      stext true ws_separated (concat nodelists) t' /\
      forall rd, delivers rd t ->
        queries find grow o r rd (ProgModel.DOk tt) (mkOutcome t' 0) /\
        forall x oc, queries find grow o r rd x oc -> x = ProgModel.DOk tt /\ oc = mkOutcome t' 0.
Proof.
  intros ft g s R V F. destruct (C53_from_query_string_partial ft g s R V F) as (q & RQ & A & B & H). exists q. split; [exact RQ|]. split; [exact A|]. split; [exact B|].
  intros strict matches find grow r o t vs C O J T CL L. apply (proj2 (H strict) matches find grow r o t vs); auto.
  destruct R as [[segs ->] _]. destruct q as [root l]. destruct RQ as [<- _]. eapply Forall_impl; [|exact CL]. intros x CX. now apply ordinary_is_tame.
Qed.
Print Assumptions C53_ordinary_partial.

(** [$[1:]] is the query of the example of C53 in P_JpQuery.v. *)
Local Open Scope N_scope.
Example ex53_text : rfc_query marked (GQuery true [GBracket (GSlice (Some [49]) None None) []]) [36; 91; 49; 58; 93] /\
  forall float_text, query_of_string float_text [36; 91; 49; 58; 93] = Some (JQuery true ex53_segs).
Proof.
  split; [|reflexivity]. split; [eexists; reflexivity|].
  assert (OPS : forall o, In o operators -> op rfc_text o o) by (intros o H; split; [exact H|reflexivity]).
  change [36; 91; 49; 58; 93] with ([36] ++ ([] ++ [91] ++ [] ++ (([49] ++ []) ++ [58] ++ [] ++ [] ++ []) ++ [] ++ [] ++ [93]) ++ []).
  autorewrite with rules. cbn [every]. apply SyntaxSim.cat_intro; [apply OPS; cbn; auto 20|]. apply SyntaxSim.cat_intro; [|reflexivity]. apply SyntaxSim.cat_intro; [constructor|].
  autorewrite with rules. apply SyntaxSim.cat_intro; [apply OPS; cbn; auto 20|]. apply SyntaxSim.cat_intro; [constructor|]. autorewrite with rules. cbn [every].
  apply SyntaxSim.cat_intro; [|apply SyntaxSim.cat_intro; [reflexivity|apply SyntaxSim.cat_intro; [constructor|apply OPS; cbn; auto 20]]].
  apply SyntaxSim.cat_intro; [apply SyntaxSim.cat_intro; [|constructor]|].
  - split; [|reflexivity]. exists 1%Z. right. exists 49, []. split; [lia|]. split; [constructor|]. left. auto.
  - apply SyntaxSim.cat_intro; [apply OPS; cbn; auto 20|]. apply SyntaxSim.cat_intro; [constructor|]. apply SyntaxSim.cat_intro; [reflexivity|]. left. reflexivity.
Qed.

(** C39, C54, C55: from query strings to queries.  The specification of the texts
    of queries is QuerySyntax.v: [rfc_query marked g s] says that the string [s] is
    a text of the query [g] in the grammar of RFC 9535, and [lax_query marked g s]
    the same with blank space (and form feeds) after any token and before the
    first.  With [marked], the arguments of functions that are logical expressions
    begin with a parenthesis or with a negation: RFC 9535 has no functions with
    arguments of type LogicalType. *)
From Coq Require Import List NArith ZArith Bool Arith Lia.
From Verif Require Import Base Tokens JsonSpec ScalarSpec GoLiteral PathAst PathTypes PathSpec CompileModel PathTame P_PathTypes P_Path
  GrammarModel GrammarInd GrammarSpec LexModel ParseModel QuerySyntax ParseSound LexTokens LexSound SyntaxText P_Grammar.
Local Open Scope N_scope.

(* ------------------------------------------------------------------ *)
(** C54.  Every query of RFC 9535 whose integers are in the range of I-JSON and
    whose numbers are in that of float64 is read as what it spells, by both
    functions. *)
Theorem C54_rfc_queries_are_read : forall float_text g s,
  rfc_query marked g s -> valid true g -> floats g ->
  exists j, reads_query float_text g j /\
    query_of_string float_text s = Some j /\ query_of_string_strict float_text s = Some j.
Proof.
  intros ft g s R V F. destruct (rfc_parses g s R) as (ts & T & P).
  destruct (C45_valid_queries_read ft _ _ _ s ts g T P (rfc_lexed _ _ _ R) V F) as (j & E & RJ).
  exists j. split; [exact RJ|]. split; [exact E|]. destruct (rfc_ends _ _ _ R) as [[r ->] (u & b & EU & B)]. unfold query_of_string_strict.
  rewrite EU, rev_unit, B, <- EU. exact E.
Qed.
Print Assumptions C54_rfc_queries_are_read.
(** The same with blanks, of more kinds and at more places. *)
Theorem C54_lax_queries_are_read : forall float_text g s,
  lax_query marked g s -> valid true g -> floats g ->
  exists j, reads_query float_text g j /\ query_of_string float_text s = Some j.
Proof.
  intros ft g s R V F. destruct (lax_parses g s R) as (ts & T & P).
  destruct (C45_valid_queries_read ft _ _ _ s ts g T P (lax_lexed _ _ _ R) V F) as (j & E & RJ). eauto.
Qed.
Print Assumptions C54_lax_queries_are_read.

(** A string is a text of one query only. *)
Theorem C54_unambiguous : forall g g' s, rfc_query marked g s \/ lax_query marked g s -> rfc_query marked g' s \/ lax_query marked g' s -> g = g'.
Proof.
  intros g g' s H H'.
  assert (P : exists ts, tokenise_query s = Some ts /\ parse_query ts = Some (g, [])) by (destruct H; [now apply rfc_parses|now apply lax_parses]).
  assert (P' : exists ts, tokenise_query s = Some ts /\ parse_query ts = Some (g', [])) by (destruct H'; [now apply rfc_parses|now apply lax_parses]).
  destruct P as (ts & T & P), P' as (ts' & T' & P'). congruence.
Qed.
Print Assumptions C54_unambiguous.

(* ------------------------------------------------------------------ *)
(** C55.  A string of UTF-8 that begins with a dollar sign, perhaps after blanks,
    is read only if it is a query, but for blanks; a query that can be compiled is
    well typed and its integers, except in ..[ ], are in range; and it is read as
    what it spells if those in ..[ ] are, too. *)
Theorem C55_only_queries_are_read : forall float_text s j,
  is_utf8 s -> dollar s -> query_of_string float_text s = Some j ->
  exists g, lax_query marked g s /\
    (forall strict r, compile strict j = Some r -> typed_query j /\ valid false g) /\
    (valid true g -> floats g -> reads_query float_text g j).
Proof.
  intros ft s j U D E.
  assert (N : forall ts, tokenise_query s = Some ts -> parse_query ts <> None).
  { intros ts T P. apply (dollar_parses s ts U T) in D as [r D]. destruct (tokens_sound _ _ _ U T) as (w & t & _ & _ & A).
    assert (S := parse_sound ts (after_terminal _ _ A)). rewrite P in S. now apply (S r). }
  unfold query_of_string, parse_query_string in E. destruct (tokenise_query s) as [ts|] eqn:T; [|discriminate]. specialize (N ts eq_refl).
  destruct (parse_query ts) as [[g [|k rest]]|] eqn:P; [|discriminate|congruence]. assert (L := parses_lax g s ts U T P). exists g. split; [exact L|]. split.
  - intros strict r C. assert (TY : typed_query j) by (apply (C40_compiles_iff_well_typed strict); eauto). split; [exact TY|].
    exact (proj1 (all_reject ft) g (lax_lexed _ _ _ L) j E TY).
  - intros V F. destruct (proj1 (all_accept ft) g (lax_lexed _ _ _ L) V F) as (j' & E' & R). congruence.
Qed.
Print Assumptions C55_only_queries_are_read.

(** A query string given to jp begins with a dollar sign. *)
Corollary C55_other_strings_are_errors : forall float_text r,
  is_utf8 (36 :: r) -> (forall g, ~ lax_query marked g (36 :: r)) -> query_of_string float_text (36 :: r) = None.
Proof.
  intros ft r U N. destruct (query_of_string ft (36 :: r)) as [j|] eqn:E; [|reflexivity]. exfalso.
  destruct (C55_only_queries_are_read ft (36 :: r) j U) as (g & L & _); [exists [], r; split; [constructor|reflexivity]|exact E|]. now apply (N g).
Qed.
Print Assumptions C55_other_strings_are_errors.

(** The strict function: no blanks at the ends. *)
Theorem C55_strict : forall float_text s j,
  query_of_string_strict float_text s = Some j <->
  query_of_string float_text s = Some j /\ (forall b r, s = b :: r -> ~ lax_blank b) /\ (forall b r, s = r ++ [b] -> ~ lax_blank b).
Proof.
  intros ft s j. unfold query_of_string_strict.
  assert (A : (match s with b :: _ => is_space b | [] => false end = false) <-> (forall b r, s = b :: r -> ~ lax_blank b)).
  { destruct s as [|b s]; split; try (intros; reflexivity).
    - discriminate.
    - intros H c r E L. injection E as <- _. apply LexLits.lax_space in L. congruence.
    - intro H. destruct (is_space b) eqn:B; [|reflexivity]. exfalso. apply (H b s eq_refl). now apply LexLits.lax_space. }
  assert (B : (match rev s with b :: _ => is_space b | [] => false end = false) <-> (forall b r, s = r ++ [b] -> ~ lax_blank b)).
  { destruct (rev s) as [|b r] eqn:R; apply (f_equal (@rev _)) in R; rewrite rev_involutive in R; subst s; split; try (intros; reflexivity).
    - intros _ b r E. now destruct r.
    - intros H c x E L. cbn in E. apply app_inj_tail in E as [_ <-]. apply LexLits.lax_space in L. congruence.
    - intro H. destruct (is_space b) eqn:B; [|reflexivity]. exfalso. apply (H b (rev r) eq_refl). now apply LexLits.lax_space. }
  destruct (match s with b :: _ => is_space b | [] => false end).
  - split; [discriminate|]. intros (_ & H & _). apply A in H. discriminate.
  - destruct (match rev s with b :: _ => is_space b | [] => false end).
    + split; [discriminate|]. intros (_ & _ & H). apply B in H. discriminate.
    + split; [intro E; split; [exact E|split; [now apply A|now apply B]]|now intros (E & _)].
Qed.
Print Assumptions C55_strict.

(* ------------------------------------------------------------------ *)
(** C39.  Strings of tokens that do not begin with a dollar sign are accepted, as
    the query $. *)
Theorem C39_no_dollar_refuted : forall float_text s ts,
  is_utf8 s -> tokenise_query s = Some ts -> ~ dollar s ->
  (forall g, ~ lax_query marked g s) /\ query_of_string float_text s = Some (JQuery true []).
Proof.
  intros ft s ts U T D. split.
  - intros g L. destruct (lax_parses g s L) as (ts' & T' & P). assert (ts' = ts) as -> by congruence. apply D. apply (dollar_parses s ts U T).
    destruct (tokens_sound _ _ _ U T) as (w & t & _ & _ & A). assert (S := parse_sound ts (after_terminal _ _ A)). rewrite P in S. destruct S as (us & segs & -> & -> & X).
    rewrite app_nil_r. rewrite SyntaxSim.rule_query in X. destruct X as (x & y & -> & X & _). unfold x_root, op, SyntaxTokens.single in X. subst x. now exists y.
  - unfold query_of_string, parse_query_string. rewrite T. destruct (parse_query ts) as [[g rest]|] eqn:P; [|reflexivity]. exfalso. apply D. apply (dollar_parses s ts U T).
    destruct (tokens_sound _ _ _ U T) as (w & t & _ & _ & A). assert (S := parse_sound ts (after_terminal _ _ A)). rewrite P in S. destruct S as (us & segs & -> & -> & X).
    rewrite SyntaxSim.rule_query in X. destruct X as (x & y & -> & X & _). unfold x_root, op, SyntaxTokens.single in X. subst x. now exists (y ++ rest).
Qed.
Print Assumptions C39_no_dollar_refuted.
(** The empty string and [@.a]. *)
Lemma ascii_utf8 : forall s, Forall (fun b => b < 128) s -> is_utf8 s.
Proof. intros s F. induction F as [|b s B F IH]; [apply utf8_nil|]. apply (utf8_cat [b] s); [now apply utf8_one|exact IH]. Qed.
Example C39_no_dollar_example : forall float_text,
  (forall g, ~ lax_query marked g []) /\ query_of_string float_text [] = Some (JQuery true []) /\
  (forall g, ~ lax_query marked g [64; 46; 97]) /\ query_of_string float_text [64; 46; 97] = Some (JQuery true []).
Proof.
  intro ft. destruct (C39_no_dollar_refuted ft [] []) as [A B]; [apply utf8_nil|reflexivity|intros (w & r & _ & E); now destruct w|].
  destruct (C39_no_dollar_refuted ft [64; 46; 97] [(LxOp, [64]); (LxMember, [46; 97])]) as [C D]; [apply ascii_utf8; repeat constructor; lia|reflexivity| |auto].
  intros (w & r & W & E). destruct W as [|b w B' W]; [discriminate|]. injection E as <- _. unfold lax_blank, blank in B'. lia.
Qed.
(** Blanks before and after the query, and form feeds, are accepted. *)
Theorem C39_blanks_refuted : forall float_text log,
  (forall g, ~ rfc_query log g [32; 36]) /\ query_of_string float_text [32; 36] = Some (JQuery true []) /\
  (forall g, ~ rfc_query log g [36; 10]) /\ query_of_string float_text [36; 10] = Some (JQuery true []).
Proof.
  intros ft log. split; [|split; [reflexivity|split; [|reflexivity]]].
  - intros g R. apply rfc_ends in R as [[r R] _]. discriminate.
  - intros g R. apply rfc_ends in R as [_ (u & b & E & B)]. change [36; 10] with ([36] ++ [10]) in E. apply app_inj_tail in E as [_ <-]. discriminate.
Qed.
Print Assumptions C39_blanks_refuted.

(* ------------------------------------------------------------------ *)
(** Example: [$.a['x y', 1:][?@.b >= 1.5 && !@..* ]]. *)
Definition ex54 : gquery :=
  GQuery true
    [GDotName [46; 97];
     GBracket (GName (GSingle [39; 120; 32; 121; 39])) [GSlice (Some [49]) None None];
     GBracket (GFilter (GOr (GAnd (GCompare (GSing false [GStepDot [46; 98]]) [62; 61] (GLit (GNumber [49; 46; 53]))) [GTestQuery true (GQuery false [GDescWild])]) [])) []].
Definition ex54_text : bytes :=
  [36; 46; 97; 91; 39; 120; 32; 121; 39; 44; 32; 49; 58; 93; 91; 63; 64; 46; 98; 32; 62; 61; 32; 49; 46; 53; 32; 38; 38; 32; 33; 64; 46; 46; 42; 93].
Example ex54_rfc : rfc_query marked ex54 ex54_text.
Proof.
  unfold ex54. split; [eexists; reflexivity|].
  assert (OPS : forall o, In o operators -> op rfc_text o o) by (intros o H; split; [exact H|reflexivity]).
  assert (M : forall b, 97 <= b <= 122 -> rfc_text (LxMember, [46; b]) [46; b]).
  { intros b L. split; [|reflexivity]. exists [b]. split; [reflexivity|]. exists b, []. split; [cbn; rewrite LexProofs.utf8_low by lia; reflexivity|]. split; [now left|constructor]. }
  change ex54_text with ([36] ++ ([] ++ [46; 97]) ++
    ([] ++ [91] ++ [] ++ [39; 120; 32; 121; 39] ++ (([] ++ [44] ++ [32] ++ (([49] ++ []) ++ [58] ++ [] ++ [] ++ [])) ++ []) ++ [] ++ [93]) ++
    ([] ++ [91] ++ [] ++ ([63] ++ [] ++ ((([64] ++ ([] ++ [46; 98]) ++ []) ++ [32] ++ [62; 61] ++ [32] ++ [49; 46; 53]) ++
        (([32] ++ [38; 38] ++ [32] ++ (([33] ++ []) ++ [64] ++ ([] ++ [46; 46; 42]) ++ [])) ++ [])) ++ []) ++ [] ++ [] ++ [93]) ++ []).
  autorewrite with rules. cbn [every].
  apply SyntaxSim.cat_intro; [apply OPS; cbn; auto 20|].
  apply SyntaxSim.cat_intro; [apply SyntaxSim.cat_intro; [constructor|]; autorewrite with rules; now apply M|].
  apply SyntaxSim.cat_intro; [apply SyntaxSim.cat_intro; [constructor|]; autorewrite with rules|].
  { apply SyntaxSim.cat_intro; [apply OPS; cbn; auto 20|]. apply SyntaxSim.cat_intro; [constructor|]. autorewrite with rules. apply SyntaxSim.cat_intro.
    { split; [|reflexivity]. exists [120; 32; 121], [120; 32; 121]. split; [reflexivity|].
      apply (sq_char 120 [32; 121] [32; 121]); [unfold unicode; lia|lia|lia|lia|]. apply (sq_char 32 [121] [121]); [unfold unicode; lia|lia|lia|lia|]. apply (sq_char 121 [] []); [unfold unicode; lia|lia|lia|lia|constructor]. }
    cbn [every]. apply SyntaxSim.cat_intro; [apply SyntaxSim.cat_intro; [|reflexivity]|].
    - apply SyntaxSim.cat_intro; [constructor|]. apply SyntaxSim.cat_intro; [apply OPS; cbn; auto 20|]. apply SyntaxSim.cat_intro; [repeat constructor|]. autorewrite with rules.
      apply SyntaxSim.cat_intro; [apply SyntaxSim.cat_intro; [|constructor]|].
      + split; [|reflexivity]. exists 1%Z. right. exists 49, []. split; [lia|]. split; [constructor|]. left. auto.
      + apply SyntaxSim.cat_intro; [apply OPS; cbn; auto 20|]. apply SyntaxSim.cat_intro; [constructor|]. apply SyntaxSim.cat_intro; [reflexivity|]. left. reflexivity.
    - apply SyntaxSim.cat_intro; [constructor|]. apply OPS; cbn; auto 20. }
  apply SyntaxSim.cat_intro; [apply SyntaxSim.cat_intro; [constructor|]; autorewrite with rules|reflexivity].
  apply SyntaxSim.cat_intro; [apply OPS; cbn; auto 20|]. apply SyntaxSim.cat_intro; [constructor|]. autorewrite with rules. cbn [every].
  apply SyntaxSim.cat_intro; [|apply SyntaxSim.cat_intro; [reflexivity|apply SyntaxSim.cat_intro; [constructor|apply OPS; cbn; auto 20]]].
  apply SyntaxSim.cat_intro; [apply OPS; cbn; auto 20|]. apply SyntaxSim.cat_intro; [constructor|].
  apply SyntaxSim.cat_intro; [|reflexivity]. autorewrite with rules. cbn [every]. apply SyntaxSim.cat_intro.
  - autorewrite with rules. cbn [every]. apply SyntaxSim.cat_intro; [|apply SyntaxSim.cat_intro; [repeat constructor|]].
    + apply SyntaxSim.cat_intro; [apply OPS; cbn; auto 20|]. apply SyntaxSim.cat_intro; [|reflexivity]. apply SyntaxSim.cat_intro; [constructor|]. now apply M.
    + apply SyntaxSim.cat_intro; [split; [cbn; auto 10|reflexivity]|]. apply SyntaxSim.cat_intro; [repeat constructor|]. right. split; [|reflexivity].
      exists [], [49], [46; 53], []. split; [reflexivity|]. split; [auto|]. split; [right; exists 49, []; repeat split; [lia|lia|constructor]|].
      split; [right; exists [53]; repeat split; [discriminate|repeat constructor; lia]|now left].
  - apply SyntaxSim.cat_intro; [|reflexivity]. apply SyntaxSim.cat_intro; [repeat constructor|]. apply SyntaxSim.cat_intro; [apply OPS; cbn; auto 20|].
    apply SyntaxSim.cat_intro; [repeat constructor|]. autorewrite with rules. cbn [every]. apply SyntaxSim.cat_intro.
    + apply SyntaxSim.cat_intro; [apply OPS; cbn; auto 20|constructor].
    + apply SyntaxSim.cat_intro; [apply OPS; cbn; auto 20|]. apply SyntaxSim.cat_intro; [|reflexivity]. apply SyntaxSim.cat_intro; [constructor|]. autorewrite with rules. apply OPS; cbn; auto 20.
Qed.
Example ex54_read : exists j, reads_query (fun _ => [49; 46; 53]) ex54 j /\ query_of_string (fun _ => [49; 46; 53]) ex54_text = Some j /\
  j = JQuery true
    [JSegment false [JName [97]];
     JSegment false [JName [120; 32; 121]; JSlice (Some 1%Z) None 1%Z];
     JSegment false [JFilter (JAnd [
       JCompare (JSing (JSingular false [JStepName [98]])) OpGe (JLit (new_scalar TNum [49; 46; 53]));
       JNot (JTest (JQuery false [JSegment true [JWild]]))])]].
Proof.
  destruct (C54_rfc_queries_are_read (fun _ => [49; 46; 53]) ex54 ex54_text ex54_rfc) as (j & R & E & _).
  - repeat split; try exact Logic.I. exists 1%Z. split; [|split; discriminate]. right. exists 49, []. split; [lia|]. split; [constructor|]. left. auto.
  - repeat split; try exact Logic.I. vm_compute. discriminate.
  - exists j. split; [exact R|]. split; [exact E|]. vm_compute in E. now injection E.
Qed.
(** [$[1] x] is no query. *)
Example ex55 : forall float_text, query_of_string float_text [36; 91; 49; 93; 32; 46; 46] = None.
Proof. intro ft. reflexivity. Qed.

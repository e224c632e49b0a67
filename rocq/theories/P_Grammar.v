(** C39, C45: reading query strings. *)
From Coq Require Import List ZArith NArith Bool Lia.
From Verif Require Import Base Tokens JsonSpec ScalarSpec GoLiteral CursorModel P_Scalar PathAst PathTypes CompileModel PathTame P_PathTypes P_Path
  GrammarModel GrammarInd GrammarLits PathSpec GrammarSpec.

(* ------------------------------------------------------------------ *)
(** String literals. *)
Theorem C45_string_literals : forall s u, string_value s u ->
  (* the name, in UTF-8 *)
  to_string_literal s = Some (flat_map utf8 u) /\
  (* as a scalar *)
  exists c, string_scalar_of (flat_map utf8 u) = new_scalar TStr (34%N :: c ++ [34%N]) /\ denotes c u.
Proof.
  intros s u V. split; [now apply string_literal_value|]. exists (encode_string (flat_map utf8 u)). split; [reflexivity|].
  eapply encode_denotes, string_value_unicode, V.
Qed.
Print Assumptions C45_string_literals.

(* ------------------------------------------------------------------ *)
Lemma each_opt_some : forall A B (f : A -> option B) (R : A -> B -> Prop) l,
  Forall (fun a => exists b, f a = Some b /\ R a b) l -> exists l', each_opt f l = Some l' /\ each R l l'.
Proof.
  intros A B f R l F. induction F as [|a l (b & E & H) F (l' & E' & H')]; [exists []; split; [reflexivity|exact Logic.I]|].
  exists (b :: l'). cbn [each_opt]. rewrite E, E'. split; [reflexivity|]. split; assumption.
Qed.
Lemma all_forall : forall A (P : A -> Prop) l, all P l <-> Forall P l.
Proof. induction l as [|a l IH]; cbn [all]; [split; auto|]. rewrite IH. split; [intros [? ?]; now constructor|intro H; inversion H; auto]. Qed.
Lemma forall3 : forall A (P1 P2 P3 Q : A -> Prop) l, Forall (fun a => P1 a -> P2 a -> P3 a -> Q a) l -> all P1 l -> all P2 l -> all P3 l -> Forall Q l.
Proof.
  intros A P1 P2 P3 Q l F. induction F as [|a l H F IH]; cbn [all]; intros H1 H2 H3; constructor; [|apply IH]; tauto.
Qed.

Section Accept.
Variable float_text : float -> bytes.
Notation lex_str := (fun s => exists u, string_value s u).
Notation any_str := (fun _ : gstring => True).

Lemma int_ok : forall t, lexed_token KInt t -> valid_token KInt t -> exists z, parse_int t = Some z /\ int_value t z.
Proof.
  intros t _ (z & V & R). destruct (parse_int_value t z V) as [[_ E]|[N _]]; [eauto|contradiction].
Qed.
Lemma name_ok : forall s, lex_str s -> exists v, to_string_literal s = Some v /\ reads_name s v.
Proof. intros s (u & V). exists (flat_map utf8 u). split; [now apply string_literal_value|now exists u]. Qed.
Lemma literal_ok : forall l, on_literal lexed_token lex_str l -> on_literal float_token any_str l ->
  exists s, to_literal float_text l = Some s /\ reads_literal float_text l s.
Proof.
  intros [t|s|b|] L F; cbn [to_literal].
  - cbn in F. unfold parse_number_literal. destruct (go_number t) as [x|] eqn:E; [|congruence]. eexists. split; [reflexivity|]. cbn. eauto.
  - destruct L as (u & V). destruct (C45_string_literals s u V) as (E & c & E' & D). rewrite E. eexists. split; [reflexivity|]. exists u, c. auto.
  - destruct b; eexists; split; reflexivity.
  - eexists. split; reflexivity.
Qed.
Lemma step_ok : forall s, on_step lexed_token lex_str s -> on_step valid_token any_str s -> exists j, to_step s = Some j /\ reads_step s j.
Proof.
  intros [n|t|t] L V; cbn [to_step].
  - destruct (name_ok n L) as (v & -> & R). eexists. split; [reflexivity|exact R].
  - destruct L as (name & ->). eexists. split; [reflexivity|]. reflexivity.
  - destruct (int_ok t L V) as (z & -> & R). eexists. split; [reflexivity|exact R].
Qed.
Lemma opt_ok : forall o, on_opt lexed_token o -> on_opt valid_token o -> exists j, to_int_opt o = Some j /\ reads_int o j.
Proof.
  intros [t|] L V; [|exists None; split; [reflexivity|exact Logic.I]]. destruct (int_ok t L V) as (z & E & R). exists (Some z). cbn [to_int_opt]. rewrite E. auto.
Qed.
Lemma op_ok : forall t, lexed_token KOp t -> reads_op t (to_op t).
Proof. intros t H. cbn in H. unfold reads_op. repeat destruct H as [<-|H]; [..|contradiction]; cbn; tauto. Qed.

Lemma all_accept :
  (forall x, on_query lexed_token lex_str true x -> on_query valid_token any_str true x -> on_query float_token any_str true x ->
     exists j, to_query float_text x = Some j /\ reads_query float_text x j) /\
  (forall x, on_segment lexed_token lex_str true x -> on_segment valid_token any_str true x -> on_segment float_token any_str true x ->
     exists j, to_segment float_text x = Some j /\ reads_segment float_text x j) /\
  (forall x, on_selector lexed_token lex_str true x -> on_selector valid_token any_str true x -> on_selector float_token any_str true x ->
     exists j, to_selector float_text x = Some j /\ reads_selector float_text x j) /\
  (forall x, on_or lexed_token lex_str true x -> on_or valid_token any_str true x -> on_or float_token any_str true x ->
     exists j, to_or float_text x = Some j /\ reads_or float_text x j) /\
  (forall x, on_and lexed_token lex_str true x -> on_and valid_token any_str true x -> on_and float_token any_str true x ->
     exists j, to_and float_text x = Some j /\ reads_and float_text x j) /\
  (forall x, on_basic lexed_token lex_str true x -> on_basic valid_token any_str true x -> on_basic float_token any_str true x ->
     exists j, to_basic float_text x = Some j /\ reads_basic float_text x j) /\
  (forall x, on_comparable lexed_token lex_str true x -> on_comparable valid_token any_str true x -> on_comparable float_token any_str true x ->
     exists j, to_comparable float_text x = Some j /\ reads_comparable float_text x j) /\
  (forall x, on_call lexed_token lex_str true x -> on_call valid_token any_str true x -> on_call float_token any_str true x ->
     exists j, to_call float_text x = Some j /\ reads_call float_text x j) /\
  (forall x, on_arg lexed_token lex_str true x -> on_arg valid_token any_str true x -> on_arg float_token any_str true x ->
     exists j, to_arg float_text x = Some j /\ reads_arg float_text x j).
Proof.
  apply grammar_ind.
  - intros r segs F H1 H2 H3. destruct (each_opt_some _ _ _ _ _ (forall3 _ _ _ _ _ _ F H1 H2 H3)) as (l & E & R).
    exists (JQuery r l). split; [|split; [reflexivity|exact R]].
    change (to_query float_text (GQuery r segs)) with (try! l := each_opt (to_segment float_text) segs in Some (JQuery r l)). now rewrite E.
  - intros a rest IA F [A1 H1] [A2 H2] [A3 H3]. destruct (IA A1 A2 A3) as (a' & EA & RA). destruct (each_opt_some _ _ _ _ _ (forall3 _ _ _ _ _ _ F H1 H2 H3)) as (l & E & R).
    exists (JSegment false (a' :: l)). split; [|split; [exact RA|exact R]].
    change (to_segment float_text (GBracket a rest)) with (try! a' := to_selector float_text a in try! l := each_opt (to_selector float_text) rest in Some (JSegment false (a' :: l))).
    now rewrite EA, E.
  - intros _ _ _. eexists. split; [reflexivity|exact Logic.I].
  - intros t (name & ->) _ _. eexists. split; [reflexivity|reflexivity].
  - intros a rest IA F [A1 H1] [A2 H2] [A3 H3]. destruct (IA A1 A2 A3) as (a' & EA & RA). destruct (each_opt_some _ _ _ _ _ (forall3 _ _ _ _ _ _ F H1 H2 H3)) as (l & E & R).
    exists (JSegment true (a' :: l)). split; [|split; [exact RA|exact R]].
    change (to_segment float_text (GDescBracket a rest)) with (match (try! a' := to_selector float_text a in try! l := each_opt (to_selector float_text) rest in Some (a' :: l)) with Some sels => Some (JSegment true sels) | None => Some (JSegment false []) end).
    now rewrite EA, E.
  - intros _ _ _. eexists. split; [reflexivity|exact Logic.I].
  - intros t (name & ->) _ _. eexists. split; [reflexivity|reflexivity].
  - intros n L _ _. destruct (name_ok n L) as (v & E & R). exists (JName v). split; [cbn; now rewrite E|exact R].
  - intros _ _ _. eexists. split; [reflexivity|exact Logic.I].
  - intros a b c (A1 & B1 & C1) (A2 & B2 & C2) _. destruct (opt_ok a A1 A2) as (x & EX & RX). destruct (opt_ok b B1 B2) as (y & EY & RY). destruct (opt_ok c C1 C2) as (z & EZ & RZ).
    eexists. split; [cbn; rewrite EX, EY, EZ; reflexivity|]. split; [exact RX|]. split; [exact RY|]. destruct c, z; cbn in RZ; try contradiction; [exact RZ|reflexivity].
  - intros t L V _. destruct (int_ok t L V) as (z & E & R). exists (JIndex z). split; [cbn; now rewrite E|exact R].
  - intros e IH H1 H2 H3. destruct (IH H1 H2 H3) as (c & E & R). exists (JFilter c). split; [|exact R].
    change (to_selector float_text (GFilter e)) with (try! c := to_or float_text e in Some (JFilter c)). now rewrite E.
  - intros a rest IA F [A1 H1] [A2 H2] [A3 H3]. destruct (IA A1 A2 A3) as (a' & EA & RA). destruct (each_opt_some _ _ _ _ _ (forall3 _ _ _ _ _ _ F H1 H2 H3)) as (l & E & R).
    change (to_or float_text (GOr a rest)) with (try! a' := to_and float_text a in match rest with [] => Some a' | _ => try! l := each_opt (to_and float_text) rest in Some (JOr (a' :: l)) end).
    rewrite EA. destruct rest as [|b rest]; [exists a'; split; [reflexivity|exact RA]|]. rewrite E. eexists. split; [reflexivity|].
    exists a', l. split; [exact RA|]. split; [exact R|reflexivity].
  - intros a rest IA F [A1 H1] [A2 H2] [A3 H3]. destruct (IA A1 A2 A3) as (a' & EA & RA). destruct (each_opt_some _ _ _ _ _ (forall3 _ _ _ _ _ _ F H1 H2 H3)) as (l & E & R).
    change (to_and float_text (GAnd a rest)) with (try! a' := to_basic float_text a in match rest with [] => Some a' | _ => try! l := each_opt (to_basic float_text) rest in Some (JAnd (a' :: l)) end).
    rewrite EA. destruct rest as [|b rest]; [exists a'; split; [reflexivity|exact RA]|]. rewrite E. eexists. split; [reflexivity|].
    exists a', l. split; [exact RA|]. split; [exact R|reflexivity].
  - intros n e IH H1 H2 H3. destruct (IH H1 H2 H3) as (c & E & R).
    change (to_basic float_text (GParen n e)) with (try! c := to_or float_text e in Some (if n then JNot c else c)). rewrite E.
    eexists. split; [reflexivity|]. destruct n; [exists c; split; [exact R|reflexivity]|exact R].
  - intros a op b IA IB (A1 & O1 & B1) (A2 & O2 & B2) (A3 & O3 & B3). destruct (IA A1 A2 A3) as (a' & EA & RA). destruct (IB B1 B2 B3) as (b' & EB & RB).
    change (to_basic float_text (GCompare a op b)) with (try! a' := to_comparable float_text a in try! b' := to_comparable float_text b in Some (JCompare a' (to_op op) b')).
    rewrite EA, EB. eexists. split; [reflexivity|]. exists a', (to_op op), b'. split; [exact RA|]. split; [now apply op_ok|]. split; [exact RB|reflexivity].
  - intros n q IH H1 H2 H3. destruct (IH H1 H2 H3) as (q' & E & R).
    change (to_basic float_text (GTestQuery n q)) with (try! q' := to_query float_text q in Some (if n then JNot (JTest q') else JTest q')). rewrite E.
    eexists. split; [reflexivity|]. destruct n; [exists (JTest q'); split; [|reflexivity]|]; (exists q'; split; [exact R|reflexivity]).
  - intros n f IH H1 H2 H3. destruct (IH H1 H2 H3) as (f' & E & R).
    change (to_basic float_text (GTestCall n f)) with (try! f' := to_call float_text f in Some (if n then JNot (JTestCall f') else JTestCall f')). rewrite E.
    eexists. split; [reflexivity|]. destruct n; [exists (JTestCall f'); split; [|reflexivity]|]; (exists f'; split; [exact R|reflexivity]).
  - intros l H1 _ H3. destruct (literal_ok l H1 H3) as (s & E & R). exists (JLit s). split; [|exact R]. cbn. now rewrite E.
  - intros r l H1 H2 _. assert (F : Forall (fun s => on_step lexed_token lex_str s -> on_step valid_token any_str s -> True -> exists j, to_step s = Some j /\ reads_step s j) l).
    { apply Forall_forall. intros s _ A B _. now apply step_ok. }
    destruct (each_opt_some _ _ _ _ _ (forall3 _ _ _ (fun _ => True) _ _ F H1 H2 ltac:(apply all_forall, Forall_forall; auto))) as (l' & E & R).
    exists (JSing (JSingular r l')). split; [cbn; now rewrite E|]. split; [reflexivity|exact R].
  - intros f IH H1 H2 H3. destruct (IH H1 H2 H3) as (f' & E & R). exists (JValueCall f'). split; [|exact R].
    change (to_comparable float_text (GValueCall f)) with (try! f' := to_call float_text f in Some (JValueCall f')). now rewrite E.
  - intros t args F [(name & ->) H1] [_ H2] [_ H3]. destruct (each_opt_some _ _ _ _ _ (forall3 _ _ _ _ _ _ F H1 H2 H3)) as (l & E & R).
    exists (JCall name l). change (to_call float_text (GCall (name ++ [40%N]) args)) with (match each_opt (to_arg float_text) args with Some l => Some (JCall (removelast (name ++ [40%N])) l) | None => Some (JCall [] []) end).
    rewrite E, removelast_last. split; [reflexivity|]. split; [reflexivity|exact R].
  - intros l H1 _ H3. destruct (literal_ok l H1 H3) as (s & E & R). exists (JArgLit s). split; [|exact R]. cbn. now rewrite E.
  - intros q IH H1 H2 H3. destruct (IH H1 H2 H3) as (q' & E & R). exists (JArgQuery q'). split; [|exact R].
    change (to_arg float_text (GArgQuery q)) with (try! q' := to_query float_text q in Some (JArgQuery q')). now rewrite E.
  - intros e IH H1 H2 H3. destruct (IH H1 H2 H3) as (c & E & R). exists (JArgLogical c). split; [|exact R].
    change (to_arg float_text (GArgLogical e)) with (try! c := to_or float_text e in Some (JArgLogical c)). now rewrite E.
  - intros f IH H1 H2 H3. destruct (IH H1 H2 H3) as (f' & E & R). exists (JArgCall f'). split; [|exact R].
    change (to_arg float_text (GArgCall f)) with (try! f' := to_call float_text f in Some (JArgCall f')). now rewrite E.
Qed.
End Accept.

(** Well-formed queries with integers in range are read as what they are. *)
Theorem C45_valid_queries_read : forall float_text tok (tokenise : bytes -> option (list tok)) parse s ts g,
  tokenise s = Some ts -> parse ts = Some (g, []) ->
  lexed g -> valid true g -> floats g ->
  exists q, parse_query_string float_text tokenise parse s = Some q /\ reads_query float_text g q.
Proof.
  intros ft tok tokenise parse s ts g T P L V F. unfold parse_query_string. rewrite T, P. now apply (proj1 (all_accept ft)).
Qed.
Print Assumptions C45_valid_queries_read.

(* ------------------------------------------------------------------ *)
(** Rejection. *)
Lemma each_opt_inv : forall A B (f : A -> option B) l l', each_opt f l = Some l' -> Forall2 (fun a b => f a = Some b) l l'.
Proof.
  induction l as [|a l IH]; intros l' H; cbn [each_opt] in H; [injection H as <-; constructor|].
  destruct (f a) as [b|] eqn:E; [|discriminate]. destruct (each_opt f l) as [r|]; [|discriminate]. injection H as <-. constructor; auto.
Qed.
Lemma each_opt_valid : forall A B (f : A -> option B) (P Q : A -> Prop) (T : B -> Prop) l l',
  Forall (fun a => P a -> forall b, f a = Some b -> T b -> Q a) l ->
  each_opt f l = Some l' -> all P l -> all T l' -> all Q l.
Proof.
  intros A B f P Q T l l' F E HP HT. apply each_opt_inv in E. induction E as [|a b l l' E EE IH]; [exact Logic.I|].
  inversion F as [|? ? H F']; subst. cbn [all] in *. split; [eapply H; try eassumption; tauto|tauto].
Qed.
Lemma singular_typed : forall q, singular_query q -> typed_query q.
Proof.
  intros [r segs] H. change (all typed_segment segs). change (Forall (fun seg => match seg with JSegment false [JName _] | JSegment false [JIndex _] => True | _ => False end) segs) in H.
  apply all_forall. eapply Forall_impl; [|exact H]. intros [d sels] K. destruct d; [contradiction|]. destruct sels as [|s [|s' l]]; [contradiction| |destruct s; contradiction].
  destruct s; try contradiction; split; exact Logic.I.
Qed.
Lemma no_empty_name : forall args r, ~ typed_call (JCall [] args) r.
Proof.
  intros args r (params & D & _). unfold declared in D. destruct D as [[D _]|[[D _]|[[D _]|[[D _]|[D _]]]]]; discriminate.
Qed.
Definition typed_somehow (a : jarg) : Prop := exists t, typed_arg a t.
Lemma each_typed : forall l params, each typed_arg l params -> all typed_somehow l.
Proof. induction l as [|a l IH]; intros [|p ps] H; cbn [each all] in *; try contradiction; [exact Logic.I|]. destruct H as [H H']. split; [now exists p|eauto]. Qed.

Section Reject.
Variable float_text : float -> bytes.
Notation lex_str := (fun s => exists u, string_value s u).
Notation any_str := (fun _ : gstring => True).

Lemma int_valid : forall t z, lexed_token KInt t -> parse_int t = Some z -> valid_token KInt t.
Proof. intros t z (z' & V) E. exists z'. split; [exact V|]. destruct (parse_int_value t z' V) as [[R _]|[_ N]]; [exact R|congruence]. Qed.
Lemma opt_valid : forall o j, on_opt lexed_token o -> to_int_opt o = Some j -> on_opt valid_token o.
Proof. intros [t|] j L E; [|exact Logic.I]. cbn [to_int_opt] in E. destruct (parse_int t) as [z|] eqn:P; [|discriminate]. eapply int_valid; eassumption. Qed.
Lemma step_valid : forall s, on_step lexed_token lex_str s -> forall j, to_step s = Some j -> True -> on_step valid_token any_str s.
Proof.
  intros [n|t|t] L j E _; [exact Logic.I|exact Logic.I|]. cbn [to_step] in E. destruct (parse_int t) as [z|] eqn:P; [|discriminate]. eapply int_valid; eassumption.
Qed.
Lemma literal_valid : forall l, on_literal valid_token any_str l.
Proof. intros [t|s|b|]; exact Logic.I. Qed.

Lemma all_reject :
  (forall x, on_query lexed_token lex_str true x -> forall j, to_query float_text x = Some j -> typed_query j -> on_query valid_token any_str false x) /\
  (forall x, on_segment lexed_token lex_str true x -> forall j, to_segment float_text x = Some j -> typed_segment j -> on_segment valid_token any_str false x) /\
  (forall x, on_selector lexed_token lex_str true x -> forall j, to_selector float_text x = Some j -> typed_selector j -> on_selector valid_token any_str false x) /\
  (forall x, on_or lexed_token lex_str true x -> forall j, to_or float_text x = Some j -> typed_logical j -> on_or valid_token any_str false x) /\
  (forall x, on_and lexed_token lex_str true x -> forall j, to_and float_text x = Some j -> typed_logical j -> on_and valid_token any_str false x) /\
  (forall x, on_basic lexed_token lex_str true x -> forall j, to_basic float_text x = Some j -> typed_logical j -> on_basic valid_token any_str false x) /\
  (forall x, on_comparable lexed_token lex_str true x -> forall j, to_comparable float_text x = Some j -> typed_comparable j -> on_comparable valid_token any_str false x) /\
  (forall x, on_call lexed_token lex_str true x -> forall j, to_call float_text x = Some j -> (exists r, typed_call j r) -> on_call valid_token any_str false x) /\
  (forall x, on_arg lexed_token lex_str true x -> forall j, to_arg float_text x = Some j -> typed_somehow j -> on_arg valid_token any_str false x).
Proof.
  apply grammar_ind.
  - intros r segs F L j E T. change (to_query float_text (GQuery r segs)) with (try! l := each_opt (to_segment float_text) segs in Some (JQuery r l)) in E.
    destruct (each_opt (to_segment float_text) segs) as [l|] eqn:EO; [|discriminate]. injection E as <-. exact (each_opt_valid _ _ _ _ _ _ _ _ F EO L T).
  - intros a rest IA F [LA L] j E T. change (to_segment float_text (GBracket a rest)) with (try! a' := to_selector float_text a in try! l := each_opt (to_selector float_text) rest in Some (JSegment false (a' :: l))) in E.
    destruct (to_selector float_text a) as [a'|] eqn:EA; [|discriminate]. destruct (each_opt (to_selector float_text) rest) as [l|] eqn:EO; [|discriminate]. injection E as <-.
    destruct T as [TA T]. split; [exact (IA LA a' eq_refl TA)|exact (each_opt_valid _ _ _ _ _ _ _ _ F EO L T)].
  - intros. exact Logic.I.
  - intros. exact Logic.I.
  - intros. exact Logic.I.
  - intros. exact Logic.I.
  - intros. exact Logic.I.
  - intros. exact Logic.I.
  - intros. exact Logic.I.
  - intros a b c (A & B & C) j E _. cbn in E. destruct (to_int_opt a) as [x|] eqn:EA; [|discriminate]. destruct (to_int_opt b) as [y|] eqn:EB; [|discriminate]. destruct (to_int_opt c) as [z|] eqn:EC; [|discriminate].
    split; [eapply opt_valid; eassumption|]. split; eapply opt_valid; eassumption.
  - intros t L j E _. cbn in E. destruct (parse_int t) as [z|] eqn:P; [|discriminate]. eapply int_valid; eassumption.
  - intros e IH L j E T. change (to_selector float_text (GFilter e)) with (try! c := to_or float_text e in Some (JFilter c)) in E.
    destruct (to_or float_text e) as [c|] eqn:EO; [|discriminate]. injection E as <-. exact (IH L c eq_refl T).
  - intros a rest IA F [LA L] j E T.
    change (to_or float_text (GOr a rest)) with (try! a' := to_and float_text a in match rest with [] => Some a' | _ => try! l := each_opt (to_and float_text) rest in Some (JOr (a' :: l)) end) in E.
    destruct (to_and float_text a) as [a'|] eqn:EA; [|discriminate]. destruct rest as [|b rest]; [injection E as <-; split; [exact (IA LA a' eq_refl T)|exact Logic.I]|].
    destruct (each_opt (to_and float_text) (b :: rest)) as [l|] eqn:EO; [|discriminate]. injection E as <-. destruct T as [TA T].
    split; [exact (IA LA a' eq_refl TA)|exact (each_opt_valid _ _ _ _ _ _ _ _ F EO L T)].
  - intros a rest IA F [LA L] j E T.
    change (to_and float_text (GAnd a rest)) with (try! a' := to_basic float_text a in match rest with [] => Some a' | _ => try! l := each_opt (to_basic float_text) rest in Some (JAnd (a' :: l)) end) in E.
    destruct (to_basic float_text a) as [a'|] eqn:EA; [|discriminate]. destruct rest as [|b rest]; [injection E as <-; split; [exact (IA LA a' eq_refl T)|exact Logic.I]|].
    destruct (each_opt (to_basic float_text) (b :: rest)) as [l|] eqn:EO; [|discriminate]. injection E as <-. destruct T as [TA T].
    split; [exact (IA LA a' eq_refl TA)|exact (each_opt_valid _ _ _ _ _ _ _ _ F EO L T)].
  - intros n e IH L j E T. change (to_basic float_text (GParen n e)) with (try! c := to_or float_text e in Some (if n then JNot c else c)) in E.
    destruct (to_or float_text e) as [c|] eqn:EO; [|discriminate]. injection E as <-. destruct n; exact (IH L c eq_refl T).
  - intros a op b IA IB (A & O & B) j E T.
    change (to_basic float_text (GCompare a op b)) with (try! a' := to_comparable float_text a in try! b' := to_comparable float_text b in Some (JCompare a' (to_op op) b')) in E.
    destruct (to_comparable float_text a) as [a'|] eqn:EA; [|discriminate]. destruct (to_comparable float_text b) as [b'|] eqn:EB; [|discriminate]. injection E as <-. destruct T as [TA TB].
    split; [exact (IA A a' eq_refl TA)|]. split; [exact Logic.I|exact (IB B b' eq_refl TB)].
  - intros n q IH L j E T. change (to_basic float_text (GTestQuery n q)) with (try! q' := to_query float_text q in Some (if n then JNot (JTest q') else JTest q')) in E.
    destruct (to_query float_text q) as [q'|] eqn:EQ; [|discriminate]. injection E as <-. destruct n; exact (IH L q' eq_refl T).
  - intros n f IH L j E T. change (to_basic float_text (GTestCall n f)) with (try! f' := to_call float_text f in Some (if n then JNot (JTestCall f') else JTestCall f')) in E.
    destruct (to_call float_text f) as [f'|] eqn:EF; [|discriminate]. injection E as <-. apply (IH L f' eq_refl).
    assert (K : typed_call f' LogicalType \/ typed_call f' NodesType) by (destruct n; exact T). destruct K as [K|K]; eauto.
  - intros l _ j _ _. apply literal_valid.
  - intros r l L j E _. cbn in E. destruct (each_opt to_step l) as [l'|] eqn:EO; [|discriminate].
    refine (each_opt_valid _ _ _ (on_step lexed_token lex_str) _ (fun _ => True) _ _ _ EO L _); [|apply all_forall, Forall_forall; auto].
    apply Forall_forall. intros s _ LS. now apply step_valid.
  - intros f IH L j E T. change (to_comparable float_text (GValueCall f)) with (try! f' := to_call float_text f in Some (JValueCall f')) in E.
    destruct (to_call float_text f) as [f'|] eqn:EF; [|discriminate]. injection E as <-. apply (IH L f' eq_refl). exists ValueType. exact T.
  - intros t args F [_ L] j E (r & T). change (to_call float_text (GCall t args)) with (match each_opt (to_arg float_text) args with Some l => Some (JCall (removelast t) l) | None => Some (JCall [] []) end) in E.
    destruct (each_opt (to_arg float_text) args) as [l|] eqn:EO; injection E as <-; [|now apply no_empty_name in T].
    destruct T as (params & _ & T). split; [exact Logic.I|]. exact (each_opt_valid _ _ _ _ _ _ _ _ F EO L (each_typed _ _ T)).
  - intros l _ j _ _. apply literal_valid.
  - intros q IH L j E (t & T). change (to_arg float_text (GArgQuery q)) with (try! q' := to_query float_text q in Some (JArgQuery q')) in E.
    destruct (to_query float_text q) as [q'|] eqn:EQ; [|discriminate]. injection E as <-. apply (IH L q' eq_refl). destruct t; [now apply singular_typed|exact T|exact T].
  - intros e IH L j E (t & T). change (to_arg float_text (GArgLogical e)) with (try! c := to_or float_text e in Some (JArgLogical c)) in E.
    destruct (to_or float_text e) as [c|] eqn:EO; [|discriminate]. injection E as <-. apply (IH L c eq_refl). destruct t; try contradiction. exact T.
  - intros f IH L j E (t & T). change (to_arg float_text (GArgCall f)) with (try! f' := to_call float_text f in Some (JArgCall f')) in E.
    destruct (to_call float_text f) as [f'|] eqn:EF; [|discriminate]. injection E as <-. apply (IH L f' eq_refl).
    destruct t; [exists ValueType; exact T|destruct T as [T|T]; eauto|exists NodesType; exact T].
Qed.
End Reject.

(** A string that parses is accepted, by the parser and the compiler, only if every
    integer outside ..[ ] is in range and the function expressions are well typed.
    (Missing: integers inside ..[ ], and strings that do not parse: see below.) *)
Theorem C39_invalid_rejected_partial : forall float_text tok (tokenise : bytes -> option (list tok)) parse strict s q r,
  parse_query_string float_text tokenise parse s = Some q -> compile strict q = Some r ->
  (forall ts, tokenise s = Some ts -> parse ts <> None) ->
  typed_query q /\
  exists ts g, tokenise s = Some ts /\ parse ts = Some (g, []) /\ (lexed g -> valid false g).
Proof.
  intros ft tok tokenise parse strict s q r E C N. unfold parse_query_string in E.
  assert (T : typed_query q) by (apply (C40_compiles_iff_well_typed strict); eauto). split; [exact T|].
  destruct (tokenise s) as [ts|]; [|discriminate]. specialize (N ts eq_refl). destruct (parse ts) as [[g [|t rest]]|] eqn:P; [|discriminate|congruence].
  exists ts, g. split; [reflexivity|]. split; [exact P|]. intro L. exact (proj1 (all_reject ft) g L q E T).
Qed.
Print Assumptions C39_invalid_rejected_partial.

(* ------------------------------------------------------------------ *)
(** The parts of a query that was read. *)
Lemma each_opt_parts : forall A B (f : A -> option B) (P : A -> Prop) (Q : B -> Prop) l l',
  Forall (fun a => P a -> forall b, f a = Some b -> Q b) l -> each_opt f l = Some l' -> all P l -> all Q l'.
Proof.
  intros A B f P Q l l' F E HP. apply each_opt_inv in E. induction E as [|a b l l' E EE IH]; [exact Logic.I|].
  inversion F as [|? ? H F']; subst. cbn [all] in *. split; [eapply H; try eassumption; tauto|tauto].
Qed.

Section Read.
Variable float_text : float -> bytes.
Hypothesis float_ok : forall x, decent (new_scalar TNum (float_text x)).
Notation lex_str := (fun s => exists u, string_value s u).
Definition int_safe (z : Z) : Prop := (- (2 ^ 53) < z < 2 ^ 53)%Z.

Lemma int_part : forall t z, parse_int t = Some z -> int_safe z.
Proof.
  intros t z E. unfold parse_int in E. destruct (go_parse_int t) as [n|]; [|discriminate]. unfold max_safe_int, min_safe_int in E.
  destruct ((9007199254740991 <? n)%Z || (n <? -9007199254740991)%Z) eqn:B; [discriminate|]. injection E as <-.
  apply orb_false_iff in B as [B B']. apply Z.ltb_ge in B, B'. unfold int_safe. lia.
Qed.
Lemma opt_part : forall o j, to_int_opt o = Some j -> part_opt int_safe j.
Proof. intros [t|] j E; cbn [to_int_opt] in E; [|injection E as <-; exact Logic.I]. destruct (parse_int t) as [z|] eqn:P; [|discriminate]. injection E as <-. eapply int_part, P. Qed.
Lemma step_part : forall s, True -> forall j, to_step s = Some j -> part_step int_safe j.
Proof.
  intros [n|t|t] _ j E; cbn [to_step] in E.
  - destruct (to_string_literal n); [|discriminate]. injection E as <-. exact Logic.I.
  - injection E as <-. exact Logic.I.
  - destruct (parse_int t) as [z|] eqn:P; [|discriminate]. injection E as <-. eapply int_part, P.
Qed.
Lemma literal_part : forall l, on_literal lexed_token lex_str l -> forall s, to_literal float_text l = Some s -> decent s.
Proof.
  intros [t|t|b|] L s E; cbn [to_literal] in E.
  - destruct (parse_number_literal t); [|discriminate]. injection E as <-. apply float_ok.
  - destruct L as (u & V). destruct (C45_string_literals t u V) as (ES & c & EC & D). rewrite ES in E. injection E as <-. rewrite EC.
    split; [|discriminate]. exists c, u. split; [reflexivity|]. split; [exact D|discriminate].
  - destruct b; injection E as <-; (split; [|discriminate]); [left|right]; reflexivity.
  - injection E as <-. split; [exact Logic.I|discriminate].
Qed.

Lemma all_parts :
  (forall x, on_query lexed_token lex_str true x -> forall j, to_query float_text x = Some j -> part_query int_safe decent j) /\
  (forall x, on_segment lexed_token lex_str true x -> forall j, to_segment float_text x = Some j -> part_segment int_safe decent j) /\
  (forall x, on_selector lexed_token lex_str true x -> forall j, to_selector float_text x = Some j -> part_selector int_safe decent j) /\
  (forall x, on_or lexed_token lex_str true x -> forall j, to_or float_text x = Some j -> part_logical int_safe decent j) /\
  (forall x, on_and lexed_token lex_str true x -> forall j, to_and float_text x = Some j -> part_logical int_safe decent j) /\
  (forall x, on_basic lexed_token lex_str true x -> forall j, to_basic float_text x = Some j -> part_logical int_safe decent j) /\
  (forall x, on_comparable lexed_token lex_str true x -> forall j, to_comparable float_text x = Some j -> part_comparable int_safe decent j) /\
  (forall x, on_call lexed_token lex_str true x -> forall j, to_call float_text x = Some j -> part_call int_safe decent j) /\
  (forall x, on_arg lexed_token lex_str true x -> forall j, to_arg float_text x = Some j -> part_arg int_safe decent j).
Proof.
  apply grammar_ind.
  - intros r segs F L j E. change (to_query float_text (GQuery r segs)) with (try! l := each_opt (to_segment float_text) segs in Some (JQuery r l)) in E.
    destruct (each_opt (to_segment float_text) segs) as [l|] eqn:EO; [|discriminate]. injection E as <-. exact (each_opt_parts _ _ _ _ _ _ _ F EO L).
  - intros a rest IA F [LA L] j E. change (to_segment float_text (GBracket a rest)) with (try! a' := to_selector float_text a in try! l := each_opt (to_selector float_text) rest in Some (JSegment false (a' :: l))) in E.
    destruct (to_selector float_text a) as [a'|] eqn:EA; [|discriminate]. destruct (each_opt (to_selector float_text) rest) as [l|] eqn:EO; [|discriminate]. injection E as <-.
    split; [exact (IA LA a' eq_refl)|exact (each_opt_parts _ _ _ _ _ _ _ F EO L)].
  - intros _ j E. injection E as <-. split; exact Logic.I.
  - intros t _ j E. injection E as <-. split; exact Logic.I.
  - intros a rest IA F [LA L] j E. change (to_segment float_text (GDescBracket a rest)) with (match (try! a' := to_selector float_text a in try! l := each_opt (to_selector float_text) rest in Some (a' :: l)) with Some sels => Some (JSegment true sels) | None => Some (JSegment false []) end) in E.
    destruct (to_selector float_text a) as [a'|] eqn:EA; [|injection E as <-; exact Logic.I]. destruct (each_opt (to_selector float_text) rest) as [l|] eqn:EO; injection E as <-; [|exact Logic.I].
    split; [exact (IA LA a' eq_refl)|exact (each_opt_parts _ _ _ _ _ _ _ F EO L)].
  - intros _ j E. injection E as <-. split; exact Logic.I.
  - intros t _ j E. injection E as <-. split; exact Logic.I.
  - intros n _ j E. cbn in E. destruct (to_string_literal n); [|discriminate]. injection E as <-. exact Logic.I.
  - intros _ j E. injection E as <-. exact Logic.I.
  - intros a b c _ j E. cbn in E. destruct (to_int_opt a) as [x|] eqn:EA; [|discriminate]. destruct (to_int_opt b) as [y|] eqn:EB; [|discriminate]. destruct (to_int_opt c) as [z|] eqn:EC; [|discriminate].
    injection E as <-. apply opt_part in EA, EB, EC. split; [exact EA|]. split; [exact EB|]. destruct z; [exact EC|]. unfold int_safe. lia.
  - intros t _ j E. cbn in E. destruct (parse_int t) as [z|] eqn:P; [|discriminate]. injection E as <-. eapply int_part, P.
  - intros e IH L j E. change (to_selector float_text (GFilter e)) with (try! c := to_or float_text e in Some (JFilter c)) in E.
    destruct (to_or float_text e) as [c|] eqn:EO; [|discriminate]. injection E as <-. exact (IH L c eq_refl).
  - intros a rest IA F [LA L] j E.
    change (to_or float_text (GOr a rest)) with (try! a' := to_and float_text a in match rest with [] => Some a' | _ => try! l := each_opt (to_and float_text) rest in Some (JOr (a' :: l)) end) in E.
    destruct (to_and float_text a) as [a'|] eqn:EA; [|discriminate]. destruct rest as [|b rest]; [injection E as <-; exact (IA LA a' eq_refl)|].
    destruct (each_opt (to_and float_text) (b :: rest)) as [l|] eqn:EO; [|discriminate]. injection E as <-.
    split; [exact (IA LA a' eq_refl)|exact (each_opt_parts _ _ _ _ _ _ _ F EO L)].
  - intros a rest IA F [LA L] j E.
    change (to_and float_text (GAnd a rest)) with (try! a' := to_basic float_text a in match rest with [] => Some a' | _ => try! l := each_opt (to_basic float_text) rest in Some (JAnd (a' :: l)) end) in E.
    destruct (to_basic float_text a) as [a'|] eqn:EA; [|discriminate]. destruct rest as [|b rest]; [injection E as <-; exact (IA LA a' eq_refl)|].
    destruct (each_opt (to_basic float_text) (b :: rest)) as [l|] eqn:EO; [|discriminate]. injection E as <-.
    split; [exact (IA LA a' eq_refl)|exact (each_opt_parts _ _ _ _ _ _ _ F EO L)].
  - intros n e IH L j E. change (to_basic float_text (GParen n e)) with (try! c := to_or float_text e in Some (if n then JNot c else c)) in E.
    destruct (to_or float_text e) as [c|] eqn:EO; [|discriminate]. injection E as <-. destruct n; exact (IH L c eq_refl).
  - intros a op b IA IB (A & O & B) j E.
    change (to_basic float_text (GCompare a op b)) with (try! a' := to_comparable float_text a in try! b' := to_comparable float_text b in Some (JCompare a' (to_op op) b')) in E.
    destruct (to_comparable float_text a) as [a'|] eqn:EA; [|discriminate]. destruct (to_comparable float_text b) as [b'|] eqn:EB; [|discriminate]. injection E as <-.
    split; [exact (IA A a' eq_refl)|exact (IB B b' eq_refl)].
  - intros n q IH L j E. change (to_basic float_text (GTestQuery n q)) with (try! q' := to_query float_text q in Some (if n then JNot (JTest q') else JTest q')) in E.
    destruct (to_query float_text q) as [q'|] eqn:EQ; [|discriminate]. injection E as <-. destruct n; exact (IH L q' eq_refl).
  - intros n f IH L j E. change (to_basic float_text (GTestCall n f)) with (try! f' := to_call float_text f in Some (if n then JNot (JTestCall f') else JTestCall f')) in E.
    destruct (to_call float_text f) as [f'|] eqn:EF; [|discriminate]. injection E as <-. destruct n; exact (IH L f' eq_refl).
  - intros l L j E. cbn in E. destruct (to_literal float_text l) as [s|] eqn:EL; [|discriminate]. injection E as <-. exact (literal_part l L s EL).
  - intros r l _ j E. cbn in E. destruct (each_opt to_step l) as [l'|] eqn:EO; [|discriminate]. injection E as <-.
    refine (each_opt_parts _ _ _ (fun _ => True) _ _ _ _ EO _); [|apply all_forall, Forall_forall; auto]. apply Forall_forall. intros s _. apply step_part.
  - intros f IH L j E. change (to_comparable float_text (GValueCall f)) with (try! f' := to_call float_text f in Some (JValueCall f')) in E.
    destruct (to_call float_text f) as [f'|] eqn:EF; [|discriminate]. injection E as <-. exact (IH L f' eq_refl).
  - intros t args F [_ L] j E. change (to_call float_text (GCall t args)) with (match each_opt (to_arg float_text) args with Some l => Some (JCall (removelast t) l) | None => Some (JCall [] []) end) in E.
    destruct (each_opt (to_arg float_text) args) as [l|] eqn:EO; injection E as <-; [|exact Logic.I]. exact (each_opt_parts _ _ _ _ _ _ _ F EO L).
  - intros l L j E. cbn in E. destruct (to_literal float_text l) as [s|] eqn:EL; [|discriminate]. injection E as <-. exact (literal_part l L s EL).
  - intros q IH L j E. change (to_arg float_text (GArgQuery q)) with (try! q' := to_query float_text q in Some (JArgQuery q')) in E.
    destruct (to_query float_text q) as [q'|] eqn:EQ; [|discriminate]. injection E as <-. exact (IH L q' eq_refl).
  - intros e IH L j E. change (to_arg float_text (GArgLogical e)) with (try! c := to_or float_text e in Some (JArgLogical c)) in E.
    destruct (to_or float_text e) as [c|] eqn:EO; [|discriminate]. injection E as <-. exact (IH L c eq_refl).
  - intros f IH L j E. change (to_arg float_text (GArgCall f)) with (try! f' := to_call float_text f in Some (JArgCall f')) in E.
    destruct (to_call float_text f) as [f'|] eqn:EF; [|discriminate]. injection E as <-. exact (IH L f' eq_refl).
Qed.
End Read.

(** Whatever the string, the integers of the query that is run are safe and its
    literals have a JSON value, as C34 requires: [float_ok] is about
    strconv.FormatFloat. *)
Theorem C45_parts : forall float_text tok (tokenise : bytes -> option (list tok)) parse s q,
  (forall x, decent (new_scalar TNum (float_text x))) ->
  (forall ts g rest, tokenise s = Some ts -> parse ts = Some (g, rest) -> lexed g) ->
  parse_query_string float_text tokenise parse s = Some q ->
  part_query (fun z => (- (2 ^ 53) < z < 2 ^ 53)%Z) decent q.
Proof.
  intros ft tok tokenise parse s q FO LX E. unfold parse_query_string in E. destruct (tokenise s) as [ts|]; [|discriminate].
  destruct (parse ts) as [[g [|t rest]]|] eqn:P; [|discriminate|injection E as <-; exact Logic.I].
  exact (proj1 (all_parts ft FO) g (LX ts g [] eq_refl P) q E).
Qed.
Print Assumptions C45_parts.

(* ------------------------------------------------------------------ *)
(** Strings that do not parse are accepted: they are the query [$], which writes
    the input. *)
Lemma root_tame : forall matches find strict x, tame matches find strict (JQuery true []) x.
Proof. intros. split; [constructor|]. split; exact Logic.I. Qed.
Theorem C39_parse_error_refuted : forall float_text tok (tokenise : bytes -> option (list tok)) parse s ts,
  tokenise s = Some ts -> parse ts = None ->
  exists q, parse_query_string float_text tokenise parse s = Some q /\
  forall strict, exists r, compile strict q = Some r /\
  forall find grow vs, Forall clean vs -> (Z.of_nat (length (stream vs)) < maxint)%Z -> writes find grow r vs (stream vs).
Proof.
  intros ft tok tokenise parse s ts T P. exists (JQuery true []). split; [unfold parse_query_string; now rewrite T, P|].
  intro strict. destruct (proj2 (C40_compiles_iff_well_typed strict (JQuery true [])) Logic.I) as (r & C). exists r. split; [exact C|].
  intros find grow vs CL L.
  destruct (C34_rfc9535_partial (fun _ _ => True) find strict grow [] r vs C CL ltac:(apply Forall_forall; intros; apply root_tame) L) as (outs & F & W).
  assert (E : flat_map stream outs = stream vs); [|now rewrite E in W].
  clear W L CL. induction F as [|x l vs outs H F IH]; [reflexivity|]. cbn [flat_map]. rewrite IH.
  assert (l = [x]) as -> by (symmetry; apply H; reflexivity). unfold stream. cbn [flat_map]. now rewrite app_nil_r.
Qed.
Print Assumptions C39_parse_error_refuted.

(** An integer out of range inside ..[ ] is accepted: the query writes nothing. *)
Definition out_of_range : bytes := repeat 57%N 20.
Definition bad_descendants : gquery := GQuery true [GDescBracket (GIndex out_of_range) []].
Lemma empty_tame : forall matches find strict x, tame matches find strict (JQuery true [JSegment false []]) x.
Proof.
  intros. split; [repeat constructor; discriminate|]. split; [|split; exact Logic.I].
  split; [exact Logic.I|]. split; [discriminate|]. intros; exact Logic.I.
Qed.
Theorem C39_descendants_refuted : forall float_text tok (tokenise : bytes -> option (list tok)) parse s ts,
  tokenise s = Some ts -> parse ts = Some (bad_descendants, []) ->
  lexed bad_descendants /\ ~ valid true bad_descendants /\
  exists q, parse_query_string float_text tokenise parse s = Some q /\
  forall strict, exists r, compile strict q = Some r /\
  forall find grow vs, Forall clean vs -> (Z.of_nat (length (stream vs)) < maxint)%Z -> writes find grow r vs [].
Proof.
  intros ft tok tokenise parse s ts T P.
  assert (IV : forall z, int_value out_of_range z -> ~ in_range z).
  { intros z V R. destruct (parse_int_value _ _ V) as [[_ E]|[N _]]; [vm_compute in E; discriminate|contradiction]. }
  assert (IX : exists z, int_value out_of_range z).
  { exists (nat_digits 0 out_of_range). right. exists 57%N, (repeat 57%N 19). split; [lia|]. split; [|left; split; reflexivity].
    apply Forall_forall. intros x I. apply repeat_spec in I. subst. unfold digit. lia. }
  split; [split; [split; [exact IX|exact Logic.I]|exact Logic.I]|].
  split; [intros [[(z & V & R) _] _]; exact (IV z V R)|].
  exists (JQuery true [JSegment false []]). split; [unfold parse_query_string; rewrite T, P; vm_compute; reflexivity|].
  intro strict. destruct (proj2 (C40_compiles_iff_well_typed strict (JQuery true [JSegment false []]))) as (r & C); [split; exact Logic.I|]. exists r. split; [exact C|].
  intros find grow vs CL L.
  destruct (C34_rfc9535_partial (fun _ _ => True) find strict grow [JSegment false []] r vs C CL ltac:(apply Forall_forall; intros; apply empty_tame) L) as (outs & F & W).
  assert (E : flat_map stream outs = []); [|now rewrite E in W].
  clear W L CL. induction F as [|x l vs outs H F IH]; [reflexivity|]. cbn [flat_map]. rewrite IH.
  assert (l = []) as ->; [|reflexivity]. symmetry. apply H. apply child_nodes. exists []. split; [exact Logic.I|reflexivity].
Qed.
Print Assumptions C39_descendants_refuted.

(* ------------------------------------------------------------------ *)
(** Examples. *)
Local Open Scope N_scope.
(** A query with two bracketed segments: a name in single quotes with both quotes
    in it, the index -3 and the slice 1:; then the filter
    [@.x >= 'y' || !(count(@.. * ) == 10)]. *)
Definition ex_query : gquery :=
  GQuery true
    [GBracket (GName (GSingle [39; 97; 34; 92; 39; 98; 39])) [GIndex [45; 51]; GSlice (Some [49]) None None];
     GBracket (GFilter (GOr
       (GAnd (GCompare (GSing false [GStepDot [46; 120]]) [62; 61] (GLit (GString (GSingle [39; 121; 39])))) [])
       [GAnd (GParen true (GOr (GAnd (GCompare (GValueCall (GCall [99; 111; 117; 110; 116; 40] [GArgQuery (GQuery false [GDescWild])])) [61; 61] (GLit (GNumber [49; 48]))) []) [])) []])) []].
Definition ten (x : float) : bytes := [49; 48].
Example ex_read : to_query ten ex_query = Some (
  JQuery true
    [JSegment false [JName [97; 34; 39; 98]; JIndex (-3); JSlice (Some 1%Z) None 1];
     JSegment false [JFilter (JOr
       [JCompare (JSing (JSingular false [JStepName [120]])) OpGe (JLit (new_scalar TStr [34; 121; 34]));
        JNot (JCompare (JValueCall (JCall n_count [JArgQuery (JQuery false [JSegment true [JWild]])])) OpEq (JLit (new_scalar TNum [49; 48])))])]]).
Proof. reflexivity. Qed.
Lemma ten_value : num_value [49; 48] false 10 0.
Proof.
  exists [49; 48], [], []. split; [reflexivity|].
  split; [right; exists 49, [48]; repeat match goal with |- _ /\ _ => split end; [reflexivity|lia|lia|repeat constructor; unfold digit; lia]|].
  split; [left; reflexivity|]. split; [left; reflexivity|]. exists [], 0%Z. auto 10.
Qed.
Example ex_hyps : lexed ex_query /\ valid true ex_query /\ floats ex_query /\ (forall x, decent (new_scalar TNum (ten x))).
Proof.
  assert (V3 : int_value [45; 51] (-3)) by (right; exists 51, []; split; [lia|]; split; [constructor|right; split; reflexivity]).
  assert (V1 : int_value [49] 1) by (right; exists 49, []; split; [lia|]; split; [constructor|left; split; reflexivity]).
  assert (N10 := ten_value).
  assert (S1 : string_value (GSingle [39; 97; 34; 92; 39; 98; 39]) [97; 34; 39; 98]).
  { exists [97; 34; 92; 39; 98]. split; [reflexivity|]. apply (sq_char 97); [left; lia|lia|lia|lia|]. apply (sq_char 34); [left; lia|lia|lia|lia|]. apply sq_quote. apply (sq_char 98); [left; lia|lia|lia|lia|]. constructor. }
  assert (S2 : string_value (GSingle [39; 121; 39]) [121]).
  { exists [121]. split; [reflexivity|]. apply (sq_char 121); [left; lia|lia|lia|lia|]. constructor. }
  repeat match goal with |- _ /\ _ => split end.
  - cbn. repeat match goal with |- _ /\ _ => split end; try exact Logic.I; eauto 10.
    + exists [99; 111; 117; 110; 116]. reflexivity.
  - cbn. repeat match goal with |- _ /\ _ => split end; try exact Logic.I; [exists (-3)%Z|exists 1%Z]; (split; [assumption|unfold in_range; lia]).
  - cbn. repeat match goal with |- _ /\ _ => split end; try exact Logic.I. vm_compute. discriminate.
  - intro x. split; [exists false, 10%Z, 0%Z; exact N10|]. intros _. exists false, 10%Z, 0%Z. split; [exact N10|vm_compute; discriminate].
Qed.

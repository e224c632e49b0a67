(** From the texts of queries to their tokens and back. *)
From Coq Require Import List NArith ZArith Bool Arith Lia.
From Verif Require Import Base JsonSpec ScalarSpec P_Scalar GrammarModel GrammarInd PathSpec GrammarSpec LexModel LexRx ParseModel QuerySyntax LexProofs LexLits LexTokens SyntaxSim SyntaxTokens ParseProofs ParseSound LexSound P_Grammar.
Local Open Scope N_scope.

(** Texts in which blanks come between terminals. *)
Lemma text_tokens : forall (tb : lextok -> @lang N) (sb : @lang N) log q t,
  (forall k b, tb k b -> exists w, terminal k /\ Forall lax_blank w /\ b = snd k ++ w) -> (forall b, sb b -> Forall lax_blank b) ->
  x_query tb sb log q t -> exists ts, x_query single noblank log q ts /\ lay ts t.
Proof.
  intros tb sb log q t T B H.
  assert (LT : forall k w, lexeme k -> Forall lax_blank w -> lay [k] (snd k ++ w)) by (intros k w K W; apply (lay_tok k [] w K), lay_blanks, W).
  destruct (sim_grammar single noblank tb sb log lay) as [X _].
  - constructor.
  - exact lay_app.
  - intros k b N K. apply T in K as (w & K & W & ->). exists [k]. split; [reflexivity|]. apply LT; [|exact W]. split; [exact K|]. intro E. congruence.
  - intros x b K. apply T in K as (w & K & W & ->). cbn in K. destruct (number_lexeme x K) as [L|L]; eexists; (split; [|exact (LT _ w L W)]); [left|right]; reflexivity.
  - intros b K. exists []. split; [reflexivity|]. now apply lay_blanks, B.
  - exact (X q t H).
Qed.
Lemma tokens_text : forall log q ts t, x_query single noblank log q ts -> after ts t -> x_query lax_text nothing log q t.
Proof.
  intros log q ts t H A. destruct (img_grammar single noblank lax_text nothing log after) as [X _].
  - intros b H0. now inversion H0.
  - exact after_app.
  - intros k a b -> K. inversion K as [|k' w us u T W N]; subst. inversion N; subst. exists w. rewrite app_nil_r. auto.
  - intros a b -> K. inversion K; subst. reflexivity.
  - exact (X q ts t H A).
Qed.

(** Texts are parsed. *)
Lemma lax_parses : forall q t, lax_query marked q t -> exists ts, tokenise_query t = Some ts /\ parse_query ts = Some (q, []).
Proof.
  intros q t [(segs & ->) (w & u & -> & W & H)]. apply text_tokens in H as (ts & X & L); [|intros k b K; exact K|intros b ->; constructor].
  exists ts. split; [|now apply parse_complete]. apply lay_tokenise; [|now apply query_chain in X]. apply (lay_app [] w ts u); [now apply lay_blanks|exact L].
Qed.
Lemma rfc_parses : forall q t, rfc_query marked q t -> exists ts, tokenise_query t = Some ts /\ parse_query ts = Some (q, []).
Proof.
  intros q t [(segs & ->) H]. apply text_tokens in H as (ts & X & L).
  - exists ts. split; [|now apply parse_complete]. apply lay_tokenise; [exact L|now apply query_chain in X].
  - intros k b [K ->]. exists []. rewrite app_nil_r. repeat split; [exact K|constructor].
  - intros b K. eapply Forall_impl; [|exact K]. now left.
Qed.
(** What is parsed is a text. *)
Lemma parses_lax : forall q t ts, is_utf8 t -> tokenise_query t = Some ts -> parse_query ts = Some (q, []) -> lax_query marked q t.
Proof.
  intros q t ts U T P. destruct (tokens_sound _ _ _ U T) as (w & u & -> & W & A). assert (S := parse_sound ts (after_terminal _ _ A)). rewrite P in S.
  destruct S as (us & segs & -> & -> & X). rewrite app_nil_r in A. split; [eauto|]. apply cat_intro; [exact W|]. now apply (tokens_text _ _ us).
Qed.

(* ------------------------------------------------------------------ *)
(** The parts of a query with a text are well-formed. *)
Lemma int_number : forall t z, int_value t z -> number_text t.
Proof.
  intros t z V. apply int_cases in V as [->|(sg & d & ds & SG & -> & D & DS)].
  - exists [], [48], [], []. repeat split; unfold int_text, frac_text, exp_text; auto.
  - exists sg, (d :: ds), [], []. rewrite !app_nil_r. repeat split; unfold int_text, frac_text, exp_text; auto. right. eauto.
Qed.
Section Lexed.
  Context {sym : Type}.
  Variables (term : lextok -> @lang sym) (S : @lang sym) (log : gor -> Prop).
  Hypothesis term_ok : forall k t, term k t -> terminal k.
  Notation lex_str := (fun s => exists u, string_value s u).
  Lemma lexed_every : forall T (P : T -> Prop) (f : T -> @lang sym) l t, Forall (fun x => forall t, f x t -> P x) l -> every f l t -> all P l.
  Proof.
    intros T P f l t F. revert t. induction F as [|x l X F IH]; intros t H; [exact I|]. destruct H as (a & b & _ & A & B). split; [now apply (X a)|now apply (IH b)].
  Qed.
  Lemma lexed_string : forall s t, x_string term s t -> lex_str s.
  Proof. intros [c|c] t H; apply term_ok in H; exact H. Qed.
  Lemma lexed_int : forall x t, int term x t -> lexed_token KInt x.
  Proof. intros x t H. apply term_ok in H. exact H. Qed.
  Lemma lexed_literal : forall l t, x_literal term l t -> on_literal lexed_token lex_str l.
  Proof.
    intros [x|s|b|] t H; cbn; auto; [|now apply (lexed_string s t)]. apply number_has_value. destruct H as [H|H]; apply term_ok in H; [|exact H].
    destruct H as [z V]. now apply (int_number x z).
  Qed.
  Lemma lexed_bound : forall o t, x_bound term S o t -> on_opt lexed_token o.
  Proof. intros [x|] t H; [|exact I]. destruct H as (a & b & _ & A & _). now apply (lexed_int x a). Qed.
  Lemma lexed_step : forall o t, x_slice_step term S o t -> on_opt lexed_token o.
  Proof. intros [x|] t H; [|exact I]. destruct H as (a & b & _ & _ & c & d & _ & _ & D). now apply (lexed_int x d). Qed.
  Lemma lexed_gstep : forall s t, x_step term s t -> on_step lexed_token lex_str s.
  Proof.
    intros [n|x|x] t H.
    - destruct H as (a & b & _ & _ & c & d & _ & C & _). now apply (lexed_string n c).
    - apply term_ok in H as (name & -> & _). now exists name.
    - destruct H as (a & b & _ & _ & c & d & _ & C & _). now apply (lexed_int x c).
  Qed.
  Ltac parts := repeat match goal with H : cat _ _ _ |- _ => destruct H as (? & ? & ? & ? & ?) end.
  Lemma lexed_grammar :
    (forall q t, x_query term S log q t -> on_query lexed_token lex_str true q) /\ (forall g t, x_segment term S log g t -> on_segment lexed_token lex_str true g) /\
    (forall s t, x_selector term S log s t -> on_selector lexed_token lex_str true s) /\ (forall e t, x_or term S log e t -> on_or lexed_token lex_str true e) /\
    (forall e t, x_and term S log e t -> on_and lexed_token lex_str true e) /\ (forall e t, x_basic term S log e t -> on_basic lexed_token lex_str true e) /\
    (forall v t, x_comparable term S log v t -> on_comparable lexed_token lex_str true v) /\ (forall f t, x_call term S log f t -> on_call lexed_token lex_str true f) /\
    (forall a t, x_argument term S log a t -> on_arg lexed_token lex_str true a).
  Proof.
    assert (EV : forall T (P : T -> Prop) (f g : T -> @lang sym) l t, Forall (fun x => forall t, f x t -> P x) l -> (forall x t, g x t -> exists u, f x u) -> every g l t -> all P l).
    { intros T P f g l t F G. apply lexed_every. eapply Forall_impl; [|exact F]. intros x X u H. apply G in H as [v H]. now apply (X v). }
    apply grammar_ind.
    - intros r segs F t H. rewrite rule_query in H. parts. match goal with K : every _ _ _ |- _ => refine (EV _ _ _ _ _ _ F _ K) end. intros. parts. eauto.
    - intros a l A F t H. rewrite rule_bracket in H. parts. split; [eapply A; eassumption|]. match goal with K : every _ _ _ |- _ => refine (EV _ _ _ _ _ _ F _ K) end. intros. parts. eauto.
    - intros; exact I.
    - intros x t H. rewrite rule_dotname in H. apply term_ok in H as (name & -> & _). now exists name.
    - intros a l A F t H. rewrite rule_descbracket in H. parts. split; [eapply A; eassumption|]. match goal with K : every _ _ _ |- _ => refine (EV _ _ _ _ _ _ F _ K) end. intros. parts. eauto.
    - intros; exact I.
    - intros x t H. rewrite rule_descname in H. apply term_ok in H as (name & -> & _). now exists name.
    - intros n t H. now apply (lexed_string n t).
    - intros; exact I.
    - intros a b c t H. rewrite rule_slice in H. parts. repeat split; [eapply lexed_bound|eapply lexed_bound|eapply lexed_step]; eassumption.
    - intros x t H. now apply (lexed_int x t).
    - intros e IH t H. rewrite rule_filter in H. parts. eapply IH; eassumption.
    - intros a l A F t H. rewrite rule_or in H. parts. split; [eapply A; eassumption|]. match goal with K : every _ _ _ |- _ => refine (EV _ _ _ _ _ _ F _ K) end. intros. parts. eauto.
    - intros a l A F t H. rewrite rule_and in H. parts. split; [eapply A; eassumption|]. match goal with K : every _ _ _ |- _ => refine (EV _ _ _ _ _ _ F _ K) end. intros. parts. eauto.
    - intros n e IH t H. rewrite rule_paren in H. parts. eapply IH; eassumption.
    - intros a o b A B t H. rewrite rule_compare in H. parts. split; [eapply A; eassumption|]. split; [|eapply B; eassumption].
      match goal with K : term (LxCmp, o) _ |- _ => apply term_ok in K; exact K end.
    - intros n q IH t H. rewrite rule_testquery in H. parts. eapply IH; eassumption.
    - intros n f IH t H. rewrite rule_testcall in H. parts. eapply IH; eassumption.
    - intros l t H. now apply (lexed_literal l t).
    - intros r l t H. rewrite rule_sing in H. parts. eapply lexed_every; [|eassumption]. apply Forall_forall. intros s _ u K. parts. eapply lexed_gstep; eassumption.
    - intros f IH t H. rewrite rule_valuecall in H. eapply IH; eassumption.
    - intros x args F t H. destruct args as [|a l].
      + rewrite rule_call0 in H. parts. split; [|exact I]. match goal with K : term (LxFun, x) _ |- _ => apply term_ok in K as (name & -> & _); now exists name end.
      + rewrite rule_call in H. parts. inversion F as [|? ? A F']; subst. split; [match goal with K : term (LxFun, x) _ |- _ => apply term_ok in K as (name & -> & _); now exists name end|].
        split; [eapply A; eassumption|]. match goal with K : every _ l _ |- _ => refine (EV _ _ _ _ _ _ F' _ K) end. intros. parts. eauto.
    - intros l t H. now apply (lexed_literal l t).
    - intros q IH t H. rewrite rule_argquery in H. eapply IH; eassumption.
    - intros e IH t [_ H]. eapply IH; eassumption.
    - intros f IH t H. rewrite rule_argcall in H. eapply IH; eassumption.
  Qed.
End Lexed.
Lemma rfc_lexed : forall log q t, rfc_query log q t -> lexed q.
Proof. intros log q t [_ H]. destruct (lexed_grammar rfc_text (Forall blank) log) as [X _]; [intros k b [K _]; exact K|]. now apply (X q t). Qed.
Lemma lax_lexed : forall log q t, lax_query log q t -> lexed q.
Proof. intros log q t [_ (w & u & _ & _ & H)]. destruct (lexed_grammar lax_text nothing log) as [X _]; [intros k b (v & K & _); exact K|]. now apply (X q u). Qed.

(** The ends of the text of a query. *)
Lemma terminal_last : forall k, terminal k -> exists u b, snd k = u ++ [b] /\ is_space b = false.
Proof.
  assert (NC : forall b, name_char b = true -> is_space b = false) by (intros b H; revert H; classes; discriminate).
  assert (DG : forall l, Forall digit l -> forall x d, digit d -> exists u b, x ++ d :: l = u ++ [b] /\ is_space b = false).
  { intros l F. induction F as [|e l E F IH]; intros x d D; [exists x, d; split; [reflexivity|]; unfold digit in D; classes|].
    destruct (IH (x ++ [d]) e E) as (u & b & Q & B). exists u, b. rewrite <- Q, <- app_assoc. auto. }
  intros [[| | | | | | | | | | |] t] T; cbn [snd]; cbn in T.
  - destruct T.
  - subst t. exists [110; 117; 108], 108. auto.
  - destruct T as [->| ->]; [exists [116; 114; 117], 101|exists [102; 97; 108; 115], 101]; auto.
  - destruct T as (name & -> & _). exists name, 40. auto.
  - repeat destruct T as [<-|T]; try contradiction; [exists [61], 61|exists [33], 61|exists [60], 61|exists [62], 61|exists [], 60|exists [], 62]; auto.
  - destruct T as (name & -> & M). apply member_bytes in M as (b & u & -> & B & U). destruct (exists_last (l := b :: u)) as (v & c & E); [discriminate|]. rewrite E. exists (46 :: 46 :: v), c. split; [reflexivity|].
    apply NC. assert (F : Forall (fun b => name_char b = true) (b :: u)) by (constructor; [now apply name_char_first|exact U]). rewrite E in F. apply Forall_app in F as [_ F]. now inversion F.
  - destruct T as (name & -> & M). apply member_bytes in M as (b & u & -> & B & U). destruct (exists_last (l := b :: u)) as (v & c & E); [discriminate|]. rewrite E. exists (46 :: v), c. split; [reflexivity|].
    apply NC. assert (F : Forall (fun b => name_char b = true) (b :: u)) by (constructor; [now apply name_char_first|exact U]). rewrite E in F. apply Forall_app in F as [_ F]. now inversion F.
  - assert (E := exists_last (l := t)). destruct E as (u & b & ->); [intros ->; cbn in T; intuition discriminate|]. exists u, b. split; [reflexivity|].
    repeat destruct T as [T|T]; try contradiction; apply (f_equal (fun l => last l 0)) in T; rewrite last_last in T; subst b; reflexivity.
  - destruct T as [z T]. apply int_cases in T as [->|(sg & d & ds & SG & -> & D & DS)]; [exists [], 48; auto|]. apply DG; [exact DS|now apply digit1_digit].
  - destruct T as (sg & i & f & e & -> & _ & I & F & E).
    assert (L1 : forall ds, digits1 ds -> forall x, exists u b, x ++ ds = u ++ [b] /\ is_space b = false).
    { intros [|d ds] [N DD] x; [congruence|]. inversion DD; subst. now apply DG. }
    destruct E as [->|(c & s & ds & -> & _ & _ & D)].
    + rewrite app_nil_r. destruct F as [->|(ds & -> & D)].
      * rewrite app_nil_r. destruct I as [->|(d & ds & -> & D & DS)]; [exists sg, 48; auto|]. apply DG; [exact DS|now apply digit1_digit].
      * replace (sg ++ i ++ 46 :: ds) with ((sg ++ i ++ [46]) ++ ds) by (rewrite <- !app_assoc; reflexivity). now apply L1.
    + replace (sg ++ i ++ f ++ c :: s ++ ds) with ((sg ++ i ++ f ++ c :: s) ++ ds) by (rewrite <- !app_assoc; reflexivity). now apply L1.
  - destruct T as (u & c & -> & _). exists (34 :: c), 34. auto.
  - destruct T as (u & c & -> & _). exists (39 :: c), 39. auto.
Qed.

(** A query in RFC 9535 neither begins nor ends with a blank. *)
Definition ends_well (t : bytes) : Prop := exists u b, t = u ++ [b] /\ is_space b = false.
Lemma ends_app : forall x y, ends_well y -> ends_well (x ++ y).
Proof. intros x y (u & b & -> & B). exists (x ++ u), b. rewrite app_assoc. auto. Qed.
Lemma rfc_ends : forall log q t, rfc_query log q t -> (exists r, t = 36 :: r) /\ ends_well t.
Proof.
  assert (TE : forall k t, rfc_text k t -> ends_well t) by (intros k t [K ->]; now apply terminal_last).
  assert (OP : forall o t, op rfc_text o t -> ends_well t) by (intros o t H; now apply TE in H).
  assert (CE : forall (a b : @lang N) t, (forall y, b y -> ends_well y) -> (a ;; b) t -> ends_well t) by (intros a b t B (x & y & -> & _ & Y); apply ends_app; auto).
  assert (SE : forall log g t, x_segment rfc_text (Forall blank) log g t -> ends_well t).
  { intros log g t H. destruct g; autorewrite with rules in H; eauto; revert H; do 5 (apply CE; intros ?); apply OP. }
  intros log q t [(segs & ->) H]. autorewrite with rules in H. destruct H as (x & y & -> & X & Y). split.
  - destruct X as [_ ->]. now exists y.
  - apply OP in X. revert x X Y. revert y. induction segs as [|g segs IH]; intros y x X Y; [unfold every, nothing in Y; subst y; now rewrite app_nil_r|].
    destruct Y as (a & b & -> & A & B). rewrite app_assoc. apply IH; [|exact B]. apply ends_app. revert A. apply CE. intros. eapply SE; eassumption.
Qed.

(** A text that begins with a dollar sign is parsed, at least in part. *)
Definition dollar (s : bytes) : Prop := exists w r, Forall lax_blank w /\ s = w ++ 36 :: r.
Lemma blank_span : forall w1 w2 b1 b2 r1 r2, Forall lax_blank w1 -> Forall lax_blank w2 -> is_space b1 = false -> is_space b2 = false ->
  w1 ++ b1 :: r1 = w2 ++ b2 :: r2 -> b1 = b2.
Proof.
  intros w1 w2 b1 b2 r1 r2 F. revert w2. induction F as [|c w1 C F IH]; intros w2 F2 B1 B2 E.
  - destruct F2 as [|d w2 D F2]; cbn in E; injection E as -> _; [reflexivity|]. apply lax_space in D. congruence.
  - destruct F2 as [|d w2 D F2]; cbn in E; injection E as -> E; [apply lax_space in C; congruence|]. eauto.
Qed.
Lemma dollar_parses : forall s ts, is_utf8 s -> tokenise_query s = Some ts -> (dollar s <-> exists r, ts = (LxOp, op_dollar) :: r).
Proof.
  intros s ts U T. destruct (tokens_sound _ _ _ U T) as (w & t & -> & W & A). split.
  - intros (w' & r & W' & E). inversion A as [|k v us u K V A']; subst.
    + rewrite app_nil_r in E. assert (I36 : In 36 w) by (rewrite E; apply in_elt). rewrite Forall_forall in W. apply W in I36. unfold lax_blank, blank in I36. lia.
    + destruct (terminal_heads k K) as (b & x & Q & HB). assert (NB := heads_space k b HB). rewrite Q in E. cbn [app] in E. apply blank_span in E; [|assumption..|reflexivity]. subst b.
      exists us. destruct k as [[| | | | | | | | | | |] y]; cbn [fst snd] in *; unfold heads, digit_or_minus in HB; cbn in HB; try (exfalso; lia).
      subst y. cbn in K. repeat destruct K as [K|K]; try contradiction; try discriminate K. now injection K as <-.
  - intros [r ->]. inversion A as [|k v us u K V A']; subst. exists w, (v ++ u). auto.
Qed.

(** The tokens of RFC 9535 are recognised, and nothing else is. *)
From Coq Require Import List NArith ZArith Bool Arith Lia.
From Verif Require Import Base JsonSpec ScalarSpec GrammarModel GrammarSpec LexModel LexRx ParseModel QuerySyntax.
Local Open Scope N_scope.

(** Decide boolean tests on bytes. *)
Ltac tests :=
  repeat match goal with
  | |- context [N.leb ?a ?b] => destruct (N.leb_spec a b); try lia
  | |- context [N.eqb ?a ?b] => destruct (N.eqb_spec a b); try lia
  end; try reflexivity; try lia.
Ltac unfold_classes := unfold name_first, name_char, is_space, is_letter, is_lower, is_hex, is_digit1, is_digit, word_char, high, LexModel.between in *.
Ltac classes := cbn; unfold_classes; cbn; tests.

Lemma fails_first : forall r p s, nullable r = false -> match s with c :: _ => first_of r c = false | [] => True end -> fails r p s.
Proof.
  intros r p s N F X k. destruct (rx_match r p s k) as [v|] eqn:E; [|reflexivity]. apply match_sound in E as (x & y & -> & L & _). apply lang_first in L.
  destruct x as [|c x]; [congruence|]. cbn in F. congruence.
Qed.

Lemma first_skip : forall ty r sp table s, rx_rest r s = None -> lex_first ((ty, r, sp) :: table) s = lex_first table s.
Proof. intros ty r sp table s H. cbn [lex_first]. now rewrite H. Qed.
Lemma first_hit : forall ty r table x y, takes r None x y -> lex_first ((ty, r, None) :: table) (x ++ y) = Some ((ty, x), y).
Proof.
  intros ty r table x y T. cbn [lex_first]. rewrite (takes_rest _ _ _ T). destruct (firstn_match x y) as [-> ->]. reflexivity.
Qed.
Ltac skip := rewrite first_skip; [|apply first_none; [reflexivity|cbn [app]; first [reflexivity|classes]]].

Lemma takes_text : forall l p y, takes (rx_text l) p l y.
Proof.
  induction l as [|c l IH]; intros p y; [apply takes_none|]. assert (C : takes (rx_char c) p [c] (l ++ y)) by (apply takes_in; apply N.eqb_refl).
  destruct l as [|d l]; [exact C|]. exact (takes_seq (rx_char c) (rx_text (d :: l)) p [c] (d :: l) y C (IH (Some c) y)).
Qed.
(** What may follow a name; a number or a word. *)
Definition ends_name (r : bytes) : Prop := match r with b :: _ => name_char b = false | [] => True end.
Definition ends_value (r : bytes) : Prop := match r with b :: _ => name_char b = false /\ b <> 46 | [] => True end.
Lemma ends_value_name : forall r, ends_value r -> ends_name r.
Proof. intros [|b r] H; [exact I|apply H]. Qed.
Lemma word_name : forall b, name_char b = false -> word_char b = false.
Proof. intros b H. unfold_classes. revert H. tests; cbn; intro; try discriminate; reflexivity. Qed.
Lemma ends_word : forall r, ends_name r -> wordy (hd_error r) = false.
Proof. intros [|b r] H; [reflexivity|]. cbn. now apply word_name. Qed.

(* ------------------------------------------------------------------ *)
(** Words. *)
Lemma lex_null : forall r, ends_name r -> lex_one ([110; 117; 108; 108] ++ r) = Some ((LxNull, [110; 117; 108; 108]), r).
Proof.
  intros r E. unfold lex_one, lex_table. skip. apply first_hit. apply (takes_seq (rx_text [110; 117; 108; 108]) RxWordEnd None [110; 117; 108; 108] [] r).
  - apply takes_text.
  - apply takes_word. rewrite (ends_word r E). reflexivity.
Qed.
Lemma lex_true : forall r, ends_name r -> lex_one ([116; 114; 117; 101] ++ r) = Some ((LxBool, [116; 114; 117; 101]), r).
Proof.
  intros r E. unfold lex_one, lex_table. do 2 skip. apply first_hit. apply takes_left.
  apply (takes_seq (rx_text [116; 114; 117; 101]) RxWordEnd None [116; 114; 117; 101] [] r); [apply takes_text|].
  apply takes_word. rewrite (ends_word r E). reflexivity.
Qed.
Lemma lex_false : forall r, ends_name r -> lex_one ([102; 97; 108; 115; 101] ++ r) = Some ((LxBool, [102; 97; 108; 115; 101]), r).
Proof.
  intros r E. unfold lex_one, lex_table. do 2 skip. apply first_hit. apply takes_right; [apply fails_first; reflexivity|].
  apply (takes_seq (rx_text [102; 97; 108; 115; 101]) RxWordEnd None [102; 97; 108; 115; 101] [] r); [apply takes_text|].
  apply takes_word. rewrite (ends_word r E). reflexivity.
Qed.

(** Functions. *)
Lemma word_rest : forall l s, rx_rest (RxSeq (rx_text l) RxWordEnd) s <> None -> exists y, s = l ++ y /\ (forall p, lastp None l = Some p -> xorb (word_char p) (wordy (hd_error y)) = true).
Proof.
  intros l s H. destruct (rx_rest (RxSeq (rx_text l) RxWordEnd) s) as [y|] eqn:E; [|congruence]. apply rest_sound in E as (x & -> & L).
  apply lang_seq in L as (x1 & x2 & -> & A & B). apply lang_text in A as ->. apply lang_word in B as [-> W]. exists y. rewrite app_nil_r.
  split; [reflexivity|]. intros p P. rewrite P in W. exact W.
Qed.
Lemma function_no_word : forall l name r, Forall (fun b => 97 <= b <= 122) l -> l <> [] ->
  Forall (fun b => 97 <= b <= 122 \/ b = 95 \/ 48 <= b <= 57) name -> name <> l -> rx_rest (RxSeq (rx_text l) RxWordEnd) (name ++ 40 :: r) = None.
Proof.
  intros l name r FL NL FN NE. destruct (rx_rest (RxSeq (rx_text l) RxWordEnd) (name ++ 40 :: r)) as [y0|] eqn:E; [|reflexivity]. exfalso.
  destruct (word_rest l (name ++ 40 :: r)) as (y & EQ & W); [congruence|]. clear E y0.
  assert (P : exists p, lastp None l = Some p /\ word_char p = true).
  { clear - FL NL. destruct l as [|a l] using rev_ind; [congruence|]. apply Forall_app in FL as [_ F]. inversion F; subst. exists a. rewrite lastp_snoc. split; [reflexivity|]. classes. }
  destruct P as (p & P & PW). specialize (W p P). rewrite PW in W. clear P PW p NL.
  revert name FN NE EQ. induction FL as [|a l A FL IH]; intros name FN NE EQ.
  - destruct FN as [|b name B FN]; [congruence|]. cbn in EQ. subst y. cbn [hd_error wordy] in W. assert (WB : word_char b = true) by classes. rewrite WB in W. discriminate.
  - destruct FN as [|b name B FN]; cbn in EQ; injection EQ as E1 E2; [lia|]. apply (IH name FN); [congruence|exact E2].
Qed.
Lemma lex_function : forall t r, terminal (LxFun, t) -> lex_one (t ++ r) = Some ((LxFun, t), r).
Proof.
  intros t r (name & -> & (c & u & -> & C & U) & NI). unfold lex_one, lex_table.
  assert (FN : Forall (fun b => 97 <= b <= 122 \/ b = 95 \/ 48 <= b <= 57) (c :: u)) by (constructor; [lia|exact U]).
  skip. rewrite first_skip.
  2:{ rewrite <- app_assoc. apply function_no_word; [repeat constructor; lia|discriminate|exact FN|]. intro E. apply NI. rewrite E. now left. }
  rewrite first_skip.
  2:{ rewrite <- app_assoc. cbn [app]. unfold rx_bool, rx_rest. cbn [rx_match]. fold (rx_match (X := bytes)).
      match goal with |- match ?a with _ => _ end = _ => assert (A : a = None) end.
      { apply (function_no_word [116; 114; 117; 101] (c :: u) r); [repeat constructor; lia|discriminate|exact FN|]. intro E. apply NI. rewrite E. now right; left. }
      rewrite A. apply (function_no_word [102; 97; 108; 115; 101] (c :: u) r); [repeat constructor; lia|discriminate|exact FN|]. intro E. apply NI. rewrite E. now right; right; left. }
  apply first_hit. change ((c :: u) ++ [40]) with ([c] ++ u ++ [40]). apply takes_seq; [apply takes_in; classes|].
  apply takes_seq; [|apply takes_in; reflexivity]. apply takes_class; [|reflexivity].
  eapply Forall_impl; [|exact U]. cbn. intros b B. classes.
Qed.

(** Comparisons. *)
Definition no_equals (r : bytes) : Prop := match r with b :: _ => b <> 61 | [] => True end.
Lemma fails_two : forall a b c r, c <> b -> fails (rx_text [a; b]) None (a :: c :: r).
Proof. intros a b c r N. apply fails_after_in. intros _. apply fails_in. cbn. apply N.eqb_neq. congruence. Qed.
Lemma fails_one : forall a b, fails (rx_text [a; b]) None [a].
Proof. intros a b. apply fails_after_in. intros _. apply fails_in. exact I. Qed.
Lemma lex_comparison : forall t r, terminal (LxCmp, t) -> no_equals r -> lex_one (t ++ r) = Some ((LxCmp, t), r).
Proof.
  intros t r T E. unfold lex_one, lex_table. cbn [terminal] in T.
  assert (SK : forall tb, lex_first ((LxBlank, rx_space, None) :: (LxNull, rx_null, None) :: (LxBool, rx_bool, None) :: (LxFun, rx_function, None) :: tb) (t ++ r) = lex_first tb (t ++ r)).
  { intro tb. repeat destruct T as [<-|T]; try contradiction; do 4 skip; reflexivity. }
  rewrite SK. apply first_hit. unfold rx_comparison. cbn [rx_alts].
  repeat destruct T as [<-|T]; try contradiction.
  - apply takes_left, takes_text.
  - apply takes_right; [apply fails_first; reflexivity|]. apply takes_left, takes_text.
  - do 2 (apply takes_right; [apply fails_first; reflexivity|]). apply takes_left, takes_text.
  - do 3 (apply takes_right; [apply fails_first; reflexivity|]). apply takes_left, takes_text.
  - do 2 (apply takes_right; [apply fails_first; reflexivity|]).
    apply takes_right; [cbn [app]; destruct r as [|c r]; [apply fails_one|now apply fails_two]|].
    apply takes_right; [apply fails_first; reflexivity|]. apply takes_left, takes_text.
  - do 3 (apply takes_right; [apply fails_first; reflexivity|]).
    apply takes_right; [cbn [app]; destruct r as [|c r]; [apply fails_one|now apply fails_two]|].
    apply takes_right; [apply fails_first; reflexivity|]. apply takes_text.
Qed.

(** Names. *)
Lemma utf8_high : forall c, 128 <= c -> unicode c -> Forall (fun b => 128 <= b) (utf8 c) /\ utf8 c <> [].
Proof.
  intros c L U. unfold utf8. destruct (N.ltb_spec c 128) as [B|B]; [lia|].
  destruct (N.ltb_spec c 2048) as [B1|B1]; [|destruct (N.ltb_spec c 65536) as [B2|B2]]; (split; [|discriminate]);
    repeat (apply Forall_cons; [match goal with |- _ (?k + _) => apply N.le_trans with k; [lia|apply N.le_add_r] end|]); apply Forall_nil.
Qed.
Lemma utf8_low : forall c, c < 128 -> utf8 c = [c].
Proof. intros c L. unfold utf8. destruct (N.ltb_spec c 128); [reflexivity|lia]. Qed.
Lemma name_char_first : forall b, name_first b = true -> name_char b = true.
Proof. intros b H. unfold name_char, name_first in *. destruct (is_digit b), (is_letter b), (b =? 95), (high b); auto. Qed.
Lemma first_char_bytes : forall c, first_char c -> exists b t, utf8 c = b :: t /\ name_first b = true /\ Forall (fun b => name_char b = true) t.
Proof.
  intros c H. destruct (N.lt_ge_cases c 128) as [L|L].
  - rewrite (utf8_low c L). exists c, []. split; [reflexivity|]. split; [|constructor]. destruct H as [H|[H|[->|[H _]]]]; [classes|classes|reflexivity|lia].
  - assert (U : unicode c) by (destruct H as [H|[H|[->|[_ H]]]]; [lia|lia|lia|exact H]).
    destruct (utf8_high c L U) as [F N]. destruct (utf8 c) as [|b t]; [congruence|]. inversion F; subst. exists b, t. split; [reflexivity|]. split; [classes|].
    eapply Forall_impl; [|eassumption]. cbn. intros d D. classes.
Qed.
Lemma next_char_bytes : forall c, next_char c -> Forall (fun b => name_char b = true) (utf8 c).
Proof.
  intros c [H|H].
  - destruct (first_char_bytes c H) as (b & t & -> & B & T). constructor; [now apply name_char_first|exact T].
  - rewrite utf8_low by lia. repeat constructor. classes.
Qed.
Lemma member_bytes : forall t, member_name t -> exists b r, t = b :: r /\ name_first b = true /\ Forall (fun b => name_char b = true) r.
Proof.
  intros t (c & u & -> & C & U). destruct (first_char_bytes c C) as (b & r & E & B & R). cbn [flat_map]. rewrite E. exists b, (r ++ flat_map utf8 u).
  split; [reflexivity|]. split; [exact B|]. apply Forall_app. split; [exact R|]. clear - U. induction U as [|d u D U IH]; [constructor|]. cbn. apply Forall_app. split; [now apply next_char_bytes|exact IH].
Qed.
Lemma name_first_dot : forall b, name_first b = true -> b <> 46 /\ b <> 42 /\ b <> 91.
Proof. intros b H. split; [|split]; intros ->; discriminate. Qed.
Lemma lex_descendant : forall t r, terminal (LxDesc, t) -> ends_name r -> lex_one (t ++ r) = Some ((LxDesc, t), r).
Proof.
  intros t r (name & -> & M) E. apply member_bytes in M as (b & u & -> & B & U). unfold lex_one, lex_table. do 5 skip. apply first_hit.
  change (46 :: 46 :: b :: u) with ([46] ++ [46] ++ [b] ++ u). do 2 (apply takes_seq; [apply takes_in; reflexivity|]).
  apply takes_seq; [now apply takes_in|]. now apply takes_class.
Qed.
Lemma lex_member : forall t r, terminal (LxMember, t) -> ends_name r -> lex_one (t ++ r) = Some ((LxMember, t), r).
Proof.
  intros t r (name & -> & M) E. apply member_bytes in M as (b & u & -> & B & U). unfold lex_one, lex_table. do 5 skip.
  assert (NB := name_first_dot b B). rewrite first_skip.
  2:{ refine (fails_after_in _ _ None 46 _ _ bytes _). intros _. apply fails_seq, fails_in. cbn [app]. apply N.eqb_neq. intro X. apply (proj1 NB). now symmetry. }
  apply first_hit. change (46 :: b :: u) with ([46] ++ [b] ++ u). apply takes_seq; [apply takes_in; reflexivity|].
  apply takes_seq; [now apply takes_in|]. now apply takes_class.
Qed.

(** Operators. *)
Lemma takes_any : forall l p b y, In b l -> takes (rx_any_of l) p [b] y.
Proof. intros l p b y H. apply takes_in. apply existsb_exists. exists b. split; [exact H|apply N.eqb_refl]. Qed.
Lemma lex_op : forall t r, terminal (LxOp, t) -> (t = op_not -> no_equals r) -> lex_one (t ++ r) = Some ((LxOp, t), r).
Proof.
  intros t r T E. cbn [terminal] in T. unfold lex_one, lex_table.
  assert (SK : forall tb, lex_first ((LxBlank, rx_space, None) :: (LxNull, rx_null, None) :: (LxBool, rx_bool, None) :: (LxFun, rx_function, None) ::
    (LxCmp, rx_comparison, None) :: (LxDesc, rx_descendant_name, None) :: (LxMember, rx_member_name, None) :: tb) (t ++ r) = lex_first tb (t ++ r)).
  { intro tb.
    assert (MN : forall d z, name_first d = false -> rx_rest rx_member_name (46 :: d :: z) = None).
    { intros d z D. refine (fails_after_in _ _ None 46 _ _ bytes _). intros _. apply fails_seq, fails_in. exact D. }
    assert (DN : forall d z, name_first d = false -> rx_rest rx_descendant_name (46 :: 46 :: d :: z) = None).
    { intros d z D. refine (fails_after_in _ _ None 46 _ _ bytes _). intros _. apply fails_after_in. intros _. apply fails_seq, fails_in. exact D. }
    assert (DM : forall z, rx_rest rx_descendant_name (46 :: 42 :: z) = None).
    { intros z. refine (fails_after_in _ _ None 46 _ _ bytes _). intros _. apply fails_seq, fails_in. reflexivity. }
    unfold operators in T. cbn [In] in T. repeat destruct T as [<-|T]; try contradiction; do 4 skip.
    all: try (do 3 skip; reflexivity).
    - rewrite first_skip; [do 2 skip; reflexivity|]. cbn [op_not app].
      unfold rx_comparison. cbn [rx_alts].
      assert (F : fails (RxAlt (rx_text [61; 61]) (RxAlt (rx_text [33; 61]) (RxAlt (rx_text [60; 61]) (RxAlt (rx_text [62; 61]) (RxAlt (rx_text [60]) (rx_text [62])))))) None (33 :: r)); [|apply F].
      apply fails_alt; [apply fails_first; reflexivity|]. apply fails_alt; [|apply fails_first; reflexivity].
      specialize (E eq_refl). destruct r as [|c r]; [apply fails_one|now apply fails_two].
    - skip. rewrite first_skip; [|apply DM]. rewrite first_skip; [reflexivity|]. now apply MN.
    - skip. rewrite first_skip; [|now apply DN]. rewrite first_skip; [reflexivity|]. now apply MN.
    - skip. rewrite first_skip; [|now apply DN]. rewrite first_skip; [reflexivity|]. now apply MN. }
  rewrite SK. apply first_hit. unfold rx_op. cbn [rx_alts].
  assert (SINGLE : forall b, In b [36; 42; 58; 63; 33; 40; 41; 64; 91; 93; 44] ->
    takes (RxAlt (rx_text [38; 38]) (RxAlt (rx_text [124; 124]) (RxAlt (rx_seqs [rx_char 46; rx_char 46; rx_any_of [42; 91]]) (RxAlt (rx_text [46; 42]) (rx_any_of [36; 42; 58; 63; 33; 40; 41; 64; 91; 93; 44]))))) None [b] r).
  { intros b B. assert (B' := B). cbn [In] in B. repeat destruct B as [<-|B]; try contradiction;
      do 4 (apply takes_right; [apply fails_first; reflexivity|]); now apply takes_any. }
  unfold operators in T. cbn [In] in T. repeat destruct T as [<-|T]; try contradiction; try (apply SINGLE; cbn; tauto).
  - apply takes_left, takes_text.
  - apply takes_right; [apply fails_first; reflexivity|]. apply takes_left, takes_text.
  - do 2 (apply takes_right; [apply fails_first; reflexivity|]). apply takes_right; [|apply takes_left, takes_text].
    apply fails_after_in. intros _. apply fails_seq, fails_in. reflexivity.
  - do 2 (apply takes_right; [apply fails_first; reflexivity|]). apply takes_left.
    apply (takes_seq (rx_char 46) _ None [46] [46; 42] r); [apply takes_in; reflexivity|]. apply (takes_seq (rx_char 46) _ (Some 46) [46] [42] r); [apply takes_in; reflexivity|].
    apply takes_any. cbn. tauto.
  - do 2 (apply takes_right; [apply fails_first; reflexivity|]). apply takes_left.
    apply (takes_seq (rx_char 46) _ None [46] [46; 91] r); [apply takes_in; reflexivity|]. apply (takes_seq (rx_char 46) _ (Some 46) [46] [91] r); [apply takes_in; reflexivity|].
    apply takes_any. cbn. tauto.
Qed.

(** C46 and C47: the patterns of match() and search(). *)
From Coq Require Import List ZArith NArith Arith Bool Lia.
From Verif Require Import Base GoLiteral ScalarSpec ScalarProofs IregexpModel IregexpSpec IregexpProofs IregexpUnique.
Local Open Scope N_scope.

(* ------------------------------------------------------------------ *)
(** C46: a pattern means what RFC 9485 says. *)
Lemma no_newline_ok : ok_class no_newline.
Proof. split; [repeat constructor; cbn; tauto|]. split; [right; discriminate|discriminate]. Qed.
Lemma undot_ok : (forall r, ok_regexp r -> ok_regexp (undot r)) /\ (forall b, ok_branch b -> ok_branch (undot_branch b)) /\
  (forall p, ok_piece p -> ok_piece (undot_piece p)) /\ (forall a, ok_atom a -> ok_atom (undot_atom a)).
Proof. apply regexp_mut; cbn; try tauto. intros _. exact no_newline_ok. Qed.

Lemma rewriting : forall r, ok_regexp r -> iregexp_string (pattern_of r) = pattern_of (undot r).
Proof.
  intros r O. rewrite iregexp_string_eq. unfold pattern_of. rewrite rewrite_encoded. f_equal.
  pose proof (proj1 rewrite_show r O []) as H. now rewrite !app_nil_r in H.
Qed.

(** The pattern that is given to Go, as Go reads it, matches what the I-Regexp
    matches, wherever it is. *)
Theorem C46_rewriting_partial : forall r, ok_regexp r ->
  exists g, ok_regexp g /\ iregexp_string (pattern_of r) = pattern_of g /\
    (no_anchor r -> forall category pre s post, go_lang category g pre s post <-> lang category r s).
Proof.
  intros r O. exists (undot r). split; [now apply undot_ok|]. split; [now apply rewriting|]. intros N category. now apply undot_lang.
Qed.
Print Assumptions C46_rewriting_partial.

(** Characters. *)
Lemma low_unicode : forall c, c < 128 -> unicode c. Proof. unfold unicode. lia. Qed.
Lemma escapable_unicode : forall c, escapable c -> unicode c.
Proof. intros c H. apply low_unicode. cbn in H. repeat destruct H as [<-|H]; try reflexivity. destruct H. Qed.
Ltac uni := repeat first [apply Forall_nil | apply Forall_cons; [apply low_unicode; reflexivity|] | apply Forall_app; split].
Lemma digits_unicode : forall l, digits l -> Forall unicode l.
Proof. intros l [_ F]. eapply Forall_impl; [|exact F]. cbn. intros. apply low_unicode. lia. Qed.
Lemma letters_unicode : forall l, letters l -> Forall unicode l.
Proof. intros l F. eapply Forall_impl; [|exact F]. cbn. intros. apply low_unicode. lia. Qed.
Lemma cat_unicode : forall k n, letters n -> Forall unicode (show_cat k n).
Proof. intros k n L. unfold show_cat. constructor; [apply low_unicode; reflexivity|]. constructor; [destruct k; apply low_unicode; reflexivity|]. uni. now apply letters_unicode. Qed.
Lemma cchar_unicode : forall c, ok_cchar c -> Forall unicode (show_cchar c).
Proof. intros [c|c] O; cbn in *; [constructor; [exact (proj1 O)|constructor]|]. constructor; [apply low_unicode; reflexivity|]. constructor; [now apply escapable_unicode|constructor]. Qed.
Lemma class_unicode : forall k, ok_class k -> Forall unicode (show_class k).
Proof.
  intros [n f l d] [O _]. cbn in O. unfold show_class. cbn [c_neg c_first c_items c_last]. uni; [destruct n; uni|destruct f; uni| |destruct d; uni].
  induction O as [|i l H F IH]; [constructor|]. cbn [flat_map]. apply Forall_app. split; [|exact IH].
  destruct i as [c|a b|k n']; cbn [show_item ok_item] in *; [now apply cchar_unicode| |now apply cat_unicode]. destruct H. uni; now apply cchar_unicode.
Qed.
Lemma show_unicode : (forall r, ok_regexp r -> Forall unicode (show_regexp r)) /\ (forall b, ok_branch b -> Forall unicode (show_branch b)) /\
  (forall p, ok_piece p -> Forall unicode (show_piece p)) /\ (forall a, ok_atom a -> Forall unicode (show_atom a)).
Proof.
  apply regexp_mut; cbn [show_regexp show_branch show_piece show_atom ok_regexp ok_branch ok_piece ok_atom]; intros; repeat match goal with H : _ /\ _ |- _ => destruct H end; auto; try (now apply cat_unicode); try (now apply class_unicode); uni; auto.
  - destruct q; cbn [show_quant ok_quant] in *; try match goal with H : digits _ /\ digits _ |- _ => destruct H end; uni; auto using digits_unicode.
  - constructor; [|constructor]. match goal with H : normal _ |- _ => exact (proj1 H) end.
  - constructor; [now apply escapable_unicode|constructor].
Qed.

(** A pattern is read in one way only. *)
Theorem pattern_unique : forall r r', ok_regexp r -> ok_regexp r' -> pattern_of r = pattern_of r' -> r = r'.
Proof.
  intros r r' O O' E. apply flat_utf8_inj in E; [|now apply show_unicode|now apply show_unicode].
  apply (proj1 show_unique r O r' [] []); cbn; auto. now rewrite !app_nil_r.
Qed.

(** Characters are found where they are. *)
Lemma encoded_split : forall u2 u t3, Forall unicode u -> Forall unicode u2 -> encoded u = encoded u2 ++ t3 -> exists u3, u = u2 ++ u3 /\ t3 = encoded u3.
Proof.
  induction u2 as [|c u2 IH]; intros u t3 F F2 E; [exists u; auto|]. destruct u as [|d u]; cbn in E.
  - symmetry in E. apply app_eq_nil in E. destruct E as [E _]. apply app_eq_nil in E. destruct E as [E _]. now apply utf8_nonempty in E.
  - inversion F; inversion F2; subst. rewrite <- app_assoc in E. apply utf8_prefix in E; auto. destruct E as [-> E]. destruct (IH u t3) as [u3 [-> ->]]; auto. exists u3. auto.
Qed.
Lemma utf8_lead : forall c, unicode c -> exists b r, utf8 c = b :: r /\ (b < 128 \/ 192 <= b) /\ Forall (fun x => 128 <= x < 192) r.
Proof.
  intros c U. destruct (utf8_cases c U) as [[A K]|[[_ [a [b [K H]]]]|[[_ [a [b [d [K H]]]]]|[_ [a [b [d [e [K H]]]]]]]]]; rewrite K; eexists; eexists; (split; [reflexivity|]); (split; [lia|]); repeat (constructor; [lia|]); constructor.
Qed.
Lemma encoded_sync : forall u t1 c t, Forall unicode u -> unicode c -> encoded u = t1 ++ utf8 c ++ t -> exists u1 u', u = u1 ++ c :: u' /\ t1 = encoded u1 /\ t = encoded u'.
Proof.
  induction u as [|d u IH]; intros t1 c t F U E; cbn in E.
  - symmetry in E. apply app_eq_nil in E. destruct E as [_ E]. apply app_eq_nil in E. destruct E as [E _]. now apply utf8_nonempty in E.
  - inversion F as [|? ? U' F']; subst. destruct t1 as [|x t1].
    + cbn in E. apply utf8_prefix in E; auto. destruct E as [-> <-]. exists [], u. auto.
    + assert (L : exists t1', x :: t1 = utf8 d ++ t1' /\ encoded u = t1' ++ utf8 c ++ t).
      { destruct (utf8_lead d U') as [b [r [Q [_ R]]]]. destruct (utf8_lead c U) as [b' [r' [Q' [LD _]]]]. rewrite Q in *. rewrite Q' in *. cbn in E. injection E as <- E. clear Q Q' F IH.
        cut (exists t1', t1 = r ++ t1' /\ encoded u = t1' ++ b' :: r' ++ t). { intros [t1' [-> H]]. exists t1'. auto. }
        revert t1 E. induction r as [|y r IHr]; intros t1 E; [exists t1; auto|]. inversion R; subst. destruct t1 as [|z t1]; cbn in E; injection E as -> E; [lia|].
        destruct (IHr H2 t1 E) as [t1' [-> H]]. exists t1'. auto. }
      destruct L as [t1' [-> E']]. destruct (IH t1' c t F' U E') as [u1 [u' [-> [-> ->]]]]. exists (d :: u1), u'. auto.
Qed.

(** search(): the pattern is found when some part of the string matches it.

    Partial: ^ and $ are excluded (see below), and patterns that Go does not
    accept, such as a{1001}. *)
Theorem C46_search_partial : forall category R (go_compile : bytes -> option R) find_index, go_regexp category go_compile find_index ->
  forall r, ok_regexp r -> no_anchor r -> go_compile (iregexp_string (pattern_of r)) <> None ->
  forall u, Forall unicode u ->
  (find_once R go_compile find_index (pattern_of r) (encoded u) <> None <->
   exists t1 t2 t3, encoded u = t1 ++ t2 ++ t3 /\ iregexp_matches category (pattern_of r) t2).
Proof.
  intros category R go_compile find_index GO r O NA C u U. unfold find_once. destruct (go_compile (iregexp_string (pattern_of r))) as [re|] eqn:E; [clear C|congruence].
  rewrite rewriting in E by exact O. pose proof (GO _ _ (proj1 undot_ok r O) E u U) as H.
  assert (L : forall pre s post, go_lang category (undot r) pre s post <-> lang category r s) by (now apply undot_lang).
  destruct (find_index re (encoded u)) as [[i j]|].
  - split; [intros _|discriminate]. destruct H as [u1 [u2 [u3 [-> [_ [_ H]]]]]]. apply L in H. apply Forall_app in U. destruct U as [_ U]. apply Forall_app in U. destruct U as [U _].
    exists (encoded u1), (encoded u2), (encoded u3). split; [now rewrite !encoded_app|]. exists r, u2. auto 6.
  - split; [congruence|]. intros [t1 [t2 [t3 [Q M]]]] _. destruct M as [r' [u2 [O' [P [U2 [-> M]]]]]]. apply pattern_unique in P; [|exact O|exact O']. subst r'.
    destruct u2 as [|c u2].
    + apply (H [] [] u eq_refl). now apply L.
    + inversion U2; subst. change (encoded (c :: u2)) with (utf8 c ++ encoded u2) in Q. rewrite <- app_assoc in Q. destruct (encoded_sync _ _ _ _ U H2 Q) as [u1 [u' [-> [_ Q']]]].
      apply Forall_app in U. destruct U as [_ U]. inversion U; subst. symmetry in Q'. destruct (encoded_split u2 u' t3) as [u3 [-> _]]; auto. apply (H u1 (c :: u2) u3 eq_refl). now apply L.
Qed.
Print Assumptions C46_search_partial.

(** match(): it is true only when the whole string matches.  (It is not always
    true then: C36_match_refuted, P_PathRefuted.v.) *)
Theorem C46_match_partial : forall category R (go_compile : bytes -> option R) find_index, go_regexp category go_compile find_index ->
  forall r, ok_regexp r -> no_anchor r -> forall u, Forall unicode u ->
  find_once R go_compile find_index (pattern_of r) (encoded u) = Some (O, length (encoded u)) ->
  iregexp_matches category (pattern_of r) (encoded u).
Proof.
  intros category R go_compile find_index GO r O NA u U. unfold find_once. destruct (go_compile (iregexp_string (pattern_of r))) as [re|] eqn:E; [|discriminate]. intro F.
  rewrite rewriting in E by exact O. pose proof (GO _ _ (proj1 undot_ok r O) E u U) as H. rewrite F in H. destruct H as [u1 [u2 [u3 [EU [I [J H]]]]]].
  assert (NIL : forall v, length (encoded v) = 0%nat -> v = []).
  { intros [|c v] L; [reflexivity|]. apply length_zero_iff_nil in L. cbn in L. apply app_eq_nil in L. destruct L as [L _]. now apply utf8_nonempty in L. }
  assert (u1 = []) by (apply NIL; congruence). subst u1. cbn [app] in *. assert (u3 = []) by (apply NIL; subst u; rewrite encoded_app, app_length in J; lia). subst u3. rewrite app_nil_r in EU. subst u2.
  exists r, u. split; [exact O|]. split; [reflexivity|]. split; [exact U|]. split; [reflexivity|]. now apply (proj1 (undot_lang category) r NA [] u []).
Qed.
Print Assumptions C46_match_partial.

(** ^ and $ are ordinary characters of I-Regexps; here they are not: a^b is an
    I-Regexp that matches the string a^b, and the program does not find it. *)
Definition anchor_pattern : regexp := RBranch (BCons (Piece (AChar 97) QOne) (BCons (Piece (AChar 94) QOne) (BCons (Piece (AChar 98) QOne) BNil))).
Theorem C46_anchor_refuted : forall category R (go_compile : bytes -> option R) find_index, go_regexp category go_compile find_index ->
  pattern_of anchor_pattern = [97; 94; 98] /\ iregexp_matches category [97; 94; 98] [97; 94; 98] /\
  find_once R go_compile find_index [97; 94; 98] [97; 94; 98] = None.
Proof.
  intros category R go_compile find_index GO. split; [reflexivity|].
  assert (O : ok_regexp anchor_pattern) by (cbn; unfold normal; repeat match goal with |- _ /\ _ => split end; try exact Logic.I; try (apply low_unicode; reflexivity); cbn; lia).
  split.
  - exists anchor_pattern, [97; 94; 98]. split; [exact O|]. split; [reflexivity|]. split; [repeat constructor; apply low_unicode; reflexivity|]. split; [reflexivity|].
    cbn. exists [97], [94; 98]. split; [reflexivity|]. split; [exists [[97]]; repeat constructor|]. exists [94], [98]. split; [reflexivity|]. split; [exists [[94]]; repeat constructor|].
    exists [98], []. split; [reflexivity|]. split; [exists [[98]]; repeat constructor|reflexivity].
  - unfold find_once. change (iregexp_string [97; 94; 98]) with (pattern_of anchor_pattern). destruct (go_compile (pattern_of anchor_pattern)) as [re|] eqn:E; [|reflexivity].
    pose proof (GO _ _ O E [97; 94; 98] ltac:(repeat constructor; apply low_unicode; reflexivity)) as H. change (encoded [97; 94; 98]) with [97; 94; 98] in H.
    destruct (find_index re [97; 94; 98]) as [[i j]|]; [|reflexivity]. exfalso. destruct H as [u1 [u2 [u3 [_ [_ [_ H]]]]]]. cbn in H.
    destruct H as [s1 [s2 [-> [[n [-> [a [b [-> [-> ->]]]]]] [s3 [s4 [-> [[m [-> [c [d [-> [[-> P] ->]]]]]] _]]]]]]]]. destruct u1; discriminate P.
Qed.
Print Assumptions C46_anchor_refuted.

(** Non-vacuity: a library that knows one pattern, [^\n\r], and an I-Regexp, the
    dot. *)
Fixpoint first_ordinary (i : nat) (l : bytes) : option (nat * nat) :=
  match l with
  | [] => None
  | b :: r => if (b =? 10) || (b =? 13) then first_ordinary (S i) r else Some (i, (i + length (firstn (rune_size l) l))%nat)
  end.
Definition dot_only (p : bytes) : option unit := if bytes_eqb p dot_class then Some tt else None.
Definition dot_regexp : regexp := RBranch (BCons (Piece ADot QOne) BNil).
Lemma first_ordinary_ok : forall category u pre, Forall unicode u ->
  match first_ordinary (length (encoded pre)) (encoded u) with
  | Some (i, j) => exists u1 u2 u3, pre ++ u = u1 ++ u2 ++ u3 /\ i = length (encoded u1) /\ j = length (encoded (u1 ++ u2)) /\ go_lang category (undot dot_regexp) u1 u2 u3
  | None => forall c, In c u -> c = 10 \/ c = 13
  end.
Proof.
  intros category u. induction u as [|c u IH]; intros pre F; [intros c []|]. inversion F as [|? ? U F']; subst. change (encoded (c :: u)) with (utf8 c ++ encoded u).
  assert (M : c <> 10 -> c <> 13 -> go_lang category (undot dot_regexp) pre [c] u).
  { intros N1 N2. apply undot_lang; [cbn; tauto|]. cbn. exists [c], []. split; [reflexivity|]. split; [|reflexivity]. exists [[c]]. split; [reflexivity|]. split; [reflexivity|]. constructor; [exists c; auto|constructor]. }
  destruct (N.lt_ge_cases c 128) as [L|G].
  - rewrite (utf8_low c L). cbn [app first_ordinary]. destruct ((c =? 10) || (c =? 13)) eqn:E.
    + assert (NL : c = 10 \/ c = 13) by (apply orb_prop in E; destruct E as [E|E]; apply N.eqb_eq in E; auto).
      specialize (IH (pre ++ [c]) F'). rewrite encoded_app, app_length in IH. change (encoded [c]) with (utf8 c ++ []) in IH. rewrite (utf8_low c L) in IH. cbn [app length] in IH. rewrite Nat.add_1_r in IH.
      destruct (first_ordinary (S (length (encoded pre))) (encoded u)) as [[i j]|].
      * rewrite <- app_assoc in IH. exact IH.
      * intros d [<-|J]; [exact NL|now apply IH].
    + apply orb_false_elim in E. destruct E as [E1 E2]. apply N.eqb_neq in E1. apply N.eqb_neq in E2. exists pre, [c], u. split; [reflexivity|]. split; [reflexivity|]. split; [|auto].
      rewrite encoded_app, app_length. unfold rune_size. rewrite (proj2 (N.ltb_lt c 128) L). change (encoded [c]) with (utf8 c ++ []). rewrite (utf8_low c L). reflexivity.
  - pose proof (rune_len_utf8 c (encoded u) U G) as RL. destruct (utf8_high c G) as [b [r [E [Hb Hr]]]]. rewrite E in *. cbn [app first_ordinary].
    rewrite (proj2 (N.eqb_neq b 10)), (proj2 (N.eqb_neq b 13)) by lia. cbn [orb]. exists pre, [c], u. split; [reflexivity|]. split; [reflexivity|]. split; [|apply M; lia].
    rewrite encoded_app, app_length. change (encoded [c]) with (utf8 c ++ []). rewrite E, app_nil_r. unfold rune_size. rewrite (proj2 (N.ltb_ge b 128) Hb).
    change (b :: r ++ encoded u) with ((b :: r) ++ encoded u). rewrite RL. cbn [length]. change (S (length r)) with (length (b :: r)). rewrite firstn_app, Nat.sub_diag, firstn_all. cbn [firstn]. now rewrite app_nil_r.
Qed.
Lemma dot_ok : ok_regexp dot_regexp. Proof. cbn. tauto. Qed.
Example dot_only_regexp : forall category, go_regexp category dot_only (fun _ => first_ordinary 0).
Proof.
  intros category g re O C u U. unfold dot_only in C. destruct (bytes_eqb (pattern_of g) dot_class) eqn:E; [|discriminate]. apply bytes_eqb_eq in E.
  change dot_class with (pattern_of (undot dot_regexp)) in E. apply pattern_unique in E; [|exact O|exact (proj1 undot_ok _ dot_ok)]. subst g.
  pose proof (first_ordinary_ok category u [] U) as H. change (length (encoded [])) with 0%nat in H. destruct (first_ordinary 0 (encoded u)) as [[i j]|]; [exact H|].
  intros u1 u2 u3 -> M. apply undot_lang in M; [|cbn; tauto]. cbn in M. destruct M as [s1 [s2 [-> [[ss [T [-> F]]] ->]]]]. rewrite app_nil_r in H. destruct ss as [|s [|]]; try discriminate T. inversion F; subst.
  destruct H2 as [c [-> [N1 N2]]]. destruct (H c) as [X|X]; [|congruence|congruence]. cbn. apply in_or_app. right. now left.
Qed.
Example dot_found : forall category, find_once unit dot_only (fun _ => first_ordinary 0) [46] [10; 195; 169; 13] = Some (1, 3)%nat /\
  exists t1 t2 t3, [10; 195; 169; 13] = t1 ++ t2 ++ t3 /\ iregexp_matches category [46] t2.
Proof.
  intro category. split; [reflexivity|].
  refine (proj1 (C46_search_partial category unit dot_only (fun _ => first_ordinary 0) (dot_only_regexp category) dot_regexp dot_ok ltac:(cbn; tauto) ltac:(discriminate) [10; 233; 13] _) _).
  - repeat (constructor; [unfold unicode; lia|]). constructor.
  - discriminate.
Qed.

(** A pattern with dots in and out of classes, escapes, groups and quantifiers:
    [.a]\.(.|\p{Lu}){2,} *)
Example rewriting_example :
  let r := RBranch (BCons (Piece (AClass (mkClass false false [CSingle (CChar 46); CSingle (CChar 97)] false)) QOne)
    (BCons (Piece (AEsc 46) QOne)
    (BCons (Piece (AGroup (ROr (BCons (Piece ADot QOne) BNil) (RBranch (BCons (Piece (ACat false [76; 117]) QOne) BNil)))) (QFrom [50])) BNil))) in
  ok_regexp r /\ no_anchor r /\
  pattern_of r = [91; 46; 97; 93; 92; 46; 40; 46; 124; 92; 112; 123; 76; 117; 125; 41; 123; 50; 44; 125] /\
  iregexp_string (pattern_of r) = [91; 46; 97; 93; 92; 46; 40; 91; 94; 92; 110; 92; 114; 93; 124; 92; 112; 123; 76; 117; 125; 41; 123; 50; 44; 125].
Proof.
  split; [|split; [cbn; tauto|split; reflexivity]]. cbn. unfold ok_class, digits, letters, class_normal. cbn [c_items c_first c_neg].
  repeat match goal with |- _ /\ _ => split end; try (right; discriminate); try tauto; try discriminate; try (intros; discriminate).
  all: try (apply low_unicode; reflexivity); try (cbn; lia).
  all: repeat (apply Forall_cons; [first [lia|split; [apply low_unicode; reflexivity|cbn; lia]]|]); apply Forall_nil.
Qed.

(* ------------------------------------------------------------------ *)
(** C47: a pattern that is not valid makes match() and search() false, each time. *)
Section Calls.
Variable R : Type.
Variable go_compile : bytes -> option R.
Variable find_index : R -> bytes -> option (nat * nat).
Notation find_patterns := (find_patterns R go_compile find_index).
Notation find_once := (find_once R go_compile find_index).

(** A pattern such as "(", on two strings: the second use panics. *)
Theorem C47_invalid_twice_refuted : forall p s t, iregexp_string p = p -> go_compile p = None ->
  find_patterns [(p, s)] [] = Ok [None] /\ find_patterns [(p, s); (p, t)] [] = Panic.
Proof.
  intros p s t E C. cbn. unfold find_pattern, iregexp_compile. cbn [lookup]. rewrite E, C. cbn [lookup bind]. rewrite bytes_eqb_refl. split; reflexivity.
Qed.

(** When it panics: the pattern is what an earlier pattern that is not valid is
    rewritten to. *)
Fixpoint clash (before : list bytes) (l : list (bytes * bytes)) : Prop :=
  match l with
  | [] => False
  | (p, _) :: r => (exists q, In q before /\ go_compile (iregexp_string q) = None /\ p = iregexp_string q) \/ clash (before ++ [p]) r
  end.

Definition knows (before : list bytes) (m : known R) : Prop :=
  (forall k, lookup R k m <> None <-> exists q, In q before /\ go_compile (iregexp_string q) = None /\ k = iregexp_string q) /\
  (forall k re, lookup R k m = Some re -> re = None).

Lemma find_pattern_once : forall before m p s, knows before m ->
  ((exists q, In q before /\ go_compile (iregexp_string q) = None /\ p = iregexp_string q) -> find_pattern R go_compile find_index p s m = Panic) /\
  (~ (exists q, In q before /\ go_compile (iregexp_string q) = None /\ p = iregexp_string q) ->
     exists m', find_pattern R go_compile find_index p s m = Ok (m', find_once p s) /\ knows (before ++ [p]) m').
Proof.
  intros before m p s [K1 K2]. unfold find_pattern, iregexp_compile, IregexpModel.find_once. split.
  - intro H. apply K1 in H. destruct (lookup R p m) as [re|] eqn:E; [|congruence]. now rewrite (K2 _ _ E).
  - intro N. destruct (lookup R p m) as [re|] eqn:E; [exfalso; apply N, K1; congruence|]. destruct (go_compile (iregexp_string p)) as [re|] eqn:C.
    + exists m. split; [reflexivity|]. split; [|exact K2]. intro k. rewrite K1. split; intros [q [J H]]; exists q; (split; [|exact H]); [apply in_or_app; now left|].
      apply in_app_or in J. destruct J as [J|[<-|[]]]; [exact J|]. destruct H; congruence.
    + eexists. split; [reflexivity|]. split.
      * intro k. cbn [lookup]. destruct (bytes_eqb k (iregexp_string p)) eqn:Q.
        { apply bytes_eqb_eq in Q. split; [|discriminate]. intros _. exists p. split; [apply in_or_app; right; now left|]. auto. }
        rewrite K1. split; intros [q [J H]]; exists q; (split; [|exact H]); [apply in_or_app; now left|].
        apply in_app_or in J. destruct J as [J|[<-|[]]]; [exact J|]. destruct H as [_ ->]. now rewrite bytes_eqb_refl in Q.
      * intros k re. cbn [lookup]. destruct (bytes_eqb k (iregexp_string p)); [congruence|apply K2].
Qed.

Lemma find_patterns_calls : forall l before m, knows before m ->
  (clash before l -> find_patterns l m = Panic) /\
  (~ clash before l -> find_patterns l m = Ok (map (fun c => find_once (fst c) (snd c)) l)).
Proof.
  induction l as [|[p s] l IH]; intros before m K; [split; [intros []|reflexivity]|]. destruct (find_pattern_once before m p s K) as [P1 P2]. cbn [clash IregexpModel.find_patterns map fst snd].
  assert (DEC : (exists q, In q before /\ go_compile (iregexp_string q) = None /\ p = iregexp_string q) \/ ~ (exists q, In q before /\ go_compile (iregexp_string q) = None /\ p = iregexp_string q)).
  { destruct K as [K1 _]. destruct (lookup R p m) eqn:E; [left; apply K1; congruence|right; intro H; apply K1 in H; congruence]. }
  destruct DEC as [Y|N].
  - split; [intros _; now rewrite (P1 Y)|]. intro H. exfalso. apply H. now left.
  - destruct (P2 N) as [m' [-> K']]. destruct (IH _ _ K') as [H1 H2]. cbn [bind]. split.
    + intros [H|H]; [tauto|]. now rewrite (H1 H).
    + intro H. rewrite H2 by tauto. reflexivity.
Qed.

(** Otherwise each call is as if it were the only one. *)
Theorem C47_calls_partial : forall l,
  (clash [] l -> find_patterns l [] = Panic) /\
  (~ clash [] l -> find_patterns l [] = Ok (map (fun c => find_once (fst c) (snd c)) l)).
Proof.
  intro l. apply find_patterns_calls. split; [intro k; cbn; split; [congruence|intros [q [[] _]]]|discriminate].
Qed.
End Calls.
Print Assumptions C47_invalid_twice_refuted.
Print Assumptions C47_calls_partial.

(** Non-vacuity. *)
Example open_paren : iregexp_string [40] = [40]. Proof. reflexivity. Qed.
Example no_clash : forall s t, ~ clash unit dot_only [] [([40; 46], s); ([46], t); ([40; 46], t)].
Proof. intros s t. cbn. intros [[q [[] _]]|[[q [[<-|[]] [_ E]]]|[[q [[<-|[<-|[]]] [C E]]]|[]]]]; vm_compute in E; discriminate. Qed.

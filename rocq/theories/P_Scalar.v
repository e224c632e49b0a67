(** Property C31: Scalar.Equal. *)
From Coq Require Import List ZArith NArith Bool Lia.
From Verif Require Import Base Tokens GoLiteral ScalarModel JsonSpec ScalarSpec EqualSpec ScalarProofs.

(** Scalars with a JSON value: literals in UTF-8, without unpaired surrogates;
    a string flagged as unescaped contains no backslash. *)
Definition readable (s : scalar) : Prop :=
  match sc_type s with
  | TNull => True
  | TBool => sc_bytes s = true_bytes \/ sc_bytes s = false_bytes
  | TNum => exists neg m e, num_value (sc_bytes s) neg m e
  | TStr => exists c u, sc_bytes s = 34%N :: c ++ [34%N] /\ denotes c u /\
              (sc_unesc s = true -> ~ In 92%N c)
  end.

(** Every number literal has a value. *)
Lemma number_has_value : forall l, number_text l -> exists neg m e, num_value l neg m e.
Proof.
  intros l [sg [i [f [x [-> [SG [IT [FT XT]]]]]]]].
  assert (F : exists fd, f = [] /\ fd = [] \/ f = 46%N :: fd).
  { destruct FT as [->|[ds [-> _]]]; [exists []; auto|eauto]. }
  destruct F as [fd F].
  assert (X : exists xe, x = [] /\ xe = 0%Z \/
       exists eb sg ds, x = eb :: sg ++ ds /\ Forall digit ds /\ (eb = 101 \/ eb = 69)%N /\
         (sg = [45%N] /\ xe = (- nat_digits 0 ds)%Z \/
          (sg = [] \/ sg = [43%N]) /\ xe = nat_digits 0 ds)).
  { destruct XT as [->|[e [s [ds [-> [E [S [_ D]]]]]]]]; [exists 0%Z; auto|].
    destruct S as [->|[->| ->]].
    - exists (nat_digits 0 ds). right. exists e, [], ds. auto 8.
    - exists (nat_digits 0 ds). right. exists e, [43%N], ds. auto 8.
    - exists (- nat_digits 0 ds)%Z. right. exists e, [45%N], ds. auto 8. }
  destruct X as [xe X].
  exists (match sg with [] => false | _ => true end). eexists. eexists.
  exists i, f, x. split; [destruct SG as [->| ->]; reflexivity|]. split; [auto|]. split; [auto|].
  split; [auto|]. exists fd, xe. split; [auto|]. split; [auto|]. split; reflexivity.
Qed.

Lemma string_result : forall s t c u c' u',
  sc_type s = TStr -> sc_type t = TStr ->
  sc_bytes s = 34%N :: c ++ [34%N] -> denotes c u -> (sc_unesc s = true -> ~ In 92%N c) ->
  sc_bytes t = 34%N :: c' ++ [34%N] -> denotes c' u' -> (sc_unesc t = true -> ~ In 92%N c') ->
  exists b, scalar_equal s t = Ok b /\ (b = true <-> u = u').
Proof.
  intros s t c u c' u' TS TT ES DS US ET DT UT. unfold scalar_equal. rewrite TS, TT. cbn [stype_eqb negb].
  rewrite ES, ET. destruct (bytes_eqb _ _) eqn:EB.
  { exists true. split; [reflexivity|]. split; [|auto]. intros _. apply bytes_eqb_eq in EB.
    injection EB as EB. apply app_inj_tail in EB. destruct EB as [<- _].
    eapply denotes_unique; eauto. }
  destruct (sc_unesc s && sc_unesc t) eqn:UU.
  { exists false. split; [reflexivity|]. split; [discriminate|]. intros <-.
    apply andb_prop in UU. destruct UU as [U1 U2].
    rewrite (unescaped_utf8 c u DS (US U1)), (unescaped_utf8 c' u DT (UT U2)) in EB.
    rewrite bytes_eqb_refl in EB. discriminate. }
  unfold literal_strings_equal. rewrite (go_string_denotes c u DS), (go_string_denotes c' u' DT).
  eexists. split; [reflexivity|]. rewrite bytes_eqb_eq. split; [|now intros ->].
  apply flat_utf8_inj; eapply denotes_unicode; eauto.
Qed.

(** C31.  Two string scalars are equal exactly when their values (lists of
    characters) are equal, however they are spelled and whichever path of the
    code is taken. *)
Theorem C31_strings_compare_by_value :
  forall s t c u c' u',
    sc_type s = TStr -> sc_type t = TStr ->
    sc_bytes s = 34%N :: c ++ [34%N] -> denotes c u -> (sc_unesc s = true -> ~ In 92%N c) ->
    sc_bytes t = 34%N :: c' ++ [34%N] -> denotes c' u' -> (sc_unesc t = true -> ~ In 92%N c') ->
    (u = u' -> scalar_equal s t = Ok true) /\ (u <> u' -> scalar_equal s t = Ok false).
Proof.
  intros s t c u c' u' TS TT ES DS US ET DT UT.
  destruct (string_result s t c u c' u' TS TT ES DS US ET DT UT) as [b [-> B]].
  destruct b; split; intro H; auto.
  - exfalso. apply H. now apply B.
  - apply B in H. discriminate.
Qed.
Print Assumptions C31_strings_compare_by_value.

(** The spellings "é\n" (UTF-8, letter escape) and "é\u000A". *)
Example C31_strings_example :
  denotes [195; 169; 92; 110]%N [233; 10]%N /\
  denotes [92; 117; 48; 48; 101; 57; 92; 117; 48; 48; 48; 65]%N [233; 10]%N.
Proof.
  split.
  - apply (dn_char 233 [92; 110]%N [10%N]); try (unfold unicode; lia).
    apply dn_letter; [unfold letter_value; simpl; tauto|constructor].
  - apply dn_hex; [|unfold unicode; lia|apply dn_hex; [|unfold unicode; lia|constructor]].
    + exists 0%N, 0%N, 14%N, 9%N. unfold hex_digit. repeat split; lia.
    + exists 0%N, 0%N, 0%N, 10%N. unfold hex_digit. repeat split; lia.
Qed.

Theorem C31_reflexive :
  forall s, readable s -> scalar_equal s s = Ok true.
Proof.
  intros s R. unfold scalar_equal, readable in *.
  assert (E : stype_eqb (sc_type s) (sc_type s) = true) by now apply stype_eqb_eq.
  rewrite E. cbn [negb]. destruct (sc_type s).
  - reflexivity.
  - destruct R as [->| ->]; reflexivity.
  - now rewrite bytes_eqb_refl.
  - now rewrite bytes_eqb_refl.
Qed.
Print Assumptions C31_reflexive.

Lemma bytes_eqb_sym : forall a b, bytes_eqb a b = bytes_eqb b a.
Proof.
  intros a b. destruct (bytes_eqb a b) eqn:E.
  - apply bytes_eqb_eq in E. subst. now rewrite bytes_eqb_refl.
  - destruct (bytes_eqb b a) eqn:E'; [|reflexivity]. apply bytes_eqb_eq in E'. subst.
    now rewrite bytes_eqb_refl in E.
Qed.

Theorem C31_symmetric :
  forall s t, scalar_equal s t = scalar_equal t s.
Proof.
  intros s t. unfold scalar_equal.
  destruct (stype_eqb (sc_type s) (sc_type t)) eqn:E.
  - apply stype_eqb_eq in E. rewrite <- E.
    assert (E2 : stype_eqb (sc_type s) (sc_type s) = true) by now apply stype_eqb_eq.
    rewrite E2. cbn [negb]. destruct (sc_type s).
    + reflexivity.
    + destruct (sc_bytes s), (sc_bytes t); auto. now rewrite N.eqb_sym.
    + rewrite (bytes_eqb_sym (sc_bytes s)). destruct (bytes_eqb _ _); [reflexivity|].
      unfold literal_numbers_equal. destruct (go_number (sc_bytes s)), (go_number (sc_bytes t)); auto.
      destruct (float_eqb f f0) eqn:F.
      * apply float_eqb_eq in F. subst. now rewrite (proj2 (float_eqb_eq f0 f0)).
      * destruct (float_eqb f0 f) eqn:F'; [|reflexivity]. apply float_eqb_eq in F'. subst.
        now rewrite (proj2 (float_eqb_eq f f)) in F.
    + rewrite (bytes_eqb_sym (sc_bytes s)). destruct (bytes_eqb _ _); [reflexivity|].
      rewrite (andb_comm (sc_unesc s)). destruct (sc_unesc t && sc_unesc s); [reflexivity|].
      unfold literal_strings_equal. destruct (go_string (sc_bytes s)), (go_string (sc_bytes t)); auto.
      now rewrite bytes_eqb_sym.
  - destruct (stype_eqb (sc_type t) (sc_type s)) eqn:E'; [|reflexivity].
    apply stype_eqb_eq in E'. rewrite E' in E.
    now rewrite (proj2 (stype_eqb_eq _ _) eq_refl) in E.
Qed.
Print Assumptions C31_symmetric.

Theorem C31_transitive :
  forall s t u, readable s -> readable t -> readable u ->
    scalar_equal s t = Ok true -> scalar_equal t u = Ok true -> scalar_equal s u = Ok true.
Proof.
  intros s t u RS RT RU E1 E2.
  assert (T1 : sc_type s = sc_type t).
  { unfold scalar_equal in E1. destruct (stype_eqb _ _) eqn:E; [now apply stype_eqb_eq|discriminate]. }
  assert (T2 : sc_type t = sc_type u).
  { unfold scalar_equal in E2. destruct (stype_eqb _ _) eqn:E; [now apply stype_eqb_eq|discriminate]. }
  unfold readable in *. destruct (sc_type s) eqn:TS; rewrite <- T1 in *; rewrite <- T2 in *.
  - unfold scalar_equal. rewrite TS, <- T2. reflexivity.
  - unfold scalar_equal in *. rewrite TS, <- T1, <- T2 in *. cbn [stype_eqb negb] in *.
    destruct (sc_bytes s), (sc_bytes t), (sc_bytes u); try discriminate.
    injection E1 as E1. injection E2 as E2. apply N.eqb_eq in E1, E2. subst. now rewrite N.eqb_refl.
  - unfold scalar_equal in *. rewrite TS, <- T1, <- T2 in *. cbn [stype_eqb negb] in *.
    destruct (bytes_eqb (sc_bytes s) (sc_bytes t)) eqn:B1.
    + apply bytes_eqb_eq in B1. rewrite B1. exact E2.
    + destruct (bytes_eqb (sc_bytes t) (sc_bytes u)) eqn:B2.
      * apply bytes_eqb_eq in B2. rewrite <- B2, B1. exact E1.
      * destruct (bytes_eqb (sc_bytes s) (sc_bytes u)); [reflexivity|].
        unfold literal_numbers_equal in *.
        destruct (go_number (sc_bytes s)), (go_number (sc_bytes t)), (go_number (sc_bytes u));
          try discriminate.
        injection E1 as E1. injection E2 as E2. apply float_eqb_eq in E1, E2. subst.
        now rewrite (proj2 (float_eqb_eq _ _)).
  - destruct RS as [c [x [ES [DS US]]]], RT as [c' [x' [ET [DT UT]]]], RU as [c'' [x'' [EU [DU UU]]]].
    destruct (string_result s t _ _ _ _ TS (eq_sym T1) ES DS US ET DT UT) as [b1 [R1 B1]].
    destruct (string_result t u _ _ _ _ (eq_sym T1) (eq_sym T2) ET DT UT EU DU UU) as [b2 [R2 B2]].
    destruct (string_result s u _ _ _ _ TS (eq_sym T2) ES DS US EU DU UU) as [b3 [R3 B3]].
    rewrite R1 in E1. rewrite R2 in E2. injection E1 as ->. injection E2 as ->.
    rewrite R3. f_equal. apply B3. rewrite (proj1 B1 eq_refl). now apply B2.
Qed.
Print Assumptions C31_transitive.

Theorem C31_ignores_key_and_alnum_flags :
  forall b t un k1 a1 k2 a2 s,
    scalar_equal (mkScalar b t k1 a1 un) s = scalar_equal (mkScalar b t k2 a2 un) s /\
    scalar_equal s (mkScalar b t k1 a1 un) = scalar_equal s (mkScalar b t k2 a2 un).
Proof. intros. split; reflexivity. Qed.
Print Assumptions C31_ignores_key_and_alnum_flags.

(** On values the unescaped flag does not matter either. *)
Theorem C31_ignores_unescaped_flag :
  forall b k a s, readable (mkScalar b TStr k a true) -> readable s ->
    scalar_equal (mkScalar b TStr k a true) s = scalar_equal (mkScalar b TStr k a false) s.
Proof.
  intros b k a s R RS. destruct (sc_type s) eqn:T;
    try (unfold scalar_equal; cbn [sc_type]; rewrite T; reflexivity).
  unfold readable in R, RS. rewrite T in RS. cbn [sc_type sc_bytes sc_unesc] in R.
  destruct R as [c [u [E [D U]]]], RS as [c' [u' [E' [D' U']]]].
  destruct (string_result (mkScalar b TStr k a true) s c u c' u') as [b1 [-> B1]]; auto.
  destruct (string_result (mkScalar b TStr k a false) s c u c' u') as [b2 [-> B2]]; auto.
  f_equal. destruct b1, b2; auto.
  - exfalso. pose proof (proj2 B2 (proj1 B1 eq_refl)). discriminate.
  - exfalso. pose proof (proj2 B1 (proj1 B2 eq_refl)). discriminate.
Qed.
Print Assumptions C31_ignores_unescaped_flag.

(** Numbers: the same number in two spellings (1, 1.0, 10e-1, -0) is equal,
    unless it is out of the range of float64 (see below). *)
Lemma go_number_value : forall l neg m e, num_value l neg m e ->
  go_number l = float_of_decimal (mkDec neg m e).
Proof.
  intros l neg m e V. unfold go_number. rewrite <- (app_nil_r l).
  rewrite (scan_number_ok l neg m e [] V); [reflexivity|]. intros b r E. discriminate.
Qed.

Theorem C31_same_numbers_are_equal :
  forall s t n1 m1 e1 n2 m2 e2,
    sc_type s = TNum -> sc_type t = TNum ->
    num_value (sc_bytes s) n1 m1 e1 -> num_value (sc_bytes t) n2 m2 e2 ->
    same_number n1 m1 e1 n2 m2 e2 ->
    scalar_equal s t = Ok true \/ (go_number (sc_bytes s) = None /\ go_number (sc_bytes t) = None).
Proof.
  intros s t n1 m1 e1 n2 m2 e2 TS TT V1 V2 S.
  unfold scalar_equal. rewrite TS, TT. cbn [stype_eqb negb]. destruct (bytes_eqb _ _); [now left|].
  unfold literal_numbers_equal. rewrite (go_number_value _ _ _ _ V1), (go_number_value _ _ _ _ V2).
  rewrite (float_of_decimal_same n1 m1 e1 n2 m2 e2);
    [|eapply num_value_nonneg; eauto|eapply num_value_nonneg; eauto|exact S].
  destruct (float_of_decimal _); [|now right]. left. now rewrite (proj2 (float_eqb_eq _ _)).
Qed.
Print Assumptions C31_same_numbers_are_equal.

(** Integers below 2^53 are told apart. *)
Theorem C31_integers_compare_exactly :
  forall s t m1 m2,
    sc_type s = TNum -> sc_type t = TNum ->
    num_value (sc_bytes s) false m1 0 -> num_value (sc_bytes t) false m2 0 ->
    (m1 < 2 ^ 53)%Z -> (m2 < 2 ^ 53)%Z ->
    scalar_equal s t = Ok (Z.eqb m1 m2).
Proof.
  intros s t m1 m2 TS TT V1 V2 L1 L2.
  pose proof (num_value_nonneg _ _ _ _ V1) as P1. pose proof (num_value_nonneg _ _ _ _ V2) as P2.
  pose proof (go_number_value _ _ _ _ V1) as G1. pose proof (go_number_value _ _ _ _ V2) as G2.
  destruct (float_of_int m1 ltac:(lia)) as [x1 F1]. destruct (float_of_int m2 ltac:(lia)) as [x2 F2].
  unfold scalar_equal. rewrite TS, TT. cbn [stype_eqb negb]. destruct (bytes_eqb _ _) eqn:B.
  - apply bytes_eqb_eq in B. f_equal. symmetry. apply Z.eqb_eq.
    apply (float_of_int_inj m1 m2 x1); try lia; [exact F1|]. rewrite <- G2, <- B, G1. exact F1.
  - unfold literal_numbers_equal. rewrite G1, G2, F1, F2. f_equal.
    destruct (Z.eqb_spec m1 m2) as [->|NE].
    + rewrite F1 in F2. injection F2 as ->. now apply float_eqb_eq.
    + destruct (float_eqb x1 x2) eqn:E; [|reflexivity]. apply float_eqb_eq in E. subst.
      exfalso. apply NE. apply (float_of_int_inj m1 m2 x2); auto; lia.
Qed.
Print Assumptions C31_integers_compare_exactly.

Example C31_numbers_example :
  num_value [49; 46; 48]%N false 10 (-1) /\ num_value [49; 48; 101; 45; 49]%N false 10 (-1) /\
  same_number false 10 (-1) false 1 0.
Proof.
  split; [|split; [|reflexivity]].
  - exists [49%N], [46; 48]%N, []. split; [reflexivity|].
    split; [right; exists 49%N, []; repeat split; auto; lia|].
    split; [right; exists [48%N]; repeat split; [discriminate|repeat constructor; unfold digit; lia]|].
    split; [now left|]. exists [48%N], 0%Z. split; [right; reflexivity|]. split; [left; split; reflexivity|]. split; reflexivity.
  - exists [49; 48]%N, [], [101; 45; 49]%N. split; [reflexivity|].
    assert (DG : Forall digit [49%N]) by (repeat constructor; unfold digit; lia).
    split; [right; exists 49%N, [48%N]; repeat split; auto; try lia; repeat constructor; unfold digit; lia|].
    split; [now left|].
    split; [right; exists 101%N, [45%N], [49%N]; repeat split; auto; discriminate|].
    exists [], (-1)%Z. split; [left; split; reflexivity|].
    split; [right; exists 101%N, [45%N], [49%N]; repeat split; auto|]. split; reflexivity.
Qed.

(** Comparing two values does not panic, as long as numbers are in the range of
    float64. *)
Theorem C31_comparison_total_partial :
  forall s t, readable s -> readable t ->
    (sc_type s = TNum -> go_number (sc_bytes s) <> None) ->
    (sc_type t = TNum -> go_number (sc_bytes t) <> None) ->
    exists b, scalar_equal s t = Ok b.
Proof.
  intros s t RS RT NS NT. unfold scalar_equal.
  destruct (stype_eqb _ _) eqn:E; cbn [negb]; [|eauto]. apply stype_eqb_eq in E.
  unfold readable in *. rewrite <- E in *. destruct (sc_type s) eqn:TS.
  - eauto.
  - destruct RS as [->| ->], RT as [->| ->]; eexists; reflexivity.
  - destruct (bytes_eqb _ _); [eauto|]. unfold literal_numbers_equal.
    specialize (NS eq_refl). specialize (NT eq_refl).
    destruct (go_number (sc_bytes s)), (go_number (sc_bytes t)); try congruence. eauto.
  - destruct RS as [c [u [-> [D U]]]], RT as [c' [u' [-> [D' U']]]].
    destruct (bytes_eqb _ _); [eauto|]. destruct (sc_unesc s && sc_unesc t); [eauto|].
    unfold literal_strings_equal. rewrite (go_string_denotes _ _ D), (go_string_denotes _ _ D'). eauto.
Qed.
Print Assumptions C31_comparison_total_partial.

(** Scalars with a value, numbers in the range of float64. *)
Definition decent (s : scalar) : Prop :=
  readable s /\
  (sc_type s = TNum -> exists neg m e, num_value (sc_bytes s) neg m e /\ float_of_decimal (mkDec neg m e) <> None).

Lemma decent_number : forall s, decent s -> sc_type s = TNum -> go_number (sc_bytes s) <> None.
Proof.
  intros s [_ D] T. destruct (D T) as [n [m [e [V F]]]]. now rewrite (go_number_value _ _ _ _ V).
Qed.

(** Equal decides whether two scalars are the same value: null, booleans, strings
    by their characters, numbers by the nearest float64. *)
Theorem C31_equal_by_value :
  forall s t, decent s -> decent t ->
    exists b, scalar_equal s t = Ok b /\ (b = true <-> same_scalar_value s t).
Proof.
  intros s t DS DT. pose proof (decent_number s DS) as NS. pose proof (decent_number t DT) as NT.
  destruct DS as [RS _], DT as [RT _]. unfold same_scalar_value.
  destruct (stype_eqb (sc_type s) (sc_type t)) eqn:E.
  2:{ exists false. unfold scalar_equal. rewrite E. split; [reflexivity|]. split; [discriminate|].
      intros [T _]. rewrite T in E. destruct (sc_type t); discriminate. }
  pose proof (proj1 (stype_eqb_eq _ _) E) as T. destruct (sc_type s) eqn:TS; symmetry in T.
  - exists true. unfold scalar_equal. rewrite TS, T. split; [reflexivity|]. split; auto.
  - unfold readable in RS, RT. rewrite TS in RS. rewrite T in RT. unfold scalar_equal. rewrite TS, T. cbn [stype_eqb negb].
    destruct RS as [->| ->], RT as [->| ->]; eexists; (split; [reflexivity|]); cbn; (split; [intro X; try discriminate X; auto|intros [_ X]; auto; discriminate]).
  - unfold readable in RS, RT. rewrite TS in RS. rewrite T in RT.
    destruct RS as [n [m [e V]]], RT as [n' [m' [e' V']]]. specialize (NS eq_refl). specialize (NT T).
    unfold scalar_equal. rewrite TS, T. cbn [stype_eqb negb]. destruct (bytes_eqb _ _) eqn:B.
    + exists true. split; [reflexivity|]. split; [|auto]. intros _. split; [auto|]. apply bytes_eqb_eq in B.
      exists n, m, e, n, m, e. rewrite <- B. auto.
    + unfold literal_numbers_equal.
      destruct (go_number (sc_bytes s)) as [x|] eqn:GS; [|congruence].
      destruct (go_number (sc_bytes t)) as [y|] eqn:GT; [|congruence].
      eexists. split; [reflexivity|]. rewrite float_eqb_eq. split.
      * intros ->. split; [auto|]. exists n, m, e, n', m', e'. split; [auto|]. split; [auto|].
        rewrite <- (go_number_value _ _ _ _ V), <- (go_number_value _ _ _ _ V'). congruence.
      * intros [_ [a [b [c [a' [b' [c' [W [W' F]]]]]]]]].
        rewrite <- (go_number_value _ _ _ _ W), <- (go_number_value _ _ _ _ W') in F. congruence.
  - unfold readable in RS, RT. rewrite TS in RS. rewrite T in RT.
    destruct RS as [c [u [BS [D U]]]], RT as [c' [u' [BT [D' U']]]].
    destruct (string_result s t c u c' u') as [b [R B]]; auto. exists b. split; [exact R|]. rewrite B. split.
    + intros ->. split; [auto|]. exists c, c', u'. auto.
    + intros [_ [d [d' [w [X [X' [W W']]]]]]]. rewrite BS in X. rewrite BT in X'.
      injection X as X. injection X' as X'. apply app_inj_tail in X as [<- _]. apply app_inj_tail in X' as [<- _].
      rewrite (denotes_unique _ _ _ D W). now rewrite (denotes_unique _ _ _ D' W').
Qed.
Print Assumptions C31_equal_by_value.

(** ToString is the value of the string, in UTF-8; EqualsString compares with it. *)
Theorem C31_to_string : forall s c u, sc_bytes s = 34%N :: c ++ [34%N] -> denotes c u ->
  (sc_unesc s = true -> ~ In 92%N c) -> to_string s = Ok (flat_map utf8 u).
Proof.
  intros s c u B D U. unfold to_string. rewrite B. destruct (sc_unesc s).
  - destruct (c ++ [34%N]) as [|y r] eqn:E; [destruct c; discriminate|]. rewrite <- E, removelast_last. f_equal. now apply unescaped_utf8; auto.
  - now rewrite (go_string_denotes c u D).
Qed.
Print Assumptions C31_to_string.
Theorem C31_equals_string : forall s str, readable s ->
  exists b, equals_string s str = Ok b /\
    (b = true <-> sc_type s = TStr /\ exists c u, sc_bytes s = 34%N :: c ++ [34%N] /\ denotes c u /\ str = flat_map utf8 u).
Proof.
  intros s str R. unfold equals_string. destruct (sc_type s) eqn:T;
    try (exists false; split; [reflexivity|]; split; [discriminate|intros [X _]; discriminate]).
  unfold readable in R. rewrite T in R. destruct R as [c [u [B [D U]]]]. rewrite (C31_to_string s c u B D U). cbn [bind].
  eexists. split; [reflexivity|]. rewrite bytes_eqb_eq. split.
  - intros <-. split; [auto|]. exists c, u. auto.
  - intros [_ [c' [u' [B' [D' ->]]]]]. rewrite B in B'. injection B' as X. apply app_inj_tail in X as [<- _].
    now rewrite (denotes_unique _ _ _ D D').
Qed.
Print Assumptions C31_equals_string.

(** Beyond these limits Equal panics, or is not transitive. *)

(** 1e400 and 1, both valid JSON numbers: panic. *)
Theorem C31_out_of_range_refuted :
  readable (new_scalar TNum [49; 101; 52; 48; 48]%N) /\ readable (new_scalar TNum [49%N]) /\
  scalar_equal (new_scalar TNum [49; 101; 52; 48; 48]%N) (new_scalar TNum [49%N]) = Panic.
Proof.
  split; [|split].
  - apply number_has_value. exists [], [49%N], [], [101; 52; 48; 48]%N.
    repeat split; auto.
    + right. exists 49%N, []. repeat split; auto; lia.
    + now left.
    + right. exists 101%N, [], [52; 48; 48]%N. repeat split; auto; [discriminate|].
      repeat constructor; unfold digit; lia.
  - apply number_has_value. exists [], [49%N], [], []. repeat split; auto; try (now left).
    right. exists 49%N, []. repeat split; auto; lia.
  - vm_compute. reflexivity.
Qed.
Print Assumptions C31_out_of_range_refuted.

(** "\x", which the decoder accepts, and "a": panic. *)
Theorem C31_liberal_escape_refuted :
  literal false (string_scalar [92; 120]%N) /\ literal true (string_scalar [97%N]) /\
  scalar_equal (string_scalar [92; 120]%N) (string_scalar [97%N]) = Panic.
Proof.
  split; [|split; [|vm_compute; reflexivity]].
  - right. right. exists [92; 120]%N. split; [|auto]. apply ch_any; try discriminate; [reflexivity|constructor].
  - right. right. exists [97%N]. split; [|auto]. apply ch_plain; [unfold plain_byte; lia|constructor].
Qed.
Print Assumptions C31_liberal_escape_refuted.

(** Strings that are not UTF-8 (the decoder accepts them): the single bytes 0xC0
    and 0xC1 are both equal to "�" but not to each other. *)
Theorem C31_transitivity_refuted :
  let a := string_scalar [192%N] in
  let b := string_scalar [92; 117; 102; 102; 102; 100]%N in
  let c := string_scalar [193%N] in
  literal true a /\ literal true b /\ literal true c /\
  scalar_equal a b = Ok true /\ scalar_equal b c = Ok true /\ scalar_equal a c = Ok false.
Proof.
  cbv zeta. repeat split; try (vm_compute; reflexivity); right; right; eexists; (split; [|now left]).
  - apply ch_plain; [unfold plain_byte; lia|constructor].
  - apply ch_u; try (unfold hex; lia). constructor.
  - apply ch_plain; [unfold plain_byte; lia|constructor].
Qed.
Print Assumptions C31_transitivity_refuted.

(** Large integers: 2^53 and 2^53 + 1 are equal. *)
Theorem C31_large_integers_refuted :
  scalar_equal (new_scalar TNum [57;48;48;55;49;57;57;50;53;52;55;52;48;57;57;50]%N)
               (new_scalar TNum [57;48;48;55;49;57;57;50;53;52;55;52;48;57;57;51]%N) = Ok true.
Proof. vm_compute. reflexivity. Qed.
Print Assumptions C31_large_integers_refuted.

(** Comparisons and functions on values. *)
From Coq Require Import List ZArith NArith Arith Bool Lia.
From Verif Require Import Base Tokens JsonSpec GoLiteral ScalarModel EqualProofs JpvEncModel JpvEncProofs IterModel IterSpec P_Scalar P_Equal SelectModel
  ScalarSpec EqualSpec ScalarProofs PathModel PathAbs PathComp PathFun PathMain PathAst PathSpec PathTame PathSel.

Lemma float_ltb_iff : forall a b, float_ltb a b = true <-> float_less a b.
Proof.
  intros [sa [ma ka]] [sb [mb kb]]. unfold float_ltb, float_less. rewrite Z.ltb_lt. split.
  - intro H. exists (Z.min ka kb). split; [lia|]. split; [lia|exact H].
  - intros [k [A [B H]]]. set (m := Z.min ka kb) in *.
    replace (ka - k)%Z with ((ka - m) + (m - k))%Z in H by lia. replace (kb - k)%Z with ((kb - m) + (m - k))%Z in H by lia.
    rewrite !Z.pow_add_r in H by lia. assert (P : (0 < 2 ^ (m - k))%Z) by (apply Z.pow_pos_nonneg; lia).
    set (x := (2 ^ (ka - m))%Z) in *. set (y := (2 ^ (kb - m))%Z) in *. set (z := (2 ^ (m - k))%Z) in *. clearbody x y z. destruct sa, sb; nia.
Qed.

Lemma bytes_ltb_app : forall p a b, bytes_ltb (p ++ a) (p ++ b) = bytes_ltb a b.
Proof. induction p as [|x p IH]; intros a b; [reflexivity|]. cbn [app bytes_ltb]. now rewrite N.ltb_irrefl, N.eqb_refl, IH. Qed.
Lemma bytes_ltb_asym : forall a b, bytes_ltb a b = true -> bytes_ltb b a = false.
Proof.
  induction a as [|x a IH]; intros [|y b] H; try reflexivity; try discriminate. cbn [bytes_ltb] in *.
  destruct (N.ltb_spec x y).
  - destruct (N.ltb_spec y x), (N.eqb_spec y x); try lia; reflexivity.
  - cbn [orb] in H. apply andb_true_iff in H as [E H]. apply N.eqb_eq in E. subst y. rewrite N.ltb_irrefl, N.eqb_refl. now apply IH.
Qed.
Lemma utf8_less : forall c d l l', unicode c -> unicode d -> (c < d)%N -> bytes_ltb (utf8 c ++ l) (utf8 d ++ l') = true.
Proof.
  intros c d l l' U U' L.
  destruct (utf8_cases c U) as [[A K]|[[A [a [b [K H]]]]|[[A [a [b [e [K H]]]]]|[A [a [b [e [f [K H]]]]]]]]];
  destruct (utf8_cases d U') as [[A' K']|[[A' [a' [b' [K' H']]]]|[[A' [a' [b' [e' [K' H']]]]]|[A' [a' [b' [e' [f' [K' H']]]]]]]]];
  rewrite K, K'; cbn [app bytes_ltb]; try lia;
  repeat match goal with |- ((?x <? ?y) || (?x =? ?y) && _)%N = true => destruct (N.ltb_spec x y); [reflexivity|]; destruct (N.eqb_spec x y); [|exfalso; lia]; cbn [orb andb] end; exfalso; lia.
Qed.
Lemma bytes_chars : forall u v, Forall unicode u -> Forall unicode v -> (bytes_ltb (flat_map utf8 u) (flat_map utf8 v) = true <-> chars_less u v).
Proof.
  induction u as [|c u IH]; intros v U V.
  - cbn [flat_map]. destruct v as [|d v]; cbn [flat_map].
    + split; [discriminate|intro H; inversion H].
    + destruct (utf8 d) eqn:E; [now apply utf8_nonempty in E|]. cbn. split; [constructor|reflexivity].
  - inversion U as [|? ? UC UU]; subst. destruct v as [|d v]; cbn [flat_map].
    + destruct (utf8 c) eqn:E; [now apply utf8_nonempty in E|]. cbn. split; [discriminate|intro H; inversion H].
    + inversion V as [|? ? VC VV]; subst. destruct (N.lt_trichotomy c d) as [L|[->|L]].
      * rewrite utf8_less by auto. split; [now constructor|reflexivity].
      * rewrite bytes_ltb_app, IH by auto. split; [now constructor|]. intro H. inversion H; subst; [lia|assumption].
      * rewrite (bytes_ltb_asym _ _ (utf8_less d c (flat_map utf8 v) (flat_map utf8 u) VC UC L)). split; [discriminate|]. intro H. inversion H; subst; lia.
Qed.

Lemma rune_count_utf8 : forall u f, Forall unicode u -> length (flat_map utf8 u) <= f -> rune_count f (flat_map utf8 u) = N.of_nat (length u).
Proof.
  induction u as [|c u IH]; intros f U L; [now destruct f|]. inversion U as [|? ? UC UU]; subst. cbn [flat_map] in *. rewrite app_length in L.
  assert (NE := utf8_nonempty c). assert (RL := rune_len_utf8 c (flat_map utf8 u) UC). 
  destruct (utf8_cases c UC) as [[A K]|H].
  - rewrite K in *. cbn [app length] in *. destruct f as [|f]; [lia|]. cbn [rune_count]. rewrite (proj2 (N.ltb_lt _ _) A). cbn [skipn]. rewrite IH by (auto; lia). lia.
  - assert (B : (128 <= c)%N) by (destruct H as [[? _]|[[? _]|[? _]]]; lia). specialize (RL B).
    destruct (utf8 c) as [|b r] eqn:K; [contradiction|]. cbn [app length] in *. destruct f as [|f]; [lia|]. cbn [rune_count].
    assert (BG : (128 <= b)%N).
    { destruct H as [[_ [x [y [E H]]]]|[[_ [x [y [z [E H]]]]]|[_ [x [y [z [w [E H]]]]]]]]; injection E as -> _; lia. }
    rewrite (proj2 (N.ltb_ge _ _) BG), RL. cbn [skipn]. rewrite skipn_app, skipn_all, Nat.sub_diag. cbn [skipn app]. rewrite IH by (auto; lia). lia.
Qed.

Lemma int_decent : forall n, (Z.of_N n < 2 ^ 53)%Z -> decent (int_scalar n).
Proof.
  intros n L. destruct (itoa_ok n) as [T V].
  assert (NV : num_value (itoa n) false (Z.of_N n) 0).
  { exists (itoa n), [], []. split; [now rewrite !app_nil_r|]. split; [exact T|]. split; [now left|]. split; [now left|]. exists [], 0%Z. split; [now left|]. split; [now left|]. cbn [app length]. split; [now rewrite app_nil_r|reflexivity]. }
  split; cbn [int_scalar new_scalar sc_type sc_bytes readable].
  - unfold readable. cbn. eauto.
  - intros _. exists false, (Z.of_N n), 0%Z. split; [exact NV|]. destruct (float_of_int (Z.of_N n) ltac:(lia)) as [x ->]. discriminate.
Qed.
Lemma count_number : forall l, count_of l = number (length l).
Proof. reflexivity. Qed.

(** Values of comparable expressions. *)
Definition good_value (o : option jval) : Prop := match o with Some y => clean y | None => True end.
Lemma clean_scalar : forall s, clean (JScalar s) -> decent s.
Proof. intros s [C _]. now inversion C. Qed.
Lemma scalar_clean : forall s, decent s -> clean (JScalar s).
Proof.
  intros s D. split; [now constructor|]. split; [|cbn; lia]. intros l e m [J|[]]. discriminate.
Qed.

Lemma oeq_iff : forall a b, good_value a -> good_value b -> (oeq a b = true <-> equal_values a b).
Proof.
  intros [x|] [y|] A B; cbn [oeq equal_values]; try (split; [discriminate|tauto]); [|tauto].
  unfold jeq. destruct (peq_decides (S (size x)) x y) as [b [E H]]; [lia|apply A|apply B|]. now rewrite E.
Qed.
Lemma good_eq_fine : forall a b, good_value a -> good_value b -> eq_fine a b.
Proof. intros [x|] [y|] A B; cbn; auto. split; [apply A|apply B]. Qed.

Lemma scalar_less_iff : forall s t, decent s -> decent t -> exists b, scalar_less s t = Ok b /\ (b = true <-> less_values (Some (JScalar s)) (Some (JScalar t))).
Proof.
  intros s t D D'. unfold scalar_less. cbn [less_values].
  destruct (stype_eqb (sc_type s) (sc_type t)) eqn:E; cbn [negb].
  2:{ exists false. split; [reflexivity|]. split; [discriminate|]. intros [[A [B _]]|[u [v [[A _] [[B _] _]]]]]; rewrite A, B in E; discriminate. }
  apply stype_eqb_eq in E. destruct (sc_type s) eqn:T; symmetry in E.
  1,2: exists false; (split; [reflexivity|]); (split; [discriminate|]); intros [[A [B _]]|[u [v [[A _] [[B _] _]]]]]; congruence.
  - pose proof (decent_number s D T) as NS. pose proof (decent_number t D' E) as NT.
    destruct (go_number (sc_bytes s)) as [f|] eqn:F; [|congruence]. destruct (go_number (sc_bytes t)) as [g|] eqn:G; [|congruence].
    eexists. split; [reflexivity|]. rewrite float_ltb_iff. split.
    + intro L. left. split; [reflexivity|]. split; [exact E|].
      destruct D as [_ D], D' as [_ D']. destruct (D T) as [n [m [e [V _]]]]. destruct (D' E) as [n' [m' [e' [V' _]]]].
      exists n, m, e, n', m', e', f, g. rewrite <- (go_number_value _ _ _ _ V), <- (go_number_value _ _ _ _ V'). auto.
    + intros [[_ [_ (n & m & e & n' & m' & e' & f' & g' & V & V' & F' & G' & L)]]|[u [v [[A _] _]]]]; [|congruence].
      rewrite <- (go_number_value _ _ _ _ V) in F'. rewrite <- (go_number_value _ _ _ _ V') in G'. congruence.
  - destruct (string_characters s D T) as [u [C [_ U]]]. destruct (string_characters t D' E) as [v [C' [_ V]]].
    assert (GS : forall r w, characters r w -> go_string (sc_bytes r) = Some (flat_map utf8 w)).
    { intros r w [_ [c [-> DN]]]. now apply go_string_denotes. }
    rewrite (GS _ _ C), (GS _ _ C'). eexists. split; [reflexivity|]. rewrite bytes_chars by auto. split.
    + intro L. right. exists u, v. auto.
    + intros [[A _]|[u' [v' [A [B L]]]]]; [congruence|]. now rewrite (characters_unique _ _ _ C A), (characters_unique _ _ _ C' B).
Qed.
Lemma oless_iff : forall a b, good_value a -> good_value b -> (oless a b = true <-> less_values a b).
Proof.
  intros [[s|l e|l e]|] [[t|l' e'|l' e']|] A B; cbn [oless]; try (split; [discriminate|cbn; tauto]).
  destruct (scalar_less_iff s t (clean_scalar _ A) (clean_scalar _ B)) as [b [-> H]]. exact H.
Qed.
Lemma good_less_fine : forall a b, good_value a -> good_value b -> less_fine a b.
Proof.
  intros [[s|l e|l e]|] [[t|l' e'|l' e']|] A B; cbn; auto.
  destruct (scalar_less_iff s t (clean_scalar _ A) (clean_scalar _ B)) as [b [-> H]]. eauto.
Qed.

Lemma good_text_fine : forall a, good_value a -> text_fine a.
Proof.
  intros [[s|l e|l e]|] A; cbn; auto. intro T. destruct (string_characters s (clean_scalar _ A) T) as [u [_ [E _]]]. eauto.
Qed.

Lemma length_iff : forall a o, good_value a -> (forall l e, a = Some (JObj l e) -> l = []) -> (length_value a o <-> o = length_of a).
Proof.
  intros [[s|l e|l e]|] o A NO; cbn [length_of length_value]; try reflexivity; [|now rewrite (NO l e eq_refl)].
  pose proof (clean_scalar _ A) as D. destruct (sc_type s) eqn:T.
  1-3: split; [intros [[u [[C _] _]]|[_ E]]; [congruence|exact E]|intros ->; right; split; congruence].
  destruct (string_characters s D T) as [u [C [E U]]]. rewrite E, rune_count_utf8 by auto. split.
  - intros [[v [C' ->]]|[N _]]; [|congruence]. now rewrite (characters_unique _ _ _ C C').
  - intros ->. left. exists u. auto.
Qed.
Lemma length_good : forall a, good_value a -> (forall s u, a = Some (JScalar s) -> characters s u -> (Z.of_nat (length u) < 2 ^ 53)%Z) -> good_value (length_of a).
Proof.
  intros [[s|l e|l e]|] A L; cbn [length_of good_value]; auto.
  - destruct (sc_type s) eqn:T; [exact I|exact I|exact I|]. destruct (string_characters s (clean_scalar _ A) T) as [u [C [E U]]]. rewrite E, rune_count_utf8 by auto.
    cbn. apply scalar_clean, int_decent. specialize (L s u eq_refl C). lia.
  - cbn. apply scalar_clean, int_decent. pose proof (clean_length _ A) as B. cbn [children] in B. lia.
  - apply scalar_clean, int_decent. cbn. lia.
Qed.
Lemma count_good : forall l, (Z.of_nat (length l) < 2 ^ 53)%Z -> clean (count_of l).
Proof. intros l L. apply scalar_clean, int_decent. lia. Qed.

(** Regular expressions. *)
Section Match.
  Variable find : bytes -> bytes -> option (nat * nat).
  Lemma text_cases : forall a, good_value a ->
    (exists s t, a = Some (JScalar s) /\ sc_type s = TStr /\ text_of a t /\ go_string (sc_bytes s) = Some t /\ to_string s = Ok t) \/
    ((forall t, ~ text_of a t) /\ match a with Some (JScalar s) => sc_type s <> TStr | _ => True end).
  Proof.
    intros [[s|l e|l e]|] A; cbn [text_of]; try (right; split; [tauto|exact I]).
    destruct (sc_type s) eqn:T; try (right; split; [intros t [u [[C _] _]]; congruence|congruence]).
    destruct (string_characters s (clean_scalar _ A) T) as [u [C [E U]]]. left. exists s, (flat_map utf8 u). split; [reflexivity|]. split; [exact T|]. split; [exists u; auto|].
    split; [|exact E]. destruct C as [_ [c [-> D]]]. now apply go_string_denotes.
  Qed.
  Lemma text_unique : forall a t t', text_of a t -> text_of a t' -> t = t'.
  Proof. intros [[s|l e|l e]|] t t'; cbn; try tauto. intros [u [C ->]] [v [C' ->]]. now rewrite (characters_unique _ _ _ C C'). Qed.
  Lemma located_eq : forall a b, good_value a -> good_value b -> exists r, match_index find (as_arg a) (as_arg b) = Ok r /\
    ((exists t p, text_of a t /\ text_of b p /\ r = match find p t with Some (i, j) => Some (i, (Z.of_nat j - Z.of_nat (length t))%Z) | None => None end) \/
     ((forall t p, text_of a t -> text_of b p -> False) /\ r = None)).
  Proof.
    intros a b A B. destruct (text_cases a A) as [(s & t & -> & T & X & G & E)|[NA SA]].
    - destruct (text_cases b B) as [(s' & p & -> & T' & X' & G' & E')|[NB SB]].
      + cbn [as_arg match_index]. rewrite T, T', G'. unfold to_string in E.
        assert (F : (if sc_unesc s then match sc_bytes s with _ :: ((_ :: _) as r) => Ok (removelast r) | _ => Panic end else match go_string (sc_bytes s) with Some x => Ok x | None => Panic end) = Ok t).
        { destruct (sc_unesc s); [|now rewrite G]. destruct (sc_bytes s) as [|x [|y r]]; exact E. }
        rewrite F. cbn [bind]. eexists. split; [reflexivity|]. left. exists t, p. auto.
      + exists None. split; [|right; split; [intros ? ? _ Y; exact (NB _ Y)|reflexivity]]. destruct b as [[s'|l e|l e]|]; cbn [as_arg match_index]; try reflexivity.
        rewrite T. destruct (sc_type s'); congruence.
    - exists None. split; [|right; split; [intros ? ? Y; exact (fun _ => NA _ Y)|reflexivity]]. destruct a as [[s|l e|l e]|]; cbn [as_arg match_index]; try reflexivity.
      destruct (as_arg b) as [[[s'|c|c]|]| |]; try reflexivity. destruct (sc_type s); congruence.
  Qed.
End Match.

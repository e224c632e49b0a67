(** C73: Go values and scalars. *)
From Coq Require Import List ZArith NArith Bool Lia ZifyN ZifyBool.
From Verif Require Import Base Tokens GoLiteral ScalarModel JsonSpec ScalarSpec EqualSpec ScalarProofs P_Scalar JpvEncModel JpvEncProofs GrammarModel GrammarLits
  GoValueModel GoValueSpec.
Import ListNotations.
Local Open Scope N_scope.
Ltac Zify.zify_post_hook ::= Z.to_euclidean_division_equations.

(** The characters DecodeRune finds are characters. *)
Ltac unbetween := unfold cont, between in *; repeat rewrite ?andb_true_iff, ?orb_true_iff, ?N.leb_le, ?N.eqb_eq in *.
Lemma rune_len_char : forall s k, rune_len s = S k -> exists c, unicode c /\ 128 <= c /\ firstn (S k) s = utf8 c.
Proof.
  intros s k H. destruct s as [|a [|b r]]; try discriminate. cbn [rune_len] in H.
  destruct (between 194 223 a && cont b) eqn:E2.
  { injection H as <-. unbetween. exists ((a - 192) * 64 + (b - 128)). split; [left; lia|]. split; [lia|]. cbn [firstn]. unfold utf8.
    destruct (N.ltb_spec ((a - 192) * 64 + (b - 128)) 128); [lia|]. destruct (N.ltb_spec ((a - 192) * 64 + (b - 128)) 2048); [|lia]. f_equal; [lia|]. f_equal. lia. }
  destruct r as [|d r]; [discriminate|]. match type of H with (if ?x then _ else _) = _ => destruct x eqn:E3 end.
  { injection H as <-. unbetween. set (c := (a - 224) * 4096 + (b - 128) * 64 + (d - 128)).
    assert (R : 224 <= a <= 239 /\ 128 <= b <= 191 /\ 128 <= d <= 191 /\ (a = 224 -> 160 <= b) /\ (a = 237 -> b <= 159)) by lia. clear E2 E3.
    assert (CR : 2048 <= c < 65536) by (subst c; lia). exists c. split; [unfold unicode; subst c; lia|]. split; [lia|]. cbn [firstn]. unfold utf8.
    destruct (N.ltb_spec c 128); [lia|]. destruct (N.ltb_spec c 2048); [lia|]. destruct (N.ltb_spec c 65536); [|lia]. subst c.
    f_equal; [lia|]. f_equal; [lia|]. f_equal. lia. }
  destruct r as [|e r]; [discriminate|]. match type of H with (if ?x then _ else _) = _ => destruct x eqn:E4 end; [|discriminate].
  injection H as <-. unbetween. set (c := (a - 240) * 262144 + (b - 128) * 4096 + (d - 128) * 64 + (e - 128)).
  assert (R : 240 <= a <= 244 /\ 128 <= b <= 191 /\ 128 <= d <= 191 /\ 128 <= e <= 191 /\ (a = 240 -> 144 <= b) /\ (a = 244 -> b <= 143)) by lia. clear E2 E3 E4.
  assert (CR : 65536 <= c < 1114112) by (subst c; lia). exists c. split; [unfold unicode; lia|]. split; [lia|]. cbn [firstn]. unfold utf8.
  destruct (N.ltb_spec c 128); [lia|]. destruct (N.ltb_spec c 2048); [lia|]. destruct (N.ltb_spec c 65536); [lia|]. subst c.
  f_equal; [lia|]. f_equal; [lia|]. f_equal; [lia|]. f_equal. lia.
Qed.
Lemma rune_len_bound : forall s, (rune_len s <= length s)%nat.
Proof. intros [|a [|b [|d [|e r]]]]; cbn [rune_len length]; repeat match goal with |- context [if ?x then _ else _] => destruct x end; lia. Qed.

(** Every string has one list of characters. *)
Lemma characters_total : forall s, exists u, characters_of s u.
Proof.
  intro s. remember (length s) as n eqn:L. revert s L. induction n as [n IH] using lt_wf_ind. intros s L. destruct s as [|b r]; [exists []; constructor|].
  destruct (N.ltb_spec b 128) as [B|B].
  - destruct (IH (length r) ltac:(rewrite L; cbn; lia) r eq_refl) as [u H]. exists (b :: u). assert (E : utf8 b = [b]) by (unfold utf8; apply N.ltb_lt in B; now rewrite B).
    change (b :: r) with ([b] ++ r). rewrite <- E. constructor; [left; lia|exact H].
  - destruct (rune_len (b :: r)) as [|k] eqn:R.
    + destruct (IH (length r) ltac:(rewrite L; cbn; lia) r eq_refl) as [u H]. exists (65533 :: u). constructor; [|exact H]. intros c l' U E.
      assert (C : 128 <= c).
      { destruct (N.ltb_spec c 128) as [C|C]; [|lia]. unfold utf8 in E. apply N.ltb_lt in C as C'. rewrite C' in E. injection E as -> _. lia. }
      rewrite E, rune_len_utf8 in R by assumption. destruct (utf8 c) eqn:K; [exact (utf8_nonempty c K)|discriminate].
    + destruct (rune_len_char _ _ R) as (c & U & C & F). pose proof (firstn_skipn (S k) (b :: r)) as FS. rewrite F in FS.
      destruct (IH (length (skipn (S k) (b :: r))) ltac:(rewrite L, skipn_length; cbn; lia) _ eq_refl) as [u H]. exists (c :: u). rewrite <- FS. now constructor.
Qed.
Lemma characters_unicode : forall s u, characters_of s u -> Forall unicode u.
Proof. intros s u H. induction H; constructor; auto. right. lia. Qed.
Lemma characters_unique : forall s u, characters_of s u -> forall u', characters_of s u' -> u = u'.
Proof.
  intros s u H. induction H as [|c l u U H IH|b l u NC H IH]; intros u' H'.
  - inversion H' as [|c l u U H E|]; [reflexivity|]. destruct (utf8 c) eqn:K; [now apply utf8_nonempty in K|discriminate].
  - inversion H' as [E|c' l' u'' U' H2 E|b' l' u'' NC' H2 E].
    + destruct (utf8 c) eqn:K; [now apply utf8_nonempty in K|discriminate].
    + apply utf8_prefix in E as [-> ->]; [|assumption|assumption]. f_equal. now apply IH.
    + exfalso. eapply NC'; eauto.
  - inversion H' as [E|c' l' u'' U' H2 E|b' l' u'' NC' H2 E].
    + exfalso. eapply NC; [exact U'|]. symmetry. exact E.
    + f_equal. now apply IH.
Qed.

(** What StringScalar writes. *)
Lemma encode_rune_ok : forall c l u, unicode c -> 128 <= c -> denotes l u -> denotes (encode_rune (utf8 c) ++ l) (c :: u).
Proof.
  intros c l u U C D. destruct (N.eq_dec c 8232) as [->|N1].
  { apply (dn_hex 50 48 50 56); [|exact U|exact D]. exists 2, 0, 2, 8. unfold hex_digit. repeat split; lia. }
  destruct (N.eq_dec c 8233) as [->|N2].
  { apply (dn_hex 50 48 50 57); [|exact U|exact D]. exists 2, 0, 2, 9. unfold hex_digit. repeat split; lia. }
  replace (encode_rune (utf8 c)) with (utf8 c); [apply dn_char; [exact U|lia|lia|lia|exact D]|].
  destruct (utf8_cases c U) as [[A _]|[[_ (a & b & -> & _)]|[[_ (a & b & d & -> & H)]|[_ (a & b & d & e & -> & _)]]]]; [lia| | |].
  - unfold encode_rune. destruct a as [|a]; [reflexivity|]. do 8 (destruct a as [a|a|]; try reflexivity). destruct b as [|b]; [reflexivity|]. do 8 (destruct b as [b|b|]; try reflexivity).
  - destruct (N.eq_dec a 226) as [->|NA]; [destruct (N.eq_dec b 128) as [->|NB]|].
    + cbn [encode_rune]. destruct ((d =? 168) || (d =? 169)) eqn:E; [|reflexivity]. exfalso. apply orb_true_iff in E. rewrite !N.eqb_eq in E. lia.
    + unfold encode_rune. destruct b as [|b]; [reflexivity|]. do 8 (destruct b as [b|b|]; try reflexivity). congruence.
    + unfold encode_rune. destruct a as [|a]; [reflexivity|]. do 8 (destruct a as [a|a|]; try reflexivity). congruence.
  - unfold encode_rune. destruct a as [|a]; [reflexivity|]. do 8 (destruct a as [a|a|]; try reflexivity). destruct b as [|b]; [reflexivity|]. do 8 (destruct b as [b|b|]; try reflexivity).
Qed.
Lemma encode_bytes_ok : forall s u, characters_of s u -> forall n, (length s <= n)%nat -> denotes (encode_bytes n s) u.
Proof.
  intros s u H. induction H as [|c l u U H IH|b l u NC H IH]; intros n L; [destruct n; constructor| |].
  - destruct (N.ltb_spec c 128) as [C|C].
    + assert (E : utf8 c = [c]) by (unfold utf8; apply N.ltb_lt in C; now rewrite C). rewrite E in *. cbn [app length] in *. destruct n as [|n]; [lia|]. cbn [encode_bytes].
      apply N.ltb_lt in C as C'. rewrite C'. apply encode_char_ok; [exact C|]. apply IH. lia.
    + pose proof (rune_len_utf8 c l U C) as R. pose proof (utf8_nonempty c) as NE. rewrite app_length in L.
      assert (F : firstn (length (utf8 c)) (utf8 c ++ l) = utf8 c) by (rewrite firstn_app, Nat.sub_diag, firstn_O, app_nil_r; apply firstn_all).
      assert (S' : skipn (length (utf8 c)) (utf8 c ++ l) = l) by (rewrite skipn_app, Nat.sub_diag, skipn_all; reflexivity).
      assert (HD : exists b r, utf8 c ++ l = b :: r /\ 128 <= b).
      { destruct (utf8_cases c U) as [[A _]|[[_ (a & b & -> & A & _)]|[[_ (a & b & d & -> & A & _)]|[_ (a & b & d & e & -> & A & _)]]]]; [lia| | |]; eexists _, _; (split; [reflexivity|lia]). }
      destruct HD as (b & r & E & B). destruct n as [|n]; [destruct (utf8 c); [congruence|cbn [length] in L; lia]|]. cbn [encode_bytes]. rewrite E in *. 
      destruct (N.ltb_spec b 128); [lia|]. rewrite R. destruct (length (utf8 c)) as [|k] eqn:K; [destruct (utf8 c); [congruence|discriminate]|].
      rewrite F, S'. apply encode_rune_ok; [exact U|exact C|]. apply IH. lia.
  - cbn [length] in L. destruct n as [|n]; [lia|]. cbn [encode_bytes]. destruct (N.ltb_spec b 128) as [B|B].
    + exfalso. apply (NC b l); [left; lia|]. unfold utf8. apply N.ltb_lt in B. now rewrite B.
    + destruct (rune_len (b :: l)) as [|k] eqn:R.
      * apply (dn_hex 102 102 102 100); [exists 15, 15, 15, 13; unfold hex_digit; repeat split; lia|right; lia|]. apply IH. lia.
      * exfalso. destruct (rune_len_char _ _ R) as (c & U & _ & F). apply (NC c (skipn (S k) (b :: l)) U). rewrite <- F. symmetry. apply firstn_skipn.
Qed.

Lemma format_int_value : forall z, num_value (format_int z) (z <? 0)%Z (Z.abs z) 0.
Proof.
  intro z. destruct (itoa_ok (Z.to_N (Z.abs z))) as [IT V]. unfold format_int, num_value. exists (itoa (Z.to_N (Z.abs z))), [], []. rewrite !app_nil_r.
  split; [reflexivity|]. split; [exact IT|]. split; [now left|]. split; [now left|]. exists [], 0%Z. split; [now left|]. split; [now left|]. rewrite app_nil_r. split; [|reflexivity]. rewrite V. lia.
Qed.

(* ------------------------------------------------------------------ *)
(** ToScalar: the scalar of a Go value is the JSON literal of the value; other values
    are refused. *)
Theorem C73_to_scalar : forall float_text (v : go_value),
  match v with
  | GoNil => to_scalar float_text v = Some null_scalar
  | GoBool b => to_scalar float_text v = Some (if b then true_scalar else false_scalar)
  | GoInt z => exists l, to_scalar float_text v = Some (new_scalar TNum l) /\ num_value l (z <? 0)%Z (Z.abs z) 0
  | GoFloat f => to_scalar float_text v = Some (new_scalar TNum (float_text f))
  | GoString s => exists c u, to_scalar float_text v = Some (new_scalar TStr (34 :: c ++ [34])) /\ characters_of s u /\ denotes c u
  | GoOther => to_scalar float_text v = None
  end.
Proof.
  intros ft [|[|]|z|f|s|]; try reflexivity.
  - exists (format_int z). split; [reflexivity|apply format_int_value].
  - destruct (characters_total s) as [u H]. exists (encode_bytes (length s) s), u. split; [reflexivity|]. split; [exact H|]. now apply encode_bytes_ok.
Qed.
Print Assumptions C73_to_scalar.

(** ToGo: the Go value of a scalar is the value of the literal; for numbers the float64
    next to it ([float_of_decimal]), or a panic if there is none. *)
Theorem C73_to_go : forall s, readable s -> (sc_unesc s = true -> sc_type s = TStr) ->
  match sc_type s with
  | TNull => sc_bytes s = null_bytes -> to_go s = Ok GoNil
  | TBool => (sc_bytes s = true_bytes -> to_go s = Ok (GoBool true)) /\ (sc_bytes s = false_bytes -> to_go s = Ok (GoBool false))
  | TNum => exists neg m e, num_value (sc_bytes s) neg m e /\ to_go s = match float_of_decimal (mkDec neg m e) with Some f => Ok (GoFloat f) | None => Panic end
  | TStr => exists c u, sc_bytes s = 34 :: c ++ [34] /\ denotes c u /\ to_go s = Ok (GoString (flat_map utf8 u))
  end.
Proof.
  intros s R UN. unfold readable in R. destruct (sc_type s) eqn:T.
  - intro B. unfold to_go. rewrite B. destruct (sc_unesc s); [specialize (UN eq_refl); discriminate|reflexivity].
  - split; intro B; unfold to_go; rewrite B; (destruct (sc_unesc s); [specialize (UN eq_refl); discriminate|reflexivity]).
  - destruct R as (neg & m & e & V). exists neg, m, e. split; [exact V|]. unfold to_go. destruct (sc_unesc s); [specialize (UN eq_refl); discriminate|].
    pose proof (go_number_value _ _ _ _ V) as G. rewrite <- G. destruct V as (i & f & x & E & IT & _). 
    assert (H : exists b r, sc_bytes s = b :: r /\ (b = 45 \/ digit b)).
    { destruct (int_text_digits i IT) as [D NE]. destruct i as [|d i]; [congruence|]. rewrite E. destruct neg; cbn [app]; eexists _, _; (split; [reflexivity|]); [now left|right; now inversion D]. }
    destruct H as (b & r & EB & HB). unfold parse_literal. rewrite EB.
    destruct (N.eqb_spec b 34) as [->|_]; [exfalso; destruct HB as [HB|HB]; [discriminate|unfold digit in HB; lia]|].
    replace ((b =? 45) || dig b) with true; [reflexivity|]. symmetry. apply orb_true_iff. destruct HB as [->|HB]; [now left|right; now apply dig_digit].
  - destruct R as (c & u & B & D & U). exists c, u. split; [exact B|]. split; [exact D|]. unfold to_go. rewrite B. destruct (sc_unesc s).
    + destruct (c ++ [34]) as [|y r] eqn:E; [destruct c; discriminate|]. rewrite <- E, removelast_last. do 2 f_equal. now apply unescaped_utf8; auto.
    + cbn [app]. unfold parse_literal. rewrite N.eqb_refl. change (34 :: c ++ [34]) with (34 :: (c ++ [34])). now rewrite (go_string_denotes c u D).
Qed.
Print Assumptions C73_to_go.

(** There and back: nil, truth values and strings in UTF-8 come back as they were,
    integers below 2^53 as the float64 that is the integer; the bytes of other
    strings that belong to no character become U+FFFD; floats come back if FormatFloat
    and ParseFloat are inverse. *)
Theorem C73_round_trip : forall float_text (v : go_value) s, to_scalar float_text v = Some s ->
  match v with
  | GoNil | GoBool _ => to_go s = Ok v
  | GoInt z => (Z.abs z < 2 ^ 53)%Z -> exists f, to_go s = Ok (GoFloat f) /\ float_is f z
  | GoFloat f => (exists neg m e, num_value (float_text f) neg m e /\ float_of_decimal (mkDec neg m e) = Some f) -> to_go s = Ok v
  | GoString b => exists u, characters_of b u /\ to_go s = Ok (GoString (flat_map utf8 u)) /\ (to_go s = Ok v <-> exists w, Forall unicode w /\ b = flat_map utf8 w)
  | GoOther => False
  end.
Proof.
  intros ft [|b|z|f|b|] s E; try discriminate; injection E as <-.
  - reflexivity.
  - destruct b; reflexivity.
  - intro L. pose proof (format_int_value z) as V.
    assert (R : readable (int_scalar_of z)) by (cbn; eauto). pose proof (C73_to_go _ R ltac:(discriminate)) as H. cbn [int_scalar_of new_scalar sc_type] in H.
    destruct H as (neg & m & e & V' & ->). cbn [sc_bytes] in V'. change (sc_bytes (int_scalar_of z)) with (format_int z) in V'.
    rewrite <- (go_number_value _ _ _ _ V'), (go_number_value _ _ _ _ V). unfold float_of_decimal. cbn [d_m d_e d_neg Z.leb Z.compare]. rewrite Z.pow_0_r, Z.mul_1_r.
    destruct (Z.eqb_spec (Z.abs z) 0) as [Z0|NZ].
    + exists float_zero. split; [reflexivity|]. unfold float_is, float_zero. split; lia.
    + destruct (float_round_int (Z.abs z) ltac:(lia)) as (m' & k & -> & M & K & ->). 
      assert (P : (0 < Z.abs z * 2 ^ (- k))%Z) by exact M. destruct (Z.abs z * 2 ^ (- k))%Z as [|q|q] eqn:Q; try lia. eexists. split; [reflexivity|].
      unfold float_is. split; [exact K|]. rewrite <- Q. destruct (Z.ltb_spec z 0); nia.
  - intros (neg & m & e & V & F). pose proof (C73_to_go (new_scalar TNum (ft f))) as H. cbn [new_scalar sc_type sc_bytes sc_unesc readable] in H.
    destruct H as (neg' & m' & e' & V' & ->); [cbn; eauto|discriminate|]. rewrite <- (go_number_value _ _ _ _ V'), (go_number_value _ _ _ _ V), F. reflexivity.
  - destruct (characters_total b) as [u C]. pose proof (encode_bytes_ok b u C (length b) (le_n _)) as D. exists u. split; [exact C|].
    assert (G : to_go (string_scalar_bytes b) = Ok (GoString (flat_map utf8 u))).
    { unfold to_go, string_scalar_bytes. cbn [new_scalar sc_unesc sc_bytes]. unfold parse_literal. rewrite N.eqb_refl. now rewrite (go_string_denotes _ u D). }
    split; [exact G|]. rewrite G. split.
    + intro X. injection X as X. exists u. split; [eapply characters_unicode; eauto|now symmetry].
    + intros (w & W & ->). replace u with w; [reflexivity|]. eapply characters_unique; [|exact C]. clear - W. induction W; cbn [flat_map]; constructor; auto.
Qed.
Print Assumptions C73_round_trip.

(** Not so: that every Go value comes back.  2^53 + 1 becomes 2^53, a byte that is not
    UTF-8 becomes U+FFFD; and ToGo panics on a number out of range. *)
Theorem C73_back_refuted : forall float_text,
  (exists s f, to_scalar float_text (GoInt (2 ^ 53 + 1)) = Some s /\ to_go s = Ok (GoFloat f) /\
     exists s', to_scalar float_text (GoInt (2 ^ 53)) = Some s' /\ to_go s' = Ok (GoFloat f)) /\
  (exists s, to_scalar float_text (GoString [255]) = Some s /\ to_go s = Ok (GoString replacement)) /\
  (exists s, readable s /\ sc_type s = TNum /\ to_go s = Panic).
Proof.
  intro ft. split; [|split].
  - eexists _, _. split; [reflexivity|]. split; [vm_compute; reflexivity|]. eexists. split; [reflexivity|]. vm_compute. reflexivity.
  - eexists. split; [reflexivity|]. vm_compute. reflexivity.
  - exists (new_scalar TNum [49; 101; 52; 48; 48]). split; [|split; [reflexivity|vm_compute; reflexivity]].
    cbn. apply number_has_value. exists [], [49], [], [101; 52; 48; 48]. split; [reflexivity|]. split; [now left|]. split; [right; exists 49, []; repeat split; auto; lia|]. split; [now left|].
    right. exists 101, [], [52; 48; 48]. repeat split; auto; [discriminate|repeat constructor; unfold digit; lia].
Qed.
Print Assumptions C73_back_refuted.

(** "a<é" U+2028 and a stray byte; -7. *)
Example C73_example : forall float_text,
  to_scalar float_text (GoString [97; 60; 195; 169; 226; 128; 168; 200]) =
    Some (new_scalar TStr ([34; 97; 92; 117; 48; 48; 51; 99; 195; 169; 92; 117; 50; 48; 50; 56; 92; 117; 102; 102; 102; 100; 34])) /\
  characters_of [97; 60; 195; 169; 226; 128; 168; 200] [97; 60; 233; 8232; 65533] /\
  to_scalar float_text (GoInt (-7)) = Some (new_scalar TNum [45; 55]) /\
  readable (new_scalar TNum [45; 55]).
Proof.
  intro ft. split; [reflexivity|]. split; [|split; [reflexivity|]].
  - apply (co_char 97); [left; lia|]. apply (co_char 60); [left; lia|]. apply (co_char 233); [left; lia|]. apply (co_char 8232); [left; lia|]. apply co_bad; [|constructor].
    intros c l' U E. destruct (utf8_cases c U) as [[A K]|[[_ (a & b & K & _)]|[[_ (a & b & d & K & _)]|[_ (a & b & d & e & K & _)]]]]; rewrite K in E; try discriminate. injection E as <- _. lia.
  - pose proof (format_int_value (-7)) as V. cbn. eauto.
Qed.

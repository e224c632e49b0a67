(** Integers and strings in queries. *)
From Coq Require Import List ZArith NArith Bool Lia.
From Verif Require Import Base Tokens JsonSpec ScalarSpec ScalarProofs GoLiteral PathAst GrammarModel GrammarSpec.
Local Open Scope N_scope.

(* ------------------------------------------------------------------ *)
Lemma digits_int_value : forall ds, ds <> [] -> Forall digit ds -> digits_int ds = Some (nat_digits 0 ds).
Proof.
  intros ds NE F. unfold digits_int. destruct ds as [|d ds]; [congruence|]. clear NE. set (l := d :: ds) in *.
  assert (FB : forallb (fun d => (48 <=? d) && (d <=? 57)) l = true).
  { apply forallb_forall. intros x I. rewrite Forall_forall in F. apply F in I. destruct I. apply andb_true_iff. now rewrite !N.leb_le. }
  rewrite FB. f_equal. generalize 0%Z. clear FB F. induction l as [|x l IH]; intro a; [reflexivity|]. cbn [fold_left nat_digits]. rewrite IH. f_equal. lia.
Qed.
Lemma nat_digits_pos : forall ds a, Forall digit ds -> (0 <= a)%Z -> (0 <= nat_digits a ds)%Z.
Proof. induction ds as [|d ds IH]; intros a F L; [exact L|]. inversion F as [|? ? D F']; subst. cbn [nat_digits]. apply IH; [exact F'|]. unfold digit in D. lia. Qed.

Lemma parse_int_value : forall t z, int_value t z -> (in_range z /\ parse_int t = Some z) \/ (~ in_range z /\ parse_int t = None).
Proof.
  intros t z V.
  assert (G : go_parse_int t = if (2 ^ 63 <=? z)%Z || (z <? - 2 ^ 63)%Z then None else Some z).
  { destruct V as [[-> ->]|(d & ds & D & F & [[-> ->]|[-> ->]])]; [reflexivity| |].
    - assert (F' : Forall digit (d :: ds)) by (constructor; [unfold digit; lia|exact F]).
      assert (E : match d :: ds with 45 :: r => option_map Z.opp (digits_int r) | 43 :: r => digits_int r | _ => digits_int (d :: ds) end = digits_int (d :: ds)).
      { destruct d as [|p]; [lia|]. do 6 (destruct p as [p|p|]; try reflexivity); lia. }
      unfold go_parse_int. rewrite E, digits_int_value by (exact F' || discriminate). reflexivity.
    - assert (F' : Forall digit (d :: ds)) by (constructor; [unfold digit; lia|exact F]).
      unfold go_parse_int. rewrite digits_int_value by (exact F' || discriminate). reflexivity. }
  unfold parse_int. rewrite G. unfold in_range, max_safe_int, min_safe_int.
  destruct ((2 ^ 63 <=? z)%Z || (z <? - 2 ^ 63)%Z) eqn:A.
  - right. split; [|reflexivity]. apply orb_true_iff in A as [A|A]; [apply Z.leb_le in A|apply Z.ltb_lt in A]; lia.
  - destruct ((9007199254740991 <? z)%Z || (z <? -9007199254740991)%Z) eqn:B.
    + right. split; [|reflexivity]. apply orb_true_iff in B as [B|B]; apply Z.ltb_lt in B; lia.
    + left. split; [|reflexivity]. apply orb_false_iff in B as [B B']. apply Z.ltb_ge in B, B'. lia.
Qed.

(* ------------------------------------------------------------------ *)
(** Single quotes. *)
Lemma unescape_skip : forall b r, b <> 92 -> unescape_single (b :: r) = b :: unescape_single r.
Proof. intros b r N. destruct r as [|c r]; [reflexivity|]. cbn [unescape_single]. apply N.eqb_neq in N. now rewrite N. Qed.
Lemma unescape_slash : forall r, (forall r', r <> 39 :: r') -> unescape_single (92 :: r) = 92 :: unescape_single r.
Proof.
  intros [|c r] N; [reflexivity|]. cbn [unescape_single]. destruct (c =? 39) eqn:E; [|now rewrite andb_false_r].
  apply N.eqb_eq in E. subst. now elim (N r).
Qed.
Lemma unescape_list : forall l r, Forall (fun b => b <> 92) l -> unescape_single (l ++ r) = l ++ unescape_single r.
Proof. intros l r F. induction F as [|b l N F IH]; [reflexivity|]. cbn [app]. now rewrite unescape_skip, IH. Qed.
Lemma escape_list : forall l r, Forall (fun b => b <> 34) l -> escape_double (l ++ r) = l ++ escape_double r.
Proof. intros l r F. induction F as [|b l N F IH]; [reflexivity|]. cbn [app escape_double]. apply N.eqb_neq in N. now rewrite N, IH. Qed.
Lemma utf8_bytes : forall c x, x < 128 -> c <> x -> Forall (fun b => b <> x) (utf8 c).
Proof.
  intros c x L N. unfold utf8. pose proof (N.mod_lt c 64). pose proof (N.mod_lt (c / 64) 64). pose proof (N.mod_lt (c / 4096) 64).
  destruct (c <? 128); [repeat constructor; exact N|].
  destruct (c <? 2048); [repeat constructor; lia|]. destruct (c <? 65536); repeat constructor; lia.
Qed.
Lemma hex_digit_range : forall b v, hex_digit b v -> 48 <= b <= 57 \/ 97 <= b <= 102 \/ 65 <= b <= 70.
Proof. unfold hex_digit. lia. Qed.
Lemma hex_bytes : forall a b c d v x, hex_number a b c d v -> x < 48 \/ x = 92 -> Forall (fun b => b <> x) [a; b; c; d].
Proof.
  intros a b c d v x (p & q & r & s & A & B & C & D & _) X. apply hex_digit_range in A, B, C, D. repeat constructor; lia.
Qed.
Lemma single_start : forall c u, denotes_single c u -> forall r, c <> 39 :: r.
Proof.
  intros c u D r E. destruct D as [|c l u U L1 N1 N2 D|l u D|b v l u LV N D|a b c d v l u HX U D|a b c d v a' b' c' d' v' l u HX HX' V V' D]; try discriminate.
  pose proof (utf8_bytes c 39 ltac:(lia) N1) as F. clear D.
  destruct (utf8 c) as [|x l'] eqn:UE.
  - unfold utf8 in UE. destruct (c <? 128); [discriminate|]. destruct (c <? 2048); [discriminate|]. destruct (c <? 65536); discriminate.
  - cbn [app] in E. injection E as -> _. inversion F. congruence.
Qed.
Lemma letters : forall b v, letter_value b v -> b <> 34 -> b = 92 \/ b = 47 \/ b = 98 \/ b = 102 \/ b = 110 \/ b = 114 \/ b = 116.
Proof. intros b v L N. unfold letter_value in L. cbn [In] in L. repeat destruct L as [L|L]; try (injection L as <- <-; lia); contradiction. Qed.
Definition requoted (c : bytes) : bytes := escape_double (unescape_single c).
Lemma requoted_list : forall l r, Forall (fun b => b <> 92) l -> Forall (fun b => b <> 34) l -> requoted (l ++ r) = l ++ requoted r.
Proof. intros l r F G. unfold requoted. rewrite unescape_list by exact F. now apply escape_list. Qed.
Lemma requoted_slash : forall l r, (forall r', l ++ r <> 39 :: r') -> Forall (fun b => b <> 92) l -> Forall (fun b => b <> 34) l ->
  requoted (92 :: l ++ r) = 92 :: l ++ requoted r.
Proof. intros l r N F G. unfold requoted. rewrite unescape_slash by exact N. cbn [escape_double]. change (92 =? 34) with false. cbv iota. f_equal. now apply (requoted_list l r). Qed.
Lemma requoted_denotes : forall c u, denotes_single c u -> denotes (requoted c) u.
Proof.
  intros c u D. induction D as [|c l u U L1 N1 N2 D IH|l u D IH|b v l u LV N D IH|a b c d v l u HX U D IH|a b c d v a' b' c' d' v' l u HX HX' V V' D IH].
  - constructor.
  - destruct (N.eq_dec c 34) as [->|N3].
    + change (requoted (utf8 34 ++ l)) with (escape_double (unescape_single (34 :: l))). rewrite unescape_skip by lia.
      change (escape_double (34 :: unescape_single l)) with (92 :: 34 :: requoted l). apply dn_letter; [left; reflexivity|exact IH].
    + rewrite requoted_list by (apply utf8_bytes; (exact N2 || exact N3 || lia)). now apply dn_char.
  - change (requoted (92 :: 39 :: l)) with (39 :: requoted l). change (39 :: requoted l) with (utf8 39 ++ requoted l). apply dn_char; [left| | | |exact IH]; lia.
  - pose proof (letters _ _ LV N) as LS.
    assert (E : requoted (92 :: b :: l) = 92 :: b :: requoted l).
    { destruct (N.eq_dec b 92) as [->|NB].
      - unfold requoted. rewrite unescape_slash by (intros r' E; discriminate). rewrite unescape_slash by (eapply single_start; exact D). reflexivity.
      - apply (requoted_slash [b] l); [intros r' E; injection E as -> _; lia|repeat constructor; exact NB|repeat constructor; exact N]. }
    rewrite E. now apply dn_letter.
  - change (92 :: 117 :: a :: b :: c :: d :: l) with (92 :: [117; a; b; c; d] ++ l). rewrite requoted_slash; [|intros r' E; discriminate|constructor; [lia|eapply hex_bytes; [exact HX|lia]]|constructor; [lia|eapply hex_bytes; [exact HX|lia]]].
    apply dn_hex; assumption.
  - change (92 :: 117 :: a :: b :: c :: d :: 92 :: 117 :: a' :: b' :: c' :: d' :: l) with (92 :: [117; a; b; c; d] ++ (92 :: [117; a'; b'; c'; d'] ++ l)).
    rewrite requoted_slash; [|intros r' E; discriminate|constructor; [lia|eapply hex_bytes; [exact HX|lia]]|constructor; [lia|eapply hex_bytes; [exact HX|lia]]].
    rewrite requoted_slash; [|intros r' E; discriminate|constructor; [lia|eapply hex_bytes; [exact HX'|lia]]|constructor; [lia|eapply hex_bytes; [exact HX'|lia]]].
    now apply dn_pair.
Qed.

Lemma string_literal_value : forall s u, string_value s u -> to_string_literal s = Some (flat_map utf8 u).
Proof.
  intros [t|t] u V; destruct V as (c & -> & D); cbn [to_string_literal].
  - unfold parse_double_quoted. now apply go_string_denotes.
  - unfold parse_single_quoted. cbn [tl]. rewrite removelast_last. change (escape_double (unescape_single c)) with (requoted c).
    unfold parse_double_quoted. now apply go_string_denotes, requoted_denotes.
Qed.

(* ------------------------------------------------------------------ *)
(** What json.Encoder writes has the value of the string. *)
Lemma encode_high : forall b r, 128 <= b -> b <> 226 -> encode_string (b :: r) = b :: encode_string r.
Proof.
  intros b r L N. cbn [encode_string]. destruct (b <? 128) eqn:E; [apply N.ltb_lt in E; lia|]. apply N.eqb_neq in N.
  destruct r as [|c [|d r]]; try reflexivity. now rewrite N.
Qed.
Lemma encode_226 : forall c d r, ~ (c = 128 /\ (d = 168 \/ d = 169)) -> encode_string (226 :: c :: d :: r) = 226 :: encode_string (c :: d :: r).
Proof.
  intros c d r N. cbn [encode_string]. change (226 <? 128) with false. cbv iota. change (226 =? 226) with true.
  destruct ((c =? 128) && ((d =? 168) || (d =? 169))) eqn:E; [|cbn [andb]; now rewrite E].
  apply andb_true_iff in E as [E E']. apply orb_true_iff in E'. rewrite !N.eqb_eq in *. tauto.
Qed.
Lemma hex_char_ok : forall d, d < 16 -> hex_digit (hex_char d) d.
Proof. intros d L. unfold hex_digit, hex_char. destruct (d <? 10) eqn:E; [apply N.ltb_lt in E|apply N.ltb_ge in E]; lia. Qed.
Lemma encode_char_ok : forall c l u, c < 128 -> denotes l u -> denotes (encode_char c ++ l) (c :: u).
Proof.
  intros c l u L D. unfold encode_char.
  destruct ((c =? 92) || (c =? 34)) eqn:A. { apply dn_letter; [|exact D]. apply orb_true_iff in A as [A|A]; apply N.eqb_eq in A; subst; unfold letter_value; cbn; tauto. }
  destruct (c =? 8) eqn:B. { apply N.eqb_eq in B. subst. apply dn_letter; [unfold letter_value; cbn; tauto|exact D]. }
  destruct (c =? 12) eqn:B1. { apply N.eqb_eq in B1. subst. apply dn_letter; [unfold letter_value; cbn; tauto|exact D]. }
  destruct (c =? 10) eqn:B2. { apply N.eqb_eq in B2. subst. apply dn_letter; [unfold letter_value; cbn; tauto|exact D]. }
  destruct (c =? 13) eqn:B3. { apply N.eqb_eq in B3. subst. apply dn_letter; [unfold letter_value; cbn; tauto|exact D]. }
  destruct (c =? 9) eqn:B4. { apply N.eqb_eq in B4. subst. apply dn_letter; [unfold letter_value; cbn; tauto|exact D]. }
  apply orb_false_iff in A as [A A']. apply N.eqb_neq in A, A'.
  destruct ((c <? 32) || (c =? 60) || (c =? 62) || (c =? 38)) eqn:C.
  - apply dn_hex; [|left; lia|exact D]. exists 0, 0, (c / 16), (c mod 16).
    assert (c / 16 < 16) by (apply N.div_lt_upper_bound; lia). pose proof (N.mod_lt c 16 ltac:(lia)).
    split; [left; lia|]. split; [left; lia|]. split; [now apply hex_char_ok|]. split; [now apply hex_char_ok|]. pose proof (N.div_mod c 16). lia.
  - rewrite !orb_false_iff in C. destruct C as [[[C _] _] _]. apply N.ltb_ge in C.
    assert (E : utf8 c = [c]) by (unfold utf8; apply N.ltb_lt in L; now rewrite L). rewrite <- E. apply dn_char; [left; lia|exact C|exact A'|exact A|exact D].
Qed.
Lemma encode_denotes : forall u, Forall unicode u -> denotes (encode_string (flat_map utf8 u)) u.
Proof.
  intros u F. induction F as [|c u U F IH]; [constructor|]. cbn [flat_map]. set (rest := flat_map utf8 u) in *.
  destruct (N.ltb_spec c 128) as [L|L].
  - assert (E : utf8 c = [c]) by (unfold utf8; apply N.ltb_lt in L; now rewrite L). rewrite E. cbn [app encode_string].
    apply N.ltb_lt in L as L'. rewrite L'. now apply encode_char_ok.
  - destruct (N.eq_dec c 8232) as [->|N1].
    { change (encode_string (utf8 8232 ++ rest)) with ([92; 117; 50; 48; 50; 56] ++ encode_string rest).
      apply dn_hex; [|exact U|exact IH]. exists 2, 0, 2, 8. unfold hex_digit. repeat split; lia. }
    destruct (N.eq_dec c 8233) as [->|N2].
    { change (encode_string (utf8 8233 ++ rest)) with ([92; 117; 50; 48; 50; 57] ++ encode_string rest).
      apply dn_hex; [|exact U|exact IH]. exists 2, 0, 2, 9. unfold hex_digit. repeat split; lia. }
    assert (E : encode_string (utf8 c ++ rest) = utf8 c ++ encode_string rest).
    { unfold utf8. apply N.ltb_ge in L as L'. rewrite L'. pose proof (N.mod_lt c 64 ltac:(lia)). pose proof (N.mod_lt (c / 64) 64 ltac:(lia)). pose proof (N.mod_lt (c / 4096) 64 ltac:(lia)).
      assert (U' : c < 1114112) by (destruct U; lia).
      destruct (N.ltb_spec c 2048) as [L2|L2].
      - assert (c / 64 < 32) by (apply N.div_lt_upper_bound; lia). cbn [app]. now rewrite !encode_high by lia.
      - destruct (N.ltb_spec c 65536) as [L3|L3].
        + cbn [app]. assert (c / 4096 < 16) by (apply N.div_lt_upper_bound; lia).
          destruct (N.eq_dec (224 + c / 4096) 226) as [E2|E2].
          * rewrite E2. rewrite encode_226.
            -- now rewrite !encode_high by lia.
            -- intros [A B]. assert (c / 4096 = 2) by lia. pose proof (N.div_mod c 64 ltac:(lia)). pose proof (N.div_mod (c / 64) 64 ltac:(lia)) as DM. rewrite N.div_div in DM by lia. change (64 * 64) with 4096 in DM. lia.
          * now rewrite !encode_high by lia.
        + assert (c / 262144 < 5) by (apply N.div_lt_upper_bound; lia). cbn [app]. now rewrite !encode_high by lia. }
    rewrite E. apply dn_char; [exact U|lia|lia|lia|exact IH].
Qed.
Lemma denotes_unicode : forall c u, denotes c u -> Forall unicode u.
Proof.
  intros c u D. induction D as [|c l u U L1 N1 N2 D IH|b v l u LV D IH|a b c d v l u HX U D IH|a b c d v a' b' c' d' v' l u HX HX' V V' D IH]; constructor; auto.
  - unfold letter_value in LV. cbn [In] in LV. left. repeat destruct LV as [LV|LV]; try (injection LV as <- <-; lia); contradiction.
  - right. lia.
Qed.
Lemma string_value_unicode : forall s u, string_value s u -> Forall unicode u.
Proof. intros [t|t] u (c & _ & D); [|apply requoted_denotes in D]; eapply denotes_unicode; exact D. Qed.

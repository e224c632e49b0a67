(** Proofs about literals and Scalar.Equal. *)
From Coq Require Import List ZArith NArith Bool Lia ZifyN ZifyNat.
From Verif Require Import Base Tokens GoLiteral ScalarModel JsonSpec ScalarSpec.
Local Open Scope N_scope.

Ltac Zify.zify_post_hook ::= Z.div_mod_to_equations.

(* ------------------------------------------------------------------ *)
(** UTF-8. *)
Lemma between_true : forall lo hi b, lo <= b -> b <= hi -> between lo hi b = true.
Proof. intros. unfold between. rewrite (proj2 (N.leb_le _ _)), (proj2 (N.leb_le _ _)); auto. Qed.
Lemma between_false : forall lo hi b, b < lo \/ hi < b -> between lo hi b = false.
Proof.
  intros lo hi b H. unfold between. destruct (N.leb_spec lo b), (N.leb_spec b hi); auto; lia.
Qed.
Lemma cont_between : forall b, cont b = between 128 191 b.
Proof. reflexivity. Qed.

Lemma utf8_cases : forall c, unicode c ->
  (c < 128 /\ utf8 c = [c]) \/
  (128 <= c < 2048 /\ exists a b, utf8 c = [a; b] /\ 194 <= a <= 223 /\ 128 <= b <= 191 /\
     c = (a - 192) * 64 + (b - 128)) \/
  (2048 <= c < 65536 /\ exists a b d, utf8 c = [a; b; d] /\ 224 <= a <= 239 /\ 128 <= b <= 191 /\
     128 <= d <= 191 /\ (a = 224 -> 160 <= b) /\ (a = 237 -> b <= 159) /\
     c = (a - 224) * 4096 + (b - 128) * 64 + (d - 128)) \/
  (65536 <= c /\ exists a b d e, utf8 c = [a; b; d; e] /\ 240 <= a <= 244 /\ 128 <= b <= 191 /\
     128 <= d <= 191 /\ 128 <= e <= 191 /\ (a = 240 -> 144 <= b) /\ (a = 244 -> b <= 143) /\
     c = (a - 240) * 262144 + (b - 128) * 4096 + (d - 128) * 64 + (e - 128)).
Proof.
  intros c U. unfold unicode in U. unfold utf8.
  destruct (N.ltb_spec c 128); [left; auto|].
  destruct (N.ltb_spec c 2048).
  { right; left. split; [lia|]. do 2 eexists. split; [reflexivity|]. repeat split; intros; lia. }
  destruct (N.ltb_spec c 65536).
  { right; right; left. split; [lia|]. do 3 eexists. split; [reflexivity|]. repeat split; intros; lia. }
  right; right; right. split; [lia|]. do 4 eexists. split; [reflexivity|]. repeat split; intros; lia.
Qed.

Ltac btw :=
  repeat match goal with
  | |- context [between ?lo ?hi ?b] =>
      first [ rewrite (between_true lo hi b) by lia
            | rewrite (between_false lo hi b) by lia ]
  | |- context [?b =? ?c] => destruct (N.eqb_spec b c); try lia
  end.

Lemma rune_len_utf8 : forall c l, unicode c -> 128 <= c ->
  rune_len (utf8 c ++ l) = length (utf8 c).
Proof.
  intros c l U G. destruct (utf8_cases c U) as [[A _]|[[_ H]|[[_ H]|[_ H]]]]; [lia| | |].
  - destruct H as [a [b [-> [A [B _]]]]]. cbn [app length rune_len]. rewrite !cont_between. btw. reflexivity.
  - destruct H as [a [b [d [-> [A [B [D [E [F _]]]]]]]]]. cbn [app length rune_len].
    rewrite (cont_between b), (cont_between d). rewrite (between_false 194 223 a) by lia. cbn [andb].
    rewrite (between_true 128 191 b), (between_true 128 191 d) by lia.
    assert (a = 224 \/ 225 <= a <= 236 \/ a = 237 \/ 238 <= a <= 239) as [->|[R|[->|R]]] by lia.
    + rewrite (between_true 160 191 b) by lia. reflexivity.
    + rewrite (between_true 225 236 a) by lia. cbn [andb]. rewrite orb_true_r. reflexivity.
    + rewrite (between_true 128 159 b) by lia. cbn [andb]. rewrite N.eqb_refl. cbn [andb]. rewrite orb_true_r. reflexivity.
    + rewrite (between_true 238 239 a) by lia. cbn [andb]. rewrite !orb_true_r. reflexivity.
  - destruct H as [a [b [d [e [-> [A [B [D [E [F [G' _]]]]]]]]]]]. cbn [app length rune_len].
    rewrite (cont_between b), (cont_between d), (cont_between e).
    rewrite (between_false 194 223 a), (between_false 225 236 a), (between_false 238 239 a) by lia.
    destruct (N.eqb_spec a 224); [lia|]. destruct (N.eqb_spec a 237); [lia|]. cbn [andb orb].
    rewrite (between_true 128 191 b), (between_true 128 191 d), (between_true 128 191 e) by lia.
    assert (a = 240 \/ 241 <= a <= 243 \/ a = 244) as [->|[R| ->]] by lia.
    + rewrite (between_true 144 191 b) by lia. reflexivity.
    + rewrite (between_true 241 243 a) by lia. cbn [andb]. rewrite orb_true_r. reflexivity.
    + rewrite (between_true 128 143 b) by lia. cbn [andb]. rewrite N.eqb_refl. cbn [andb]. rewrite orb_true_r. reflexivity.
Qed.

(** UTF-8 is a prefix code. *)
Lemma utf8_prefix : forall c c' l l', unicode c -> unicode c' ->
  utf8 c ++ l = utf8 c' ++ l' -> c = c' /\ l = l'.
Proof.
  intros c c' l l' U U' E.
  destruct (utf8_cases c U) as [[A K]|[[_ [a [b [K H]]]]|[[_ [a [b [d [K H]]]]]|[_ [a [b [d [e [K H]]]]]]]]];
  destruct (utf8_cases c' U') as [[A' K']|[[_ [a' [b' [K' H']]]]|[[_ [a' [b' [d' [K' H']]]]]|[_ [a' [b' [d' [e' [K' H']]]]]]]]];
  rewrite K, K' in E; cbn [app] in E; injection E; intros; (split; [lia|first [assumption|exfalso; lia]]).
Qed.

Lemma utf8_nonempty : forall c, utf8 c <> [].
Proof. intro c. unfold utf8. repeat destruct (_ <? _); discriminate. Qed.

Lemma flat_utf8_inj : forall u u', Forall unicode u -> Forall unicode u' ->
  flat_map utf8 u = flat_map utf8 u' -> u = u'.
Proof.
  induction u as [|c u IH]; intros [|c' u'] F F' E; cbn [flat_map] in E; [reflexivity| | |].
  - symmetry in E. apply app_eq_nil in E. destruct E as [E _]. now apply utf8_nonempty in E.
  - apply app_eq_nil in E. destruct E as [E _]. now apply utf8_nonempty in E.
  - inversion F; inversion F'; subst. apply utf8_prefix in E; auto. destruct E as [-> E].
    f_equal. auto.
Qed.

(* ------------------------------------------------------------------ *)
(** Strings. *)
Lemma hex_val_ok : forall b v, hex_digit b v -> hex_val b = Some v.
Proof.
  intros b v H. unfold hex_val. destruct H as [[H ->]|[[H ->]|[H ->]]].
  - now rewrite between_true by lia.
  - rewrite between_false by lia. now rewrite between_true by lia.
  - rewrite between_false by lia. rewrite between_false by lia. now rewrite between_true by lia.
Qed.

Lemma hex4_ok : forall a b c d v, hex_number a b c d v -> hex4 a b c d = Some v.
Proof.
  intros a b c d v [x [y [z [w [A [B [C [D ->]]]]]]]]. unfold hex4.
  rewrite (hex_val_ok _ _ A), (hex_val_ok _ _ B), (hex_val_ok _ _ C), (hex_val_ok _ _ D).
  f_equal. lia.
Qed.

Lemma denotes_unicode : forall c u, denotes c u -> Forall unicode u.
Proof.
  induction 1; constructor; auto.
  - unfold letter_value in H. simpl in H. unfold unicode.
    repeat (destruct H as [H|H]; [injection H as _ <-; lia|]). contradiction.
  - unfold unicode. lia.
Qed.

Lemma unquote_char : forall f c l, unicode c -> 32 <= c -> c <> 34 -> c <> 92 ->
  go_unquote (S f) (utf8 c ++ l) = opt_app (utf8 c) (go_unquote f l).
Proof.
  intros f c l U G N1 N2. destruct (N.lt_ge_cases c 128) as [L|L].
  - destruct (utf8_cases c U) as [[A ->]|[[A _]|[[A _]|[A _]]]]; try lia.
    cbn [app go_unquote]. destruct (N.eqb_spec c 34); [lia|]. destruct (N.eqb_spec c 92); [lia|].
    destruct (N.ltb_spec c 32); [lia|]. destruct (N.ltb_spec c 128); [|lia]. reflexivity.
  - pose proof (rune_len_utf8 c l U L) as R.
    assert (H : exists a t, utf8 c = a :: t /\ 128 <= a).
    { destruct (utf8_cases c U) as [[A _]|[[_ H]|[[_ H]|[_ H]]]]; [lia| | |].
      - destruct H as [a [b [E H]]]. exists a, [b]. split; auto. lia.
      - destruct H as [a [b [d [E H]]]]. exists a, [b; d]. split; auto. lia.
      - destruct H as [a [b [d [e [E H]]]]]. exists a, [b; d; e]. split; auto. lia. }
    destruct H as [a [t [E A]]]. rewrite E in *. cbn [app] in *.
    cbn [go_unquote]. destruct (N.eqb_spec a 34); [lia|]. destruct (N.eqb_spec a 92); [lia|].
    destruct (N.ltb_spec a 32); [lia|]. destruct (N.ltb_spec a 128); [lia|].
    rewrite R. cbn [length].
    assert (E1 : firstn (S (length t)) (a :: t ++ l) = a :: t).
    { cbn [firstn]. f_equal. rewrite firstn_app, Nat.sub_diag, firstn_all. cbn [firstn]. apply app_nil_r. }
    assert (E2 : skipn (S (length t)) (a :: t ++ l) = l).
    { cbn [skipn]. rewrite skipn_app, Nat.sub_diag, skipn_all. reflexivity. }
    rewrite E1, E2. reflexivity.
Qed.

Lemma letter_value_ok : forall b v, letter_value b v ->
  escape_val b = Some v /\ b <> 117 /\ utf8 v = [v].
Proof.
  intros b v H. unfold letter_value in H. simpl in H.
  repeat (destruct H as [H|H]; [injection H as <- <-; repeat split; discriminate|]).
  contradiction.
Qed.

Lemma unquote_denotes : forall c u, denotes c u -> forall f r, (length c < f)%nat ->
  go_unquote f (c ++ 34 :: r) = Some (flat_map utf8 u).
Proof.
  induction 1; intros f r F; (destruct f as [|f]; [lia|]).
  - reflexivity.
  - rewrite <- app_assoc. rewrite unquote_char by auto.
    rewrite app_length in F. pose proof (utf8_nonempty c) as NE.
    destruct (utf8 c) eqn:E; [congruence|]. cbn [length] in F.
    rewrite IHdenotes by lia. cbn [opt_app flat_map]. rewrite E. reflexivity.
  - apply letter_value_ok in H. destruct H as [E [NU EU]]. cbn [length] in F.
    cbn [app go_unquote N.eqb Pos.eqb]. destruct (N.eqb_spec b 117); [contradiction|].
    rewrite E, IHdenotes by lia. cbn [opt_app flat_map]. rewrite EU. reflexivity.
  - cbn [length] in F. cbn [app go_unquote N.eqb Pos.eqb]. rewrite (hex4_ok _ _ _ _ _ H).
    unfold surrogate. unfold unicode in H0. rewrite between_false by lia.
    rewrite IHdenotes by lia. reflexivity.
  - cbn [length] in F. cbn [app go_unquote N.eqb Pos.eqb].
    rewrite (hex4_ok _ _ _ _ _ H), (hex4_ok _ _ _ _ _ H0).
    unfold surrogate. rewrite between_true by lia. cbn [andb]. unfold pair_value.
    rewrite !between_true by lia. cbn [andb]. rewrite IHdenotes by lia. reflexivity.
Qed.

Lemma go_string_denotes : forall c u, denotes c u ->
  go_string (34 :: c ++ [34]) = Some (flat_map utf8 u).
Proof.
  intros c u D. cbn [go_string]. apply unquote_denotes; auto. rewrite app_length. simpl. lia.
Qed.

Lemma denotes_unique : forall c u u', denotes c u -> denotes c u' -> u = u'.
Proof.
  intros c u u' D D'. apply flat_utf8_inj.
  - eapply denotes_unicode; eauto.
  - eapply denotes_unicode; eauto.
  - pose proof (go_string_denotes c u D) as E. rewrite (go_string_denotes c u' D') in E. congruence.
Qed.

Lemma unescaped_utf8 : forall c u, denotes c u -> ~ In 92 c -> c = flat_map utf8 u.
Proof.
  induction 1; intro NI; try (exfalso; apply NI; now left).
  - reflexivity.
  - cbn [flat_map]. f_equal. apply IHdenotes. intro I. apply NI, in_or_app. auto.
Qed.

(* ------------------------------------------------------------------ *)
(** Numbers. *)
Local Open Scope Z_scope.
Ltac Zify.zify_post_hook ::= idtac.

Lemma div_cross : forall a b a' b', 0 < b -> 0 < b' -> a * b' = a' * b -> a / b = a' / b'.
Proof.
  intros a b a' b' B B' E.
  rewrite <- (Z.div_mul_cancel_r a b b') by lia. rewrite E.
  rewrite (Z.mul_comm b b'). apply Z.div_mul_cancel_r; lia.
Qed.

Lemma div_even_cross : forall a b a' b', 0 < b -> 0 < b' -> a * b' = a' * b ->
  div_even a b = div_even a' b'.
Proof.
  intros a b a' b' B B' E. unfold div_even. rewrite (div_cross a b a' b' B B' E).
  set (d := a' / b').
  assert (K : (a - d * b) * b' = (a' - d * b') * b) by nia.
  set (r := a - d * b) in *. set (r' := a' - d * b') in *.
  assert (T1 : (2 * r <? b) = (2 * r' <? b')).
  { destruct (Z.ltb_spec (2 * r) b), (Z.ltb_spec (2 * r') b'); auto; exfalso; nia. }
  assert (T2 : (b <? 2 * r) = (b' <? 2 * r')).
  { destruct (Z.ltb_spec b (2 * r)), (Z.ltb_spec b' (2 * r')); auto; exfalso; nia. }
  rewrite T1, T2. reflexivity.
Qed.

Definition scaled (p q k : Z) : Z * Z := if 0 <=? k then (p, q * 2 ^ k) else (p * 2 ^ (- k), q).

Lemma pow_split : forall a b, 0 <= a -> 0 <= b -> 2 ^ (a + b) = 2 ^ a * 2 ^ b.
Proof. intros. apply Z.pow_add_r; auto. Qed.

Lemma pow_pos : forall k, 0 <= k -> 0 < 2 ^ k.
Proof. intros. apply Z.pow_pos_nonneg; lia. Qed.

Lemma le_div : forall a b c, 0 < b -> (c <= a / b <-> c * b <= a).
Proof.
  intros a b c B. split; intro H.
  - pose proof (Z.mul_div_le a b B) as M. rewrite Z.mul_comm in M.
    apply (Z.mul_le_mono_nonneg_r _ _ b) in H; lia.
  - apply Z.div_le_lower_bound; lia.
Qed.

Lemma div_lt : forall a b c, 0 < b -> (a / b < c <-> a < c * b).
Proof.
  intros a b c B. destruct (le_div a b c B) as [H1 H2]. split; intro H.
  - destruct (Z.lt_ge_cases a (c * b)) as [L|L]; [exact L|]. apply H2 in L. exfalso. revert H L.
    generalize (a / b). intros. lia.
  - destruct (Z.lt_ge_cases (a / b) c) as [L|L]; [exact L|]. apply H1 in L. exfalso. lia.
Qed.

(** The exponents are those of float64 for [W = 1074] and [T = 2^52]. *)
Section Shift.
Variables W T : Z.
Hypothesis WP : 0 <= W.
Hypothesis TP : 0 < T.

(** [p / (q 2^k)] with nonnegative powers only. *)
Lemma scaled_shift : forall p q k a b, 0 < q -> - W <= k -> scaled p q k = (a, b) ->
  0 < b /\ a * (q * 2 ^ (k + W)) = p * 2 ^ W * b.
Proof.
  intros p q k a b Q K E. unfold scaled in E.
  destruct (Z.leb_spec 0 k) as [L|L]; injection E as <- <-.
  - pose proof (pow_pos k L). split; [nia|]. rewrite pow_split by lia. ring.
  - split; [lia|].
    assert (E : 2 ^ W = 2 ^ (- k) * 2 ^ (k + W)).
    { rewrite <- pow_split by lia. f_equal; lia. }
    rewrite E. ring.
Qed.

Lemma scaled_div : forall p q k a b, 0 < q -> - W <= k -> scaled p q k = (a, b) ->
  a / b = p * 2 ^ W / (q * 2 ^ (k + W)) /\
  div_even a b = div_even (p * 2 ^ W) (q * 2 ^ (k + W)).
Proof.
  intros p q k a b Q K E. destruct (scaled_shift p q k a b Q K E) as [B X].
  pose proof (pow_pos (k + W) ltac:(lia)).
  split; [apply div_cross|apply div_even_cross]; auto; nia.
Qed.

(** The exponent chosen by [float_round]. *)
Definition fexp (p q k : Z) : Prop :=
  - W <= k /\ p * 2 ^ W / (q * 2 ^ (k + W)) < 2 * T /\
  (- W < k -> T <= p * 2 ^ W / (q * 2 ^ (k + W))).

Lemma fexp_unique : forall p q k k', 0 < p -> 0 < q -> fexp p q k -> fexp p q k' -> k = k'.
Proof.
  assert (H : forall p q k k', 0 < p -> 0 < q -> fexp p q k -> fexp p q k' -> ~ k < k').
  { intros p q k k' P Q [K1 [K2 K3]] [K1' [K2' K3']] L.
    specialize (K3' ltac:(lia)).
    pose proof (pow_pos (k + W) ltac:(lia)) as D. pose proof (pow_pos (k' + W) ltac:(lia)) as D'.
    apply (proj1 (div_lt _ _ _ (Z.mul_pos_pos _ _ Q D))) in K2.
    apply (proj1 (le_div _ _ _ (Z.mul_pos_pos _ _ Q D'))) in K3'.
    assert (X : 2 * 2 ^ (k + W) <= 2 ^ (k' + W)).
    { replace (k' + W) with (k + W + (k' - k)) by lia. rewrite (pow_split (k + W) (k' - k)) by lia.
      assert (2 ^ 1 <= 2 ^ (k' - k)) by (apply Z.pow_le_mono_r; lia). change (2 ^ 1) with 2 in *. nia. }
    assert (Y : T * (q * (2 * 2 ^ (k + W))) <= T * (q * 2 ^ (k' + W))).
    { apply Z.mul_le_mono_nonneg_l; [lia|]. apply Z.mul_le_mono_nonneg_l; lia. }
    clear - K2 K3' Y. generalize dependent (p * 2 ^ W). intros. lia. }
  intros p q k k' P Q F F'. pose proof (H p q k k' P Q F F'). pose proof (H p q k' k P Q F' F). lia.
Qed.

Lemma fexp_choice : forall p q t, 0 < p -> 0 < q -> 0 <= t -> T = 2 ^ t ->
  let k0 := Z.max (Z.log2 p - Z.log2 q - (t + 1)) (- W) in
  fexp p q (if 2 * T <=? p * 2 ^ W / (q * 2 ^ (k0 + W)) then k0 + 1 else k0).
Proof.
  intros p q t P Q GT ET k0.
  assert (K0 : - W <= k0) by (unfold k0; lia).
  destruct (Z.log2_spec p P) as [LP1 LP2]. destruct (Z.log2_spec q Q) as [LQ1 LQ2].
  set (lp := Z.log2 p) in *. set (lq := Z.log2 q) in *.
  assert (GP : 0 <= lp) by apply Z.log2_nonneg. assert (GQ : 0 <= lq) by apply Z.log2_nonneg.
  pose proof (pow_pos (k0 + W) ltac:(lia)) as D. pose proof (pow_pos W WP) as DW.
  assert (DQ : 0 < q * 2 ^ (k0 + W)) by nia.
  assert (UP : p * 2 ^ W < 2 ^ (t + 2) * (q * 2 ^ (k0 + W))).
  { assert (U1 : p * 2 ^ W < 2 ^ (Z.succ lp + W)).
    { rewrite (pow_split (Z.succ lp)) by lia. apply Z.mul_lt_mono_pos_r; auto. }
    assert (U2 : 2 ^ (Z.succ lp + W) <= 2 ^ (t + 2 + (lq + (k0 + W)))).
    { apply Z.pow_le_mono_r; lia. }
    rewrite (pow_split (t + 2)), (pow_split lq) in U2 by lia.
    assert (U3 : 2 ^ (t + 2) * (2 ^ lq * 2 ^ (k0 + W)) <= 2 ^ (t + 2) * (q * 2 ^ (k0 + W))).
    { apply Z.mul_le_mono_nonneg_l; [apply Z.lt_le_incl, pow_pos; lia|].
      apply Z.mul_le_mono_nonneg_r; lia. }
    lia. }
  assert (LO : - W < k0 -> T * (q * 2 ^ (k0 + W)) <= p * 2 ^ W).
  { intro G. assert (EK : k0 = lp - lq - (t + 1)) by (unfold k0 in *; lia).
    assert (U1 : 2 ^ (lp + W) <= p * 2 ^ W).
    { rewrite (pow_split lp) by lia. apply Z.mul_le_mono_nonneg_r; lia. }
    assert (U2 : 2 ^ (t + (Z.succ lq + (k0 + W))) <= 2 ^ (lp + W)).
    { apply Z.pow_le_mono_r; lia. }
    rewrite (pow_split t), (pow_split (Z.succ lq)) in U2 by lia. rewrite <- ET in U2.
    assert (T * (q * 2 ^ (k0 + W)) <= T * (2 ^ Z.succ lq * 2 ^ (k0 + W))).
    { apply Z.mul_le_mono_nonneg_l; [lia|]. apply Z.mul_le_mono_nonneg_r; lia. }
    lia. }
  assert (ET2 : 2 ^ (t + 2) = T * 4) by (rewrite pow_split by lia; rewrite ET; reflexivity).
  rewrite ET2 in UP.
  destruct (Z.leb_spec (2 * T) (p * 2 ^ W / (q * 2 ^ (k0 + W)))) as [H|H].
  - apply (proj1 (le_div _ _ _ DQ)) in H.
    assert (E : q * 2 ^ (k0 + 1 + W) = 2 * (q * 2 ^ (k0 + W))).
    { replace (k0 + 1 + W) with (1 + (k0 + W)) by lia. rewrite (pow_split 1 (k0 + W)) by lia.
      change (2 ^ 1) with 2. ring. }
    unfold fexp. rewrite E. split; [lia|]. split.
    + apply div_lt; lia.
    + intros _. apply le_div; lia.
  - split; [lia|]. split; [exact H|]. intro G. apply le_div; auto.
Qed.

Lemma fexp_cross : forall p q p' q' k, 0 < q -> 0 < q' -> p * q' = p' * q ->
  - W <= k ->
  p * 2 ^ W / (q * 2 ^ (k + W)) = p' * 2 ^ W / (q' * 2 ^ (k + W)) /\
  div_even (p * 2 ^ W) (q * 2 ^ (k + W)) = div_even (p' * 2 ^ W) (q' * 2 ^ (k + W)).
Proof.
  intros p q p' q' k Q Q' E K. pose proof (pow_pos (k + W) ltac:(lia)).
  assert (X : p * 2 ^ W * (q' * 2 ^ (k + W)) = p' * 2 ^ W * (q * 2 ^ (k + W))).
  { replace (p * 2 ^ W * (q' * 2 ^ (k + W))) with (p * q' * (2 ^ W * 2 ^ (k + W))) by ring.
    rewrite E. ring. }
  split; [apply div_cross|apply div_even_cross]; auto; nia.
Qed.

Lemma fexp_int : forall n k, 0 < n < 2 * T -> fexp n 1 k ->
  k <= 0 /\ n * 2 ^ (- k) < 2 * T /\ div_even (n * 2 ^ W) (1 * 2 ^ (k + W)) = n * 2 ^ (- k).
Proof.
  intros n k N [F1 [F2 F3]]. rewrite !Z.mul_1_l in *.
  pose proof (pow_pos W WP) as DW.
  pose proof (pow_pos (k + W) ltac:(lia)) as D.
  assert (K : k <= 0).
  { destruct (Z.le_gt_cases k 0); [auto|]. exfalso. specialize (F3 ltac:(lia)).
    apply (proj1 (le_div _ _ _ D)) in F3.
    replace (k + W) with ((k - 1) + (1 + W)) in F3 by lia.
    rewrite (pow_split (k - 1)), (pow_split 1) in F3 by lia. change (2 ^ 1) with 2 in F3.
    pose proof (pow_pos (k - 1) ltac:(lia)).
    assert (A1 : T * (1 * (2 * 2 ^ W)) <= T * (2 ^ (k - 1) * (2 * 2 ^ W))).
    { apply Z.mul_le_mono_nonneg_l; [lia|]. apply Z.mul_le_mono_nonneg_r; lia. }
    assert (A2 : n * 2 ^ W < 2 * T * 2 ^ W) by (apply Z.mul_lt_mono_pos_r; lia).
    lia. }
  assert (E : n * 2 ^ W = n * 2 ^ (- k) * 2 ^ (k + W)).
  { rewrite <- Z.mul_assoc, <- pow_split by lia. do 2 f_equal. lia. }
  assert (DV : n * 2 ^ W / 2 ^ (k + W) = n * 2 ^ (- k)).
  { rewrite E. apply Z.div_mul. lia. }
  split; [exact K|]. split; [rewrite <- DV; exact F2|].
  unfold div_even. rewrite DV. rewrite <- E. rewrite Z.sub_diag.
  destruct (Z.ltb_spec (2 * 0) (2 ^ (k + W))) as [L|L]; [reflexivity|]. exfalso. clear - D L. lia.
Qed.
End Shift.

Definition finish (m k : Z) : option (Z * Z) :=
  let '(m, k) := if m =? 2 ^ 53 then (2 ^ 52, k + 1) else (m, k) in
  if 971 <? k then None else Some (m, k).

Lemma float_round_spec : forall p q, 0 < p -> 0 < q ->
  exists k, fexp 1074 (2 ^ 52) p q k /\
    float_round p q = finish (div_even (p * 2 ^ 1074) (q * 2 ^ (k + 1074))) k.
Proof.
  intros p q P Q.
  pose proof (fexp_choice 1074 (2 ^ 52) ltac:(lia) ltac:(reflexivity) p q 52 P Q
    ltac:(lia) eq_refl) as F.
  change (2 * 2 ^ 52) with (2 ^ 53) in F. change (52 + 1) with 53 in F. change (- 1074) with (-1074) in F.
  unfold float_round. cbv zeta in F |- *.
  set (k0 := Z.max (Z.log2 p - Z.log2 q - 53) (-1074)) in *.
  assert (K0 : - 1074 <= k0) by apply Z.le_max_r.
  fold (scaled p q k0). destruct (scaled p q k0) as [a b] eqn:E0.
  destruct (scaled_div 1074 1 ltac:(lia) ltac:(lia) p q k0 a b Q K0 E0) as [D0 _]. rewrite D0.
  set (k := if 2 ^ 53 <=? p * 2 ^ 1074 / (q * 2 ^ (k0 + 1074)) then k0 + 1 else k0) in *.
  exists k. split; [exact F|].
  fold (scaled p q k). destruct (scaled p q k) as [a' b'] eqn:E1.
  destruct (scaled_div 1074 1 ltac:(lia) ltac:(lia) p q k a' b' Q (proj1 F) E1) as [_ ->]. reflexivity.
Qed.

(** Rounding depends on the quotient only. *)
Lemma float_round_cross : forall p q p' q', 0 < p -> 0 < q -> 0 < p' -> 0 < q' ->
  p * q' = p' * q -> float_round p q = float_round p' q'.
Proof.
  intros p q p' q' P Q P' Q' E.
  destruct (float_round_spec p q P Q) as [k [F ->]].
  destruct (float_round_spec p' q' P' Q') as [k' [F' ->]].
  destruct (fexp_cross 1074 ltac:(lia) p q p' q' k' Q Q' E (proj1 F')) as [X1 X2].
  assert (F2 : fexp 1074 (2 ^ 52) p q k').
  { destruct F' as [G [H1 H2]]. unfold fexp. rewrite X1. auto. }
  rewrite (fexp_unique 1074 (2 ^ 52) ltac:(lia) ltac:(reflexivity) p q k k' P Q F F2).
  rewrite X2. reflexivity.
Qed.

(** Integers below 2^53 are exact. *)
Lemma float_round_int : forall n, 0 < n < 2 ^ 53 ->
  exists m k, float_round n 1 = Some (m, k) /\ 0 < m /\ k <= 0 /\ m = n * 2 ^ (- k).
Proof.
  intros n N. destruct (float_round_spec n 1 (proj1 N) Z.lt_0_1) as [k [F ->]].
  destruct (fexp_int 1074 (2 ^ 52) ltac:(lia) ltac:(reflexivity) n k N F) as [K [B ->]].
  unfold finish. destruct (Z.eqb_spec (n * 2 ^ (- k)) (2 ^ 53)) as [X|X].
  { exfalso. rewrite X in B. vm_compute in B. discriminate. }
  destruct (Z.ltb_spec 971 k) as [Y|Y]; [exfalso; lia|]. do 2 eexists. split; [reflexivity|].
  pose proof (pow_pos (- k) ltac:(lia)). split; [nia|]. split; [exact K|reflexivity].
Qed.

Lemma float_round_int_inj : forall n n' x, 0 < n < 2 ^ 53 -> 0 < n' < 2 ^ 53 ->
  float_round n 1 = Some x -> float_round n' 1 = Some x -> n = n'.
Proof.
  intros n n' x N N' E E'.
  destruct (float_round_int n N) as [m [k [R [M [K EM]]]]].
  destruct (float_round_int n' N') as [m' [k' [R' [M' [K' EM']]]]].
  rewrite R in E. rewrite R' in E'. injection E as E. rewrite <- E in E'. injection E' as -> ->.
  pose proof (pow_pos (- k) ltac:(lia)). rewrite EM in EM'. apply Z.mul_reg_r in EM'; lia.
Qed.

(* ------------------------------------------------------------------ *)
(** Number literals. *)
Lemma dig_digit : forall d, dig d = true <-> digit d.
Proof.
  intro d. unfold dig, between, digit.
  destruct (N.leb_spec 48 d), (N.leb_spec d 57); simpl; split; intro; try discriminate; auto; lia.
Qed.

(** The rest does not start with a digit. *)
Definition no_digit (r : bytes) : Prop := forall b r', r = b :: r' -> ~ digit b.

Lemma span_digits_ok : forall ds r, Forall digit ds -> no_digit r ->
  span_digits (ds ++ r) = (ds, r).
Proof.
  induction ds as [|d ds IH]; intros r F N.
  - destruct r as [|b r]; [reflexivity|]. cbn [app span_digits].
    destruct (dig b) eqn:E; [|reflexivity]. apply dig_digit in E. now apply (N b r) in E.
  - inversion F; subst. cbn [app span_digits].
    rewrite (proj2 (dig_digit d)) by auto. rewrite IH by auto. reflexivity.
Qed.

Lemma digits_value_nat : forall ds acc, Forall digit ds ->
  Z.of_N (fold_left (fun a d => (a * 10 + (d - 48))%N) ds acc) = nat_digits (Z.of_N acc) ds.
Proof.
  induction ds as [|d ds IH]; intros acc F; [reflexivity|]. inversion F; subst.
  cbn [fold_left nat_digits]. rewrite IH by auto. f_equal. unfold digit in *. lia.
Qed.

Lemma nat_digits_nonneg : forall ds acc, Forall digit ds -> 0 <= acc -> 0 <= nat_digits acc ds.
Proof.
  induction ds as [|d ds IH]; intros acc F A; [exact A|]. inversion F; subst. cbn [nat_digits].
  apply IH; auto. unfold digit in *. lia.
Qed.

(** What may follow a number literal without being read as part of it. *)
Definition ends_number (r : bytes) : Prop := forall b r', r = b :: r' -> ~ continues_number b.

Lemma int_text_digits : forall i, int_text i -> Forall digit i /\ i <> [].
Proof.
  intros i [->|[d [ds [-> [D F]]]]]; (split; [|discriminate]).
  - repeat constructor; unfold digit; lia.
  - constructor; auto. unfold digit. lia.
Qed.

Lemma scan_int_ok : forall i r, int_text i -> (i <> [48%N] -> no_digit r) ->
  scan_int (i ++ r) = Some (i, r).
Proof.
  intros i r [->|[d [ds [-> [D F]]]]] N; [reflexivity|].
  assert (ND : no_digit r) by (apply N; intro E; injection E as -> _; lia).
  assert (S : span_digits ((d :: ds) ++ r) = (d :: ds, r)).
  { apply span_digits_ok; auto. constructor; auto. unfold digit. lia. }
  cbn [app] in *. unfold scan_int. rewrite S. destruct d as [|p]; [lia|].
  destruct (N.eqb_spec (N.pos p) 48) as [E|E]; [lia|].
  repeat (destruct p as [p|p|]; try reflexivity; try lia).
Qed.

Lemma scan_frac_ok : forall f fd r, frac_text f -> (f = [] /\ fd = [] \/ f = 46%N :: fd) ->
  (forall b r', r = b :: r' -> b <> 46%N /\ ~ digit b) ->
  scan_frac (f ++ r) = Some (fd, r).
Proof.
  intros f fd r FT E N. destruct E as [[-> ->]| ->].
  - cbn [app]. unfold scan_frac. destruct r as [|b r]; [reflexivity|].
    destruct (N b r eq_refl) as [B _].
    destruct b as [|p]; [reflexivity|]. repeat (destruct p as [p|p|]; try reflexivity; try lia).
  - destruct FT as [FT|[ds [FT [NE F]]]]; [discriminate|]. injection FT as ->.
    cbn [app scan_frac]. rewrite span_digits_ok; auto.
    + destruct ds; [congruence|reflexivity].
    + intros b r' E. now destruct (N b r' E).
Qed.

Lemma scan_exp_ok : forall x xe r, exp_text x ->
  (x = [] /\ xe = 0 \/
   exists eb sg ds, x = eb :: sg ++ ds /\ Forall digit ds /\ (eb = 101 \/ eb = 69)%N /\
     (sg = [45%N] /\ xe = - nat_digits 0 ds \/
      (sg = [] \/ sg = [43%N]) /\ xe = nat_digits 0 ds)) ->
  ends_number r ->
  scan_exp (x ++ r) = Some xe.
Proof.
  intros x xe r XT E N. destruct E as [[-> ->]|[eb [sg [ds [-> [F [EB SG]]]]]]].
  - cbn [app]. unfold scan_exp. destruct r as [|b r]; [reflexivity|].
    specialize (N b r eq_refl). unfold continues_number in N.
    destruct (N.eqb_spec b 101); [tauto|]. destruct (N.eqb_spec b 69); [tauto|]. reflexivity.
  - assert (NE : ds <> []).
    { destruct XT as [XT|[e' [sg' [ds' [XT [_ [SG' [NE' F']]]]]]]]; [discriminate|].
      injection XT as _ XT. intro Z. subst ds. rewrite app_nil_r in XT.
      destruct SG as [[-> _]|[[->| ->] _]]; destruct SG' as [->|[->| ->]]; cbn [app] in XT;
        try (destruct ds'; [congruence|]); try discriminate;
        injection XT as XT XT'; inversion F'; unfold digit in *; subst; try congruence; lia. }
    assert (ND : no_digit r).
    { intros b r' E D. apply (N b r' E). now left. }
    assert (SPAN : span_digits (ds ++ r) = (ds, r)) by (apply span_digits_ok; auto).
    assert (V : Z.of_N (digits_value ds) = nat_digits 0 ds) by (apply (digits_value_nat ds 0%N F)).
    assert (EBT : ((eb =? 101) || (eb =? 69))%N = true) by (destruct EB as [->| ->]; reflexivity).
    cbn [app scan_exp]. rewrite EBT. rewrite <- app_assoc.
    destruct SG as [[-> ->]|[[->| ->] ->]]; cbn [app].
    + rewrite SPAN. destruct ds; [congruence|]. rewrite V. reflexivity.
    + destruct ds as [|d ds]; [congruence|]. cbn [app] in *.
      inversion F; subst. unfold digit in *.
      assert (M : (match d :: ds ++ r with
                   | 45%N :: r' => (true, r')
                   | 43%N :: r' => (false, r')
                   | _ => (false, d :: ds ++ r) end) = (false, d :: ds ++ r)).
      { destruct d as [|p]; [lia|]. repeat (destruct p as [p|p|]; try reflexivity; try lia). }
      rewrite M, SPAN, V. reflexivity.
    + rewrite SPAN. destruct ds; [congruence|]. rewrite V. reflexivity.
Qed.

(** What Go reads off a number literal is its value. *)
Lemma scan_number_ok : forall l neg m e r, num_value l neg m e -> ends_number r ->
  scan_number (l ++ r) = Some (mkDec neg m e).
Proof.
  intros l neg m e r [i [f [x [-> [IT [FT [XT [fd [xe [EF [EX [-> ->]]]]]]]]]]]] N.
  destruct (int_text_digits i IT) as [ID INE].
  assert (FD : Forall digit fd).
  { destruct EF as [[_ ->]|EF]; [constructor|].
    destruct FT as [FT|[ds [FT [_ F]]]]; [congruence|]. rewrite EF in FT. now injection FT as ->. }
  assert (XH : forall b t, x ++ r = b :: t -> b <> 46%N /\ ~ digit b).
  { intros b t E. destruct EX as [[-> _]|[eb [sg [ds [-> [_ [EB _]]]]]]].
    - cbn [app] in E. specialize (N b t E). unfold continues_number in N. tauto.
    - injection E as <- _. unfold digit. lia. }
  assert (FH : no_digit (f ++ x ++ r)).
  { intros b t E. destruct EF as [[-> _]| ->].
    - cbn [app] in E. now destruct (XH b t E).
    - injection E as <- _. unfold digit. lia. }
  assert (SN : scan_number (((if neg then [45%N] else []) ++ i ++ f ++ x) ++ r) =
    match scan_int (i ++ f ++ x ++ r) with
    | None => None
    | Some (i, l2) =>
        match scan_frac l2 with
        | None => None
        | Some (f, l3) =>
            match scan_exp l3 with
            | None => None
            | Some e => Some (mkDec neg (Z.of_N (digits_value (i ++ f))) (e - Z.of_nat (length f)))
            end
        end
    end).
  { rewrite <- !app_assoc. unfold scan_number. destruct neg; cbn [app]; [reflexivity|].
    destruct i as [|d i]; [congruence|]. cbn [app]. inversion ID; subst. unfold digit in *.
    destruct d as [|p]; [lia|]. repeat (destruct p as [p|p|]; try reflexivity; try lia). }
  rewrite SN. rewrite scan_int_ok by auto. rewrite (scan_frac_ok f fd) by auto.
  rewrite (scan_exp_ok x xe) by auto.
  do 2 f_equal. apply (digits_value_nat (i ++ fd) 0%N). apply Forall_app; auto.
Qed.

Lemma num_value_nonneg : forall l neg m e, num_value l neg m e -> 0 <= m.
Proof.
  intros l neg m e [i [f [x [-> [IT [FT [XT [fd [xe [EF [EX [-> ->]]]]]]]]]]]].
  destruct (int_text_digits i IT) as [ID _].
  apply nat_digits_nonneg; [|lia]. apply Forall_app. split; auto.
  destruct EF as [[_ ->]|EF]; [constructor|].
  destruct FT as [FT|[ds [FT [_ F]]]]; [congruence|]. rewrite EF in FT. now injection FT as ->.
Qed.

Definition ratio (m e : Z) : Z * Z := if 0 <=? e then (m * 10 ^ e, 1) else (m, 10 ^ (- e)).

Lemma ratio_pos : forall m e, 0 < m -> 0 < fst (ratio m e) /\ 0 < snd (ratio m e).
Proof.
  intros m e M. unfold ratio. destruct (Z.leb_spec 0 e); cbn [fst snd].
  - assert (0 < 10 ^ e) by (apply Z.pow_pos_nonneg; lia). nia.
  - assert (0 < 10 ^ (- e)) by (apply Z.pow_pos_nonneg; lia). lia.
Qed.

Lemma ratio_cross : forall m e m' e',
  m * 10 ^ (e - Z.min e e') = m' * 10 ^ (e' - Z.min e e') ->
  fst (ratio m e) * snd (ratio m' e') = fst (ratio m' e') * snd (ratio m e).
Proof.
  assert (W : forall m e m' e', e <= e' -> m = m' * 10 ^ (e' - e) ->
    fst (ratio m e) * snd (ratio m' e') = fst (ratio m' e') * snd (ratio m e)).
  { intros m e m' e' L ->. unfold ratio.
    destruct (Z.leb_spec 0 e), (Z.leb_spec 0 e'); cbn [fst snd]; try lia.
    - assert (X : 10 ^ (e' - e) * 10 ^ e = 10 ^ e').
      { rewrite <- Z.pow_add_r by lia. f_equal; lia. }
      rewrite <- X. ring.
    - assert (X : 10 ^ (e' - e) = 10 ^ e' * 10 ^ (- e)).
      { rewrite <- Z.pow_add_r by lia. f_equal; lia. }
      rewrite X. ring.
    - assert (X : 10 ^ (e' - e) * 10 ^ (- e') = 10 ^ (- e)).
      { rewrite <- Z.pow_add_r by lia. f_equal; lia. }
      rewrite <- X. ring. }
  intros m e m' e' E. destruct (Z.min_spec e e') as [[L M]|[L M]]; rewrite M in E.
  - rewrite Z.sub_diag, Z.mul_1_r in E. apply W; [lia|exact E].
  - rewrite Z.sub_diag, Z.mul_1_r in E. symmetry. apply W; [lia|auto].
Qed.

Lemma float_of_decimal_same : forall n1 m1 e1 n2 m2 e2, 0 <= m1 -> 0 <= m2 ->
  same_number n1 m1 e1 n2 m2 e2 ->
  float_of_decimal (mkDec n1 m1 e1) = float_of_decimal (mkDec n2 m2 e2).
Proof.
  intros n1 m1 e1 n2 m2 e2 M1 M2 E. unfold same_number in E. cbv zeta in E.
  set (d := Z.min e1 e2) in E.
  assert (P1 : 0 < 10 ^ (e1 - d)) by (apply Z.pow_pos_nonneg; unfold d; lia).
  assert (P2 : 0 < 10 ^ (e2 - d)) by (apply Z.pow_pos_nonneg; unfold d; lia).
  assert (Z1 : m1 = 0 <-> m2 = 0).
  { destruct n1, n2; split; intros ->; nia. }
  unfold float_of_decimal. cbn [d_m d_e d_neg].
  destruct (Z.eqb_spec m1 0) as [A|A], (Z.eqb_spec m2 0) as [B|B]; try reflexivity; try tauto.
  assert (N : n1 = n2) by (destruct n1, n2; auto; nia). subst n2.
  assert (X : m1 * 10 ^ (e1 - d) = m2 * 10 ^ (e2 - d)) by (destruct n1; lia).
  pose proof (ratio_cross m1 e1 m2 e2 X) as RC.
  pose proof (ratio_pos m1 e1 ltac:(lia)) as [Q1 Q2]. pose proof (ratio_pos m2 e2 ltac:(lia)) as [Q3 Q4].
  fold (ratio m1 e1). fold (ratio m2 e2). destruct (ratio m1 e1) as [p q], (ratio m2 e2) as [p' q'].
  cbn [fst snd] in *. rewrite (float_round_cross p q p' q') by auto. reflexivity.
Qed.

Lemma float_eqb_eq : forall a b, float_eqb a b = true <-> a = b.
Proof.
  intros [n [m k]] [n' [m' k']]. unfold float_eqb. cbn [fst snd].
  rewrite !andb_true_iff, Bool.eqb_true_iff, !Z.eqb_eq. split.
  - intros [[-> ->] ->]. reflexivity.
  - intro E. injection E as -> -> ->. auto.
Qed.

(** Integers written without sign, fraction and exponent. *)
Lemma float_of_int : forall n, 0 <= n < 2 ^ 53 ->
  exists x, float_of_decimal (mkDec false n 0) = Some x.
Proof.
  intros n N. unfold float_of_decimal. cbn [d_m d_e d_neg]. destruct (Z.eqb_spec n 0); [eauto|].
  cbn [Z.leb Z.compare]. rewrite Z.pow_0_r, Z.mul_1_r.
  destruct (float_round_int n ltac:(lia)) as [m [k [-> [M _]]]].
  destruct m; [lia|eauto|lia].
Qed.

Lemma float_of_int_inj : forall n n' x, 0 <= n < 2 ^ 53 -> 0 <= n' < 2 ^ 53 ->
  float_of_decimal (mkDec false n 0) = Some x -> float_of_decimal (mkDec false n' 0) = Some x -> n = n'.
Proof.
  intros n n' x N N' E E'. unfold float_of_decimal in E, E'. cbn [d_m d_e d_neg] in E, E'.
  cbn [Z.leb Z.compare] in E, E'. rewrite Z.pow_0_r, Z.mul_1_r in E, E'.
  assert (NZ : forall m, 0 < m < 2 ^ 53 -> match float_round m 1 with
      | Some (0, _) => Some float_zero | Some x => Some (false, x) | None => None end
      = match float_round m 1 with Some x => Some (false, x) | None => None end /\
      (forall k, float_round m 1 <> Some (0, k))).
  { intros m M. destruct (float_round_int m M) as [a [k [-> [A _]]]]. destruct a; try lia.
    split; [reflexivity|]. congruence. }
  destruct (Z.eqb_spec n 0), (Z.eqb_spec n' 0).
  - lia.
  - destruct (NZ n' ltac:(lia)) as [R K]. rewrite R in E'.
    destruct (float_round n' 1) as [[a k]|]; [|discriminate]. injection E as <-. injection E' as E1 E2.
    exfalso. eapply K. rewrite E1. reflexivity.
  - destruct (NZ n ltac:(lia)) as [R K]. rewrite R in E.
    destruct (float_round n 1) as [[a k]|]; [|discriminate]. injection E' as <-. injection E as E1 E2.
    exfalso. eapply K. rewrite E1. reflexivity.
  - destruct (NZ n ltac:(lia)) as [R _]. rewrite R in E. destruct (NZ n' ltac:(lia)) as [R' _]. rewrite R' in E'.
    destruct (float_round n 1) as [a|] eqn:F; [|discriminate].
    destruct (float_round n' 1) as [a'|] eqn:F'; [|discriminate].
    injection E as <-. injection E' as ->. eapply float_round_int_inj; eauto; lia.
Qed.

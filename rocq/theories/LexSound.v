(** What the tokeniser makes of UTF-8 are tokens and blanks. *)
From Coq Require Import List NArith ZArith Bool Arith Lia.
From Verif Require Import Base JsonSpec ScalarSpec GrammarModel GrammarSpec LexModel ParseModel QuerySyntax LexRx LexProofs LexLits LexTokens.
Local Open Scope N_scope.

(** UTF-8. *)
Definition is_utf8 (s : bytes) : Prop := exists u, Forall unicode u /\ s = flat_map utf8 u.
Lemma utf8_nil : is_utf8 [].
Proof. exists []. split; [constructor|reflexivity]. Qed.
Lemma utf8_cat : forall a b, is_utf8 a -> is_utf8 b -> is_utf8 (a ++ b).
Proof. intros a b (u & U & ->) (v & V & ->). exists (u ++ v). split; [now apply Forall_app|now rewrite flat_map_app]. Qed.
Lemma utf8_one : forall b, b < 128 -> is_utf8 [b].
Proof. intros b L. exists [b]. split; [constructor; [unfold unicode; lia|constructor]|]. cbn. now rewrite utf8_low. Qed.
Lemma high_prefix : forall l rest x b y, Forall (fun c => 128 <= c) l -> b < 128 -> l ++ rest = x ++ b :: y -> exists x', x = l ++ x' /\ rest = x' ++ b :: y.
Proof.
  intros l rest x b y F L. revert x. induction F as [|c l C F IH]; intros x E; [exists x; auto|].
  destruct x as [|d x]; cbn in E; injection E as <- E; [lia|]. destruct (IH x E) as (x' & -> & R). exists x'. auto.
Qed.
Lemma utf8_split : forall x b y, b < 128 -> is_utf8 (x ++ b :: y) -> is_utf8 x /\ is_utf8 y.
Proof.
  intros x b y L (u & U & E). revert x E. induction U as [|c u C U IH]; intros x E; cbn in E; [now destruct x|].
  destruct (N.lt_ge_cases c 128) as [LC|LC].
  - rewrite utf8_low in E by exact LC. destruct x as [|d x]; cbn in E; injection E as -> E.
    + split; [apply utf8_nil|]. exists u. split; [exact U|exact E].
    + destruct (IH x E) as [A B]. split; [|exact B]. apply (utf8_cat [c] x); [now apply utf8_one|exact A].
  - destruct (utf8_high c LC C) as [F _]. symmetry in E. destruct (high_prefix _ _ _ _ _ F L E) as (x' & -> & R). destruct (IH x' (eq_sym R)) as [A B].
    split; [|exact B]. apply utf8_cat; [|exact A]. exists [c]. split; [now constructor|]. cbn. now rewrite app_nil_r.
Qed.
Lemma utf8_tail : forall b y, b < 128 -> is_utf8 (b :: y) -> is_utf8 y.
Proof. intros b y L H. exact (proj2 (utf8_split [] b y L H)). Qed.
Lemma utf8_after : forall x b y, b < 128 -> is_utf8 ((x ++ [b]) ++ y) -> is_utf8 (x ++ [b]) /\ is_utf8 y.
Proof.
  intros x b y L H. rewrite <- app_assoc in H. destruct (utf8_split x b y L H) as [A B]. split; [|exact B]. apply utf8_cat; [exact A|now apply utf8_one].
Qed.
Lemma utf8_before : forall x y, match y with b :: _ => b < 128 | [] => True end -> is_utf8 (x ++ y) -> is_utf8 x /\ is_utf8 y.
Proof.
  intros x [|b y] L H; [rewrite app_nil_r in H; split; [exact H|apply utf8_nil]|].
  destruct (utf8_split x b y L H) as [A B]. split; [exact A|]. apply (utf8_cat [b] y); [now apply utf8_one|exact B].
Qed.

(** Names. *)
Lemma name_utf8 : forall b u, is_utf8 (b :: u) -> name_first b = true -> Forall (fun b => name_char b = true) u -> member_name (b :: u).
Proof.
  intros b u (cs & U & E) B F. destruct cs as [|c cs]; [discriminate|]. exists c, cs. split; [exact E|].
  assert (NC : forall d, unicode d -> Forall (fun b => name_char b = true) (utf8 d) -> next_char d).
  { intros d D FD. destruct (N.lt_ge_cases d 128) as [LD|LD]; [|left; right; right; right; auto]. rewrite utf8_low in FD by exact LD. inversion FD as [|? ? X _]; subst.
    unfold next_char, first_char. revert X. classes; intro X; try discriminate; lia. }
  assert (FA : Forall (fun b => name_char b = true) (flat_map utf8 (c :: cs))) by (rewrite <- E; constructor; [now apply name_char_first|exact F]).
  cbn [flat_map] in FA. apply Forall_app in FA as [FA FB]. inversion U as [|? ? UC UCS]; subst. split.
  - destruct (NC c UC FA) as [FC|DG]; [exact FC|]. exfalso. cbn [flat_map] in E. rewrite utf8_low in E by lia. cbn in E. injection E as -> _. revert B. classes; discriminate.
  - clear - UCS FB NC. induction UCS as [|d cs D UCS IH]; [constructor|]. cbn [flat_map] in FB. apply Forall_app in FB as [F1 F2]. constructor; [now apply NC|now apply IH].
Qed.
Lemma name_span : forall s, exists u v, s = u ++ v /\ Forall (fun b => name_char b = true) u /\ ends_name v.
Proof.
  induction s as [|b s (u & v & -> & F & E)]; [exists [], []; repeat split; constructor|]. destruct (name_char b) eqn:N.
  - exists (b :: u), v. split; [reflexivity|]. split; [now constructor|exact E].
  - exists [], (b :: u ++ v). split; [reflexivity|]. split; [constructor|exact N].
Qed.
Lemma ends_ascii : forall v, ends_name v -> match v with b :: _ => b < 128 | [] => True end.
Proof.
  intros [|b v] H; [exact I|]. cbn in H. unfold name_char, high in H. destruct (N.leb_spec 128 b) as [L|L]; [rewrite !orb_true_r in H; discriminate|exact L].
Qed.

(** Strings. *)
Inductive units (q : N) : bytes -> Prop :=
| un_nil : units q []
| un_byte : forall b l, 32 <= b -> b <> q -> b <> 92 -> units q l -> units q (b :: l)
| un_letter : forall b l, In b [98; 102; 110; 114; 116; 47; 92; q] -> units q l -> units q (92 :: b :: l)
| un_hex : forall a b c d v l, hex_number a b c d v -> unicode v -> units q l -> units q (92 :: 117 :: a :: b :: c :: d :: l)
| un_pair : forall a b c d v a' b' c' d' v' l, hex_number a b c d v -> hex_number a' b' c' d' v' -> 55296 <= v < 56320 -> 56320 <= v' < 57344 ->
    units q l -> units q (92 :: 117 :: a :: b :: c :: d :: 92 :: 117 :: a' :: b' :: c' :: d' :: l).
Lemma hex_of : forall b, is_hex b = true -> exists v, hex_digit b v.
Proof.
  intros b H. unfold is_hex, LexModel.between in H. unfold hex_digit.
  destruct (N.leb_spec 48 b), (N.leb_spec b 57), (N.leb_spec 65 b), (N.leb_spec b 70), (N.leb_spec 97 b), (N.leb_spec b 102); cbn in H; try discriminate; try lia; eexists;
    solve [left; split; [lia|reflexivity] | right; left; split; [lia|reflexivity] | right; right; split; [lia|reflexivity]].
Qed.
Lemma unit_sound : forall q p x y l, LexRx.lang (rx_unit q) p x y -> units q l -> units q (x ++ l).
Proof.
  intros q p x y l L U. unfold rx_unit in L. cbn [rx_alts] in L.
  apply lang_alt in L as [L|L]; [|apply lang_alt in L as [L|L]; [|apply lang_alt in L as [L|L]; [|apply lang_alt in L as [L|L]]]].
  - apply lang_seq in L as (x1 & x2 & -> & A & B). apply lang_char in A as ->. apply lang_any_of in B as (b & -> & B). now apply un_letter.
  - cbn [rx_seqs] in L. apply lang_seq in L as (x1 & x2 & -> & A & L). apply lang_char in A as ->. apply lang_seq in L as (x1 & x3 & -> & A & L). apply lang_char in A as ->.
    apply lang_seq in L as (x1 & x4 & -> & A & L). apply lang_in in A as (a & -> & A). apply lang_seq in L as (x1 & x5 & -> & B & L). apply lang_in in B as (b & -> & B).
    apply lang_seq in L as (x1 & x6 & -> & C & D). apply lang_in in C as (c & -> & C). apply lang_in in D as (d & -> & D).
    apply andb_true_iff in A as [A ND]. destruct (hex_of a A) as [va VA], (hex_of b B) as [vb VB], (hex_of c C) as [vc VC], (hex_of d D) as [vd VD].
    rewrite (hex_d a va VA) in ND. apply negb_true_iff, N.eqb_neq in ND.
    cbn [app]. apply (un_hex q a b c d (4096 * va + 256 * vb + 16 * vc + vd)); [exists va, vb, vc, vd; auto 10| |exact U].
    apply hex_range in VA, VB, VC, VD. unfold unicode. clear - ND VA VB VC VD. lia.
  - cbn [rx_seqs] in L. apply lang_seq in L as (x1 & x2 & -> & A & L). apply lang_char in A as ->. apply lang_seq in L as (x1 & x3 & -> & A & L). apply lang_char in A as ->.
    apply lang_seq in L as (x1 & x4 & -> & A & L). apply lang_any_of in A as (a & -> & A). apply lang_seq in L as (x1 & x5 & -> & B & L). apply lang_in in B as (b & -> & B).
    apply lang_seq in L as (x1 & x6 & -> & C & D). apply lang_in in C as (c & -> & C). apply lang_in in D as (d & -> & D).
    assert (VA : hex_digit a 13) by (cbn in A; unfold hex_digit; destruct A as [<-|[<-|[]]]; cbn; lia).
    assert (VB : exists vb, hex_digit b vb /\ vb < 8).
    { unfold LexModel.between in B. apply andb_true_iff in B as [B1 B2]. apply N.leb_le in B1, B2. exists (b - 48). unfold hex_digit. lia. }
    destruct VB as (vb & VB & LB), (hex_of c C) as [vc VC], (hex_of d D) as [vd VD].
    cbn [app]. apply (un_hex q a b c d (4096 * 13 + 256 * vb + 16 * vc + vd)); [exists 13, vb, vc, vd; auto 10| |exact U].
    apply hex_range in VC, VD. unfold unicode. clear - LB VC VD. lia.
  - cbn [rx_seqs] in L. apply lang_seq in L as (x1 & x2 & -> & A & L). apply lang_char in A as ->. apply lang_seq in L as (x1 & x3 & -> & A & L). apply lang_char in A as ->.
    apply lang_seq in L as (x1 & x4 & -> & A & L). apply lang_any_of in A as (a & -> & A). apply lang_seq in L as (x1 & x5 & -> & B & L). apply lang_any_of in B as (b & -> & B).
    apply lang_seq in L as (x1 & x6 & -> & C & L). apply lang_in in C as (c & -> & C). apply lang_seq in L as (x1 & x7 & -> & D & L). apply lang_in in D as (d & -> & D).
    apply lang_seq in L as (x1 & x8 & -> & Q & L). apply lang_char in Q as ->. apply lang_seq in L as (x1 & x9 & -> & Q & L). apply lang_char in Q as ->.
    apply lang_seq in L as (x1 & x10 & -> & A' & L). apply lang_any_of in A' as (a' & -> & A'). apply lang_seq in L as (x1 & x11 & -> & B' & L). apply lang_in in B' as (b' & -> & B').
    apply lang_seq in L as (x1 & x12 & -> & C' & D'). apply lang_in in C' as (c' & -> & C'). apply lang_in in D' as (d' & -> & D').
    assert (VA : hex_digit a 13) by (cbn in A; unfold hex_digit; destruct A as [<-|[<-|[]]]; cbn; lia).
    assert (VA' : hex_digit a' 13) by (cbn in A'; unfold hex_digit; destruct A' as [<-|[<-|[]]]; cbn; lia).
    assert (VB : exists vb, hex_digit b vb /\ 8 <= vb <= 11).
    { cbn in B. unfold hex_digit. repeat destruct B as [<-|B]; try contradiction; eexists;
        (split; [solve [left; split; [lia|reflexivity] | right; left; split; [lia|reflexivity] | right; right; split; [lia|reflexivity]]|cbn; lia]). }
    assert (VB' : exists vb, hex_digit b' vb /\ 12 <= vb <= 15).
    { unfold LexModel.between in B'. unfold hex_digit. destruct (N.leb_spec 67 b'), (N.leb_spec b' 70), (N.leb_spec 99 b'), (N.leb_spec b' 102); cbn in B'; try discriminate; try lia;
        first [exists (b' - 55); lia|exists (b' - 87); lia]. }
    destruct VB as (vb & VB & LB), VB' as (vb' & VB' & LB'), (hex_of c C) as [vc VC], (hex_of d D) as [vd VD], (hex_of c' C') as [vc' VC'], (hex_of d' D') as [vd' VD'].
    cbn [app]. apply (un_pair q a b c d (4096 * 13 + 256 * vb + 16 * vc + vd) a' b' c' d' (4096 * 13 + 256 * vb' + 16 * vc' + vd')).
    + exists 13, vb, vc, vd. auto 10.
    + exists 13, vb', vc', vd'. auto 10.
    + apply hex_range in VC, VD. clear - LB VC VD. lia.
    + apply hex_range in VC', VD'. clear - LB' VC' VD'. lia.
    + exact U.
  - apply lang_in in L as (b & -> & B). apply andb_true_iff in B as [B B3]. apply andb_true_iff in B as [B1 B2]. apply N.leb_le in B1. apply negb_true_iff, N.eqb_neq in B2, B3.
    now apply un_byte.
Qed.
Lemma star_units : forall q p x y, LexRx.lang (RxStar (rx_unit q)) p x y -> units q x.
Proof.
  intros q p x y L. remember (RxStar (rx_unit q)) as r eqn:R. induction L as [| | | | | |a p x x' y La IHa Lb IHb| |]; try discriminate R; [constructor|].
  injection R as ->. eapply unit_sound; [exact La|]. now apply IHb.
Qed.
Lemma units_high : forall q l r, quote q -> Forall (fun b => 128 <= b) l -> units q (l ++ r) -> units q r.
Proof.
  intros q l r Q F. induction F as [|b l B F IH]; intro U; [exact U|]. apply IH. cbn in U. inversion U; subst; try lia. assumption.
Qed.
Lemma hex_ascii : forall b v, hex_digit b v -> b < 128.
Proof. intros b v H. unfold hex_digit in H. lia. Qed.
Lemma number_ascii : forall a b c d v, hex_number a b c d v -> a < 128 /\ b < 128 /\ c < 128 /\ d < 128.
Proof. intros a b c d v (x & y & z & w & A & B & C & D & _). apply hex_ascii in A, B, C, D. auto. Qed.
Ltac tails H := repeat (apply utf8_tail in H; [|first [lia|assumption]]).
Lemma units_value : forall q n x, quote q -> (length x <= n)%nat -> units q x -> is_utf8 x -> (q = 34 /\ exists u, denotes x u) \/ (q = 39 /\ exists u, denotes_single x u).
Proof.
  intros q n x Q. revert x. induction n as [|n IH]; intros x L U V.
  - destruct x; [|cbn in L; lia]. destruct Q as [->| ->]; [left|right]; (split; [reflexivity|]); exists []; constructor.
  - destruct V as ([|c cs] & VU & ->); [cbn in *; destruct Q as [->| ->]; [left|right]; (split; [reflexivity|]); exists []; constructor|].
    inversion VU as [|? ? VC VS]; subst. cbn [flat_map] in *. assert (VT : is_utf8 (flat_map utf8 cs)) by (exists cs; auto).
    destruct (N.lt_ge_cases c 128) as [LC|LC].
    + rewrite utf8_low in * by exact LC. cbn [app] in *. set (y := flat_map utf8 cs) in *. clearbody y. clear VU VS. cbn [length] in L.
      inversion U as [|b l B1 B2 B3 UL|b l B UL|a b c0 d v l HN UV UL|a b c0 d v a' b' c' d' v' l HN HN' R1 R2 UL]; subst.
      * destruct (IH y ltac:(lia) UL VT) as [[-> [u D]]|[-> [u D]]]; [left|right]; (split; [reflexivity|]); exists (c :: u); change (c :: y) with ([c] ++ y); rewrite <- (utf8_low c LC).
        -- now apply (dn_char c y u).
        -- now apply (sq_char c y u).
      * assert (BA : b < 128) by (cbn in B; destruct Q; lia). apply utf8_tail in VT; [|exact BA]. cbn [length] in L.
        destruct (IH l ltac:(lia) UL VT) as [[-> [u D]]|[-> [u D]]]; [left|right]; (split; [reflexivity|]).
        -- assert (E : exists w, letter_value b w) by (unfold letter_value; cbn in B; repeat destruct B as [<-|B]; try contradiction; eexists; cbn; intuition eauto).
           destruct E as [w E]. exists (w :: u). now apply dn_letter.
        -- destruct (N.eq_dec b 39) as [->|NB]; [exists (39 :: u); now apply sq_quote|].
           assert (E : exists w, letter_value b w) by (unfold letter_value; cbn in B; repeat destruct B as [<-|B]; try contradiction; try congruence; eexists; cbn; intuition eauto).
           destruct E as [w E]. exists (w :: u). apply sq_letter; [exact E| |exact D]. intros ->. cbn in B. intuition discriminate.
      * destruct (number_ascii _ _ _ _ _ HN) as (X1 & X2 & X3 & X4). tails VT. cbn [length] in L.
        destruct (IH l ltac:(lia) UL VT) as [[-> [u D]]|[-> [u D]]]; [left|right]; (split; [reflexivity|]); exists (v :: u).
        -- now apply dn_hex.
        -- now apply sq_hex.
      * destruct (number_ascii _ _ _ _ _ HN) as (X1 & X2 & X3 & X4). destruct (number_ascii _ _ _ _ _ HN') as (X5 & X6 & X7 & X8). tails VT. cbn [length] in L.
        destruct (IH l ltac:(lia) UL VT) as [[-> [u D]]|[-> [u D]]]; [left|right]; (split; [reflexivity|]); eexists.
        -- now apply (dn_pair a b c0 d v a' b' c' d' v' l u).
        -- now apply (sq_pair a b c0 d v a' b' c' d' v' l u).
    + destruct (utf8_high c LC VC) as [F NE]. apply units_high in U; [|exact Q|exact F]. rewrite app_length in L. destruct (utf8 c) as [|b0 t0] eqn:EU; [congruence|]. cbn in L.
      destruct (IH (flat_map utf8 cs) ltac:(lia) U VT) as [[-> [u D]]|[-> [u D]]]; [left|right]; (split; [reflexivity|]); exists (c :: u); rewrite <- EU.
      * apply dn_char; [exact VC|lia|lia|lia|exact D].
      * apply sq_char; [exact VC|lia|lia|lia|exact D].
Qed.

(* ------------------------------------------------------------------ *)
(** A token is one of RFC 9535, or blank space. *)
Definition good (k : lextok) (r : bytes) : Prop :=
  snd k <> [] /\ is_utf8 r /\ (fst k = LxBlank /\ Forall lax_blank (snd k) \/ terminal k).
Lemma first_inv : forall ty r table s k y, nullable r = false -> lex_first ((ty, r, None) :: table) s = Some (k, y) ->
  (exists x, k = (ty, x) /\ s = x ++ y /\ x <> [] /\ rx_rest r s = Some y /\ LexRx.lang r None x y) \/ rx_rest r s = None /\ lex_first table s = Some (k, y).
Proof.
  intros ty r table s k y N E. cbn [lex_first] in E. destruct (rx_rest r s) as [z|] eqn:R; [left|right; auto].
  destruct (rest_shorter _ _ _ N R) as (c & x & -> & L). destruct (firstn_match (c :: x) z) as [E1 E2]. rewrite E1, E2 in E. injection E as <- <-.
  exists (c :: x). repeat split; auto. discriminate.
Qed.
Lemma utf8_ascii : forall x y, Forall (fun b => b < 128) x -> is_utf8 (x ++ y) -> is_utf8 y.
Proof. intros x y F. induction F as [|b x B F IH]; intro H; [exact H|]. apply IH. cbn [app] in H. now apply utf8_tail in H. Qed.
Ltac ascii := repeat (constructor; [lia|]); constructor.
Ltac pick L := repeat (apply lang_alt in L as [L|L]).

Lemma digits_ascii : forall ds, Forall digit ds -> Forall (fun b => b < 128) ds.
Proof. intros ds H. eapply Forall_impl; [|exact H]. unfold digit. lia. Qed.
Lemma class1 : forall b, is_digit1 b = true -> 49 <= b <= 57.
Proof. intros b H. revert H. classes; discriminate. Qed.
Lemma rx_digits1 : forall p x y, LexRx.lang (rx_seqs [rx_opt (rx_char 45); RxIn is_digit1; RxStar (RxIn is_digit)]) p x y ->
  exists sg d ds, x = sg ++ d :: ds /\ (sg = [] \/ sg = [45]) /\ 49 <= d <= 57 /\ Forall digit ds.
Proof.
  intros p x y L. cbn [rx_seqs] in L. apply lang_seq in L as (sg & x1 & -> & S & L). apply lang_seq in L as (x2 & ds & -> & D & L).
  apply lang_in in D as (d & -> & D). apply lang_class in L. exists sg, d, ds. split; [reflexivity|]. split; [|split; [now apply class1|now apply class_digits]].
  apply lang_opt in S as [S| ->]; [right; now apply lang_char in S|now left].
Qed.
Lemma int_sound : forall s y, is_utf8 s -> rx_rest rx_int s = Some y ->
  exists t r, s = t ++ r /\ int_special s = t /\ (exists z, int_value t z) /\ is_utf8 r.
Proof.
  intros s y U E. apply rest_sound in E as (x & -> & L). unfold rx_int in L. apply lang_seq in L as (t & e & -> & T & L).
  assert (ND : no_digit (e ++ y)).
  { apply lang_alt in L as [L|L].
    - apply lang_in in L as (b & -> & B). cbn. destruct (is_digit b); [|reflexivity]. rewrite !orb_true_r in B. discriminate.
    - apply lang_end in L as [-> ->]. exact I. }
  rewrite <- app_assoc in *. exists t, (e ++ y). split; [reflexivity|].
  assert (V : (exists z, int_value t z) /\ Forall (fun b => b < 128) t).
  { apply lang_alt in T as [T|T].
    - apply lang_char in T as ->. split; [exists 0%Z; left; auto|ascii].
    - apply rx_digits1 in T as (sg & d & ds & -> & SG & D & DS). split.
      + destruct SG as [->| ->]; eexists; right; exists d, ds; (split; [exact D|]; split; [exact DS|]); [left|right]; split; reflexivity.
      + apply Forall_app. split; [destruct SG as [->| ->]; ascii|]. constructor; [lia|now apply digits_ascii]. }
  destruct V as [[z V] A]. split; [now apply (int_prefix t z)|]. split; [eauto|now apply utf8_ascii in U].
Qed.
Lemma digits1_of : forall p x y, LexRx.lang (rx_plus (RxIn is_digit)) p x y -> digits1 x.
Proof. intros p x y L. apply lang_plus in L as [N F]. split; [exact N|now apply class_digits]. Qed.
Lemma number_sound : forall p x y, LexRx.lang rx_number p x y -> number_text x /\ Forall (fun b => b < 128) x.
Proof.
  intros p x y L. unfold rx_number in L. cbn [rx_seqs] in L. apply lang_seq in L as (i & x1 & -> & LI & L).
  apply lang_seq in L as (f & x2 & -> & LF & L). apply lang_seq in L as (e & x3 & -> & LE & L). apply lang_word in L as [-> _]. rewrite app_nil_r.
  assert (VI : exists sg j, i = sg ++ j /\ (sg = [] \/ sg = [45]) /\ int_text j /\ Forall (fun b => b < 128) i).
  { apply lang_alt in LI as [LI|LI].
    - apply lang_seq in LI as (sg & z & -> & S & Z). apply lang_char in Z as ->.
      assert (SG : sg = [] \/ sg = [45]) by (apply lang_opt in S as [S| ->]; [right; now apply lang_char in S|now left]).
      exists sg, [48]. split; [reflexivity|]. split; [exact SG|]. split; [now left|]. destruct SG as [->| ->]; ascii.
    - apply rx_digits1 in LI as (sg & d & ds & -> & SG & D & DS). exists sg, (d :: ds). split; [reflexivity|]. split; [exact SG|]. split; [right; eauto|].
      apply Forall_app. split; [destruct SG as [->| ->]; ascii|]. constructor; [lia|now apply digits_ascii]. }
  assert (VF : frac_text f /\ Forall (fun b => b < 128) f).
  { apply lang_opt in LF as [LF| ->]; [|split; [now left|constructor]]. apply lang_seq in LF as (z & ds & -> & Z & LF). apply lang_char in Z as ->. apply digits1_of in LF.
    split; [right; exists ds; split; [reflexivity|exact LF]|]. constructor; [lia|]. apply digits_ascii, LF. }
  assert (VE : exp_text e /\ Forall (fun b => b < 128) e).
  { apply lang_opt in LE as [LE| ->]; [|split; [now left|constructor]]. cbn [rx_seqs] in LE. apply lang_seq in LE as (z & x4 & -> & Z & LE). apply lang_any_of in Z as (c & -> & Z).
    apply lang_seq in LE as (sg & ds & -> & S & LE). apply digits1_of in LE.
    assert (SG : sg = [] \/ sg = [43] \/ sg = [45]) by (apply lang_opt in S as [S| ->]; [|now left]; apply lang_any_of in S as (b & -> & B); cbn in B; destruct B as [<-|[<-|[]]]; auto).
    assert (C : c = 101 \/ c = 69) by (cbn in Z; destruct Z as [<-|[<-|[]]]; auto). split.
    - right. exists c, sg, ds. cbn [app]. repeat split; try assumption; try apply LE.
    - constructor; [lia|]. apply Forall_app. split; [destruct SG as [->|[->| ->]]; ascii|apply digits_ascii, LE]. }
  destruct VI as (sg & j & -> & SG & J & AI), VF as [VF AF], VE as [VE AE]. split.
  - exists sg, j, f, e. rewrite <- app_assoc. auto.
  - apply Forall_app; split; [exact AI|]. now apply Forall_app.
Qed.
Lemma lex_sound : forall s k r, is_utf8 s -> lex_one s = Some (k, r) -> s = snd k ++ r /\ good k r.
Proof.
  intros s k r U E. unfold lex_one, lex_table in E. unfold good.
  (* blanks *)
  apply first_inv in E as [(x & -> & -> & N & _ & L)|[_ E]]; [| |reflexivity].
  { cbn [fst snd]. split; [reflexivity|]. split; [exact N|]. apply lang_plus in L as [_ F].
    assert (B : Forall lax_blank x) by (eapply Forall_impl; [|exact F]; intros b B; now apply lax_space). split; [|left; auto].
    apply utf8_ascii in U; [exact U|]. eapply Forall_impl; [|exact B]. unfold lax_blank, blank. lia. }
  (* null *)
  apply first_inv in E as [(x & -> & -> & N & _ & L)|[NN E]]; [| |reflexivity].
  { cbn [fst snd]. split; [reflexivity|]. split; [exact N|]. apply lang_seq in L as (x1 & x2 & -> & A & B). apply lang_text in A as ->. apply lang_word in B as [-> _]. rewrite app_nil_r in *.
    split; [apply utf8_ascii in U; [exact U|ascii]|right; reflexivity]. }
  (* true, false *)
  apply first_inv in E as [(x & -> & -> & N & _ & L)|[NB E]]; [| |reflexivity].
  { cbn [fst snd]. split; [reflexivity|]. split; [exact N|]. apply lang_alt in L as [L|L]; apply lang_seq in L as (x1 & x2 & -> & A & B); apply lang_text in A as ->; apply lang_word in B as [-> _]; rewrite app_nil_r in *;
      (split; [apply utf8_ascii in U; [exact U|ascii]|right; cbn; auto]). }
  (* functions *)
  apply first_inv in E as [(x & -> & -> & N & _ & L)|[_ E]]; [| |reflexivity].
  { cbn [fst snd]. split; [reflexivity|]. split; [exact N|]. cbn [rx_function rx_seqs] in L. unfold rx_function in L. cbn [rx_seqs] in L. apply lang_seq in L as (x1 & x2 & -> & A & L). apply lang_in in A as (c & -> & A).
    apply lang_seq in L as (u & x3 & -> & B & L). apply lang_class in B. apply lang_char in L as ->. cbn [app] in *.
    assert (C : 97 <= c <= 122) by (revert A; classes; discriminate).
    assert (F : Forall (fun b => 97 <= b <= 122 \/ b = 95 \/ 48 <= b <= 57) u) by (eapply Forall_impl; [|exact B]; intros b X; revert X; cbv beta; classes; discriminate).
    split.
    - apply (utf8_ascii ((c :: u) ++ [40])); [|exact U]. apply Forall_app; split; [|ascii]. constructor; [lia|]. eapply Forall_impl; [|exact F]. cbv beta. lia.
    - right. exists (c :: u). split; [reflexivity|]. split; [exists c, u; auto|]. intros [X|[X|[X|[]]]].
      + injection X as <- <-. change (rx_rest rx_null ([110; 117; 108; 108] ++ 40 :: r) = None) in NN. rewrite (takes_rest rx_null [110; 117; 108; 108] (40 :: r)) in NN; [discriminate|].
        apply (takes_seq (rx_text [110; 117; 108; 108]) RxWordEnd None [110; 117; 108; 108] []); [apply takes_text|now apply takes_word].
      + injection X as <- <-. change (rx_rest rx_bool ([116; 114; 117; 101] ++ 40 :: r) = None) in NB. rewrite (takes_rest rx_bool [116; 114; 117; 101] (40 :: r)) in NB; [discriminate|]. apply takes_left.
        apply (takes_seq (rx_text [116; 114; 117; 101]) RxWordEnd None [116; 114; 117; 101] []); [apply takes_text|now apply takes_word].
      + injection X as <- <-. change (rx_rest rx_bool ([102; 97; 108; 115; 101] ++ 40 :: r) = None) in NB. rewrite (takes_rest rx_bool [102; 97; 108; 115; 101] (40 :: r)) in NB; [discriminate|].
        apply takes_right; [apply fails_first; reflexivity|].
        apply (takes_seq (rx_text [102; 97; 108; 115; 101]) RxWordEnd None [102; 97; 108; 115; 101] []); [apply takes_text|now apply takes_word]. }
  (* comparisons *)
  apply first_inv in E as [(x & -> & -> & N & _ & L)|[_ E]]; [| |reflexivity].
  { cbn [fst snd]. split; [reflexivity|]. split; [exact N|].
    assert (I : In x [[61; 61]; [33; 61]; [60; 61]; [62; 61]; [60]; [62]]) by (unfold rx_comparison in L; cbn [rx_alts] in L; pick L; apply lang_text in L as ->; cbn; auto 10).
    split; [|right; exact I]. apply utf8_ascii in U; [exact U|]. cbn in I. repeat destruct I as [<-|I]; try contradiction; ascii. }
  (* descendants *)
  apply first_inv in E as [(x & -> & -> & N & R & L)|[_ E]]; [| |reflexivity].
  { cbn [fst snd]. split; [reflexivity|]. split; [exact N|]. unfold rx_descendant_name in L. cbn [rx_seqs] in L. apply lang_seq in L as (x1 & x2 & -> & A & L). apply lang_char in A as ->.
    apply lang_seq in L as (x1 & x3 & -> & A & L). apply lang_char in A as ->. apply lang_seq in L as (x1 & u & -> & A & L). apply lang_in in A as (b & -> & B). clear L. cbn [app] in *.
    destruct (name_span (u ++ r)) as (u' & v & S & F & EV).
    assert (T : takes rx_descendant_name None (46 :: 46 :: b :: u') v).
    { change (46 :: 46 :: b :: u') with ([46] ++ [46] ++ [b] ++ u'). do 2 (apply takes_seq; [apply takes_in; reflexivity|]). apply takes_seq; [now apply takes_in|]. now apply takes_class. }
    apply takes_rest in T. cbn [app] in T. rewrite <- S, R in T. injection T as ->. apply app_inv_tail in S as ->.
    apply utf8_tail, utf8_tail in U; [|lia|lia]. rewrite app_comm_cons in U. apply utf8_before in U as [U1 U2]; [|now apply ends_ascii]. split; [exact U2|].
    right. exists (b :: u'). split; [reflexivity|]. now apply name_utf8. }
  (* members *)
  apply first_inv in E as [(x & -> & -> & N & R & L)|[_ E]]; [| |reflexivity].
  { cbn [fst snd]. split; [reflexivity|]. split; [exact N|]. unfold rx_member_name in L. cbn [rx_seqs] in L. apply lang_seq in L as (x1 & x2 & -> & A & L). apply lang_char in A as ->.
    apply lang_seq in L as (x1 & u & -> & A & L). apply lang_in in A as (b & -> & B). clear L. cbn [app] in *.
    destruct (name_span (u ++ r)) as (u' & v & S & F & EV).
    assert (T : takes rx_member_name None (46 :: b :: u') v).
    { change (46 :: b :: u') with ([46] ++ [b] ++ u'). apply takes_seq; [apply takes_in; reflexivity|]. apply takes_seq; [now apply takes_in|]. now apply takes_class. }
    apply takes_rest in T. cbn [app] in T. rewrite <- S, R in T. injection T as ->. apply app_inv_tail in S as ->.
    apply utf8_tail in U; [|lia]. rewrite app_comm_cons in U. apply utf8_before in U as [U1 U2]; [|now apply ends_ascii]. split; [exact U2|].
    right. exists (b :: u'). split; [reflexivity|]. now apply name_utf8. }
  (* operators *)
  apply first_inv in E as [(x & -> & -> & N & _ & L)|[_ E]]; [| |reflexivity].
  { cbn [fst snd]. split; [reflexivity|]. split; [exact N|].
    assert (I : In x operators).
    { unfold rx_op in L. cbn [rx_alts] in L. pick L.
      - apply lang_text in L as ->. cbn. auto 20.
      - apply lang_text in L as ->. cbn. auto 20.
      - cbn [rx_seqs] in L. apply lang_seq in L as (x1 & x2 & -> & A & L). apply lang_char in A as ->. apply lang_seq in L as (x1 & x3 & -> & A & L). apply lang_char in A as ->.
        apply lang_any_of in L as (b & -> & L). cbn in L. destruct L as [<-|[<-|[]]]; cbn; auto 20.
      - apply lang_text in L as ->. cbn. auto 20.
      - apply lang_any_of in L as (b & -> & L). cbn in L. repeat destruct L as [<-|L]; try contradiction; cbn; auto 20. }
    split; [|right; exact I]. apply utf8_ascii in U; [exact U|]. cbn in I. repeat destruct I as [<-|I]; try contradiction; ascii. }
  (* integers *)
  cbn [lex_first] in E. destruct (rx_rest rx_int s) as [y|] eqn:R.
  { destruct (int_sound s y U R) as (t & r' & -> & IS & [z V] & U'). rewrite IS in E. destruct (firstn_match t r') as [_ E2]. rewrite E2 in E. injection E as <- <-. cbn [fst snd].
    split; [reflexivity|]. split; [|split; [exact U'|right; exists z; exact V]]. intros ->. apply int_cases in V as [X|(sg & d & ds & [->| ->] & X & _)]; discriminate X. }
  (* numbers *)
  change (lex_first [(LxNumber, rx_number, None); (LxDouble, rx_string 34, None); (LxSingle, rx_string 39, None)] s = Some (k, r)) in E.
  apply first_inv in E as [(x & -> & -> & N & _ & L)|[_ E]]; [| |reflexivity].
  { cbn [fst snd]. split; [reflexivity|]. split; [exact N|]. apply number_sound in L as [V A]. split; [|right; exact V]. now apply utf8_ascii in U. }
  (* strings *)
  assert (ST : forall q x y, quote q -> LexRx.lang (rx_string q) None x y -> is_utf8 (x ++ y) -> is_utf8 y /\ exists c, x = q :: c ++ [q] /\ (q = 34 /\ (exists u, denotes c u) \/ q = 39 /\ exists u, denotes_single c u)).
  { clear. intros q x y Q L U. rewrite string_units in L. cbn [rx_seqs] in L. apply lang_seq in L as (x1 & x2 & -> & A & L). apply lang_char in A as ->.
    apply lang_seq in L as (c & x3 & -> & A & L). apply lang_char in L as ->. apply star_units in A. cbn [app] in *.
    assert (Q' : q < 128) by (destruct Q; lia). apply utf8_tail in U; [|exact Q']. rewrite <- app_assoc in U. cbn [app] in U. apply utf8_split in U as [U1 U2]; [|exact Q'].
    split; [exact U2|]. exists c. split; [reflexivity|]. now apply (units_value q (length c)). }
  apply first_inv in E as [(x & -> & -> & N & _ & L)|[_ E]]; [| |reflexivity].
  { cbn [fst snd]. split; [reflexivity|]. split; [exact N|]. destruct (ST 34 x r (or_introl eq_refl) L U) as (U2 & c & -> & [[_ [u D]]|[X _]]); [|discriminate X]. split; [exact U2|]. right. exists u, c. auto. }
  apply first_inv in E as [(x & -> & -> & N & _ & L)|[_ E]]; [| |reflexivity].
  { cbn [fst snd]. split; [reflexivity|]. split; [exact N|]. destruct (ST 39 x r (or_intror eq_refl) L U) as (U2 & c & -> & [[X _]|[_ [u D]]]); [discriminate X|]. split; [exact U2|]. right. exists u, c. auto. }
  discriminate E.
Qed.

(** What the tokeniser leaves out are blanks. *)
Inductive after : list lextok -> bytes -> Prop :=
| after_nil : after [] []
| after_cons : forall k w ts t, terminal k -> Forall lax_blank w -> after ts t -> after (k :: ts) (snd k ++ w ++ t).
Lemma tokens_sound : forall n s ts, is_utf8 s -> lex_all n s = Some ts -> exists w t, s = w ++ t /\ Forall lax_blank w /\ after ts t.
Proof.
  induction n as [|n IH]; intros s ts U E.
  - destruct s as [|b s]; [|discriminate]. injection E as <-. exists [], []. repeat split; constructor.
  - rewrite lex_all_cons in E. destruct s as [|b s]; [injection E as <-; exists [], []; repeat split; constructor|].
    destruct (lex_one (b :: s)) as [[k r]|] eqn:O; [|discriminate]. apply lex_sound in O as (-> & N & UR & K); [|exact U].
    destruct (lex_all n r) as [us|] eqn:R; [|discriminate]. destruct (IH r us UR R) as (w & t & -> & W & A). injection E as <-. destruct K as [[EK B]|T].
    + rewrite EK. exists (snd k ++ w), t. rewrite <- app_assoc. split; [reflexivity|]. split; [now apply Forall_app|exact A].
    + exists [], (snd k ++ w ++ t). split; [reflexivity|]. split; [constructor|]. destruct k as [[| | | | | | | | | | |] x]; try (now apply (after_cons (_, x))). destruct T.
Qed.
Lemma after_terminal : forall ts t, after ts t -> Forall terminal ts.
Proof. intros ts t H. induction H; constructor; auto. Qed.
Lemma after_app : forall a b t, after (a ++ b) t -> exists t1 t2, t = t1 ++ t2 /\ after a t1 /\ after b t2.
Proof.
  induction a as [|k a IH]; intros b t H; [exists [], t; repeat split; [constructor|exact H]|]. cbn in H. inversion H as [|k' w ts u K W A]; subst.
  apply IH in A as (t1 & t2 & -> & A1 & A2). exists (snd k ++ w ++ t1), t2. rewrite <- !app_assoc. split; [reflexivity|]. split; [now constructor|exact A2].
Qed.

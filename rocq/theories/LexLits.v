(** Numbers, strings and blanks are recognised. *)
From Coq Require Import List NArith ZArith Bool Arith Lia.
From Verif Require Import Base JsonSpec ScalarSpec GrammarModel GrammarSpec LexModel LexRx ParseModel QuerySyntax LexProofs.
Local Open Scope N_scope.

(* ------------------------------------------------------------------ *)
(** Integers. *)
Lemma digits_class : forall ds, Forall digit ds -> Forall (fun b => is_digit b = true) ds.
Proof. intros ds H. eapply Forall_impl; [|exact H]. intros b [A B]. classes. Qed.
Lemma class_digits : forall ds, Forall (fun b => is_digit b = true) ds -> Forall digit ds.
Proof. intros ds H. eapply Forall_impl; [|exact H]. intros b B. revert B. unfold digit. cbv beta. classes; discriminate. Qed.
Definition no_digit (r : bytes) : Prop := match r with b :: _ => is_digit b = false | [] => True end.
Lemma digits_prefix_app : forall ds r, Forall digit ds -> no_digit r -> digits_prefix (ds ++ r) = ds.
Proof.
  intros ds r H. induction H as [|b ds B H IH]; intro E.
  - cbn [app]. destruct r as [|b r]; [reflexivity|]. cbn in *. now rewrite E.
  - cbn. assert (D : is_digit b = true) by (destruct B; classes). now rewrite D, IH.
Qed.
Lemma digit_span : forall d1 d2 r1 r2, Forall digit d1 -> Forall digit d2 -> no_digit r1 -> no_digit r2 ->
  d1 ++ r1 = d2 ++ r2 -> d1 = d2 /\ r1 = r2.
Proof.
  intros d1 d2 r1 r2 F1 F2 N1 N2 E. assert (P := f_equal digits_prefix E). rewrite !digits_prefix_app in P by assumption. subst d2.
  split; [reflexivity|]. now apply app_inv_head in E.
Qed.
Lemma ends_no_digit : forall r, ends_name r -> no_digit r.
Proof. intros [|b r] H; [exact I|]. cbn in *. unfold name_char in H. destruct (is_digit b); [discriminate|reflexivity]. Qed.
Lemma digit1_digit : forall b, 49 <= b <= 57 -> digit b.
Proof. unfold digit. lia. Qed.

(** The text of an integer: an optional sign and digits. *)
Lemma int_cases : forall t z, int_value t z -> t = [48] \/ exists sg d ds, (sg = [] \/ sg = [45]) /\ t = sg ++ d :: ds /\ 49 <= d <= 57 /\ Forall digit ds.
Proof.
  intros t z [[-> _]|(d & ds & D & DS & [[-> _]|[-> _]])]; [now left| |]; right.
  - exists [], d, ds. auto.
  - exists [45], d, ds. auto.
Qed.
Lemma int_prefix : forall t z r, int_value t z -> no_digit r -> int_special (t ++ r) = t.
Proof.
  intros t z r I N. apply int_cases in I as [->|(sg & d & ds & SG & -> & D & DS)].
  - cbn [app int_special]. apply (digits_prefix_app [48]); [repeat constructor; unfold digit; lia|exact N].
  - destruct SG as [->| ->].
    + cbn [app int_special]. destruct (N.eqb_spec d 45); [lia|]. apply (digits_prefix_app (d :: ds)); [constructor; [now apply digit1_digit|exact DS]|exact N].
    + cbn [app int_special N.eqb Pos.eqb]. f_equal. apply (digits_prefix_app (d :: ds)); [constructor; [now apply digit1_digit|exact DS]|exact N].
Qed.
Definition rx_sign : rx := rx_opt (rx_char 45).
Lemma takes_sign : forall sg p d y, (sg = [] \/ sg = [45]) -> d <> 45 -> takes rx_sign p sg (d :: y).
Proof.
  intros sg p d y [->| ->] N.
  - apply takes_opt0, fails_in. apply N.eqb_neq. congruence.
  - apply takes_opt1, takes_in. reflexivity.
Qed.
Lemma takes_digits1 : forall sg p d ds y, (sg = [] \/ sg = [45]) -> 49 <= d <= 57 -> Forall digit ds -> no_digit y ->
  takes (rx_seqs [rx_sign; RxIn is_digit1; RxStar (RxIn is_digit)]) p (sg ++ d :: ds) y.
Proof.
  intros sg p d ds y SG D DS N. apply takes_seq; [apply takes_sign; [exact SG|lia]|]. apply (takes_seq _ _ _ [d] ds).
  - apply takes_in. classes.
  - apply takes_class; [now apply digits_class|exact N].
Qed.
Lemma lex_int : forall t r, terminal (LxInt, t) -> ends_value r -> lex_one (t ++ r) = Some ((LxInt, t), r).
Proof.
  intros t r [z T] E. assert (C := int_cases t z T). unfold lex_one, lex_table.
  assert (ND : no_digit r) by (apply ends_no_digit; now apply ends_value_name).
  assert (SK : forall tb, lex_first ((LxBlank, rx_space, None) :: (LxNull, rx_null, None) :: (LxBool, rx_bool, None) :: (LxFun, rx_function, None) ::
    (LxCmp, rx_comparison, None) :: (LxDesc, rx_descendant_name, None) :: (LxMember, rx_member_name, None) :: (LxOp, rx_op, None) :: tb) (t ++ r) = lex_first tb (t ++ r)).
  { intro tb. destruct C as [->|(sg & d & ds & [->| ->] & -> & D & DS)].
    - do 8 skip. reflexivity.
    - assert (FS : In d [49; 50; 51; 52; 53; 54; 55; 56; 57]).
      { cbn. lia. }
      cbn [In] in FS. clear D. repeat destruct FS as [<-|FS]; try contradiction; do 8 skip; reflexivity.
    - do 8 skip. reflexivity. }
  rewrite SK. clear SK.
  set (nx := RxAlt (RxIn (fun b => negb ((b =? 46) || (b =? 101) || (b =? 69) || is_digit b))) RxTextEnd).
  assert (NX : exists x y, r = x ++ y /\ forall p, takes nx p x y).
  { destruct r as [|b r].
    - exists [], []. split; [reflexivity|]. intro p. apply takes_right; [apply fails_in; exact I|apply takes_end].
    - exists [b], r. split; [reflexivity|]. intro p. apply takes_left, takes_in. destruct E as [E1 E2]. cbn in ND. rewrite ND.
      destruct (N.eqb_spec b 46); [congruence|]. destruct (N.eqb_spec b 101) as [->|]; [discriminate|]. destruct (N.eqb_spec b 69) as [->|]; [discriminate|]. reflexivity. }
  destruct NX as (x & y & RX & NX).
  assert (HIT : exists rest, rx_rest rx_int (t ++ r) = Some rest).
  { exists y. rewrite RX, app_assoc. apply takes_rest. unfold rx_int. fold nx. apply takes_seq; [|apply NX]. rewrite <- RX.
    destruct C as [->|(sg & d & ds & SG & -> & D & DS)].
    - apply takes_left, takes_in. reflexivity.
    - apply takes_right; [|now apply takes_digits1]. apply fails_in. destruct SG as [->| ->]; cbn [app]; [|reflexivity]. apply N.eqb_neq. lia. }
  destruct HIT as [rest HIT]. cbn [lex_first]. rewrite HIT. rewrite (int_prefix t z r T ND). f_equal. f_equal. apply firstn_match.
Qed.

(** Numbers. *)
Lemma fails_opt_seq : forall a b p s, fails (RxSeq a b) p s -> fails b p s -> fails (RxSeq (rx_opt a) b) p s.
Proof. intros a b p s A B X k. specialize (A X k). specialize (B X k). unfold rx_opt. cbn [rx_match] in *. rewrite A. exact B. Qed.
Lemma app_digit : forall d r, digit d -> no_digit (d :: r) -> False.
Proof. intros d r D N. cbn in N. revert N. destruct D. classes; discriminate. Qed.
Lemma frac_exp_end : forall f e r, frac_text f -> exp_text e -> ends_name r -> no_digit (f ++ e ++ r).
Proof.
  intros f e r F E R. destruct F as [->|(ds & -> & _)]; [|reflexivity]. destruct E as [->|(x & sg & ds & -> & [->| ->] & _)]; [|reflexivity|reflexivity].
  now apply ends_no_digit.
Qed.
Lemma int_text_value : forall i, int_text i -> exists z, int_value i z.
Proof.
  intros i [->|(d & ds & -> & D & DS)]; [exists 0%Z; left; auto|]. eexists. right. exists d, ds. split; [exact D|]. split; [exact DS|]. left. split; reflexivity.
Qed.
Lemma number_int : forall sg i f e r, (sg = [] \/ sg = [45]) -> int_text i -> frac_text f -> exp_text e -> ends_value r ->
  (exists z, int_value (sg ++ i ++ f ++ e) z) \/ rx_rest rx_int ((sg ++ i ++ f ++ e) ++ r) = None.
Proof.
  intros sg i f e r SG I F E R. destruct (rx_rest rx_int ((sg ++ i ++ f ++ e) ++ r)) as [y|] eqn:M; [left|now right].
  apply rest_sound in M as (x & EQ & L). unfold rx_int in L. apply lang_seq in L as (x1 & x2 & -> & A & B).
  rewrite <- app_assoc in EQ.
  assert (N2 : no_digit (x2 ++ y)).
  { apply lang_alt in B as [B|B]; [apply lang_in in B as (b & -> & B); cbn|apply lang_end in B as [-> ->]; exact Logic.I].
    destruct (is_digit b); [rewrite orb_true_r in B; discriminate|reflexivity]. }
  assert (FE : f ++ e ++ r = x2 ++ y -> f = [] /\ e = []).
  { intro Q. assert (B0 : match x2 ++ y with b :: _ => b <> 46 /\ b <> 101 /\ b <> 69 | [] => True end).
    { apply lang_alt in B as [B|B]; [apply lang_in in B as (b & -> & B); cbn|apply lang_end in B as [-> ->]; exact Logic.I].
      split; [|split]; intros ->; discriminate. }
    rewrite <- Q in B0. destruct F as [->|(ds & -> & _)]; [|cbn in B0; tauto]. split; [reflexivity|].
    destruct E as [->|(xe & sg' & ds & -> & XE & _)]; [reflexivity|]. cbn in B0. intuition congruence. }
  assert (ND := frac_exp_end f e r F E (ends_value_name r R)).
  apply lang_alt in A as [A|A].
  - apply lang_char in A as ->. destruct SG as [->| ->]; [|discriminate EQ]. cbn [app] in EQ. destruct I as [->|(d & ds & -> & D & DS)].
    + cbn in EQ. injection EQ as EQ. destruct FE as [-> ->]; [rewrite <- app_assoc in EQ; exact EQ|]. exists 0%Z. left. split; reflexivity.
    + cbn in EQ. injection EQ as EQ1 _. lia.
  - cbn [rx_seqs] in A. apply lang_seq in A as (s1 & s2 & -> & A1 & A2). apply lang_seq in A2 as (s3 & s4 & -> & A3 & A4).
    apply lang_in in A3 as (d1 & -> & D1). apply lang_class, class_digits in A4.
    assert (D1' : 49 <= d1 <= 57) by (revert D1; classes; discriminate).
    assert (S1 : s1 = [] \/ s1 = [45]) by (apply lang_opt in A1 as [A1|A1]; [right; now apply lang_char in A1|now left]).
    assert (EQ' : i ++ f ++ e ++ r = d1 :: s4 ++ x2 ++ y /\ sg = s1).
    { rewrite <- !app_assoc in EQ. cbn [app] in EQ. destruct SG as [->| ->], S1 as [->| ->]; cbn [app] in EQ.
      - now split.
      - exfalso. destruct I as [->|(d & ds & -> & D & DS)]; cbn in EQ; injection EQ as Q _; lia.
      - exfalso. injection EQ as Q _; lia.
      - injection EQ as EQ. now split. }
    destruct EQ' as [EQ' ->]. destruct I as [->|(d & ds & -> & D & DS)]; [cbn in EQ'; injection EQ' as Q _; lia|]. cbn in EQ'. injection EQ' as -> EQ'.
    apply digit_span in EQ' as [-> Q]; [|exact DS|exact A4|exact ND|exact N2]. destruct (FE Q) as [-> ->]. rewrite !app_nil_r.
    destruct S1 as [->| ->]; eexists; right; exists d1, s4; (split; [exact D|]); (split; [exact DS|]); [left|right]; split; reflexivity.
Qed.
Lemma first_frac : forall c, first_of (RxSeq (rx_char 46) (rx_plus (RxIn is_digit))) c = (46 =? c).
Proof. intro c. cbn [first_of rx_char nullable orb]. now rewrite orb_false_r. Qed.
Lemma takes_digits : forall ds p y, digits1 ds -> no_digit y -> takes (rx_plus (RxIn is_digit)) p ds y.
Proof.
  intros ds p y [N DS] E. destruct ds as [|d ds]; [congruence|]. inversion DS; subst. apply (takes_seq _ _ _ [d]); [apply takes_in; destruct H1; classes|].
  apply takes_class; [now apply digits_class|exact E].
Qed.
Lemma takes_frac : forall ds p y, digits1 ds -> no_digit y -> takes (RxSeq (rx_char 46) (rx_plus (RxIn is_digit))) p (46 :: ds) y.
Proof. intros ds p y D E. apply (takes_seq _ _ _ [46]); [apply takes_in; reflexivity|now apply takes_digits]. Qed.
Lemma takes_number : forall sg i f e r p, (sg = [] \/ sg = [45]) -> int_text i -> frac_text f -> exp_text e -> ends_value r ->
  takes rx_number p (sg ++ i ++ f ++ e) r.
Proof.
  intros sg i f e r p SG I F E R. unfold rx_number. cbn [rx_seqs]. rewrite app_assoc. apply takes_seq.
  - rewrite <- app_assoc. assert (ND := frac_exp_end f e r F E (ends_value_name r R)). destruct I as [->|(d & ds & -> & D & DS)].
    + apply takes_left. apply takes_seq; [apply takes_sign; [exact SG|lia]|]. apply takes_in. reflexivity.
    + apply takes_right; [|now apply (takes_digits1 sg p d ds)].
      assert (Z : forall q s, fails (rx_char 48) q (d :: s)) by (intros q s; apply fails_in; apply N.eqb_neq; lia).
      destruct SG as [->| ->]; apply fails_opt_seq.
      * apply fails_seq, fails_in. cbn [app]. apply N.eqb_neq. lia.
      * apply Z.
      * apply fails_after_in. intros _. apply Z.
      * apply fails_in. reflexivity.
  - assert (PW : wordy (lastp p (sg ++ i)) = true).
    { rewrite lastp_app. destruct I as [->|(d & ds & -> & D & DS)]; [reflexivity|].
      destruct ds as [|a ds] using rev_ind; [cbn [lastp wordy]; classes|]. rewrite app_comm_cons, lastp_snoc. apply Forall_app in DS as [_ DS]. inversion DS; subst.
      match goal with H : digit _ |- _ => destruct H end. cbn [wordy]. classes. }
    revert PW. generalize (lastp p (sg ++ i)); clear p; intros p PW.
    assert (NE : forall q, fails (rx_seqs [rx_any_of [101; 69]; rx_opt (rx_any_of [43; 45]); rx_plus (RxIn is_digit)]) q r).
    { intro q. apply fails_first; [reflexivity|]. destruct r as [|b r]; [exact Logic.I|]. destruct R as [R _].
      cbn [first_of rx_seqs rx_any_of existsb nullable orb]. destruct (N.eqb_spec b 101) as [->|]; [discriminate|]. destruct (N.eqb_spec b 69) as [->|]; [discriminate|]. reflexivity. }
    assert (W : forall q, wordy q = true -> takes RxWordEnd q [] r).
    { intros q Q. apply takes_word. now rewrite Q, (ends_word r (ends_value_name r R)). }
    assert (LD : forall ds q, digits1 ds -> wordy (lastp q ds) = true).
    { intros ds q [N DS]. destruct ds as [|a ds] using rev_ind; [congruence|]. rewrite lastp_snoc. apply Forall_app in DS as [_ DS]. inversion DS; subst.
      match goal with H : digit _ |- _ => destruct H end. cbn [wordy]. classes. }
    destruct E as [->|(x & xs & ds & -> & X & XS & XD)].
    + rewrite app_nil_r. destruct F as [->|(ds & -> & FD)].
      * apply (takes_seq _ _ p [] []); [apply takes_opt0; apply fails_first; [reflexivity|]; cbn [app]; destruct r as [|b r]; [exact Logic.I|]; rewrite first_frac; apply N.eqb_neq; destruct R; congruence|].
        apply (takes_seq _ _ p [] []); [apply takes_opt0, NE|apply W, PW].
      * rewrite <- (app_nil_r (46 :: ds)). apply takes_seq; [apply takes_opt1, takes_frac; [exact FD|now apply ends_no_digit, ends_value_name]|].
        apply (takes_seq _ _ _ [] []); [apply takes_opt0, NE|]. apply W. exact (LD ds (Some 46) FD).
    + apply takes_seq.
      * destruct F as [->|(ds' & -> & FD)].
        -- apply takes_opt0. apply fails_first; [reflexivity|]. cbn [app]. rewrite first_frac. apply N.eqb_neq. intros <-. destruct X; discriminate.
        -- apply takes_opt1, takes_frac; [exact FD|]. destruct X as [->| ->]; reflexivity.
      * rewrite <- (app_nil_r (x :: xs ++ ds)). apply takes_seq.
        -- apply takes_opt1. apply (takes_seq _ _ _ [x]); [apply takes_any; destruct X as [->| ->]; cbn; tauto|]. apply takes_seq.
           ++ destruct XD as [XN XD]. destruct ds as [|d ds]; [congruence|]. inversion XD; subst. unfold digit in *. destruct XS as [->|[->| ->]].
              ** apply takes_opt0, fails_in. cbn [app existsb orb]. destruct (N.eqb_spec d 43); [lia|]. destruct (N.eqb_spec d 45); [lia|]. reflexivity.
              ** apply takes_opt1, takes_any. cbn. tauto.
              ** apply takes_opt1, takes_any. cbn. tauto.
           ++ apply takes_digits; [exact XD|]. now apply ends_no_digit, ends_value_name.
        -- apply W. cbn [lastp]. rewrite lastp_app. now apply LD.
Qed.
Lemma lex_number : forall t r, number_text t -> ends_value r ->
  (exists z, int_value t z) \/ lex_one (t ++ r) = Some ((LxNumber, t), r).
Proof.
  intros t r (sg & i & f & e & -> & SG & I & F & E) R.
  destruct (number_int sg i f e r SG I F E R) as [Z|NI]; [now left|right].
  assert (TN := takes_number sg i f e r None SG I F E R). set (t := sg ++ i ++ f ++ e) in *.
  assert (H : exists b u, t = b :: u /\ In b [45; 48; 49; 50; 51; 52; 53; 54; 55; 56; 57]).
  { subst t. destruct SG as [->| ->]; [|cbn; eauto 20]. destruct I as [->|(d & ds & -> & D & _)]; [cbn; eauto 20|]. cbn. exists d. eexists. split; [reflexivity|]. lia. }
  destruct H as (b & u & Q & B). unfold lex_one, lex_table.
  assert (SK : forall tb, lex_first ((LxBlank, rx_space, None) :: (LxNull, rx_null, None) :: (LxBool, rx_bool, None) :: (LxFun, rx_function, None) ::
    (LxCmp, rx_comparison, None) :: (LxDesc, rx_descendant_name, None) :: (LxMember, rx_member_name, None) :: (LxOp, rx_op, None) :: tb) (t ++ r) = lex_first tb (t ++ r)).
  { intro tb. rewrite Q. cbn [In] in B. repeat destruct B as [<-|B]; try contradiction; do 8 skip; reflexivity. }
  rewrite SK. rewrite first_skip by exact NI. now apply first_hit.
Qed.

(* ------------------------------------------------------------------ *)
(** Strings. *)
Definition rx_unit (q : N) : rx :=
  rx_alts [
      RxSeq (rx_char 92) (rx_any_of [98; 102; 110; 114; 116; 47; 92; q]);
      rx_seqs [rx_char 92; rx_char 117; RxIn (fun b => is_hex b && negb ((b =? 68) || (b =? 100))); RxIn is_hex; RxIn is_hex; RxIn is_hex];
      rx_seqs [rx_char 92; rx_char 117; rx_any_of [68; 100]; RxIn (LexModel.between 48 55); RxIn is_hex; RxIn is_hex];
      rx_seqs [rx_char 92; rx_char 117; rx_any_of [68; 100]; rx_any_of [56; 57; 65; 66; 97; 98]; RxIn is_hex; RxIn is_hex;
               rx_char 92; rx_char 117; rx_any_of [68; 100]; RxIn (fun b => LexModel.between 67 70 b || LexModel.between 99 102 b); RxIn is_hex; RxIn is_hex];
      RxIn (fun b => (32 <=? b) && negb (b =? q) && negb (b =? 92))].
Lemma string_units : forall q, rx_string q = rx_seqs [rx_char q; RxStar (rx_unit q); rx_char q].
Proof. reflexivity. Qed.

Definition quote (q : N) : Prop := q = 34 \/ q = 39.
Lemma fails_unit_quote : forall q p r, quote q -> fails (rx_unit q) p (q :: r).
Proof. intros q p r [->| ->]; apply fails_first; reflexivity. Qed.
Lemma takes_byte : forall q b p y, 32 <= b -> b <> q -> b <> 92 -> takes (rx_unit q) p [b] y.
Proof.
  intros q b p y L Q S. assert (E : (92 =? b) = false) by (apply N.eqb_neq; congruence).
  do 4 (apply takes_right; [apply fails_seq, fails_in; exact E|]). apply takes_in. cbv beta.
  destruct (N.leb_spec 32 b); [|lia]. destruct (N.eqb_spec b q); [congruence|]. destruct (N.eqb_spec b 92); [congruence|]. reflexivity.
Qed.
Lemma takes_letter : forall q b p y, In b [98; 102; 110; 114; 116; 47; 92; q] -> takes (rx_unit q) p [92; b] y.
Proof. intros q b p y H. apply takes_left. apply (takes_seq _ _ _ [92] [b]); [apply takes_in; reflexivity|now apply takes_any]. Qed.
Lemma fails_letter : forall q p y, quote q -> fails (RxSeq (rx_char 92) (rx_any_of [98; 102; 110; 114; 116; 47; 92; q])) p (92 :: 117 :: y).
Proof. intros q p y [->| ->]; apply fails_after_in; intros _; apply fails_in; reflexivity. Qed.
Lemma hex_class : forall b v, hex_digit b v -> is_hex b = true.
Proof. intros b v H. assert (48 <= b <= 57 \/ 97 <= b <= 102 \/ 65 <= b <= 70) by (unfold hex_digit in H; lia). classes. Qed.
Lemma hex_d : forall b v, hex_digit b v -> ((b =? 68) || (b =? 100) = (v =? 13)).
Proof. intros b v H. destruct H as [[A ->]|[[A ->]|[A ->]]]; destruct (N.eqb_spec b 68), (N.eqb_spec b 100); subst; cbn; tests. Qed.
Lemma hex_range : forall b v, hex_digit b v -> v <= 15.
Proof. intros b v H. unfold hex_digit in H. lia. Qed.
Lemma hex_split : forall v x y z w, y <= 15 -> z <= 15 -> w <= 15 -> v = 4096 * x + 256 * y + 16 * z + w ->
  4096 * x <= v < 4096 * x + 4096 /\ 4096 * x + 256 * y <= v < 4096 * x + 256 * y + 256.
Proof. intros. lia. Qed.
Ltac byte := apply (takes_seq _ _ _ [_] (_ :: _)); [apply takes_in|].
Lemma takes_hex : forall q a b c d v p y, quote q -> hex_number a b c d v -> unicode v -> takes (rx_unit q) p [92; 117; a; b; c; d] y.
Proof.
  intros q a b c d v p y Q (x & y0 & z & w & A & B & C & D & V) U.
  apply takes_right; [now apply fails_letter|]. destruct (N.eqb_spec x 13) as [X|X].
  - apply takes_right.
    { cbn [app]. apply fails_after_in; intros _. apply fails_after_in; intros _. apply fails_after_in. rewrite (hex_d a x A), X, andb_false_r. discriminate. }
    apply takes_left. cbn [rx_seqs]. byte; [reflexivity|]. byte; [reflexivity|]. byte; [|byte; [|byte; [|apply takes_in]]].
    + change (existsb (N.eqb a) [68; 100]) with ((a =? 68) || ((a =? 100) || false)). rewrite orb_false_r, (hex_d a x A), X. reflexivity.
    + assert (Y8 : y0 < 8).
      { destruct (hex_split v x y0 z w) as [V1 V2]; [now apply hex_range in B|now apply hex_range in C|now apply hex_range in D|exact V|]. apply hex_range in B. unfold unicode in U. clear - X U V1 V2 B. lia. }
      unfold hex_digit in B. assert (48 <= b <= 55) by (clear - B Y8; lia). clear - H. classes.
    + now apply hex_class in C.
    + now apply hex_class in D.
  - apply takes_left. cbn [rx_seqs]. byte; [reflexivity|]. byte; [reflexivity|]. byte; [|byte; [|byte; [|apply takes_in]]].
    + rewrite (hex_d a x A), (hex_class a x A). apply N.eqb_neq in X. now rewrite X.
    + now apply hex_class in B.
    + now apply hex_class in C.
    + now apply hex_class in D.
Qed.
Lemma takes_pair : forall q a b c d v a' b' c' d' v' p y, quote q -> hex_number a b c d v -> hex_number a' b' c' d' v' ->
  55296 <= v < 56320 -> 56320 <= v' < 57344 -> takes (rx_unit q) p [92; 117; a; b; c; d; 92; 117; a'; b'; c'; d'] y.
Proof.
  intros q a b c d v a' b' c' d' v' p y Q (x & y0 & z & w & A & B & C & D & V) (x' & y0' & z' & w' & A' & B' & C' & D' & V') R R'.
  destruct (hex_split v x y0 z w) as [X Y]; [now apply hex_range in B|now apply hex_range in C|now apply hex_range in D|exact V|].
  destruct (hex_split v' x' y0' z' w') as [X' Y']; [now apply hex_range in B'|now apply hex_range in C'|now apply hex_range in D'|exact V'|].
  assert (XX : x = 13) by (clear - X R; lia). assert (YY : 8 <= y0 <= 11) by (clear - X Y R; lia).
  assert (XX' : x' = 13) by (clear - X' R'; lia). assert (YY' : 12 <= y0' <= 15) by (clear - X' Y' R'; lia).
  clear X Y X' Y'. rename XX into X, YY into Y, XX' into X', YY' into Y'.
  assert (DC : forall e x, hex_digit e x -> x = 13 -> existsb (N.eqb e) [68; 100] = true).
  { intros e f E ->. change (existsb (N.eqb e) [68; 100]) with ((e =? 68) || ((e =? 100) || false)). rewrite orb_false_r, (hex_d e 13 E). reflexivity. }
  apply takes_right; [now apply fails_letter|]. apply takes_right.
  { cbn [app]. apply fails_after_in; intros _. apply fails_after_in; intros _. apply fails_after_in. rewrite (hex_d a x A), X, andb_false_r. discriminate. }
  apply takes_right.
  { cbn [app]. apply fails_after_in; intros _. apply fails_after_in; intros _. apply fails_after_in; intros _. apply fails_after_in. intro F. exfalso. revert F.
    unfold hex_digit in B. assert (BB : b = 56 \/ b = 57 \/ 65 <= b <= 66 \/ 97 <= b <= 98) by (clear - B Y; lia). clear - BB. classes; discriminate. }
  apply takes_left. cbn [rx_seqs].
  byte; [reflexivity|]. byte; [reflexivity|]. byte; [now apply (DC a x)|]. byte.
  { unfold hex_digit in B. assert (In b [56; 57; 65; 66; 97; 98]) by (clear - B Y; cbn; lia). apply existsb_exists. exists b. split; [assumption|apply N.eqb_refl]. }
  byte; [now apply hex_class in C|]. byte; [now apply hex_class in D|].
  byte; [reflexivity|]. byte; [reflexivity|]. byte; [now apply (DC a' x')|]. byte.
  { unfold hex_digit in B'. assert (BB : 67 <= b' <= 70 \/ 99 <= b' <= 102) by (clear - B' Y'; lia). clear - BB. classes. }
  byte; [now apply hex_class in C'|]. apply takes_in. now apply hex_class in D'.
Qed.
Lemma iterates_bytes : forall q x l y, Forall (fun b => 32 <= b /\ b <> q /\ b <> 92) x -> (forall p, iterates (rx_unit q) p l y) ->
  forall p, iterates (rx_unit q) p (x ++ l) y.
Proof.
  intros q x l y F. induction F as [|b x (B1 & B2 & B3) F IH]; intros H p; [apply H|]. apply (it_one _ _ [b] (x ++ l)); [discriminate|now apply takes_byte|]. now apply IH.
Qed.
Lemma utf8_plain : forall q c, quote q -> unicode c -> 32 <= c -> c <> q -> c <> 92 -> Forall (fun b => 32 <= b /\ b <> q /\ b <> 92) (utf8 c).
Proof.
  intros q c Q U L N1 N2. destruct (N.lt_ge_cases c 128) as [H|H].
  - rewrite utf8_low by exact H. repeat constructor; assumption.
  - destruct (utf8_high c H U) as [F _]. eapply Forall_impl; [|exact F]. cbn. intros b B. destruct Q; lia.
Qed.
Lemma iterates_double : forall c u, denotes c u -> forall r p, iterates (rx_unit 34) p c (34 :: r).
Proof.
  assert (Q : quote 34) by (now left).
  intros c u H r. induction H as [|c l u U L N1 N2 H IH|b v l u B H IH|a b c d v l u B U H IH|a b c d v a' b' c' d' v' l u B B' V V' H IH]; intro p.
  - apply it_end. now apply fails_unit_quote.
  - apply iterates_bytes; [now apply utf8_plain|exact IH].
  - apply (it_one _ _ [92; b] l); [discriminate| |apply IH]. apply takes_letter. unfold letter_value in B. cbn in B. cbn. intuition congruence.
  - apply (it_one _ _ [92; 117; a; b; c; d] l); [discriminate| |apply IH]. now apply (takes_hex 34 a b c d v).
  - apply (it_one _ _ [92; 117; a; b; c; d; 92; 117; a'; b'; c'; d'] l); [discriminate| |apply IH]. now apply (takes_pair 34 a b c d v a' b' c' d' v').
Qed.
Lemma iterates_single : forall c u, denotes_single c u -> forall r p, iterates (rx_unit 39) p c (39 :: r).
Proof.
  assert (Q : quote 39) by (now right).
  intros c u H r. induction H as [|c l u U L N1 N2 H IH|l u H IH|b v l u B NB H IH|a b c d v l u B U H IH|a b c d v a' b' c' d' v' l u B B' V V' H IH]; intro p.
  - apply it_end. now apply fails_unit_quote.
  - apply iterates_bytes; [now apply utf8_plain|exact IH].
  - apply (it_one _ _ [92; 39] l); [discriminate| |apply IH]. apply takes_letter. cbn. tauto.
  - apply (it_one _ _ [92; b] l); [discriminate| |apply IH]. apply takes_letter. unfold letter_value in B. cbn in B. cbn. intuition congruence.
  - apply (it_one _ _ [92; 117; a; b; c; d] l); [discriminate| |apply IH]. now apply (takes_hex 39 a b c d v).
  - apply (it_one _ _ [92; 117; a; b; c; d; 92; 117; a'; b'; c'; d'] l); [discriminate| |apply IH]. now apply (takes_pair 39 a b c d v a' b' c' d' v').
Qed.
Lemma takes_string : forall q c r p, (forall p, iterates (rx_unit q) p c (q :: r)) -> takes (rx_string q) p (q :: c ++ [q]) r.
Proof.
  intros q c r p H. rewrite string_units. apply (takes_seq _ _ _ [q]); [apply takes_in, N.eqb_refl|].
  apply takes_seq; [apply takes_star; exact (H _)|]. apply takes_in, N.eqb_refl.
Qed.
Lemma lex_double : forall t r, terminal (LxDouble, t) -> lex_one (t ++ r) = Some ((LxDouble, t), r).
Proof.
  intros t r (u & c & -> & D). unfold lex_one, lex_table. do 10 skip. apply first_hit. apply takes_string. intro p. exact (iterates_double c u D r p).
Qed.
Lemma lex_single : forall t r, terminal (LxSingle, t) -> lex_one (t ++ r) = Some ((LxSingle, t), r).
Proof.
  intros t r (u & c & -> & D). unfold lex_one, lex_table. do 11 skip. apply first_hit. apply takes_string. intro p. exact (iterates_single c u D r p).
Qed.

(* ------------------------------------------------------------------ *)
(** Blanks. *)
Lemma lax_space : forall b, lax_blank b <-> is_space b = true.
Proof.
  intro b. unfold lax_blank, blank, is_space. destruct (N.eqb_spec b 9), (N.eqb_spec b 10), (N.eqb_spec b 12), (N.eqb_spec b 13), (N.eqb_spec b 32); cbn; split; intro H; subst; try reflexivity; try tauto; try discriminate; lia.
Qed.
Definition no_space (r : bytes) : Prop := match r with b :: _ => is_space b = false | [] => True end.
Lemma lex_blanks : forall w r, Forall lax_blank w -> w <> [] -> no_space r -> lex_one (w ++ r) = Some ((LxBlank, w), r).
Proof.
  intros w r W N E. unfold lex_one, lex_table. apply first_hit. destruct W as [|b w B W]; [congruence|].
  apply (takes_seq _ _ _ [b]); [apply takes_in; now apply lax_space|]. apply takes_class; [|exact E].
  eapply Forall_impl; [|exact W]. intros c C. now apply lax_space.
Qed.

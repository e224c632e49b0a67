(** Facts about tables. *)
From Coq Require Import String List Arith ZArith NArith Bool Lia.
From Verif Require Import Base Tokens ScannerModel JsonSpec ScalarSpec GoLiteral EqualSpec P_Scalar P_Equal CsvSpec P_Csv PathSpec PathTame CursorModel
  FormatModel CliModel CliSpec P_Cli RecipeSpec TableSpec EncSpec ScalarProofs JsonDecValue.
Import ListNotations.

Lemma value_number : forall f n m e, num_value f n m e -> number_text f.
Proof.
  intros f n m e (i & fr & x & -> & I1 & F & X & _). exists (if n then [45%N] else []), i, fr, x.
  split; [reflexivity|]. split; [destruct n; auto|]. auto.
Qed.

Lemma escaped_same : forall t, escaped t = t -> ~ In 92%N t.
Proof.
  assert (L : forall t, length t <= length (escaped t)).
  { induction t as [|b t IH]; [apply le_n|]. unfold escaped in *. cbn [flat_map]. rewrite app_length. cbn [length].
    unfold escaped_byte at 1. destruct (b =? 34)%N, (b =? 92)%N, (b =? 10)%N; cbn [length]; lia. }
  intros t E. assert (LE : length (escaped t) = length t) by now rewrite E. clear E. induction t as [|b t IH]; [intros []|].
  unfold escaped in *. cbn [flat_map] in LE. rewrite app_length in LE. cbn [length] in LE. pose proof (L t) as LT. unfold escaped in LT.
  unfold escaped_byte at 1 in LE. destruct (N.eqb_spec b 34) as [->|N1]; [cbn [length] in LE; lia|].
  destruct (N.eqb_spec b 92) as [->|N2]; [cbn [length] in LE; lia|].
  destruct (N.eqb_spec b 10) as [->|N3]; cbn [length] in LE; [lia|].
  intros [X|X]; [congruence|]. apply IH; [lia|exact X].
Qed.

Lemma name_characters : forall u k, Forall (fun c => unicode c /\ (32 <= c \/ c = 10)%N) u -> string_of (flat_map utf8 u) k ->
  denotes (escaped (flat_map utf8 u)) u.
Proof.
  intros u k F S. pose proof (C21_strings_denote_the_field u k F S) as D. destruct S as (_ & B & _). rewrite B in D.
  unfold EncSpec.contents in D. cbn [tl] in D. rewrite removelast_last in D. exact D.
Qed.

Lemma string_decent : forall f k, legible f -> string_of f k -> decent k.
Proof.
  intros f k (u & -> & F) S. pose proof (name_characters u k F S) as D. destruct S as (T & B & U & _). split.
  - unfold readable. rewrite T. exists (escaped (flat_map utf8 u)), u. split; [exact B|]. split; [exact D|].
    intro X. rewrite (U X). apply escaped_same. auto.
  - intro X. congruence.
Qed.

Lemma string_spells : forall f k name, legible f -> string_of f k -> (spells k name <-> name = f).
Proof.
  intros f k name (u & -> & F) S. pose proof (name_characters u k F S) as D. destruct S as (T & B & U & _). split.
  - intros (v & (_ & c & B' & D') & ->). rewrite B in B'. injection B' as B'. apply app_inj_tail in B' as [<- _]. now rewrite (denotes_unique _ _ _ D' D).
  - intros ->. exists u. split; [|reflexivity]. split; [exact T|]. eauto.
Qed.

Lemma string_same : forall f g k l, legible f -> legible g -> string_of f k -> string_of g l -> same_scalar_value k l -> f = g.
Proof.
  intros f g k l LF LG SK SL (T & H). pose proof SK as (T1 & B1 & _). pose proof SL as (T2 & B2 & _). rewrite T1 in H.
  destruct H as (c & c' & u & E1 & E2 & D1 & D2).
  assert (X : spells k (flat_map utf8 u)) by (exists u; split; [split; eauto|reflexivity]).
  assert (Y : spells l (flat_map utf8 u)) by (exists u; split; [split; eauto|reflexivity]).
  apply (string_spells f k _ LF SK) in X. apply (string_spells g l _ LG SL) in Y. congruence.
Qed.

Lemma cell_field : forall f s, cell f -> decoded_value f s -> field_value f s.
Proof.
  intros f s C [V|(t & r & E & NE & NT & NF & F & ->)]; [exact V|]. destruct C as [->|[(n & m & e & V & _)|[_ X]]]; [|destruct (NF (value_number _ _ _ _ V))|contradiction].
  symmetry in E. apply app_eq_nil in E. destruct E. contradiction.
Qed.

Lemma cell_decent : forall f s, cell f -> field_value f s -> decent s.
Proof.
  intros f s C V. destruct V as [| | |f N|f s N0 N1 N2 N3 S].
  - split; [exact I|discriminate].
  - split; [now left|discriminate].
  - split; [now right|discriminate].
  - destruct C as [->|[(n & m & e & V & R)|[_ X]]].
    + destruct (number_first [] N) as (b & t & Q & _). discriminate.
    + split; [exists n, m, e; exact V|]. intros _. eauto.
    + destruct (X (number_numeric f N)).
  - destruct C as [->|[(n & m & e & V & R)|[L X]]]; [congruence|destruct (N3 (value_number _ _ _ _ V))|]. eapply string_decent; eauto.
Qed.

(* ------------------------------------------------------------------ *)
(** The members for the rows of a table. *)
Lemma members_row : forall all names done row ms, all = done ++ names -> length row = length names -> Forall cell row ->
  members_for all (length done) row ms ->
  Forall2 (fun nf m => string_of (fst nf) (fst m) /\ exists s, snd m = JScalar s /\ field_value (snd nf) s) (combine names row) ms.
Proof.
  intros all names. induction names as [|n names IH]; intros done row ms E L C M.
  - destruct row; [|discriminate]. inversion M; subst. constructor.
  - destruct row as [|f row]; [discriminate|]. inversion M as [|? ? ? n' k s ms' NF SO DV M']; subst. inversion C as [|? ? C1 C2]; subst.
    cbn [combine]. unfold names_field in NF. rewrite nth_error_app2, Nat.sub_diag in NF by apply le_n. cbn [nth_error] in NF. subst n'.
    constructor; [cbn [fst snd]; split; [exact SO|]; exists s; split; [reflexivity|now apply cell_field]|].
    apply (IH (done ++ [n])); [now rewrite <- app_assoc|cbn in L; lia|exact C2|]. rewrite app_length. cbn [length]. now rewrite Nat.add_1_r.
Qed.
Lemma record_row : forall names row v, length row = length names -> Forall cell row -> record_value true names row v -> row_value names row v.
Proof. intros names row v L C (ms & -> & M). exists ms. split; [reflexivity|]. exact (members_row names names [] row ms eq_refl L C M). Qed.

Lemma row_tokens : forall (l : list (scalar * jval)), (forall m, In m l -> exists s, snd m = JScalar s) ->
  length (flat_map key_toks l) = 2 * length l.
Proof.
  induction l as [|m l IH]; intro H; [reflexivity|]. cbn [flat_map length]. rewrite app_length, IH by (intros; apply H; now right).
  destruct (H m (or_introl eq_refl)) as [s E]. destruct m as [k x]. cbn [snd] in E. subst x. cbn. lia.
Qed.

Lemma forall2_length : forall {A B} (R : A -> B -> Prop) l m, Forall2 R l m -> length l = length m.
Proof. intros A B R l m F. induction F; cbn; congruence. Qed.
Lemma forall2_right : forall {A B} (R : A -> B -> Prop) l m y, Forall2 R l m -> In y m -> exists x, In x l /\ R x y.
Proof.
  intros A B R l m y F. induction F as [|a b l m H F IH]; intros [].
  - subst. exists a. split; [now left|exact H].
  - destruct (IH H0) as (x & X & Y). exists x. split; [now right|exact Y].
Qed.

Lemma row_clean : forall names row v, Forall legible names -> NoDup names -> (2 * Z.of_nat (length names) + 2 < 2 ^ 53)%Z ->
  length row = length names -> Forall cell row -> row_value names row v -> clean v.
Proof.
  intros names row v LG ND SZ LE CE (ms & -> & F).
  assert (SC : forall m, In m ms -> exists s, snd m = JScalar s).
  { clear - F. induction F as [|a m l ms (_ & s & E & _) F IH]; intros x X; [destruct X|]. destruct X as [<-|X]; [eauto|auto]. }
  assert (LM : length ms = length names).
  { clear - F LE. pose proof (forall2_length _ _ _ F) as Q. rewrite combine_length in Q. lia. }
  split; [|split].
  - constructor.
    + clear - F LG CE. revert names row LG CE F. induction ms as [|m ms IH]; intros names row LG CE F; [constructor|].
      destruct names as [|n names], row as [|f row]; cbn [combine] in F; try (inversion F; fail).
      inversion F as [|? ? ? ? (S & s & E & V) F']; subst. inversion LG; subst. inversion CE; subst. destruct m as [k x]. cbn [fst snd] in *. subst x.
      constructor; [eapply string_decent; eauto|constructor; eapply cell_decent; eauto|eauto].
    + clear - F LG ND. revert names row LG ND F. induction ms as [|m ms IH]; intros names row LG ND F; [constructor|].
      destruct names as [|n names], row as [|f row]; cbn [combine] in F; try (inversion F; fail).
      inversion F as [|? ? ? ? (S & s & E & V) F']; subst. inversion LG; subst. inversion ND as [|? ? NI ND']; subst. cbn [fst snd] in *.
      constructor; [|apply (IH names row); assumption]. apply Forall_forall. intros m' I1 SV.
      destruct (forall2_right _ _ _ _ F' I1) as ([n' f'] & I2 & S' & _). cbn [fst] in S'. apply in_combine_l in I2.
      apply NI. replace n with n'; [exact I2|]. symmetry. eapply string_same; [| |exact S|exact S'|exact SV]; [assumption|].
      match goal with H : Forall legible names |- _ => rewrite Forall_forall in H; now apply H end.
  - intros l e m D I1. cbn [descendants] in D. destruct D as [D|D].
    + injection D as <- <-. clear - F I1. induction F as [|a m0 l ms ((T & _) & _) F IH]; [destruct I1|]. destruct I1 as [<-|I1]; [exact T|auto].
    + exfalso. apply in_flat_map in D as (m0 & I2 & D). destruct (SC m0 I2) as [s E]. rewrite E in D. cbn in D. destruct D as [D|[]]. discriminate.
  - change (toks (JObj ms false)) with (TStartObj :: flat_map key_toks ms ++ [] ++ [TEndObj]). cbn [length app]. rewrite app_length, (row_tokens ms SC), LM. cbn [length]. lia.
Qed.
Lemma row_length : forall names row v, length row = length names -> row_value names row v -> length (toks v) = 2 * length names + 2.
Proof.
  intros names row v LE (ms & -> & F).
  change (toks (JObj ms false)) with (TStartObj :: flat_map key_toks ms ++ [] ++ [TEndObj]). cbn [length app]. rewrite app_length, (row_tokens ms); cbn [length].
  - pose proof (forall2_length _ _ _ F) as Q. rewrite combine_length in Q. lia.
  - intros m X. destruct (forall2_right _ _ _ _ F X) as (y & _ & _ & s & E & _). eauto.
Qed.

(** The rows. *)
Lemma rows_values : forall names rows vs, Forall (fun row => length row = length names /\ Forall cell row) rows ->
  Forall2 (record_value true names) rows vs -> Forall2 (row_value names) rows vs.
Proof.
  intros names rows vs H F. induction F as [|row v rows vs R F IH]; [constructor|]. inversion H as [|? ? [L C] H']; subst. constructor; [now apply record_row|auto].
Qed.
Lemma rows_length : forall names rows vs, Forall (fun row => length row = length names /\ Forall cell row) rows ->
  Forall2 (row_value names) rows vs -> length (stream vs) = length rows * (2 * length names + 2).
Proof.
  intros names rows vs H F. induction F as [|row v rows vs R F IH]; [reflexivity|]. inversion H as [|? ? [L C] H']; subst.
  change (stream (v :: vs)) with (toks v ++ stream vs). rewrite app_length, (IH H'), (row_length names row v L R). cbn [length]. lia.
Qed.
Lemma rows_clean : forall names rows vs, table names rows -> Forall2 (row_value names) rows vs -> Forall clean vs.
Proof.
  intros names rows vs (LG & ND & RW & SZ) F. apply Forall_forall. intros v X. destruct (forall2_right _ _ _ _ F X) as (row & I1 & R).
  rewrite Forall_forall in RW. destruct (RW row I1) as [L C]. eapply row_clean; eauto.
  destruct rows as [|r rows]; [destruct I1|]. cbn [length] in SZ. nia.
Qed.
Lemma rows_array_clean : forall names rows vs, table names rows -> Forall2 (row_value names) rows vs -> clean (JArr vs false).
Proof.
  intros names rows vs T F. pose proof (rows_clean names rows vs T F) as CL. destruct T as (LG & ND & RW & SZ). pose proof (rows_length names rows vs RW F) as LN.
  split; [|split].
  - constructor. clear - CL. induction CL as [|v vs (C & _) CL IH]; constructor; auto.
  - intros l e m D. cbn [descendants] in D. destruct D as [D|D]; [discriminate|]. apply in_flat_map in D as (v & X & D).
    rewrite Forall_forall in CL. destruct (CL v X) as (_ & K & _). exact (K l e m D).
  - change (toks (JArr vs false)) with (TStartArr :: stream vs ++ [] ++ [TEndArr]). cbn [length app]. rewrite app_length, LN. cbn [length]. nia.
Qed.

(** Bytes of cells. *)
Lemma legible_printable : forall f, legible f -> Forall printable f.
Proof.
  intros f (u & -> & F). induction F as [|c u [U C] F IH]; [constructor|]. cbn [flat_map]. apply Forall_app. split; [|exact IH]. clear - U C.
  destruct (N.lt_ge_cases c 128) as [L|G].
  - unfold utf8. destruct (N.ltb_spec c 128); [|lia]. constructor; [|constructor]. unfold printable. lia.
  - assert (M : forall x, (x mod 64 < 64)%N) by (intro; apply N.mod_lt; discriminate).
    assert (Q : forall k, (192 <= k)%N -> (k < 255)%N -> printable k) by (unfold printable; lia).
    assert (R : forall x, printable (128 + x mod 64)%N) by (intro x; specialize (M x); unfold printable; lia).
    unfold utf8. destruct (N.ltb_spec c 128) as [X|_]; [lia|]. destruct (N.ltb_spec c 2048) as [X|X]; [|destruct (N.ltb_spec c 65536) as [Y|Y]].
    + constructor; [|constructor; [apply R|constructor]]. assert (c / 64 < 32)%N by (apply N.div_lt_upper_bound; lia). apply Q; lia.
    + constructor; [|constructor; [apply R|constructor; [apply R|constructor]]]. assert (c / 4096 < 16)%N by (apply N.div_lt_upper_bound; lia). apply Q; lia.
    + constructor; [|constructor; [apply R|constructor; [apply R|constructor; [apply R|constructor]]]].
      assert (c < 1114112)%N by (destruct U; lia). assert (c / 262144 < 5)%N by (apply N.div_lt_upper_bound; lia). apply Q; lia.
Qed.
Lemma cell_printable : forall f, cell f -> Forall printable f.
Proof.
  intros f [->|[(n & m & e & V & _)|[L _]]]; [constructor| |now apply legible_printable].
  apply value_number, number_numeric in V. eapply Forall_impl; [|exact V]. intros b [H|H]; [unfold digit in H|cbn in H]; unfold printable; lia.
Qed.

(* ------------------------------------------------------------------ *)
(** Columns. *)
Lemma sifted_unique : forall {A} (P : A -> Prop) l m m', sifted P l m -> sifted P l m' -> m' = m.
Proof.
  intros A P l m m' H. revert m'. induction H as [|a l m Y H IH|a l m Y H IH]; intros m' K; inversion K; subst; try contradiction; [reflexivity|f_equal; auto|auto].
Qed.
Lemma no_member : forall name names row ms, ~ In name names -> Forall legible names ->
  Forall2 (fun nf m => string_of (fst nf) (fst m) /\ exists s, snd m = JScalar s /\ field_value (snd nf) s) (combine names row) ms ->
  sifted (fun m => spells (fst m) name) ms [].
Proof.
  induction names as [|n names IH]; intros row ms NI LG F; destruct row as [|f row]; cbn [combine] in F; try (inversion F; apply sf_nil; fail).
  inversion F as [|? m ? ms' (S & _) F']; subst. inversion LG; subst. cbn [fst] in S. constructor; [|eapply IH; eauto; intro; apply NI; now right].
  intro X. apply (string_spells n _ _ ltac:(assumption) S) in X. apply NI. now left.
Qed.
Lemma the_member : forall names i name row ms, nth_error names i = Some name -> NoDup names -> Forall legible names -> length row = length names ->
  Forall2 (fun nf m => string_of (fst nf) (fst m) /\ exists s, snd m = JScalar s /\ field_value (snd nf) s) (combine names row) ms ->
  exists m, sifted (fun m => spells (fst m) name) ms [m] /\ at_column i row (snd m).
Proof.
  induction names as [|n names IH]; intros i name row ms N ND LG LE F; [destruct i; discriminate|].
  destruct row as [|f row]; [discriminate|]. cbn [combine] in F. inversion F as [|? m ? ms' (S & s & E & V) F']; subst. cbn [fst snd] in *.
  inversion LG as [|? ? L1 LG']; subst. inversion ND as [|? ? NI ND']; subst. destruct i as [|i]; cbn [nth_error] in N.
  - injection N as ->. exists m. split; [|exists f, s; rewrite <- E; auto]. constructor; [apply (string_spells name _ _ L1 S); reflexivity|].
    eapply no_member; eauto.
  - destruct (IH i name row ms' N ND' LG' ltac:(cbn in LE; lia) F') as (m' & X & Y). exists m'. split; [|exact Y]. apply sf_no; [|exact X].
    intro Z. apply (string_spells n _ _ L1 S) in Z. subst n. apply NI. eapply nth_error_In; eauto.
Qed.

Lemma row_member : forall names rows i name row v, table names rows -> In row rows -> nth_error names i = Some name -> row_value names row v ->
  exists w, member name v [w] /\ at_column i row w.
Proof.
  intros names rows i name row v (LG & ND & RW & _) I1 N (ms & -> & F). rewrite Forall_forall in RW. destruct (RW row I1) as [LE _].
  destruct (the_member names i name row ms N ND LG LE F) as (m & X & Y). exists (snd m). split; [|exact Y]. exists [m]. split; [exact X|reflexivity].
Qed.
Lemma row_has_member : forall names rows i name row v y, table names rows -> In row rows -> nth_error names i = Some name -> row_value names row v ->
  has_member name v y -> at_column i row y.
Proof.
  intros names rows i name row v y T I1 N R (ys & M). destruct (row_member names rows i name row v T I1 N R) as (w & M' & C).
  destruct R as (ms & -> & _). cbn in M, M'. destruct M as (l & S & E), M' as (l' & S' & E'). rewrite (sifted_unique _ _ _ _ S' S) in E. congruence.
Qed.

(** Numbers in cells. *)
Lemma number_cell : forall f s, field_value f s -> sc_type s = TNum -> s = new_scalar TNum f /\ number_text f.
Proof.
  intros f s V T. destruct V as [| | |f N|f s _ _ _ _ (S & _)]; try discriminate; [auto|congruence].
Qed.
Lemma cell_number : forall f s, field_value f s -> number_text f -> s = new_scalar TNum f.
Proof.
  intros f s V N. destruct (number_not_special f N) as (A & B & C & _). destruct V; congruence.
Qed.

Lemma forall2_pick : forall {A B C} (R : A -> B -> Prop) (P : A -> C -> Prop) (Q : B -> C -> Prop) l m, Forall2 R l m ->
  (forall x y, In x l -> R x y -> exists z, P x z /\ Q y z) -> exists zs, Forall2 P l zs /\ Forall2 Q m zs.
Proof.
  intros A B C R P Q l m F. induction F as [|a b l m H F IH]; intro X; [exists []; split; constructor|].
  destruct (X a b (or_introl eq_refl) H) as (z & Y & Z). destruct IH as (zs & Y' & Z'); [intros x y I1; apply X; now right|].
  exists (z :: zs). split; constructor; auto.
Qed.
Lemma sifted_pick : forall {A B} (R : A -> B -> Prop) (P : B -> Prop) (Q : A -> Prop) l m, Forall2 R l m ->
  (forall x y, In x l -> R x y -> (P y <-> Q x)) -> forall n, sifted P m n -> exists k, sifted Q l k /\ Forall2 R k n.
Proof.
  intros A B R P Q l m F. induction F as [|a b l m H F IH]; intros X n S; inversion S as [|? ? n' Y S'|? ? n' Y S']; subst.
  - exists []. split; constructor.
  - destruct (IH ltac:(intros x y I1; apply X; now right) n' S') as (k & K1 & K2). exists (a :: k). split; [|constructor; auto].
    apply sf_yes; [|exact K1]. now apply (X a b (or_introl eq_refl) H).
  - destruct (IH ltac:(intros x y I1; apply X; now right) n S') as (k & K1 & K2). exists k. split; [|exact K2].
    apply sf_no; [|exact K1]. intro Z. apply Y. now apply (X a b (or_introl eq_refl) H).
Qed.

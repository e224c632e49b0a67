(** C41: the detection of the input format. *)
From Coq Require Import List Arith NArith Bool Lia.
From Verif Require Import Base Tokens JsonSpec ScannerModel ScannerSpec ProgModel FormatModel FormatSpec P_JsonDec.

Lemma cat_inv : forall r q s t, matches (RCat r q) s t -> exists s1 s2, s = s1 ++ s2 /\ matches r s1 (s2 ++ t) /\ matches q s2 t.
Proof. intros r q s t H. inversion H; subst. eauto. Qed.
Lemma alt_inv : forall r q s t, matches (RAlt r q) s t -> matches r s t \/ matches q s t.
Proof. intros r q s t H. inversion H; subst; auto. Qed.
Lemma set_inv : forall p s t, matches (RSet p) s t -> exists b, s = [b] /\ p b = true.
Proof. intros p s t H. inversion H; subst; eauto. Qed.
Lemma nullable_ok : forall r t, nullable (match t with [] => true | _ => false end) r = true <-> matches r [] t.
Proof.
  intros r t. induction r as [| |p|r IHr q IHq|r IHr q IHq|r IHr|]; cbn [nullable].
  - split; [discriminate|intro H; inversion H].
  - split; [constructor|reflexivity].
  - split; [discriminate|intro H; inversion H].
  - rewrite andb_true_iff, IHr, IHq. split.
    + intros [A B]. change (@nil N) with (@nil N ++ []). now constructor.
    + intro H. apply cat_inv in H as ([|b s1] & s2 & E & A & B); [|discriminate]. cbn in E. subst s2. auto.
  - rewrite orb_true_iff, IHr, IHq. split; [intros [A|A]; [now apply m_left|now apply m_right]|apply alt_inv].
  - split; [constructor|reflexivity].
  - destruct t; split; try discriminate; try constructor. intro H; inversion H.
Qed.
Lemma star_inv : forall r s t, matches (RStar r) s t -> s = [] \/ exists b s1 s2, s = (b :: s1) ++ s2 /\ matches r (b :: s1) (s2 ++ t) /\ matches (RStar r) s2 t.
Proof.
  intros r s t H. remember (RStar r) as R eqn:E. induction H; try discriminate; [auto|]. injection E as ->. destruct s1 as [|b s1]; [now apply IHmatches2|]. right. eauto 6.
Qed.
Lemma deriv_ok : forall b r s t, matches (deriv b r) s t <-> matches r (b :: s) t.
Proof.
  intros b r. induction r as [| |p|r IHr q IHq|r IHr q IHq|r IHr|]; intros s t; cbn [deriv].
  - split; intro H; inversion H.
  - split; intro H; inversion H.
  - split.
    + destruct (p b) eqn:P; intro H; inversion H; subst. now constructor.
    + intro H. apply set_inv in H as (b' & E & P). injection E as -> ->. rewrite P. constructor.
  - assert (C : matches (RCat (deriv b r) q) s t <-> exists s1 s2, s = s1 ++ s2 /\ matches r (b :: s1) (s2 ++ t) /\ matches q s2 t).
    { split; [intro H; apply cat_inv in H as (s1 & s2 & -> & A & B); exists s1, s2; split; [reflexivity|]; split; [now apply IHr|exact B]|].
      intros (s1 & s2 & -> & A & B). constructor; [now apply IHr|exact B]. }
    assert (D : matches (RCat r q) (b :: s) t <-> (exists s1 s2, s = s1 ++ s2 /\ matches r (b :: s1) (s2 ++ t) /\ matches q s2 t) \/ (nullable false r = true /\ matches q (b :: s) t)).
    { split.
      - intro H. apply cat_inv in H as ([|b' s1] & s2 & E & A & B).
        + cbn in E. subst s2. right. split; [|exact B]. apply (nullable_ok r (b :: s ++ t)). exact A.
        + injection E as <- ->. left. eauto.
      - intros [(s1 & s2 & -> & A & B)|[A B]]; [exact (m_cat r q (b :: s1) s2 t A B)|]. apply (m_cat r q [] (b :: s) t); [|exact B]. apply (nullable_ok r (b :: s ++ t)). exact A. }
    rewrite D. destruct (nullable false r).
    + split.
      * intro H. apply alt_inv in H as [H|H]; [left; now apply C|right; split; [reflexivity|now apply IHq]].
      * intros [H|[_ H]]; [apply m_left; now apply C|apply m_right; now apply IHq].
    + rewrite C. split; [auto|]. intros [H|[H _]]; [exact H|discriminate].
  - split.
    + intro H. apply alt_inv in H as [H|H]; [apply m_left; now apply IHr|apply m_right; now apply IHq].
    + intro H. apply alt_inv in H as [H|H]; [apply m_left; now apply IHr|apply m_right; now apply IHq].
  - split.
    + intro H. apply cat_inv in H as (s1 & s2 & -> & A & B). apply (m_more r (b :: s1)); [now apply IHr|exact B].
    + intro H. apply star_inv in H as [H|(b' & s1 & s2 & E & A & B)]; [discriminate|]. injection E as <- ->. constructor; [now apply IHr|exact B].
  - split; intro H; inversion H.
Qed.
(** The patterns are matched as specified. *)
Theorem re_match_ok : forall s r, re_match r s = true <-> exists s1 s2, s = s1 ++ s2 /\ matches r s1 s2.
Proof.
  induction s as [|b s IH]; intro r; cbn [re_match].
  - rewrite (nullable_ok r []). split; [intro H; exists [], []; auto|]. intros (s1 & s2 & E & H). symmetry in E. apply app_eq_nil in E as [-> ->]. exact H.
  - rewrite orb_true_iff, IH. pose proof (nullable_ok r (b :: s)) as N. cbn beta iota in N. rewrite N. split.
    + intros [H|(s1 & s2 & -> & H)]; [exists [], (b :: s); auto|]. exists (b :: s1), s2. split; [reflexivity|now apply deriv_ok].
    + intros ([|b' s1] & s2 & E & H); [cbn in E; subst s2; auto|]. injection E as <- ->. right. exists s1, s2. split; [reflexivity|now apply deriv_ok].
Qed.
Print Assumptions re_match_ok.

(** Input that starts with a brace or a bracket is taken as JSON. *)
Theorem C41_json_detected : forall b s, b = 123%N \/ b = 91%N -> guess_format (b :: s) = Some FJson.
Proof.
  intros b s H. unfold guess_format, guessers. cbn [guess_loop]. assert (J : re_match re_jpv (b :: s) = false).
  { apply not_true_is_false. intro E. apply re_match_ok in E as (s1 & s2 & E & M). inversion M; subst. discriminate. }
  rewrite J. assert (K : re_match re_json (b :: s) = true).
  { apply re_match_ok. exists [b], s. split; [reflexivity|]. constructor. destruct H as [-> | ->]; reflexivity. }
  now rewrite K.
Qed.
Print Assumptions C41_json_detected.
(** No input is taken as JPV: the pattern is that of an empty text, and the
    program ends before when there is no input. *)
Theorem C41_jpv_refuted : (forall s, s <> [] -> guess_format s <> Some FJpv) /\ guess_format [36; 46; 97; 32; 61; 32; 49; 10]%N = None.
Proof.
  split; [|vm_compute; reflexivity]. intros s N. unfold guess_format, guessers. cbn [guess_loop].
  destruct (re_match re_jpv s) eqn:J; [apply re_match_ok in J as (s1 & s2 & -> & M); inversion M; subst; now destruct N|].
  destruct (re_match re_json s), (re_match re_csv_header s), (re_match re_csv s); discriminate.
Qed.
Print Assumptions C41_jpv_refuted.
(** The help says that JSON is assumed if no format is recognised; the program ends
    with an error, for instance for the values 1, true, and for an object after
    a space. *)
Theorem C41_fallback_refuted :
  guess_format [49]%N = None /\ guess_format [116; 114; 117; 101; 10]%N = None /\ guess_format [32; 123; 125]%N = None.
Proof. repeat split; vm_compute; reflexivity. Qed.
Print Assumptions C41_fallback_refuted.

(** CSV with a header. *)
Lemma star_set : forall p s t, matches (RStar (RSet p)) s t <-> Forall (fun b => p b = true) s.
Proof.
  intros p s t. split.
  - intro H. remember (RStar (RSet p)) as R eqn:E. induction H; try discriminate; [constructor|]. injection E as ->. apply set_inv in H as (b & -> & P). constructor; auto.
  - induction 1 as [|b s P F IH]; [constructor|]. apply (m_more _ [b] s); [now constructor|exact IH].
Qed.
Lemma letter_ok : forall b, letter b = true <-> ascii_letter b.
Proof.
  intro b. unfold letter, ascii_letter. destruct (N.leb_spec 65 b), (N.leb_spec b 90), (N.leb_spec 97 b), (N.leb_spec b 122); cbn; split; intro H'; try reflexivity; try discriminate; lia.
Qed.
Lemma name_char_ok : forall b, name_char b = true <-> name_byte b.
Proof.
  intro b. unfold name_char, name_byte. rewrite !orb_true_iff, letter_ok, andb_true_iff, !N.eqb_eq, !N.leb_le. tauto.
Qed.
Lemma name_ok : forall s t, matches re_name s t <-> header_name s.
Proof.
  intros s t. split.
  - intro H. apply cat_inv in H as (s1 & s2 & -> & A & B). apply set_inv in A as (c & -> & P). apply star_set in B. exists c, s2. split; [reflexivity|]. split; [now apply letter_ok|].
    eapply Forall_impl; [|exact B]. intros b. apply name_char_ok.
  - intros (c & l & -> & P & F). apply (m_cat _ _ [c] l); [constructor; now apply letter_ok|]. apply star_set. eapply Forall_impl; [|exact F]. intros b. apply name_char_ok.
Qed.
Lemma chr_ok : forall c s t, matches (RChr c) s t <-> s = [c].
Proof.
  intros c s t. split; [intro H; apply set_inv in H as (b & -> & P); apply N.eqb_eq in P; congruence|intros ->; constructor; apply N.eqb_refl].
Qed.
Lemma names_ok : forall s t, matches (RStar (RCat (RChr 44) re_name)) s t <-> exists ns, Forall header_name ns /\ s = flat_map (fun n => 44%N :: n) ns.
Proof.
  intros s t. split.
  - intro H. remember (RStar _) as R eqn:E. induction H; try discriminate; [now exists []|]. injection E as ->. apply cat_inv in H as (a & b & -> & A & B). apply chr_ok in A as ->. apply name_ok in B.
    destruct IHmatches2 as (ns & F & ->); [reflexivity|]. exists (b :: ns). split; [now constructor|reflexivity].
  - intros (ns & F & ->). induction F as [|n ns N F IH]; [constructor|]. apply (m_more _ (44%N :: n)); [|exact IH]. apply (m_cat _ _ [44%N] n); [now apply chr_ok|now apply name_ok].
Qed.
Lemma line_end_ok : forall t, (exists s1 s2, t = s1 ++ s2 /\ matches line_end s1 s2) <-> (exists t', t = 10%N :: t') \/ t = [] \/ t = [44%N].
Proof.
  intro t. split.
  - intros (s1 & s2 & -> & H). apply alt_inv in H as [H|H]; [apply chr_ok in H as ->; left; now exists s2|]. apply cat_inv in H as (a & b & -> & A & B).
    inversion B; subst. rewrite !app_nil_r in *. apply alt_inv in A as [A|A]; [apply chr_ok in A as ->; auto|]. inversion A; subst. auto.
  - intros [[t' ->]|[-> | ->]].
    + exists [10%N], t'. split; [reflexivity|]. apply m_left. now apply chr_ok.
    + exists [], []. split; [reflexivity|]. apply m_right. apply (m_cat _ _ [] []); [apply m_right; constructor|constructor].
    + exists [44%N], []. split; [reflexivity|]. apply m_right. apply (m_cat _ _ [44%N] []); [apply m_left; now apply chr_ok|constructor].
Qed.
(** A header line is recognised, and nothing else is taken for one. *)
Theorem C41_csv_header_detected : forall s, guess_format s = Some FCsvHeader <-> header_line s.
Proof.
  intro s. assert (H : re_match re_csv_header s = true <-> header_line s).
  { rewrite re_match_ok. split.
    - intros (s1 & s2 & -> & M). apply cat_inv in M as (n & x & -> & A & M). apply cat_inv in M as (y & e & -> & B & C). apply cat_inv in B as (y1 & y2 & -> & B1 & B2).
      apply cat_inv in B1 as (k & n1 & -> & K & N1). apply chr_ok in K as ->. apply name_ok in A, N1. apply names_ok in B2 as (ns & F & ->).
      exists n, (n1 :: ns), (e ++ s2). repeat split; [discriminate|now constructor; [|constructor]|now rewrite <- !app_assoc; cbn; rewrite <- !app_assoc|].
      apply line_end_ok. eauto.
    - intros (n & ns & t & N & F & -> & T). apply line_end_ok in T as (e & s2 & -> & C). destruct ns as [|n1 ns]; [congruence|]. inversion F as [|? ? A F1]; subst. inversion F1 as [|? ? N1 F2]; subst.
      exists (n ++ (44%N :: n1) ++ flat_map (fun n => 44%N :: n) ns ++ e), s2. split; [cbn [flat_map]; now rewrite <- !app_assoc|].
      apply m_cat; [now apply name_ok|]. rewrite app_assoc. apply m_cat; [|exact C]. apply m_cat; [|apply names_ok; eauto]. apply (m_cat _ _ [44%N] n1); [now apply chr_ok|now apply name_ok]. }
  rewrite <- H. unfold guess_format, guessers. cbn [guess_loop]. split.
  - destruct (re_match re_jpv s); [discriminate|]. destruct (re_match re_json s); [discriminate|]. destruct (re_match re_csv_header s); [reflexivity|]. destruct (re_match re_csv s); discriminate.
  - intro M. rewrite M. apply H in M as (n & ns & t & _ & F & -> & _). inversion F as [|? ? (c & l & -> & L & _) _]; subst.
    assert (J : re_match re_jpv ((c :: l) ++ flat_map (fun n => 44%N :: n) ns ++ t) = false).
    { apply not_true_is_false. intro E. apply re_match_ok in E as (s1 & s2 & E & Q). inversion Q; subst. discriminate. }
    assert (K : re_match re_json ((c :: l) ++ flat_map (fun n => 44%N :: n) ns ++ t) = false).
    { apply not_true_is_false. intro E. apply re_match_ok in E as (s1 & s2 & E & Q). apply set_inv in Q as (b & -> & P). injection E as -> _. unfold ascii_letter, is in *. clear - L P.
      apply orb_true_iff in P as [P|P]; apply N.eqb_eq in P; subst b; lia. }
    now rewrite J, K.
Qed.
Print Assumptions C41_csv_header_detected.

(** CSV without a header: what else begins with a line of at least two fields. *)
Lemma field_ok : forall s t, matches (RAlt bare quoted) s t <-> csv_field s.
Proof.
  assert (NQ : forall b, negb (is 34 b) = true <-> b <> 34%N) by (intro b; unfold is; destruct (N.eqb_spec b 34); cbn; intuition congruence).
  assert (NB : forall b, negb (is 44 b || is 34 b || is 10 b) = true <-> (b <> 44 /\ b <> 34 /\ b <> 10)%N).
  { intro b. unfold is. destruct (N.eqb_spec b 44), (N.eqb_spec b 34), (N.eqb_spec b 10); cbn; intuition congruence. }
  intros s t. split.
  - intro H. apply alt_inv in H as [H|H].
    + left. apply star_set in H. eapply Forall_impl; [|exact H]. intros b. apply NB.
    + right. apply cat_inv in H as (a & x & -> & A & H). apply chr_ok in A as ->. apply cat_inv in H as (c & z & -> & C & Z). apply chr_ok in Z as ->. apply star_set in C.
      exists c. split; [reflexivity|]. eapply Forall_impl; [|exact C]. intros b. apply NQ.
  - intros [F|(c & -> & F)].
    + apply m_left, star_set. eapply Forall_impl; [|exact F]. intros b. apply NB.
    + apply m_right, (m_cat _ _ [34%N] (c ++ [34%N])); [now apply chr_ok|]. apply m_cat; [|now apply chr_ok]. apply star_set. eapply Forall_impl; [|exact F]. intros b. apply NQ.
Qed.
Lemma field1_ok : forall s t, matches (RAlt (RCat (RChr 44) bare) (RCat (RChr 44) quoted)) s t <-> exists f, s = 44%N :: f /\ csv_field f.
Proof.
  intros s t. split.
  - intro H. apply alt_inv in H as [H|H]; apply cat_inv in H as (a & f & -> & A & H); apply chr_ok in A as ->; exists f; (split; [reflexivity|]); apply (field_ok f t); [now apply m_left|now apply m_right].
  - intros (f & -> & F). apply (field_ok f t) in F. apply alt_inv in F as [F|F]; [apply m_left|apply m_right]; (apply (m_cat _ _ [44%N] f); [now apply chr_ok|exact F]).
Qed.
Lemma fields_ok : forall s t, matches (RStar (RAlt (RCat (RChr 44) bare) (RCat (RChr 44) quoted))) s t <-> exists fs, Forall csv_field fs /\ s = flat_map (fun n => 44%N :: n) fs.
Proof.
  intros s t. split.
  - intro H. remember (RStar _) as R eqn:E. induction H; try discriminate; [now exists []|]. injection E as ->. apply field1_ok in H as (f & -> & F).
    destruct IHmatches2 as (fs & FS & ->); [reflexivity|]. exists (f :: fs). split; [now constructor|reflexivity].
  - intros (fs & F & ->). induction F as [|f fs N F IH]; [constructor|]. apply (m_more _ (44%N :: f)); [|exact IH]. apply field1_ok. eauto.
Qed.
Theorem C41_csv_detected : forall s, guess_format s = Some FCsv <->
  csv_line csv_field s /\ ~ header_line s /\ (forall b r, s = b :: r -> b <> 123%N /\ b <> 91%N).
Proof.
  intro s. assert (H : re_match re_csv s = true <-> csv_line csv_field s).
  { rewrite re_match_ok. split.
    - intros (s1 & s2 & -> & M). apply cat_inv in M as (n & x & -> & A & M). apply cat_inv in M as (y & e & -> & B & C). apply cat_inv in B as (y1 & y2 & -> & B1 & B2).
      apply field1_ok in B1 as (n1 & -> & N1). apply field_ok in A. apply fields_ok in B2 as (ns & F & ->).
      exists n, (n1 :: ns), (e ++ s2). repeat split; [discriminate|now constructor; [|constructor]|now rewrite <- !app_assoc; cbn; rewrite <- !app_assoc|].
      apply line_end_ok. eauto.
    - intros (n & ns & t & N & F & -> & T). apply line_end_ok in T as (e & s2 & -> & C). destruct ns as [|n1 ns]; [congruence|]. inversion F as [|? ? A F1]; subst. inversion F1 as [|? ? N1 F2]; subst.
      exists (n ++ (44%N :: n1) ++ flat_map (fun n => 44%N :: n) ns ++ e), s2. split; [cbn [flat_map]; now rewrite <- !app_assoc|].
      apply m_cat; [now apply field_ok|]. rewrite app_assoc. apply m_cat; [|exact C]. apply m_cat; [|apply fields_ok; eauto]. apply field1_ok. eauto. }
  assert (HJ : re_match re_json s = true <-> exists b r, s = b :: r /\ (b = 123 \/ b = 91)%N).
  { rewrite re_match_ok. split.
    - intros (s1 & s2 & -> & M). apply set_inv in M as (b & -> & P). exists b, s2. split; [reflexivity|]. unfold is in P. apply orb_true_iff in P as [P|P]; apply N.eqb_eq in P; auto.
    - intros (b & r & -> & B). exists [b], r. split; [reflexivity|]. constructor. destruct B as [->| ->]; reflexivity. }
  pose proof (C41_csv_header_detected s) as HH. unfold guess_format, guessers in *. cbn [guess_loop] in *.
  destruct (re_match re_jpv s) eqn:V.
  { apply re_match_ok in V as (s1 & s2 & -> & M). inversion M; subst. split; [discriminate|]. intros ((n & ns & t & N & _ & E & _) & _). destruct ns; [congruence|]. cbn in E. destruct n; discriminate. }
  destruct (re_match re_json s).
  { split; [discriminate|]. intros (_ & _ & J). destruct (proj1 HJ eq_refl) as (b & r & E & B). specialize (J b r E). lia. }
  assert (J : forall b r, s = b :: r -> b <> 123%N /\ b <> 91%N).
  { intros b r E. split; intros ->; (enough (false = true) by discriminate); apply HJ; eauto. }
  destruct (re_match re_csv_header s).
  { split; [discriminate|]. intros (_ & N & _). exfalso. apply N, HH. reflexivity. }
  assert (NH : ~ header_line s) by (intro K; apply HH in K; destruct (re_match re_csv s); discriminate).
  destruct (re_match re_csv s).
  - split; [intros _; split; [now apply H|auto]|reflexivity].
  - split; [discriminate|]. intros (K & _). apply H in K. discriminate.
Qed.
Print Assumptions C41_csv_detected.

(** What was read to guess the format is not lost. *)
Theorem C41_input_kept : forall r f r', detect r = Some (f, r') ->
  concat (rd_chunks r') = concat (rd_chunks r) /\ rd_fin r' = rd_fin r.
Proof.
  intros [cs fin wi] f r' H. unfold detect in H. destruct (reader_read _ 40) as [[start err] input'] eqn:E. destruct err; [discriminate|]. destruct (guess_format start); [|discriminate].
  injection H as <- <-. cbn [rd_chunks rd_fin] in *. unfold reader_read in E. cbn [rd_chunks rd_fin rd_with] in E. destruct cs as [|c cs]; [discriminate|]. destruct (length c <=? 40).
  - destruct cs; inversion E; subst; auto.
  - inversion E; subst. split; [|reflexivity]. cbn [rd_chunks concat]. rewrite app_assoc. f_equal. exact (firstn_skipn 40 c).
Qed.
Print Assumptions C41_input_kept.
(** JSON that starts with an array or an object is decoded without a format being
    given, whatever the size of the pieces the input comes in. *)
Theorem C41_json_decoded : forall b s cs vs size, let r := mkReader ((b :: s) :: cs) RdEOF false in
  2 <= size -> ok_runs 99 (rd_chunks r) = true -> b = 123%N \/ b = 91%N ->
  stext true ws_separated vs (input r) ->
  exists r', detect r = Some (FJson, r') /\ decodes r' size (stream vs) (DOk tt).
Proof.
  intros b s cs vs size r L K B H.
  assert (D : exists r', detect r = Some (FJson, r') /\ ok_runs 99 (rd_chunks r') = true).
  { unfold detect, reader_read. cbn [rd_chunks r ok_runs] in K |- *. destruct (length (b :: s) <=? 40) eqn:Q.
    - destruct cs; cbn [rd_with rd_chunks rd_fin]; rewrite (C41_json_detected b s B); eexists; (split; [reflexivity|]); [reflexivity|exact K].
    - apply Nat.leb_gt in Q. cbn [length] in Q. change (firstn 40 (b :: s)) with (b :: firstn 39 s). change (skipn 40 (b :: s)) with (skipn 39 s). rewrite (C41_json_detected b (firstn 39 s) B). eexists. split; [reflexivity|]. cbn [rd_chunks ok_runs].
      destruct (skipn 39 s) eqn:Z; cbn [ok_runs]; [|exact K]. apply (f_equal (@length N)) in Z. rewrite skipn_length in Z. cbn [length] in Z. lia. }
  destruct D as (r' & D & K'). exists r'. split; [exact D|]. destruct (C41_input_kept _ _ _ D) as [E F].
  apply C07_valid_json_is_decoded; [exact L|exact K'|exact F|]. unfold input in *. rewrite E. exact H.
Qed.
Print Assumptions C41_json_decoded.
Example ex_json_decoded : exists r', detect (mkReader [[91]; [49; 93]]%N RdEOF false) = Some (FJson, r') /\ input r' = [91; 49; 93]%N.
Proof. eexists. split; [vm_compute; reflexivity|reflexivity]. Qed.
Example ex_header : guess_format [97; 44; 98; 10; 49]%N = Some FCsvHeader.
Proof. vm_compute. reflexivity. Qed.

(** C21: what exactly becomes of fields that look like numbers. *)
From Coq Require Import List Arith ZArith NArith Bool Lia.
From Verif Require Import Base Tokens ScannerModel ScannerSpec ScannerProofs ProgModel ProgProofs JsonDecModel JsonSpec JsonDecProofs
  ScalarSpec CsvModel CsvSpec P_Csv JsonDecValue P_JsonDec CsvNumber.

Lemma closed_nil : forall i fr e, closed i fr e [].
Proof. intros. repeat split; intros; exact I. Qed.
Lemma closed_head : forall i fr e b r w, closed i fr e (b :: r) -> closed i fr e (b :: w).
Proof. intros i fr e b r w H. exact H. Qed.

(** The result is determined. *)
Lemma runs_same : forall A a (p : prog A) Q1 Q2, runs a p Q1 -> runs a p Q2 -> exists a' ts r, Q1 a' ts r /\ Q2 a' ts r.
Proof. intros A a p Q1 Q2 (a1 & t1 & r1 & E1 & H1) (a2 & t2 & r2 & E2 & H2). rewrite E1 in E2. injection E2 as <- <- <-. eauto. Qed.

Lemma closed_part : forall sg i fr e r, (sg = [] \/ sg = [45%N]) -> int_text i -> frac_text fr -> exp_text e ->
  (closed i fr e r <-> forall b r', r = b :: r' -> ~ begins_number ((sg ++ i ++ fr ++ e) ++ [b])).
Proof.
  intros sg i fr e r SG IT FT ET. split.
  - intros C b r' -> [w NT]. set (t := sg ++ i ++ fr ++ e) in *. rewrite <- app_assoc in NT. cbn [app] in NT.
    assert (C' : closed i fr e (b :: w)) by exact C.
    pose proof NT as (sg2 & i2 & fr2 & e2 & E2 & SG2 & IT2 & FT2 & ET2).
    pose proof (st_init (t ++ b :: w) RdEOF) as ST.
    assert (A : runs (a_init (t ++ b :: w) RdEOF) (parse_number (S (length (t ++ b :: w)))) (fun a' ts x => ts = [] /\ x = DOk (new_scalar TNum (sg ++ i ++ fr ++ e)) /\ st RdEOF a' (b :: w) None)).
    { apply number_ok; auto.
      - unfold t in ST. rewrite <- !app_assoc in ST. rewrite <- ?app_assoc. unfold t. rewrite <- ?app_assoc. exact ST.
      - fold t. rewrite app_length. cbn [length]. lia. }
    assert (B : runs (a_init (t ++ b :: w) RdEOF) (parse_number (S (length (t ++ b :: w)))) (fun a' ts x => ts = [] /\ x = DOk (new_scalar TNum (sg2 ++ i2 ++ fr2 ++ e2)) /\ st RdEOF a' [] None)).
    { apply number_ok; auto using closed_nil.
      - rewrite !app_nil_r. now rewrite <- E2.
      - rewrite <- E2. lia. }
    destruct (runs_same _ _ _ _ _ A B) as (a' & ts & x & (_ & _ & [I1 _]) & (_ & _ & [I2 _])). congruence.
  - intros H. destruct r as [|b r]; [apply closed_nil|]. specialize (H b r eq_refl).
    assert (D0 : digits1 [48%N]) by (split; [discriminate|constructor; [unfold digit; lia|constructor]]).
    assert (DX : forall ds, digits1 ds -> digit b -> digits1 (ds ++ [b])).
    { intros ds [NE F] D. split; [destruct ds; discriminate|]. apply Forall_app. auto. }
    split; [split; [split|split]|]; cbn [next_not].
    + intros -> [->| ->]; apply H; exists [48%N].
      * exists sg, i, fr, [101; 48]%N. rewrite <- !app_assoc. split; [reflexivity|]. repeat (split; [assumption|]). right. exists 101%N, [], [48%N]. auto.
      * exists sg, i, fr, [69; 48]%N. rewrite <- !app_assoc. split; [reflexivity|]. repeat (split; [assumption|]). right. exists 69%N, [], [48%N]. auto.
    + intros NE D. destruct ET as [->|(eb & s & ds & -> & EB & SE & DS)]; [congruence|]. apply H. exists []. exists sg, i, fr, (eb :: s ++ (ds ++ [b])).
      split; [rewrite app_nil_r; repeat (rewrite <- app_assoc; cbn [app]); reflexivity|]. repeat (split; [assumption|]). right. exists eb, s, (ds ++ [b]). auto.
    + intros -> -> <-. apply H. exists [48%N]. exists sg, i, [46; 48]%N, []. split; [cbn [app]; rewrite app_nil_r; repeat (rewrite <- app_assoc; cbn [app]); reflexivity|].
      repeat (split; [assumption|]). split; [right; eauto|now left].
    + intros NE -> D. destruct FT as [->|(ds & -> & DS)]; [congruence|]. apply H. exists []. exists sg, i, (46%N :: ds ++ [b]), [].
      split; [rewrite !app_nil_r; repeat (rewrite <- app_assoc; cbn [app]); reflexivity|]. repeat (split; [assumption|]). split; [right; eauto|now left].
    + intros NI -> -> D. destruct IT as [->|(d & ds & -> & DR & F)]; [congruence|]. apply H. exists []. exists sg, (d :: ds ++ [b]), [], [].
      split; [cbn [app]; rewrite !app_nil_r; repeat (rewrite <- app_assoc; cbn [app]); reflexivity|]. split; [assumption|].
      split; [right; exists d, (ds ++ [b]); repeat split; try (apply DR); apply Forall_app; auto|]. split; now left.
Qed.

(** What ParseNumber does. *)
Lemma number_exact : forall f, f <> [] ->
  exists a' x, prun astep (a_init f RdEOF) (parse_number (S (length f))) = Ok (a', [], x) /\
    match x with DOk s => exists t, number_part f t /\ s = new_scalar TNum t | DErr _ => forall t, ~ number_part f t end /\
    forall t, number_part f t -> x = DOk (new_scalar TNum t).
Proof.
  intros f NE. destruct (number_any (S (length f)) _ f (st_init f RdEOF) NE ltac:(lia)) as (a' & ts & x & E & -> & X).
  assert (ALL : forall t, number_part f t -> x = DOk (new_scalar TNum t)).
  { intros t (r & F & (sg & i & fr & e & -> & SG & IT & FT & ET) & NX). apply closed_part in NX; auto.
    destruct (number_ok (S (length f)) (a_init f RdEOF) sg i fr e r) as (a2 & t2 & x2 & E2 & -> & -> & _); auto.
    - pose proof (st_init f RdEOF) as ST. rewrite F in ST at 2. rewrite <- !app_assoc in ST. exact ST.
    - apply (f_equal (@length N)) in F. rewrite (app_length (sg ++ i ++ fr ++ e) r) in F. lia.
    - congruence. }
  exists a', x. split; [exact E|]. split; [|exact ALL]. destruct x as [s|e].
  - destruct X as (sg & i & fr & e & r & F & SG & IT & FT & ET & C & -> & _). exists (sg ++ i ++ fr ++ e). split; [|reflexivity].
    exists r. split; [rewrite F, <- !app_assoc; reflexivity|]. split; [exists sg, i, fr, e; auto|]. now apply closed_part.
  - intros t P. specialize (ALL t P). discriminate.
Qed.

(** All of a field that fits in the buffer is fetched at once. *)
Lemma fill_loop_done : forall n s, rd_chunks (c_rd s) = [] -> rd_chunks (c_rd (fill_loop n s)) = [].
Proof.
  induction n as [|n IH]; intros s H; [exact H|]. cbn [fill_loop]. unfold reader_read. rewrite H. cbn. exact H.
Qed.
Lemma shift_rd : forall s, c_rd (shift_buf s) = c_rd s.
Proof.
  intro s. unfold shift_buf. destruct (Nat.eqb _ _); [|reflexivity].
  destruct (c_ts s) as [[|t]|]; try destruct (lookBackSize <=? c_cur s); destruct (Nat.eqb _ 0); reflexivity.
Qed.
Lemma fill_done : forall s, rd_chunks (c_rd s) = [] -> rd_chunks (c_rd (fill_buf s)) = [].
Proof. intros s H. apply fill_loop_done. now rewrite shift_rd. Qed.
Lemma skip_done : forall n rd s s' x, rd_chunks (c_rd s) = [] -> skip_loop n rd s = Ok (s', x) -> rd_chunks (c_rd s') = [].
Proof.
  induction n as [|n IH]; intros rd s s' x H E; [discriminate|]. cbn [skip_loop] in E.
  destruct (skip_scan _ _ _) as [[k [b|]] p].
  - destruct rd; injection E as <- _; exact H.
  - destruct (_ <=? _).
    + injection E as <- _. now apply fill_done.
    + apply IH in E; [exact E|]. now apply fill_done.
Qed.
Lemma step_done : forall s o s' x, rd_chunks (c_rd s) = [] -> cstep s o = Ok (s', x) -> rd_chunks (c_rd s') = [].
Proof.
  intros s o s' x H E. assert (F : rd_chunks (c_rd (if c_fill s <=? c_cur s then fill_buf s else s)) = []) by (destruct (_ <=? _); [now apply fill_done|exact H]).
  destruct o; cbn [cstep] in E.
  - unfold c_read in E. set (s1 := if c_fill s <=? c_cur s then _ else _) in *.
    destruct (_ <? _); [destruct (nth_error _ _); [|discriminate]; injection E as <- _; exact F|].
    destruct (c_err s1) as [[[]|]|]; injection E as <- _; exact F.
  - unfold c_peek in E. set (s1 := if c_fill s <=? c_cur s then _ else _) in *.
    destruct (_ <? _); [destruct (nth_error _ _); [|discriminate]|]; injection E as <- _; exact F.
  - exact (skip_done _ _ _ _ _ H E).
  - exact (skip_done _ _ _ _ _ H E).
  - unfold c_back in E. destruct (_ || _); [discriminate|]. destruct (c_prev s); [|discriminate]. destruct (c_eof s); injection E as <- _; exact H.
  - unfold c_start in E. destruct (c_ts s); [discriminate|]. injection E as <- _. exact H.
  - unfold c_end in E. destruct (c_ts s); [|discriminate]. destruct (_ && _); [|discriminate]. injection E as <- _. exact H.
  - injection E as <- _. exact H.
Qed.
Lemma run_done : forall A (p : prog A) s s' ts x, rd_chunks (c_rd s) = [] -> prun cstep s p = Ok (s', ts, x) -> rd_chunks (c_rd s') = [].
Proof.
  intros A p. induction p as [a|o k IH|t k IH|]; intros s s' ts x H E; cbn [prun] in E.
  - injection E as <- _ _. exact H.
  - destruct (cstep s o) as [[s1 y]| |] eqn:C; try discriminate. eapply IH; [eapply step_done; eauto|exact E].
  - destruct (prun cstep s k) as [[[s1 t1] y]| |] eqn:C; try discriminate. injection E as <- _ _. eapply IH; eauto.
  - discriminate.
Qed.
Lemma fill_first : forall size s b f, c_rd s = mkReader [b :: f] RdEOF false -> c_fill s = 0 /\ length (c_buf s) = size -> length (b :: f) <= size ->
  rd_chunks (c_rd (fill_buf s)) = [].
Proof.
  intros size s b f R [F B] L. unfold fill_buf. change maxConsecutiveEmptyReads with (S 99). generalize 99. intro n.
  assert (SH : shift_buf s = s).
  { unfold shift_buf. rewrite F, B. destruct size; [cbn [length] in L; lia|]. reflexivity. }
  rewrite SH. cbn [fill_loop]. rewrite R, F, B, Nat.sub_0_r. unfold reader_read. cbn [rd_chunks].
  destruct (Nat.leb_spec (length (b :: f)) size) as [_|Q]; [|lia]. cbn [rd_with length Nat.ltb Nat.leb]. reflexivity.
Qed.
Lemma read_first : forall size s b f s1 y, c_rd s = mkReader [b :: f] RdEOF false -> c_fill s = 0 /\ length (c_buf s) = size -> length (b :: f) <= size ->
  c_read s = Ok (s1, y) -> rd_chunks (c_rd s1) = [].
Proof.
  intros size s b f s1 y R FB L.
  assert (F : rd_chunks (c_rd (if c_fill s <=? c_cur s then fill_buf s else s)) = []).
  { rewrite (proj1 FB). exact (fill_first size s b f R FB L). }
  unfold c_read. revert F. generalize (if c_fill s <=? c_cur s then fill_buf s else s). intros s2 F E.
  destruct (c_cur s2 <? c_fill s2); [destruct (nth_error _ _); [|discriminate]; injection E as <- _; exact F|].
  destruct (c_err s2) as [[[]|]|]; injection E as <- _; exact F.
Qed.
Lemma number_begins : forall n, exists k, parse_number n = Op SStart (fun _ => Op SRead k).
Proof. intro n. eexists. reflexivity. Qed.
Lemma two_steps : forall A size f (k : sobs -> prog A) s s' ts x, f <> [] -> length f <= size ->
  c_rd s = mkReader [f] RdEOF false /\ c_fill s = 0 /\ length (c_buf s) = size ->
  prun cstep s (Op SStart (fun _ => Op SRead k)) = Ok (s', ts, x) -> rd_chunks (c_rd s') = [].
Proof.
  intros A size f k s s' ts x NE L S0 E. cbn [prun] in E.
  destruct (cstep s SStart) as [[s0 y0]| |] eqn:ST; try discriminate.
  assert (S1 : c_rd s0 = mkReader [f] RdEOF false /\ c_fill s0 = 0 /\ length (c_buf s0) = size).
  { cbn [cstep] in ST. unfold c_start in ST. destruct (c_ts s); [discriminate|]. injection ST as <- _. exact S0. }
  destruct f as [|b f]; [congruence|]. destruct S1 as (R & FB).
  destruct (cstep s0 SRead) as [[s1 y]| |] eqn:RD; try discriminate.
  eapply run_done; [|exact E]. exact (read_first size s0 b f s1 y R FB L RD).
Qed.
Lemma number_fetches : forall size f n s' ts x, f <> [] -> length f <= size ->
  prun cstep (new_scanner (mkReader [f] RdEOF false) size) (parse_number n) = Ok (s', ts, x) -> rd_chunks (c_rd s') = [].
Proof.
  intros size f n s' ts x NE L E. destruct (number_begins n) as [k Q]. rewrite Q in E.
  eapply two_steps; [exact NE|exact L| |exact E]. split; [reflexivity|]. split; [reflexivity|]. apply repeat_length.
Qed.

(** C21, what exactly happens to the other fields: a field that consists of bytes
    of numbers becomes the number at its beginning, if there is one that the next
    byte does not continue, and a string otherwise.  (Fields that do not fit in the
    buffer of 8192 bytes are left out.) *)
Theorem C21_number_fields_partial :
  forall (size : nat) (f : bytes), 2 <= size -> f <> [] -> Forall numeric_byte f -> length f <= size ->
    exists s, decode_csv size false false [] [[f]] false = Ok ([TStartArr; TScalar s; TEndArr], DOk tt) /\
      (forall t, number_part f t -> s = new_scalar TNum t) /\
      ((forall t, ~ number_part f t) -> string_of f s).
Proof.
  intros size f L NE NB LF.
  assert (NS : f <> true_bytes /\ f <> false_bytes /\ escapes f = 0).
  { assert (D : forall c, numeric_byte c -> c <> 116%N /\ c <> 102%N /\ needs_escape c = false).
    { intros c [H|H]; [unfold digit in H|cbn in H]; unfold needs_escape;
        destruct (N.eqb_spec c 34), (N.eqb_spec c 10), (N.eqb_spec c 92); lia. }
    destruct f as [|b f]; [congruence|]. inversion NB as [|? ? F1 F2]; subst. destruct (D b F1) as [D1 [D2 D3]].
    split; [unfold true_bytes; congruence|]. split; [unfold false_bytes; congruence|].
    unfold escapes. clear -NB D. induction NB as [|c l H F IH]; [reflexivity|]. cbn [filter]. destruct (D c H) as [_ [_ ->]]. exact IH. }
  destruct NS as (N1 & N2 & N3).
  assert (B : forall g, f <> g -> bytes_eqb f g = false).
  { intros g N. apply not_true_is_false. intro C. apply bytes_eqb_eq in C. contradiction. }
  destruct (number_exact f NE) as (a' & x & R & X & ALL).
  set (r := mkReader [f] RdEOF false).
  assert (K : ok_runs 99 (rd_chunks r) = true) by (destruct f; [congruence|reflexivity]).
  pose proof (init_sim r size L K) as SM. cbn [r rd_chunks rd_fin concat] in SM. rewrite app_nil_r in SM.
  destruct (prun_sim _ _ _ _ _ _ _ SM R) as (c & C & _).
  pose proof (number_fetches _ _ _ _ _ _ NE LF C) as FE.
  assert (FN : field_number size f = Ok (match x with DOk s => Some s | DErr _ => None end)).
  { unfold field_number. change (prun cstep (new_scanner (mkReader [f] RdEOF false) size)
      (parse_number (Datatypes.S (length f)))) with (prun cstep (new_scanner r size) (parse_number (Datatypes.S (length f)))).
    rewrite C. destruct x; [|reflexivity]. rewrite FE. reflexivity. }
  destruct (classify_spec f true true (negb false) 0) as [al [CL AL]]. cbn [negb andb Nat.add] in CL.
  assert (FS : field_to_scalar size f false = Ok (match x with DOk s => s | DErr _ => mkScalar (sc_bytes (simple_string_scalar f)) TStr false al false end)).
  { unfold field_to_scalar. rewrite (B _ NE), (B _ N1), (B _ N2). cbn [negb]. rewrite CL, N3, (proj2 (number_bytes_spec f) NB), FN. cbn [bind]. now destruct x. }
  eexists. split.
  { unfold decode_csv. cbn [set_field_names bind produce_records Nat.ltb Nat.leb negb orb].
    unfold produce_record. cbn [array_fields]. rewrite FS. reflexivity. }
  split.
  - intros t P. rewrite (ALL t P). reflexivity.
  - intro N. destruct x as [s|e]; [exfalso; destruct X as (t & P & _); exact (N t P)|]. split; [reflexivity|]. cbn [sc_bytes sc_unesc simple_string_scalar new_scalar]. split; [now rewrite escaped_plain|]. split; [discriminate|]. cbn [sc_alnum]. rewrite (AL N3). apply plain_flag.
Qed.
Print Assumptions C21_number_fields_partial.

(** So a field (that fits in the buffer) is decoded as it should be unless it
    consists of bytes of numbers and begins with a number that the next byte does
    not continue. *)
Lemma whole_part : forall f, number_text f -> number_part f f.
Proof. intros f N. exists []. rewrite app_nil_r. split; [reflexivity|]. split; [exact N|discriminate]. Qed.
Theorem C21_exactly_when :
  forall (size : nat) (f : bytes), 2 <= size -> length f <= size ->
    exists s, decode_csv size false false [] [[f]] false = Ok ([TStartArr; TScalar s; TEndArr], DOk tt) /\
      (field_value f s <-> ~ (Forall numeric_byte f /\ exists t, number_part f t /\ t <> f)).
Proof.
  intros size f L LF.
  destruct (Forall_dec numeric_byte) with (l := f) as [NB|NB].
  { intro b. destruct (number_byte b) eqn:E; [left|right]; [now apply number_byte_spec|]. intro H. apply number_byte_spec in H. congruence. }
  2:{ destruct (C21_fields_keep_their_content_partial size f L (or_intror (or_intror NB))) as (s & E & V). exists s. split; [exact E|]. tauto. }
  destruct f as [|b f0] eqn:EF.
  { destruct (C21_fields_keep_their_content_partial size [] L (or_introl eq_refl)) as (s & E & V). exists s. split; [exact E|]. split; [|auto].
    intros _ (_ & t & (r & A & N & _) & D). symmetry in A. apply app_eq_nil in A as [-> _]. congruence. }
  rewrite <- EF in *. assert (NE : f <> []) by (rewrite EF; discriminate).
  destruct (C21_number_fields_partial size f L NE NB LF) as (s & E & A & B). exists s. split; [exact E|].
  destruct (number_exact f NE) as (_ & [sc|e] & _ & X & _).
  - destruct X as (t & P & _). pose proof (A t P) as ->. split.
    + intros V (_ & t' & P' & D). pose proof (A t' P') as Q. injection Q as Q. subst t'.
      inversion V; subst; try discriminate; try (apply D; congruence). match goal with H : string_of _ _ |- _ => destruct H as [H _]; discriminate end.
    + intro H. destruct (bytes_eqb t f) eqn:Q.
      * apply bytes_eqb_eq in Q. subst t. constructor. now destruct P as (_ & _ & N & _).
      * exfalso. apply H. split; [exact NB|]. exists t. split; [exact P|]. intros ->. rewrite bytes_eqb_refl in Q. discriminate.
  - split; [intros _ (_ & t & P & _); exact (X t P)|]. intros _. specialize (B X).
    assert (D : forall c, numeric_byte c -> c <> 116%N /\ c <> 102%N) by (intros c [H|H]; [unfold digit in H|cbn in H]; lia).
    apply fv_text; auto.
    + intro T. rewrite T in NB. inversion NB as [|? ? N _]. now destruct (D _ N).
    + intro T. rewrite T in NB. inversion NB as [|? ? N _]. now destruct (D _ N).
    + intro N. exact (X f (whole_part f N)).
Qed.
Print Assumptions C21_exactly_when.

(** [1e5.2] becomes the number [1e5]; [1.] and [-] stay strings. *)
Example C21_number_part_example :
  number_part [49; 101; 53; 46; 50]%N [49; 101; 53]%N /\
  (forall t, ~ number_part [49; 46]%N t) /\ (forall t, ~ number_part [45]%N t).
Proof.
  assert (G : forall f (NE : f <> []) e a', prun astep (a_init f RdEOF) (parse_number (S (length f))) = Ok (a', [], DErr e) -> forall t, ~ number_part f t).
  { intros f NE e a' R. destruct (number_exact f NE) as (a2 & x & R2 & X & _). rewrite R in R2. injection R2 as <- <-. exact X. }
  split.
  - destruct (number_exact [49; 101; 53; 46; 50]%N ltac:(discriminate)) as (a' & x & R & X & _).
    vm_compute in R. injection R as <- <-. destruct X as (t & P & E). injection E as <-. exact P.
  - split; (eapply G; [discriminate|vm_compute; reflexivity]).
Qed.

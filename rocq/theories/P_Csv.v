(** Properties C20-C22: CSV decoding. *)
From Coq Require Import List Arith ZArith NArith Bool Lia.
From Verif Require Import Base Tokens ScannerModel ScannerSpec ScannerProofs ProgModel ProgProofs
  JsonDecModel JsonSpec JsonDecProofs JsonDecValue P_JsonDec EncSpec ScalarModel ScalarSpec ScalarProofs
  JpvEncModel JpvProofs JpvEncProofs CsvModel CsvSpec.

(* ------------------------------------------------------------------ *)
(** Strings. *)
Definition needs_escape (b : N) : bool := N.eqb b 34 || N.eqb b 10 || N.eqb b 92.
Definition escapes (f : field) : nat := length (filter needs_escape f).

Lemma classify_spec : forall f i0 al num e,
  exists al', classify f i0 al num e = (al', num && forallb number_byte f, e + escapes f) /\
    (escapes f = 0 -> al' = match f with [] => al | _ => if i0 then identifier f else al && forallb alnum_byte f end).
Proof.
  unfold escapes, needs_escape.
  induction f as [|b f IH]; intros i0 al num e; cbn [classify forallb filter].
  - exists al. rewrite andb_true_r, Nat.add_0_r. auto.
  - destruct (IH false (if N.eqb b 34 || N.eqb b 10 || N.eqb b 92 then al
        else if i0 then is_alpha b else al && is_alnum b) (num && number_byte b)
        (if N.eqb b 34 || N.eqb b 10 || N.eqb b 92 then S e else e)) as [al' [H A]].
    exists al'. cbv zeta. rewrite H, andb_assoc. split.
    + f_equal. destruct (N.eqb b 34 || N.eqb b 10 || N.eqb b 92); cbn [length]; lia.
    + intro E. destruct (N.eqb b 34 || N.eqb b 10 || N.eqb b 92); [discriminate|]. rewrite (A E). rewrite alpha_same, alnum_same. cbn [identifier forallb].
      destruct f as [|c f]; destruct i0; cbn [forallb]; now rewrite ?andb_true_r, ?andb_assoc.
Qed.
Lemma plain_flag : forall f, match f with [] => true | _ => identifier f end = true <-> f = [] \/ identifier f = true.
Proof. intros [|b f]; [intuition|]. split; [auto|]. intros [H|H]; [discriminate|exact H]. Qed.
Lemma escaped_flag : forall f n, escapes f = S n -> false = true <-> f = [] \/ identifier f = true.
Proof.
  intros f n E. split; [discriminate|]. intros [->|H]; [discriminate|]. exfalso.
  assert (A : forall b, alnum_byte b = true -> needs_escape b = false).
  { intros b B. unfold alnum_byte, alpha_byte in B. unfold needs_escape.
    destruct (N.eqb_spec b 34) as [->|_]; [discriminate|]. destruct (N.eqb_spec b 10) as [->|_]; [discriminate|]. destruct (N.eqb_spec b 92) as [->|_]; [discriminate|reflexivity]. }
  assert (F : forallb alnum_byte f = true).
  { destruct f as [|b f]; [discriminate|]. cbn [identifier forallb] in *. apply andb_prop in H as [H1 H2]. rewrite H2, andb_true_r. unfold alnum_byte. now rewrite H1. }
  clear H. unfold escapes in E. replace (filter needs_escape f) with (@nil N) in E; [discriminate|]. clear E. induction f as [|b f IH]; [reflexivity|].
  cbn [forallb] in F. apply andb_prop in F as [F1 F2]. cbn [filter]. rewrite (A b F1). auto.
Qed.

Lemma escaped_plain : forall f, escapes f = 0 -> escaped f = f.
Proof.
  unfold escapes, escaped. induction f as [|b f IH]; intros H; [reflexivity|].
  cbn [filter] in H. unfold needs_escape in H at 1. cbn [flat_map]. unfold escaped_byte at 1.
  destruct (N.eqb b 34), (N.eqb b 10), (N.eqb b 92); cbn [orb length] in H; try discriminate.
  cbn [app]. now rewrite IH.
Qed.

Lemma escaped_length : forall f, length (escaped f) = length f + escapes f.
Proof.
  unfold escapes, escaped. induction f as [|b f IH]; [reflexivity|].
  cbn [flat_map filter length]. rewrite app_length, IH. unfold escaped_byte.
  change (needs_escape b) with (N.eqb b 34 || N.eqb b 10 || N.eqb b 92).
  destruct (N.eqb b 34), (N.eqb b 92), (N.eqb b 10); cbn [orb length]; lia.
Qed.

Lemma array_set_at : forall pre x r b, array_set (pre ++ x :: r) (length pre) b = Ok (pre ++ b :: r).
Proof.
  induction pre as [|y pre IH]; intros x r b; [reflexivity|].
  cbn [app length array_set]. rewrite IH. reflexivity.
Qed.

Lemma escape_loop_ok : forall f pre rest, length rest = length (escaped f) + 1 ->
  escape_loop f (pre ++ rest) (length pre) = Ok (pre ++ escaped f ++ [34%N]).
Proof.
  induction f as [|b f IH]; intros pre rest L; cbn [escape_loop escaped flat_map] in *.
  - destruct rest as [|x [|y rest]]; cbn [length] in L; try lia. now rewrite array_set_at.
  - fold (escaped f) in *. rewrite app_length in L.
    assert (TWO : forall c1 c2, escaped_byte b = [c1; c2] ->
      bind (array_set (pre ++ rest) (length pre) c1) (fun a1 =>
      bind (array_set a1 (S (length pre)) c2) (fun a2 => escape_loop f a2 (S (S (length pre))))) =
      Ok (pre ++ (escaped_byte b ++ escaped f) ++ [34%N])).
    { intros c1 c2 E. rewrite E in *. cbn [length] in L.
      destruct rest as [|x [|y rest]]; cbn [length] in L; try lia.
      rewrite array_set_at. cbn [bind].
      replace (pre ++ c1 :: y :: rest) with ((pre ++ [c1]) ++ y :: rest) by (now rewrite <- app_assoc).
      replace (S (length pre)) with (length (pre ++ [c1])) by (rewrite app_length; simpl; lia).
      rewrite array_set_at. cbn [bind].
      replace ((pre ++ [c1]) ++ c2 :: rest) with ((pre ++ [c1; c2]) ++ rest) by (now rewrite <- !app_assoc).
      replace (S (length (pre ++ [c1]))) with (length (pre ++ [c1; c2])) by (rewrite !app_length; simpl; lia).
      rewrite IH by lia. now rewrite <- !app_assoc. }
    destruct (N.eqb_spec b 92) as [->|N92]; [apply TWO; reflexivity|].
    destruct (N.eqb_spec b 34) as [->|N34]; [apply TWO; reflexivity|]. cbn [orb].
    destruct (N.eqb_spec b 10) as [->|N10]; [apply TWO; reflexivity|].
    assert (E : escaped_byte b = [b]).
    { unfold escaped_byte. apply N.eqb_neq in N92, N34, N10. now rewrite N92, N34, N10. }
    rewrite E in *. cbn [length] in L. destruct rest as [|x rest]; cbn [length] in L; try lia.
    rewrite array_set_at. cbn [bind].
    replace (pre ++ b :: rest) with ((pre ++ [b]) ++ rest) by (now rewrite <- app_assoc).
    replace (S (length pre)) with (length (pre ++ [b])) by (rewrite app_length; simpl; lia).
    rewrite IH by lia. now rewrite <- !app_assoc.
Qed.

Lemma string_scalar_ok : forall f, string_scalar_escaped f (escapes f) =
  Ok (new_scalar TStr (34%N :: escaped f ++ [34%N])).
Proof.
  intros f. unfold string_scalar_escaped. rewrite <- escaped_length.
  replace (length (escaped f) + 2) with (S (length (escaped f) + 1)) by lia.
  cbn [repeat array_set bind].
  pose proof (escape_loop_ok f [34%N] (repeat 0%N (length (escaped f) + 1))) as E.
  rewrite repeat_length in E. cbn [app length] in E. rewrite E by reflexivity.
  reflexivity.
Qed.

(* ------------------------------------------------------------------ *)
(** Numbers. *)
Lemma field_number_spec : forall size f, 2 <= size -> f <> [] ->
  exists o, field_number size f = Ok o /\
    match o with
    | Some s => exists t r, f = t ++ r /\ number_text t /\ s = new_scalar TNum t /\ (number_text f -> r = [])
    | None => ~ number_text f
    end.
Proof.
  intros size f L NE. set (r := mkReader [f] RdEOF false).
  assert (K : ok_runs 99 (rd_chunks r) = true) by (destruct f; [congruence|reflexivity]).
  assert (IN : input r = f) by (cbn; apply app_nil_r).
  pose proof (init_sim r size L K) as SM.
  assert (SI : st RdEOF (a_init (input r) (rd_fin r)) f None) by (rewrite IN; apply st_init).
  destruct (parse_number_any RdEOF (S (length f)) _ f SI NE ltac:(lia)) as [a' [ts [x [R [-> X]]]]].
  destruct (prun_sim _ _ _ _ _ _ _ SM R) as [c [C SC]].
  assert (ALL : number_text f -> x = DOk (new_scalar TNum f) /\ st RdEOF a' [] None).
  { intros NT.
    destruct (parse_number_ok RdEOF (S (length f)) (a_init (input r) (rd_fin r)) f []) as [a2 [ts2 [x2 [R2 [_ [-> S2]]]]]].
    - now rewrite app_nil_r.
    - exact NT.
    - left. auto.
    - lia.
    - rewrite R2 in R. injection R as <- _ <-. auto. }
  assert (FN : field_number size f = match x with
    | DOk s => Ok (if Nat.eqb (length (concat (rd_chunks (c_rd c)))) 0 then Some s else None)
    | DErr _ => Ok None end).
  { unfold field_number. change (prun cstep (new_scanner (mkReader [f] RdEOF false) size)
      (parse_number (Datatypes.S (length f)))) with (prun cstep (new_scanner r size) (parse_number (Datatypes.S (length f)))).
    rewrite C. reflexivity. }
  rewrite FN. destruct x as [s|e].
  - destruct X as [t [r' [E [NT [-> S']]]]].
    destruct (Nat.eqb_spec (length (concat (rd_chunks (c_rd c)))) 0) as [Z|NZ].
    + eexists. split; [reflexivity|]. cbv beta iota. exists t, r'. repeat (split; [assumption||reflexivity|]).
      intros F. destruct (ALL F) as [_ [I _]]. destruct S' as [I' _]. congruence.
    + eexists. split; [reflexivity|]. cbv beta iota. intros F. destruct (ALL F) as [_ [I _]].
      apply NZ. destruct SC. rewrite I in s_in. symmetry in s_in. apply app_eq_nil in s_in.
      destruct s_in as [_ ->]. reflexivity.
  - eexists. split; [reflexivity|]. cbv beta iota. intros F. destruct (ALL F) as [D _]. discriminate.
Qed.

Lemma number_byte_spec : forall b, number_byte b = true <-> numeric_byte b.
Proof.
  intros b. unfold number_byte, numeric_byte. rewrite !orb_true_iff, !N.eqb_eq, is_digit_spec. cbn [In].
  intuition auto.
Qed.
Lemma number_bytes_spec : forall f, forallb number_byte f = true <-> Forall numeric_byte f.
Proof.
  intros f. rewrite forallb_forall, Forall_forall. split; intros H b I; apply number_byte_spec; auto.
Qed.

Lemma digits_numeric : forall ds, Forall digit ds -> Forall numeric_byte ds.
Proof. intros ds. apply Forall_impl. intros b. now left. Qed.
Lemma number_numeric : forall f, number_text f -> Forall numeric_byte f.
Proof.
  intros f [sg [i [fr [e [-> [SG [IT [FT ET]]]]]]]].
  assert (NB : forall b, In b [46; 101; 69; 43; 45]%N -> numeric_byte b) by (intros b I; now right).
  repeat (apply Forall_app; split).
  - destruct SG as [->| ->]; repeat constructor; apply NB; cbn; tauto.
  - destruct (int_first i IT) as [d [ds [-> [D F]]]]. constructor; [now left|now apply digits_numeric].
  - destruct FT as [->|[ds [-> [_ F]]]]; [constructor|].
    constructor; [apply NB; cbn; tauto|now apply digits_numeric].
  - destruct ET as [->|[eb [s [ds [-> [EB [SE [_ F]]]]]]]]; [constructor|].
    constructor; [apply NB; cbn; intuition auto|]. apply Forall_app. split; [|now apply digits_numeric].
    destruct SE as [->|[->| ->]]; repeat constructor; apply NB; cbn; tauto.
Qed.

Lemma number_not_special : forall f, number_text f ->
  f <> [] /\ f <> true_bytes /\ f <> false_bytes /\ escapes f = 0.
Proof.
  intros f N. pose proof (number_numeric f N) as F. destruct (number_first f N) as [b [t [-> B]]].
  split; [discriminate|].
  assert (D : forall c, numeric_byte c -> c <> 116%N /\ c <> 102%N /\ needs_escape c = false).
  { intros c [H|H]; [unfold digit in H|cbn in H]; unfold needs_escape;
      destruct (N.eqb_spec c 34), (N.eqb_spec c 10), (N.eqb_spec c 92); lia. }
  inversion F as [|? ? F1 F2]; subst. destruct (D b F1) as [D1 [D2 D3]].
  split; [unfold true_bytes; congruence|]. split; [unfold false_bytes; congruence|].
  unfold escapes. clear -F D. induction F as [|c l H F IH]; [reflexivity|]. cbn [filter].
  destruct (D c H) as [_ [_ ->]]. exact IH.
Qed.

(* ------------------------------------------------------------------ *)
Lemma header_scalar : forall size f, exists s, field_to_scalar size f true = Ok s /\ string_of f s.
Proof.
  intros size f. unfold field_to_scalar. destruct (classify_spec f true true (negb true) 0) as [al [-> AL]].
  cbn [negb andb Nat.add]. destruct (escapes f) as [|n] eqn:E.
  - eexists. split; [reflexivity|]. split; [reflexivity|]. cbn. split; [now rewrite escaped_plain|]. split; [discriminate|]. rewrite (AL eq_refl). apply plain_flag.
  - rewrite <- E, string_scalar_ok. eexists. split; [reflexivity|]. split; [reflexivity|]. split; [reflexivity|]. split; [discriminate|]. eapply escaped_flag; eauto.
Qed.

Lemma item_scalar : forall size f, 2 <= size ->
  exists s, field_to_scalar size f false = Ok s /\ decoded_value f s /\
    (sc_type s = TNum -> f <> [] -> exists t r, f = t ++ r /\ number_text t).
Proof.
  intros size f L. unfold field_to_scalar.
  destruct (bytes_eqb f []) eqn:E0.
  { apply bytes_eqb_eq in E0. subst. eexists. split; [reflexivity|]. split; [left; constructor|discriminate]. }
  destruct (bytes_eqb f true_bytes) eqn:E1.
  { apply bytes_eqb_eq in E1. subst. eexists. split; [reflexivity|]. split; [left; constructor|discriminate]. }
  destruct (bytes_eqb f false_bytes) eqn:E2.
  { apply bytes_eqb_eq in E2. subst. eexists. split; [reflexivity|]. split; [left; constructor|discriminate]. }
  assert (N0 : f <> []) by (intros ->; discriminate).
  assert (N1 : f <> true_bytes) by (intros ->; discriminate).
  assert (N2 : f <> false_bytes) by (intros ->; discriminate).
  destruct (classify_spec f true true (negb false) 0) as [al [-> AL]]. cbn [negb andb Nat.add].
  destruct (escapes f) as [|n] eqn:E.
  2: { rewrite <- E, string_scalar_ok. eexists. split; [reflexivity|]. split; [|discriminate]. left.
       apply fv_text; auto; [|split; [reflexivity|split; [reflexivity|split; [discriminate|eapply escaped_flag; eauto]]]]. intros N. apply number_not_special in N. lia. }
  assert (STR : ~ number_text f -> decoded_value f (mkScalar (sc_bytes (simple_string_scalar f)) TStr false al false)).
  { intros NN. left. apply fv_text; auto. split; [reflexivity|]. cbn. split; [now rewrite escaped_plain|]. split; [discriminate|]. rewrite (AL eq_refl). apply plain_flag. }
  destruct (forallb number_byte f) eqn:NB.
  - destruct (field_number_spec size f L N0) as [[s|] [-> H]]; cbn [bind].
    + exists s. split; [reflexivity|]. destruct H as [t [r [F [NT [-> A]]]]].
      split; [|intros _ _; eauto].
      destruct r as [|b r].
      * rewrite app_nil_r in F. subst t. left. now constructor.
      * right. exists t, (b :: r). repeat (split; [assumption||discriminate|]).
        split; [intro H; discriminate (A H)|]. split; [now apply number_bytes_spec|reflexivity].
    + eexists. split; [reflexivity|]. split; [auto|discriminate].
  - eexists. split; [reflexivity|]. split; [|discriminate]. apply STR. intros N.
    apply number_numeric, number_bytes_spec in N. congruence.
Qed.

(* ------------------------------------------------------------------ *)
(** Names. *)
Definition names_ok (names : list bytes) (l : list scalar) : Prop :=
  length names <= length l /\
  forall i k, nth_error l i = Some k -> exists n, names_field names i n /\ string_of n k.

Lemma set_names_ok : forall size r l names, length l = length names -> names_ok names l ->
  exists l', set_field_names size l r = Ok l' /\ length l' = length (names ++ r) /\ names_ok (names ++ r) l'.
Proof.
  intros size. induction r as [|f r IH]; intros l names LE OK; cbn [set_field_names].
  - exists l. rewrite app_nil_r. auto.
  - destruct (header_scalar size f) as [s [-> SF]]. cbn [bind].
    destruct (IH (l ++ [s]) (names ++ [f])) as [l' [E [LE' OK']]].
    + rewrite !app_length. simpl. lia.
    + destruct OK as [L H]. split; [rewrite !app_length; simpl; lia|].
      intros i k N. unfold names_field.
      destruct (Nat.lt_ge_cases i (length l)) as [LT|GE].
      * rewrite nth_error_app1 in N by exact LT. destruct (H i k N) as [n [NF SO]].
        exists n. split; [|exact SO]. rewrite nth_error_app1 by lia. exact NF.
      * rewrite nth_error_app2 in N by exact GE.
        assert (i = length l) by (destruct (i - length l) as [|[|j]] eqn:D; cbn in N; try discriminate; lia).
        subst i. rewrite Nat.sub_diag in N. injection N as <-.
        exists f. split; [|exact SF]. rewrite nth_error_app2 by lia. rewrite LE, Nat.sub_diag. reflexivity.
    + rewrite <- app_assoc in *. cbn [app] in *. eauto.
Qed.

Lemma extend_ok : forall size names n l, names_ok names l ->
  exists l', extend_names size l n = Ok l' /\ length l' = length l + n /\ names_ok names l'.
Proof.
  intros size names. induction n as [|n IH]; intros l OK; cbn [extend_names]; [exists l; auto with arith|].
  destruct (header_scalar size (default_name (length l))) as [s [-> SF]]. cbn [bind].
  destruct (IH (l ++ [s])) as [l' [E [LE OK']]].
  - destruct OK as [L H]. split; [rewrite app_length; lia|].
    intros i k N. destruct (Nat.lt_ge_cases i (length l)) as [LT|GE].
    + rewrite nth_error_app1 in N by exact LT. auto.
    + rewrite nth_error_app2 in N by exact GE.
      assert (i = length l) by (destruct (i - length l) as [|[|j]] eqn:D; cbn in N; try discriminate; lia).
      subst i. rewrite Nat.sub_diag in N. injection N as <-.
      exists (default_name (length l)). split; [|exact SF]. unfold names_field.
      rewrite (proj2 (nth_error_None names (length l))) by exact L.
      destruct (itoa_ok (N.of_nat (S (length l)))) as [I D].
      exists (itoa (N.of_nat (S (length l)))). split; [exact I|]. split; [|reflexivity].
      rewrite D. now rewrite nat_N_Z.
  - exists l'. split; [exact E|]. split; [|exact OK']. rewrite LE, app_length. simpl. lia.
Qed.

Lemma get_name_ok : forall size names l i, names_ok names l ->
  exists k l' n, get_field_name size l i = Ok (k, l') /\ names_ok names l' /\ names_field names i n /\ string_of n k.
Proof.
  intros size names l i OK. unfold get_field_name.
  destruct (extend_ok size names (S i - length l) l OK) as [l' [-> [LE OK']]]. cbn [bind].
  destruct (nth_error l' i) as [k|] eqn:N.
  - destruct (proj2 OK' i k N) as [n [NF SO]]. exists k, l', n. auto.
  - apply nth_error_None in N. lia.
Qed.

Lemma object_fields_ok : forall size names, 2 <= size -> forall r l i, names_ok names l ->
  exists ms l', object_fields size l i r = Ok (flat_map key_toks ms, l') /\
    names_ok names l' /\ members_for names i r ms.
Proof.
  intros size names L. induction r as [|f r IH]; intros l i OK; cbn [object_fields].
  - exists [], l. repeat split; auto using mf_nil; apply OK.
  - destruct (get_name_ok size names l i OK) as [k [l1 [n [-> [OK1 [NF SO]]]]]]. cbn [bind fst snd].
    destruct (item_scalar size f L) as [s [-> [DV _]]]. cbn [bind].
    destruct (IH l1 (S i) OK1) as [ms [l' [-> [OK' M]]]]. cbn [bind fst snd].
    exists ((k, JScalar s) :: ms), l'. split; [reflexivity|]. split; [exact OK'|]. econstructor; eauto.
Qed.

Lemma array_fields_ok : forall size, 2 <= size -> forall r,
  exists l, array_fields size r = Ok (flat_map toks l) /\
    Forall2 (fun f x => exists s, x = JScalar s /\ decoded_value f s) r l.
Proof.
  intros size L. induction r as [|f r IH]; cbn [array_fields]; [exists []; auto|].
  destruct (item_scalar size f L) as [s [-> [DV _]]]. cbn [bind].
  destruct IH as [l [-> F]]. cbn [bind]. exists (JScalar s :: l). split; [reflexivity|]. constructor; eauto.
Qed.

Lemma produce_record_ok : forall size objects names l r, 2 <= size -> names_ok names l ->
  exists v l', produce_record size objects l r = Ok (toks v, l') /\ names_ok names l' /\
    record_value objects names r v.
Proof.
  intros size objects names l r L OK. unfold produce_record, record_value. destruct objects.
  - destruct (object_fields_ok size names L r l 0 OK) as [ms [l' [-> [OK' M]]]]. cbn [bind fst snd].
    exists (JObj ms false), l'. split; [reflexivity|]. eauto.
  - destruct (array_fields_ok size L r) as [vs [-> F]]. cbn [bind].
    exists (JArr vs false), l. split; [reflexivity|]. eauto.
Qed.

Lemma produce_records_ok : forall size objects header names, 2 <= size -> forall rs l count,
  names_ok names l -> Nat.ltb 0 count || negb header = true ->
  exists vs, produce_records size objects header l count rs = Ok (stream vs) /\
    Forall2 (record_value objects names) rs vs.
Proof.
  intros size objects header names L. induction rs as [|r rs IH]; intros l count OK C; cbn [produce_records].
  - exists []. auto.
  - rewrite C. destruct (produce_record_ok size objects names l r L OK) as [v [l' [-> [OK' RV]]]].
    cbn [bind fst snd]. destruct (IH l' (S count) OK' eq_refl) as [vs [-> F]]. cbn [bind].
    exists (v :: vs). split; [reflexivity|]. now constructor.
Qed.

(** C20.  One value per data record: an array, or an object with one member per
    field in order, named after the names set by the caller, then those of the
    header, then field_<i>.  An error of the reader is returned after the
    records before it. *)
Theorem C20_records_become_values :
  forall (size : nat) (objects header : bool) (named : list bytes) (rs : list (list bytes)) (failed : bool),
    2 <= size ->
    exists vs, decode_csv size objects header named rs failed =
        Ok (stream vs, if failed then DErr DIo else DOk tt) /\
      Forall2 (record_value objects (named ++ if header then hd [] rs else []))
        (if header then tl rs else rs) vs.
Proof.
  intros size objects header named rs failed L. unfold decode_csv.
  destruct (set_names_ok size named [] []) as [l [-> [LE OK]]].
  - reflexivity.
  - split; [auto|]. intros i k N. destruct i; discriminate.
  - cbn [bind app] in *. destruct header.
    + destruct rs as [|r rs]; cbn [hd tl].
      * exists []. cbn. auto.
      * cbn [produce_records Nat.ltb Nat.leb orb negb].
        destruct (set_names_ok size r l named LE OK) as [l' [-> [LE' OK']]]. cbn [bind].
        destruct (produce_records_ok size objects true (named ++ r) L rs l' 1 OK' eq_refl) as [vs [-> F]].
        cbn [bind]. eauto.
    + rewrite app_nil_r.
      destruct (produce_records_ok size objects false named L rs l 0 OK eq_refl) as [vs [-> F]].
      cbn [bind]. eauto.
Qed.
Print Assumptions C20_records_become_values.

(** The same for well-behaved fields: numbers, and fields that contain a byte
    that does not occur in numbers. *)
Lemma decoded_whole : forall f s, decoded_value f s ->
  number_text f \/ ~ Forall numeric_byte f \/ f = [] -> field_value f s \/ number_text f.
Proof.
  intros f s [FV|[t [r [-> [NE [NT [_ [F ->]]]]]]]] H; [now left|]. destruct H as [H|[H|H]]; [now right|contradiction|].
  apply app_eq_nil in H. destruct H. contradiction.
Qed.

(** C21, as far as it holds: an empty field, a JSON number, and a field with a
    byte that does not occur in numbers are decoded as they should be.  Missing:
    the other fields, see [C21_truncated_refuted]. *)
Theorem C21_fields_keep_their_content_partial :
  forall (size : nat) (f : bytes), 2 <= size ->
    f = [] \/ number_text f \/ ~ Forall numeric_byte f ->
    exists s, decode_csv size false false [] [[f]] false =
        Ok ([TStartArr; TScalar s; TEndArr], DOk tt) /\ field_value f s.
Proof.
  intros size f L H. destruct (item_scalar size f L) as [s [E [DV _]]].
  exists s. split.
  - unfold decode_csv. cbn [set_field_names bind produce_records Nat.ltb Nat.leb negb orb].
    unfold produce_record. cbn [array_fields]. rewrite E. reflexivity.
  - destruct DV as [FV|[t [r [EF [NE [NT [NF [F ES]]]]]]]]; [exact FV|].
    destruct H as [->|[H|H]]; [|contradiction|contradiction].
    symmetry in EF. apply app_eq_nil in EF. destruct EF. contradiction.
Qed.
Print Assumptions C21_fields_keep_their_content_partial.

Example C21_example : number_text [45; 49; 46; 53; 101; 51]%N /\ ~ Forall numeric_byte [49; 32]%N.
Proof.
  split.
  - exists [45%N], [49%N], [46; 53]%N, [101; 51]%N. split; [reflexivity|]. split; [now right|].
    split; [right; exists 49%N, []; repeat split; auto; lia|].
    assert (D : forall d, (48 <= d <= 57)%N -> digits1 [d]).
    { intros d D. split; [discriminate|]. constructor; [exact D|constructor]. }
    split; [right; exists [53%N]; split; [reflexivity|apply D; lia]|].
    right. exists 101%N, [], [51%N]. repeat split; auto; try discriminate. apply D; lia.
  - intros F. inversion F as [|? ? _ F2]; subst. inversion F2 as [|? ? [H|H] _]; subst; [unfold digit in H; lia|].
    cbn in H. intuition discriminate.
Qed.

(** A string keeps its value. *)
Lemma utf8_high : forall c, (128 <= c)%N -> Forall (fun b => 128 <= b)%N (utf8 c).
Proof.
  intros c H. unfold utf8. destruct (N.ltb_spec c 128); [lia|].
  destruct (c <? 2048)%N; [|destruct (c <? 65536)%N]; repeat constructor; apply N.le_trans with 128%N; try lia;
    apply N.le_add_r || (apply N.le_trans with 192%N; [lia|apply N.le_add_r])
    || (apply N.le_trans with 224%N; [lia|apply N.le_add_r]) || (apply N.le_trans with 240%N; [lia|apply N.le_add_r]).
Qed.

Lemma escaped_high : forall l, Forall (fun b => 128 <= b)%N l -> escaped l = l.
Proof.
  induction 1 as [|b l H F IH]; [reflexivity|]. unfold escaped in *. cbn [flat_map]. rewrite IH.
  unfold escaped_byte. destruct (N.eqb_spec b 34), (N.eqb_spec b 92), (N.eqb_spec b 10); try lia. reflexivity.
Qed.

Theorem C21_strings_denote_the_field :
  forall (u : list N) (s : scalar),
    Forall (fun c => unicode c /\ (32 <= c \/ c = 10))%N u ->
    string_of (flat_map utf8 u) s -> denotes (contents (sc_bytes s)) u.
Proof.
  intros u s F (_ & -> & _). change (34%N :: escaped (flat_map utf8 u) ++ [34%N]) with
    (34%N :: (escaped (flat_map utf8 u)) ++ [34%N]).
  unfold contents. cbn [tl]. rewrite removelast_last.
  induction F as [|c u [U C] F IH]; [constructor|]. cbn [flat_map]. unfold escaped in *.
  rewrite flat_map_app. fold (escaped (utf8 c)).
  destruct (N.lt_ge_cases c 128) as [LT|GE].
  - assert (E : utf8 c = [c]) by (unfold utf8; destruct (N.ltb_spec c 128); [reflexivity|lia]).
    rewrite E. cbn [escaped flat_map]. rewrite app_nil_r. unfold escaped_byte at 1.
    destruct (N.eqb_spec c 34) as [->|N34]; [apply dn_letter; [cbn; tauto|exact IH]|].
    destruct (N.eqb_spec c 92) as [->|N92]; [apply dn_letter; [cbn; tauto|exact IH]|].
    destruct (N.eqb_spec c 10) as [->|N10]; [apply dn_letter; [cbn; tauto|exact IH]|].
    rewrite <- E. apply dn_char; auto. destruct C; [assumption|contradiction].
  - rewrite escaped_high by (now apply utf8_high). apply dn_char; auto; lia.
Qed.
Print Assumptions C21_strings_denote_the_field.

(** The field "1-2" becomes the number 1 (with the buffer size of the code). *)
Theorem C21_truncated_refuted :
  decode_csv (N.to_nat 8192) false false [] [[[49; 45; 50]%N]] false =
  Ok ([TStartArr; TScalar (new_scalar TNum [49%N]); TEndArr], DOk tt).
Proof. vm_compute. reflexivity. Qed.
Print Assumptions C21_truncated_refuted.

(** C22, as far as it holds: fields without control characters other than line
    feeds become valid string literals. *)
Lemma escaped_chars : forall f, Forall (fun b => (32 <= b \/ b = 10) /\ b <> 255)%N f -> chars true (escaped f).
Proof.
  induction 1 as [|b f [C N] F IH]; [constructor|]. unfold escaped in *. cbn [flat_map]. unfold escaped_byte at 1.
  destruct (N.eqb_spec b 34) as [->|N34]; [apply ch_esc; [unfold escape_letter; cbn; tauto|exact IH]|].
  destruct (N.eqb_spec b 92) as [->|N92]; [apply ch_esc; [unfold escape_letter; cbn; tauto|exact IH]|].
  destruct (N.eqb_spec b 10) as [->|N10]; [apply ch_esc; [unfold escape_letter; cbn; tauto|exact IH]|].
  apply ch_plain; [|exact IH]. unfold plain_byte. destruct C; [auto|contradiction].
Qed.

Lemma decoded_valid : forall f s, decoded_value f s ->
  Forall (fun b => (32 <= b \/ b = 10) /\ b <> 255)%N f -> valid true (JScalar s).
Proof.
  intros f s DV F. constructor. unfold valid_scalar.
  destruct DV as [FV|[t [r [-> [NE [NT [_ [_ ->]]]]]]]]; [|exact NT].
  destruct FV; cbn; auto. destruct H3 as (-> & -> & _). exists (escaped f). split; [reflexivity|]. now apply escaped_chars.
Qed.

Theorem C22_values_are_valid_partial :
  forall (size : nat) (objects header : bool) (named : list bytes) (rs : list (list bytes)) (failed : bool),
    2 <= size ->
    (forall r f b, In r (named :: rs) -> In f r -> In b f -> ((32 <= b \/ b = 10) /\ b <> 255)%N) ->
    exists vs, decode_csv size objects header named rs failed =
        Ok (stream vs, if failed then DErr DIo else DOk tt) /\
      Forall (valid true) vs.
Proof.
  intros size objects header named rs failed L H.
  destruct (C20_records_become_values size objects header named rs failed L) as [vs [E F]].
  exists vs. split; [exact E|].
  set (names := named ++ if header then hd [] rs else []) in *.
  assert (HN : forall f, In f names -> Forall (fun b => (32 <= b \/ b = 10) /\ b <> 255)%N f).
  { intros f I. apply Forall_forall. intros b J. unfold names in I. apply in_app_or in I. destruct I as [I|I].
    - apply (H named f b); auto. now left.
    - destruct header; [|contradiction]. destruct rs as [|r rs]; [contradiction|]. apply (H r f b); auto.
      right. now left. }
  assert (HR : forall r, In r (if header then tl rs else rs) ->
    Forall (Forall (fun b => (32 <= b \/ b = 10) /\ b <> 255)%N) r).
  { intros r I. apply Forall_forall. intros f J. apply Forall_forall. intros b K. apply (H r f b); auto.
    right. destruct header; [|exact I]. destruct rs; [contradiction|]. now right. }
  clear E H. induction F as [|r v rs' vs RV F IH]; [constructor|].
  constructor; [|apply IH; intros; apply HR; now right].
  specialize (HR r (or_introl eq_refl)). clear IH F L. unfold record_value in RV. destruct objects.
  - destruct RV as [ms [-> M]]. constructor. revert HR. induction M as [|i f r n k s ms NF SO DV M IH]; intros HR; [constructor|].
    inversion HR as [|? ? HF HR']; subst. constructor; [|now apply IH]. cbn [fst snd]. split.
    + destruct SO as (_ & -> & _). exists (escaped n). split; [reflexivity|]. apply escaped_chars.
      unfold names_field in NF. destruct (nth_error names i) as [h|] eqn:NT.
      * subst n. apply HN. eapply nth_error_In; eauto.
      * destruct NF as [ds [IT [_ ->]]]. apply Forall_app. split.
        { repeat constructor; try lia; discriminate. }
        destruct (int_first ds IT) as [d [ds' [-> [D FD]]]].
        assert (FA : Forall digit (d :: ds')) by (now constructor).
        revert FA. apply Forall_impl. unfold digit. intros b B. split; lia.
    + now apply (decoded_valid f).
  - destruct RV as [l [-> FL]]. constructor. revert HR.
    induction FL as [|f x r l [s [-> DV]] FL IH]; intros HR; [constructor|].
    inversion HR as [|? ? HF HR']; subst. constructor; [now apply (decoded_valid f)|now apply IH].
Qed.
Print Assumptions C22_values_are_valid_partial.

(** A tab in a field is copied into the string literal, which RFC 8259 does not
    allow; nor does the JSON decoder of this library accept it. *)
Definition tab_scalar : scalar := new_scalar TStr [34; 97; 9; 34]%N.
Theorem C22_control_characters_refuted :
  decode_csv (N.to_nat 8192) false false [] [[[97; 9]%N]] false =
    Ok ([TStartArr; TScalar tab_scalar; TEndArr], DOk tt) /\
  ~ string_text false (sc_bytes tab_scalar).
Proof.
  split; [vm_compute; reflexivity|].
  intros [c [E C]]. cbn in E. injection E as E.
  assert (EC : c = [97; 9]%N) by (apply (app_inj_tail c [97; 9]%N 34%N 34%N); now rewrite <- E).
  subst c. inversion C as [|b l P C2| | |]; subst; inversion C2 as [|b l P2 C3| | |]; subst.
  unfold plain_byte in P2. lia.
Qed.
Print Assumptions C22_control_characters_refuted.

(** A run with a header, a caller-set name and a ragged record: one
    object with the members n, a followed by a quotation mark, and field_3. *)
Example C20_example :
  decode_csv 16 true true [[110%N]] [[[97; 34]%N]; [[49; 46; 53]%N; [120%N]; []]] false =
  Ok ([TStartObj;
       TScalar (mkScalar [34; 110; 34]%N TStr true true false); TScalar (new_scalar TNum [49; 46; 53]%N);
       TScalar (new_scalar TStr [34; 97; 92; 34; 34]%N);
       TScalar (mkScalar [34; 120; 34]%N TStr false true false);
       TScalar (mkScalar [34; 102; 105; 101; 108; 100; 95; 51; 34]%N TStr true true false);
       TScalar null_scalar; TEndObj], DOk tt).
Proof. vm_compute. reflexivity. Qed.

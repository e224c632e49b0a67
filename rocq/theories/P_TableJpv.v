(** C76: CSV tables as lines of JPV. *)
From Coq Require Import String List Arith ZArith NArith Bool Lia.
From Verif Require Import Base Tokens ScannerModel ScannerSpec JsonSpec ScalarSpec P_JsonDec GoLiteral CsvSpec P_Csv PathSpec PathTame EncSpec P_JsonEnc CursorModel QuerySyntax
  JpvSpec P_Jpv CsvReaderModel CsvTextSpec CsvReader P_CsvText MainModel P_Main FormatModel CliModel CliSpec P_Cli P_JpQuery P_JpGrep RecipeSpec P_Recipes TableSpec Tables P_Table.
Import ListNotations.

(* ------------------------------------------------------------------ *)
(** The array of the rows is valid and can be written as JPV. *)
Lemma chars_weak : forall c strict, chars true c -> chars strict c.
Proof. intros c strict H. induction H; [constructor|constructor|constructor|constructor|discriminate]; assumption. Qed.
Lemma legible_chars : forall f, legible f -> forall strict, chars strict (escaped f).
Proof. intros f L strict. apply chars_weak, escaped_chars. now apply legible_printable. Qed.
Lemma name_text : forall n k, legible n -> string_of n k -> forall strict, string_text strict (sc_bytes k).
Proof. intros n k L (_ & -> & _) strict. exists (escaped n). split; [reflexivity|now apply legible_chars]. Qed.
Lemma cell_valid : forall strict f s, cell f -> field_value f s -> valid_scalar strict s.
Proof.
  intros strict f s C V. unfold valid_scalar. destruct V as [| | |f N|f s N0 N1 N2 N3 S]; cbn; auto. 
  pose proof S as (T & _). rewrite T. eapply name_text; [|exact S].
  destruct C as [->|[(n & m & e & V & _)|[L _]]]; [congruence|destruct (N3 (value_number _ _ _ _ V))|exact L].
Qed.

Lemma row_members : forall names row ms, Forall legible names -> Forall cell row ->
  Forall2 (fun nf m => string_of (fst nf) (fst m) /\ exists s, snd m = JScalar s /\ field_value (snd nf) s) (combine names row) ms ->
  Forall (fun m => exists n f s, In n names /\ legible n /\ string_of n (fst m) /\ snd m = JScalar s /\ cell f /\ field_value f s) ms.
Proof.
  intros names row ms LG CE F. apply Forall_forall. intros m I1. destruct (forall2_right _ _ _ _ F I1) as ([n f] & I2 & S & s & E & V). cbn [fst snd] in *.
  exists n, f, s. pose proof (in_combine_l _ _ _ _ I2) as A. pose proof (in_combine_r _ _ _ _ I2) as B. rewrite Forall_forall in LG, CE. auto 10.
Qed.
Lemma row_valid : forall strict names row v, Forall legible names -> Forall cell row -> row_value names row v -> valid strict v.
Proof.
  intros strict names row v LG CE (ms & -> & F). constructor. eapply Forall_impl; [|exact (row_members names row ms LG CE F)].
  intros [k x] (n & f & s & _ & L & S & E & C & V). cbn [fst snd] in *. subst x. split; [eapply name_text; eauto|]. constructor. eapply cell_valid; eauto.
Qed.
Lemma row_keys_differ : forall names row ms, Forall legible names -> NoDup names ->
  Forall2 (fun nf m => string_of (fst nf) (fst m) /\ exists s, snd m = JScalar s /\ field_value (snd nf) s) (combine names row) ms ->
  all_differ (map fst ms).
Proof.
  induction names as [|n names IH]; intros row ms LG ND F; destruct row as [|f row]; cbn [combine] in F; try (inversion F; constructor; fail).
  inversion F as [|? m ? ms' (S & _) F']; subst. inversion LG as [|? ? L1 LG']; subst. inversion ND as [|? ? NI ND']; subst. cbn [map fst] in *.
  constructor; [|eapply IH; eauto]. apply Forall_forall. intros k X. apply in_map_iff in X as (m' & <- & X).
  destruct (forall2_right _ _ _ _ F' X) as ([n' f'] & I2 & S' & _). cbn [fst] in S'. apply in_combine_l in I2.
  rewrite Forall_forall in LG'. destruct L1 as (u & -> & U), (LG' n' I2) as (u' & -> & U'). exists u, u'.
  split; [apply (C21_strings_denote_the_field u _ U S)|]. split; [apply (C21_strings_denote_the_field u' _ U' S')|]. intros ->. contradiction.
Qed.
Lemma row_representable : forall quote names row v, Forall legible names -> NoDup names -> ~ In [] names \/ quote = true -> Forall cell row -> row_value names row v ->
  representable all_differ quote v.
Proof.
  intros quote names row v LG ND NE CE (ms & -> & F). constructor; [|eapply row_keys_differ; eauto].
  eapply Forall_impl; [|exact (row_members names row ms LG CE F)].
  intros [k x] (n & f & s & IN & L & S & E & C & V). cbn [fst snd] in *. subst x. split; [exact (proj1 S)|]. split; [eapply name_text; eauto|]. split.
  - intros A Q. destruct S as (_ & B & _ & AL). apply AL in A as [->|A]; [destruct NE; [contradiction|congruence]|].
    rewrite B. unfold EncSpec.contents. cbn [tl]. rewrite removelast_last. rewrite escaped_plain; [exact A|].
    destruct (escapes n) as [|k'] eqn:ES; [reflexivity|]. exfalso. assert (X : n = [] \/ identifier n = true) by now right. apply (escaped_flag n k' ES) in X. discriminate.
  - constructor. eapply cell_valid; eauto.
Qed.
Lemma table_representable : forall quote names rows vs, table names rows -> ~ In [] names \/ quote = true -> Forall2 (row_value names) rows vs ->
  representable all_differ quote (JArr vs false) /\ valid true (JArr vs false).
Proof.
  intros quote names rows vs (LG & ND & RW & SZ) NE F. rewrite Forall_forall in RW. split; constructor.
  - apply Forall_forall. intros v X. destruct (forall2_right _ _ _ _ F X) as (row & I1 & R). destruct (RW row I1). eapply row_representable; eauto.
  - rewrite <- (forall2_length _ _ _ F). nia.
  - apply Forall_forall. intros v X. destruct (forall2_right _ _ _ _ F X) as (row & I1 & R). destruct (RW row I1). eapply row_valid; eauto.
Qed.

Lemma valid_restrict : forall quote v keep v', valid true v -> restrict quote keep v = Some v' -> valid true v'.
Proof.
  intro quote. apply (jval_induction (fun v => forall keep v', valid true v -> restrict quote keep v = Some v' -> valid true v')).
  - intros s keep v' S H. cbn [restrict] in H. destruct (keep []); [|discriminate]. now injection H as <-.
  - intros l e IH keep v' S H. inversion S as [|? F|]; subst. cbn [restrict] in H. destruct l as [|x0 l0].
    { destruct (keep []); [|discriminate]. injection H as <-. now constructor. }
    set (l := x0 :: l0) in *. match type of H with match ?t with _ => _ end = _ => assert (Q : Forall (valid true) t); [|destruct t; [discriminate|]; injection H as <-; now constructor] end.
    clear H. generalize 0%N as i. unfold l in *. clear l S. revert IH F. generalize (x0 :: l0) as l. clear x0 l0. intros l IH F.
    induction l as [|x l IHl]; intro i; cbn [imap]; [constructor|]. inversion IH; subst. inversion F; subst. apply Forall_app. split; [|now apply IHl].
    destruct (restrict quote _ x) as [y|] eqn:R; [|constructor]. constructor; [eauto|constructor].
  - intros l e IH keep v' S H. inversion S as [| |? F]; subst. cbn [restrict] in H. destruct l as [|x0 l0].
    { destruct (keep []); [|discriminate]. injection H as <-. now constructor. }
    set (l := x0 :: l0) in *.
    match type of H with match ?t with _ => _ end = _ => assert (Q : Forall (fun m => string_text true (sc_bytes (fst m)) /\ valid true (snd m)) t); [|destruct t; [discriminate|]; injection H as <-; now constructor] end.
    clear H. unfold l in *. clear l S. revert IH F. generalize (x0 :: l0) as l. clear x0 l0. intros l IH F.
    induction l as [|x l IHl]; cbn [flat_map]; [constructor|]. inversion IH; subst. inversion F as [|? ? [K X] F']; subst. apply Forall_app. split; [|now apply IHl].
    destruct (restrict quote _ (snd x)) as [y|] eqn:R; [|constructor]. constructor; [|constructor]. cbn [fst snd]. split; [exact K|]. eauto.
Qed.

(** C76.  The first command writes one line of JPV for each cell (for each leaf of
    the array of the rows); the second, reading any choice of these lines, in
    order, applies its arguments to the rows restricted to these cells and writes
    JSON.  [jpv_canon]: with the flags that reading JPV gives to scalars. *)
Theorem C76_table_as_jpv :
  forall float_text matches find grow tty tty' epipe epipe' (c c' : command) (rd : reader) names rows,
    let quote := cm_quote c in
    plain_jpv tty c -> cm_file c = [] -> cm_args c = [text "join"] ->
    reads_table c rd -> rd_fin rd = RdEOF -> records_text (names :: rows) (unix (input rd)) -> table names rows ->
    ~ In [] names \/ quote = true ->
    In (cm_in c') [text "jpv"; text "path"] -> plain_json tty' c' -> cm_file c' = [] -> without_depth (cm_args c') ->
    exists vs lines, Forall2 (row_value names) rows vs /\
      Forall2 line_text (leaves quote (JArr vs false)) lines /\
      (forall oc, jp float_text csv_reader find grow tty epipe None c rd oc <->
         oc = mkOutcome (flat_map (fun l => l ++ [10%N]) lines ++ [10%N]) 0%Z) /\
      forall (mask : list bool) (w : bytes) (rd' : reader) (outs : list jval),
        length mask = length lines -> ws w ->
        delivers rd' (flat_map (fun l => l ++ [10%N]) (select mask lines) ++ w) ->
        applied float_text matches (cm_strict c') (cm_args c')
          (map (jpv_canon quote) (left_over (restrict quote (marked quote (JArr vs false) mask) (JArr vs false)))) outs ->
        exists t', stext true ws_separated (map canon outs) t' /\
          forall oc, jp float_text csv_reader find grow tty' epipe' None c' rd' oc <-> oc = mkOutcome t' 0%Z.
Proof.
  intros ft matches find grow tty tty' epipe epipe' c c' rd names rows quote (OU & CO & CP & IN0) FI AR (CH & name & IF & INN) FN RT T NE IN' PJ FI' WD'.
  pose proof T as (LG & ND & RW & SZ).
  destruct (C72_jp ft matches find grow tty epipe c rd (names :: rows)) as (vs & CI & JP1 & _); auto.
  { destruct CO as [->|[-> _]]; cbn; auto. }
  { destruct OU as [<-|[<-|[]]]; cbn; auto. }
  { exists name. split; [exact IF|]. split; [cbn [In] in INN |- *; tauto|]. congruence. }
  { exists (length names). constructor; [reflexivity|]. eapply Forall_impl; [|exact RW]. intros r [L _]. exact L. }
  assert (F : Forall2 (record_value true names) rows vs).
  { assert (U : forall n, input_format c rd n -> n = name).
    { intros n X. apply format_ok in X as [r1 X]. apply format_ok in IF as [r2 Y]. congruence. }
    destruct CI as [(X & _)|[(X & ns & Y & _)|(n & X & _ & F)]]; [|congruence|exact F].
    apply U in X. subst name. cbn [In] in INN. exfalso. destruct INN as [E|[E|[E|[]]]]; discriminate E. }
  destruct (C75_rows_are_clean names rows vs T F) as (R & _ & CA). set (v := JArr vs false) in *.
  destruct (table_representable quote names rows vs T NE R) as [RP VA]. fold v in RP, VA.
  destruct (C18_any_subset_of_lines quote (cm_indent c) tty v RP IN0) as (lines & FL & EN & H). exists vs, lines. fold v. split; [exact R|]. split; [exact FL|]. split.
  - destruct (JP1 [v]) as (out & ok & PR & J).
    { rewrite AR. eapply ad_cons; [|apply ap_join|constructor]. pose proof (rows_length names rows vs RW R) as LN. rewrite LN. unfold maxint. nia. }
    replace (flat_map (fun l => l ++ [10%N]) lines ++ [10%N]) with out; [exact J|].
    assert (OP : output_options tty c = mkJpOptions true None (cm_indent c) (cm_width c) quote tty).
    { unfold output_options. rewrite CP. f_equal; [destruct OU as [<-|[<-|[]]]; reflexivity|destruct CO as [->|[-> ->]]; reflexivity]. }
    rewrite OP in PR. destruct PR as [n PR], EN as [m EN]. specialize (PR (n + m) ltac:(lia)). specialize (EN (n + m) ltac:(lia)).
    cbn [jo_jpv jo_color jo_quote jo_indent jo_tty] in PR. unfold stream in PR. cbn [flat_map] in PR. rewrite app_nil_r in PR. congruence.
  - intros mask w rd' outs LM W (I' & K' & F') AP'. specialize (H mask w rd' jp_scanner LM W ltac:(unfold jp_scanner; lia) K' F' I').
    set (vs' := map (jpv_canon quote) (left_over (restrict quote (marked quote v mask) v))) in *.
    assert (D : P_Jpv.decodes_jpv rd' jp_scanner (stream vs') (ProgModel.DOk tt)).
    { unfold vs'. destruct (restrict quote (marked quote v mask) v); cbn [map left_over]; [|exact H]. unfold stream. cbn [flat_map]. now rewrite app_nil_r. }
    destruct (plain_options tty' c' PJ) as ([J NC] & CO' & OU').
    assert (NA : cm_in c' <> text "auto") by (destruct IN' as [<-|[<-|[]]]; discriminate).
    destruct (pipeline ft csv_reader matches find grow tty' epipe' c' rd' (cm_in c') rd' SrcJpv vs' outs) as (out & ok & PR & JP); auto.
    { unfold format_and_input. destruct (bytes_eqb (cm_in c') (text "auto")) eqn:E; [apply bytes_eqb_eq in E; contradiction|reflexivity]. }
    { unfold source_of. destruct IN' as [<-|[<-|[]]]; cbn; now rewrite andb_false_r. }
    { intros ts. cbn [source_sends]. split; [intros [x D']; exact (proj1 (decodes_jpv_unique _ _ _ _ _ _ D' D))|intros ->; eauto]. }
    assert (V : Forall (valid true) outs).
    { apply (applied_keeps (valid true) valid_children (fun l H => va_arr true l H) _ _ _ _ _ _ AP' WD').
      unfold vs'. destruct (restrict quote (marked quote v mask) v) eqn:RS; constructor; [|constructor]. apply valid_jpv. eapply valid_restrict; eauto. }
    destruct (C13_round_trip (mkSettings (jo_color (output_options tty' c')) (jo_width (output_options tty' c')) 2 (jo_indent (output_options tty' c')) (jo_tty (output_options tty' c'))) true _ NC V) as [out' [EN' [ST _]]].
    exists out'. split; [exact ST|]. replace out' with out; [exact JP|].
    apply (prints_encodes _ _ _ J) in EN'. destruct PR as [n P1], EN' as [m P2]. specialize (P1 (n + m) ltac:(lia)). specialize (P2 (n + m) ltac:(lia)). congruence.
Qed.
Print Assumptions C76_table_as_jpv.

(* ------------------------------------------------------------------ *)
(** The lines, cell by cell: the line of the cell in row [j] (from 0), column
    [name], with value [s] is  $[j].name = s,  or  $[j]["name"] = s  if the name is
    not an identifier or if names are to be quoted. *)
Definition column_step (quote : bool) (name : bytes) : bytes :=
  if identifier name && negb quote then 46%N :: name else text "[""" ++ escaped name ++ text """]".

Lemma row_leaves : forall quote ms e, ms <> [] -> Forall (fun m => exists s, snd m = JScalar s) ms ->
  leaves quote (JObj ms e) = map (fun m => ([key_step quote (fst m)], snd m)) ms.
Proof.
  intros quote ms e NE F. destruct ms as [|m0 ms0]; [congruence|]. cbn [leaves]. generalize dependent (m0 :: ms0). clear.
  intros ms _ F. induction F as [|m ms (s & E) F IH]; [reflexivity|]. cbn [flat_map map]. rewrite <- IH, E. reflexivity.
Qed.
Lemma imap_nth : forall {A B} (g : N -> A -> list B) w l n j i x, (forall k y, In y l -> length (g k y) = w) -> i < w -> nth_error l j = Some x ->
  nth_error (imap g n l) (j * w + i) = nth_error (g (n + N.of_nat j)%N x) i.
Proof.
  induction l as [|y l IH]; intros n j i x W L E; [destruct j; discriminate|]. cbn [imap]. destruct j as [|j]; cbn [nth_error] in E.
  - injection E as <-. cbn [N.of_nat]. rewrite N.add_0_r. cbn [Nat.mul]. apply nth_error_app1. rewrite W by now left. exact L.
  - rewrite nth_error_app2 by (rewrite W by (now left); cbn [Nat.mul]; lia). rewrite W by now left.
    replace (S j * w + i - w) with (j * w + i) by (cbn [Nat.mul]; lia).
    rewrite (IH (n + 1)%N j i x); auto; [|intros; apply W; now right]. f_equal. f_equal. lia.
Qed.
Lemma imap_length : forall {A B} (g : N -> A -> list B) w l n, (forall k y, In y l -> length (g k y) = w) -> length (imap g n l) = length l * w.
Proof.
  induction l as [|y l IH]; intros n W; [reflexivity|]. cbn [imap length Nat.mul]. rewrite app_length, W by now left. f_equal. apply IH. intros; apply W; now right.
Qed.
Lemma combine_nth : forall {A B} (l : list A) (l' : list B) i x y, nth_error l i = Some x -> nth_error l' i = Some y -> nth_error (combine l l') i = Some (x, y).
Proof. induction l as [|a l IH]; intros [|b l'] [|i] x y H H'; cbn in *; try discriminate; [congruence|auto]. Qed.
Lemma forall2_nth : forall {A B} (R : A -> B -> Prop) l l', Forall2 R l l' -> forall i x, nth_error l i = Some x -> exists y, nth_error l' i = Some y /\ R x y.
Proof. intros A B R l l' F. induction F as [|a b l l' H F IH]; intros [|i] x E; cbn in *; try discriminate; [injection E as <-; eauto|auto]. Qed.

Theorem C76_a_line_for_each_cell : forall quote names rows vs lines,
  table names rows -> names <> [] -> rows <> [] -> Forall2 (row_value names) rows vs ->
  Forall2 line_text (leaves quote (JArr vs false)) lines ->
  length lines = length rows * length names /\
  forall i j row name f, nth_error rows j = Some row -> nth_error names i = Some name -> nth_error row i = Some f ->
    exists ds s, int_text ds /\ nat_digits 0 ds = Z.of_nat j /\ field_value f s /\
      nth_error lines (j * length names + i) = Some (text "$[" ++ ds ++ text "]" ++ column_step quote name ++ text " = " ++ sc_bytes s).
Proof.
  intros quote names rows vs lines (LG & ND & RW & SZ) NN NR F FL. rewrite Forall_forall in RW.
  assert (VE : vs <> []) by (intros ->; inversion F; congruence).
  assert (LV : forall k v, In v vs -> exists ms, v = JObj ms false /\
     map (JpvSpec.below (SIndex k)) (leaves quote v) = map (fun m => ([SIndex k; key_step quote (fst m)], snd m)) ms /\ length ms = length names /\
     exists row, In row rows /\ Forall2 (fun nf m => string_of (fst nf) (fst m) /\ exists s, snd m = JScalar s /\ field_value (snd nf) s) (combine names row) ms).
  { intros k v X. destruct (forall2_right _ _ _ _ F X) as (row & I1 & ms & -> & G). exists ms. split; [reflexivity|].
    destruct (RW row I1) as [LN _]. assert (LM : length ms = length names) by (rewrite <- (forall2_length _ _ _ G), combine_length, LN; lia).
    split; [|split; [exact LM|exists row; auto]]. rewrite row_leaves; [rewrite map_map; reflexivity|intros ->; destruct names; [congruence|discriminate]|].
    apply Forall_forall. intros m Y. destruct (forall2_right _ _ _ _ G Y) as (? & _ & _ & s & E & _). eauto. }
  assert (LE : leaves quote (JArr vs false) = imap (fun i x => map (JpvSpec.below (SIndex i)) (leaves quote x)) 0%N vs) by (destruct vs; [congruence|reflexivity]).
  assert (W : forall k v, In v vs -> length (map (JpvSpec.below (SIndex k)) (leaves quote v)) = length names).
  { intros k v X. destruct (LV k v X) as (ms & _ & -> & L & _). now rewrite map_length. }
  split.
  - rewrite <- (forall2_length _ _ _ FL), LE, (imap_length _ (length names)) by exact W. now rewrite <- (forall2_length _ _ _ F).
  - intros i j row name f RJ NI FI. assert (LI : i < length names) by (apply nth_error_Some; congruence).
    destruct (forall2_nth _ _ _ F j row RJ) as (v & VJ & ms & -> & G).
    destruct (forall2_nth _ _ _ G i (name, f) (combine_nth _ _ _ _ _ NI FI)) as ([k x] & MI & S & s & E & V). cbn [fst snd] in S, E, V. subst x.
    pose proof (nth_error_In _ _ VJ) as X. destruct (LV (N.of_nat j) _ X) as (ms' & EM & ML & _ & _). injection EM as <-.
    assert (NL : nth_error (leaves quote (JArr vs false)) (j * length names + i) = Some ([SIndex (N.of_nat j); key_step quote k], JScalar s)).
    { rewrite LE, (imap_nth _ (length names) vs 0%N j i (JObj ms false) W LI VJ). rewrite N.add_0_l, ML. now rewrite nth_error_map, MI. }
    destruct (forall2_nth _ _ _ FL _ _ NL) as (l & EL & p & x & PT & LT & ->). cbn [fst snd leaf_text] in PT, LT. subst x.
    inversion PT as [|? ? t1 r ST PT2]; subst. inversion ST as [| |? ds IT ND2]; subst. inversion PT2 as [|? ? t2 r2 ST2 PT3]; subst. inversion PT3; subst.
    exists ds, s. split; [exact IT|]. split; [rewrite ND2; lia|]. split; [exact V|]. rewrite EL. f_equal.
    assert (t2 = column_step quote name) as ->; [|cbn [text]; rewrite app_nil_r; cbn; rewrite <- !app_assoc; reflexivity].
    destruct S as (_ & B & _ & AL). unfold key_step in ST2. rewrite B in ST2. unfold EncSpec.contents in ST2. cbn [tl] in ST2. rewrite removelast_last in ST2.
    unfold column_step. destruct (sc_alnum k) eqn:A.
    + destruct (proj1 AL eq_refl) as [->|ID].
      * destruct quote; cbn [andb negb] in ST2; inversion ST2 as [? Z|? Z|]; subst; [reflexivity|discriminate Z].
      * rewrite ID. assert (PE : escaped name = name).
        { apply escaped_plain. destruct (escapes name) as [|k'] eqn:ES; [reflexivity|]. exfalso. assert (Y : name = [] \/ identifier name = true) by now right. apply (escaped_flag name k' ES) in Y. discriminate. }
        rewrite PE in *. destruct quote; cbn [andb negb] in *; inversion ST2; subst; [|reflexivity]. cbn. reflexivity.
    + destruct (identifier name) eqn:ID; [pose proof (proj2 AL (or_intror eq_refl)) as Y; discriminate Y|]. cbn [andb] in *. inversion ST2; subst. reflexivity.
Qed.
Print Assumptions C76_a_line_for_each_cell.

(** The table of [C75_example]: six lines, the fourth of which is  $[1].n = "ab". *)
Definition ex76 : command := mkCommand (text "auto") (text "csvh") [] (text "jpv") 2 false 60 false false [] [text "join"].
Definition ex76' : command := mkCommand (text "auto") (text "jpv") [] (text "json") 2 true 60 false false [] [].
Example C76_example :
  plain_jpv false ex76 /\ reads_table ex76 (stdin ex75_text) /\ records_text (ex75_names :: ex75_rows) (unix ex75_text) /\ table ex75_names ex75_rows /\ ~ In [] ex75_names /\
  plain_json false ex76' /\ without_depth (cm_args ex76') /\
  nth_error ex75_rows 1 = Some [text "2"; text "ab"] /\ column_step false (text "n") = text ".n".
Proof.
  destruct C75_example as (T & RT & CM & _). split; [|split; [|split; [exact RT|split; [exact T|split; [|split; [|split; [|split; reflexivity]]]]]]].
  - split; [cbn; auto|]. split; [right; split; reflexivity|]. split; [reflexivity|discriminate].
  - split; [reflexivity|]. exists (text "csvh"). split; [|cbn; auto]. left. split; [discriminate|reflexivity].
  - cbn. intuition discriminate.
  - split; [reflexivity|right; split; reflexivity].
  - constructor.
Qed.

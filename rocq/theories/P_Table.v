(** C75: CSV files as tables. *)
From Coq Require Import String List Arith ZArith NArith Bool Lia.
From Verif Require Import Base Tokens ScannerModel ScannerSpec JsonSpec ScalarSpec P_JsonDec GoLiteral CsvSpec PathSpec PathTame EncSpec CursorModel QuerySyntax GrammarSpec GrammarModel
  CsvReaderModel CsvTextSpec CsvReader P_CsvText MainModel P_Main FormatModel CliModel CliSpec P_Cli RecipeSpec Recipes P_Recipes TableSpec Tables P_Scalar.
Import ListNotations.

(** The rows of a table are values of the kind the queries of C34 are about; so is
    the array of all of them. *)
Theorem C75_rows_are_clean : forall names rows vs,
  table names rows -> Forall2 (record_value true names) rows vs ->
  Forall2 (row_value names) rows vs /\ Forall clean vs /\ clean (JArr vs false).
Proof.
  intros names rows vs T F. assert (R : Forall2 (row_value names) rows vs) by (apply rows_values; [apply T|exact F]).
  split; [exact R|]. split; [eapply rows_clean; eauto|eapply rows_array_clean; eauto].
Qed.
Print Assumptions C75_rows_are_clean.

(** jp on a table: the arguments are applied to the rows.  [matches] says which
    patterns match. *)
Theorem C75_table :
  forall float_text matches find grow tty epipe (c : command) (rd : reader) names rows,
    plain_json tty c -> cm_file c = [] -> without_depth (cm_args c) ->
    reads_table c rd -> rd_fin rd = RdEOF -> records_text (names :: rows) (unix (input rd)) -> table names rows ->
    exists vs, Forall2 (row_value names) rows vs /\ Forall clean vs /\
      forall ws, applied float_text matches (cm_strict c) (cm_args c) vs ws ->
        exists t, stext true ws_separated (map canon ws) t /\
          forall oc, jp float_text csv_reader find grow tty epipe None c rd oc <-> oc = mkOutcome t 0%Z.
Proof.
  intros ft matches find grow tty epipe c rd names rows PJ FI WD (CH & name & IF & IN) FN RT T. destruct (plain_options tty c PJ) as (_ & CO & OU).
  pose proof T as (LG & ND & RW & SZ).
  destruct (C72_jp ft matches find grow tty epipe c rd (names :: rows) CO FI OU) as (vs & CI & _ & H).
  - exists name. split; [exact IF|]. split; [cbn [In] in IN |- *; tauto|]. congruence.
  - exact FN.
  - exact RT.
  - exists (length names). constructor; [reflexivity|]. eapply Forall_impl; [|exact RW]. intros r [L _]. exact L.
  - assert (F : Forall2 (record_value true names) rows vs).
    { assert (U : forall n, input_format c rd n -> n = name).
      { intros n X. apply format_ok in X as [r1 X]. apply format_ok in IF as [r2 Y]. congruence. }
      destruct CI as [(X & _)|[(X & ns & Y & _)|(n & X & _ & F)]]; [|congruence|exact F].
      apply U in X. subst name. cbn [In] in IN. exfalso. destruct IN as [E|[E|[E|[]]]]; discriminate E. }
    destruct (C75_rows_are_clean names rows vs T F) as (R & CL & _). exists vs. split; [exact R|]. split; [exact CL|].
    apply H; auto.
    + rewrite CH. constructor.
    + constructor; [eapply Forall_impl; [|exact LG]; apply legible_printable|].
      eapply Forall_impl; [|exact RW]. intros r [_ C]. eapply Forall_impl; [|exact C]. apply cell_printable.
Qed.
Print Assumptions C75_table.

(** With the recipes of the cookbook. *)
Lemma table_follows :
  forall float_text find grow tty epipe (c : command) (rd : reader) names rows,
    plain_json tty c -> cm_file c = [] -> without_depth (cm_args c) ->
    reads_table c rd -> rd_fin rd = RdEOF -> records_text (names :: rows) (unix (input rd)) -> table names rows ->
    exists vs, Forall2 (row_value names) rows vs /\ Forall clean vs /\ clean (JArr vs false) /\ (Z.of_nat (length (stream vs)) < maxint - 2)%Z /\
      forall ws, follows float_text (cm_strict c) (cm_args c) vs ws ->
        exists t, stext true ws_separated (map canon ws) t /\
          forall oc, jp float_text csv_reader find grow tty epipe None c rd oc <-> oc = mkOutcome t 0%Z.
Proof.
  intros ft find grow tty epipe c rd names rows PJ FI WD RT FN RE T.
  destruct (C75_table ft (fun _ _ => False) find grow tty epipe c rd names rows PJ FI WD RT FN RE T) as (vs & R & CL & H).
  exists vs. split; [exact R|]. split; [exact CL|]. split; [eapply rows_array_clean; eauto|]. split.
  - destruct T as (_ & _ & RW & SZ). rewrite (rows_length names rows vs RW R). unfold maxint. nia.
  - intros ws F. apply H. now apply follows_applied.
Qed.

(** jp -in csvh '$.NAME': the column with this name. *)
Theorem C75_column :
  forall float_text find grow tty epipe (c : command) (rd : reader) names rows i name,
    plain_json tty c -> cm_file c = [] -> reads_table c rd ->
    rd_fin rd = RdEOF -> records_text (names :: rows) (unix (input rd)) -> table names rows ->
    cm_args c = [text "$." ++ name] -> member_name name -> nth_error names i = Some name ->
    exists ws t, Forall2 (at_column i) rows ws /\ stext true ws_separated (map canon ws) t /\
      forall oc, jp float_text csv_reader find grow tty epipe None c rd oc <-> oc = mkOutcome t 0%Z.
Proof.
  intros ft find grow tty epipe c rd names rows i name PJ FI RT FN RE T AR MN NT.
  assert (WD : without_depth (cm_args c)) by (rewrite AR; constructor; [discriminate|constructor]).
  destruct (table_follows ft find grow tty epipe c rd names rows PJ FI WD RT FN RE T) as (vs & R & CL & _ & SZ & H).
  destruct (forall2_pick _ (at_column i) (fun v w => member name v [w]) rows vs R) as (ws & A & B).
  { intros row v I1 RV. destruct (row_member names rows i name row v T I1 NT RV) as (w & M & C). eauto. }
  exists ws. destruct (H ws) as (t & S & J); [|exists t; auto]. rewrite AR.
  replace ws with (concat (map (fun w => [w]) ws)) by (clear; induction ws; cbn; congruence).
  replace (text "$." ++ name) with (text "$" ++ dotted [name] ++ []) by (cbn [dotted flat_map]; rewrite !app_nil_r; reflexivity).
  eapply fw_recipe; [lia|exact CL|exact (recipe_of ft (cm_strict c) [name] [] _ (Forall_cons _ MN (Forall_nil _)) (e_nothing ft (cm_strict c)))| |constructor].
  clear - B. induction B as [|v w vs ws M B IH]; [constructor|]. cbn [map]. constructor; [|exact IH].
  exists [w], [[w]]. split; [|split; [constructor; [reflexivity|constructor]|reflexivity]].
  exists [w], [[w]]. split; [exact M|]. split; [constructor; [reflexivity|constructor]|reflexivity].
Qed.
Print Assumptions C75_column.

(** jp -in csvh join '$[?TEST]': the rows that pass the test. *)
Theorem C75_selected_rows :
  forall float_text find grow tty epipe (c : command) (rd : reader) names rows q P,
    plain_json tty c -> cm_file c = [] -> reads_table c rd ->
    rd_fin rd = RdEOF -> records_text (names :: rows) (unix (input rd)) -> table names rows ->
    cm_args c = [text "join"; text "$[?" ++ q ++ text "]"] -> test float_text q P ->
    exists vs ws t, Forall2 (row_value names) rows vs /\ sifted P vs ws /\ stext true ws_separated (map canon ws) t /\
      forall oc, jp float_text csv_reader find grow tty epipe None c rd oc <-> oc = mkOutcome t 0%Z.
Proof.
  intros ft find grow tty epipe c rd names rows q P PJ FI RT FN RE T AR TE.
  assert (WD : without_depth (cm_args c)) by (rewrite AR; constructor; [discriminate|constructor; [discriminate|constructor]]).
  destruct (table_follows ft find grow tty epipe c rd names rows PJ FI WD RT FN RE T) as (vs & R & CL & CA & SZ & H).
  assert (RC : recipe ft (cm_strict c) (text "$[?" ++ q ++ text "]")
    (fun x l => exists ys lists, under [] x ys /\ Forall2 (fun y l => sifted P (contents y) l) ys lists /\ l = concat lists)).
  { exact (recipe_of ft (cm_strict c) [] _ _ (Forall_nil _) (e_filter ft (cm_strict c) q P TE)). }
  destruct (C74_one_answer ft (cm_strict c) _ _ (JArr vs false) RC CA) as (ws & RW & _).
  exists vs, ws. destruct (H ws) as (t & S & J).
  - rewrite AR. apply fw_join; [lia|]. replace ws with (concat [ws]) by apply app_nil_r.
    eapply fw_recipe; [|constructor; [exact CA|constructor]|exact RC|constructor; [exact RW|constructor]|constructor].
    change (stream [JArr vs false]) with ((TStartArr :: stream vs ++ [] ++ [TEndArr]) ++ []). rewrite app_nil_r. cbn [length app]. rewrite app_length. cbn [length]. lia.
  - exists t. split; [exact R|]. split; [|auto]. destruct RW as (ys & lists & U & F & ->). cbn [under] in U. subst ys.
    inversion F as [|? l ? ls SI F']; subst. inversion F'; subst. cbn [concat]. rewrite app_nil_r. exact SI.
Qed.
Print Assumptions C75_selected_rows.

(** jp -in csvh join '$[?@.NAME > NUMBER]': the rows whose cell in this column is a
    greater number, as float64. *)
Definition greater_cell (i : nat) (g : GoLiteral.float) (row : list bytes) : Prop :=
  exists f n m e h, nth_error row i = Some f /\ num_value f n m e /\ float_of_decimal (mkDec n m e) = Some h /\ float_less g h.
Theorem C75_greater_rows :
  forall float_text find grow tty epipe (c : command) (rd : reader) names rows i name num n m e g,
    plain_json tty c -> cm_file c = [] -> reads_table c rd ->
    rd_fin rd = RdEOF -> records_text (names :: rows) (unix (input rd)) -> table names rows ->
    cm_args c = [text "join"; text "$[?@." ++ name ++ text " > " ++ num ++ text "]"] -> member_name name -> nth_error names i = Some name ->
    number_text num -> num_value num n m e -> float_of_decimal (mkDec n m e) = Some g -> written_back float_text g ->
    exists kept ws t, sifted (greater_cell i g) rows kept /\ Forall2 (row_value names) kept ws /\ stext true ws_separated (map canon ws) t /\
      forall oc, jp float_text csv_reader find grow tty epipe None c rd oc <-> oc = mkOutcome t 0%Z.
Proof.
  intros ft find grow tty epipe c rd names rows i name num n m e g PJ FI RT FN RE T AR MN NT N1 N2 N3 WB.
  pose proof (t_greater ft name num n m e g MN N1 N2 N3 WB) as TE.
  assert (AR' : cm_args c = [text "join"; text "$[?" ++ (text "@." ++ name ++ text " > " ++ num) ++ text "]"]) by (rewrite AR; f_equal; f_equal; rewrite <- !app_assoc; reflexivity).
  destruct (C75_selected_rows ft find grow tty epipe c rd names rows _ _ PJ FI RT FN RE T AR' TE) as (vs & ws & t & R & SI & S & J).
  destruct (fun X => sifted_pick _ _ (greater_cell i g) rows vs R X ws SI) as (kept & K1 & K2); [|exists kept, ws, t; auto].
  intros row v I1 RV. split.
  - intros (y & f & HM & (s & n' & m' & e' & -> & TN & NV & FD) & FL). pose proof (row_has_member names rows i name row v _ T I1 NT RV HM) as (fd & s' & NE & FV & E).
    injection E as <-. destruct (number_cell fd s FV TN) as [-> _]. exists fd, n', m', e', f. auto.
  - intros (f & n' & m' & e' & h & NE & NV & FD & FL). destruct (row_member names rows i name row v T I1 NT RV) as (w & M & (f' & s & NE' & FV & ->)).
    assert (f' = f) as -> by congruence. exists (JScalar s), h. split; [now exists []|]. split; [|exact FL].
    rewrite (cell_number f s FV (value_number _ _ _ _ NV)). exists (new_scalar TNum f), n', m', e'. auto.
Qed.
Print Assumptions C75_greater_rows.

(** The table  id,n / 1,5 / 2,ab / 3,200. *)
Definition ex75_text : bytes := text "id,n" ++ [10%N] ++ text "1,5" ++ [10%N] ++ text "2,ab" ++ [10%N] ++ text "3,200" ++ [10%N].
Definition ex75_names : list bytes := [text "id"; text "n"].
Definition ex75_rows : list (list bytes) := [[text "1"; text "5"]; [text "2"; text "ab"]; [text "3"; text "200"]].
Definition ex75 (args : list bytes) : command := mkCommand (text "auto") (text "csvh") [] (text "json") 2 true 60 false false [] args.
Lemma ex75_number : forall f i, f = [i] \/ f = [i; 48%N; 48%N] -> (49 <= i <= 57)%N -> num_value f false (nat_digits 0 f) 0.
Proof.
  intros f i E B. exists f, [], []. rewrite !app_nil_r. split; [reflexivity|]. split; [|split; [now left|split; [now left|]]].
  - right. destruct E as [->| ->]; [exists i, []|exists i, [48%N; 48%N]]; (split; [reflexivity|]); (split; [lia|]); repeat constructor; unfold digit; lia.
  - exists [], 0%Z. split; [now left|]. split; [now left|]. split; [now rewrite app_nil_r|reflexivity].
Qed.
Lemma ascii_legible : forall f, Forall (fun b => 32 <= b < 128)%N f -> legible f.
Proof.
  intros f F. exists f. split.
  - induction F as [|b f B F IH]; [reflexivity|]. cbn [flat_map]. rewrite <- IH. unfold utf8. destruct (N.ltb_spec b 128); [reflexivity|lia].
  - eapply Forall_impl; [|exact F]. intros b B. cbn in B. split; [left; lia|left; lia].
Qed.
Example C75_example :
  table ex75_names ex75_rows /\ records_text (ex75_names :: ex75_rows) (unix ex75_text) /\
  (forall args, plain_json false (ex75 args) /\ reads_table (ex75 args) (stdin ex75_text)) /\
  (member_name (text "n") /\ nth_error ex75_names 1 = Some (text "n")) /\
  exists g, float_of_decimal (mkDec false 100 0) = Some g /\ sifted (greater_cell 1 g) ex75_rows [[text "3"; text "200"]].
Proof.
  assert (TB : table ex75_names ex75_rows).
  { split; [|split; [|split]].
    - constructor; [|constructor; [|constructor]]; apply ascii_legible; vm_compute; repeat constructor; discriminate.
    - constructor; [|constructor; [|constructor]]; cbn; intuition discriminate.
    - assert (N : forall f i, f = [i] \/ f = [i; 48%N; 48%N] -> (49 <= i <= 57)%N -> (forall m, nat_digits 0 f = m -> float_of_decimal (mkDec false m 0) <> None) -> cell f).
      { intros f i E B D. right. left. exists false, (nat_digits 0 f), 0%Z. split; [now apply (ex75_number f i)|now apply D]. }
      constructor; [|constructor; [|constructor; [|constructor]]]; (split; [reflexivity|]); (constructor; [|constructor; [|constructor]]).
      + apply (N _ 49%N); [now left|lia|]. intros m <-. vm_compute. discriminate.
      + apply (N _ 53%N); [now left|lia|]. intros m <-. vm_compute. discriminate.
      + apply (N _ 50%N); [now left|lia|]. intros m <-. vm_compute. discriminate.
      + right. right. split; [apply ascii_legible; vm_compute; repeat constructor; discriminate|]. intro F. inversion F as [|? ? [H|H] _]; [unfold digit in H; lia|]. cbn in H. intuition discriminate.
      + apply (N _ 51%N); [now left|lia|]. intros m <-. vm_compute. discriminate.
      + apply (N _ 50%N); [now right|lia|]. intros m <-. vm_compute. discriminate.
    - reflexivity. }
  assert (RT : records_text (ex75_names :: ex75_rows) (unix ex75_text)) by (apply C72_csv_text; vm_compute; reflexivity).
  assert (CM : forall args, plain_json false (ex75 args) /\ reads_table (ex75 args) (stdin ex75_text)).
  { intro args. split; [split; [reflexivity|right; split; reflexivity]|]. split; [reflexivity|]. exists (text "csvh"). split; [|cbn; auto]. left. split; [discriminate|reflexivity]. }
  split; [exact TB|]. split; [exact RT|]. split; [exact CM|]. split; [split; [lower|reflexivity]|].
  destruct (float_of_decimal (mkDec false 100 0)) as [g|] eqn:G; [|vm_compute in G; discriminate]. exists g. split; [reflexivity|].
  vm_compute in G. injection G as <-. unfold ex75_rows. apply sf_no; [|apply sf_no; [|apply sf_yes; [|constructor]]].
  - intros (f & n & m & e & h & N & V & F & L). cbn in N. injection N as <-. rewrite <- (go_number_value _ _ _ _ V) in F. vm_compute in F. injection F as <-.
    destruct L as (k & K1 & K2 & L).
    replace (-46 - k)%Z with (4 + (-50 - k))%Z in L by lia. rewrite Z.pow_add_r in L by lia. pose proof (Z.pow_pos_nonneg 2 (-50 - k) ltac:(lia) ltac:(lia)). change (2 ^ 4)%Z with 16%Z in L. lia.
  - intros (f & n & m & e & h & N & V & _). cbn in N. injection N as <-. apply value_number in V. apply P_Csv.number_numeric in V. inversion V as [|? ? [H|H] _]; [unfold digit in H; lia|]. cbn in H. intuition discriminate.
  - exists (text "200"), false, 200%Z, 0%Z. eexists. split; [reflexivity|]. split; [exact (ex75_number (text "200") 50%N (or_intror eq_refl) ltac:(lia))|].
    split; [vm_compute; reflexivity|]. exists (-46)%Z. split; [discriminate|]. split; [discriminate|]. reflexivity.
Qed.

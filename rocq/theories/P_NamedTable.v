(** C75: tables whose columns are named on the command line. *)
From Coq Require Import String List Arith ZArith NArith Bool Lia.
From Verif Require Import Base Tokens ScannerModel ScannerSpec JsonSpec ScalarSpec P_JsonDec GoLiteral CsvSpec PathSpec PathTame EncSpec CursorModel QuerySyntax GrammarSpec GrammarModel
  CsvReaderModel CsvTextSpec CsvReader P_CsvText MainModel P_Main FormatModel CliModel CliSpec P_Cli RecipeSpec Recipes P_Recipes TableSpec Tables P_Table.
Import ListNotations.

(** jp -in csv -csv-header NAME,NAME...: all lines are rows. *)
Definition reads_named_table (c : command) (rd : reader) (names : list bytes) : Prop :=
  input_format c rd (text "csv") /\ cm_csv_header c <> [] /\ listed names (cm_csv_header c).

Theorem C75_named_table :
  forall float_text matches find grow tty epipe (c : command) (rd : reader) names rows,
    plain_json tty c -> cm_file c = [] -> without_depth (cm_args c) ->
    reads_named_table c rd names -> rd_fin rd = RdEOF -> records_text rows (unix (input rd)) -> table names rows ->
    exists vs, Forall2 (row_value names) rows vs /\ Forall clean vs /\
      forall ws, applied float_text matches (cm_strict c) (cm_args c) vs ws ->
        exists t, stext true ws_separated (map canon ws) t /\
          forall oc, jp float_text csv_reader find grow tty epipe None c rd oc <-> oc = mkOutcome t 0%Z.
Proof.
  intros ft matches find grow tty epipe c rd names rows PJ FI WD (IF & CH & LI) FN RT T. destruct (plain_options tty c PJ) as (_ & CO & OU).
  pose proof T as (LG & ND & RW & SZ).
  destruct (C72_jp ft matches find grow tty epipe c rd rows CO FI OU) as (vs & CI & _ & H).
  - exists (text "csv"). split; [exact IF|]. split; [now left|]. intros _. split; discriminate.
  - exact FN.
  - exact RT.
  - exists (length names). eapply Forall_impl; [|exact RW]. intros r [L _]. exact L.
  - assert (F : Forall2 (record_value true names) rows vs).
    { assert (U : forall n, input_format c rd n -> n = text "csv").
      { intros n X. apply format_ok in X as [r1 X]. apply format_ok in IF as [r2 Y]. congruence. }
      destruct CI as [(_ & X & _)|[(X & ns & Y & L & F)|(n & X & Y & _)]]; [congruence| |].
      - apply split_listed in L. apply split_listed in LI. rewrite LI in L. now subst ns.
      - apply U in X. subst n. exfalso. destruct Y as [[[E|[E|[]]] _]|E]; discriminate E. }
    destruct (C75_rows_are_clean names rows vs T F) as (R & CL & _). exists vs. split; [exact R|]. split; [exact CL|].
    assert (LP : Forall (Forall printable) names) by (eapply Forall_impl; [|exact LG]; apply legible_printable).
    apply H; auto.
    + destruct LI as (n & ns & -> & -> & _). inversion LP as [|? ? P1 P2]; subst. apply Forall_app. split; [exact P1|].
      clear - P2. induction P2 as [|m ns P P2 IH]; [constructor|]. cbn [flat_map]. constructor; [unfold printable; lia|]. apply Forall_app. now split.
    + eapply Forall_impl; [|exact RW]. intros r [_ C]. eapply Forall_impl; [|exact C]. apply cell_printable.
Qed.
Print Assumptions C75_named_table.

Theorem C75_named_column :
  forall float_text find grow tty epipe (c : command) (rd : reader) names rows i name,
    plain_json tty c -> cm_file c = [] -> reads_named_table c rd names ->
    rd_fin rd = RdEOF -> records_text rows (unix (input rd)) -> table names rows ->
    cm_args c = [text "$." ++ name] -> member_name name -> nth_error names i = Some name ->
    exists ws t, Forall2 (at_column i) rows ws /\ stext true ws_separated (map canon ws) t /\
      forall oc, jp float_text csv_reader find grow tty epipe None c rd oc <-> oc = mkOutcome t 0%Z.
Proof.
  intros ft find grow tty epipe c rd names rows i name PJ FI RT FN RE T AR MN NT.
  assert (WD : without_depth (cm_args c)) by (rewrite AR; constructor; [discriminate|constructor]).
  destruct (C75_named_table ft (fun _ _ => False) find grow tty epipe c rd names rows PJ FI WD RT FN RE T) as (vs & R & CL & H).
  destruct (forall2_pick _ (at_column i) (fun v w => member name v [w]) rows vs R) as (ws & A & B).
  { intros row v I1 RV. destruct (row_member names rows i name row v T I1 NT RV) as (w & M & C). eauto. }
  assert (FW : follows ft (cm_strict c) (cm_args c) vs ws).
  { rewrite AR. replace ws with (concat (map (fun w => [w]) ws)) by (clear; induction ws; cbn; congruence).
    replace (text "$." ++ name) with (text "$" ++ dotted [name] ++ []) by (cbn [dotted flat_map]; rewrite !app_nil_r; reflexivity).
    eapply fw_recipe; [|exact CL|exact (recipe_of ft (cm_strict c) [name] [] _ (Forall_cons _ MN (Forall_nil _)) (e_nothing ft (cm_strict c)))| |constructor].
    - destruct T as (_ & _ & RW & SZ). rewrite (rows_length names rows vs RW R). unfold maxint. nia.
    - clear - B. induction B as [|v w vs ws M B IH]; [constructor|]. cbn [map]. constructor; [|exact IH].
      exists [w], [[w]]. split; [|split; [constructor; [reflexivity|constructor]|reflexivity]].
      exists [w], [[w]]. split; [exact M|]. split; [constructor; [reflexivity|constructor]|reflexivity]. }
  exists ws. destruct (H ws (proj1 (follows_applied _ _ _ _ _ _ FW))) as (t & S & J). exists t. auto.
Qed.
Print Assumptions C75_named_column.

(** The rows of [C75_example] with -csv-header id,n. *)
Definition ex75_body : bytes := text "1,5" ++ [10%N] ++ text "2,ab" ++ [10%N] ++ text "3,200" ++ [10%N].
Definition ex75n (args : list bytes) : command := mkCommand (text "auto") (text "csv") (text "id,n") (text "json") 2 true 60 false false [] args.
Example C75_named_example :
  table ex75_names ex75_rows /\ records_text ex75_rows (unix ex75_body) /\
  forall args, plain_json false (ex75n args) /\ reads_named_table (ex75n args) (stdin ex75_body) ex75_names.
Proof.
  destruct C75_example as (T & _). split; [exact T|]. split; [apply C72_csv_text; vm_compute; reflexivity|].
  intro args. split; [split; [reflexivity|right; split; reflexivity]|]. split; [left; split; [discriminate|reflexivity]|]. split; [discriminate|].
  exists (text "id"), [text "n"]. split; [reflexivity|]. split; [reflexivity|]. constructor; [|constructor; [|constructor]]; cbn; intuition discriminate.
Qed.

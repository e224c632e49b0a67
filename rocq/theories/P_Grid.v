(** C78: CSV files without a header line. *)
From Coq Require Import String List Arith ZArith NArith Bool Lia.
From Verif Require Import Base Tokens ScannerModel ScannerSpec JsonSpec ScalarSpec P_JsonDec GoLiteral CsvSpec PathSpec PathTame EncSpec CursorModel QuerySyntax GrammarSpec GrammarModel
  CsvReaderModel CsvTextSpec CsvReader P_CsvText MainModel P_Main FormatModel CliModel CliSpec P_Cli RecipeSpec Recipes P_Recipes TableSpec Tables P_Table GridSpec.
Import ListNotations.

Lemma record_array : forall row v, Forall cell row -> record_value false [] row v -> row_array row v.
Proof.
  intros row v C (l & -> & F). exists l. split; [reflexivity|]. revert C. induction F as [|f x row l (s & E & D) F IH]; intro C; [constructor|]. inversion C; subst.
  constructor; [exists s; split; [reflexivity|now apply cell_field]|auto].
Qed.
Lemma array_tokens : forall row l, Forall2 (fun f x => exists s, x = JScalar s /\ field_value f s) row l -> length (stream l) = length row.
Proof.
  intros row l F. induction F as [|f x row l (s & -> & _) F IH]; [reflexivity|]. change (stream (JScalar s :: l)) with (TScalar s :: stream l). cbn [length]. lia.
Qed.
Lemma array_length : forall row v, row_array row v -> length (toks v) = length row + 2.
Proof.
  intros row v (l & -> & F). change (toks (JArr l false)) with (TStartArr :: stream l ++ [] ++ [TEndArr]). cbn [length app]. rewrite app_length, (array_tokens row l F). cbn [length]. lia.
Qed.
Lemma array_clean : forall row v, (Z.of_nat (length row) + 2 < 2 ^ 53)%Z -> Forall cell row -> row_array row v -> clean v.
Proof.
  intros row v SZ C R. pose proof (array_length row v R) as LN. destruct R as (l & -> & F). split; [|split].
  - constructor. clear - C F. revert C. induction F as [|f x row l (s & -> & V) F IH]; intro C; [constructor|]. inversion C; subst. constructor; [|auto]. constructor. eapply cell_decent; eauto.
  - intros l' e m D. cbn [descendants] in D. destruct D as [D|D]; [discriminate|]. apply in_flat_map in D as (x & X & D).
    destruct (forall2_right _ _ _ _ F X) as (f & _ & s & -> & _). cbn in D. destruct D as [D|[]]. discriminate.
  - rewrite LN. lia.
Qed.
Lemma arrays_length : forall w rows vs, Forall (fun row => length row = w /\ Forall cell row) rows -> Forall2 row_array rows vs ->
  length (stream vs) = length rows * (w + 2).
Proof.
  intros w rows vs H F. induction F as [|row v rows vs R F IH]; [reflexivity|]. inversion H as [|? ? [L C] H']; subst.
  change (stream (v :: vs)) with (toks v ++ stream vs). rewrite app_length, (IH H'), (array_length row v R). cbn [length]. lia.
Qed.
Lemma arrays_clean : forall w rows vs, grid w rows -> Forall2 row_array rows vs -> Forall clean vs.
Proof.
  intros w rows vs (RW & SZ) F. apply Forall_forall. intros v X. destruct (forall2_right _ _ _ _ F X) as (row & I1 & R).
  rewrite Forall_forall in RW. destruct (RW row I1) as [L C]. apply (array_clean row v); auto.
  destruct rows as [|r rows]; [destruct I1|]. cbn [length] in SZ. nia.
Qed.

(** jp on a grid: the arguments are applied to the rows. *)
Theorem C78_grid :
  forall float_text matches find grow tty epipe (c : command) (rd : reader) w rows,
    plain_json tty c -> cm_file c = [] -> without_depth (cm_args c) ->
    reads_grid c rd -> rd_fin rd = RdEOF -> records_text rows (unix (input rd)) -> grid w rows ->
    exists vs, Forall2 row_array rows vs /\ Forall clean vs /\
      forall ws, applied float_text matches (cm_strict c) (cm_args c) vs ws ->
        exists t, stext true ws_separated (map canon ws) t /\
          forall oc, jp float_text csv_reader find grow tty epipe None c rd oc <-> oc = mkOutcome t 0%Z.
Proof.
  intros ft matches find grow tty epipe c rd w rows PJ FI WD (CH & IF) FN RT T. destruct (plain_options tty c PJ) as (_ & CO & OU).
  pose proof T as (RW & SZ).
  destruct (C72_jp ft matches find grow tty epipe c rd rows CO FI OU) as (vs & CI & _ & H).
  - exists (text "csv"). split; [exact IF|]. split; [now left|]. congruence.
  - exact FN.
  - exact RT.
  - exists w. eapply Forall_impl; [|exact RW]. intros r [L _]. exact L.
  - assert (F : Forall2 (record_value false []) rows vs).
    { assert (U : forall n, input_format c rd n -> n = text "csv").
      { intros n X. apply format_ok in X as [r1 X]. apply format_ok in IF as [r2 Y]. congruence. }
      destruct CI as [(_ & _ & F)|[(X & ns & Y & _)|(n & X & Y & _)]]; [exact F|congruence|]. apply U in X. subst n. exfalso.
      destruct Y as [[[E|[E|[]]] _]|E]; discriminate E. }
    assert (R : Forall2 row_array rows vs).
    { clear - F RW. induction F as [|row v rows vs R F IH]; [constructor|]. inversion RW as [|? ? [L C] RW']; subst. constructor; [now apply record_array|auto]. }
    exists vs. split; [exact R|]. split; [eapply arrays_clean; eauto|]. apply H; auto.
    + rewrite CH. constructor.
    + eapply Forall_impl; [|exact RW]. intros r [_ C]. eapply Forall_impl; [|exact C]. apply cell_printable.
Qed.
Print Assumptions C78_grid.

(** jp -in csv '$[N]': the column with this number, from 0; nothing if there are
    not so many columns. *)
Theorem C78_column :
  forall float_text find grow tty epipe (c : command) (rd : reader) w rows num n,
    plain_json tty c -> cm_file c = [] -> reads_grid c rd ->
    rd_fin rd = RdEOF -> records_text rows (unix (input rd)) -> grid w rows ->
    cm_args c = [text "$[" ++ num ++ text "]"] -> int_value num (Z.of_nat n) -> in_range (Z.of_nat n) ->
    exists ws t, (if n <? w then Forall2 (at_column n) rows ws else ws = []) /\ stext true ws_separated (map canon ws) t /\
      forall oc, jp float_text csv_reader find grow tty epipe None c rd oc <-> oc = mkOutcome t 0%Z.
Proof.
  intros ft find grow tty epipe c rd w rows num n PJ FI RG FN RE G AR IV IR.
  assert (WD : without_depth (cm_args c)) by (rewrite AR; constructor; [discriminate|constructor]).
  destruct (C78_grid ft (fun _ _ => False) find grow tty epipe c rd w rows PJ FI WD RG FN RE G) as (vs & R & CL & H).
  pose proof G as (RW & SZ). pose proof (arrays_length w rows vs RW R) as LN. rewrite Forall_forall in RW.
  set (one := fun v => firstn 1 (skipn n (items v))).
  assert (FW : follows ft (cm_strict c) (cm_args c) vs (concat (map one vs))).
  { rewrite AR. replace (text "$[" ++ num ++ text "]") with (text "$" ++ dotted [] ++ text "[" ++ num ++ text "]") by reflexivity.
    eapply fw_recipe; [unfold maxint; rewrite LN; nia|exact CL|exact (recipe_of ft (cm_strict c) [] _ _ (Forall_nil _) (e_item ft (cm_strict c) num n IV IR))| |constructor].
    clear. induction vs as [|v vs IH]; [constructor|]. cbn [map]. constructor; [|exact IH]. exists [v], [one v]. split; [reflexivity|]. split; [constructor; [reflexivity|constructor]|]. cbn [concat]. now rewrite app_nil_r. }
  destruct (H _ (proj1 (follows_applied _ _ _ _ _ _ FW))) as (t & S & J). exists (concat (map one vs)), t. split; [|split; [exact S|exact J]]. clear - R RW.
  destruct (Nat.ltb_spec n w) as [L|L]; induction R as [|row v rows vs (l & -> & F) R IH]; cbn [map concat]; try (constructor; fail).
  - destruct (RW row (or_introl eq_refl)) as [LR _]. destruct (nth_error row n) as [f|] eqn:E; [|apply nth_error_None in E; lia].
    assert (X : exists s, one (JArr l false) = [JScalar s] /\ field_value f s).
    { clear - F E. unfold one. clear one. cbn [items]. revert l F E. generalize dependent n. induction row as [|g row IHr]; intros n l F E; [destruct n; discriminate|].
      inversion F as [|? x ? l' X F']; subst. destruct X as (s & -> & V). destruct n as [|n]; cbn [nth_error skipn] in *; [injection E as ->; exists s; split; [reflexivity|exact V]|exact (IHr n l' F' E)]. }
    destruct X as (s & -> & V). cbn [app]. constructor; [exists f, s; auto|]. apply IH. intros r Q. apply RW. now right.
  - destruct (RW row (or_introl eq_refl)) as [LR _]. unfold one at 1. cbn [items]. rewrite skipn_all2 by (rewrite <- (forall2_length _ _ _ F), LR; exact L). cbn [firstn app].
    apply IH. intros r Q. apply RW. now right.
Qed.
Print Assumptions C78_column.

(** jp -in csv join: one array of all the rows. *)
Theorem C78_joined :
  forall float_text find grow tty epipe (c : command) (rd : reader) w rows,
    plain_json tty c -> cm_file c = [] -> reads_grid c rd ->
    rd_fin rd = RdEOF -> records_text rows (unix (input rd)) -> grid w rows -> cm_args c = [text "join"] ->
    exists vs t, Forall2 row_array rows vs /\ stext true ws_separated [canon (JArr vs false)] t /\
      forall oc, jp float_text csv_reader find grow tty epipe None c rd oc <-> oc = mkOutcome t 0%Z.
Proof.
  intros ft find grow tty epipe c rd w rows PJ FI RG FN RE G AR.
  assert (WD : without_depth (cm_args c)) by (rewrite AR; constructor; [discriminate|constructor]).
  destruct (C78_grid ft (fun _ _ => False) find grow tty epipe c rd w rows PJ FI WD RG FN RE G) as (vs & R & CL & H).
  pose proof G as (RW & SZ). pose proof (arrays_length w rows vs RW R) as LN.
  destruct (H [JArr vs false]) as (t & S & J); [|exists vs, t; auto]. rewrite AR. apply (fun a m b c d e f => proj1 (follows_applied a m b c d e f)). apply fw_join; [unfold maxint; rewrite LN; nia|constructor].
Qed.
Print Assumptions C78_joined.

(** The rows of [C75_example], without their header. *)
Definition ex78_text : bytes := text "1,5" ++ [10%N] ++ text "2,ab" ++ [10%N] ++ text "3,200" ++ [10%N].
Definition ex78 (args : list bytes) : command := mkCommand (text "auto") (text "csv") [] (text "json") 2 true 60 false false [] args.
Example C78_example :
  grid 2 ex75_rows /\ records_text ex75_rows (unix ex78_text) /\
  (forall args, plain_json false (ex78 args) /\ reads_grid (ex78 args) (stdin ex78_text)) /\
  int_value (text "1") 1 /\ in_range 1.
Proof.
  destruct C75_example as ((_ & _ & RW & _) & _ & _). split; [split; [exact RW|reflexivity]|]. split; [apply C72_csv_text; vm_compute; reflexivity|].
  split; [intro args; split; [split; [reflexivity|right; split; reflexivity]|split; [reflexivity|left; split; [discriminate|reflexivity]]]|].
  split; [right; exists 49%N, []; split; [lia|split; [constructor|left; split; reflexivity]]|unfold in_range; lia].
Qed.

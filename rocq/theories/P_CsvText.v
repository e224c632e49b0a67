(** C72: which records are read from a CSV text. *)
From Coq Require Import String List Arith ZArith NArith Bool Lia.
From Verif Require Import Base Tokens ScannerModel ScannerSpec JsonSpec EncSpec P_JsonDec CsvModel CsvSpec P_Csv FormatSpec MainModel P_Main CliModel CliSpec P_Cli
  CsvReaderModel CsvTextSpec CsvReader.
Import ListNotations.
Local Open Scope N_scope.

(** The reader always comes to an end: the other branch of [csv_reader] is not taken. *)
Theorem C72_reader_ends : forall t fin, exists x, read_all (S (length t)) fin None t = Ok x /\ csv_reader t fin = x.
Proof. intros t fin. destruct (all_total (S (length t)) fin None t ltac:(lia)) as [x E]. exists x. split; [exact E|]. unfold csv_reader. now rewrite E. Qed.
Print Assumptions C72_reader_ends.

(** A text is read without an error just when it is the text of records that all have
    the same number of fields, and then these are the records that are read. *)
Theorem C72_csv_text : forall t recs, csv_reader t RdEOF = (recs, false) <-> records_text recs (unix t) /\ rectangular recs.
Proof.
  intros t recs. split; intro H.
  - destruct (C72_reader_ends t RdEOF) as (x & E & X). rewrite X in H. subst x. apply all_sound in E. tauto.
  - destruct H as [RT RE]. unfold csv_reader. rewrite (all_complete recs (unix t) RT (S (length t)) None t eq_refl ltac:(lia)); [reflexivity| |exact RE]. intros r _. exact I.
Qed.
Print Assumptions C72_csv_text.

(** So a text has one reading. *)
Theorem C72_one_reading : forall t recs1 recs2, records_text recs1 (unix t) -> rectangular recs1 -> records_text recs2 (unix t) -> rectangular recs2 -> recs1 = recs2.
Proof.
  intros t r1 r2 A1 B1 A2 B2. pose proof (proj2 (C72_csv_text t r1) (conj A1 B1)) as E1. pose proof (proj2 (C72_csv_text t r2) (conj A2 B2)) as E2. congruence.
Qed.
Print Assumptions C72_one_reading.

(** Faults: an input that cannot be read to its end, a text that is not CSV, or a
    record with another number of fields.  What is read is the text of records up to
    some line, and all records that stand before the fault. *)
Theorem C72_before_a_fault : forall t fin,
  (let recs := fst (csv_reader t fin) in
   rectangular recs /\ exists t1 t2, t = t1 ++ t2 /\ (t1 = [] \/ last t1 0 = 10 \/ t2 = []) /\ records_text recs (unix t1)) /\
  (forall t1 t2 recs, t = t1 ++ t2 -> last t1 0 = 10 -> records_text recs (unix t1) -> rectangular recs ->
   exists more, fst (csv_reader t fin) = recs ++ more).
Proof.
  intros t fin. split.
  - destruct (C72_reader_ends t fin) as ([recs b] & E & ->). apply all_prefix in E as (RE & _ & H). cbn [fst]. auto.
  - intros t1 t2 recs -> L RT RE. destruct (all_begins recs (unix t1) RT) with (n := S (length (t1 ++ t2))) (fin := fin) (width := @None nat) (t := t1 ++ t2) (v := unix t2) as (more & b & E).
    + destruct (unix t1) as [|y u] eqn:U; [auto|right]. rewrite <- U. clear - L. destruct t1 as [|z t1]; [discriminate|].
      destruct (exists_last (l := z :: t1) ltac:(discriminate)) as (h & w & EW). rewrite EW in L |- *. rewrite last_last in L. subst w. clear.
      assert (G : forall n h, (length h <= n)%nat -> last (unix (h ++ [10])) 0 = 10).
      { induction n as [|n IH]; intros h0 LN; [destruct h0; [reflexivity|cbn [length] in LN; lia]|]. destruct (cut_line_spec h0) as (g & N & [(r & _ & ->)|[_ ->]]).
        - rewrite <- app_assoc. cbn [app]. rewrite unix_line by exact N. rewrite app_length in LN. cbn [length] in LN. specialize (IH r ltac:(lia)).
          change (10 :: unix (r ++ [10])) with ([10] ++ unix (r ++ [10])). rewrite app_assoc, last_app; [exact IH|]. intro X. rewrite X in IH. discriminate.
        - rewrite unix_line by exact N. now rewrite last_app. }
      eapply G. reflexivity.
    + now apply unix_app.
    + lia.
    + intros r _. exact I.
    + exact RE.
    + exists more. unfold csv_reader. rewrite E. reflexivity.
Qed.
Print Assumptions C72_before_a_fault.

(** Records can be written with quotation marks around every field and either line
    end; unless a field has a carriage return in it they are read as they were. *)
Fixpoint written_record (r : list bytes) : bytes :=
  match r with
  | [] => []
  | [f] => 34 :: doubled f ++ [34]
  | f :: r' => 34 :: doubled f ++ 34 :: 44 :: written_record r'
  end.
Definition written (eol : bytes) (recs : list (list bytes)) : bytes := flat_map (fun r => written_record r ++ eol) recs.
Lemma written_record_text : forall r, r <> [] -> record_text r (written_record r) /\ written_record r <> [].
Proof.
  induction r as [|f r IH]; intro N; [congruence|]. destruct r as [|g r]; [split; [constructor; constructor|discriminate]|]. split; [|discriminate].
  destruct (IH ltac:(discriminate)) as [H _].
  change (written_record (f :: g :: r)) with (34 :: doubled f ++ 34 :: 44 :: written_record (g :: r)).
  replace (34 :: doubled f ++ 34 :: 44 :: written_record (g :: r)) with ((34 :: doubled f ++ [34]) ++ 44 :: written_record (g :: r)); [constructor; [constructor|exact H]|].
  cbn [app]. rewrite <- app_assoc. reflexivity.
Qed.
Lemma doubled_no : forall c f, c <> 34 -> no c f -> no c (doubled f).
Proof.
  intros c f NC N H. apply in_flat_map in H as (b & I1 & I2). destruct (N.eqb_spec b 34) as [->|_]; cbn [In] in I2; [destruct I2 as [E|[E|[]]]; congruence|]. destruct I2 as [<-|[]]. now apply N.
Qed.
Lemma written_no_cr : forall r, Forall (no 13) r -> no 13 (written_record r).
Proof.
  induction r as [|f r IH]; intro H; [apply no_nil|]. pose proof (doubled_no 13 f ltac:(discriminate) (Forall_inv H)) as ND. specialize (IH (Forall_inv_tail H)).
  destruct r as [|g r]; [cbn [written_record]; apply no_cons; split; [discriminate|]; apply no_app; split; [exact ND|]; apply no_cons; split; [discriminate|apply no_nil]|].
  change (written_record (f :: g :: r)) with (34 :: doubled f ++ 34 :: 44 :: written_record (g :: r)).
  apply no_cons; split; [discriminate|]; apply no_app; split; [exact ND|]; apply no_cons; split; [discriminate|]; apply no_cons; split; [discriminate|exact IH].
Qed.
Lemma unix_eol : forall eol x r, eol = [10] \/ eol = [13; 10] -> no 13 x -> unix (x ++ eol ++ r) = x ++ 10 :: unix r.
Proof.
  intros eol x r H. induction x as [|b x IH]; intro N; [destruct H as [-> | ->]; reflexivity|]. apply no_cons in N as [NB N]. cbn [app]. rewrite unix_cons by exact NB. f_equal. now apply IH.
Qed.
Theorem C72_written_records : forall eol recs, eol = [10] \/ eol = [13; 10] -> rectangular recs -> Forall (fun r => r <> []) recs -> Forall (Forall (no 13)) recs ->
  csv_reader (written eol recs) RdEOF = (recs, false).
Proof.
  intros eol recs EO RE NE NC. apply C72_csv_text. split; [|exact RE]. clear RE. induction recs as [|r recs IH]; [constructor|].
  cbn [written flat_map]. rewrite <- app_assoc, unix_eol by (auto; apply written_no_cr; exact (Forall_inv NC)).
  destruct (written_record_text r (Forall_inv NE)) as [RT NT]. constructor; [exact RT|exact NT|]. apply IH; [exact (Forall_inv_tail NE)|exact (Forall_inv_tail NC)].
Qed.
Print Assumptions C72_written_records.

(** What jp makes of a CSV text, or of the records before a fault: they are decoded
    (C20), the arguments are carried out in their order (C60), and the values are
    printed. *)
Theorem C72_jp :
  forall float_text matches find grow tty epipe (c : command) (rd : reader) recs,
    let jp := jp float_text csv_reader find grow tty epipe None c rd in
    In (cm_color c) [text "auto"; text "always"; text "never"] -> cm_file c = [] -> In (cm_out c) [text "json"; text "jpv"; text "path"] ->
    csv_format c rd ->
    rd_fin rd = RdEOF -> records_text recs (unix (input rd)) -> rectangular recs ->
    exists vs, csv_input recs c rd vs /\
      (forall ws, applied float_text matches (cm_strict c) (cm_args c) vs ws ->
         exists out ok, prints (output_options tty c) (stream ws) out ok /\ forall oc, jp oc <-> oc = mkOutcome out 0%Z) /\
      (plain_json tty c -> without_depth (cm_args c) ->
       Forall printable (cm_csv_header c) -> Forall (Forall (Forall printable)) recs ->
       forall ws, applied float_text matches (cm_strict c) (cm_args c) vs ws ->
         exists t', stext true ws_separated (map canon ws) t' /\ forall oc, jp oc <-> oc = mkOutcome t' 0%Z).
Proof.
  intros ft matches find grow tty epipe c rd recs jp0 CO FI OU CF FN RT RE.
  pose proof (C60_csv_records_in_order ft csv_reader matches find grow tty epipe c rd CO FI OU CF) as H. cbn zeta in H.
  rewrite FN, (proj2 (C72_csv_text (input rd) recs) (conj RT RE)) in H. exact H.
Qed.
Print Assumptions C72_jp.

(** Not so: that every text of records is read, and that fields are read byte for
    byte.  A record of another length ends the reading, without a message in the
    output and with status 0; CR LF within quotation marks becomes LF. *)
Theorem C72_ragged_refuted : exists t recs,
  records_text recs (unix t) /\ length recs = 3%nat /\ csv_reader t RdEOF = ([[text "a"; text "b"]], true) /\
  forall float_text find grow,
    jp float_text csv_reader find grow false false None (mkCommand (text "never") (text "csv") [] (text "json") 2%Z true 60%Z false false [] []) (stdin t)
      (mkOutcome (text "[""a"", ""b""]" ++ [10]) 0%Z).
Proof.
  exists (text "a,b" ++ [10] ++ text "c" ++ [10] ++ text "d,e" ++ [10]), [[text "a"; text "b"]; [text "c"]; [text "d"; text "e"]].
  assert (P : forall s, forallb (fun b => negb (b =? 34) && negb (b =? 44) && negb (b =? 10)) (text s) = true -> field_text (text s) (text s)).
  { intros s H. constructor. intros b I. rewrite forallb_forall in H. specialize (H b I). apply andb_prop in H as [H H3]. apply andb_prop in H as [H1 H2].
    rewrite negb_true_iff, N.eqb_neq in H1, H2, H3. auto. }
  split; [|split; [reflexivity|split; [vm_compute; reflexivity|]]].
  - change (records_text [[text "a"; text "b"]; [text "c"]; [text "d"; text "e"]] ((text "a" ++ 44 :: text "b") ++ 10 :: text "c" ++ 10 :: (text "d" ++ 44 :: text "e") ++ [10])).
    apply rs_record; [apply rt_more; [now apply P|apply rt_one; now apply P]|discriminate|]. apply rs_record; [apply rt_one; now apply P|discriminate|].
    apply rs_record; [apply rt_more; [now apply P|apply rt_one; now apply P]|discriminate|constructor].
  - intros ft find grow. unfold jp. match goal with |- context [prepare ?a ?b ?c ?d] => destruct (prepare a b c d) as [p|] eqn:PR; [|discriminate] end. vm_compute in PR. injection PR as <-.
    eexists _, _. split; [eexists; vm_compute; reflexivity|]. split; [constructor|]. apply leaves_vm. vm_compute. reflexivity.
Qed.
Print Assumptions C72_ragged_refuted.

Theorem C72_cr_lf_in_field_refuted : exists f : bytes, csv_reader (written [10] [[f]]) RdEOF <> ([[f]], false) /\
  csv_reader (written [10] [[f]]) RdEOF = ([[unix f]], false).
Proof. exists [97; 13; 10; 98]. split; [vm_compute; discriminate|vm_compute; reflexivity]. Qed.
Print Assumptions C72_cr_lf_in_field_refuted.

(** An example: [x,"a ""b"", LF c"] CR LF LF [ ,] without a line end, by the specification
    and by the reader; and a text with a quotation mark in a plain field. *)
Definition ex72 : bytes := text "x,""a """"b"""",""" ++ [13; 10; 10] ++ text " ,".
Example C72_example :
  csv_reader ex72 RdEOF = ([[text "x"; text "a ""b"","]; [text " "; []]], false) /\
  records_text [[text "x"; text "a ""b"","]; [text " "; []]] (unix ex72) /\
  csv_reader (text "x,y" ++ [10] ++ text "a,b""") RdEOF = ([[text "x"; text "y"]], true) /\
  csv_reader (text "x,y" ++ [10] ++ text "a,b") RdFail = ([[text "x"; text "y"]], true) /\
  rectangular [[text "x"; text "y"]] /\ csv_format ex60_csv (stdin (text "1,x")).
Proof.
  assert (E : csv_reader ex72 RdEOF = ([[text "x"; text "a ""b"","]; [text " "; []]], false)) by (vm_compute; reflexivity).
  split; [exact E|]. split; [now apply C72_csv_text in E|]. split; [vm_compute; reflexivity|]. split; [vm_compute; reflexivity|]. split; [exists 2%nat; repeat constructor|].
  exists (text "csv"). split; [left; split; [discriminate|reflexivity]|]. split; [cbn; auto|]. intros _. split; discriminate.
Qed.

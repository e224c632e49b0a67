(** C63 for commands that read JPV. *)
From Coq Require Import String List Arith ZArith NArith Bool Lia.
From Verif Require Import Base Tokens ScannerModel ScannerSpec JsonSpec EncSpec JsonDecModel P_JsonDec P_JsonEnc JpvSpec P_Jpv
  MainModel P_Main FormatModel PathSpec PathTame PathTop P_Path P_JpQuery CliModel CliSpec P_Cli P_Chain P_JpGrep P_TableJpv P_Edit.
Import ListNotations.

(** Values read from lines with quoted names have the flags of values read from JSON. *)
Lemma quoted_canon : forall v, jpv_canon true v = canon v.
Proof.
  apply (jval_induction (fun v => jpv_canon true v = canon v)); [reflexivity| |].
  - intros l e IH. cbn [jpv_canon canon]. f_equal. now apply map_ext_Forall.
  - intros l e IH. cbn [jpv_canon canon]. f_equal. apply map_ext_Forall. eapply Forall_impl; [|exact IH].
    intros [k x] E. cbn [fst snd] in *. rewrite E. unfold key_step. rewrite andb_false_r. reflexivity.
Qed.
Lemma key_contents : forall c, contents (sc_bytes (key_scalar c)) = c.
Proof. intro c. exact (contents_again c). Qed.
Lemma canon_canon : forall v, canon (canon v) = canon v.
Proof.
  apply (jval_induction (fun v => canon (canon v) = canon v)).
  - intro s. cbn [canon]. now rewrite canon_again.
  - intros l e IH. cbn [canon]. f_equal. rewrite map_map. now apply map_ext_Forall.
  - intros l e IH. cbn [canon]. f_equal. rewrite map_map. apply map_ext_Forall. eapply Forall_impl; [|exact IH].
    intros [k x] E. cbn [fst snd] in *. now rewrite E, key_contents.
Qed.

(** The first command reads any choice of the lines of a value, with quoted names
    (jp -out jpv -jpv-quote-keys); its arguments are of the class of C60 and it writes
    JSON.  The second one reads what it writes, in any pieces. *)
Theorem C63_jpv_input :
  forall float_text csv_records matches find grow tty1 epipe1 (c1 : command) v lines mask w rd ws' t' tty epipe room (c2 : command) (rd2 : reader),
    plain_json tty1 c1 -> cm_file c1 = [] -> without_depth (cm_args c1) -> In (cm_in c1) [text "jpv"; text "path"] ->
    representable all_differ true v -> valid true v -> Forall2 line_text (leaves true v) lines ->
    length mask = length lines -> ws w -> delivers rd (flat_map (fun l => l ++ [10%N]) (select mask lines) ++ w) ->
    applied float_text matches (cm_strict c1) (cm_args c1) (map canon (left_over (restrict true (marked true v mask) v))) ws' ->
    jp float_text csv_records find grow tty1 epipe1 None c1 rd (mkOutcome t' 0%Z) ->
    delivers rd2 t' -> input_format c2 rd2 (text "json") -> cm_strict c2 = cm_strict c1 ->
    forall oc, jp float_text csv_records find grow tty epipe room c2 rd2 oc <->
               jp float_text csv_records find grow tty epipe room (chained c1 c2) rd oc.
Proof.
  intros ft csv matches find grow tty1 epipe1 c1 v lines mask w rd ws' t' tty epipe room c2 rd2 PJ FI WD INF RP VA FL LM W D AP J D2 IF ST.
  assert (AP0 : applied ft matches (cm_strict c1) (cm_args c1) (map (jpv_canon true) (left_over (restrict true (marked true v mask) v))) ws').
  { rewrite (map_ext _ _ quoted_canon). exact AP. }
  destruct (lines_read ft csv matches find grow tty1 epipe1 c1 true v lines RP VA FL INF PJ FI WD mask w rd ws' LM W D AP0) as (t & T & H).
  apply H in J. injection J as <-.
  set (vs := map canon (left_over (restrict true (marked true v mask) v))) in *.
  assert (SV : Forall settled vs).
  { unfold vs. destruct (restrict true (marked true v mask) v) as [y|] eqn:RS; cbn [left_over map]; constructor; [|constructor].
    split; [rewrite <- quoted_canon; apply valid_jpv; eapply valid_restrict; eauto|apply canon_canon]. }
  assert (SW : Forall settled ws') by exact (applied_keeps settled settled_closed settled_array _ _ _ _ _ _ AP WD SV).
  replace (map canon ws') with ws' in T by (clear - SW; induction SW as [|x l [_ E] SW IH]; [reflexivity|]; cbn [map]; rewrite E; f_equal; exact IH).
  assert (DC : P_Jpv.decodes_jpv rd jp_scanner (stream vs) (ProgModel.DOk tt)).
  { destruct (C18_any_subset_of_lines true 0 false v RP ltac:(lia)) as (lines2 & FL2 & _ & K). rewrite (lines_unique _ _ _ FL FL2) in *. destruct D as (I' & K' & F').
    specialize (K mask w rd jp_scanner LM W ltac:(unfold jp_scanner; lia) K' F' I'). unfold vs.
    destruct (restrict true (marked true v mask) v); cbn [map left_over]; [|exact K]. unfold stream. cbn [flat_map]. rewrite app_nil_r, <- quoted_canon. exact K. }
  assert (JI2 : json_input c2 rd2 ws') by (split; [exact IF|eauto]). destruct (json_sends csv c2 rd2 ws' JI2) as (rd2' & F2 & S2).
  destruct (stages_applied ft matches find grow _ _ _ _ AP) as (sts & SS & TU). rewrite <- ST in SS.
  apply (chain ft csv find grow tty epipe room c1 c2 rd rd2 SrcJpv rd rd2' (stream vs) ws' sts); auto.
  - rewrite choose_source_ok. unfold format_and_input.
    assert (NA : bytes_eqb (cm_in c1) (text "auto") = false) by (destruct INF as [<-|[<-|[]]]; reflexivity). rewrite NA.
    unfold source_of. destruct INF as [<-|[<-|[]]]; cbn; now rewrite andb_false_r.
  - intros ts. cbn [source_sends]. split; [intros [x D']; exact (proj1 (decodes_jpv_unique _ _ _ _ _ _ D' DC))|intros ->; eauto].
  - rewrite choose_source_ok, F2. unfold source_of. now destruct (negb (empty (cm_csv_header c2))).
Qed.
Print Assumptions C63_jpv_input.

(** [jp -in jpv '$'] on the line  $["a"] = 1  and [jp split]. *)
Definition ex63_jin : command := mkCommand (text "auto") (text "jpv") [] (text "json") 2 true 60 false false [] [].
Definition ex63_line : bytes := text "$[""a""] = 1".
Definition ex63_jval : jval := JObj [(key_scalar [97%N], P_Path.num 1)] false.
Example C63_jpv_example : forall float_text csv_records matches find grow,
  plain_json false ex63_jin /\ representable all_differ true ex63_jval /\ valid true ex63_jval /\ Forall2 line_text (leaves true ex63_jval) [ex63_line] /\
  delivers (stdin (ex63_line ++ [10%N])) (flat_map (fun l => l ++ [10%N]) (select [true] [ex63_line]) ++ []) /\
  applied float_text matches false [] (map canon (left_over (restrict true (marked true ex63_jval [true]) ex63_jval))) [ex63_jval] /\
  jp float_text csv_records find grow false false None ex63_jin (stdin (ex63_line ++ [10%N])) (mkOutcome (text "{""a"": 1}" ++ [10%N]) 0%Z).
Proof.
  intros ft csv matches find grow.
  assert (N : valid true (P_Path.num 1)) by (constructor; pose proof (ex53_digit 1 ltac:(lia)) as V; inversion V; subst; assumption).
  assert (A : forall strict, chars strict [97%N]) by (intro strict; apply ch_plain; [unfold plain_byte; lia|constructor]).
  split; [split; [reflexivity|right; split; reflexivity]|]. split; [|split; [|split; [|split; [|split]]]].
  - constructor; [|repeat constructor]. constructor; [|constructor]. cbn [fst snd]. split; [reflexivity|]. split; [exists [97%N]; auto|]. split; [discriminate|]. constructor. inversion N; subst; assumption.
  - constructor. constructor; [|constructor]. cbn [fst snd]. split; [exists [97%N]; auto|exact N].
  - constructor; [|constructor]. exists (text "[""a""]"), [49%N]. split; [|split; reflexivity]. apply (tx_step (SQuoted [97%N]) [] (text "[""a""]") []); [exact (tx_quoted [97%N] (A false))|constructor].
  - repeat split.
  - constructor.
  - unfold jp. destruct (prepare ft false ex63_jin (stdin (ex63_line ++ [10%N]))) as [p|] eqn:P; [|discriminate]. vm_compute in P. injection P as <-.
    exists (stream [ex63_jval]), (stream [ex63_jval]). split; [exists (ProgModel.DOk tt); apply (decodes_jpv_vm 60); vm_compute; reflexivity|]. split; [constructor|]. apply leaves_vm. vm_compute. reflexivity.
Qed.

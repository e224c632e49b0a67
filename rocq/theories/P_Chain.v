(** C63: one command with several arguments does what a pipe of commands does. *)
From Coq Require Import String List Arith ZArith NArith Bool Lia.
From Verif Require Import Base Tokens ScannerModel ScannerSpec JsonSpec EncSpec MainModel P_Main P_JsonDec FormatModel
  CsvModel PathModel PathTop P_JpQuery CliModel CliSpec P_Cli.
Import ListNotations.
Open Scope string_scope.
Open Scope list_scope.
Open Scope nat_scope.

(** [jp c1 | jp c2] in one command: the input format of the first, the output
    format of the second, the arguments of both. *)
Definition chained (c1 c2 : command) : command :=
  mkCommand (cm_color c2) (cm_in c1) (cm_csv_header c1) (cm_out c2) (cm_indent c2) (cm_compact c2) (cm_width c2) (cm_quote c2)
    (cm_strict c2) (cm_file c2) (cm_args c1 ++ cm_args c2).

Lemma stages_of_app : forall ft strict a b, stages_of ft strict (a ++ b) =
  match stages_of ft strict a, stages_of ft strict b with Some l, Some m => Some (l ++ m) | _, _ => None end.
Proof.
  intros ft strict a b. induction a as [|x a IH]; cbn [app stages_of].
  - now destruct (stages_of ft strict b).
  - destruct (stage_of ft strict x); [|reflexivity]. rewrite IH. destruct (stages_of ft strict a); [|reflexivity]. now destruct (stages_of ft strict b).
Qed.
Lemma stages_turn_app : forall find grow l m ts out, stages_turn find grow (l ++ m) ts out <-> exists mid, stages_turn find grow l ts mid /\ stages_turn find grow m mid out.
Proof.
  intros find grow l m. induction l as [|s l IH]; intros ts out; cbn [app].
  - split; [intro H; exists ts; split; [constructor|exact H]|]. intros (mid & A & B). now inversion A; subst.
  - split.
    + intro H. inversion H as [|? ? ? x ? A B]; subst. apply IH in B as (mid & B & C). exists mid. split; [econstructor; eauto|exact C].
    + intros (mid & A & B). inversion A as [|? ? ? x ? A1 A2]; subst. econstructor; [exact A1|]. apply IH. eauto.
Qed.

(** The first command reads [vs] and sends [ws] to its encoder; the second reads
    [ws]. *)
Lemma chain : forall ft csv find grow tty epipe room c1 c2 rd rd2 src1 rd1' rd2' ts1 ws sts,
  choose_source c1 rd = Some (src1, rd1') -> (forall ts, source_sends csv src1 rd1' ts <-> ts = ts1) ->
  stages_of ft (cm_strict c2) (cm_args c1) = Some sts -> (forall out, stages_turn find grow sts ts1 out <-> out = stream ws) ->
  choose_source c2 rd2 = Some (SrcJson, rd2') -> (forall ts, source_sends csv SrcJson rd2' ts <-> ts = stream ws) ->
  forall oc, jp ft csv find grow tty epipe room c2 rd2 oc <-> jp ft csv find grow tty epipe room (chained c1 c2) rd oc.
Proof.
  intros ft csv find grow tty epipe room c1 c2 rd rd2 src1 rd1' rd2' ts1 ws sts C1 S1 ST TU C2 S2 oc. unfold jp, prepare.
  change (choose_source (chained c1 c2) rd) with (choose_source c1 rd). rewrite C1, C2. cbn [chained cm_color cm_file cm_strict cm_args cm_out cm_compact cm_indent cm_width cm_quote].
  rewrite stages_of_app, ST. destruct (choose_color tty (cm_color c2)); [|reflexivity]. destruct (empty (cm_file c2)); [|reflexivity].
  destruct (stages_of ft (cm_strict c2) (cm_args c2)) as [sts2|]; [|reflexivity]. destruct (choose_encoder (cm_out c2)); [|reflexivity]. cbn [pl_source pl_input pl_stages pl_options].
  split.
  - intros (ts & out & A & B & L). apply S2 in A as ->. exists ts1, out. split; [now apply S1|]. split; [|exact L]. apply stages_turn_app. exists (stream ws). split; [now apply TU|exact B].
  - intros (ts & out & A & B & L). apply S1 in A as ->. apply stages_turn_app in B as (mid & B1 & B2). apply TU in B1 as ->. exists (stream ws), out. split; [now apply S2|]. auto.
Qed.

(** C63.  The first command has JSON input and writes JSON; its arguments are of
    the class of C60.  The second one reads what the first one writes, in any
    pieces; its arguments are arbitrary, and so are the devices both write to. *)
Theorem C63_one_command_for_a_pipe :
  forall float_text csv_records matches find grow tty1 epipe1 (c1 : command) (rd : reader) (vs ws : list jval) (t' : bytes) tty epipe room (c2 : command) (rd2 : reader),
    plain_json tty1 c1 -> cm_file c1 = [] -> without_depth (cm_args c1) -> json_input c1 rd vs ->
    applied float_text matches (cm_strict c1) (cm_args c1) vs ws ->
    jp float_text csv_records find grow tty1 epipe1 None c1 rd (mkOutcome t' 0) ->
    delivers rd2 t' -> input_format c2 rd2 (text "json") -> cm_strict c2 = cm_strict c1 ->
    forall oc, jp float_text csv_records find grow tty epipe room c2 rd2 oc <->
               jp float_text csv_records find grow tty epipe room (chained c1 c2) rd oc.
Proof.
  intros ft csv matches find grow tty1 epipe1 c1 rd vs ws t' tty epipe room c2 rd2 PJ FI WD JI AP J D IF ST.
  destruct (C60_json_to_json ft csv matches find grow tty1 epipe1 c1 rd vs ws PJ FI WD JI AP) as (t & T & H). apply H in J. injection J as <-.
  destruct (json_sends csv c1 rd vs JI) as (rd1' & F1 & S1).
  assert (JI2 : json_input c2 rd2 ws) by (split; [exact IF|eauto]). destruct (json_sends csv c2 rd2 ws JI2) as (rd2' & F2 & S2).
  destruct (stages_applied ft matches find grow _ _ _ _ AP) as (sts & SS & TU). rewrite <- ST in SS.
  assert (SRC : forall c r r', format_and_input c r = Some (text "json", r') -> choose_source c r = Some (SrcJson, r')).
  { intros c r r' F. rewrite choose_source_ok, F. unfold source_of. now destruct (negb (empty (cm_csv_header c))). }
  eapply chain; eauto.
Qed.
Print Assumptions C63_one_command_for_a_pipe.

(** With depth=N the pipe breaks: the dots that stand for what was left out are
    not JSON. *)
Definition ex63_depth : command := plain_command [text "depth=0"].
Definition ex63_plain : command := plain_command [].
Theorem C63_depth_refuted : forall float_text csv_records find grow,
  jp float_text csv_records find grow false false None ex63_depth (stdin (text "[1]")) (mkOutcome (text "[...]" ++ [10%N]) 0) /\
  delivers (stdin (text "[...]" ++ [10%N])) (text "[...]" ++ [10%N]) /\ input_format ex63_plain (stdin (text "[...]" ++ [10%N])) (text "json") /\
  jp float_text csv_records find grow false false None (chained ex63_depth ex63_plain) (stdin (text "[1]")) (mkOutcome (text "[...]" ++ [10%N]) 0) /\
  ~ jp float_text csv_records find grow false false None ex63_plain (stdin (text "[...]" ++ [10%N])) (mkOutcome (text "[...]" ++ [10%N]) 0).
Proof.
  intros ft csv find grow.
  assert (D : jp ft csv find grow false false None ex63_depth (stdin (text "[1]")) (mkOutcome (text "[...]" ++ [10%N]) 0)).
  { unfold jp. destruct (prepare ft false ex63_depth (stdin (text "[1]"))) as [p|] eqn:P; [|exfalso; vm_compute in P; discriminate]. vm_compute in P. injection P as <-.
    exists [TStartArr; TScalar (new_scalar TNum [49%N]); TEndArr], [TStartArr; TElision; TEndArr].
    split; [exists (ProgModel.DOk tt); apply (decodes_vm _ _ 60); vm_compute; reflexivity|].
    split; [econstructor; [vm_compute; reflexivity|constructor]|]. apply leaves_vm. vm_compute. reflexivity. }
  split; [exact D|]. split; [repeat split|]. split; [apply format_ok; eexists; vm_compute; reflexivity|]. split; [exact D|].
  intro J. unfold jp in J. destruct (prepare ft false ex63_plain (stdin (text "[...]" ++ [10%N]))) as [p|] eqn:P; [|exfalso; vm_compute in P; discriminate]. vm_compute in P. injection P as <-.
  destruct J as (ts & out & [x S] & T & L).
  assert (S' : decodes (mkReader [[91; 46; 46; 46; 93; 10]%N] RdEOF false) jp_scanner [TStartArr] (ProgModel.DErr ProgModel.DSyntax)) by (apply (decodes_vm _ _ 60); vm_compute; reflexivity).
  cbn [pl_input] in S. destruct (decodes_unique _ _ _ _ _ _ S S') as [-> _]. inversion T; subst. cbn [pl_options] in L.
  assert (L' : leaves_behind (mkJpOptions false None (-1) 60 false false) false None [TStartArr] (mkOutcome [91%N] 0)) by (apply leaves_vm; vm_compute; reflexivity).
  pose proof (leaves_unique _ _ _ _ _ _ L L') as Q. discriminate.
Qed.
Print Assumptions C63_depth_refuted.

(** With CSV in the first command the pipe is not one command either: a name
    with a quotation mark is written in brackets by one command
    ([$["a\"b"] = 1]), but after a dot by the pipe ([$.a\"b = 1]), because the
    decoder of JSON takes it for a plain name. *)
Definition ex63_csv : command :=
  mkCommand (text "never") (text "csv-with-header") [] (text "json") 2 true 60 false false [] [].
Definition ex63_jpv : command :=
  mkCommand (text "never") (text "json") [] (text "jpv") 2 false 60 false false [] [].
Definition ex63_names : list (list bytes) := [[[97; 34; 98]]; [[49]]]%N.
Definition ex63_json : bytes := [123; 34; 97; 92; 34; 98; 34; 58; 32; 49; 125; 10]%N.
Definition ex63_pipe : bytes := [36; 46; 97; 92; 34; 98; 32; 61; 32; 49; 10; 10]%N.
Definition ex63_one : bytes := [36; 91; 34; 97; 92; 34; 98; 34; 93; 32; 61; 32; 49; 10; 10]%N.
Theorem C63_csv_refuted : forall float_text csv_records find grow (t : bytes),
  csv_records t RdEOF = (ex63_names, false) ->
  jp float_text csv_records find grow false false None ex63_csv (stdin t) (mkOutcome ex63_json 0) /\
  jp float_text csv_records find grow false false None ex63_jpv (stdin ex63_json) (mkOutcome ex63_pipe 0) /\
  jp float_text csv_records find grow false false None (chained ex63_csv ex63_jpv) (stdin t) (mkOutcome ex63_one 0) /\
  ~ jp float_text csv_records find grow false false None (chained ex63_csv ex63_jpv) (stdin t) (mkOutcome ex63_pipe 0).
Proof.
  intros ft csv find grow t H.
  assert (P1 : exists sts, prepare ft false ex63_csv (stdin t) = Some (mkPlan (SrcCsv true true []) (stdin t) sts (mkJpOptions false None (-1) 60 false false)) /\ sts = []) by (eexists; split; reflexivity).
  assert (P3 : exists sts, prepare ft false (chained ex63_csv ex63_jpv) (stdin t) = Some (mkPlan (SrcCsv true true []) (stdin t) sts (mkJpOptions true None 2 60 false false)) /\ sts = []) by (eexists; split; reflexivity).
  assert (P2 : exists sts, prepare ft false ex63_jpv (stdin ex63_json) = Some (mkPlan SrcJson (stdin ex63_json) sts (mkJpOptions true None 2 60 false false)) /\ sts = []) by (eexists; split; reflexivity).
  destruct P1 as (s1 & P1 & ->), P2 as (s2 & P2 & ->), P3 as (s3 & P3 & ->).
  assert (RE : csv_read csv (stdin t) = (ex63_names, false)).
  { unfold csv_read, stdin. cbn [rd_chunks rd_fin concat]. now rewrite app_nil_r. }
  set (k := mkScalar [34; 97; 92; 34; 98; 34]%N TStr false false false). set (v := new_scalar TNum [49%N]).
  assert (D : forall ts, source_sends csv (SrcCsv true true []) (stdin t) ts <-> ts = [TStartObj; TScalar k; TScalar v; TEndObj]).
  { intro ts. unfold source_sends. rewrite RE. cbn [fst snd].
    assert (E : decode_csv jp_scanner true true [] ex63_names false = Ok ([TStartObj; TScalar k; TScalar v; TEndObj], ProgModel.DOk tt)) by (vm_compute; reflexivity).
    split; [intros [x X]; pose proof (eq_trans (eq_sym E) X) as Q; congruence|intros ->; exists (ProgModel.DOk tt); exact E]. }
  assert (L3 : leaves_behind (mkJpOptions true None 2 60 false false) false None [TStartObj; TScalar k; TScalar v; TEndObj] (mkOutcome ex63_one 0)) by (apply leaves_vm; vm_compute; reflexivity).
  unfold jp. rewrite P1, P2, P3. cbn [pl_source pl_input pl_stages pl_options].
  split; [|split; [|split]].
  - eexists _, _. split; [now apply D|]. split; [constructor|]. apply leaves_vm. vm_compute. reflexivity.
  - exists [TStartObj; TScalar (mkScalar [34; 97; 92; 34; 98; 34]%N TStr true true false); TScalar v; TEndObj], [TStartObj; TScalar (mkScalar [34; 97; 92; 34; 98; 34]%N TStr true true false); TScalar v; TEndObj].
    split; [exists (ProgModel.DOk tt); apply (decodes_vm _ _ 60); vm_compute; reflexivity|].
    split; [constructor|]. apply leaves_vm. vm_compute. reflexivity.
  - eexists _, _. split; [now apply D|]. split; [constructor|]. exact L3.
  - intros (ts & out & S & T & L). apply D in S as ->. inversion T; subst. pose proof (leaves_unique _ _ _ _ _ _ L L3) as Q. discriminate.
Qed.
Print Assumptions C63_csv_refuted.

(** [jp split '$[1:]' join | jp split] on [[[1,2,3],[4]]]: the hypotheses hold, and
    the result is that of [jp split '$[1:]' join split]. *)
Definition ex63_split : command := plain_command [text "split"].
Example C63_example : forall float_text csv_records matches find grow,
  (plain_json false ex60 /\ cm_file ex60 = [] /\ without_depth (cm_args ex60) /\ cm_strict ex63_split = cm_strict ex60 /\
   delivers (stdin (text "[2, 3]" ++ [10%N])) (text "[2, 3]" ++ [10%N]) /\ input_format ex63_split (stdin (text "[2, 3]" ++ [10%N])) (text "json")) /\
  (exists vs ws, json_input ex60 ex60_input vs /\ applied float_text matches false (cm_args ex60) vs ws) /\
  jp float_text csv_records find grow false false None ex60 ex60_input (mkOutcome (text "[2, 3]" ++ [10%N]) 0) /\
  forall oc, jp float_text csv_records find grow false false None ex63_split (stdin (text "[2, 3]" ++ [10%N])) oc <->
             jp float_text csv_records find grow false false None (plain_command [text "split"; text "$[1:]"; text "join"; text "split"]) ex60_input oc.
Proof.
  intros ft csv matches find grow. destruct (C60_example ft csv matches find grow) as (JI & AP & J).
  assert (A : plain_json false ex60 /\ cm_file ex60 = [] /\ without_depth (cm_args ex60) /\ cm_strict ex63_split = cm_strict ex60 /\
    delivers (stdin (text "[2, 3]" ++ [10%N])) (text "[2, 3]" ++ [10%N]) /\ input_format ex63_split (stdin (text "[2, 3]" ++ [10%N])) (text "json")).
  { split; [split; [reflexivity|right; split; reflexivity]|]. split; [reflexivity|]. split; [repeat constructor; intro t; discriminate|]. split; [reflexivity|].
    split; [repeat split|]. apply format_ok. eexists. vm_compute. reflexivity. }
  split; [exact A|]. split; [exists [JArr ex53_vals false], [JArr [P_Path.num 2; P_Path.num 3] false]; split; [exact JI|exact AP]|]. split; [exact J|]. destruct A as (PJ & FI & WD & ST & DE & IF).
  exact (C63_one_command_for_a_pipe ft csv matches find grow false false ex60 ex60_input _ _ _ false false None ex63_split _ PJ FI WD JI AP J DE IF ST).
Qed.

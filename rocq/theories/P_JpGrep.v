(** C61: jp, grep and jp again. *)
From Coq Require Import String List Arith ZArith NArith Bool Lia.
From Verif Require Import Base Tokens ScannerModel ScannerSpec JsonSpec EncSpec JsonDecModel P_JsonDec P_JsonEnc JpvSpec P_Jpv
  MainModel P_Main PathSpec PathTame P_Path P_JpQuery CliModel CliSpec P_Cli.
Import ListNotations.

(** JPV without colours, one leaf to a line. *)
Definition plain_jpv (tty : bool) (c : command) : Prop :=
  In (cm_out c) [text "jpv"; text "path"] /\ (cm_color c = text "never" \/ cm_color c = text "auto" /\ tty = false) /\
  cm_compact c = false /\ (0 <= cm_indent c)%Z.

(** What is left of a value, as a list of values. *)
Definition left_over (o : option jval) : list jval := match o with Some v => [v] | None => [] end.

Lemma key_bytes : forall quote k, sc_bytes (step_key (key_step quote k)) = 34%N :: contents (sc_bytes k) ++ [34%N].
Proof. intros quote k. unfold key_step. destruct (sc_alnum k && negb quote); reflexivity. Qed.
Lemma contents_again : forall c, contents (34%N :: c ++ [34%N]) = c.
Proof. intro c. unfold contents. cbn [tl]. apply removelast_last. Qed.
Lemma canon_again : forall s, canon_scalar (canon_scalar s) = canon_scalar s.
Proof. intros [b t k a u]. unfold canon_scalar. cbn [sc_type sc_bytes]. destruct t; try reflexivity. cbn [string_scalar sc_type sc_bytes]. now rewrite contents_again. Qed.
(** The flags that reading JPV gives are forgotten when JSON is read. *)
Lemma canon_jpv : forall quote v, canon (jpv_canon quote v) = canon v.
Proof.
  intro quote. apply (jval_induction (fun v => canon (jpv_canon quote v) = canon v)).
  - intro s. cbn. now rewrite canon_again.
  - intros l e IH. cbn [jpv_canon canon]. f_equal. rewrite map_map. now apply map_ext_Forall.
  - intros l e IH. cbn [jpv_canon canon]. f_equal. rewrite map_map. apply map_ext_Forall. eapply Forall_impl; [|exact IH].
    intros [k x] H. cbn [fst snd] in *. now rewrite key_bytes, contents_again, H.
Qed.
Lemma valid_jpv : forall quote v, valid true v -> valid true (jpv_canon quote v).
Proof.
  intros quote. apply (jval_induction (fun v => valid true v -> valid true (jpv_canon quote v))).
  - intros s V. inversion V as [? W| |]; subst. constructor. destruct s as [b t k a u]. unfold valid_scalar, canon_scalar in *. cbn [sc_type sc_bytes] in *.
    destruct t; try exact W. destruct W as [c [-> C]]. rewrite contents_again. exists c. auto.
  - intros l e IH V. inversion V as [|? W|]; subst. constructor. apply Forall_map. rewrite Forall_forall in *. auto.
  - intros l e IH V. inversion V as [| |? W]; subst. constructor. apply Forall_map. rewrite Forall_forall in *. intros m M. cbn [fst snd].
    destruct (W m M) as [[c [E C]] X]. split; [|now apply IH]. rewrite key_bytes, E, contents_again. exists c. auto.
Qed.
(** Restricting keeps what holds for the parts of a value. *)
Definition settled_key (k : scalar) : Prop := string_text true (sc_bytes k) /\ key_scalar (contents (sc_bytes k)) = k.
Lemma settled_arr : forall l e, settled (JArr l e) <-> e = false /\ Forall settled l.
Proof.
  intros l e. split.
  - intro S. split; [|exact (settled_closed _ S)]. destruct S as [V _]. now inversion V.
  - intros [-> F]. now apply settled_array.
Qed.
Lemma settled_obj : forall l e, settled (JObj l e) <-> e = false /\ Forall (fun m => settled_key (fst m) /\ settled (snd m)) l.
Proof.
  intros l e. split.
  - intro S. pose proof (settled_closed _ S) as C. cbn [children] in C. destruct S as [V E]. inversion V as [| |? W]; subst. split; [reflexivity|].
    cbn [canon] in E. assert (E' : map (fun m => (key_scalar (contents (sc_bytes (fst m))), canon (snd m))) l = l) by (injection E; auto). clear E V.
    induction W as [|[k y] l H W IH]; [constructor|]. cbn [map fst snd] in *. inversion C; subst. constructor.
    + cbn [fst snd]. split; [|assumption]. split; [exact (proj1 H)|]. now injection E'.
    + apply IH; [assumption|]. now injection E'.
  - intros [-> F]. split.
    + constructor. eapply Forall_impl; [|exact F]. intros m [[A _] [B _]]. auto.
    + cbn [canon]. f_equal. rewrite <- (map_id l) at 2. apply map_ext_Forall. eapply Forall_impl; [|exact F].
      intros [k x] [[_ A] [_ B]]. cbn [fst snd] in *. now rewrite A, B.
Qed.
Lemma settled_restrict : forall quote v keep v', settled v -> restrict quote keep v = Some v' -> settled v'.
Proof.
  intro quote. apply (jval_induction (fun v => forall keep v', settled v -> restrict quote keep v = Some v' -> settled v')).
  - intros s keep v' S H. cbn [restrict] in H. destruct (keep []); [|discriminate]. now injection H as <-.
  - intros l e IH keep v' S H. apply settled_arr in S as [-> F]. cbn [restrict] in H. destruct l as [|x0 l0].
    { destruct (keep []); [|discriminate]. injection H as <-. now apply settled_arr. }
    set (l := x0 :: l0) in *. match type of H with match ?t with _ => _ end = _ => assert (Q : Forall settled t); [|destruct t; [discriminate|]; injection H as <-; now apply settled_arr] end.
    clear H. generalize 0%N as i. unfold l in *. clear l. revert IH F. generalize (x0 :: l0) as l. clear x0 l0. intros l IH F.
    induction l as [|x l IHl]; intro i; cbn [imap]; [constructor|]. inversion IH; subst. inversion F; subst. apply Forall_app. split; [|now apply IHl].
    destruct (restrict quote _ x) as [y|] eqn:R; [|constructor]. constructor; [eauto|constructor].
  - intros l e IH keep v' S H. apply settled_obj in S as [-> F]. cbn [restrict] in H. destruct l as [|x0 l0].
    { destruct (keep []); [|discriminate]. injection H as <-. now apply settled_obj. }
    set (l := x0 :: l0) in *.
    match type of H with match ?t with _ => _ end = _ => assert (Q : Forall (fun m => settled_key (fst m) /\ settled (snd m)) t); [|destruct t; [discriminate|]; injection H as <-; now apply settled_obj] end.
    clear H. unfold l in *. clear l. revert IH F. generalize (x0 :: l0) as l. clear x0 l0. intros l IH F.
    induction l as [|x l IHl]; cbn [flat_map]; [constructor|]. inversion IH; subst. inversion F as [|? ? [K X] F']; subst. apply Forall_app. split; [|now apply IHl].
    destruct (restrict quote _ (snd x)) as [y|] eqn:R; [|constructor]. constructor; [|constructor]. cbn [fst snd]. split; [exact K|]. eauto.
Qed.

Lemma valid_children : forall v, valid true v -> Forall (valid true) (children v).
Proof.
  intros v V. inversion V as [s H|l H|l H]; subst; cbn [children]; [constructor|exact H|].
  apply Forall_map. eapply Forall_impl; [|exact H]. now intros m [_ X].
Qed.

(** C61.  The first command writes one line for each leaf of the value [v] that
    its arguments make of the JSON it reads.  The second command, reading any
    choice of these lines, in order, applies its arguments to the value
    restricted to their leaves ([jpv_canon]: with the flags that reading JPV
    gives to scalars) and writes JSON. *)
Theorem C61_arguments_after_grep :
  forall float_text csv_records matches find grow tty tty' epipe epipe' (c c' : command) (rd : reader) (vs : list jval) (v : jval),
    let quote := cm_quote c in
    plain_jpv tty c -> cm_file c = [] -> without_depth (cm_args c) -> json_input c rd vs ->
    applied float_text matches (cm_strict c) (cm_args c) vs [v] ->
    representable all_differ quote v ->
    In (cm_in c') [text "jpv"; text "path"] -> plain_json tty' c' -> cm_file c' = [] -> without_depth (cm_args c') ->
    exists lines : list bytes,
      Forall2 line_text (leaves quote v) lines /\
      (forall oc, jp float_text csv_records find grow tty epipe None c rd oc <->
         oc = mkOutcome (flat_map (fun l => l ++ [10%N]) lines ++ [10%N]) 0) /\
      forall (mask : list bool) (w : bytes) (rd' : reader) (outs : list jval),
        length mask = length lines -> ws w ->
        delivers rd' (flat_map (fun l => l ++ [10%N]) (select mask lines) ++ w) ->
        applied float_text matches (cm_strict c') (cm_args c')
          (map (jpv_canon quote) (left_over (restrict quote (marked quote v mask) v))) outs ->
        exists t', stext true ws_separated (map canon outs) t' /\
          forall oc, jp float_text csv_records find grow tty' epipe' None c' rd' oc <-> oc = mkOutcome t' 0.
Proof.
  intros ft csv matches find grow tty tty' epipe epipe' c c' rd vs v quote (OU & CO & CP & IN0) FI WD JI AP RP IN' PJ FI' WD'.
  destruct (C18_any_subset_of_lines quote (cm_indent c) tty v RP IN0) as (lines & FL & EN & H). exists lines. split; [exact FL|]. split.
  - destruct (C60_arguments_in_order ft csv matches find grow tty epipe c rd vs [v]) as (out & ok & PR & J); auto.
    { destruct CO as [->|[-> _]]; cbn; auto. }
    { destruct OU as [<-|[<-|[]]]; cbn; auto. }
    replace (flat_map (fun l => l ++ [10%N]) lines ++ [10%N]) with out; [exact J|].
    assert (OP : output_options tty c = mkJpOptions true None (cm_indent c) (cm_width c) quote tty).
    { unfold output_options. rewrite CP. f_equal; [destruct OU as [<-|[<-|[]]]; reflexivity|destruct CO as [->|[-> ->]]; reflexivity]. }
    rewrite OP in PR. destruct PR as [n PR], EN as [m EN]. specialize (PR (n + m) ltac:(lia)). specialize (EN (n + m) ltac:(lia)).
    cbn [jo_jpv jo_color jo_quote jo_indent jo_tty] in PR. unfold stream in PR. cbn [flat_map] in PR. rewrite app_nil_r in PR. congruence.
  - intros mask w rd' outs LM W (I' & K' & F') AP'. specialize (H mask w rd' jp_scanner LM W ltac:(unfold jp_scanner; lia) K' F' I').
    set (vs' := map (jpv_canon quote) (left_over (restrict quote (marked quote v mask) v))) in *.
    assert (D : P_Jpv.decodes_jpv rd' jp_scanner (stream vs') (ProgModel.DOk tt)).
    { unfold vs'. destruct (restrict quote (marked quote v mask) v); cbn [map left_over]; [|exact H]. unfold stream. cbn [flat_map]. now rewrite app_nil_r. }
    destruct (plain_options tty' c' PJ) as ([J NC] & CO' & OU').
    assert (NA : cm_in c' <> text "auto") by (destruct IN' as [<-|[<-|[]]]; discriminate).
    destruct (pipeline ft csv matches find grow tty' epipe' c' rd' (cm_in c') rd' SrcJpv vs' outs) as (out & ok & PR & JP); auto.
    { unfold format_and_input. destruct (bytes_eqb (cm_in c') (text "auto")) eqn:E; [apply bytes_eqb_eq in E; contradiction|reflexivity]. }
    { unfold source_of. destruct IN' as [<-|[<-|[]]]; cbn; now rewrite andb_false_r. }
    { intros ts. cbn [source_sends]. split; [intros [x D']; exact (proj1 (decodes_jpv_unique _ _ _ _ _ _ D' D))|intros ->; eauto]. }
    assert (V : Forall (valid true) outs).
    { apply (applied_keeps (valid true) valid_children (fun l H => va_arr true l H) _ _ _ _ _ _ AP' WD').
      assert (SV : Forall settled [v]).
      { eapply (applied_keeps settled settled_closed settled_array); eauto. destruct JI as [_ (t & _ & T)]. eapply stext_settled; eauto. }
      inversion SV; subst. unfold vs'. destruct (restrict quote (marked quote v mask) v) eqn:R; constructor; [|constructor]. apply valid_jpv.
      eapply settled_restrict; eauto. }
    destruct (C13_round_trip (mkSettings (jo_color (output_options tty' c')) (jo_width (output_options tty' c')) 2 (jo_indent (output_options tty' c')) (jo_tty (output_options tty' c'))) true _ NC V) as [out' [EN' [ST _]]].
    exists out'. split; [exact ST|]. replace out' with out; [exact JP|].
    apply (prints_encodes _ _ _ J) in EN'. destruct PR as [n P1], EN' as [m P2]. specialize (P1 (n + m) ltac:(lia)). specialize (P2 (n + m) ltac:(lia)). congruence.
Qed.
Print Assumptions C61_arguments_after_grep.

(** Without arguments, the second command writes the value restricted to the
    leaves of the lines. *)
Theorem C61_any_lines_of_jpv :
  forall float_text csv_records matches find grow tty tty' epipe epipe' (c c' : command) (rd : reader) (vs : list jval) (v : jval),
    let quote := cm_quote c in
    plain_jpv tty c -> cm_file c = [] -> without_depth (cm_args c) -> json_input c rd vs ->
    applied float_text matches (cm_strict c) (cm_args c) vs [v] ->
    representable all_differ quote v ->
    In (cm_in c') [text "jpv"; text "path"] -> plain_json tty' c' -> cm_file c' = [] -> cm_args c' = [] ->
    exists lines : list bytes,
      Forall2 line_text (leaves quote v) lines /\
      (forall oc, jp float_text csv_records find grow tty epipe None c rd oc <->
         oc = mkOutcome (flat_map (fun l => l ++ [10%N]) lines ++ [10%N]) 0) /\
      forall (mask : list bool) (w : bytes) (rd' : reader),
        length mask = length lines -> ws w ->
        delivers rd' (flat_map (fun l => l ++ [10%N]) (select mask lines) ++ w) ->
        exists t', stext true ws_separated (left_over (restrict quote (marked quote v mask) v)) t' /\
          forall oc, jp float_text csv_records find grow tty' epipe' None c' rd' oc <-> oc = mkOutcome t' 0.
Proof.
  intros ft csv matches find grow tty tty' epipe epipe' c c' rd vs v quote PV FI WD JI AP RP IN' PJ FI' AR'.
  assert (WD' : without_depth (cm_args c')) by (rewrite AR'; constructor).
  destruct (C61_arguments_after_grep ft csv matches find grow tty tty' epipe epipe' c c' rd vs v PV FI WD JI AP RP IN' PJ FI' WD') as (lines & FL & EN & H).
  exists lines. split; [exact FL|]. split; [exact EN|]. intros mask w rd' LM W DL.
  assert (SV : Forall settled [v]).
  { eapply (applied_keeps settled settled_closed settled_array); eauto. destruct JI as [_ (t & _ & T)]. eapply stext_settled; eauto. }
  inversion SV; subst. specialize (H mask w rd' (map (jpv_canon quote) (left_over (restrict quote (marked quote v mask) v))) LM W DL).
  rewrite AR' in H. specialize (H (ad_nil _ _ _ _)). destruct H as (t' & ST & J). exists t'. split; [|exact J].
  replace (left_over _) with (map canon (map (jpv_canon quote) (left_over (restrict quote (marked quote v mask) v)))); [exact ST|].
  destruct (restrict quote (marked quote v mask) v) eqn:R; [|reflexivity]. cbn [left_over map]. rewrite canon_jpv. f_equal.
  exact (proj2 (settled_restrict _ _ _ _ ltac:(eassumption) R)).
Qed.
Print Assumptions C61_any_lines_of_jpv.

(** [jp -out jpv] on [{"a":[1,2]}] writes two lines; the second one alone, read by
    [jp -in jpv -out json], is [{"a":[2]}]. *)
Lemma decodes_jpv_vm : forall n r size ts x, JpvDecModel.decode_jpv n r size = Ok (ts, x) -> P_Jpv.decodes_jpv r size ts x.
Proof.
  intros n r size ts x H. exists n. intros g G. unfold JpvDecModel.decode_jpv in *.
  rewrite (ple_run_any _ _ _ _ _ (jproduce_mono n g [] G)); [exact H|]. intro E. rewrite E in H. discriminate.
Qed.
Local Notation num := P_Path.num.
Definition ex61 : command := mkCommand (text "never") (text "json") [] (text "jpv") 2 false 60 false false [] [].
Definition ex61' : command := mkCommand (text "never") (text "jpv") [] (text "json") 2 true 60 false false [] [].
Definition ex61_value : jval := JObj [(key_scalar [97%N], JArr [num 1; num 2] false)] false.
Definition ex61_text : bytes := [123; 34; 97; 34; 58; 91; 49; 44; 50; 93; 125]%N.
Example C61_example : forall float_text csv_records matches find grow,
  plain_jpv false ex61 /\ json_input ex61 (stdin ex61_text) [ex61_value] /\
  applied float_text matches false [] [ex61_value] [ex61_value] /\ representable all_differ false ex61_value /\
  plain_json false ex61' /\
  jp float_text csv_records find grow false false None ex61 (stdin ex61_text) (mkOutcome (text "$.a[0] = 1" ++ [10%N] ++ text "$.a[1] = 2" ++ [10; 10]%N) 0) /\
  restrict false (marked false ex61_value [false; true]) ex61_value = Some (JObj [(key_scalar [97%N], JArr [num 2] false)] false) /\
  jp float_text csv_records find grow false false None ex61' (stdin (text "$.a[1] = 2" ++ [10; 10]%N))
    (mkOutcome [123; 34; 97; 34; 58; 32; 91; 50; 93; 125; 10]%N 0).
Proof.
  intros ft csv matches find grow. split; [|split; [|split; [|split; [|split; [|split; [|split]]]]]].
  - split; [cbn; auto|]. split; [left; reflexivity|]. split; [reflexivity|cbn; lia].
  - split; [apply format_ok; eexists; vm_compute; reflexivity|]. exists ex61_text. split; [repeat split|].
    assert (W : ws []) by constructor.
    change ex61_text with ([] ++ (123 :: ([] ++ (34 :: [97] ++ [34]) ++ [] ++ 58 :: [] ++ (91 :: ([] ++ [49] ++ [] ++ 44 :: ([] ++ [50] ++ [])) ++ [93]) ++ []) ++ [125]) ++ [])%N.
    constructor; [exact W| |now left|constructor; exact W]. apply vt_obj.
    apply me_one; try exact W; [apply ch_plain; [unfold plain_byte; lia|constructor]|]. apply vt_arr.
    apply (el_cons true [] (num 1) [49%N] [] _ _ W (ex53_digit 1 ltac:(lia)) W). apply (el_one true [] (num 2) [50%N] [] W (ex53_digit 2 ltac:(lia)) W).
  - constructor.
  - constructor; [|repeat constructor]. constructor; [|constructor]. cbn [fst snd]. split; [reflexivity|]. split; [exists [97%N]; split; [reflexivity|apply ch_plain; [unfold plain_byte; lia|constructor]]|].
    split; [reflexivity|]. constructor; [|reflexivity].
    assert (D : forall n, (1 <= n <= 4)%N -> representable all_differ false (num n)).
    { intros n H. constructor. cbn [num new_scalar sc_type sc_bytes]. pose proof (ex53_digit n H) as V. inversion V; subst; assumption. }
    constructor; [apply D; lia|]. constructor; [apply D; lia|constructor].
  - split; [reflexivity|now left].
  - unfold jp. destruct (prepare ft false ex61 (stdin ex61_text)) as [p|] eqn:P; [|discriminate]. vm_compute in P. injection P as <-.
    exists (stream [ex61_value]), (stream [ex61_value]). split; [exists (ProgModel.DOk tt); apply (decodes_vm _ _ 60); vm_compute; reflexivity|]. split; [constructor|]. apply leaves_vm. vm_compute. reflexivity.
  - reflexivity.
  - unfold jp. destruct (prepare ft false ex61' (stdin (text "$.a[1] = 2" ++ [10; 10]%N))) as [p|] eqn:P; [|discriminate]. vm_compute in P. injection P as <-.
    set (ts := stream [jpv_canon false (JObj [(key_scalar [97%N], JArr [num 2] false)] false)]).
    exists ts, ts. split; [exists (ProgModel.DOk tt); apply (decodes_jpv_vm 60); vm_compute; reflexivity|]. split; [constructor|]. apply leaves_vm. vm_compute. reflexivity.
Qed.

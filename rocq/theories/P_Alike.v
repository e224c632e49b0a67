(** C79: what jp writes does not depend on the format in which the values came. *)
From Coq Require Import String List Arith ZArith NArith Bool Lia.
From Verif Require Import Base Tokens ScannerModel ScannerSpec JsonSpec EncSpec ScalarSpec GoLiteral P_Scalar EqualSpec P_Equal JsonDecModel P_JsonDec P_JsonEnc JpvSpec P_Jpv
  MainModel P_Main FormatModel PathAst PathSpec PathTame PathTop P_Path P_JpQuery LayoutSpec P_Layout CliModel CliSpec P_Cli P_Chain P_JpGrep P_Edit CsvSpec AlikeSpec AlikeProofs P_Split P_Transform P_TableJpv.
Import ListNotations.

(** A string that is said to have no escapes has none. *)
Definition honest_scalar (s : scalar) : Prop := sc_unesc s = true -> ~ In 92%N (sc_bytes s).
Inductive honest : jval -> Prop :=
| ho_scalar : forall s, honest_scalar s -> honest (JScalar s)
| ho_array : forall l e, Forall honest l -> honest (JArr l e)
| ho_object : forall l e, Forall (fun m => honest_scalar (fst m) /\ honest (snd m)) l -> honest (JObj l e).
Lemma honest_children : forall x, honest x -> Forall honest (children x).
Proof. intros x H. inversion H as [|? ? F|? ? F]; subst; cbn [children]; [constructor|exact F|]. apply Forall_map. eapply Forall_impl; [|exact F]. now intros m [_ X]. Qed.
Lemma honest_text : forall c ty k a, honest_scalar (mkScalar (34%N :: c ++ [34%N]) ty k a (negb (has_escape c))).
Proof.
  intros c ty k a U I. cbn in *. destruct I as [I|I]; [discriminate|]. apply in_app_iff in I as [I|[I|[]]]; [|discriminate].
  assert (E : has_escape c = true) by (unfold has_escape; apply existsb_exists; exists 92%N; auto). rewrite E in U. discriminate.
Qed.
Lemma honest_canon : forall x, honest (canon x).
Proof.
  apply jval_induction.
  - intros s. cbn [canon]. constructor. unfold canon_scalar. destruct (sc_type s); try (intro U; discriminate U). apply honest_text.
  - intros l e F. cbn [canon]. constructor. now apply Forall_map.
  - intros l e F. cbn [canon]. constructor. apply Forall_map. eapply Forall_impl; [|exact F]. intros m H. split; [apply honest_text|exact H].
Qed.
Lemma decent_alike : forall s t, alike_scalar s t -> honest_scalar t -> decent s -> decent t.
Proof.
  intros s t [A B] H [R N]. split; [|rewrite <- A, <- B; exact N]. unfold readable in *. rewrite <- A, <- B. destruct (sc_type s); try exact R.
  destruct R as (c & u & E & D & _). exists c, u. split; [exact E|]. split; [exact D|]. intros U I. apply (H U). rewrite <- B, E. right. apply in_app_iff. now left.
Qed.
Lemma comparable_alike : forall x y, alike x y -> honest y -> comparable x -> comparable y.
Proof.
  intro x. pattern x. apply jval_induction; clear x.
  - intros s y A H C. inversion A; subst. inversion H; subst. inversion C; subst. constructor. eapply decent_alike; eauto.
  - intros l e F y A H C. inversion A as [|? l' ? G|]; subst. inversion H as [|? ? HL|]; subst. inversion C as [|? ? CI|]; subst. constructor. clear A H C.
    induction G; inversion F; inversion HL; inversion CI; subst; constructor; auto.
  - intros l e F y A H C. inversion A as [| |? l' ? G]; subst. inversion H as [| |? ? HL]; subst. inversion C as [| |? ? CM D]; subst. clear A H C. constructor.
    + clear D. induction G as [|[k v] [k' v'] l l' [A1 A2] G IH]; [constructor|]. inversion F as [|? ? F1 F2]; subst. inversion HL as [|? ? [HK HV] HR]; subst. inversion CM as [|? ? ? C1 C2 C3]; subst. cbn [fst snd] in *.
      constructor; auto. eapply decent_alike; eauto.
    + clear F HL CM. unfold distinct in *. induction G as [|m m' l l' [A1 A2] G IH]; [constructor|]. inversion D as [|? ? D1 D2]; subst. constructor; [|auto].
      clear - G D1 A1. induction G as [|n n' l l' [B1 B2] G IH]; [constructor|]. inversion D1; subst. constructor; [|auto].
      intro S. apply H1. eapply same_scalar_alike; [apply alike_scalar_sym; exact A1|apply alike_scalar_sym; exact B1|exact S].
Qed.
Lemma toks_alike : forall x y, alike x y -> length (toks x) = length (toks y).
Proof.
  intro x. pattern x. apply jval_induction; clear x.
  - intros s y A. inversion A; subst. reflexivity.
  - intros l e F y A. inversion A as [|? l' ? G|]; subst. cbn [toks length]. rewrite !app_length. do 2 f_equal. clear A.
    induction G; inversion F; subst; cbn [flat_map]; [reflexivity|]. rewrite !app_length. f_equal; auto.
  - intros l e F y A. inversion A as [| |? l' ? G]; subst. cbn [toks length]. rewrite !app_length. do 2 f_equal. clear A.
    induction G as [|m m' l l' [_ B] G IH]; inversion F; subst; cbn [flat_map]; [reflexivity|]. cbn [app length]. rewrite !app_length. do 2 f_equal; auto.
Qed.
Lemma stream_alike : forall l l', Forall2 alike l l' -> length (stream l) = length (stream l').
Proof. intros l l' H. unfold stream. induction H; cbn [flat_map]; [reflexivity|]. rewrite !app_length. f_equal; [now apply toks_alike|assumption]. Qed.
Lemma string_keys_alike : forall x y, alike x y -> string_keys x -> string_keys y.
Proof.
  intros x y A S l e m I M. pose proof (alike_descendants _ _ A) as D.
  assert (E : exists l0, In (JObj l0 e) (descendants x) /\ Forall2 (fun m m' => alike_scalar (fst m) (fst m') /\ alike (snd m) (snd m')) l0 l).
  { clear - D I. induction D as [|u v us vs H D IH]; [destruct I|]. destruct I as [->|I].
    - inversion H as [| |l0 ? ? G]; subst. exists l0. split; [now left|exact G].
    - destruct (IH I) as (l0 & J & G). exists l0. split; [now right|exact G]. }
  destruct E as (l0 & J & G). specialize (fun m => S _ _ m J). clear - S G M. induction G as [|n n' l l' [[A _] _] G IH]; [destruct M|].
  destruct M as [->|M]; [rewrite <- A; apply S; now left|apply IH; auto]. intros k K. apply S. now right.
Qed.
Lemma clean_alike : forall x y, alike x y -> honest y -> clean x -> clean y.
Proof.
  intros x y A H (C & S & L). split; [eapply comparable_alike; eauto|]. split; [eapply string_keys_alike; eauto|]. now rewrite <- (toks_alike _ _ A).
Qed.

Lemma truncate_alike : forall x y, alike x y -> forall n, alike (truncate n x) (truncate n y).
Proof.
  intro x. pattern x. apply jval_induction; clear x.
  - intros s y A n. inversion A; subst. exact A.
  - intros l e F y A n. inversion A as [|? l' ? G|]; subst. cbn [truncate]. destruct n as [|n]; constructor; [constructor|]. clear A.
    induction G; inversion F; subst; constructor; auto.
  - intros l e F y A n. inversion A as [| |? l' ? G]; subst. cbn [truncate]. destruct n as [|n]; constructor; [constructor|]. clear A.
    induction G as [|m m' l l' [B C] G IH]; cbn [map]; constructor; inversion F as [|? ? F1 F2]; subst; [|auto]. cbn [fst snd]. split; [exact B|exact (F1 _ C n)].
Qed.
Lemma truncate_honest : forall x, honest x -> forall n, honest (truncate n x).
Proof.
  intro x. pattern x. apply jval_induction; clear x.
  - intros s H n. exact H.
  - intros l e F H n. inversion H as [|? ? G|]; subst. cbn [truncate]. destruct n as [|n]; constructor; [constructor|]. apply Forall_map. rewrite Forall_forall in *. auto.
  - intros l e F H n. inversion H as [| |? ? G]; subst. cbn [truncate]. destruct n as [|n]; constructor; [constructor|]. apply Forall_map. rewrite Forall_forall in *. intros m M. destruct (G m M). split; [assumption|]. exact (F m M H1 n).
Qed.

(** Arguments make values that are alike of values that are alike. *)
Lemma applies_alike : forall ft matches strict a vs mid, applies ft matches strict a vs mid ->
  forall vs', Forall2 alike vs vs' -> Forall honest vs' -> exists mid', applies ft matches strict a vs' mid' /\ Forall2 alike mid mid' /\ Forall honest mid'.
Proof.
  intros ft matches strict a vs mid H vs' A HO.
  assert (K : forall mid', applies ft matches strict a vs' mid' -> (forall t, a <> text "depth=" ++ t) -> Forall honest mid')
    by (intros mid' A' D; exact (applies_keeps honest honest_children (fun l H => ho_array l false H) _ _ _ _ _ _ A' D HO)).
  destruct H as [vs|vs|vs|t n vs X|t z vs X N|r segs vs outs q Q T O C N].
  - exists (flat_map spread vs'). split; [constructor|]. split; [|apply K; [constructor|discriminate]].
    eapply flat_alike; [exact A|]. intros x y _ AX. destruct AX as [s t E|l l' e G|l l' e G]; cbn [spread]; [constructor; [now constructor|constructor]|exact G|constructor; [now constructor|constructor]].
  - exists [JArr vs' false]. split; [constructor|]. split; [|apply K; [constructor|discriminate]]. constructor; [now constructor|constructor].
  - exists []. repeat split; constructor.
  - exists (map (truncate n) vs'). split; [now constructor|]. clear K. split.
    + induction A; inversion HO; subst; constructor; auto. now apply truncate_alike.
    + apply Forall_map. eapply Forall_impl; [|exact HO]. intros x H. now apply truncate_honest.
  - exists []. split; [eapply ap_negative_depth; eauto|]. split; constructor.
  - destruct (collect_alike _ _ (fun x x' l AX => nodes_alike matches strict q x x' l AX) _ _ N _ A) as (outs' & N' & AO).
    assert (AP : applies ft matches strict (text "$" ++ r) vs' (concat outs')).
    { eapply ap_query; eauto. clear - A C HO. induction A; inversion C; inversion HO; subst; constructor; auto. eapply clean_alike; eauto. }
    exists (concat outs'). split; [exact AP|]. split; [now apply concat_alike|]. apply K; [exact AP|discriminate].
Qed.
Lemma applied_alike : forall ft matches strict args vs ws, applied ft matches strict args vs ws ->
  forall vs', Forall2 alike vs vs' -> Forall honest vs' -> exists ws', applied ft matches strict args vs' ws' /\ Forall2 alike ws ws'.
Proof.
  intros ft matches strict args vs ws H. induction H as [vs|a args vs mid ws L A _ IH]; intros vs' AV HO; [exists vs'; split; [constructor|exact AV]|].
  destruct (applies_alike _ _ _ _ _ _ A _ AV HO) as (mid' & A' & AM & HM). destruct (IH mid' AM HM) as (ws' & AP & AW).
  exists ws'. split; [|exact AW]. econstructor; [|exact A'|exact AP]. now rewrite <- (stream_alike _ _ AV).
Qed.

(** Without colours they are laid out in the same way. *)
Lemma width_alike : forall x y, alike x y -> scalar_width x = scalar_width y.
Proof. intros x y A. inversion A as [s t [_ E]| |]; subst; cbn; [now rewrite E|reflexivity|reflexivity]. Qed.
Lemma layout_alike : forall width most indent x y, alike x y -> forall d, layout sc_bytes width most indent d x = layout sc_bytes width most indent d y.
Proof.
  intros width most indent x. pattern x. apply jval_induction; clear x.
  - intros s y A d. inversion A as [? t [_ E]| |]; subst. exact E.
  - intros l e F y A d. inversion A as [|? l' ? G|]; subst. cbn [layout]. clear A.
    assert (W : map scalar_width l = map scalar_width l') by (clear F; induction G; cbn [map]; [reflexivity|f_equal; [now apply width_alike|assumption]]).
    assert (M : forall d, map (layout sc_bytes width most indent d) l = map (layout sc_bytes width most indent d) l') by (clear W; intro d0; induction G; inversion F; subst; cbn [map]; [reflexivity|f_equal; auto]).
    assert (P : map (fun x => (scalar_width x, layout sc_bytes width most indent (d + 1) x)) l = map (fun x => (scalar_width x, layout sc_bytes width most indent (d + 1) x)) l').
    { clear W M. induction G; inversion F; subst; cbn [map]; [reflexivity|]. f_equal; [f_equal; [now apply width_alike|auto]|auto]. }
    assert (I : array_inline width l = array_inline width l') by (unfold array_inline; rewrite W; destruct G; reflexivity).
    rewrite I, M, P. reflexivity.
  - intros l e F y A d. inversion A as [| |? l' ? G]; subst. cbn [layout]. clear A.
    assert (W : map member_width l = map member_width l').
    { clear F. induction G as [|m m' l l' [[_ E] B] G IH]; cbn [map]; [reflexivity|]. f_equal; [|exact IH]. unfold member_width. now rewrite (width_alike _ _ B), E. }
    assert (M : forall d, map (fun m => sc_bytes (fst m) ++ colon_space ++ layout sc_bytes width most indent d (snd m)) l =
                          map (fun m => sc_bytes (fst m) ++ colon_space ++ layout sc_bytes width most indent d (snd m)) l').
    { clear W. intro d0. induction G as [|m m' l l' [[_ E] B] G IH]; inversion F; subst; cbn [map]; [reflexivity|]. rewrite E. f_equal; [do 2 f_equal; auto|auto]. }
    assert (I : object_inline width most l = object_inline width most l') by (unfold object_inline; rewrite W, (forall2_length _ _ _ _ _ G); destruct G; reflexivity).
    rewrite I, !M. reflexivity.
Qed.
Lemma prints_alike : forall o ws ws' out ok out' ok', jo_jpv o = false -> jo_color o = None -> Forall2 alike ws ws' ->
  prints o (stream ws) out ok -> prints o (stream ws') out' ok' -> out = out'.
Proof.
  intros o ws ws' out ok out' ok' J C A P P'.
  assert (K : forall us out ok, prints o (stream us) out ok -> out = flat_map (fun v => layout sc_bytes (jo_width o) 2 (jo_indent o) 0 v ++ [10%N]) us).
  { clear - J C. intros us out ok PR. pose proof (C65_layout (mkSettings (jo_color o) (jo_width o) 2 (jo_indent o) (jo_tty o)) us) as EN.
    apply (prints_encodes _ _ _ J) in EN. unfold laid_out in EN. cbn [se_color se_width se_items se_indent] in EN.
    destruct PR as [n P1], EN as [m P2]. specialize (P1 (n + m) ltac:(lia)). specialize (P2 (n + m) ltac:(lia)). rewrite J, C in *. rewrite P2 in P1.
    injection P1 as <- _. reflexivity. }
  rewrite (K _ _ _ P), (K _ _ _ P'). clear - A. induction A; cbn [flat_map]; [reflexivity|]. now rewrite (layout_alike _ _ _ _ _ H), IHA.
Qed.

(** Where the values of a CSV text come from (the first part of the proof of C60 for CSV). *)
Lemma csv_source : forall csv_records c rd, let records := fst (csv_records (input rd) (rd_fin rd)) in
  csv_format c rd ->
  exists name rd' src vs, format_and_input c rd = Some (name, rd') /\ source_of (cm_csv_header c) name = Some src /\
    (forall ts, source_sends csv_records src rd' ts <-> ts = stream vs) /\ csv_input records c rd vs /\
    (Forall printable (cm_csv_header c) -> Forall (Forall (Forall printable)) records -> Forall (EncSpec.valid true) vs).
Proof.
  intros csv c rd records (name & IF & IN & HD). pose proof IF as IF0. apply format_ok in IF as [rd' IF].
  destruct (input_kept _ _ _ _ IF) as (I' & F' & _).
  assert (RE : csv_read csv rd' = csv (input rd) (rd_fin rd)) by (unfold csv_read; rewrite <- I', <- F'; reflexivity).
  assert (S : exists objects header named, source_of (cm_csv_header c) name = Some (SrcCsv objects header named) /\
    (Forall printable (cm_csv_header c) -> Forall (Forall printable) named) /\
    forall vs, Forall2 (record_value objects (named ++ if header then hd [] records else [])) (if header then tl records else records) vs ->
      csv_input records c rd vs).
  { unfold source_of. destruct (cm_csv_header c) as [|h0 h] eqn:CH.
    - cbn [CliModel.empty negb andb]. cbn [In] in IN. destruct IN as [<-|[<-|[<-|[<-|[]]]]]; cbn; eexists _, _, _; (split; [reflexivity|]); (split; [constructor|]); intros vs F; cbn [app] in F.
      + left. auto.
      + right. right. exists (text "csv-with-header"). split; [exact IF0|]. split; [|exact F]. left. cbn; auto.
      + right. right. exists (text "csvh"). split; [exact IF0|]. split; [|exact F]. left. cbn; auto.
      + right. right. exists (text "csv-header"). split; [exact IF0|]. split; [|exact F]. now right.
    - destruct (HD ltac:(discriminate)) as [A B]. cbn [CliModel.empty negb andb]. cbn [In] in IN. destruct IN as [<-|[X|[X|[<-|[]]]]]; try congruence; cbn - [split_commas]; eexists _, _, _; (split; [reflexivity|]).
      + split.
        * intro P. apply Forall_forall. intros f J. apply Forall_forall. intros b K. rewrite Forall_forall in P. apply P. eapply split_bytes_in; eauto.
        * intros vs F. rewrite app_nil_r in F. right. left. split; [exact IF0|]. exists (split_commas (h0 :: h)). rewrite CH. split; [discriminate|]. split; [apply split_lists|exact F].
      + split; [constructor|]. intros vs F. right. right. exists (text "csv-header"). split; [exact IF0|]. split; [|exact F]. now right. }
  destruct S as (objects & header & named & SO & PN & CI). destruct (csv_sends csv objects header named rd') as (vs & FV & SE & VA). rewrite RE in *. fold records in FV, VA.
  exists name, rd', (SrcCsv objects header named), vs. split; [exact IF|]. split; [exact SO|]. split; [exact SE|]. split; [now apply CI|].
  intros PH PR. apply VA. specialize (PN PH). intros r f b [<-|I1] I2 I3.
  - rewrite Forall_forall in PN. specialize (PN f I2). rewrite Forall_forall in PN. now apply PN.
  - rewrite Forall_forall in PR. specialize (PR r I1). rewrite Forall_forall in PR. specialize (PR f I2). rewrite Forall_forall in PR. now apply PR.
Qed.

(** A command with other input options, otherwise the same. *)
Definition reading (c : command) (format header : bytes) : command :=
  mkCommand (cm_color c) format header (cm_out c) (cm_indent c) (cm_compact c) (cm_width c) (cm_quote c) (cm_strict c) (cm_file c) (cm_args c).

Lemma json_honest : forall c rd vs, json_input c rd vs -> Forall honest vs.
Proof.
  intros c rd vs [_ (t & _ & T)]. apply stext_settled in T. eapply Forall_impl; [|exact T]. intros x [_ E]. rewrite <- E. apply honest_canon.
Qed.
Lemma same_output : forall ft csv matches find grow tty epipe c rd rd2 format header name rd' src vs vs' ws,
  plain_json tty c -> cm_file c = [] ->
  format_and_input c rd = Some (name, rd') -> source_of (cm_csv_header c) name = Some src -> (forall ts, source_sends csv src rd' ts <-> ts = stream vs) ->
  json_input (reading c format header) rd2 vs' -> Forall2 alike vs vs' -> applied ft matches (cm_strict c) (cm_args c) vs ws ->
  forall oc, jp ft csv find grow tty epipe None c rd oc <-> jp ft csv find grow tty epipe None (reading c format header) rd2 oc.
Proof.
  intros ft csv matches find grow tty epipe c rd rd2 format header name rd' src vs vs' ws PJ FI IF SO SE JI AL AP oc.
  destruct (plain_options tty c PJ) as ([J NC] & CO & OU).
  destruct (pipeline ft csv matches find grow tty epipe c rd name rd' src vs ws CO FI OU IF SO SE AP) as (out & ok & PR & H).
  destruct (applied_alike _ _ _ _ _ _ AP _ AL (json_honest _ _ _ JI)) as (ws' & AP' & AW).
  destruct (C60_arguments_in_order ft csv matches find grow tty epipe (reading c format header) rd2 vs' ws' CO FI OU JI AP') as (out' & ok' & PR' & H').
  change (output_options tty (reading c format header)) with (output_options tty c) in PR'.
  rewrite H, H', (prints_alike _ _ _ _ _ _ _ J NC AW PR PR'). reflexivity.
Qed.

(** The same values as CSV and as JSON, with the same arguments and output options. *)
Theorem C79_csv_or_json :
  forall float_text csv_records matches find grow tty epipe (c : command) (rd : reader),
    let records := fst (csv_records (input rd) (rd_fin rd)) in
    plain_json tty c -> cm_file c = [] -> csv_format c rd ->
    exists vs, csv_input records c rd vs /\
      forall format header rd' vs' ws,
        json_input (reading c format header) rd' vs' -> Forall2 alike vs vs' ->
        applied float_text matches (cm_strict c) (cm_args c) vs ws ->
        forall oc, jp float_text csv_records find grow tty epipe None c rd oc <->
                   jp float_text csv_records find grow tty epipe None (reading c format header) rd' oc.
Proof.
  intros ft csv matches find grow tty epipe c rd records PJ FI CF. destruct (csv_source csv c rd CF) as (name & rd' & src & vs & IF & SO & SE & CI & _).
  exists vs. split; [exact CI|]. intros format header rd2 vs' ws JI AL AP. exact (same_output ft csv matches find grow tty epipe c rd rd2 format header name rd' src vs vs' ws PJ FI IF SO SE JI AL AP).
Qed.
Print Assumptions C79_csv_or_json.

Lemma jpv_source : forall csv_records c rd quote v lines mask w,
  representable all_differ quote v -> Forall2 line_text (leaves quote v) lines -> In (cm_in c) [text "jpv"; text "path"] ->
  length mask = length lines -> ws w -> delivers rd (flat_map (fun l => l ++ [10%N]) (select mask lines) ++ w) ->
  format_and_input c rd = Some (cm_in c, rd) /\ source_of (cm_csv_header c) (cm_in c) = Some SrcJpv /\
  forall ts, source_sends csv_records SrcJpv rd ts <-> ts = stream (map (jpv_canon quote) (left_over (restrict quote (marked quote v mask) v))).
Proof.
  intros csv c rd quote v lines0 mask w RP FL0 IN LM W (I' & K' & F').
  destruct (C18_any_subset_of_lines quote 0 false v RP ltac:(lia)) as (lines & FL & _ & H). rewrite (lines_unique _ _ _ FL0 FL) in *. clear lines0 FL0.
  specialize (H mask w rd jp_scanner LM W ltac:(unfold jp_scanner; lia) K' F' I').
  set (vs' := map (jpv_canon quote) (left_over (restrict quote (marked quote v mask) v))) in *.
  assert (D : P_Jpv.decodes_jpv rd jp_scanner (stream vs') (ProgModel.DOk tt)).
  { unfold vs'. destruct (restrict quote (marked quote v mask) v); cbn [map left_over]; [|exact H]. unfold stream. cbn [flat_map]. now rewrite app_nil_r. }
  assert (NA : cm_in c <> text "auto") by (destruct IN as [<-|[<-|[]]]; discriminate).
  split; [|split].
  - unfold format_and_input. destruct (bytes_eqb (cm_in c) (text "auto")) eqn:E; [apply bytes_eqb_eq in E; contradiction|reflexivity].
  - unfold source_of. destruct IN as [<-|[<-|[]]]; cbn; now rewrite andb_false_r.
  - intros ts. cbn [source_sends]. split; [intros [x D']; exact (proj1 (decodes_jpv_unique _ _ _ _ _ _ D' D))|intros ->; eauto].
Qed.

(** The same value as lines of JPV (any choice of them, names quoted or not) and as JSON. *)
Theorem C79_jpv_or_json :
  forall float_text csv_records matches find grow tty epipe (c : command) (rd rd' : reader) format header quote v lines mask w vs' ws,
    plain_json tty c -> cm_file c = [] -> In (cm_in c) [text "jpv"; text "path"] ->
    representable all_differ quote v -> Forall2 line_text (leaves quote v) lines ->
    length mask = length lines -> JsonSpec.ws w -> delivers rd (flat_map (fun l => l ++ [10%N]) (select mask lines) ++ w) ->
    let vs := map (jpv_canon quote) (left_over (restrict quote (marked quote v mask) v)) in
    json_input (reading c format header) rd' vs' -> Forall2 alike vs vs' ->
    applied float_text matches (cm_strict c) (cm_args c) vs ws ->
    forall oc, jp float_text csv_records find grow tty epipe None c rd oc <->
               jp float_text csv_records find grow tty epipe None (reading c format header) rd' oc.
Proof.
  intros ft csv matches find grow tty epipe c rd rd2 format header quote v lines mask w vs' wsx PJ FI IN RP FL LM W D vs JI AL AP.
  destruct (jpv_source csv c rd quote v lines mask w RP FL IN LM W D) as (IF & SO & SE).
  exact (same_output ft csv matches find grow tty epipe c rd rd2 format header (cm_in c) rd SrcJpv vs vs' wsx PJ FI IF SO SE JI AL AP).
Qed.
Print Assumptions C79_jpv_or_json.

(* ------------------------------------------------------------------ *)
(** C63 for first commands that read CSV, or JPV with names that are not quoted,
    when the arguments of both commands are of the class of C60 and both write JSON. *)
Lemma applied_app : forall ft matches strict a b vs mid ws, applied ft matches strict a vs mid -> applied ft matches strict b mid ws -> applied ft matches strict (a ++ b) vs ws.
Proof. intros ft matches strict a b vs mid ws H. induction H; intro K; cbn [app]; [exact K|]. econstructor; eauto. Qed.
Definition plain_flags (x : jval) : Prop := alike x (canon x).
Lemma plain_children : forall x, plain_flags x -> Forall plain_flags (children x).
Proof.
  unfold plain_flags. intros x A. destruct x as [s|l e|l e]; cbn [canon children] in *; [constructor| |]; inversion A as [|? ? ? G|? ? ? G]; subst; clear A.
  - induction l as [|x l IH]; constructor; inversion G; subst; auto.
  - induction l as [|x l IH]; constructor; inversion G as [|? ? ? ? [_ B] G']; subst; auto.
Qed.
Lemma plain_array : forall l, Forall plain_flags l -> plain_flags (JArr l false).
Proof. unfold plain_flags. intros l F. cbn [canon]. constructor. induction F; constructor; auto. Qed.
Lemma chain_alike : forall ft csv matches find grow tty1 epipe1 tty epipe c1 c2 rd rd2 name rd' src vs wsx ws2 t',
  plain_json tty1 c1 -> cm_file c1 = [] -> without_depth (cm_args c1) ->
  format_and_input c1 rd = Some (name, rd') -> source_of (cm_csv_header c1) name = Some src -> (forall ts, source_sends csv src rd' ts <-> ts = stream vs) ->
  Forall (EncSpec.valid true) vs -> Forall plain_flags vs -> applied ft matches (cm_strict c1) (cm_args c1) vs wsx ->
  jp ft csv find grow tty1 epipe1 None c1 rd (mkOutcome t' 0%Z) ->
  delivers rd2 t' -> input_format c2 rd2 (text "json") -> cm_strict c2 = cm_strict c1 ->
  plain_json tty c2 -> cm_file c2 = [] -> applied ft matches (cm_strict c2) (cm_args c2) wsx ws2 ->
  forall oc, jp ft csv find grow tty epipe None c2 rd2 oc <-> jp ft csv find grow tty epipe None (chained c1 c2) rd oc.
Proof.
  intros ft csv matches find grow tty1 epipe1 tty epipe c1 c2 rd rd2 name rd' src vs wsx ws2 t' PJ1 FI1 WD1 IF SO SE VA PF AP1 J1 D2 IF2 ST PJ2 FI2 AP2 oc.
  destruct (plain_options tty1 c1 PJ1) as ([JJ1 NC1] & CO1 & OU1). destruct (plain_options tty c2 PJ2) as ([JJ2 NC2] & CO2 & OU2).
  destruct (pipeline ft csv matches find grow tty1 epipe1 c1 rd name rd' src vs wsx CO1 FI1 OU1 IF SO SE AP1) as (out & ok & PR & H).
  apply H in J1. injection J1 as ->.
  assert (V : Forall (EncSpec.valid true) wsx) by exact (applied_keeps (EncSpec.valid true) valid_children (fun l H => va_arr true l H) _ _ _ _ _ _ AP1 WD1 VA).
  assert (P : Forall plain_flags wsx) by exact (applied_keeps plain_flags plain_children plain_array _ _ _ _ _ _ AP1 WD1 PF).
  destruct (C13_round_trip (mkSettings (jo_color (output_options tty1 c1)) (jo_width (output_options tty1 c1)) 2 (jo_indent (output_options tty1 c1)) (jo_tty (output_options tty1 c1))) true _ NC1 V) as [out' [EN [TX _]]].
  assert (E : out = out').
  { apply (prints_encodes _ _ _ JJ1) in EN. destruct PR as [n P1], EN as [m P2]. specialize (P1 (n + m) ltac:(lia)). specialize (P2 (n + m) ltac:(lia)). congruence. }
  subst out'.
  assert (JI : json_input c2 rd2 (map canon wsx)) by (split; [exact IF2|eauto]).
  assert (AL : Forall2 alike wsx (map canon wsx)) by (clear - P; induction P; constructor; auto).
  destruct (applied_alike _ _ _ _ _ _ AP2 _ AL (json_honest _ _ _ JI)) as (ws2' & AP2' & AW).
  destruct (C60_arguments_in_order ft csv matches find grow tty epipe c2 rd2 _ ws2' CO2 FI2 OU2 JI AP2') as (o2 & ok2 & PR2 & H2).
  assert (APC : applied ft matches (cm_strict (chained c1 c2)) (cm_args (chained c1 c2)) vs ws2).
  { cbn [chained cm_strict cm_args]. eapply applied_app; [rewrite ST; exact AP1|exact AP2]. }
  destruct (pipeline ft csv matches find grow tty epipe (chained c1 c2) rd name rd' src vs ws2 CO2 FI2 OU2 IF SO SE APC) as (o3 & ok3 & PR3 & H3).
  change (output_options tty (chained c1 c2)) with (output_options tty c2) in PR3.
  rewrite H2, H3, (prints_alike _ _ _ _ _ _ _ JJ2 NC2 AW PR3 PR2). reflexivity.
Qed.

Lemma plain_string : forall t s, string_of t s -> alike_scalar s (string_scalar (contents (sc_bytes s))) /\ alike_scalar s (key_scalar (contents (sc_bytes s))).
Proof. intros t s (T & B & _). rewrite B, contents_again. split; split; cbn; auto. Qed.
Lemma plain_field : forall f s, decoded_value f s -> plain_flags (JScalar s).
Proof.
  intros f s D. unfold plain_flags. cbn [canon]. constructor. destruct D as [D|(t & r & _ & _ & _ & _ & _ & ->)]; [|split; reflexivity].
  destruct D as [| | |f N|f s _ _ _ _ S]; try (split; reflexivity). destruct (plain_string _ _ S) as [P _]. unfold canon_scalar. destruct S as (T & _). rewrite T. exact P.
Qed.
Lemma plain_record : forall objects names r v, record_value objects names r v -> plain_flags v.
Proof.
  intros [] names r v H.
  - destruct H as (ms & -> & M). unfold plain_flags. cbn [canon]. constructor. induction M as [|i f r n k s ms NF SO DV M IH]; constructor; [|exact IH].
    cbn [fst snd]. split; [exact (proj2 (plain_string _ _ SO))|exact (plain_field _ _ DV)].
  - destruct H as (l & -> & F). apply plain_array. induction F as [|f x r l (s & -> & D) F IH]; constructor; [exact (plain_field _ _ D)|exact IH].
Qed.
Lemma plain_csv : forall records c rd vs, csv_input records c rd vs -> Forall plain_flags vs.
Proof.
  assert (K : forall objects names rs vs, Forall2 (record_value objects names) rs vs -> Forall plain_flags vs).
  { intros objects names rs vs F. induction F; constructor; [eapply plain_record; eauto|assumption]. }
  intros records c rd vs [(_ & _ & F)|[(_ & names & _ & _ & F)|(name & _ & _ & F)]]; eapply K; eauto.
Qed.

Theorem C63_csv_input :
  forall float_text csv_records matches find grow tty1 epipe1 tty epipe (c1 c2 : command) (rd rd2 : reader),
    let records := fst (csv_records (input rd) (rd_fin rd)) in
    plain_json tty1 c1 -> cm_file c1 = [] -> without_depth (cm_args c1) -> csv_format c1 rd ->
    Forall printable (cm_csv_header c1) -> Forall (Forall (Forall printable)) records ->
    exists vs, csv_input records c1 rd vs /\
      forall mid out t,
        applied float_text matches (cm_strict c1) (cm_args c1) vs mid ->
        jp float_text csv_records find grow tty1 epipe1 None c1 rd (mkOutcome t 0%Z) ->
        delivers rd2 t -> input_format c2 rd2 (text "json") -> cm_strict c2 = cm_strict c1 ->
        plain_json tty c2 -> cm_file c2 = [] ->
        applied float_text matches (cm_strict c2) (cm_args c2) mid out ->
        forall oc, jp float_text csv_records find grow tty epipe None c2 rd2 oc <->
                   jp float_text csv_records find grow tty epipe None (chained c1 c2) rd oc.
Proof.
  intros ft csv matches find grow tty1 epipe1 tty epipe c1 c2 rd rd2 records PJ FI WD CF PH PR.
  destruct (csv_source csv c1 rd CF) as (name & rd' & src & vs & IF & SO & SE & CI & VA). exists vs. split; [exact CI|].
  intros mid out t AP J D IF2 ST PJ2 FI2 AP2.
  exact (chain_alike ft csv matches find grow tty1 epipe1 tty epipe c1 c2 rd rd2 name rd' src vs mid out t PJ FI WD IF SO SE (VA PH PR) (plain_csv _ _ _ _ CI) AP J D IF2 ST PJ2 FI2 AP2).
Qed.
Print Assumptions C63_csv_input.

Lemma plain_jpv_value : forall quote v, EncSpec.valid true v -> plain_flags (jpv_canon quote v).
Proof.
  intros quote. apply (jval_induction (fun v => EncSpec.valid true v -> plain_flags (jpv_canon quote v))).
  - intros s V. inversion V as [? W| |]; subst. unfold plain_flags. cbn [jpv_canon canon]. rewrite canon_again. apply alike_refl.
  - intros l e IH V. inversion V as [|? W|]; subst. cbn [jpv_canon]. apply plain_array. apply Forall_map. rewrite Forall_forall in *. auto.
  - intros l e IH V. inversion V as [| |? W]; subst. cbn [jpv_canon]. unfold plain_flags. cbn [canon]. constructor. clear V. induction l as [|m l IHl]; cbn [map]; constructor.
    + inversion IH as [|? ? I1 I2]; subst. inversion W as [|? ? [K X] W']; subst. cbn [fst snd]. split; [|exact (I1 X)].
      unfold key_step. destruct (sc_alnum (fst m) && negb quote); cbn [step_key sc_bytes key_scalar]; rewrite contents_again; split; reflexivity.
    + inversion IH; subst. inversion W; subst. auto.
Qed.
Theorem C63_jpv_any_names :
  forall float_text csv_records matches find grow tty1 epipe1 tty epipe (c1 c2 : command) quote v lines mask w (rd rd2 : reader) mid out t,
    plain_json tty1 c1 -> cm_file c1 = [] -> without_depth (cm_args c1) -> In (cm_in c1) [text "jpv"; text "path"] ->
    representable all_differ quote v -> EncSpec.valid true v -> Forall2 line_text (leaves quote v) lines ->
    length mask = length lines -> JsonSpec.ws w -> delivers rd (flat_map (fun l => l ++ [10%N]) (select mask lines) ++ w) ->
    applied float_text matches (cm_strict c1) (cm_args c1) (map (jpv_canon quote) (left_over (restrict quote (marked quote v mask) v))) mid ->
    jp float_text csv_records find grow tty1 epipe1 None c1 rd (mkOutcome t 0%Z) ->
    delivers rd2 t -> input_format c2 rd2 (text "json") -> cm_strict c2 = cm_strict c1 ->
    plain_json tty c2 -> cm_file c2 = [] ->
    applied float_text matches (cm_strict c2) (cm_args c2) mid out ->
    forall oc, jp float_text csv_records find grow tty epipe None c2 rd2 oc <->
               jp float_text csv_records find grow tty epipe None (chained c1 c2) rd oc.
Proof.
  intros ft csv matches find grow tty1 epipe1 tty epipe c1 c2 quote v lines mask w rd rd2 mid out t PJ FI WD IN RP VA FL LM W D AP J D2 IF2 ST PJ2 FI2 AP2.
  destruct (jpv_source csv c1 rd quote v lines mask w RP FL IN LM W D) as (IF & SO & SE).
  refine (chain_alike ft csv matches find grow tty1 epipe1 tty epipe c1 c2 rd rd2 (cm_in c1) rd SrcJpv _ mid out t PJ FI WD IF SO SE _ _ AP J D2 IF2 ST PJ2 FI2 AP2);
    destruct (restrict quote (marked quote v mask) v) as [y|] eqn:RS; cbn [left_over map]; constructor; try constructor.
  - apply valid_jpv. exact (valid_restrict _ _ _ _ VA RS).
  - apply plain_jpv_value. exact (valid_restrict _ _ _ _ VA RS).
Qed.
Print Assumptions C63_jpv_any_names.

(** [jp -in csv -csv-header a join] on the text  1,  and [jp -in json join] on  {"a":1};
    [jp -in csv -csv-header a | jp join]. *)
Local Notation num := P_Path.num.
Definition ex79 (args : list bytes) : command := mkCommand (text "never") (text "csv") (text "a") (text "json") 2 true 60 false false [] args.
Definition ex79_records : list (list bytes) := [[text "1"]].
Definition ex79_csv : jval := JObj [(mkScalar [34; 97; 34]%N TStr false true true, num 1)] false.
Definition ex79_json : jval := JObj [(key_scalar [97%N], num 1)] false.
Definition ex79_text : bytes := [123; 34; 97; 34; 58; 49; 125]%N.
Example C79_example : forall float_text matches find grow,
  let csv_records := fun (_ : bytes) (_ : rerr) => (ex79_records, false) in
  (plain_json false (ex79 [text "join"]) /\ without_depth [text "join"] /\ csv_format (ex79 [text "join"]) (stdin (text "1"))) /\
  csv_input ex79_records (ex79 [text "join"]) (stdin (text "1")) [ex79_csv] /\
  json_input (reading (ex79 [text "join"]) (text "json") []) (stdin ex79_text) [ex79_json] /\ Forall2 alike [ex79_csv] [ex79_json] /\ ex79_csv <> ex79_json /\
  applied float_text matches false [text "join"] [ex79_csv] [JArr [ex79_csv] false] /\
  jp float_text csv_records find grow false false None (ex79 []) (stdin (text "1")) (mkOutcome (text "{""a"": 1}" ++ [10%N]) 0%Z) /\
  jp float_text csv_records find grow false false None (ex79 [text "join"]) (stdin (text "1")) (mkOutcome (text "[{""a"": 1}]" ++ [10%N]) 0%Z).
Proof.
  intros ft matches find grow csv. split; [|split; [|split; [|split; [|split; [|split; [|split]]]]]].
  - split; [split; [reflexivity|now left]|]. split; [repeat constructor; intro t; discriminate|].
    exists (text "csv"). split; [left; split; [discriminate|reflexivity]|]. split; [cbn; auto|]. intros _. split; discriminate.
  - right. left. split; [left; split; [discriminate|reflexivity]|]. exists [text "a"]. split; [discriminate|]. split.
    + exists (text "a"), []. split; [reflexivity|]. split; [reflexivity|]. constructor; [|constructor]. cbn. intros [X|[]]. discriminate X.
    + constructor; [|constructor]. exists [(mkScalar [34; 97; 34]%N TStr false true true, num 1)]. split; [reflexivity|].
      apply (mf_cons [text "a"] 0 (text "1") [] (text "a")); [reflexivity| | |constructor].
      * split; [reflexivity|]. split; [reflexivity|]. split; [reflexivity|]. split; [intros _; right; reflexivity|reflexivity].
      * left. apply (fv_number [49%N]). pose proof (ex53_digit 1 ltac:(lia)) as V. inversion V; subst; assumption.
  - split; [left; split; [discriminate|reflexivity]|]. exists ex79_text. split; [repeat split|].
    assert (W : JsonSpec.ws []) by constructor.
    change ex79_text with ([] ++ (123 :: ([] ++ (34 :: [97] ++ [34]) ++ [] ++ 58 :: [] ++ [49] ++ []) ++ [125]) ++ [])%N.
    constructor; [exact W| |now left|constructor; exact W]. apply vt_obj.
    apply me_one; try exact W; [apply ch_plain; [unfold plain_byte; lia|constructor]|]. exact (ex53_digit 1 ltac:(lia)).
  - constructor; [|constructor]. constructor. constructor; [|constructor]. cbn [fst snd]. split; [split; reflexivity|apply alike_refl].
  - discriminate.
  - econstructor; [reflexivity|constructor|constructor].
  - unfold jp. destruct (prepare ft false (ex79 []) (stdin (text "1"))) as [p|] eqn:P; [|discriminate]. vm_compute in P. injection P as <-.
    eexists _, _. split; [eexists; vm_compute; reflexivity|]. split; [constructor|]. apply leaves_vm. vm_compute. reflexivity.
  - unfold jp. destruct (prepare ft false (ex79 [text "join"]) (stdin (text "1"))) as [p|] eqn:P; [|discriminate]. vm_compute in P. injection P as <-.
    eexists _, _. split; [eexists; vm_compute; reflexivity|]. split; [econstructor; [reflexivity|constructor]|]. apply leaves_vm. vm_compute. reflexivity.
Qed.

(** C77: changing values in lines of JPV. *)
From Coq Require Import String List Arith ZArith NArith Bool Lia.
From Verif Require Import Base Tokens ScannerModel ScannerSpec JsonSpec ScalarSpec EncSpec JsonDecModel P_JsonDec P_JsonEnc JpvSpec P_Jpv P_JpvLayout
  MainModel P_Main PathSpec PathTame P_Path P_JpQuery CliModel CliSpec P_Cli P_JpGrep P_TableJpv EditSpec.
Import ListNotations.

(* ------------------------------------------------------------------ *)
(** A line has one text. *)
Lemma step_text_unique : forall s t t', step_text s t -> step_text s t' -> t = t'.
Proof.
  intros s t t' H H'. inversion H; subst; inversion H'; subst; try reflexivity. f_equal. f_equal. apply int_unique; congruence || assumption.
Qed.
Lemma path_text_unique : forall p t t', path_text p t -> path_text p t' -> t = t'.
Proof.
  induction p as [|s p IH]; intros t t' H H'; inversion H; inversion H'; subst; [reflexivity|]. f_equal; [eapply step_text_unique|]; eauto.
Qed.
Lemma line_text_unique : forall l t t', line_text l t -> line_text l t' -> t = t'.
Proof.
  intros [p v] t t' (a & x & A & X & ->) (b & y & B & Y & ->). cbn [fst snd] in *. rewrite (path_text_unique _ _ _ A B). f_equal. f_equal. f_equal.
  destruct v as [s|[|] e|[|] e]; cbn [leaf_text] in X, Y; try contradiction; congruence.
Qed.
Lemma lines_unique : forall ls ts ts', Forall2 line_text ls ts -> Forall2 line_text ls ts' -> ts = ts'.
Proof.
  intros ls ts ts' H. revert ts'. induction H; intros ts' H'; inversion H'; subst; [reflexivity|]. f_equal; [eapply line_text_unique; eauto|auto].
Qed.

(* ------------------------------------------------------------------ *)
(** Putting other leaves into a value. *)
Section Put.
  Variable quote : bool.
  Variable R : list scalar -> Prop.
  Notation rep := (representable R quote).
  Notation val := (valid true).

  Definition fits (v : jval) : Prop := forall xs, length xs = length (leaves quote v) -> Forall new_leaf xs ->
    exists v', same_shape v v' /\ map snd (leaves quote v') = xs /\ map fst (leaves quote v') = map fst (leaves quote v) /\
      (rep v -> rep v') /\ (val v -> val v').

  Lemma new_leaf_leaves : forall x, is_leaf x -> leaves quote x = [([], x)].
  Proof. intros [s|[|] e|[|] e] H; cbn in H; try contradiction; reflexivity. Qed.
  Lemma new_leaf_rep : R [] -> forall x, new_leaf x -> rep x.
  Proof.
    intros R0 [s|[|] e|[|] e] [H V]; cbn in H; try contradiction.
    - constructor. inversion V as [? W| |]; subst. unfold valid_scalar in *. destruct (sc_type s); auto. destruct W as (c & -> & C). exists c. split; [reflexivity|].
      now apply chars_weak.
    - inversion V; subst. constructor; [constructor|reflexivity].
    - inversion V; subst. constructor; [constructor|exact R0].
  Qed.
  Lemma fits_leaf : R [] -> forall v, is_leaf v -> fits v.
  Proof.
    intros R0 v L xs LN F. rewrite (new_leaf_leaves v L) in *. cbn [length] in LN. destruct xs as [|x [|]]; try discriminate. inversion F as [|? ? N _]; subst.
    exists x. rewrite (new_leaf_leaves x (proj1 N)). split; [constructor; [exact L|apply N]|]. split; [reflexivity|]. split; [reflexivity|]. split; [intros _; now apply new_leaf_rep|intros _; apply N].
  Qed.

  Lemma below_fst : forall s l, map fst (map (JpvSpec.below s) l) = map (cons s) (map fst l).
  Proof. intros s l. rewrite !map_map. reflexivity. Qed.
  Lemma below_snd : forall s l, map snd (map (JpvSpec.below s) l) = map snd l.
  Proof. intros s l. rewrite !map_map. reflexivity. Qed.

  Lemma split_leaves : forall {A} (xs : list A) a b, length xs = a + b -> exists x1 x2, xs = x1 ++ x2 /\ length x1 = a /\ length x2 = b.
  Proof. intros A xs a b L. exists (firstn a xs), (skipn a xs). split; [now rewrite firstn_skipn|]. rewrite firstn_length, skipn_length. lia. Qed.

  Lemma imap_cons : forall {A B} (f : N -> A -> list B) i x l, imap f i (x :: l) = f i x ++ imap f (i + 1)%N l.
  Proof. reflexivity. Qed.
  Lemma fits_items : forall l, Forall fits l -> forall i xs,
    let f := fun (i : N) x => map (JpvSpec.below (SIndex i)) (leaves quote x) in
    length xs = length (imap f i l) -> Forall new_leaf xs ->
    exists l', Forall2 same_shape l l' /\ map snd (imap f i l') = xs /\ map fst (imap f i l') = map fst (imap f i l) /\
      (Forall rep l -> Forall rep l') /\ (Forall val l -> Forall val l').
  Proof.
    intros l H. induction H as [|v l Hv H IH]; intros i xs f LN F.
    - destruct xs; [|discriminate]. exists []. repeat split; auto.
    - rewrite imap_cons, app_length in LN. unfold f in LN at 1. rewrite map_length in LN. destruct (split_leaves xs _ _ LN) as (x1 & x2 & -> & L1 & L2). apply Forall_app in F as [F1 F2].
      destruct (Hv x1 L1 F1) as (v' & S & E1 & E2 & RV & VV), (IH (i + 1)%N x2 L2 F2) as (l' & SL & E3 & E4 & RL & VL).
      exists (v' :: l'). split; [now constructor|]. split; [|split].
      + rewrite imap_cons, map_app. f_equal; [etransitivity; [apply below_snd|exact E1]|exact E3].
      + rewrite !imap_cons, !map_app. f_equal; [etransitivity; [apply below_fst|etransitivity; [|symmetry; apply below_fst]]; now rewrite E2|exact E4].
      + split; intro Q; inversion Q; subst; constructor; auto.
  Qed.
  Lemma fits_members : forall l, Forall (fun m => fits (snd m)) l -> forall xs,
    let f := fun m : scalar * jval => map (JpvSpec.below (key_step quote (fst m))) (leaves quote (snd m)) in
    length xs = length (flat_map f l) -> Forall new_leaf xs ->
    exists l', Forall2 (fun m m' => fst m' = fst m /\ same_shape (snd m) (snd m')) l l' /\ map fst l' = map fst l /\
      map snd (flat_map f l') = xs /\ map fst (flat_map f l') = map fst (flat_map f l) /\
      (forall P : scalar -> Prop, Forall (fun m => P (fst m) /\ rep (snd m)) l -> Forall (fun m => P (fst m) /\ rep (snd m)) l') /\
      (forall P : scalar -> Prop, Forall (fun m => P (fst m) /\ val (snd m)) l -> Forall (fun m => P (fst m) /\ val (snd m)) l').
  Proof.
    intros l H. induction H as [|[k v] l Hv H IH]; intros xs f LN F; cbn [flat_map] in *.
    - destruct xs; [|discriminate]. exists []. repeat split; auto.
    - rewrite app_length in LN. unfold f in LN at 1. rewrite map_length in LN. destruct (split_leaves xs _ _ LN) as (x1 & x2 & -> & L1 & L2). apply Forall_app in F as [F1 F2].
      destruct (Hv x1 L1 F1) as (v' & S & E1 & E2 & RV & VV), (IH x2 L2 F2) as (l' & SL & EK & E3 & E4 & RL & VL).
      exists ((k, v') :: l'). cbn [fst snd] in *. split; [constructor; [now split|exact SL]|]. split; [cbn [map fst]; now rewrite EK|]. cbn [flat_map]. split; [|split].
      + rewrite map_app. f_equal; [etransitivity; [apply below_snd|exact E1]|exact E3].
      + rewrite !map_app. f_equal; [etransitivity; [apply below_fst|etransitivity; [|symmetry; apply below_fst]]; cbn [fst snd]; now rewrite E2|exact E4].
      + split; intros P Q; inversion Q as [|? ? [Q1 Q2] Q3]; subst; (constructor; [split; auto|auto]).
  Qed.
  Lemma all_fit : R [] -> forall v, fits v.
  Proof.
    intros R0. apply (jval_induction fits).
    - intros s. apply fits_leaf; [exact R0|exact Logic.I].
    - intros l e IH. destruct l as [|x0 l0] eqn:EL; [apply fits_leaf; [exact R0|exact Logic.I]|]. rewrite <- EL in *. intros xs LN F.
      assert (LE : forall l, l <> [] -> leaves quote (JArr l e) = imap (fun (i : N) x => map (JpvSpec.below (SIndex i)) (leaves quote x)) 0%N l) by (intros [|] Q; [congruence|reflexivity]).
      rewrite LE in * by (rewrite EL; discriminate). destruct (fits_items l IH 0%N xs LN F) as (l' & S & E1 & E2 & RR & VV).
      assert (LL : length l' = length l) by (clear - S; induction S; cbn; congruence).
      exists (JArr l' e). rewrite LE by (intros ->; rewrite EL in LL; discriminate). split; [now constructor|]. split; [exact E1|]. split; [exact E2|]. split.
      + intro Q. inversion Q; subst. constructor; [auto|]. now rewrite LL.
      + intro Q. inversion Q; subst. constructor. auto.
    - intros l e IH. destruct l as [|x0 l0] eqn:EL; [apply fits_leaf; [exact R0|exact Logic.I]|]. rewrite <- EL in *. intros xs LN F.
      assert (LE : forall l, l <> [] -> leaves quote (JObj l e) = flat_map (fun m : scalar * jval => map (JpvSpec.below (key_step quote (fst m))) (leaves quote (snd m))) l) by (intros [|] Q; [congruence|reflexivity]).
      rewrite LE in * by (rewrite EL; discriminate). destruct (fits_members l IH xs LN F) as (l' & S & EK & E1 & E2 & RR & VV).
      assert (LL : length l' = length l) by (clear - S; induction S; cbn; congruence).
      exists (JObj l' e). rewrite LE by (intros ->; rewrite EL in LL; discriminate). split; [now constructor|]. split; [exact E1|]. split; [exact E2|]. split.
      + intro Q. inversion Q as [| |? W1 W2]; subst e. constructor; [|now rewrite EK].
        specialize (RR (fun k => sc_type k = TStr /\ string_text false (sc_bytes k) /\ (sc_alnum k = true -> quote = false -> identifier (EncSpec.contents (sc_bytes k)) = true))).
        eapply Forall_impl; [|apply RR; eapply Forall_impl; [|exact W1]]; intros m X; cbn beta in *; tauto.
      + intro Q. inversion Q as [| |? W1]; subst e. constructor. exact (VV (fun k => string_text true (sc_bytes k)) W1).
  Qed.
End Put.

Lemma zip_fst_snd : forall {A B} (l : list (A * B)), combine (map fst l) (map snd l) = l.
Proof. intros A B l. induction l as [|[a b] l IH]; [reflexivity|]. cbn [map fst snd combine]. now rewrite IH. Qed.

(** Lines that stand for a value, and any choice of them, read by a command. *)
Lemma lines_read : forall float_text csv_records matches find grow tty epipe (c : command) quote v lines,
  representable all_differ quote v -> valid true v -> Forall2 line_text (leaves quote v) lines ->
  In (cm_in c) [text "jpv"; text "path"] -> plain_json tty c -> cm_file c = [] -> without_depth (cm_args c) ->
  forall (mask : list bool) (w : bytes) (rd : reader) (outs : list jval),
    length mask = length lines -> ws w -> delivers rd (flat_map (fun l => l ++ [10%N]) (select mask lines) ++ w) ->
    applied float_text matches (cm_strict c) (cm_args c) (map (jpv_canon quote) (left_over (restrict quote (marked quote v mask) v))) outs ->
    exists t, stext true ws_separated (map canon outs) t /\
      forall oc, jp float_text csv_records find grow tty epipe None c rd oc <-> oc = mkOutcome t 0%Z.
Proof.
  intros ft csv matches find grow tty' epipe' c' quote v lines0 RP VA FL0 IN' PJ FI' WD' mask w rd' outs LM W (I' & K' & F') AP'.
  destruct (C18_any_subset_of_lines quote 0 false v RP ltac:(lia)) as (lines & FL & _ & H). rewrite (lines_unique _ _ _ FL0 FL) in *. clear lines0 FL0.
  specialize (H mask w rd' jp_scanner LM W ltac:(unfold jp_scanner; lia) K' F' I').
  set (vs' := map (jpv_canon quote) (left_over (restrict quote (marked quote v mask) v))) in *.
  assert (D : P_Jpv.decodes_jpv rd' jp_scanner (stream vs') (ProgModel.DOk tt)).
  { unfold vs'. destruct (restrict quote (marked quote v mask) v); cbn [map left_over]; [|exact H]. unfold stream. cbn [flat_map]. now rewrite app_nil_r. }
  destruct (plain_options tty' c' PJ) as ([J NC] & CO' & OU').
  assert (NA : cm_in c' <> text "auto") by (destruct IN' as [<-|[<-|[]]]; discriminate).
  destruct (pipeline ft csv matches find grow tty' epipe' c' rd' (cm_in c') rd' SrcJpv vs' outs) as (out & ok & PR & JP); auto.
  { unfold format_and_input. destruct (bytes_eqb (cm_in c') (text "auto")) eqn:E; [apply bytes_eqb_eq in E; contradiction|reflexivity]. }
  { unfold source_of. destruct IN' as [<-|[<-|[]]]; cbn; now rewrite andb_false_r. }
  { intros ts. cbn [source_sends]. split; [intros [x D']; exact (proj1 (decodes_jpv_unique _ _ _ _ _ _ D' D))|intros ->; eauto]. }
  assert (V : Forall (valid true) outs).
  { apply (applied_keeps (valid true) valid_children (fun l H => va_arr true l H) _ _ _ _ _ _ AP' WD').
    unfold vs'. destruct (restrict quote (marked quote v mask) v) eqn:RS; constructor; [|constructor]. apply valid_jpv. eapply valid_restrict; eauto. }
  destruct (C13_round_trip (mkSettings (jo_color (output_options tty' c')) (jo_width (output_options tty' c')) 2 (jo_indent (output_options tty' c')) (jo_tty (output_options tty' c'))) true _ NC V) as [out' [EN' [ST _]]].
  exists out'. split; [exact ST|]. replace out' with out; [exact JP|].
  apply (prints_encodes _ _ _ J) in EN'. destruct PR as [n P1], EN' as [m P2]. specialize (P1 (n + m) ltac:(lia)). specialize (P2 (n + m) ltac:(lia)). congruence.
Qed.

(** C77.  [xs]: what the lines say after the equals sign when they have been
    edited; their paths stay as they were.  [v']: the value with its leaves
    replaced by [xs], in their order.  The second command, reading any choice of
    the edited lines, applies its arguments to [v'] restricted to these. *)
Theorem C77_edited_lines :
  forall float_text csv_records matches find grow tty tty' epipe epipe' (c c' : command) (rd : reader) (vs : list jval) (v : jval),
    let quote := cm_quote c in
    plain_jpv tty c -> cm_file c = [] -> without_depth (cm_args c) -> json_input c rd vs ->
    applied float_text matches (cm_strict c) (cm_args c) vs [v] ->
    representable all_differ quote v ->
    In (cm_in c') [text "jpv"; text "path"] -> plain_json tty' c' -> cm_file c' = [] -> without_depth (cm_args c') ->
    exists lines : list bytes,
      Forall2 line_text (leaves quote v) lines /\
      (forall oc, jp float_text csv_records find grow tty epipe None c rd oc <->
         oc = mkOutcome (flat_map (fun l => l ++ [10%N]) lines ++ [10%N]) 0%Z) /\
      forall (xs : list jval) (lines' : list bytes),
        length xs = length lines -> Forall new_leaf xs ->
        Forall2 line_text (combine (map fst (leaves quote v)) xs) lines' ->
        exists v', same_shape v v' /\ map snd (leaves quote v') = xs /\
          forall (mask : list bool) (w : bytes) (rd' : reader) (outs : list jval),
            length mask = length lines' -> ws w ->
            delivers rd' (flat_map (fun l => l ++ [10%N]) (select mask lines') ++ w) ->
            applied float_text matches (cm_strict c') (cm_args c')
              (map (jpv_canon quote) (left_over (restrict quote (marked quote v' mask) v'))) outs ->
            exists t', stext true ws_separated (map canon outs) t' /\
              forall oc, jp float_text csv_records find grow tty' epipe' None c' rd' oc <-> oc = mkOutcome t' 0%Z.
Proof.
  intros ft csv matches find grow tty tty' epipe epipe' c c' rd vs v quote PV FI WD JI AP RP IN' PJ FI' WD'.
  destruct (C61_arguments_after_grep ft csv matches find grow tty tty' epipe epipe' c c' rd vs v PV FI WD JI AP RP IN' PJ FI' WD') as (lines & FL & J1 & _).
  exists lines. split; [exact FL|]. split; [exact J1|]. intros xs lines' LN NL FL'. fold quote in FL.
  assert (VA : valid true v).
  { assert (SV : Forall settled [v]) by (eapply (applied_keeps settled settled_closed settled_array); eauto; destruct JI as [_ (t & _ & T)]; eapply stext_settled; eauto).
    inversion SV as [|? ? [X _] _]; subst. exact X. }
  assert (LV : length xs = length (leaves quote v)) by (rewrite LN; clear - FL; induction FL; cbn; congruence).
  destruct (all_fit quote all_differ ltac:(constructor) v xs LV NL) as (v' & S & E1 & E2 & RR & VV).
  exists v'. split; [exact S|]. split; [exact E1|]. rewrite <- E1, <- E2, zip_fst_snd in FL'.
  intros mask w rd' outs LM W D A. exact (lines_read ft csv matches find grow tty' epipe' c' quote v' lines' (RR RP) (VV VA) FL' IN' PJ FI' WD' mask w rd' outs LM W D A).
Qed.
Print Assumptions C77_edited_lines.

(** The lines  $.a[0] = 1,  $.a[1] = 2  of [C61_example], the second one edited to
    $.a[1] = true,  are read as {"a":[1,true]}. *)
Definition ex77_leaves : list jval := [P_Path.num 1; JScalar true_scalar].
Definition ex77_value : jval := JObj [(key_scalar [97%N], JArr ex77_leaves false)] false.
Definition ex77_lines : list bytes := [text "$.a[0] = 1"; text "$.a[1] = true"].
Example C77_example : forall float_text csv_records find grow,
  Forall new_leaf ex77_leaves /\ same_shape ex61_value ex77_value /\ map snd (leaves false ex77_value) = ex77_leaves /\
  Forall2 line_text (combine (map fst (leaves false ex61_value)) ex77_leaves) ex77_lines /\
  jp float_text csv_records find grow false false None ex61' (stdin (flat_map (fun l => l ++ [10%N]) ex77_lines))
    (mkOutcome (text "{""a"": [1, true]}" ++ [10%N]) 0%Z).
Proof.
  intros ft csv find grow. split; [|split; [|split; [|split]]].
  - apply Forall_cons; [split; [exact Logic.I|]|apply Forall_cons; [split; [exact Logic.I|apply va_scalar; cbn; auto]|apply Forall_nil]].
    pose proof (ex53_digit 1 ltac:(lia)) as V. apply va_scalar. inversion V; subst; assumption.
  - apply sh_obj. constructor; [|constructor]. split; [reflexivity|]. apply sh_arr. constructor; [|constructor; [|constructor]]; apply sh_leaf; exact Logic.I.
  - reflexivity.
  - assert (L : forall n d x t, int_text [d] -> nat_digits 0 [d] = Z.of_N n -> leaf_text x t -> line_text ([SName [97%N]; SIndex n], x) (text "$.a[" ++ [d] ++ text "] = " ++ t)).
    { intros n d x t H1 H2 H3. exists (text ".a[" ++ [d; 93%N]), t. split; [|split; [exact H3|reflexivity]].
      apply (tx_step (SName [97%N]) [SIndex n] [46; 97]%N [91%N; d; 93%N]); [now constructor|].
      apply (tx_step (SIndex n) [] [91%N; d; 93%N] []); [exact (tx_index n [d] H1 H2)|constructor]. }
    constructor; [|constructor; [|constructor]].
    + apply (L 0%N 48%N (P_Path.num 1) [49%N]); [now left|reflexivity|reflexivity].
    + apply (L 1%N 49%N (JScalar true_scalar) (text "true")); [right; exists 49%N, []; split; [reflexivity|split; [lia|constructor]]|reflexivity|reflexivity].
  - unfold jp. destruct (prepare ft false ex61' (stdin (flat_map (fun l => l ++ [10%N]) ex77_lines))) as [p|] eqn:P; [|discriminate]. vm_compute in P. injection P as <-.
    set (ts := stream [jpv_canon false ex77_value]).
    exists ts, ts. split; [exists (ProgModel.DOk tt); apply (decodes_jpv_vm 60); vm_compute; reflexivity|]. split; [constructor|]. apply leaves_vm. vm_compute. reflexivity.
Qed.

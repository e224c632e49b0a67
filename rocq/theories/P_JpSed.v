(** C64: jp, sed and jp again. *)
From Coq Require Import String List Arith ZArith NArith Bool Lia.
From Verif Require Import Base Tokens ScannerModel ScannerSpec JsonSpec EncSpec JsonDecModel P_JsonDec P_JsonEnc JpvSpec P_Jpv
  MainModel P_Main PathSpec PathTame P_Path P_JpQuery CliModel CliSpec P_Cli P_JpGrep.
Import ListNotations.
Open Scope string_scope.
Open Scope list_scope.
Open Scope nat_scope.

(* ------------------------------------------------------------------ *)
(** Specification. *)

(** What a line can hold: a scalar or an empty collection. *)
Inductive leaf : jval -> Prop :=
| lf_scalar : forall s, leaf (JScalar s)
| lf_array : leaf (JArr [] false)
| lf_object : leaf (JObj [] false).

(** [edited ed v]: the value [v] with each leaf replaced by what [ed] makes of its
    path and of the leaf. *)
Fixpoint edited (quote : bool) (ed : list jstep -> jval -> jval) (v : jval) : jval :=
  match v with
  | JScalar _ => ed [] v
  | JArr [] _ => ed [] v
  | JArr l e => JArr (imap (fun i x => [edited quote (fun p => ed (SIndex i :: p)) x]) 0 l) e
  | JObj [] _ => ed [] v
  | JObj l e => JObj (map (fun m => (fst m, edited quote (fun p => ed (key_step quote (fst m) :: p)) (snd m))) l) e
  end.

(** A line with its value replaced. *)
Definition edit_line (ed : list jstep -> jval -> jval) (l : line) : line := (fst l, ed (fst l) (snd l)).

(** What an edit has to give: valid JSON, in the form in which it is read. *)
Definition sound_edit (ed : list jstep -> jval -> jval) : Prop :=
  forall p x, leaf x -> settled x -> leaf (ed p x) /\ settled (ed p x).

(* ------------------------------------------------------------------ *)
(** Proofs. *)
Lemma valid_weaker : forall s, valid_scalar true s -> valid_scalar false s.
Proof.
  intros [b t k a u]. unfold valid_scalar. cbn [sc_type sc_bytes]. destruct t; auto. intros (c & -> & C). exists c. split; [reflexivity|].
  induction C; try (constructor; assumption). discriminate.
Qed.
Lemma leaf_representable : forall (R : list scalar -> Prop) quote x, R [] -> leaf x -> settled x -> representable R quote x.
Proof.
  intros R quote x E L [V _]. inversion L; subst.
  - inversion V; subst. constructor. now apply valid_weaker.
  - constructor; [constructor|reflexivity].
  - constructor; [constructor|exact E].
Qed.
Lemma leaves_of_leaf : forall quote x, leaf x -> leaves quote x = [([], x)].
Proof. intros quote x L. inversion L; reflexivity. Qed.
Lemma imap_nonempty : forall A B (f : N -> A -> B) l i, imap (fun i x => [f i x]) i l = [] -> l = [].
Proof. intros A B f [|x l] i H; [reflexivity|discriminate]. Qed.

Lemma imap_length : forall A B (f : N -> A -> B) l i, length (imap (fun i x => [f i x]) i l) = length l.
Proof. intros A B f l. induction l as [|x l IH]; intro i; [reflexivity|]. cbn [imap app length]. now rewrite IH. Qed.
Lemma sound_below : forall ed s, sound_edit ed -> sound_edit (fun p => ed (s :: p)).
Proof. intros ed s H p x L. exact (H (s :: p) x L). Qed.
Lemma edited_leaves : forall quote v ed, sound_edit ed -> settled v -> representable all_differ quote v ->
  leaves quote (edited quote ed v) = map (edit_line ed) (leaves quote v).
Proof.
  intros quote. apply (jval_induction (fun v => forall ed, sound_edit ed -> settled v -> representable all_differ quote v ->
    leaves quote (edited quote ed v) = map (edit_line ed) (leaves quote v))).
  - intros s ed H S _. cbn [edited leaves map edit_line fst snd]. apply leaves_of_leaf, H; [constructor|exact S].
  - intros [|x0 l0] e IH ed H S RP; inversion RP; subst.
    { cbn [edited leaves map edit_line fst snd]. apply leaves_of_leaf, H; [constructor|exact S]. }
    match goal with F : Forall (representable _ _) _ |- _ => revert F end. intro F. clear RP. apply settled_arr in S as [_ S].
    change (edited quote ed (JArr (x0 :: l0) false)) with (JArr (imap (fun i x => [edited quote (fun p => ed (SIndex i :: p)) x]) 0%N (x0 :: l0)) false).
    transitivity (imap (fun i x => map (below (SIndex i)) (leaves quote x)) 0%N (imap (fun i x => [edited quote (fun p => ed (SIndex i :: p)) x]) 0%N (x0 :: l0))); [reflexivity|].
    transitivity (map (edit_line ed) (imap (fun i x => map (below (SIndex i)) (leaves quote x)) 0%N (x0 :: l0))); [|reflexivity].
    revert IH F S. generalize (x0 :: l0) as l. generalize 0%N as i. clear - H. intros i l. revert i.
    induction l as [|x l IHl]; intros i IH F S; [reflexivity|]. inversion IH; subst. inversion S; subst. inversion F; subst. cbn [imap app]. rewrite map_app. f_equal; [|now apply IHl].
    match goal with K : forall ed, _ |- _ => rewrite (K (fun p => ed (SIndex i :: p)) (sound_below _ _ H)); auto end. rewrite !map_map. reflexivity.
  - intros [|x0 l0] e IH ed H S RP; inversion RP as [| |? F D]; subst.
    { cbn [edited leaves map edit_line fst snd]. apply leaves_of_leaf, H; [constructor|exact S]. }
    apply settled_obj in S as [_ S].
    clear RP D.
    transitivity (flat_map (fun m => map (below (key_step quote (fst m))) (leaves quote (snd m))) (map (fun m => (fst m, edited quote (fun p => ed (key_step quote (fst m) :: p)) (snd m))) (x0 :: l0))); [reflexivity|].
    transitivity (map (edit_line ed) (flat_map (fun m => map (below (key_step quote (fst m))) (leaves quote (snd m))) (x0 :: l0))); [|reflexivity].
    revert IH F S. generalize (x0 :: l0) as l. clear - H. intros l.
    induction l as [|x l IHl]; intros IH F S; [reflexivity|]. inversion IH; subst. inversion S; subst. inversion F as [|? ? (_ & _ & _ & RX) F']; subst. cbn [map flat_map fst snd]. rewrite map_app. f_equal; [|now apply IHl].
    match goal with K : forall ed, _ |- _ => rewrite (K (fun p => ed (key_step quote (fst x) :: p)) (sound_below _ _ H)); try tauto end. rewrite !map_map. reflexivity.
Qed.
Lemma edited_representable : forall quote v ed, sound_edit ed -> settled v -> representable all_differ quote v -> representable all_differ quote (edited quote ed v).
Proof.
  intros quote.
  assert (E : all_differ []) by constructor.
  apply (jval_induction (fun v => forall ed, sound_edit ed -> settled v -> representable all_differ quote v -> representable all_differ quote (edited quote ed v))).
  - intros s ed H S _. destruct (H [] (JScalar s) (lf_scalar s) S). now apply leaf_representable.
  - intros [|x0 l0] e IH ed H S RP; inversion RP as [|? F L|]; subst.
    { destruct (H [] _ lf_array S). now apply leaf_representable. }
    change (edited quote ed (JArr (x0 :: l0) false)) with (JArr (imap (fun i x => [edited quote (fun p => ed (SIndex i :: p)) x]) 0%N (x0 :: l0)) false).
    constructor; [|now rewrite imap_length]. clear RP L. apply settled_arr in S as [_ S]. revert IH F S. generalize (x0 :: l0) as l. generalize 0%N as i. clear - H. intros i l. revert i.
    induction l as [|x l IHl]; intros i IH F S; [constructor|]. inversion IH; subst. inversion S; subst. inversion F; subst. cbn [imap app]. constructor; [|now apply IHl].
    match goal with K : forall ed, _ |- _ => apply K; auto end. now apply sound_below.
  - intros [|x0 l0] e IH ed H S RP; inversion RP as [| |? F D]; subst.
    { destruct (H [] _ lf_object S). now apply leaf_representable. }
    change (edited quote ed (JObj (x0 :: l0) false)) with (JObj (map (fun m => (fst m, edited quote (fun p => ed (key_step quote (fst m) :: p)) (snd m))) (x0 :: l0)) false).
    constructor; [|now rewrite map_map; cbn [fst]]. apply Forall_map. clear RP D. apply settled_obj in S as [_ S]. rewrite Forall_forall in *. intros m M. cbn [fst snd].
    destruct (F m M) as (T & TX & A & RX). destruct (S m M) as [_ SX]. repeat (split; [assumption|]). apply IH; auto. now apply sound_below.
Qed.
Lemma edited_settled : forall quote v ed, sound_edit ed -> settled v -> settled (edited quote ed v).
Proof.
  intros quote. apply (jval_induction (fun v => forall ed, sound_edit ed -> settled v -> settled (edited quote ed v))).
  - intros s ed H S. destruct (H [] (JScalar s) (lf_scalar s) S). assumption.
  - intros [|x0 l0] e IH ed H S; pose proof S as S0; apply settled_arr in S as [-> F].
    { destruct (H [] _ lf_array S0). assumption. }
    change (edited quote ed (JArr (x0 :: l0) false)) with (JArr (imap (fun i x => [edited quote (fun p => ed (SIndex i :: p)) x]) 0%N (x0 :: l0)) false).
    apply settled_arr. split; [reflexivity|]. revert IH F. generalize (x0 :: l0) as l. generalize 0%N as i. clear - H. intros i l. revert i.
    induction l as [|x l IHl]; intros i IH F; [constructor|]. inversion IH; subst. inversion F; subst. cbn [imap app]. constructor; [|now apply IHl].
    match goal with K : forall ed, _ |- _ => apply K; auto end. now apply sound_below.
  - intros [|x0 l0] e IH ed H S; pose proof S as S0; apply settled_obj in S as [-> F].
    { destruct (H [] _ lf_object S0). assumption. }
    change (edited quote ed (JObj (x0 :: l0) false)) with (JObj (map (fun m => (fst m, edited quote (fun p => ed (key_step quote (fst m) :: p)) (snd m))) (x0 :: l0)) false).
    apply settled_obj. split; [reflexivity|]. apply Forall_map. rewrite Forall_forall in *. intros m M. cbn [fst snd].
    destruct (F m M) as (K & X). split; [exact K|]. apply IH; auto. now apply sound_below.
Qed.

(** C64.  Any choice of the lines of a value, whoever has written them, is read
    by jp as that value without the other leaves. *)
Theorem C64_lines_of_a_value :
  forall float_text csv_records find grow tty epipe (c : command) (rd : reader) (quote : bool) (v : jval) (lines : list bytes) (mask : list bool) (w : bytes),
    In (cm_in c) [text "jpv"; text "path"] -> plain_json tty c -> cm_file c = [] -> cm_args c = [] ->
    settled v -> representable all_differ quote v -> Forall2 line_text (leaves quote v) lines ->
    length mask = length lines -> ws w ->
    delivers rd (flat_map (fun l => l ++ [10%N]) (select mask lines) ++ w) ->
    exists t', stext true ws_separated (left_over (restrict quote (marked quote v mask) v)) t' /\
      forall oc, jp float_text csv_records find grow tty epipe None c rd oc <-> oc = mkOutcome t' 0.
Proof.
  intros ft csv find grow tty epipe c rd quote v lines mask w IN PJ FI AR SV RP FL LM W (I' & K' & F').
  set (vs := map (jpv_canon quote) (left_over (restrict quote (marked quote v mask) v))).
  assert (D : P_Jpv.decodes_jpv rd jp_scanner (stream vs) (ProgModel.DOk tt)).
  { assert (H : P_Jpv.decodes_jpv rd jp_scanner (match restrict quote (marked quote v mask) v with Some v' => toks (jpv_canon quote v') | None => [] end) (ProgModel.DOk tt)).
    { apply (decode_leaves all_differ quote v (marked quote v mask) (select mask lines) [10%N] w); auto; [|now left|unfold jp_scanner; lia].
      unfold marked. rewrite select_filter; [now apply Forall2_select|now apply leaves_distinct|].
      rewrite LM. clear -FL. induction FL; cbn [length]; congruence. }
    unfold vs. destruct (restrict quote (marked quote v mask) v); cbn [map left_over]; [|exact H]. unfold stream. cbn [flat_map]. now rewrite app_nil_r. }
  destruct (plain_options tty c PJ) as ([J NC] & CO' & OU').
  assert (NA : cm_in c <> text "auto") by (destruct IN as [<-|[<-|[]]]; discriminate).
  destruct (pipeline ft csv (fun _ _ => False) find grow tty epipe c rd (cm_in c) rd SrcJpv vs vs) as (out & ok & PR & JP); auto.
  { unfold format_and_input. destruct (bytes_eqb (cm_in c) (text "auto")) eqn:E; [apply bytes_eqb_eq in E; contradiction|reflexivity]. }
  { unfold source_of. destruct IN as [<-|[<-|[]]]; cbn; now rewrite andb_false_r. }
  { intros ts. cbn [source_sends]. split; [intros [x D']; exact (proj1 (decodes_jpv_unique _ _ _ _ _ _ D' D))|intros ->; eauto]. }
  { rewrite AR. constructor. }
  assert (V : Forall (valid true) vs).
  { unfold vs. destruct (restrict quote (marked quote v mask) v) eqn:R; constructor; [|constructor]. apply valid_jpv. eapply settled_restrict; eauto. }
  destruct (C13_round_trip (mkSettings (jo_color (output_options tty c)) (jo_width (output_options tty c)) 2 (jo_indent (output_options tty c)) (jo_tty (output_options tty c))) true _ NC V) as [out' [EN' [ST _]]].
  exists out'. split.
  - replace (left_over _) with (map canon vs); [exact ST|]. unfold vs. destruct (restrict quote (marked quote v mask) v) eqn:R; [|reflexivity]. cbn [left_over map]. rewrite canon_jpv. f_equal.
    exact (proj2 (settled_restrict _ _ _ _ ltac:(eassumption) R)).
  - replace out' with out; [exact JP|].
    apply (prints_encodes _ _ _ J) in EN'. destruct PR as [n P1], EN' as [m P2]. specialize (P1 (n + m) ltac:(lia)). specialize (P2 (n + m) ltac:(lia)). congruence.
Qed.
Print Assumptions C64_lines_of_a_value.

Lemma edited_paths : forall ed ls, map fst (map (edit_line ed) ls) = map fst ls.
Proof. intros ed ls. rewrite map_map. reflexivity. Qed.
Lemma select_map : forall A B (f : A -> B) m l, select m (map f l) = map f (select m l).
Proof. intros A B f m. induction m as [|[] m IH]; intros [|x l]; cbn [select map]; auto; now rewrite IH. Qed.
Lemma restrict_ext : forall quote v k k', (forall p, k p = k' p) -> restrict quote k v = restrict quote k' v.
Proof.
  intros quote. apply (jval_induction (fun v => forall k k', (forall p, k p = k' p) -> restrict quote k v = restrict quote k' v)).
  - intros s k k' H. cbn [restrict]. now rewrite H.
  - intros [|x0 l0] e IH k k' H; cbn [restrict]; [now rewrite H|].
    match goal with |- match ?a with _ => _ end = match ?b with _ => _ end => replace b with a; [reflexivity|] end.
    revert IH. generalize (x0 :: l0) as l. generalize 0%N as i. intros i l. revert i. induction l as [|x l IHl]; intros i IH; [reflexivity|]. inversion IH as [|? ? HX ?]; subst. cbn [imap].
    rewrite (HX (fun p => k (SIndex i :: p)) (fun p => k' (SIndex i :: p)) (fun p => H (SIndex i :: p))). f_equal. now apply IHl.
  - intros [|x0 l0] e IH k k' H; cbn [restrict]; [now rewrite H|].
    match goal with |- match ?a with _ => _ end = match ?b with _ => _ end => replace b with a; [reflexivity|] end.
    revert IH. generalize (x0 :: l0) as l. intros l. induction l as [|x l IHl]; intros IH; [reflexivity|]. inversion IH as [|? ? HX ?]; subst. cbn [flat_map].
    rewrite (HX (fun p => k (key_step quote (fst x) :: p)) (fun p => k' (key_step quote (fst x) :: p)) (fun p => H (key_step quote (fst x) :: p))). f_equal. now apply IHl.
Qed.

(** The first command writes one line for each leaf of the value [v] that its
    arguments make of the JSON it reads.  Whichever lines are kept, in order, and
    whatever leaves are put in the place of those after the equal signs, the
    second command writes the value with these leaves replaced and without the
    leaves whose lines are not kept. *)
Theorem C64_values_edited :
  forall float_text csv_records matches find grow tty tty' epipe epipe' (c c' : command) (rd : reader) (vs : list jval) (v : jval) (ed : list jstep -> jval -> jval),
    let quote := cm_quote c in
    plain_jpv tty c -> cm_file c = [] -> without_depth (cm_args c) -> json_input c rd vs ->
    applied float_text matches (cm_strict c) (cm_args c) vs [v] ->
    representable all_differ quote v -> sound_edit ed ->
    In (cm_in c') [text "jpv"; text "path"] -> plain_json tty' c' -> cm_file c' = [] -> cm_args c' = [] ->
    exists lines : list bytes,
      Forall2 line_text (leaves quote v) lines /\
      (forall oc, jp float_text csv_records find grow tty epipe None c rd oc <->
         oc = mkOutcome (flat_map (fun l => l ++ [10%N]) lines ++ [10%N]) 0) /\
      forall (lines' : list bytes) (mask : list bool) (w : bytes) (rd' : reader),
        Forall2 line_text (map (edit_line ed) (leaves quote v)) lines' ->
        length mask = length lines' -> ws w ->
        delivers rd' (flat_map (fun l => l ++ [10%N]) (select mask lines') ++ w) ->
        exists t', stext true ws_separated (left_over (restrict quote (marked quote v mask) (edited quote ed v))) t' /\
          forall oc, jp float_text csv_records find grow tty' epipe' None c' rd' oc <-> oc = mkOutcome t' 0.
Proof.
  intros ft csv matches find grow tty tty' epipe epipe' c c' rd vs v ed quote PV FI WD JI AP RP SE IN' PJ FI' AR'.
  destruct (C61_any_lines_of_jpv ft csv matches find grow tty tty' epipe epipe' c c' rd vs v PV FI WD JI AP RP IN' PJ FI' AR') as (lines & FL & EN & _).
  exists lines. split; [exact FL|]. split; [exact EN|]. intros lines' mask w rd' FL' LM W DL.
  assert (SV : Forall settled [v]).
  { eapply (applied_keeps settled settled_closed settled_array); eauto. destruct JI as [_ (t & _ & T)]. eapply stext_settled; eauto. }
  inversion SV; subst.
  assert (LV : leaves quote (edited quote ed v) = map (edit_line ed) (leaves quote v)) by (now apply edited_leaves).
  destruct (C64_lines_of_a_value ft csv find grow tty' epipe' c' rd' quote (edited quote ed v) lines' mask w IN' PJ FI' AR') as (t' & ST & J); auto.
  - now apply edited_settled.
  - now apply edited_representable.
  - now rewrite LV.
  - exists t'. split; [|exact J]. erewrite restrict_ext; [exact ST|]. intro p. unfold marked. now rewrite LV, select_map, edited_paths.
Qed.
Print Assumptions C64_values_edited.

(** [jp -out jpv] on [{"a":[1,2]}] writes two lines; with the number 1 replaced by
    the number 4 they are read as [{"a":[4,2]}]. *)
Local Notation num := P_Path.num.
Definition ex64_edit (p : list jstep) (x : jval) : jval :=
  match x with
  | JScalar s => if bytes_eqb (sc_bytes s) [49%N] then num 4 else x
  | _ => x
  end.
Definition ex64_value : jval := JObj [(key_scalar [97%N], JArr [num 4; num 2] false)] false.
Example C64_example : forall float_text csv_records find grow,
  sound_edit ex64_edit /\ edited false ex64_edit ex61_value = ex64_value /\
  map (edit_line ex64_edit) (leaves false ex61_value) = [([SName [97%N]; SIndex 0], num 4); ([SName [97%N]; SIndex 1], num 2)] /\
  Forall2 line_text (map (edit_line ex64_edit) (leaves false ex61_value)) [text "$.a[0] = 4"; text "$.a[1] = 2"] /\
  settled ex64_value /\ representable all_differ false ex64_value /\
  jp float_text csv_records find grow false false None ex61' (stdin (text "$.a[0] = 4" ++ [10%N] ++ text "$.a[1] = 2" ++ [10; 10]%N))
    (mkOutcome [123; 34; 97; 34; 58; 32; 91; 52; 44; 32; 50; 93; 125; 10]%N 0).
Proof.
  intros ft csv find grow. assert (D : forall n, (1 <= n <= 4)%N -> settled (num n)).
  { intros n H. split; [|reflexivity]. constructor. cbn [num new_scalar sc_type sc_bytes]. pose proof (ex53_digit n H) as V. inversion V; subst; assumption. }
  split. { intros p x L S. inversion L; subst; cbn [ex64_edit]; auto. destruct (bytes_eqb (sc_bytes s) [49%N]); [|auto]. split; [constructor|apply D; lia]. }
  split; [reflexivity|]. split; [reflexivity|]. split; [|split; [|split]].
  - assert (A : forall n m, (1 <= m <= 4)%N -> (n <= 1)%N -> line_text ([SName [97%N]; SIndex n], num m) (36 :: [46; 97] ++ [91; 48 + n; 93] ++ [32; 61; 32] ++ [48 + m])%N).
    { intros n m M NN. exists ([46; 97] ++ [91; 48 + n; 93])%N, [48 + m]%N. split; [|split; [|now rewrite <- !app_assoc]].
      - cbn [fst]. replace ([46; 97] ++ [91; 48 + n; 93])%N with ([46; 97] ++ ([91; 48 + n; 93] ++ []))%N by now rewrite app_nil_r.
        constructor; [constructor; reflexivity|]. constructor; [|constructor]. apply (tx_index n [48 + n]%N).
        + assert (C : n = 0%N \/ n = 1%N) by lia. destruct C as [->| ->]; [left; reflexivity|]. right. exists 49%N, []. split; [reflexivity|]. split; [lia|constructor].
        + assert (C : n = 0%N \/ n = 1%N) by lia. destruct C as [->| ->]; reflexivity.
      - cbn [snd leaf_text]. assert (C : m = 1%N \/ m = 2%N \/ m = 3%N \/ m = 4%N) by lia. destruct C as [->|[->|[->| ->]]]; reflexivity. }
    constructor; [exact (A 0%N 4%N ltac:(lia) ltac:(lia))|]. constructor; [exact (A 1%N 2%N ltac:(lia) ltac:(lia))|constructor].
  - apply settled_obj. split; [reflexivity|]. constructor; [|constructor]. cbn [fst snd]. split.
    + split; [|reflexivity]. exists [97%N]. split; [reflexivity|]. apply ch_plain; [unfold plain_byte; lia|constructor].
    + apply settled_arr. split; [reflexivity|].
      constructor; [apply D; lia|]. constructor; [apply D; lia|constructor].
  - constructor; [|repeat constructor]. constructor; [|constructor]. cbn [fst snd]. split; [reflexivity|]. split; [exists [97%N]; split; [reflexivity|apply ch_plain; [unfold plain_byte; lia|constructor]]|].
    split; [reflexivity|]. constructor; [|reflexivity].
    assert (D' : forall n, (1 <= n <= 4)%N -> representable all_differ false (num n)).
    { intros n H. constructor. cbn [num new_scalar sc_type sc_bytes]. pose proof (ex53_digit n H) as V. inversion V; subst; assumption. }
    constructor; [apply D'; lia|]. constructor; [apply D'; lia|constructor].
  - unfold jp. destruct (prepare ft false ex61' (stdin (text "$.a[0] = 4" ++ [10%N] ++ text "$.a[1] = 2" ++ [10; 10]%N))) as [p|] eqn:P; [|discriminate]. vm_compute in P. injection P as <-.
    set (ts := stream [jpv_canon false ex64_value]).
    exists ts, ts. split; [exists (ProgModel.DOk tt); apply (decodes_jpv_vm 60); vm_compute; reflexivity|]. split; [constructor|]. apply leaves_vm. vm_compute. reflexivity.
Qed.

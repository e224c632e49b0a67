(** C66: output while jp waits for input. *)
From Coq Require Import String List Arith ZArith NArith Bool Lia.
From Verif Require Import Base Tokens ScannerModel ScannerSpec JsonDecModel JsonSpec EncSpec PrinterModel JsonEncModel JpvEncModel P_JsonEnc
  MainModel MainProofs P_Main CliModel P_Layout LayoutSpec WaitModel WaitSpec WaitProofs WaitOutProofs.
Import ListNotations.
Open Scope string_scope.
Open Scope list_scope.
Open Scope nat_scope.

(** [hears chunks size ts]: the JSON decoder, with a buffer of [size] bytes, has
    sent the tokens [ts] when standard input has delivered [chunks] and has no more
    for the time being; it waits. *)
Definition hears (chunks : list bytes) (size : nat) (ts : list token) : Prop :=
  exists n, forall fuel, n <= fuel -> decode_waiting fuel chunks size = (ts, true).
(** [shows o ts s]: standard output has got [s] when the output stage has received
    the tokens [ts] and waits for the next one. *)
Definition shows (o : jp_options) (ts : list token) (s : bytes) : Prop :=
  exists n, forall fuel, n <= fuel -> on_stdout fuel o ts = Ok s.

Lemma calls_settled : forall o ts fuel, 2 * length ts + 2 <= fuel -> encode_calls fuel o ts = encode_calls (2 * length ts + 2) o ts.
Proof. intros o ts fuel L. destruct (encode_calls_stable o ts) as (cs & e & _ & H). now rewrite (H fuel L), (H _ (le_n _)). Qed.
Lemma shows_at : forall o ts s, shows o ts s <-> on_stdout (2 * length ts + 2) o ts = Ok s.
Proof.
  intros o ts s. assert (E : forall fuel, 2 * length ts + 2 <= fuel -> on_stdout fuel o ts = on_stdout (2 * length ts + 2) o ts) by (intros fuel L; unfold on_stdout; now rewrite (calls_settled o ts fuel L)).
  split.
  - intros [n H]. rewrite <- (E (n + (2 * length ts + 2))) by lia. apply H. lia.
  - intro H. exists (2 * length ts + 2). intros fuel L. now rewrite E.
Qed.
Lemma shows_unique : forall o ts s s', shows o ts s -> shows o ts s' -> s = s'.
Proof. intros o ts s s' H H'. rewrite shows_at in *. congruence. Qed.
Lemma hears_unique : forall chunks size ts ts', hears chunks size ts -> hears chunks size ts' -> ts = ts'.
Proof. intros chunks size ts ts' [n H] [m H']. specialize (H (n + m) ltac:(lia)). specialize (H' (n + m) ltac:(lia)). congruence. Qed.
Lemma prints_printed : forall o ts out ok, prints o ts out ok -> out = printed (2 * length ts + 2) o ts /\
  (ok = true -> exists r, snd (encode_calls (2 * length ts + 2) o ts) = EDone tt r).
Proof.
  intros o ts out ok [n P]. specialize (P (n + (2 * length ts + 2)) ltac:(lia)). pose proof (calls_settled o ts (n + (2 * length ts + 2)) ltac:(lia)) as E.
  unfold printed. rewrite <- E. unfold encode_calls, consume_jpv, consume_json in *. destruct (jo_jpv o).
  - destruct (jconsume_loop _ _ _ ts) as [cs e]. cbn [failing_write fst snd] in *. injection P as <- X. split; [reflexivity|]. intros ->. destruct e as [[] r| |]; try discriminate. eauto.
  - destruct (consume_loop _ _ _ _ ts) as [cs e]. cbn [failing_write fst snd] in *. injection P as <- X. split; [reflexivity|]. intros ->. destruct e as [[] r| |]; try discriminate. eauto.
Qed.

(** C66.  The decoder does not wait for more than it needs: when it waits, it has
    sent every token that is complete in what it has received, however that was cut
    into chunks. *)
Theorem C66_decoder : forall ts chunks size, received ts (concat chunks) -> ok_runs 99 chunks = true -> 2 <= size -> hears chunks size ts.
Proof. intros ts chunks size R K SZ. exists (2 * length (concat chunks) + 2). intros fuel L. now apply (decode_waits ts (concat chunks)). Qed.
Print Assumptions C66_decoder.

(** What is on standard output stays there when more tokens arrive. *)
Theorem C66_grows : forall o ts more, exists s s', shows o ts s /\ shows o (ts ++ more) (s ++ s').
Proof.
  intros o ts more. set (n := 2 * length (ts ++ more) + 2). destruct (stdout_grows n o ts more) as (s & s' & A & B). exists s, s'. split.
  - rewrite shows_at, <- A. unfold on_stdout. rewrite (calls_settled o ts n); [reflexivity|]. subst n. rewrite app_length. lia.
  - now rewrite shows_at.
Qed.
Print Assumptions C66_grows.

(** On a terminal, when the encoder is between two values, all that has been
    printed is on standard output, in both formats. *)
Theorem C66_terminal : forall o ts out, jo_tty o = true -> prints o ts out true -> shows o ts out.
Proof.
  intros o ts out T P. destruct (prints_printed o ts out true P) as [-> D]. destruct (D eq_refl) as [r R]. rewrite shows_at.
  destruct (encode_calls (2 * length ts + 2) o ts) as [cs e] eqn:E. cbn [snd] in R. subst e.
  destruct (calls_end o _ ts cs r E) as [->|[c ->]].
  - unfold on_stdout, printed. rewrite E. reflexivity.
  - apply stdout_flushed. rewrite E, T. apply run_reset.
Qed.
Print Assumptions C66_terminal.

(** The command jp without arguments, on a terminal, with JSON on both sides, when
    it has received complete values (a number is complete with the byte after it):
    all of them are on the terminal. *)
Theorem C66_jp : forall o vs chunks, jo_jpv o = false -> jo_tty o = true -> received (stream vs) (concat chunks) -> ok_runs 99 chunks = true ->
  hears chunks jp_scanner (stream vs) /\
  shows o (stream vs) (flat_map (fun v => layout (painted (jo_color o)) (jo_width o) 2 (jo_indent o) 0 v ++ [10%N]) vs).
Proof.
  intros o vs chunks J T R K. split; [apply C66_decoder; auto; unfold jp_scanner; lia|]. apply C66_terminal; [exact T|].
  exact (prints_encodes o _ _ J (C65_layout (mkSettings (jo_color o) (jo_width o) 2 (jo_indent o) (jo_tty o)) vs)).
Qed.
Print Assumptions C66_jp.

(* ------------------------------------------------------------------ *)
(** Tokens of JSON texts. *)
Lemma fine_canon : forall v, valid true v -> Forall (fun t => plain_token t /\ quoted t) (toks (canon v)).
Proof.
  assert (S1 : forall s, valid_scalar true s -> plain_token (TScalar (canon_scalar s)) /\ quoted (TScalar (canon_scalar s))).
  { intros s V. unfold canon_scalar. pose proof (scalar_no_break s V) as NB. unfold valid_scalar in V. destruct (sc_type s); cbn [plain_token quoted new_scalar sc_bytes sc_alnum]; try (split; [exact NB|discriminate]).
    destruct V as (c & E & _). rewrite E, contents_quoted in *. cbn [string_scalar sc_bytes sc_alnum] in *. split; [exact NB|]. intros _. cbn [length]. rewrite app_length. cbn [length]. lia. }
  apply (jval_induction (fun v => valid true v -> Forall (fun t => plain_token t /\ quoted t) (toks (canon v)))).
  - intros s V. inversion V; subst. cbn [canon toks]. constructor; [now apply S1|constructor].
  - intros l e H V. inversion V as [|? F|]; subst. cbn [canon toks]. constructor; [split; exact I|]. apply Forall_app. split; [|repeat constructor].
    rewrite Forall_forall in *. intros t T. apply in_flat_map in T as (x & X & T). apply in_map_iff in X as (y & <- & Y). specialize (H y Y (F y Y)). rewrite Forall_forall in H. auto.
  - intros l e H V. inversion V as [| |? F]; subst. cbn [canon toks]. constructor; [split; exact I|]. apply Forall_app. split; [|repeat constructor].
    rewrite Forall_forall in *. intros t T. apply in_flat_map in T as (x & X & T). apply in_map_iff in X as (y & <- & Y). destruct (F y Y) as [KT VY]. cbn [fst snd] in T. destruct T as [<-|T].
    + pose proof (key_no_break (fst y) KT) as NB. destruct KT as (c & E & _). rewrite E, contents_quoted in *. split; [exact NB|]. intros _. cbn [key_scalar sc_bytes length]. rewrite app_length. cbn [length]. lia.
    + specialize (H y Y VY). rewrite Forall_forall in H. auto.
Qed.
Lemma fine_value : forall v t, vtext true v t -> Forall (fun t => plain_token t /\ quoted t) (toks v).
Proof. intros v t V. destruct (proj1 (vtext_canon true) v t V) as [VV CV]. rewrite <- CV. now apply fine_canon. Qed.
Lemma fine_key : forall c, chars true c -> plain_token (TScalar (key_scalar c)) /\ quoted (TScalar (key_scalar c)).
Proof.
  intros c C. split; [|intros _; cbn [key_scalar sc_bytes length]; rewrite app_length; cbn [length]; lia]. apply (key_no_break (key_scalar c)). exists c. split; [reflexivity|exact C].
Qed.
Lemma fine_items : forall l t, items l t -> Forall (fun t => plain_token t /\ quoted t) (flat_map toks l).
Proof. intros l t H. induction H as [|w1 v t w2 l r W1 V W2 H IH]; [constructor|]. cbn [flat_map]. apply Forall_app. split; [exact (fine_value v t V)|exact IH]. Qed.
Lemma fine_fields : forall l t, fields l t -> Forall (fun t => plain_token t /\ quoted t) (flat_map member_toks l).
Proof.
  intros l t H. induction H as [|w1 c w2 w3 v t w4 l r W1 C W2 W3 V W4 H IH]; [constructor|]. cbn [flat_map]. unfold member_toks at 1. cbn [fst snd app].
  constructor; [now apply fine_key|]. apply Forall_app. split; [exact (fine_value v t V)|exact IH].
Qed.
Lemma fine_received : forall ts t, received ts t -> Forall (fun t => plain_token t /\ quoted t) ts.
Proof.
  assert (O : (forall ts u, opened ts u -> Forall (fun t => plain_token t /\ quoted t) ts) /\ (forall ts u, begun ts u -> Forall (fun t => plain_token t /\ quoted t) ts) /\ (forall ts u, begun_member ts u -> Forall (fun t => plain_token t /\ quoted t) ts)).
  { apply opened_ind3.
    - intros w l t ts u W I0 B IH. constructor; [split; exact I|]. apply Forall_app. split; [exact (fine_items _ _ I0)|exact IH].
    - intros w l t ts u W I0 B IH. constructor; [split; exact I|]. apply Forall_app. split; [exact (fine_fields _ _ I0)|exact IH].
    - constructor.
    - intros w v t w2 W V W2 D. exact (fine_value v t V).
    - auto.
    - constructor.
    - intros w c w2 W C W2. constructor; [now apply fine_key|constructor].
    - intros w c w2 ts u W C W2 B IH. constructor; [now apply fine_key|exact IH]. }
  intros ts t R. induction R as [w W|ts t R|w v t ts r W V D R IH]; [constructor|exact (proj1 O ts t R)|]. apply Forall_app. split; [exact (fine_value v t V)|exact IH].
Qed.
Definition jp_colours (o : jp_options) : Prop := jo_color o = None \/ jo_color o = Some default_colorizer.
Lemma colours_quiet : forall o, jp_colours o -> quiet (jo_color o).
Proof.
  intros o [->| ->]; [exact I|]. intro s. unfold default_colorizer, scalar_color. split; [destruct (sc_key s); [|destruct (sc_type s)]|]; cbn; intro X; repeat (destruct X as [X|X]; [discriminate|]); exact X.
Qed.

(** On a terminal every complete line that has been printed is on standard
    output, even in the middle of a value. *)
Theorem C66_lines : forall o ts t out ok, jo_jpv o = false -> jo_tty o = true -> jp_colours o -> received ts t -> prints o ts out ok ->
  exists s rest, shows o ts s /\ out = s ++ rest /\ ~ In 10%N rest.
Proof.
  intros o ts t out ok J T CO R P. destruct (prints_printed _ _ _ _ P) as [-> _].
  assert (F : Forall plain_token ts) by (eapply Forall_impl; [|exact (fine_received ts t R)]; intros x H; apply H).
  destruct (stdout_lines (2 * length ts + 2) o ts J T (colours_quiet o CO) F (le_n _)) as (s & rest & S1 & S2 & S3). exists s, rest. split; [now rewrite shows_at|]. split; [exact S2|exact S3].
Qed.
Print Assumptions C66_lines.

(** With JPV output on a terminal nothing that has been printed is held back: the
    line of every scalar received is on standard output.  (With -json-compact the
    printer makes no line breaks in JPV output and does not flush.) *)
Theorem C66_jpv : forall o ts t out ok, jo_jpv o = true -> jo_tty o = true -> (0 <= jo_indent o)%Z -> received ts t -> prints o ts out ok -> shows o ts out.
Proof.
  intros o ts t out ok J T IN R P. destruct (prints_printed _ _ _ _ P) as [-> _]. rewrite shows_at.
  apply stdout_jpv; auto. eapply Forall_impl; [|exact (fine_received ts t R)]. intros x H. apply H.
Qed.
Print Assumptions C66_jpv.

(** Whether standard output is a terminal or not, the bytes that are held back are
    fewer than its buffer holds. *)
Theorem C66_pipe : forall o ts out ok, prints o ts out ok -> exists s rest, shows o ts s /\ out = s ++ rest /\ length rest <= jp_buffer.
Proof.
  intros o ts out ok P. destruct (prints_printed _ _ _ _ P) as [-> _]. destruct (stdout_most (2 * length ts + 2) o ts) as (s & rest & S1 & S2 & S3).
  exists s, rest. split; [now rewrite shows_at|]. split; [exact S2|exact S3].
Qed.
Print Assumptions C66_pipe.

(** Records in a top-level array that has not ended: on a terminal, when the next
    one begins (and whatever comes then), those before it are on standard output,
    each laid out as in the complete output. *)
Theorem C66_records : forall o vs l next ts, jo_jpv o = false -> jo_tty o = true -> (0 <= jo_indent o)%Z ->
  l <> [] -> Forall collection l -> starts next ->
  let lay := layout (painted (jo_color o)) (jo_width o) 2 (jo_indent o) in let brk := break (jo_indent o) in
  exists s, shows o (stream vs ++ TStartArr :: flat_map toks l ++ next :: ts)
    ((flat_map (fun v => lay 0%Z v ++ [10%N]) vs ++ 91%N :: brk 1%Z ++ join (44%N :: brk 1%Z) (map (lay 1%Z) l) ++ [44; 10]%N) ++ s).
Proof.
  intros o vs l next ts J T IN NE CL SN lay brk. destruct (stdout_open o vs l next ts J T IN NE CL SN) as (n & H).
  set (all := stream vs ++ TStartArr :: flat_map toks l ++ next :: ts) in *. destruct (H (n + (2 * length all + 2)) ltac:(lia)) as [s E]. exists s. rewrite shows_at. refine (eq_trans _ E).
  unfold on_stdout. rewrite (calls_settled o all (n + (2 * length all + 2))) by lia. reflexivity.
Qed.
Print Assumptions C66_records.

(* ------------------------------------------------------------------ *)
(** What is promised and does not hold. *)

(** "Pipes where you want immediate results" (help text of jp), "Each tool in the
    chain starts working immediately" (README): when standard output is not a
    terminal, complete values are held back. *)
Definition pipe_options : jp_options := mkJpOptions false None 2 80 false false.
Definition terminal_options : jp_options := mkJpOptions false None 2 80 false true.
Definition record_text : bytes := text "{""id"": [true, null]}".
Definition record_value : jval := JObj [(key_scalar (text "id"), JArr [JScalar true_scalar; JScalar null_scalar] false)] false.
Lemma blank : ws [32%N].
Proof. constructor; [unfold ws_byte; lia|constructor]. Qed.
Lemma line_feed : ws [10%N].
Proof. constructor; [unfold ws_byte; lia|constructor]. Qed.
Lemma id_chars : chars true (text "id").
Proof. change (chars true [105; 100]%N). repeat (apply ch_plain; [unfold plain_byte; lia|]). apply ch_nil. Qed.
Lemma record_vtext : vtext true record_value record_text.
Proof.
  apply (vt_obj true _ (text """id"": [true, null]")).
  apply (me_one true [] (text "id") [] (text " ") (JArr [JScalar true_scalar; JScalar null_scalar] false) (text "[true, null]") []); try (constructor; fail).
  - exact id_chars.
  - exact blank.
  - apply (vt_arr true _ (text "true, null")). apply (el_cons true [] (JScalar true_scalar) (text "true") [] [JScalar null_scalar] (text " null")); try (constructor; fail).
    apply (el_one true (text " ") (JScalar null_scalar) (text "null") []); [exact blank|constructor|constructor].
Qed.
Lemma not_digit : forall t b, t <> [] -> last t 0%N = b -> ~ digit b -> ~ ends_in_digit t.
Proof. intros t b NE L ND (t' & d & -> & D). rewrite last_last in L. subst. contradiction. Qed.
Lemma record_no_digit : ~ ends_in_digit record_text.
Proof. apply (not_digit _ 125%N); [discriminate|reflexivity|unfold digit; lia]. Qed.

(** Two complete records and a line feed after each of them, in three chunks. *)
Definition log_chunks : list bytes := [firstn 7 record_text; skipn 7 record_text ++ [10%N] ++ firstn 3 record_text; skipn 3 record_text ++ [10%N]].
Lemma log_received : received (stream [record_value; record_value]) (concat log_chunks).
Proof.
  assert (R : received [] [10%N]) by (apply re_none; exact line_feed).
  assert (R1 : received (toks record_value ++ []) ([10%N] ++ record_text ++ [10%N])).
  { apply (re_value [10%N]); [exact line_feed|exact record_vtext|intro D; destruct (record_no_digit D)|exact R]. }
  exact (re_value [] record_value record_text _ _ (Forall_nil _) record_vtext (fun D => match record_no_digit D with end) R1).
Qed.
Theorem C66_pipe_refuted : exists o vs chunks, jo_jpv o = false /\ jo_tty o = false /\ vs <> [] /\ received (stream vs) (concat chunks) /\
  hears chunks jp_scanner (stream vs) /\ shows o (stream vs) [].
Proof.
  exists pipe_options, [record_value; record_value], log_chunks. split; [reflexivity|]. split; [reflexivity|]. split; [discriminate|]. split; [exact log_received|]. split.
  - apply C66_decoder; [exact log_received|reflexivity|unfold jp_scanner; lia].
  - apply shows_at. vm_compute. reflexivity.
Qed.
Print Assumptions C66_pipe_refuted.

(** "Immediate output: start seeing results right away": on a terminal, a record of
    an array is complete but its last line is held back until something follows. *)
Lemma array_received : received (TStartArr :: toks record_value) (91%N :: record_text).
Proof.
  apply re_opened. apply (op_array [] [] [] (toks record_value) record_text); [constructor|constructor|]. 
  assert (E : record_text = [] ++ record_text ++ []) by (rewrite app_nil_r; reflexivity). rewrite E at 1. apply be_whole; [constructor|exact record_vtext|constructor|]. intro D. destruct (record_no_digit D).
Qed.
Theorem C66_record_refuted : exists o v chunks, jo_jpv o = false /\ jo_tty o = true /\ collection v /\ received (TStartArr :: toks v) (concat chunks) /\
  hears chunks jp_scanner (TStartArr :: toks v) /\ shows o (TStartArr :: toks v) (text "[" ++ [10%N] ++ text "  {" ++ [10%N] ++ text "    ""id"": [true, null]" ++ [10%N]) /\
  layout (painted (jo_color o)) (jo_width o) 2 (jo_indent o) 1 v = text "{" ++ [10%N] ++ text "    ""id"": [true, null]" ++ [10%N] ++ text "  }".
Proof.
  exists terminal_options, record_value, [91%N :: record_text]. split; [reflexivity|]. split; [reflexivity|]. split; [exact I|].
  assert (R : received (TStartArr :: toks record_value) (concat [91%N :: record_text])) by (cbn [concat]; rewrite app_nil_r; exact array_received).
  split; [exact R|]. split; [apply C66_decoder; [exact R|reflexivity|unfold jp_scanner; lia]|]. split; [apply shows_at|]; vm_compute; reflexivity.
Qed.
Print Assumptions C66_record_refuted.

(* ------------------------------------------------------------------ *)
(** Examples. *)
Example C66_example_values :
  hears log_chunks jp_scanner (stream [record_value; record_value]) /\
  shows terminal_options (stream [record_value; record_value]) (let r := text "{" ++ [10%N] ++ text "  ""id"": [true, null]" ++ [10%N] ++ text "}" ++ [10%N] in r ++ r).
Proof. exact (C66_jp terminal_options [record_value; record_value] log_chunks eq_refl eq_refl log_received eq_refl). Qed.
(** In the middle of the second member of an object in an array. *)
Definition cut_text : bytes := text "[" ++ record_text ++ text ", {""id"": true, ""id"" : [".
Example C66_example_cut : received (TStartArr :: toks record_value ++ [TStartObj; TScalar (key_scalar (text "id")); TScalar true_scalar; TScalar (key_scalar (text "id")); TStartArr]) cut_text.
Proof.
  assert (A : begun [TStartArr] (text " [")) by (apply be_opened; apply (op_array (text " ") [] [] [] []); [exact blank|constructor|constructor; constructor]).
  assert (M : begun_member [TScalar (key_scalar (text "id")); TStartArr] (text " ""id"" : [")) by (apply (bm_value (text " ") (text "id") (text " ") [TStartArr] (text " [")); [exact blank|exact id_chars|exact blank|exact A]).
  assert (F : fields [(key_scalar (text "id"), JScalar true_scalar)] (text """id"": true,")).
  { apply (fi_cons [] (text "id") [] (text " ") (JScalar true_scalar) (text "true") [] [] []); try (constructor; fail); [exact id_chars|exact blank]. }
  assert (O : opened [TStartObj; TScalar (key_scalar (text "id")); TScalar true_scalar; TScalar (key_scalar (text "id")); TStartArr] (text " {""id"": true, ""id"" : ["))
    by exact (op_object (text " ") _ _ _ _ blank F M).
  assert (L : items [record_value] (record_text ++ [44%N])) by exact (it_cons [] record_value record_text [] [] [] (Forall_nil _) record_vtext (Forall_nil _) it_nil).
  apply re_opened. exact (op_array [] [record_value] _ _ _ (Forall_nil _) L (be_opened _ _ O)).
Qed.
(** What is on the terminal then. *)
Example C66_example_records : shows terminal_options (TStartArr :: toks record_value ++ [TStartObj; TScalar (key_scalar (text "id")); TScalar true_scalar; TScalar (key_scalar (text "id")); TStartArr])
  (text "[" ++ [10%N] ++ text "  {" ++ [10%N] ++ text "    ""id"": [true, null]" ++ [10%N] ++ text "  }," ++ [10%N] ++ text "  {" ++ [10%N] ++ text "    ""id"": true," ++ [10%N]).
Proof. apply shows_at. vm_compute. reflexivity. Qed.
Example C66_example_jpv : shows (mkJpOptions true None 2 80 false true) (TStartArr :: toks record_value ++ [TStartObj; TScalar (key_scalar (text "id")); TScalar true_scalar])
  (text "$[0].id[0] = true" ++ [10%N] ++ text "$[0].id[1] = null" ++ [10%N] ++ text "$[1].id = true" ++ [10%N]).
Proof. apply shows_at. vm_compute. reflexivity. Qed.

(** C49 to C52: the command jp. *)
From Coq Require Import List Arith ZArith NArith Bool Lia.
From Verif Require Import Base Tokens ScannerModel ScannerSpec ProgModel JsonDecValue JsonSpec EncSpec JsonEncProofs PrinterModel JsonEncModel JpvEncModel MainModel MainProofs
  JsonDecModel P_JsonDec P_JsonEnc.

(** [prints o ts out]: encoding the tokens [ts] as the options [o] say, to a
    writer that never fails, gives the bytes [out]; [ok] tells whether the
    encoder has reached the end of the stream (it panics on streams that are cut
    off).  [n] only bounds the loops of the model. *)
Definition prints (o : jp_options) (ts : list token) (out : bytes) (ok : bool) : Prop :=
  exists n, forall fuel, n <= fuel ->
    (if jo_jpv o then consume_jpv fuel (jo_color o) (jo_quote o) (jo_indent o) (jo_tty o) None ts
     else consume_json fuel (jo_color o) (jo_width o) 2 (jo_indent o) (jo_tty o) None ts)
    = (out, if ok then CNil else CPanic).

(** [leaves_behind o epipe room ts oc]: when the tokens that reach the output
    stage are [ts] and standard output takes [room] bytes, the process ends with
    the outcome [oc]. *)
Definition leaves_behind (o : jp_options) (epipe : bool) (room : option nat) (ts : list token) (oc : outcome) : Prop :=
  exists n, forall fuel, n <= fuel -> jp_output fuel o epipe room ts = Ok oc.

(** Both relations are functions of the tokens. *)
Theorem C49_output_defined : forall o ts, exists out ok, prints o ts out ok.
Proof.
  intros o ts. destruct (encode_calls_stable o ts) as [cs [e [NE H]]]. unfold encode_calls in H.
  exists (written (printer_run (jo_indent o) (jo_tty o) 0 cs)), (match e with EDone _ _ => true | _ => false end).
  exists (2 * length ts + 2). intros f L. specialize (H f L). unfold consume_jpv, consume_json.
  destruct (jo_jpv o); rewrite H; cbn [failing_write]; destruct e; congruence.
Qed.
Print Assumptions C49_output_defined.

Lemma run_facts : forall o epipe room ts out ok, prints o ts out ok ->
  exists oc, leaves_behind o epipe room ts oc /\
    oc_stdout oc = taken room out /\
    (oc_status oc = 0%Z \/ oc_status oc = 1%Z /\ epipe = false /\ exists k, room = Some k /\ k < length out) /\
    (epipe = false -> oc_status oc = 0%Z -> forall k, room = Some k -> length out <= k + jp_buffer) /\
    (jo_tty o = true -> ok = true -> epipe = false -> oc_status oc = 0%Z -> forall k, room = Some k -> length out <= k).
Proof.
  intros o epipe room ts out ok [n P].
  destruct (encode_calls_stable o ts) as [cs [e [NE H]]].
  assert (W : out = written (printer_run (jo_indent o) (jo_tty o) 0 cs) /\ (ok = true -> exists r, e = EDone tt r)).
  { specialize (P (n + (2 * length ts + 2)) ltac:(lia)). specialize (H (n + (2 * length ts + 2)) ltac:(lia)).
    unfold encode_calls, consume_jpv, consume_json in *. destruct (jo_jpv o); rewrite H in P; cbn [failing_write] in P;
      injection P as <- E; (split; [reflexivity|]); intros ->; destruct e as [[] r| |]; try discriminate; eauto. }
  destruct W as [-> OK].
  destruct (jp_end_spec _ jp_buffer (jo_indent o) (jo_tty o) epipe room cs e ltac:(unfold jp_buffer; lia) NE)
    as [oc [E [S1 [S2 [S3 S4]]]]].
  exists oc. split; [exists (2 * length ts + 2); intros f L; unfold jp_output; rewrite (H f L); exact E|].
  split; [exact S1|]. split; [exact S2|]. split; [exact S3|].
  intros T OKT EP ST k RK. destruct (OK OKT) as [r ->].
  destruct (calls_end o _ ts cs r (H _ (le_n _))) as [->|[c ->]]; [cbn; lia|].
  apply S4; auto. rewrite T. apply run_reset.
Qed.
Lemma leaves_unique : forall o epipe room ts a b, leaves_behind o epipe room ts a -> leaves_behind o epipe room ts b -> a = b.
Proof.
  intros o epipe room ts a b [n A] [m B]. specialize (A (n + m) ltac:(lia)). specialize (B (n + m) ltac:(lia)). congruence.
Qed.

Lemma leaves_vm : forall o epipe room ts oc, jp_output (2 * length ts + 2) o epipe room ts = Ok oc -> leaves_behind o epipe room ts oc.
Proof.
  intros o epipe room ts oc E. destruct (encode_calls_stable o ts) as [cs [e [_ H]]].
  exists (2 * length ts + 2). intros f L. rewrite <- E. unfold jp_output. rewrite (H f L), (H _ (le_n _)). reflexivity.
Qed.

(* ------------------------------------------------------------------ *)
(** C49.  As long as standard output takes all that is written to it, all of the
    output arrives there, in order, whatever the buffering, and the status is 0. *)
Theorem C49_complete_output :
  forall (o : jp_options) (epipe : bool) (ts : list token) (out : bytes) (ok : bool) (room : option nat),
    prints o ts out ok ->
    (forall k, room = Some k -> length out <= k) ->
    leaves_behind o epipe room ts (mkOutcome out 0).
Proof.
  intros o epipe ts out ok room P R. destruct (run_facts o epipe room ts out ok P) as [[b s] [L [S1 [S2 _]]]].
  cbn [oc_stdout oc_status] in *. replace b with out in L.
  - destruct S2 as [->|[_ [_ [k [K LT]]]]]; [exact L|]. specialize (R k K). lia.
  - rewrite S1. destruct room as [k|]; [|reflexivity]. cbn [taken]. symmetry. apply firstn_all2. auto.
Qed.
Print Assumptions C49_complete_output.

(** If it fails after [k] bytes, it has received exactly the first [k] bytes of
    the output; and the status 1 is given only if bytes are missing. *)
Theorem C49_first_bytes :
  forall (o : jp_options) (epipe : bool) (ts : list token) (out : bytes) (ok : bool) (k : nat) (oc : outcome),
    prints o ts out ok ->
    leaves_behind o epipe (Some k) ts oc ->
    oc_stdout oc = firstn k out /\
    (oc_status oc = 0%Z \/ oc_status oc = 1%Z /\ k < length out /\ epipe = false).
Proof.
  intros o epipe ts out ok k oc P L. destruct (run_facts o epipe (Some k) ts out ok P) as [oc' [L' [S1 [S2 _]]]].
  rewrite (leaves_unique _ _ _ _ _ _ L L'). split; [exact S1|].
  destruct S2 as [E|[E [X [k' [K LT]]]]]; [left; exact E|]. injection K as <-. right. auto.
Qed.
Print Assumptions C49_first_bytes.

(** Status 0 and no broken pipe: on a terminal the output is complete, and
    elsewhere at most the size of the buffer, 4096 bytes, is missing. *)
Theorem C49_status_on_terminals :
  forall (o : jp_options) (ts : list token) (out : bytes) (k : nat) (oc : outcome),
    jo_tty o = true -> prints o ts out true ->
    leaves_behind o false (Some k) ts oc -> oc_status oc = 0%Z ->
    oc_stdout oc = out.
Proof.
  intros o ts out k oc T P L S. destruct (run_facts o false (Some k) ts out true P) as [oc' [L' [S1 [_ [_ S4]]]]].
  rewrite (leaves_unique _ _ _ _ _ _ L L') in *. rewrite S1. cbn [taken]. apply firstn_all2. auto.
Qed.
Print Assumptions C49_status_on_terminals.

Theorem C49_status_partial :
  forall (o : jp_options) (ts : list token) (out : bytes) (ok : bool) (k : nat) (oc : outcome),
    prints o ts out ok ->
    leaves_behind o false (Some k) ts oc -> oc_status oc = 0%Z ->
    (Z.of_nat (length out) <= Z.of_nat (length (oc_stdout oc)) + 4096)%Z.
Proof.
  intros o ts out ok k oc P L S. destruct (run_facts o false (Some k) ts out ok P) as [oc' [L' [S1 [_ [S3 _]]]]].
  rewrite (leaves_unique _ _ _ _ _ _ L L') in *. rewrite S1. cbn [taken]. rewrite firstn_length.
  specialize (S3 eq_refl S k eq_refl).
  assert (B : Z.of_nat jp_buffer = 4096%Z) by (unfold jp_buffer; rewrite Z2Nat.id; [reflexivity|lia]).
  lia.
Qed.
Print Assumptions C49_status_partial.

(** With a full device and an output that fits in the buffer nothing arrives and
    the status is 0. *)
Definition default_options : jp_options := mkJpOptions false None 2 60 false false.
Theorem C49_status_refuted :
  exists ts out, out <> [] /\ prints default_options ts out true /\
    leaves_behind default_options false (Some 0) ts (mkOutcome [] 0).
Proof.
  exists (stream ex_vals). eexists. split; [|split].
  2:{ apply (encodes_vm (mkSettings None 60 2 2 false) None (stream ex_vals)). vm_compute. reflexivity. }
  - discriminate.
  - apply leaves_vm. vm_compute. reflexivity.
Qed.
Print Assumptions C49_status_refuted.

(** The same on a terminal: the write of the first line fails, status 1. *)
Example C49_terminal_example :
  leaves_behind (mkJpOptions false None 2 60 false true) false (Some 3) (stream ex_vals) (mkOutcome [123; 34; 97]%N 1) /\
  leaves_behind (mkJpOptions false None 2 60 false true) true (Some 3) (stream ex_vals) (mkOutcome [123; 34; 97]%N 0) /\
  leaves_behind (mkJpOptions true None 2 60 false false) false None (stream [JArr [JScalar (new_scalar TNum [50%N])] false])
    (mkOutcome [36; 91; 48; 93; 32; 61; 32; 50; 10; 10]%N 0).
Proof. split; [|split]; apply leaves_vm; vm_compute; reflexivity. Qed.

(** An output of 5000 spaces in a string: the buffer is full, the device too. *)
Example C49_status_one :
  leaves_behind default_options false (Some 7)
    (stream [JScalar (new_scalar TStr (34%N :: repeat 32%N (Z.to_nat 5000) ++ [34%N]))]) (mkOutcome [34; 32; 32; 32; 32; 32; 32]%N 1).
Proof. apply leaves_vm. vm_compute. reflexivity. Qed.

(* ------------------------------------------------------------------ *)
(** C50.  The status does not tell whether the input was valid: for every input,
    complete, malformed or cut off, and whatever transformers make of it, the
    status is 0 as long as standard output works. *)
Theorem C50_status_ignores_the_input :
  forall (o : jp_options) (epipe : bool) (ts : list token) (oc : outcome),
    leaves_behind o epipe None ts oc -> oc_status oc = 0%Z.
Proof.
  intros o epipe ts oc L. destruct (C49_output_defined o ts) as [out [ok P]].
  rewrite (leaves_unique _ _ _ _ _ _ L (C49_complete_output o epipe ts out ok None P ltac:(discriminate))). reflexivity.
Qed.
Print Assumptions C50_status_ignores_the_input.

(** A malformed input with status 0: the decoder reports an error, the encoder
    panics, a part of the output is delivered. *)
Theorem C50_status_refuted :
  exists r ts e oc, decodes r 16 ts (DErr e) /\
    leaves_behind default_options false None ts oc /\ oc_status oc = 0%Z /\ oc_stdout oc <> [].
Proof.
  exists (one_chunk [91; 91; 49; 93; 44; 50]%N). eexists _, _, _. split; [apply (decodes_vm _ _ 30); vm_compute; reflexivity|].
  split; [apply leaves_vm; vm_compute; reflexivity|]. split; [reflexivity|discriminate].
Qed.
Print Assumptions C50_status_refuted.

(* ------------------------------------------------------------------ *)
(** C51.  [jp -in json -out json], without transformers and colours: what it
    leaves behind for the input read from [r]; [x] is what the decoder returns. *)
Definition reformats (o : jp_options) (r : reader) (x : dres unit) (oc : outcome) : Prop :=
  exists size ts, 2 <= size /\ decodes r size ts x /\ leaves_behind o false None ts oc.
Definition json_options (o : jp_options) : Prop := jo_jpv o = false /\ jo_color o = None.
(** The input is [t], in any pieces (not too many of them empty). *)
Definition delivers (r : reader) (t : bytes) : Prop :=
  input r = t /\ ok_runs 99 (rd_chunks r) = true /\ rd_fin r = RdEOF.

Lemma prints_encodes : forall o ts out, jo_jpv o = false ->
  encodes (mkSettings (jo_color o) (jo_width o) 2 (jo_indent o) (jo_tty o)) None ts out CNil -> prints o ts out true.
Proof. intros o ts out J [n H]. exists n. intros f L. rewrite J. exact (H f L). Qed.

(** For every valid JSON text [t] there is one outcome, however [t] is delivered:
    status 0 and a JSON text of the same values. *)
Theorem C51_reformats_valid_json :
  forall (o : jp_options) (t : bytes) (vs : list jval),
    json_options o -> stext true ws_separated vs t ->
    exists t', stext true ws_separated vs t' /\
      forall r, delivers r t ->
        reformats o r (DOk tt) (mkOutcome t' 0) /\
        forall x oc, reformats o r x oc -> x = DOk tt /\ oc = mkOutcome t' 0.
Proof.
  intros o t vs [J C] T.
  assert (V : Forall (valid true) vs /\ map canon vs = vs).
  { clear -T. induction T as [|w v t vs r0 W V _ S [A B]]; [auto|].
    destruct (vtext_canon true) as [H _]. destruct (H v t V) as [Vv Ev]. split; [auto|]. cbn [map]. rewrite Ev, B. reflexivity. }
  destruct V as [V E].
  destruct (C13_round_trip (mkSettings (jo_color o) (jo_width o) 2 (jo_indent o) (jo_tty o)) true vs C V) as [out [EN [ST _]]].
  rewrite E in ST. exists out. split; [exact ST|]. intros r [I [K F]]. rewrite <- I in T.
  pose proof (fun size L => C07_valid_json_is_decoded r size vs L K F T) as D.
  assert (L : leaves_behind o false None (stream vs) (mkOutcome out 0)).
  { eapply C49_complete_output; [eapply prints_encodes; eauto|discriminate]. }
  split.
  - exists 16, (stream vs). split; [lia|]. split; [apply D; lia|exact L].
  - intros x oc (size & ts & SZ & D' & L'). destruct (decodes_unique _ _ _ _ _ _ D' (D size SZ)) as [-> ->].
    split; [reflexivity|]. exact (leaves_unique _ _ _ _ _ _ L' L).
Qed.
Print Assumptions C51_reformats_valid_json.

(** Reformatting again changes nothing, for every input that is accepted. *)
Theorem C51_reformatting_is_idempotent :
  forall (o : jp_options) (r r' : reader) (oc : outcome),
    json_options o -> ok_runs 99 (rd_chunks r) = true ->
    reformats o r (DOk tt) oc -> delivers r' (oc_stdout oc) ->
    reformats o r' (DOk tt) oc.
Proof.
  intros o r r' oc [J C] K (size & ts & SZ & D & L) [I [K' F']].
  destruct (C13_decode_encode_decode (mkSettings (jo_color o) (jo_width o) 2 (jo_indent o) (jo_tty o)) r size ts C SZ K D) as [out [EN H]].
  pose proof (C49_complete_output o false ts out true None (prints_encodes o ts out J EN) ltac:(discriminate)) as L'.
  rewrite (leaves_unique _ _ _ _ _ _ L L') in *. cbn [oc_stdout] in I.
  exists 16, ts. split; [lia|]. split; [|exact L']. apply H; auto; lia.
Qed.
Print Assumptions C51_reformatting_is_idempotent.

Example C51_example : exists oc,
  json_options default_options /\ reformats default_options (one_chunk [91; 49; 44; 123; 125; 93; 32; 50]%N) (DOk tt) oc /\
  oc = mkOutcome [91; 10; 32; 32; 49; 44; 10; 32; 32; 123; 125; 10; 93; 10; 50; 10]%N 0.
Proof.
  eexists. split; [split; reflexivity|]. split.
  - exists 16. eexists. split; [lia|]. split; [apply (decodes_vm _ _ 30); vm_compute; reflexivity|].
    apply leaves_vm. vm_compute. reflexivity.
  - reflexivity.
Qed.

(* ------------------------------------------------------------------ *)
(** C52.  What the arguments of jp stand for. *)

(** [decimal s n]: the digits [s] spell [n]. *)
Inductive decimal : bytes -> Z -> Prop :=
| dec_one : forall d, (48 <= d <= 57)%N -> decimal [d] (Z.of_N d - 48)
| dec_more : forall s n d, decimal s n -> (48 <= d <= 57)%N -> decimal (s ++ [d]) (10 * n + (Z.of_N d - 48)).
Definition int64_text (t : bytes) (z : Z) : Prop :=
  (- 2 ^ 63 <= z < 2 ^ 63)%Z /\
  exists s n, decimal s n /\ (t = s /\ z = n \/ t = 43%N :: s /\ z = n \/ t = 45%N :: s /\ z = (- n)%Z).

(** split, join, trace, depth=N and queries, which begin with a dollar. *)
Inductive stands_for : bytes -> transformer -> Prop :=
| sf_split : stands_for [115; 112; 108; 105; 116]%N TrSplit
| sf_join : stands_for [106; 111; 105; 110]%N TrJoin
| sf_trace : stands_for [116; 114; 97; 99; 101]%N TrTrace
| sf_depth : forall t z, int64_text t z -> stands_for ([100; 101; 112; 116; 104; 61]%N ++ t) (TrDepth z)
| sf_query : forall q, stands_for (36%N :: q) (TrQuery (36%N :: q)).

Lemma decimal_digits : forall s n, decimal s n <-> GrammarModel.digits_int s = Some n.
Proof.
  intros s. induction s as [|d s IH] using rev_ind; intros n.
  - split; [|discriminate]. intro H. inversion H as [|s n0 d D1 D2 E]. destruct s; discriminate.
  - assert (DE : GrammarModel.digits_int (s ++ [d]) =
      if forallb (fun d => (48 <=? d) && (d <=? 57))%N (s ++ [d])
      then Some (fold_left (fun acc d => (acc * 10 + (Z.of_N d - 48))%Z) (s ++ [d]) 0%Z) else None)
      by (destruct s; reflexivity).
    rewrite DE, forallb_app, fold_left_app. cbn [forallb fold_left]. rewrite andb_true_r. split.
    + intro H. inversion H as [d0 D E1 E2|s0 n0 d0 D1 D2 E1 E2].
      * assert (X : s = [] /\ d0 = d) by (destruct s as [|a [|]]; injection E1; intros; subst; auto; discriminate).
        destruct X as [-> ->]. cbn. replace ((48 <=? d) && (d <=? 57))%N with true by (symmetry; apply andb_true_intro; split; apply N.leb_le; lia). reflexivity.
      * apply app_inj_tail in E1 as [-> ->]. apply IH in D1. unfold GrammarModel.digits_int in D1. destruct s as [|a s]; [discriminate|].
        destruct (forallb _ (a :: s)); [|discriminate].
        apply (f_equal (fun o => match o with Some z => z | None => 0%Z end)) in D1. cbv beta iota in D1. rewrite D1.
        replace ((48 <=? d) && (d <=? 57))%N with true by (symmetry; apply andb_true_intro; split; apply N.leb_le; lia).
        cbn [andb]. f_equal. ring.
    + destruct (forallb _ s) eqn:F; [|discriminate]. cbn [andb]. destruct ((48 <=? d) && (d <=? 57))%N eqn:D; [|discriminate].
      apply andb_prop in D as [D1 D2]. apply N.leb_le in D1, D2. intro H. injection H as <-.
      destruct s as [|a s]; [apply dec_one; auto|].
      rewrite Z.mul_comm. apply (dec_more (a :: s)); [|auto]. apply IH. unfold GrammarModel.digits_int. rewrite F. reflexivity.
Qed.
Lemma decimal_first : forall s n, decimal s n -> exists b r, s = b :: r /\ (48 <= b <= 57)%N.
Proof.
  induction 1 as [d D|s n d D IH]; [eauto|]. destruct IH as (b & r & -> & B). exists b, (r ++ [d]). auto.
Qed.
Definition int64_of (m : option Z) : option Z :=
  match m with Some n => if (2 ^ 63 <=? n)%Z || (n <? - 2 ^ 63)%Z then None else Some n | None => None end.
Lemma int64_of_some : forall m z, int64_of m = Some z <-> m = Some z /\ (- 2 ^ 63 <= z < 2 ^ 63)%Z.
Proof.
  intros [n|] z; cbn [int64_of]; [|split; [discriminate|intros [X _]; discriminate]].
  destruct (Z.leb_spec (2 ^ 63) n); cbn [orb]; [split; [discriminate|intros [E B]; injection E as ->; lia]|].
  destruct (Z.ltb_spec n (- 2 ^ 63)); split; try discriminate.
  - intros [E B]; injection E as ->; lia.
  - intros E. injection E as <-. split; [reflexivity|lia].
  - intros [E _]. exact E.
Qed.
Lemma parse_other : forall b r, b <> 45%N -> b <> 43%N -> GrammarModel.go_parse_int (b :: r) = int64_of (GrammarModel.digits_int (b :: r)).
Proof.
  intros b r A B. unfold GrammarModel.go_parse_int. destruct b as [|p]; [reflexivity|].
  do 6 (destruct p as [p|p|]; try reflexivity); congruence.
Qed.
Lemma int64_parse : forall t z, int64_text t z <-> GrammarModel.go_parse_int t = Some z.
Proof.
  intros t z. destruct t as [|b r].
  { split; [|discriminate]. intros [_ (s & n & D & H)]. destruct (decimal_first s n D) as (b & r & -> & _).
    destruct H as [[X _]|[[X _]|[X _]]]; discriminate. }
  assert (G : GrammarModel.go_parse_int (b :: r) = int64_of (if (b =? 45)%N then option_map Z.opp (GrammarModel.digits_int r)
    else if (b =? 43)%N then GrammarModel.digits_int r else GrammarModel.digits_int (b :: r))).
  { destruct (N.eqb_spec b 45) as [->|A]; [reflexivity|]. destruct (N.eqb_spec b 43) as [->|B]; [reflexivity|]. now apply parse_other. }
  rewrite G, int64_of_some. unfold int64_text.
  assert (E : (exists s n, decimal s n /\ (b :: r = s /\ z = n \/ b :: r = 43%N :: s /\ z = n \/ b :: r = 45%N :: s /\ z = (- n)%Z)) <->
    (if (b =? 45)%N then option_map Z.opp (GrammarModel.digits_int r) else if (b =? 43)%N then GrammarModel.digits_int r else GrammarModel.digits_int (b :: r)) = Some z).
  2:{ rewrite E. tauto. }
  split.
  - intros (s & n & D & H). pose proof (decimal_first s n D) as (c & q & SE & CB). apply decimal_digits in D.
    destruct H as [[X ->]|[[X ->]|[X ->]]].
    + subst s. injection SE as -> ->. destruct (N.eqb_spec c 45); [lia|]. destruct (N.eqb_spec c 43); [lia|]. exact D.
    + injection X as -> ->. exact D.
    + injection X as -> ->. cbn. rewrite D. reflexivity.
  - destruct (N.eqb_spec b 45) as [->|A].
    + destruct (GrammarModel.digits_int r) as [n|] eqn:D; [|discriminate]. intro H. injection H as <-. exists r, n. split; [now apply decimal_digits|auto].
    + destruct (N.eqb_spec b 43) as [->|B]; intro H; apply decimal_digits in H; eauto 8.
Qed.

Lemma trim_some : forall pre s r, trim_prefix pre s = Some r <-> s = pre ++ r.
Proof.
  induction pre as [|a pre IH]; intros s r; cbn [trim_prefix app].
  - split; [intro H; injection H as ->; reflexivity|intros ->; reflexivity].
  - destruct s as [|b s]; [split; discriminate|]. destruct (N.eqb_spec a b) as [->|NE].
    + rewrite IH. split; [intros ->; reflexivity|intro H; injection H as ->; reflexivity].
    + split; [discriminate|]. intro H. injection H as H _. congruence.
Qed.

Theorem C52_arguments : forall (arg : bytes) (tr : transformer),
  parse_transformer arg = Some tr <-> stands_for arg tr.
Proof.
  intros arg tr. unfold parse_transformer. split.
  - destruct (bytes_eqb arg split_bytes) eqn:E1; [apply bytes_eqb_eq in E1 as ->; intro H; injection H as <-; constructor|].
    destruct (bytes_eqb arg join_bytes) eqn:E2; [apply bytes_eqb_eq in E2 as ->; intro H; injection H as <-; constructor|].
    destruct (bytes_eqb arg trace_bytes) eqn:E3; [apply bytes_eqb_eq in E3 as ->; intro H; injection H as <-; constructor|].
    destruct (trim_prefix dot_bytes arg); [discriminate|].
    destruct (trim_prefix depth_bytes arg) as [d|] eqn:E4.
    + apply trim_some in E4 as ->. destruct (GrammarModel.go_parse_int d) as [z|] eqn:G; [|discriminate]. intro H. injection H as <-.
      apply sf_depth. now apply int64_parse.
    + destruct (trim_prefix dollar_bytes arg) as [q|] eqn:E5; [|discriminate]. apply trim_some in E5 as ->. intro H. injection H as <-. constructor.
  - intro H. destruct H as [| | |t z H|q]; try reflexivity.
    apply int64_parse in H. cbn - [GrammarModel.go_parse_int]. rewrite H. reflexivity.
Qed.
Print Assumptions C52_arguments.

Example C52_example :
  stands_for [100; 101; 112; 116; 104; 61; 45; 48; 55]%N (TrDepth (-7)) /\
  (forall tr, ~ stands_for [46; 97]%N tr) /\ (forall tr, ~ stands_for [100; 101; 112; 116; 104; 61]%N tr).
Proof.
  split; [apply C52_arguments; reflexivity|]. split; intros tr H; apply C52_arguments in H; discriminate.
Qed.

(** Proofs about what a waiting jp command has written. *)
From Coq Require Import List Arith ZArith NArith Bool Lia.
From Verif Require Import Base Tokens JsonSpec EncSpec PrinterModel JsonEncModel JsonEncRel JpvEncModel JsonEncProofs MainModel MainProofs WaitModel LayoutSpec LayoutProofs.

(* ------------------------------------------------------------------ *)
(** The buffer over an output without limit. *)
Definition plain (size : nat) (w : bufw) : Prop := bw_err w = false /\ dv_room (bw_dev w) = None /\ length (bw_buf w) <= size.

Section Buffer.
Variable size : nat.
Hypothesis pos : 0 < size.

Lemma put_plain : forall ws w, plain size w -> exists w', put_all size w ws = Ok (w', false) /\ plain size w' /\ all_of w' = all_of w ++ written ws.
Proof.
  intros ws w (E & R & L). destruct (put_all_holds size pos ws w E L) as (w' & fl & P & F & H & RM). destruct (RM R) as [R' E'].
  rewrite E in E'. subst fl. rewrite E' in *. exists w'. split; [exact P|].
  destruct H as [(_ & A & LL)|(X & _)]; [|congruence]. split; [split; [exact E'|]; split; [exact R'|exact LL]|exact A].
Qed.
Lemma put_app : forall a w b w', put_all size w a = Ok (w', false) -> put_all size w (a ++ b) = put_all size w' b.
Proof.
  induction a as [|o a IH]; intros w b w' P; cbn [app put_all] in *; [injection P as ->; reflexivity|].
  destruct (match o with WWrite b => bw_write size w b | WFlush => Ok (bw_flush w) end) as [w1| |]; try discriminate. cbn [bind] in *.
  destruct (bw_err w1); [discriminate|]. now apply IH.
Qed.

Definition later (w w' : bufw) : Prop := exists g, got w' = got w ++ g.
Lemma later_refl : forall w, later w w.
Proof. intro w. exists []. now rewrite app_nil_r. Qed.
Lemma later_trans : forall a b c, later a b -> later b c -> later a c.
Proof. intros a b c [g G] [h K]. exists (g ++ h). now rewrite K, G, app_assoc. Qed.
Lemma dev_later : forall d b d' n e, dev_write d b = (d', n, e) -> exists g, dv_got d' = dv_got d ++ g.
Proof. intros d b d' n e E. destruct (dev_write_cases _ _ _ _ _ E) as [[(_ & _ & G)|(_ & _ & G & _)] _]; eauto. Qed.
Lemma flush_later : forall w, later w (bw_flush w).
Proof.
  intro w. unfold bw_flush. destruct (bw_err w); [apply later_refl|]. destruct (bw_buf w) as [|b0 r0] eqn:B; [apply later_refl|]. rewrite <- B.
  destruct (dev_write (bw_dev w) (bw_buf w)) as [[d n] e] eqn:D. apply dev_later in D as [g G]. destruct e; exists g; exact G.
Qed.
Lemma loop_later : forall f w p w', bw_write_loop size f w p = Ok w' -> later w w'.
Proof.
  induction f as [|f IH]; intros w p w' E; [discriminate|]. cbn [bw_write_loop] in E.
  destruct (_ && _).
  - destruct (bw_buf w) as [|b r] eqn:B.
    + destruct (dev_write (bw_dev w) p) as [[d n] e] eqn:D. apply dev_later in D as [g G]. apply IH in E. eapply later_trans; [|exact E]. exists g. exact G.
    + apply IH in E. eapply later_trans; [|exact E]. eapply later_trans; [|apply flush_later]. exists []. rewrite app_nil_r. reflexivity.
  - destruct (bw_err w); injection E as <-; exists []; rewrite app_nil_r; reflexivity.
Qed.
Lemma put_later : forall ws w w' fl, put_all size w ws = Ok (w', fl) -> later w w'.
Proof.
  induction ws as [|o ws IH]; intros w w' fl E; cbn [put_all] in E; [injection E as <- _; apply later_refl|].
  destruct (match o with WWrite b => bw_write size w b | WFlush => Ok (bw_flush w) end) as [w1| |] eqn:E1; try discriminate. cbn [bind] in E.
  assert (L : later w w1) by (destruct o; [eapply loop_later; exact E1|injection E1 as <-; apply flush_later]).
  destruct (bw_err w1); [injection E as <- _; exact L|]. eapply later_trans; [exact L|]. eapply IH; exact E.
Qed.
End Buffer.

Lemma buffer_pos : 0 < jp_buffer.
Proof. unfold jp_buffer. lia. Qed.
Lemma new_plain : plain jp_buffer (new_bufw None).
Proof. split; [reflexivity|]. split; [reflexivity|]. cbn. lia. Qed.

(** What has been printed, on standard output or in the buffer. *)
Definition printed (fuel : nat) (o : jp_options) (ts : list token) : bytes := written (printer_run (jo_indent o) (jo_tty o) 0 (fst (encode_calls fuel o ts))).

Lemma stdout_most : forall fuel o ts, exists s rest, on_stdout fuel o ts = Ok s /\ printed fuel o ts = s ++ rest /\ length rest <= jp_buffer.
Proof.
  intros fuel o ts. unfold on_stdout.
  destruct (put_plain jp_buffer buffer_pos (printer_run (jo_indent o) (jo_tty o) 0 (fst (encode_calls fuel o ts))) (new_bufw None) new_plain) as (w & E & (_ & _ & L) & A).
  rewrite E. exists (got w), (bw_buf w). split; [reflexivity|]. split; [symmetry; exact A|exact L].
Qed.
(** When the last thing done was a flush. *)
Lemma stdout_flushed : forall fuel o ts, (exists ws, printer_run (jo_indent o) (jo_tty o) 0 (fst (encode_calls fuel o ts)) = ws ++ [WFlush]) ->
  on_stdout fuel o ts = Ok (printed fuel o ts).
Proof.
  intros fuel o ts [ws E]. unfold on_stdout, printed. rewrite E.
  destruct (put_plain jp_buffer buffer_pos (ws ++ [WFlush]) (new_bufw None) new_plain) as (w & P & _ & A). rewrite P. cbn [bind].
  pose proof (put_all_flushed jp_buffer buffer_pos ws (new_bufw None) w eq_refl ltac:(cbn; lia) P) as B. unfold all_of in A. rewrite B, app_nil_r in A. cbn in A. now rewrite <- A.
Qed.
(** What is behind a flush does not matter. *)
Lemma stdout_at_least : forall fuel o ts a b, printer_run (jo_indent o) (jo_tty o) 0 (fst (encode_calls fuel o ts)) = (a ++ [WFlush]) ++ b ->
  exists s, on_stdout fuel o ts = Ok (written a ++ s).
Proof.
  intros fuel o ts a b E. unfold on_stdout. rewrite E.
  destruct (put_plain jp_buffer buffer_pos (a ++ [WFlush]) (new_bufw None) new_plain) as (w & P & PL & A).
  pose proof (put_all_flushed jp_buffer buffer_pos a (new_bufw None) w eq_refl ltac:(cbn; lia) P) as B. unfold all_of in A. rewrite B, app_nil_r in A. cbn in A.
  rewrite (put_app _ _ _ _ _ P). destruct (put_plain jp_buffer buffer_pos b w PL) as (w' & P' & _ & _). rewrite P'. cbn [bind].
  destruct (put_later _ _ _ _ _ P') as [g G]. exists g. unfold got in *. rewrite G, A, written_app. cbn [written]. now rewrite app_nil_r.
Qed.

(* ------------------------------------------------------------------ *)
(** More tokens make more calls, and do not change those that were made. *)
Definition causal {A} (m : enc A) : Prop := forall ts more,
  (exists cs, fst (m (ts ++ more)) = fst (m ts) ++ cs) /\
  (forall a r, snd (m ts) = EDone a r -> m (ts ++ more) = (fst (m ts), EDone a (r ++ more))).

Lemma causal_calls : forall cs, causal (ecalls cs).
Proof. intros cs ts more. split; [exists []; now rewrite app_nil_r|]. intros a r E. injection E as <- <-. reflexivity. Qed.
Lemma causal_ret : forall A (a : A), causal (eret a).
Proof. intros A a ts more. split; [exists []; reflexivity|]. intros a' r E. injection E as <- <-. reflexivity. Qed.
Lemma causal_panic : forall A, causal (@epanic A).
Proof. intros A ts more. split; [exists []; reflexivity|]. intros a r E. discriminate. Qed.
Lemma causal_fuel : forall A, causal (@efuel A).
Proof. intros A ts more. split; [exists []; reflexivity|]. intros a r E. discriminate. Qed.
Lemma causal_bind : forall A B (m : enc A) (k : A -> enc B), causal m -> (forall a, causal (k a)) -> causal (ebnd m k).
Proof.
  intros A B m k M K ts more. destruct (M ts more) as [[cs1 E1] D1]. unfold ebnd. destruct (m ts) as [c [a r| |]]; cbn [fst snd] in *.
  - rewrite (D1 a r eq_refl). destruct (K a r more) as [[cs2 E2] D2]. destruct (k a r) as [c2 o2], (k a (r ++ more)) as [c3 o3]. cbn [fst snd] in *. subst c3. split.
    + exists cs2. apply app_assoc.
    + intros b r' ->. specialize (D2 b r' eq_refl). injection D2 as E ->. now rewrite E.
  - split; [|discriminate]. destruct (m (ts ++ more)) as [c1 [a r| |]]; cbn [fst] in *; subst c1; [|exists cs1; reflexivity..].
    destruct (k a r). cbn [fst]. rewrite <- app_assoc. eauto.
  - split; [|discriminate]. destruct (m (ts ++ more)) as [c1 [a r| |]]; cbn [fst] in *; subst c1; [|exists cs1; reflexivity..].
    destruct (k a r). cbn [fst]. rewrite <- app_assoc. eauto.
Qed.
Lemma causal_next : forall t, causal (next_value t).
Proof. intros []; apply causal_ret || apply causal_panic. Qed.
Lemma causal_arr : causal arr_advance.
Proof.
  unfold arr_advance. intros ts more. generalize false. induction ts as [|t ts IH]; intro el; cbn [arr_advance_l app].
  - split; [eexists; reflexivity|discriminate].
  - destruct t as [| | | | |sc]; try (split; [exists []; reflexivity|intros a r E; cbn in E |- *; try discriminate; injection E as <- <-; reflexivity]). apply IH.
Qed.
Lemma causal_obj : causal obj_advance.
Proof.
  unfold obj_advance. intros ts more. generalize false. induction ts as [|t ts IH]; intro el; cbn [obj_advance_l app].
  - split; [eexists; reflexivity|discriminate].
  - destruct t as [| | | | |sc]; try (split; [exists []; reflexivity|intros a r E; cbn in E |- *; try discriminate; injection E as <- <-; reflexivity]).
    + apply IH.
    + destruct ts as [|t ts]; [split; [eexists; reflexivity|discriminate]|]. cbn [app].
      destruct t; split; try (exists []; reflexivity); intros a r E; cbn in E |- *; try discriminate; injection E as <- <-; reflexivity.
Qed.

Create HintDb causal.
Global Hint Resolve causal_calls causal_ret causal_panic causal_fuel causal_next causal_arr causal_obj : causal.
Ltac cau :=
  repeat match goal with
  | |- causal (ebnd _ _) => apply causal_bind; [|intro]
  | H : _ |- causal _ => solve [apply H]
  | |- causal (pb _) => apply causal_calls
  | |- causal (pscalar _ _) => apply causal_calls
  | |- causal (if ?b then _ else _) => destruct b
  | |- causal (match ?x with _ => _ end) => destruct x
  | |- causal (let _ := _ in _) => cbv zeta
  | _ => progress auto with causal
  end.

Lemma causal_collect : forall w m f pending total el, causal (collect_items w m f pending total el).
Proof. intros w m f. induction f as [|f IH]; intros pending total el; cbn [collect_items]; cau. Qed.
Lemma causal_items : forall col l first, causal (write_items col first l).
Proof. intros col l. induction l as [|s l IH]; intro first; cbn [write_items]; cau. Qed.
Global Hint Resolve causal_collect causal_items : causal.

Lemma causal_write : forall col w m f,
  (forall v, causal (write_value col w m f v)) /\ (forall first el, causal (object_items col w m f first el)) /\
  (forall compact first l, causal (write_pending col w m f compact first l)) /\ causal (write_object_compact col w m f) /\
  (forall el, causal (object_rest col w m f el)) /\ (forall first el, causal (array_items col w m f first el)) /\
  (forall l total first el, causal (array_items_compact col w m f l total first el)).
Proof.
  intros col w m f. induction f as [|f (I1 & I2 & I3 & I4 & I5 & I6 & I7)]; [repeat split; try (exists []; reflexivity); discriminate|].
  split; [intro v; rewrite wv_eq; cau|]. split; [intros first el; cbn [object_items]; cau|].
  split; [intros compact first l; cbn [write_pending]; cau|]. split; [cbn [write_object_compact]; cau|].
  split; [intro el; cbn [object_rest]; cau|]. split; [intros first el; cbn [array_items]; cau|].
  intros l total first el. cbn [array_items_compact]. cau.
Qed.
Lemma causal_succinct : forall col s, causal (print_succinct col s).
Proof. intros col s. unfold print_succinct. cau. Qed.
Global Hint Resolve causal_succinct : causal.
Lemma causal_keys : forall col quote path, causal (write_keys col quote path).
Proof. intros col quote path. induction path as [|k path IH]; cbn [write_keys]; cau. Qed.
Global Hint Resolve causal_keys : causal.
Lemma causal_jwrite : forall col quote f,
  (forall path v, causal (jwrite_value col quote f path v)) /\ (forall path n el, causal (jobject_items col quote f path n el)) /\
  (forall path n el, causal (jarray_items col quote f path n el)).
Proof.
  intros col quote f. induction f as [|f (I1 & I2 & I3)]; [repeat split; try (exists []; reflexivity); discriminate|].
  split; [intros path v; cbn [jwrite_value]; unfold write_path; cau|].
  split; intros path n el; cbn [jobject_items jarray_items]; unfold write_collection_end, write_path; cau.
Qed.

Lemma grows_bind : forall A B (m : enc A) (k : A -> enc B) ts more, causal m ->
  (forall a r, exists cs, fst (k a (r ++ more)) = fst (k a r) ++ cs) -> exists cs, fst (ebnd m k (ts ++ more)) = fst (ebnd m k ts) ++ cs.
Proof.
  intros A B m k ts more M K. destruct (M ts more) as [[cs1 E1] D1]. unfold ebnd. destruct (m ts) as [c [a r| |]]; cbn [fst snd] in *.
  - rewrite (D1 a r eq_refl). destruct (K a r) as [cs2 E2]. destruct (k a r) as [c2 o2], (k a (r ++ more)) as [c3 o3]. cbn [fst] in *. subst c3. exists cs2. apply app_assoc.
  - destruct (m (ts ++ more)) as [c1 [a r| |]]; cbn [fst] in *; subst c1; [|exists cs1; reflexivity..]. destruct (k a r). cbn [fst]. rewrite <- app_assoc. eauto.
  - destruct (m (ts ++ more)) as [c1 [a r| |]]; cbn [fst] in *; subst c1; [|exists cs1; reflexivity..]. destruct (k a r). cbn [fst]. rewrite <- app_assoc. eauto.
Qed.
Lemma enext_grows : forall B (k : option token -> enc B) ts more, (ts = [] -> fst (k None []) = []) ->
  (forall t r, exists cs, fst (k (Some t) (r ++ more)) = fst (k (Some t) r) ++ cs) -> exists cs, fst (ebnd enext k (ts ++ more)) = fst (ebnd enext k ts) ++ cs.
Proof.
  intros B k [|t ts] more N K.
  - assert (E : fst (ebnd enext k []) = []) by (specialize (N eq_refl); unfold ebnd; cbn [enext]; destruct (k None []); exact N). rewrite E. eexists. reflexivity.
  - destruct (K t ts) as [cs E]. exists cs. unfold ebnd. cbn [app enext]. destruct (k (Some t) ts), (k (Some t) (ts ++ more)). exact E.
Qed.
Lemma calls_grow : forall fuel o ts more, exists cs, fst (encode_calls fuel o (ts ++ more)) = fst (encode_calls fuel o ts) ++ cs.
Proof.
  intros fuel o. unfold encode_calls. destruct (jo_jpv o); induction fuel as [|f IH]; intros ts more; try (exists []; reflexivity).
  - cbn [jconsume_loop]. apply enext_grows; [reflexivity|]. intros t r. apply grows_bind; [apply causal_next|]. intros v r1.
    apply grows_bind; [apply causal_jwrite|]. intros [] r2. apply grows_bind; [apply causal_calls|]. intros [] r3. apply IH.
  - cbn [consume_loop]. apply enext_grows; [reflexivity|]. intros t r. apply grows_bind; [apply causal_next|]. intros v r1.
    apply grows_bind; [apply causal_write|]. intros [] r2. apply grows_bind; [apply causal_calls|]. intros [] r3. apply IH.
Qed.

Lemma run_app : forall size flusher a l b, printer_run size flusher l (a ++ b) = printer_run size flusher l a ++ printer_run size flusher (level size flusher l a) b.
Proof.
  intros size flusher a. induction a as [|c a IH]; intros l b; [reflexivity|]. cbn [app printer_run level]. destruct (printer_call size flusher l c) as [ws l'] eqn:E.
  cbn [snd]. rewrite IH. apply app_assoc.
Qed.
Lemma stdout_grows : forall fuel o ts more, exists s s', on_stdout fuel o ts = Ok s /\ on_stdout fuel o (ts ++ more) = Ok (s ++ s').
Proof.
  intros fuel o ts more. destruct (calls_grow fuel o ts more) as [cs E]. unfold on_stdout. rewrite E, run_app.
  destruct (put_plain jp_buffer buffer_pos (printer_run (jo_indent o) (jo_tty o) 0 (fst (encode_calls fuel o ts))) (new_bufw None) new_plain) as (w & P & PL & _).
  rewrite (put_app _ _ _ _ _ P), P. cbn [bind].
  destruct (put_plain jp_buffer buffer_pos (printer_run (jo_indent o) (jo_tty o) (level (jo_indent o) (jo_tty o) 0 (fst (encode_calls fuel o ts))) cs) w PL) as (w' & P' & _ & _).
  rewrite P'. cbn [bind]. destruct (put_later _ _ _ _ _ P') as [g G]. exists (got w), g. split; [reflexivity|]. unfold got in *. now rewrite G.
Qed.

(* ------------------------------------------------------------------ *)
(** On a terminal every line that has been printed is on standard output. *)
Definition single (b : bytes) : Prop := ~ In 10%N b.
Definition calm (c : pcall) : Prop := match c with PBytes b => single b | _ => True end.

Lemma put_tail : forall size ws w w', 0 < size -> plain size w -> put_all size w ws = Ok (w', false) -> exists g, g ++ bw_buf w' = bw_buf w ++ written ws.
Proof.
  intros size ws w w' pos PL P. destruct (put_plain size pos ws w PL) as (w1 & P1 & _ & A). rewrite P in P1. injection P1 as <-.
  destruct (put_later _ _ _ _ _ P) as [g G]. exists g. unfold all_of in A. rewrite G, <- !app_assoc in A. now apply app_inv_head in A.
Qed.
Lemma put_calm : forall size ws w w', 0 < size -> plain size w -> single (bw_buf w) -> single (written ws) -> put_all size w ws = Ok (w', false) -> single (bw_buf w').
Proof.
  intros size ws w w' pos PL B W P I. destruct (put_tail _ _ _ _ pos PL P) as [g G].
  assert (X : In 10%N (bw_buf w ++ written ws)) by (rewrite <- G; apply in_or_app; now right). apply in_app_or in X as [X|X]; contradiction.
Qed.
Lemma blanks_single : forall n, single (written (repeat (WWrite [32%N]) n)).
Proof. intros n. induction n as [|n IH]; [intros []|]. cbn [repeat written app]. intros [E|I]; [discriminate|contradiction]. Qed.
Lemma put_break : forall size n w w', 0 < size -> plain size w -> put_all size w (write_nl true ++ repeat (WWrite [32%N]) n) = Ok (w', false) -> single (bw_buf w').
Proof.
  intros size n w w' pos PL P. destruct (put_plain size pos (write_nl true) w PL) as (w1 & P1 & PL1 & _). rewrite (put_app _ _ _ _ _ P1) in P.
  pose proof (put_all_flushed size pos [WWrite [10%N]] w w1 (proj1 PL) (proj2 (proj2 PL)) P1) as B.
  eapply (put_calm size (repeat (WWrite [32%N]) n) w1 w' pos PL1); [rewrite B; intros []|apply blanks_single|exact P].
Qed.
Lemma put_call : forall size indent lvl c w w', 0 < size -> plain size w -> single (bw_buf w) -> calm c -> put_all size w (fst (printer_call indent true lvl c)) = Ok (w', false) -> single (bw_buf w').
Proof.
  intros size indent lvl c w w' pos PL B C P.
  assert (NL : forall l, put_all size w (new_line indent true l) = Ok (w', false) -> single (bw_buf w')).
  { intros l Q. unfold new_line in Q. destruct (indent <? 0)%Z; [injection Q as <-; exact B|]. now apply put_break in Q. }
  destruct c as [b| | | |]; cbn [printer_call fst] in P; [|now apply NL in P..|].
  - apply (put_calm size [WWrite b] w w' pos PL B); [|exact P]. cbn [written]. rewrite app_nil_r. exact C.
  - apply (put_break size 0 w w' pos PL). cbn [repeat]. rewrite app_nil_r. exact P.
Qed.
Lemma put_calls : forall size indent, 0 < size -> forall cs lvl w w', plain size w -> single (bw_buf w) -> Forall calm cs -> put_all size w (printer_run indent true lvl cs) = Ok (w', false) -> single (bw_buf w').
Proof.
  intros size indent pos. induction cs as [|c cs IH]; intros lvl w w' PL B C P; [injection P as <-; exact B|]. inversion C as [|? ? C1 C2]; subst.
  cbn [printer_run] in P. destruct (printer_call indent true lvl c) as [ws l'] eqn:E.
  destruct (put_plain size pos ws w PL) as (w1 & P1 & PL1 & _). rewrite (put_app _ _ _ _ _ P1) in P.
  apply (IH l' w1 w' PL1); [|exact C2|exact P]. apply (put_call size indent lvl c w w1 pos PL B C1). rewrite E. exact P1.
Qed.

Definition plain_token (t : token) : Prop := match t with TScalar s => single (sc_bytes s) | _ => True end.
(** Colours without line feeds. *)
Definition quiet (col : option colorizer) : Prop := match col with None => True | Some c => forall s, single (scalar_color c s) /\ single (co_reset c) end.
Lemma painted_calm : forall col s, quiet col -> single (sc_bytes s) -> Forall calm (print_scalar col s).
Proof.
  intros [c|] s Q H; unfold print_scalar; repeat constructor; cbn [calm]; auto; apply (Q s).
Qed.
Lemma json_calm : forall col w m f ts, quiet col -> Forall plain_token ts -> snd (consume_loop col w m f ts) <> EFuel ->
  Forall calm (fst (consume_loop col w m f ts)).
Proof.
  intros col w m f ts CO F NE.
  assert (NC : forall b, In b [elision_bytes; open_object_bytes; close_object_bytes; open_array_bytes; close_array_bytes; item_separator_bytes; compact_item_separator_bytes; key_value_separator_bytes] -> Forall calm [PBytes b]).
  { intros b I. repeat constructor. cbn [calm]. intro X. cbn in I. decompose [or] I; subst; try contradiction; cbn in X; decompose [or] X; discriminate || contradiction. }
  destruct (erel_consume col col w m (fun a _ => Forall calm a) plain_token ltac:(constructor) ltac:(intros; apply Forall_app; split; assumption)
    ltac:(repeat constructor) ltac:(repeat constructor) ltac:(repeat constructor) NC ltac:(intros s H; now apply painted_calm) ltac:(repeat constructor) f f (le_n _) ts F) as [E|(_ & C & _)]; [contradiction|exact C].
Qed.

Lemma stdout_lines : forall fuel o ts, jo_jpv o = false -> jo_tty o = true -> quiet (jo_color o) -> Forall plain_token ts ->
  2 * length ts + 2 <= fuel -> exists s rest, on_stdout fuel o ts = Ok s /\ printed fuel o ts = s ++ rest /\ single rest.
Proof.
  intros fuel o ts J T CO F L. destruct (encode_calls_stable o ts) as (cs & e & NE & ST). specialize (ST fuel L).
  assert (C : Forall calm cs).
  { unfold encode_calls in ST. rewrite J in ST. pose proof (json_calm (jo_color o) (jo_width o) 2 fuel ts CO F) as H. rewrite ST in H. exact (H NE). }
  unfold on_stdout, printed. rewrite ST, T. cbn [fst].
  destruct (put_plain jp_buffer buffer_pos (printer_run (jo_indent o) true 0 cs) (new_bufw None) new_plain) as (w & E & PL & A).
  rewrite E. exists (got w), (bw_buf w). split; [reflexivity|]. split; [symmetry; exact A|].
  apply (put_calls jp_buffer (jo_indent o) buffer_pos cs 0%Z (new_bufw None) w new_plain); [intros []|exact C|exact E].
Qed.

(* ------------------------------------------------------------------ *)
(** JPV output: nothing is held back. *)
Definition flat (c : pcall) : Prop := match c with PBytes _ | PNewLine | PReset => True | _ => False end.
Definition neat (cs : list pcall) : Prop := cs = [] \/ exists c x, cs = c ++ [x] /\ (x = PNewLine \/ x = PReset).
(** Tokens of JSON values: alphanumeric keys have their quotes. *)
Definition quoted (t : token) : Prop := match t with TScalar s => sc_alnum s = true -> 2 <= length (sc_bytes s) | _ => True end.
Definition qval (v : evalue) : Prop := match v with EScalar s => quoted (TScalar s) | _ => True end.
Definition tidy {A} (R : A -> Prop) (m : enc A) : Prop := forall ts, Forall quoted ts ->
  Forall flat (fst (m ts)) /\ neat (fst (m ts)) /\ match snd (m ts) with EDone a r => R a /\ Forall quoted r | _ => True end.
Definition any {A} (a : A) : Prop := True.
Lemma neat_app : forall a b, neat a -> neat b -> neat (a ++ b).
Proof.
  intros a b A [->|(c & x & -> & X)]; [now rewrite app_nil_r|]. right. exists (a ++ c), x. split; [apply app_assoc|exact X].
Qed.
Lemma tidy_bind : forall A B (R : A -> Prop) (S : B -> Prop) (m : enc A) (k : A -> enc B), tidy R m -> (forall a, R a -> tidy S (k a)) -> tidy S (ebnd m k).
Proof.
  intros A B R S m k M K ts Q. destruct (M ts Q) as (F1 & N1 & P1). unfold ebnd. destruct (m ts) as [c [a r| |]]; cbn [fst snd] in *; auto.
  destruct P1 as [RA Q1]. destruct (K a RA r Q1) as (F2 & N2 & P2). destruct (k a r) as [c2 o2]. cbn [fst snd] in *. split; [apply Forall_app; auto|]. split; [now apply neat_app|exact P2].
Qed.
Lemma tidy_ret : forall A (R : A -> Prop) (a : A), R a -> tidy R (eret a).
Proof. intros A R a H ts Q. split; [constructor|]. split; [now left|]. cbn. auto. Qed.
Lemma tidy_panic : forall A (R : A -> Prop), tidy R (@epanic A).
Proof. intros A R ts Q. split; [constructor|]. split; [now left|exact I]. Qed.
Lemma tidy_fuel : forall A (R : A -> Prop), tidy R (@efuel A).
Proof. intros A R ts Q. split; [constructor|]. split; [now left|exact I]. Qed.
Lemma tidy_reset : tidy any (ecalls [PReset]).
Proof. intros ts Q. split; [repeat constructor|]. split; [right; exists [], PReset; auto|]. cbn. split; [exact I|exact Q]. Qed.
Lemma tidy_next : forall t, quoted t -> tidy qval (next_value t).
Proof. intros [| | | | |s] H; cbn [next_value]; (apply tidy_ret; cbn; auto) || apply tidy_panic. Qed.
Definition qitem (x : option evalue * bool) : Prop := match fst x with Some v => qval v | None => True end.
Definition qmember (x : option (scalar * evalue) * bool) : Prop := match fst x with Some (k, v) => quoted (TScalar k) /\ qval v | None => True end.
Lemma tidy_arr : tidy qitem arr_advance.
Proof.
  intros ts Q. unfold arr_advance. generalize false.
  induction Q as [|t ts H Q IH]; intro el; [cbn; split; [constructor|]; split; [now left|exact I]|].
  destruct t as [| | | | |s]; cbn [arr_advance_l]; try apply IH; cbn; (split; [constructor|]); (split; [now left|]); auto; unfold qitem; cbn; auto.
Qed.
Lemma tidy_obj : tidy qmember obj_advance.
Proof.
  intros ts Q. unfold obj_advance. generalize false.
  induction Q as [|t ts H Q IH]; intro el; [cbn; split; [constructor|]; split; [now left|exact I]|].
  destruct t as [| | | | |s]; cbn [obj_advance_l]; try apply IH; try (cbn; (split; [constructor|]); (split; [now left|]); auto; unfold qmember; cbn; auto).
  destruct Q as [|u ts H2 Q]; [cbn; split; [constructor|]; split; [now left|exact I]|].
  destruct u as [| | | | |s2]; cbn; (split; [constructor|]); (split; [now left|]); auto; unfold qmember; cbn; auto.
Qed.
(** A run that writes and does not read. *)
Definition talks {A} (m : enc A) : Prop := forall ts, exists cs a, m ts = (cs, EDone a ts) /\ Forall flat cs.
Lemma talks_bind : forall A B (m : enc A) (k : A -> enc B), talks m -> (forall a, talks (k a)) -> talks (ebnd m k).
Proof.
  intros A B m k M K ts. destruct (M ts) as (c & a & E & F). destruct (K a ts) as (c2 & b & E2 & F2). exists (c ++ c2), b. split; [|apply Forall_app; auto].
  unfold ebnd. rewrite E, E2. reflexivity.
Qed.
Lemma talks_calls : forall cs, Forall flat cs -> talks (ecalls cs).
Proof. intros cs F ts. exists cs, tt. auto. Qed.
Lemma talks_ret : forall A (a : A), talks (eret a).
Proof. intros A a ts. exists [], a. auto. Qed.
Lemma talks_scalar : forall col s, talks (ecalls (print_scalar col s)).
Proof. intros col s. apply talks_calls. unfold print_scalar. destruct col; repeat constructor. Qed.
Lemma talks_pb : forall b, talks (pb b).
Proof. intro b. apply talks_calls. repeat constructor. Qed.
Lemma talks_succinct : forall col s, quoted (TScalar s) -> talks (print_succinct col s).
Proof.
  intros col s H. unfold print_succinct. cbn [quoted] in H. destruct (sc_alnum s).
  - specialize (H eq_refl). destruct (sc_bytes s) as [|a [|b r]]; cbn [length] in H; try lia. apply talks_calls. destruct col; repeat constructor.
  - apply talks_calls. destruct col; repeat constructor.
Qed.
Lemma talks_keys : forall col quote path, Forall (fun k => quoted (TScalar k)) path -> talks (write_keys col quote path).
Proof.
  intros col quote path H. induction H as [|k path Q H IH]; cbn [write_keys]; [apply talks_ret|]. apply talks_bind; [|intros _; exact IH].
  destruct (_ && _); apply talks_bind; try apply talks_pb; intros _; [now apply talks_succinct|]. apply talks_bind; [apply talks_scalar|intros _; apply talks_pb].
Qed.
Lemma talks_path : forall col quote path, Forall (fun k => quoted (TScalar k)) path -> talks (write_path col quote path).
Proof. intros col quote path H. unfold write_path. apply talks_bind; [apply talks_pb|]. intros _. apply talks_bind; [now apply talks_keys|]. intros _. apply talks_pb. Qed.
Lemma talks_line : forall A B (m : enc A) (k : enc B), talks m -> talks k -> tidy any (ebnd m (fun _ => ebnd k (fun _ => ecalls [PNewLine]))).
Proof.
  intros A B m k M K ts Q. destruct (M ts) as (c & a & E & F). destruct (K ts) as (c2 & b & E2 & F2). unfold ebnd. rewrite E, E2. cbn [ecalls fst snd]. split; [|split].
  - apply Forall_app; split; [exact F|]. apply Forall_app. split; [exact F2|]. repeat constructor.
  - right. exists (c ++ c2), PNewLine. split; [apply app_assoc|auto].
  - split; [exact I|exact Q].
Qed.
Lemma tidy_jwrite : forall col quote f,
  (forall path v, Forall (fun k => quoted (TScalar k)) path -> qval v -> tidy any (jwrite_value col quote f path v)) /\
  (forall path n el, Forall (fun k => quoted (TScalar k)) path -> tidy any (jobject_items col quote f path n el)) /\
  (forall path n el, Forall (fun k => quoted (TScalar k)) path -> tidy any (jarray_items col quote f path n el)).
Proof.
  intros col quote f. induction f as [|f (I1 & I2 & I3)]; [split; [|split]; intros; apply tidy_fuel|].
  assert (EN : forall path e el b0 b1, Forall (fun k => quoted (TScalar k)) path -> tidy any (write_collection_end col quote path e el b0 b1)).
  { intros path e el b0 b1 P. unfold write_collection_end. destruct (el || e); [|apply tidy_ret; exact I].
    apply talks_line; [now apply talks_path|]. destruct (negb el); [apply talks_pb|]. destruct (negb e); apply talks_pb. }
  split; [|split].
  - intros path v P V. cbn [jwrite_value]. destruct v; [|now apply I2|now apply I3]. apply talks_line; [now apply talks_path|apply talks_scalar].
  - intros path n el P. cbn [jobject_items]. eapply tidy_bind; [apply tidy_obj|]. intros [[[k v]|] el1] Q; [|now apply EN]. destruct Q as [QK QV].
    eapply tidy_bind; [apply I1; [apply Forall_app; split; [exact P|constructor; [exact QK|constructor]]|exact QV]|]. intros [] _. now apply I2.
  - intros path n el P. cbn [jarray_items]. eapply tidy_bind; [apply tidy_arr|]. intros [[v|] el1] Q; [|now apply EN].
    eapply tidy_bind; [apply I1; [apply Forall_app; split; [exact P|constructor; [cbn; discriminate|constructor]]|exact Q]|]. intros [] _. now apply I3.
Qed.
Lemma tidy_jconsume : forall col quote f, tidy any (jconsume_loop col quote f).
Proof.
  intros col quote f. induction f as [|f IH]; [apply tidy_fuel|]. cbn [jconsume_loop].
  apply (tidy_bind _ _ (fun x => match x with Some t => quoted t | None => True end)).
  - intros ts Q. destruct Q as [|t ts H Q]; cbn; (split; [constructor|]); (split; [now left|]); auto.
  - intros [t|] Q; [|apply tidy_ret; exact I]. eapply tidy_bind; [now apply tidy_next|]. intros v V.
    eapply tidy_bind; [apply tidy_jwrite; [constructor|exact V]|]. intros [] _. eapply tidy_bind; [apply tidy_reset|]. intros [] _. exact IH.
Qed.
Lemma flat_level : forall size flusher cs, Forall flat cs -> level size flusher 0 cs = 0%Z.
Proof. intros size flusher cs F. induction F as [|c cs H F IH]; [reflexivity|]. destruct c; cbn [flat] in H; try contradiction; exact IH. Qed.
Lemma stdout_jpv : forall fuel o ts, jo_jpv o = true -> jo_tty o = true -> (0 <= jo_indent o)%Z -> Forall quoted ts -> on_stdout fuel o ts = Ok (printed fuel o ts).
Proof.
  intros fuel o ts J T L Q. destruct (tidy_jconsume (jo_color o) (jo_quote o) fuel ts Q) as (F & N & _).
  assert (E : encode_calls fuel o ts = jconsume_loop (jo_color o) (jo_quote o) fuel ts) by (unfold encode_calls; now rewrite J).
  destruct N as [N|(c & x & N & X)].
  - unfold on_stdout, printed. rewrite E, N. reflexivity.
  - apply stdout_flushed. rewrite E, N, T, run_app. rewrite N in F. apply Forall_app in F as [F _]. rewrite (flat_level _ _ c F).
    exists (printer_run (jo_indent o) true 0 c ++ [WWrite [10%N]]). rewrite <- app_assoc. f_equal.
    destruct X as [->| ->]; cbn [printer_run printer_call]; unfold new_line; [|reflexivity]. destruct (Z.ltb_spec (jo_indent o) 0); [lia|]. rewrite Z.mul_0_r. reflexivity.
Qed.

(* ------------------------------------------------------------------ *)
(** Values before others. *)
Lemma consume_before : forall col size flusher w m vs, exists n cs,
  (forall f ts, n <= f -> consume_loop col w m f (stream vs ++ ts) = let '(c, o) := consume_loop col w m (f - length vs) ts in (cs ++ c, o)) /\
  text size flusher 0 cs = flat_map (fun v => layout (painted col) w m size 0 v ++ [10%N]) vs /\ level size flusher 0 cs = 0%Z.
Proof.
  intros col size flusher w m vs. induction vs as [|v vs (n2 & cs2 & R2 & T2 & L2)].
  - exists 0, []. split; [|split; reflexivity]. intros f ts _. cbn [stream flat_map app length]. rewrite Nat.sub_0_r. destruct (consume_loop col w m f ts). reflexivity.
  - destruct (write_value_layout col size flusher w m v) as (n1 & cs1 & R1 & T1).
    exists (S (n1 + n2)), (cs1 ++ [PReset] ++ cs2). split; [|split].
    + intros [|f] ts L; [lia|]. cbn [consume_loop stream flat_map length Nat.sub]. rewrite <- app_assoc, toks_split. cbn [app].
      specialize (R2 f ts ltac:(lia)). destruct (consume_loop col w m (f - length vs) ts) as [c o]. 
      replace ((cs1 ++ PReset :: cs2) ++ c) with (cs1 ++ PReset :: (cs2 ++ c)) by (rewrite <- app_assoc; reflexivity).
      eapply ebnd_eq; [reflexivity| |reflexivity]. eapply ebnd_eq; [apply next_value_hd| |reflexivity].
      eapply ebnd_eq; [apply R1; lia| |reflexivity]. eapply ebnd_eq; [reflexivity| |reflexivity]. exact R2.
    + rewrite text_app. destruct (T1 0%Z) as [-> ->]. rewrite Z.add_0_r. cbn [app]. rewrite text_reset, T2. cbn [flat_map]. now rewrite <- app_assoc.
    + rewrite level_app. destruct (T1 0%Z) as [_ ->]. exact L2.
Qed.

(** The items of an array that has not ended, all collections, before the start of
    another one. *)
Definition collection (v : jval) : Prop := match v with JScalar _ => False | _ => True end.
Definition starts (t : token) : Prop := t = TStartArr \/ t = TStartObj.

Lemma start_fst : forall A (first : bool) (k : unit -> enc A) ts,
  fst (ebnd (if first then ecalls [PIndent] else ebnd (pb item_separator_bytes) (fun _ => ecalls [PNewLine])) k ts) = start_calls first ++ fst (k tt ts).
Proof. intros A first k ts. unfold ebnd at 1. rewrite start_done. destruct (k tt ts). reflexivity. Qed.
Section Open.
Variable col : option colorizer.
Variable size : Z.
Variable flusher : bool.
Variable w m : Z.
Variable loop : nat -> bool -> enc unit.
Notation wv := (write_value col w m).
Notation lay := (layout (painted col) w m size).
Hypothesis step_ok : forall f first v ts, collection v -> loop (S f) first (toks v ++ ts) =
  ebnd (if first then ecalls [PIndent] else ebnd (pb item_separator_bytes) (fun _ => ecalls [PNewLine])) (fun _ => ebnd (wv f (ev v)) (fun _ => loop f false)) (body v ++ ts).

Hypothesis open_ok : forall f first t ts, starts t -> exists tl, fst (loop (S f) first (t :: ts)) = start_calls first ++ tl.

Lemma then_fst : forall A B (p : enc A) (k : A -> enc B) ts cs a r, p ts = (cs, EDone a r) -> fst (ebnd p k ts) = cs ++ fst (k a r).
Proof. intros A B p k ts cs a r E. unfold ebnd. rewrite E. destruct (k a r). reflexivity. Qed.
Lemma open_rest : forall l t0 ts0, Forall collection l -> starts t0 -> exists n cs,
  (forall f, n <= f -> exists tl, fst (loop f false (flat_map toks l ++ t0 :: ts0)) = cs ++ start_calls false ++ tl) /\
  does size flusher cs 0 (fun d => more size d (map (lay d) l)).
Proof.
  induction l as [|v l IH]; intros t0 ts0 CL C0.
  - exists 1, []. split; [|apply does_nil]. intros [|f] L; [lia|]. cbn [flat_map app]. now apply open_ok.
  - inversion CL as [|? ? C CL']; subst. destruct (IH t0 ts0 CL' C0) as (n2 & cs2 & R2 & T2). destruct (write_value_layout col size flusher w m v) as (n1 & cs1 & R1 & T1).
    exists (S (n1 + n2)), (start_calls false ++ cs1 ++ cs2). split.
    + intros [|f] L; [lia|]. destruct (R2 f ltac:(lia)) as [tl E]. exists tl. cbn [flat_map]. rewrite <- app_assoc, (step_ok f false v _ C), (start_fst _ false).
      rewrite (then_fst _ _ _ _ _ _ _ _ (R1 f _ ltac:(lia))), E, <- !app_assoc. reflexivity.
    + eapply does_eq; [exact (does_app _ _ _ _ _ _ _ _ (start_does size flusher false) (does_app _ _ _ _ _ _ _ _ T1 T2))|reflexivity|].
      intro d. cbn [begin_text step map more flat_map app]. rewrite !Z.add_0_r, <- app_assoc. reflexivity.
Qed.
Lemma open_items : forall l t0 ts0, l <> [] -> Forall collection l -> starts t0 -> exists n cs,
  (forall f, n <= f -> exists tl, fst (loop f true (flat_map toks l ++ t0 :: ts0)) = cs ++ start_calls false ++ tl) /\
  does size flusher cs 1 (fun d => break size (d + 1) ++ join (44%N :: break size (d + 1)) (map (lay (d + 1)) l)).
Proof.
  intros [|v l] t0 ts0 NE CL C0; [congruence|]. inversion CL as [|? ? C CL']; subst.
  destruct (open_rest l t0 ts0 CL' C0) as (n2 & cs2 & R2 & T2). destruct (write_value_layout col size flusher w m v) as (n1 & cs1 & R1 & T1).
  exists (S (n1 + n2)), (start_calls true ++ cs1 ++ cs2). split.
  - intros [|f] L; [lia|]. destruct (R2 f ltac:(lia)) as [tl E]. exists tl. cbn [flat_map]. rewrite <- app_assoc, (step_ok f true v _ C), (start_fst _ true).
    rewrite (then_fst _ _ _ _ _ _ _ _ (R1 f _ ltac:(lia))), E, <- !app_assoc. reflexivity.
  - eapply does_eq; [exact (does_app _ _ _ _ _ _ _ _ (start_does size flusher true) (does_app _ _ _ _ _ _ _ _ T1 T2))|reflexivity|].
    intro d. cbn [begin_text step map]. rewrite join_more, !Z.add_0_r. reflexivity.
Qed.
End Open.

Lemma nil_pair : forall (p : list pcall * eout unit), (let '(c, o) := p in ([] ++ c, o)) = p.
Proof. intros [c o]. reflexivity. Qed.
Lemma start_tail : forall A (first : bool) (k : unit -> enc A) ts, exists tl,
  fst (let '(c, o) := ebnd (if first then ecalls [PIndent] else ebnd (pb item_separator_bytes) (fun _ => ecalls [PNewLine])) k ts in ([] ++ c, o)) = start_calls first ++ tl.
Proof. intros A first k ts. exists (fst (k tt ts)). rewrite <- start_fst. destruct (ebnd _ k ts). reflexivity. Qed.
Lemma open_array : forall col size flusher w m l t0 ts0, l <> [] -> Forall collection l -> starts t0 -> exists n cs,
  (forall f, n <= f -> exists tl, fst (consume_loop col w m f (TStartArr :: flat_map toks l ++ t0 :: ts0)) = cs ++ start_calls false ++ tl) /\
  does size flusher cs 1 (fun d => 91%N :: break size (d + 1) ++ join (44%N :: break size (d + 1)) (map (layout (painted col) w m size (d + 1)) l)).
Proof.
  intros col size flusher w m l t0 ts0 NE CL C0.
  assert (G : exists n cs, (forall f, n <= f -> exists tl, fst ((if (0 <? w)%Z then array_items_compact col w m f [] (-2) true false else array_items col w m f true false) (flat_map toks l ++ t0 :: ts0)) = cs ++ start_calls false ++ tl) /\
     does size flusher cs 1 (fun d => break size (d + 1) ++ join (44%N :: break size (d + 1)) (map (layout (painted col) w m size (d + 1)) l))).
  { destruct (0 <? w)%Z.
    - apply (open_items col size flusher w m (fun f first => array_items_compact col w m f [] (-2) first false)); auto.
      * intros f first v ts C. cbn [array_items_compact]. unfold ebnd at 1. rewrite arr_advance_cons. destruct v; [contradiction| |]; cbn [ev orb]; exact (nil_pair _).
      * intros f first t ts [->| ->]; cbn [array_items_compact]; unfold ebnd at 1; cbn [arr_advance arr_advance_l next_value eret orb]; exact (start_tail _ first _ _).
    - apply (open_items col size flusher w m (fun f first => array_items col w m f first false)); auto.
      * intros f first v ts C. cbn [array_items]. unfold ebnd at 1. rewrite arr_advance_cons. cbn [orb]. exact (nil_pair _).
      * intros f first t ts [->| ->]; cbn [array_items]; unfold ebnd at 1; cbn [arr_advance arr_advance_l next_value eret orb]; exact (start_tail _ first _ _). }
  destruct G as (n & cs & R & T). exists (S (S n)), ([PBytes open_array_bytes] ++ cs). split.
  - intros [|[|f]] L; [lia|lia|]. destruct (R f ltac:(lia)) as [tl E]. cbn [consume_loop]. unfold ebnd at 1. cbn [enext]. unfold ebnd at 1. cbn [next_value eret].
    unfold ebnd at 1. rewrite wv_eq.
    assert (X : exists o, (if (0 <? w)%Z then ebnd (pb open_array_bytes) (fun _ => array_items_compact col w m f [] (-2) true false) else ebnd (pb open_array_bytes) (fun _ => array_items col w m f true false)) (flat_map toks l ++ t0 :: ts0) = ([PBytes open_array_bytes] ++ cs ++ start_calls false ++ tl, o)).
    { destruct (0 <? w)%Z; unfold ebnd, pb at 1; cbn [ecalls]; match goal with |- exists o, (let '(_, _) := ?x in _) = _ => destruct x as [c o] end; exists o; cbn [fst] in E; rewrite E; reflexivity. }
    destruct X as [o X]. rewrite X. destruct o as [[] r| |]; [|exists tl; cbn [fst app]; rewrite <- ?app_assoc; reflexivity..].
    destruct (ebnd _ _ r) as [c2 o2]. exists (tl ++ c2). cbn [fst app]. rewrite <- ?app_assoc. cbn [app]. rewrite <- ?app_assoc. reflexivity.
  - eapply does_eq; [exact (does_app _ _ _ _ _ _ _ _ (does_bytes size flusher open_array_bytes) T)|reflexivity|]. intro d. cbn [open_array_bytes app]. rewrite Z.add_0_r. reflexivity.
Qed.

Lemma stdout_open : forall o vs l t0 ts0, jo_jpv o = false -> jo_tty o = true -> (0 <= jo_indent o)%Z -> l <> [] -> Forall collection l -> starts t0 ->
  let lay := layout (painted (jo_color o)) (jo_width o) 2 (jo_indent o) in let brk := break (jo_indent o) in
  exists n, forall fuel, n <= fuel -> exists s, on_stdout fuel o (stream vs ++ TStartArr :: flat_map toks l ++ t0 :: ts0) =
    Ok ((flat_map (fun v => lay 0%Z v ++ [10%N]) vs ++ 91%N :: brk 1%Z ++ join (44%N :: brk 1%Z) (map (lay 1%Z) l) ++ [44; 10]%N) ++ s).
Proof.
  intros o vs l t0 ts0 J T IN NE CL C0 lay brk.
  destruct (consume_before (jo_color o) (jo_indent o) true (jo_width o) 2 vs) as (n1 & cs1 & R1 & T1 & L1).
  destruct (open_array (jo_color o) (jo_indent o) true (jo_width o) 2 l t0 ts0 NE CL C0) as (n2 & cs2 & R2 & T2).
  exists (n1 + n2 + length vs). intros fuel L. specialize (R1 fuel (TStartArr :: flat_map toks l ++ t0 :: ts0) ltac:(lia)). destruct (R2 (fuel - length vs) ltac:(lia)) as [tl E].
  destruct (T2 0%Z) as [T3 L3]. unfold text in T1, T3.
  assert (R : exists b, printer_run (jo_indent o) (jo_tty o) 0 (fst (encode_calls fuel o (stream vs ++ TStartArr :: flat_map toks l ++ t0 :: ts0))) =
    ((printer_run (jo_indent o) true 0 cs1 ++ printer_run (jo_indent o) true 0 cs2 ++ [WWrite [44%N]; WWrite [10%N]]) ++ [WFlush]) ++ b).
  { rewrite T. unfold encode_calls. rewrite J, R1. destruct (consume_loop _ _ _ (fuel - length vs) _) as [c oo]. cbn [fst] in *. subst c.
    rewrite run_app, L1, run_app, L3. cbn [start_calls app]. cbn [printer_run printer_call]. unfold new_line. destruct (Z.ltb_spec (jo_indent o) 0); [lia|].
    unfold write_nl. cbn [app item_separator_bytes]. eexists. rewrite <- !app_assoc. cbn [app]. reflexivity. }
  destruct R as [b R]. destruct (stdout_at_least _ _ _ _ _ R) as [s H].
  exists s. rewrite H, !written_app, T1, T3. cbn [written app]. rewrite <- !app_assoc. reflexivity.
Qed.

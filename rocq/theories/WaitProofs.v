(** Proofs about waiting decoders. *)
From Coq Require Import List Arith NArith Bool Lia.
From Verif Require Import Base Tokens ScannerModel ScannerSpec ScannerProofs ProgModel ProgProofs JsonDecModel JsonSpec JsonDecProofs JsonDecValue WaitModel WaitSpec.

(* ------------------------------------------------------------------ *)
(** Running up to the first operation that has no byte to return. *)
Section Wait.
Variable S : Type.
Variable step : S -> sop -> res (S * sobs).
Fixpoint wrun {A} (s : S) (p : prog A) : list token * res (option (S * A)) :=
  match p with
  | Ret a => ([], Ok (Some (s, a)))
  | Op o k => match step s o with
              | Ok (_, OErr) => ([], Ok None)
              | Ok (s1, x) => wrun s1 (k x)
              | Panic => ([], Panic)
              | OutOfFuel => ([], OutOfFuel)
              end
  | Emit t k => let '(ts, r) := wrun s k in (t :: ts, r)
  | Stuck => ([], OutOfFuel)
  end.
End Wait.
Arguments wrun {S} step {A} s p.
Lemma wrun_bind : forall S (step : S -> sop -> res (S * sobs)) A B (p : prog A) (f : A -> prog B) s,
  wrun step s (pbind p f) =
  match wrun step s p with
  | (ts, Ok (Some (s1, x))) => let '(ts2, r) := wrun step s1 (f x) in (ts ++ ts2, r)
  | (ts, Ok None) => (ts, Ok None)
  | (ts, Panic) => (ts, Panic)
  | (ts, OutOfFuel) => (ts, OutOfFuel)
  end.
Proof.
  intros S step A B p f. induction p as [x|o k IH|t k IH|]; intro s; cbn [pbind wrun].
  - destruct (wrun step s (f x)) as [ts r]. reflexivity.
  - destruct (step s o) as [[s1 []]| |]; auto.
  - rewrite IH. destruct (wrun step s k) as [ts [[[s1 x]|]| |]]; try reflexivity. destruct (wrun step s1 (f x)) as [ts2 r]. reflexivity.
  - reflexivity.
Qed.
Lemma wrun_ok : forall S (step : S -> sop -> res (S * sobs)) A B (p : prog (dres A)) (f : A -> prog (dres B)) s s1 ts x,
  wrun step s p = (ts, Ok (Some (s1, DOk x))) ->
  wrun step s (ebind p f) = let '(ts2, r) := wrun step s1 (f x) in (ts ++ ts2, r).
Proof. intros S step A B p f s s1 ts x H. unfold ebind. rewrite wrun_bind, H. reflexivity. Qed.
Lemma wrun_waits : forall S (step : S -> sop -> res (S * sobs)) A B (p : prog (dres A)) (f : A -> prog (dres B)) s ts,
  wrun step s p = (ts, Ok None) -> wrun step s (ebind p f) = (ts, Ok None).
Proof. intros S step A B p f s ts H. unfold ebind. rewrite wrun_bind, H. reflexivity. Qed.

(** Such an operation is one that asks the reader for more. *)
Definition idle (s : cst) : Prop := c_err s = None /\ rd_with (c_rd s) = false /\ rd_fin (c_rd s) = RdFail.
Lemma fill_loop_asks : forall i s, idle s -> c_fill s <= c_cur s ->
  (c_err (fill_loop i s) <> None /\ c_fill (fill_loop i s) <= c_cur (fill_loop i s) /\ c_err (fill_loop i s) <> Some (Some RdEOF)) \/
  idle (fill_loop i s).
Proof.
  induction i as [|i IH]; intros s (E & W & F) L; cbn [fill_loop].
  - left. unfold set_err. cbn. split; [discriminate|]. split; [exact L|discriminate].
  - unfold reader_read. destruct (rd_chunks (c_rd s)) as [|c cs] eqn:C.
    + left. unfold set_err. cbn. rewrite F. split; [discriminate|]. split; [lia|discriminate].
    + destruct (length c <=? _).
      * destruct cs as [|c2 cs]; [rewrite W|]; (destruct (0 <? length c) eqn:LC; [right; repeat split; assumption|]);
          (apply IH; [repeat split; assumption|cbn; apply Nat.ltb_ge in LC; lia]).
      * destruct (0 <? length (firstn _ c)) eqn:LC; [right; repeat split; assumption|]. apply IH; [repeat split; assumption|cbn; apply Nat.ltb_ge in LC; lia].
Qed.
Lemma fill_buf_asks : forall s, idle s -> c_fill s <= c_cur s ->
  (c_err (fill_buf s) <> None /\ c_fill (fill_buf s) <= c_cur (fill_buf s) /\ c_err (fill_buf s) <> Some (Some RdEOF)) \/ idle (fill_buf s).
Proof.
  intros s I L. unfold fill_buf. apply fill_loop_asks.
  - unfold shift_buf. destruct (Nat.eqb _ _); [|exact I]. destruct (c_ts s) as [[|t]|]; [destruct (_ <=? _)| |destruct (_ <=? _)]; try (destruct (Nat.eqb _ _)); exact I.
  - unfold shift_buf. destruct (Nat.eqb _ _); [|exact L]. destruct (c_ts s) as [[|t]|]; [destruct (_ <=? _)| |destruct (_ <=? _)]; try (destruct (Nat.eqb _ _)); cbn; lia.
Qed.
Definition told (s : cst) (x : sobs) : Prop := (x = OErr /\ asked s = true) \/ (x <> OErr /\ idle s).
Lemma err_or_eof_told : forall s, (c_err s <> None /\ c_err s <> Some (Some RdEOF)) \/ idle s -> told s (err_or_eof s).
Proof.
  intros s [[A B]|I]; unfold told, err_or_eof, asked.
  - left. destruct (c_err s) as [[[]|]|]; try (split; reflexivity); congruence.
  - right. pose proof I as (E & _). rewrite E. split; [discriminate|exact I].
Qed.
Lemma skip_loop_told : forall fuel rd s s1 x, idle s -> skip_loop fuel rd s = Ok (s1, x) -> told s1 x.
Proof.
  induction fuel as [|f IH]; intros rd s s1 x I H; [discriminate|]. cbn [skip_loop] in H. destruct (skip_scan _ 0 (c_pos s)) as [[n ob] p]. destruct ob as [b|].
  - right. destruct rd; injection H as <- <-; (split; [discriminate|exact I]).
  - match type of H with context [fill_buf ?t] => set (t0 := t) in * end. assert (I0 : idle t0) by exact I.
    destruct (fill_buf_asks t0 I0 (le_n _)) as [(A & B & C)|J].
    + destruct (Nat.leb_spec (c_fill (fill_buf t0)) (c_cur (fill_buf t0))); [|lia]. injection H as <- <-. apply err_or_eof_told. left. auto.
    + destruct (c_fill (fill_buf t0) <=? c_cur (fill_buf t0)); [injection H as <- <-; apply err_or_eof_told; now right|]. exact (IH rd _ _ _ J H).
Qed.
Lemma step_told : forall s o s1 x, idle s -> cstep s o = Ok (s1, x) -> told s1 x.
Proof.
  intros s o s1 x I H.
  assert (R : forall s', s' = (if c_fill s <=? c_cur s then fill_buf s else s) -> (c_err s' <> None /\ c_fill s' <= c_cur s' /\ c_err s' <> Some (Some RdEOF)) \/ idle s').
  { intros s' ->. destruct (Nat.leb_spec (c_fill s) (c_cur s)); [now apply fill_buf_asks|now right]. }
  destruct o; cbn [cstep] in H.
  - unfold c_read in H. specialize (R _ eq_refl). set (s' := if c_fill s <=? c_cur s then fill_buf s else s) in *. destruct R as [(A & B & C)|J].
    + destruct (Nat.ltb_spec (c_cur s') (c_fill s')); [lia|]. left. unfold asked. destruct (c_err s') as [[[]|]|] eqn:E; try congruence; injection H as <- <-; rewrite E; split; reflexivity.
    + right. destruct (c_cur s' <? c_fill s'); [destruct (nth_error _ _); [|discriminate]; injection H as <- <-; split; [discriminate|exact J]|]. pose proof J as (E & _). rewrite E in H. injection H as <- <-. split; [discriminate|exact J].
  - unfold c_peek in H. specialize (R _ eq_refl). set (s' := if c_fill s <=? c_cur s then fill_buf s else s) in *. destruct R as [(A & B & C)|J].
    + destruct (Nat.ltb_spec (c_cur s') (c_fill s')); [lia|]. injection H as <- <-. apply err_or_eof_told. now left.
    + destruct (c_cur s' <? c_fill s'); [destruct (nth_error _ _); [|discriminate]; injection H as <- <-; right; split; [discriminate|exact J]|]. injection H as <- <-. apply err_or_eof_told. now right.
  - exact (skip_loop_told _ _ _ _ _ I H).
  - exact (skip_loop_told _ _ _ _ _ I H).
  - unfold c_back in H. destruct (_ || _); [discriminate|]. destruct (c_prev s); [|discriminate]. destruct (c_eof s); injection H as <- <-; right; (split; [discriminate|exact I]).
  - unfold c_start in H. destruct (c_ts s); [discriminate|]. injection H as <- <-. right. split; [discriminate|exact I].
  - unfold c_end in H. destruct (c_ts s); [|discriminate]. destruct (_ && _); [|discriminate]. injection H as <- <-. right. split; [discriminate|exact I].
  - injection H as <- <-. right. split; [discriminate|exact I].
Qed.

Lemma wait_sim : forall A (p : prog A) a c ts, sim a c -> idle c -> wrun astep a p = (ts, Ok None) -> wait_run c p = (ts, Ok None).
Proof.
  intros A p. induction p as [x|o k IH|t k IH|]; intros a c ts HS HI H; cbn [wrun wait_run] in *.
  - discriminate.
  - destruct (astep a o) as [[a1 x]| |] eqn:E; try discriminate. destruct (step_sim a c o a1 x HS E) as [c1 [C1 S1]]. rewrite C1.
    destruct (step_told _ _ _ _ HI C1) as [[-> A1]|[NX I1]]; [rewrite A1; injection H as <-; reflexivity|].
    assert (A1 : asked c1 = false) by (unfold asked; pose proof I1 as (-> & _); reflexivity). rewrite A1. destruct x; try (eapply IH; eassumption). congruence.
  - destruct (wrun astep a k) as [ts1 r1] eqn:E. injection H as <- ->. rewrite (IH _ _ _ HS HI E). reflexivity.
  - discriminate.
Qed.

(* ------------------------------------------------------------------ *)
(** Programs that end with an error when a byte is missing.  [b]: a byte has been
    seen that is still to be read. *)
Definition fails {A} (p : prog (dres A)) : Prop := exists e, p = Ret (DErr e).
Definition peeks (o : sop) : bool := match o with SPeek | SSkipPeek => true | _ => false end.
Fixpoint careful {A} (b : bool) (p : prog (dres A)) : Prop :=
  match p with
  | Ret _ | Stuck => True
  | Emit _ k => careful false k
  | Op o k =>
      match o with
      | SRead => b = true \/ fails (k OErr)
      | SPeek | SSkipPeek | SSkipRead => fails (k OErr)
      | _ => True
      end /\ forall x, x <> OErr -> careful (peeks o) (k x)
  end.

Lemma careful_any : forall A (p : prog (dres A)) b, careful false p -> careful b p.
Proof.
  intros A p. destruct p as [x|o k|t k|]; intros b H; cbn [careful] in *; auto.
  destruct H as [H1 H2]. split; [|exact H2]. destruct o; auto. destruct H1; [discriminate|auto].
Qed.
Lemma careful_bind : forall A B (p : prog (dres A)) (f : A -> prog (dres B)) b,
  careful b p -> (forall x, careful false (f x)) -> careful b (ebind p f).
Proof.
  intros A B p f. unfold ebind. induction p as [x|o k IH|t k IH|]; intros b H F; cbn [pbind careful] in *; auto.
  - destruct x as [x|e]; [apply careful_any, F|exact I].
  - destruct H as [H1 H2]. split.
    + assert (G : fails (k OErr) -> fails (pbind (k OErr) (fun r => match r with DOk a => f a | DErr e => Ret (DErr e) end))) by (intros [e E]; exists e; rewrite E; reflexivity).
      destruct o; auto. destruct H1; auto.
    + intros x N. apply IH; auto.
Qed.

Lemma step_fin : forall a o a' x, astep a o = Ok (a', x) -> a_fin a' = a_fin a.
Proof.
  intros a o a' x H. destruct o; cbn [astep] in H;
    repeat (match goal with
    | H : context [match ?y with _ => _ end] |- _ => destruct y eqn:?
    end; try discriminate); injection H as <- <-; cbn in *; auto; congruence.
Qed.
Lemma careful_run : forall A (p : prog (dres A)) b a a' ts x,
  careful b p -> a_fin a = RdFail -> (b = true -> a_in a <> []) ->
  prun astep a p = Ok (a', ts, DOk x) -> wrun astep a p = (ts, Ok (Some (a', DOk x))).
Proof.
  intros A p. induction p as [y|o k IH|t k IH|]; intros b a a' ts x C F NE H; cbn [prun wrun careful] in *.
  - injection H as <- <- ->. reflexivity.
  - destruct (astep a o) as [[a1 y]| |] eqn:E; try discriminate. destruct C as [C1 C2].
    assert (Y : y <> OErr).
    { intros ->. assert (G : fails (k OErr) -> False) by (intros [e EE]; rewrite EE in H; discriminate).
      destruct o; cbn [astep] in E; auto.
      - destruct C1 as [->|C1]; [|auto]. destruct (a_in a); [specialize (NE eq_refl); congruence|discriminate].
      - destruct (a_last a); [|discriminate]. destruct (a_prev a); [|discriminate]. destruct (a_eof a); discriminate.
      - destruct (a_tok a); discriminate.
      - destruct (a_tok a); discriminate.
      - discriminate. }
    assert (R : wrun astep a1 (k y) = (ts, Ok (Some (a', DOk x)))).
    { apply (IH y (peeks o)); auto; [rewrite (step_fin _ _ _ _ E); exact F|]. intro P.
      destruct o; try discriminate; cbn [astep] in E.
      - destruct (a_in a) eqn:Q; [|injection E as <- <-; congruence]. unfold a_end_obs in E. rewrite F in E. congruence.
      - destruct (a_in (a_skip a)) eqn:Q; [|injection E as <- <-; congruence]. unfold a_end_obs in E. cbn [a_skip a_fin] in E. rewrite F in E. congruence. }
    destruct y; auto; congruence.
  - destruct (prun astep a k) as [[[a1 ts1] r1]| |] eqn:E; try discriminate. injection H as <- <- ->.
    rewrite (IH false a a1 ts1 x C F ltac:(discriminate) E). reflexivity.
  - discriminate.
Qed.

(* ------------------------------------------------------------------ *)
(** The JSON decoder is such a program. *)
Ltac ot := let x := fresh in let n := fresh in intros x n; destruct x; try (now exfalso; apply n).
Lemma c_byte : forall o, careful false (op_byte o).
Proof. intro o. unfold op_byte. cbn. split; [destruct o; auto; [right|..]; unfold fails; eauto|]. intros x N. exact I. Qed.
Lemma c_byte_eof : forall o, careful false (op_byte_eof o).
Proof. intro o. unfold op_byte_eof, op_byte. cbn. split; [destruct o; auto; [right|..]; unfold fails; eauto|]. intros x N. exact I. Qed.
Lemma c_unexpected : forall A, careful false (@unexpected_byte A).
Proof.
  intro A. unfold unexpected_byte, op_unit, op_byte. cbn. split; [exact I|]. intros x N. split; [right; unfold fails; eauto|].
  intros y M. destruct (byte_of y); exact I.
Qed.
Lemma c_back_unexpected : forall A, careful false (pbind (op_unit SBack) (fun _ => @unexpected_byte A)).
Proof. intro A. cbn [pbind op_unit careful]. split; [exact I|]. intros x N. apply c_unexpected. Qed.
Lemma c_expect : forall b, careful false (expect_byte b).
Proof. intro b. unfold expect_byte. apply careful_bind; [apply c_byte|]. intro x. destruct (N.eqb x b); [exact I|apply c_back_unexpected]. Qed.
Lemma c_check : forall l, careful false (check_bytes l).
Proof. induction l as [|b l IH]; [exact I|]. cbn [check_bytes]. apply careful_bind; [apply c_expect|auto]. Qed.
Lemma c_hex : forall n, careful false (hex_digits n).
Proof.
  induction n as [|n IH]; [exact I|]. cbn [hex_digits]. apply careful_bind; [apply c_byte_eof|]. intro b. destruct (is_hex b); [auto|apply c_back_unexpected].
Qed.
Lemma c_end : forall A (f : bytes -> prog (dres A)), (forall t, careful false (f t)) -> careful false (pbind end_token f).
Proof. intros A f F. unfold end_token. cbn [pbind careful]. split; [exact I|]. intros x N. destruct x; cbn [pbind]; try exact I. apply F. Qed.
Lemma c_string_loop : forall f al un fst, careful false (string_loop f al un fst).
Proof.
  induction f as [|f IH]; intros al un fst; [exact I|]. cbn [string_loop]. apply careful_bind; [apply c_byte_eof|]. intro b.
  destruct (N.eqb b 92); [apply careful_bind; [apply c_byte_eof|]; intro x; destruct (is_esc_letter x); [auto|]; destruct (N.eqb x 117); [apply careful_bind; [apply c_hex|auto]|auto]|].
  destruct (N.eqb b 34); [apply c_end; intro; exact I|]. destruct (is_ctrl b); [apply c_back_unexpected|]. destruct al; [destruct fst|]; auto.
Qed.
Lemma c_string : forall f, careful false (parse_string f).
Proof.
  intro f. unfold parse_string. cbn [pbind op_unit careful]. split; [exact I|]. intros x N. apply careful_bind; [apply c_expect|intro; apply c_string_loop].
Qed.
Lemma c_digits : forall f n, careful false (read_digits f n).
Proof.
  induction f as [|f IH]; intro n; [exact I|]. cbn [read_digits]. apply careful_bind; [apply c_byte|]. intro b. destruct (_ || _); [exact I|auto].
Qed.
Lemma c_fin : careful false (pbind (op_unit SBack) (fun _ => pbind end_token (fun t => Ret (DOk (new_scalar TNum t))))).
Proof. cbn [pbind op_unit careful]. split; [exact I|]. intros x N. apply c_end. intro; exact I. Qed.
Lemma c_exp : forall f b, careful false (number_exp f b).
Proof.
  intros f b. unfold number_exp. destruct (_ || _); [|apply c_fin].
  assert (G : careful false (ebind (read_digits f 0) (fun '(_, n) => if Nat.eqb n 0 then pbind (op_unit SBack) (fun _ => @unexpected_byte scalar) else pbind (op_unit SBack) (fun _ => pbind end_token (fun t => Ret (DOk (new_scalar TNum t))))))).
  { apply careful_bind; [apply c_digits|]. intros [c n]. destruct (Nat.eqb n 0); [apply c_back_unexpected|apply c_fin]. }
  unfold ebind at 1. unfold op_byte. cbn [pbind careful byte_of]. split; [unfold fails; eauto|].
  intros x N. destruct x as [c| | | |]; cbn [byte_of]; try exact I. destruct (_ || _).
  - cbn [pbind op_unit careful peeks]. split; [left; reflexivity|]. intros y M. exact G.
  - cbn [pbind]. apply careful_any, G.
Qed.
Lemma c_frac : forall f b, careful false (number_frac f b).
Proof.
  intros f b. unfold number_frac. destruct (N.eqb b 46); [|apply c_exp]. apply careful_bind; [apply c_digits|]. intros [c n].
  destruct (Nat.eqb n 0); [apply c_back_unexpected|apply c_exp].
Qed.
Lemma c_number : forall f, careful false (parse_number f).
Proof.
  intro f. unfold parse_number. cbn [pbind op_unit careful]. split; [exact I|]. intros x N. apply careful_bind; [apply c_byte|]. intro b.
  apply careful_bind; [destruct (N.eqb b 45); [apply c_byte_eof|exact I]|]. intro c.
  destruct (N.eqb c 48); [apply careful_bind; [apply c_byte|intro; apply c_frac]|].
  destruct (_ && _); [apply careful_bind; [apply c_digits|intros [d n]; apply c_frac]|apply c_back_unexpected].
Qed.
(** After a byte has been seen it can be read. *)
Lemma c_peek : forall A (f : N -> prog (dres A)), (forall b, careful true (f b)) -> careful false (ebind (op_byte_eof SSkipPeek) f).
Proof.
  intros A f F. unfold ebind, op_byte_eof, op_byte. cbn [pbind careful byte_of check_eof]. split; [unfold fails; eauto|].
  intros x N. destruct (check_eof (byte_of x)); [apply F|exact I].
Qed.
Lemma c_read : forall A (p : prog (dres A)), careful false p -> careful true (pbind (op_unit SRead) (fun _ => p)).
Proof. intros A p H. cbn [pbind op_unit careful]. split; [now left|]. intros x N. exact H. Qed.
Lemma c_emit : forall t b, careful b (emit_ok t).
Proof. intros. exact I. Qed.
Lemma c_value : forall f, careful false (parse_value f) /\ careful false (array_loop f) /\ careful false (object_loop f).
Proof.
  induction f as [|f (IV & IA & IO)]; [repeat split|]. assert (U : forall b, careful b (@unexpected_byte unit)) by (intro; apply careful_any, c_unexpected). split; [|split].
  - cbn [parse_value]. apply careful_bind; [apply c_byte_eof|]. intro b.
    destruct (N.eqb b 34); [apply careful_bind; [apply c_string|intro; apply c_emit]|].
    destruct (N.eqb b 91). { apply careful_bind; [apply c_expect|]. intros _. cbn [careful]. apply c_peek. intro c. destruct (N.eqb c 93); [apply c_read, c_emit|now apply careful_any]. }
    destruct (N.eqb b 123). { apply careful_bind; [apply c_expect|]. intros _. cbn [careful]. apply c_peek. intro c. destruct (N.eqb c 125); [apply c_read, c_emit|now apply careful_any]. }
    destruct (N.eqb b 116); [apply careful_bind; [apply c_check|intro; apply c_emit]|].
    destruct (N.eqb b 102); [apply careful_bind; [apply c_check|intro; apply c_emit]|].
    destruct (N.eqb b 110); [apply careful_bind; [apply c_check|intro; apply c_emit]|].
    destruct (_ || _); [apply careful_bind; [apply c_number|intro; apply c_emit]|apply U].
  - cbn [array_loop]. apply careful_bind; [exact IV|]. intros _. apply c_peek. intro c.
    destruct (N.eqb c 93); [apply c_read, c_emit|]. destruct (N.eqb c 44); [apply c_read, IA|apply U].
  - cbn [object_loop]. apply careful_bind; [apply c_string|]. intro k. cbn [careful]. apply c_peek. intro c.
    destruct (N.eqb c 58); [|apply U]. apply c_read. apply careful_bind; [exact IV|]. intros _. apply c_peek. intro d.
    destruct (N.eqb d 125); [apply c_read, c_emit|]. destruct (N.eqb d 44); [|apply U]. apply c_read. apply c_peek. intros _. apply careful_any, IO.
Qed.

(* ------------------------------------------------------------------ *)
(** The decoder on the beginning of a text. *)
Notation st := (st RdFail).

Lemma ran : forall A (p : prog (dres A)) a T v (P : ast -> Prop), careful false p -> a_fin a = RdFail ->
  runs a p (fun a' ts x => ts = T /\ x = DOk v /\ P a') -> exists a', wrun astep a p = (T, Ok (Some (a', DOk v))) /\ P a'.
Proof.
  intros A p a T v P C F (a' & ts & x & R & -> & -> & H). exists a'. split; [|exact H]. apply (careful_run _ _ false); auto. discriminate.
Qed.
Lemma st_fin : forall a s tk, st a s tk -> a_fin a = RdFail.
Proof. intros a s tk (_ & _ & _ & H). exact H. Qed.

Lemma whole_value : forall v t, vtext true v t -> forall a w r f, st a (w ++ t ++ r) None -> ws w -> sep_ok RdFail t r -> 2 * length t + 1 <= f ->
  exists a', wrun astep a (parse_value f) = (toks v, Ok (Some (a', DOk tt))) /\ st a' r None.
Proof.
  intros v t V a w r f HS W SP L. apply ran; [apply (c_value f)|exact (st_fin _ _ _ HS)|]. exact (proj1 (values_complete RdFail true) v t V a w r f HS W SP L).
Qed.
Lemma skip_found : forall A (k : N -> prog (dres A)) a w b r, st a (w ++ b :: r) None -> ws w -> ~ ws_byte b -> b <> EOFb ->
  exists a', wrun astep a (ebind (op_byte_eof SSkipPeek) k) = wrun astep a' (k b) /\ st a' (b :: r) None.
Proof.
  intros A k a w b r HS W NB NE. destruct (ran _ _ a [] b (fun a' => st a' (b :: r) None) (c_byte_eof SSkipPeek) (st_fin _ _ _ HS)) as (a' & R & S').
  { exact (wp_skip_to RdFail a w b r HS W NB NE). }
  exists a'. split; [|exact S']. rewrite (wrun_ok _ _ _ _ _ _ _ _ _ _ R). cbn [app]. destruct (wrun astep a' (k b)). reflexivity.
Qed.
Lemma ws_all : forall w, ws w -> skipn (ws_len w) w = [].
Proof. intros w W. rewrite <- (app_nil_r w) at 1. rewrite ws_len_ws by auto. cbn [ws_len]. rewrite Nat.add_0_r. apply skipn_all. Qed.
Lemma skip_waits : forall A (k : N -> prog (dres A)) a w, st a w None -> ws w -> wrun astep a (ebind (op_byte_eof SSkipPeek) k) = ([], Ok None).
Proof.
  intros A k a w (HI & _ & _ & F) W. apply wrun_waits. unfold op_byte_eof, op_byte. cbn [pbind wrun astep a_skip a_in]. rewrite HI, ws_all by exact W.
  unfold a_end_obs. cbn [a_skip a_fin]. rewrite F. reflexivity.
Qed.
Lemma value_waits : forall f a w, st a w None -> ws w -> wrun astep a (parse_value (S f)) = ([], Ok None).
Proof. intros f a w HS W. cbn [parse_value]. exact (skip_waits _ _ a w HS W). Qed.
Lemma read_one : forall A (p : prog (dres A)) a b r, st a (b :: r) None ->
  exists a', wrun astep a (pbind (op_unit SRead) (fun _ => p)) = wrun astep a' p /\ st a' r None.
Proof.
  intros A p a b r (HI & HT & HE & F). unfold op_unit. cbn [pbind wrun astep]. rewrite HI. eexists. split; [reflexivity|].
  repeat split; cbn [a_in a_tok a_eof a_fin]; auto. rewrite HT. reflexivity.
Qed.
Lemma expected : forall b a r, st a (b :: r) None -> exists a', wrun astep a (expect_byte b) = ([], Ok (Some (a', DOk tt))) /\ st a' r None.
Proof.
  intros b a r HS. apply ran; [apply c_expect|exact (st_fin _ _ _ HS)|].
  pose proof (wp_expect RdFail a b r None HS) as R. eapply runs_conseq; [exact R|]. cbv beta. intros a' ts x H. cbn in H. intuition.
Qed.

Scheme opened_mind := Minimality for opened Sort Prop
  with begun_mind := Minimality for begun Sort Prop
  with begun_member_mind := Minimality for begun_member Sort Prop.
Combined Scheme opened_ind3 from opened_mind, begun_mind, begun_member_mind.

Lemma ws_split : forall w0 u' w b r, w ++ b :: r = w0 ++ u' -> ws w0 -> ~ ws_byte b -> exists w1, w = w0 ++ w1 /\ u' = w1 ++ b :: r.
Proof.
  induction w0 as [|c w0 IH]; intros u' w b r E W NB.
  - exists w. split; [reflexivity|]. now rewrite E.
  - inversion W as [|? ? WC W']; subst. destruct w as [|d w]; cbn [app] in E; injection E as E1 E2; [subst; contradiction|].
    destruct (IH u' w b r E2 W' NB) as (w1 & -> & ->). exists w1. subst. split; reflexivity.
Qed.
Lemma ws_tail : forall w0 w1, ws (w0 ++ w1) -> ws w1.
Proof. intros w0 w1 H. unfold ws in *. apply Forall_app in H. tauto. Qed.
Lemma start91 : starter 91%N. Proof. apply starter_intro. simpl. tauto. Qed.
Lemma start123 : starter 123%N. Proof. apply starter_intro. simpl. tauto. Qed.
Lemma start34 : starter 34%N. Proof. apply starter_intro. simpl. tauto. Qed.
Lemma start44 : starter 44%N. Proof. apply starter_intro. simpl. tauto. Qed.
Lemma start58 : starter 58%N. Proof. apply starter_intro. simpl. tauto. Qed.

Lemma skip_next : forall A (k : N -> prog (dres A)) a w b r, st a (w ++ b :: r) None -> ws w -> starter b ->
  exists a', wrun astep a (ebind (op_byte_eof SSkipPeek) k) = wrun astep a' (k b) /\ st a' (b :: r) None.
Proof. intros A k a w b r HS W [N1 N2]. exact (skip_found A k a w b r HS W N1 N2). Qed.

(** A value, a gap and a comma. *)
Lemma value_comma : forall A v t, vtext true v t -> forall (k : N -> prog (dres A)) a w w2 r f, st a (w ++ t ++ w2 ++ 44%N :: r) None -> ws w -> ws w2 -> 2 * length t + 1 <= f ->
  exists a', wrun astep a (ebind (parse_value f) (fun _ => ebind (op_byte_eof SSkipPeek) k)) = (let '(ts, x) := wrun astep a' (k 44%N) in (toks v ++ ts, x)) /\ st a' (44%N :: r) None.
Proof.
  intros A v t V k a w w2 r f HS W W2 L.
  destruct (whole_value v t V a w (w2 ++ 44%N :: r) f HS W) as (a1 & R1 & S1); [intros _; apply stops_ws_app; auto|exact L|].
  destruct (skip_next A k a1 w2 44%N r S1 W2 start44) as (a2 & R2 & S2). exists a2. split; [|exact S2].
  rewrite (wrun_ok _ _ _ _ _ _ _ _ _ _ R1), R2. reflexivity.
Qed.
Lemma key_read : forall c a r f, chars true c -> st a ((34%N :: c ++ [34%N]) ++ r) None -> length c < f ->
  exists a', wrun astep a (parse_string f) = ([], Ok (Some (a', DOk (string_scalar c)))) /\ st a' r None.
Proof.
  intros c a r f C HS L. apply ran; [apply c_string|exact (st_fin _ _ _ HS)|]. apply (parse_string_ok RdFail true c a r f C); [|exact L].
  cbn [app] in HS. rewrite <- app_assoc in HS. exact HS.
Qed.

Definition begun_ok (ts : list token) (u : bytes) : Prop :=
  forall w0 u', u = w0 ++ u' -> ws w0 -> forall A (k : N -> prog (dres A)) a f, st a u' None -> 2 * length u' + 1 <= f ->
    wrun astep a (ebind (parse_value f) (fun _ => ebind (op_byte_eof SSkipPeek) k)) = (ts, Ok None).
Definition opened_ok (ts : list token) (u : bytes) : Prop :=
  forall w0 u', u = w0 ++ u' -> ws w0 -> forall a f, st a u' None -> 2 * length u' + 1 <= f -> wrun astep a (parse_value f) = (ts, Ok None).
Definition member_ok (ts : list token) (u : bytes) : Prop :=
  forall (K : N -> prog (dres unit)) a f, K 34%N = object_loop f -> st a u None -> 2 * length u + 2 <= f ->
    wrun astep a (ebind (op_byte_eof SSkipPeek) K) = (ts, Ok None).

Lemma items_run : forall l t, items l t -> forall ts u, begun_ok ts u ->
  forall w0 s, t ++ u = w0 ++ s -> ws w0 -> forall a f, st a s None -> 2 * length s + 2 <= f ->
  wrun astep a (array_loop f) = (flat_map toks l ++ ts, Ok None).
Proof.
  induction 1 as [|w1 v t w2 l r W1 V W2 I IH]; intros ts u B w0 s E W0 a f HS L; (destruct f as [|f]; [lia|]); cbn [array_loop].
  - exact (B w0 s E W0 unit _ a f HS ltac:(lia)).
  - destruct (vtext_first _ _ _ V) as (b & t' & ET & NB & NE).
    assert (E' : w1 ++ b :: (t' ++ w2 ++ 44%N :: r ++ u) = w0 ++ s) by (rewrite <- E, ET; repeat (rewrite <- app_assoc || rewrite <- app_comm_cons); reflexivity).
    destruct (ws_split _ _ _ _ _ E' W0 NB) as (w3 & -> & ->). apply ws_tail in W1.
    assert (S1 : st a (w3 ++ t ++ w2 ++ 44%N :: (r ++ u)) None) by (rewrite ET; exact HS).
    assert (LS : length (w3 ++ b :: t' ++ w2 ++ 44%N :: r ++ u) = length w3 + length t + length w2 + 1 + length (r ++ u)).
    { rewrite ET. rewrite !app_length. cbn [length]. rewrite !app_length. cbn [length]. rewrite ?app_length. lia. }
    destruct (value_comma unit v t V (fun b => if N.eqb b 93 then pbind (op_unit SRead) (fun _ => emit_ok TEndArr) else if N.eqb b 44 then pbind (op_unit SRead) (fun _ => array_loop f) else unexpected_byte)
      a w3 w2 (r ++ u) f S1 W1 W2 ltac:(lia)) as (a1 & R1 & S2).
    rewrite R1. cbn [N.eqb Pos.eqb]. destruct (read_one _ (array_loop f) a1 44%N (r ++ u) S2) as (a2 & R2 & S3). rewrite R2.
    rewrite (IH ts u B [] (r ++ u) eq_refl (Forall_nil _) a2 f S3) by lia. cbn [flat_map]. rewrite <- app_assoc. reflexivity.
Qed.

Lemma fields_run : forall l t, fields l t -> forall ts u, member_ok ts u -> member_ok (flat_map member_toks l ++ ts) (t ++ u).
Proof.
  induction 1 as [|w1 c w2 w3 v t w4 l r W1 C W2 W3 V W4 F IH]; intros ts u B K a f EK HS L.
  - exact (B K a f EK HS L).
  - assert (E : (w1 ++ (34%N :: c ++ [34%N]) ++ w2 ++ 58%N :: w3 ++ t ++ w4 ++ 44%N :: r) ++ u = w1 ++ 34%N :: (c ++ 34%N :: w2 ++ 58%N :: w3 ++ t ++ w4 ++ 44%N :: (r ++ u)))
      by (repeat (rewrite <- app_assoc || rewrite <- app_comm_cons); reflexivity).
    rewrite E in HS, L. clear E. rewrite app_length in L. cbn [length] in L. rewrite !app_length in L. cbn [length] in L. rewrite !app_length in L. cbn [length] in L. rewrite !app_length in L. cbn [length] in L. rewrite ?app_length in L.
    destruct f as [|f]; [lia|]. destruct (skip_next _ K a w1 34%N _ HS W1 start34) as (a1 & R1 & S1). rewrite R1, EK. cbn [object_loop].
    destruct (key_read c a1 (w2 ++ 58%N :: w3 ++ t ++ w4 ++ 44%N :: (r ++ u)) f C) as (a2 & R2 & S2); [cbn [app]; rewrite <- app_assoc; exact S1|lia|].
    rewrite (wrun_ok _ _ _ _ _ _ _ _ _ _ R2). cbn [wrun app]. rewrite as_key_string.
    match goal with |- context [wrun astep a2 (ebind (op_byte_eof SSkipPeek) ?k)] => destruct (skip_next _ k a2 w2 58%N _ S2 W2 start58) as (a3 & R3 & S3) end.
    rewrite R3. cbn [N.eqb Pos.eqb].
    match goal with |- context [wrun astep a3 (pbind (op_unit SRead) (fun _ => ?p))] => destruct (read_one _ p a3 58%N _ S3) as (a4 & R4 & S4) end.
    rewrite R4.
    match goal with |- context [wrun astep a4 (ebind (parse_value f) (fun _ => ebind (op_byte_eof SSkipPeek) ?k))] => destruct (value_comma _ v t V k a4 w3 w4 (r ++ u) f S4 W3 W4 ltac:(lia)) as (a5 & R5 & S5) end.
    rewrite R5. cbn [N.eqb Pos.eqb].
    match goal with |- context [wrun astep a5 (pbind (op_unit SRead) (fun _ => ?p))] => destruct (read_one _ p a5 44%N _ S5) as (a6 & R6 & S6) end.
    rewrite R6. rewrite (IH ts u B (fun _ => object_loop f) a6 f eq_refl S6) by (rewrite ?app_length; lia).
    cbn [flat_map]. unfold member_toks at 1. cbn [fst snd app]. rewrite <- app_assoc. reflexivity.
Qed.

Lemma begun_runs :
  (forall ts u, opened ts u -> opened_ok ts u) /\ (forall ts u, begun ts u -> begun_ok ts u) /\ (forall ts u, begun_member ts u -> member_ok ts u).
Proof.
  apply opened_ind3.
  - intros w l t ts u W I B IH w0 u' E W0 a f HS L.
    destruct (ws_split _ _ _ _ _ E W0 (proj1 start91)) as (w1 & -> & ->). apply ws_tail in W.
    rewrite app_length in L. cbn [length] in L. destruct f as [|f]; [lia|]. cbn [parse_value].
    match goal with |- context [ebind (op_byte_eof SSkipPeek) ?k] => destruct (skip_next _ k a w1 91%N _ HS W start91) as (a1 & R1 & S1) end.
    rewrite R1. cbn [N.eqb Pos.eqb]. destruct (expected _ _ _ S1) as (a2 & R2 & S2). rewrite (wrun_ok _ _ _ _ _ _ _ _ _ _ R2). cbn [wrun app].
    (* the first byte after the bracket *)
    assert (D : ws (t ++ u) /\ l = [] /\ ts = [] \/ exists w' b r, t ++ u = w' ++ b :: r /\ ws w' /\ starter b /\ b <> 93%N).
    { assert (VF : forall w' v t' x, ws w' -> vtext true v t' -> exists b r, w' ++ t' ++ x = w' ++ b :: r /\ ws w' /\ starter b /\ b <> 93%N).
      { intros w' v t' x W' V. destruct (vtext_first _ _ _ V) as (b & t2 & ET & ST). exists b, (t2 ++ x). split; [now rewrite ET|].
        split; [exact W'|]. split; [exact ST|]. exact (vtext_not_close _ _ _ _ _ V ET). }
      inversion I as [|w' v t' w2 l' r' W' V W2 I' EL ET]; subst.
      - destruct B as [w' W'|w' v t' w2 W' V W2 ND|ts u [w' l' t' ts' u' W' _ _|w' l' t' ts' u' W' _ _]].
        + left. auto.
        + right. destruct (VF w' v t' w2 W' V) as (b & r & H). exists w', b, r. exact H.
        + right. exists w', 91%N, (t' ++ u'). split; [reflexivity|]. split; [exact W'|]. split; [exact start91|discriminate].
        + right. exists w', 123%N, (t' ++ u'). split; [reflexivity|]. split; [exact W'|]. split; [exact start123|discriminate].
      - right. destruct (VF w' v t' ((w2 ++ 44%N :: r') ++ u) W' V) as (b & r & H). exists w', b, r. rewrite <- !app_assoc in *. exact H. }
    destruct D as [(WS & -> & ->)|(w' & b & r & E' & W' & ST & NB)].
    + rewrite (skip_waits _ _ a2 _ S2 WS). reflexivity.
    + rewrite E' in S2.
      match goal with |- context [ebind (op_byte_eof SSkipPeek) ?k] => destruct (skip_next _ k a2 w' b r S2 W' ST) as (a3 & R3 & S3) end.
      rewrite R3. destruct (N.eqb_spec b 93); [contradiction|].
      rewrite (items_run l t I ts u IH w' (b :: r) E' W' a3 f S3); [reflexivity|]. rewrite E', app_length in L. lia.
  - intros w l t ts u W I B IH w0 u' E W0 a f HS L.
    destruct (ws_split _ _ _ _ _ E W0 (proj1 start123)) as (w1 & -> & ->). apply ws_tail in W.
    rewrite app_length in L. cbn [length] in L. destruct f as [|f]; [lia|]. cbn [parse_value].
    match goal with |- context [ebind (op_byte_eof SSkipPeek) ?k] => destruct (skip_next _ k a w1 123%N _ HS W start123) as (a1 & R1 & S1) end.
    rewrite R1. cbn [N.eqb Pos.eqb]. destruct (expected _ _ _ S1) as (a2 & R2 & S2). rewrite (wrun_ok _ _ _ _ _ _ _ _ _ _ R2). cbn [wrun app].
    match goal with |- context [ebind (op_byte_eof SSkipPeek) ?k] => assert (R3 : wrun astep a2 (ebind (op_byte_eof SSkipPeek) k) = (flat_map member_toks l ++ ts, Ok None)) end.
    { apply (fields_run l t I ts u IH _ a2 f); [reflexivity|exact S2|lia]. }
    rewrite R3. reflexivity.
  - intros w W w0 u' E W0 A k a f HS L. subst w. apply ws_tail in W. destruct f as [|f]; [lia|]. apply wrun_waits. now apply (value_waits f a u').
  - intros w v t w2 W V W2 ND w0 u' E W0 A k a f HS L.
    destruct (vtext_first _ _ _ V) as (b & t2 & ET & NB & NE). rewrite ET in E. cbn [app] in E.
    destruct (ws_split _ _ _ _ _ E W0 NB) as (w1 & -> & ->). apply ws_tail in W.
    assert (S1 : st a (w1 ++ t ++ w2) None) by (rewrite ET; exact HS).
    destruct (whole_value v t V a w1 w2 f S1 W) as (a1 & R1 & S2).
    { intro D. specialize (ND D). destruct w2 as [|c w2]; [congruence|]. right. exists c, w2. split; [reflexivity|]. inversion W2; subst. unfold ws_byte, continues_number, digit in *. lia. }
    { rewrite ET. cbn [length]. rewrite app_length in L. cbn [length] in L. rewrite app_length in L. lia. }
    rewrite (wrun_ok _ _ _ _ _ _ _ _ _ _ R1). rewrite (skip_waits _ k a1 w2 S2 W2), app_nil_r. reflexivity.
  - intros ts u O IH w0 u' E W0 A k a f HS L. apply wrun_waits. exact (IH w0 u' E W0 a f HS L).
  - intros w W K a f EK HS L. exact (skip_waits _ K a w HS W).
  - intros w c w2 W C W2 K a f EK HS L. cbn [app] in HS. destruct (skip_next _ K a w 34%N _ HS W start34) as (a1 & R1 & S1). rewrite R1, EK.
    rewrite !app_length in L. cbn [length] in L. rewrite app_length in L. cbn [length] in L. destruct f as [|f]; [lia|]. cbn [object_loop].
    destruct (key_read c a1 w2 f C S1 ltac:(lia)) as (a2 & R2 & S2). rewrite (wrun_ok _ _ _ _ _ _ _ _ _ _ R2). cbn [wrun app]. rewrite as_key_string.
    rewrite (skip_waits _ _ a2 w2 S2 W2). reflexivity.
  - intros w c w2 ts u W C W2 B IH K a f EK HS L. cbn [app] in HS. destruct (skip_next _ K a w 34%N _ HS W start34) as (a1 & R1 & S1). rewrite R1, EK.
    rewrite !app_length in L. cbn [length] in L. rewrite !app_length in L. cbn [length] in L. destruct f as [|f]; [lia|]. cbn [object_loop].
    destruct (key_read c a1 (w2 ++ 58%N :: u) f C S1 ltac:(lia)) as (a2 & R2 & S2). rewrite (wrun_ok _ _ _ _ _ _ _ _ _ _ R2). cbn [wrun app]. rewrite as_key_string.
    match goal with |- context [wrun astep a2 (ebind (op_byte_eof SSkipPeek) ?k)] => destruct (skip_next _ k a2 w2 58%N _ S2 W2 start58) as (a3 & R3 & S3) end.
    rewrite R3. cbn [N.eqb Pos.eqb].
    match goal with |- context [wrun astep a3 (pbind (op_unit SRead) (fun _ => ?p))] => destruct (read_one _ p a3 58%N _ S3) as (a4 & R4 & S4) end.
    rewrite R4. rewrite (IH [] u eq_refl (Forall_nil _) unit _ a4 f S4 ltac:(lia)). reflexivity.
Qed.

Lemma produce_waits : forall ts t, received ts t -> forall w0 s, t = w0 ++ s -> ws w0 -> forall a f, st a s None -> 2 * length s + 2 <= f -> wrun astep a (produce f) = (ts, Ok None).
Proof.
  induction 1 as [w W|ts t O|w v t ts r W V ND R IH]; intros w0 s E W0 a f HS L; (destruct f as [|f]; [lia|]); cbn [produce].
  - subst w. apply ws_tail in W. apply wrun_waits. destruct HS as (HI & _ & _ & F). unfold op_byte. cbn [pbind wrun astep a_skip a_in]. rewrite HI, ws_all by exact W.
    unfold a_end_obs. cbn [a_skip a_fin]. rewrite F. reflexivity.
  - assert (D : exists w' b r, s = w' ++ b :: r /\ ws w' /\ starter b).
    { destruct O as [w l t' ts' u W _ _|w l t' ts' u W _ _].
      - destruct (ws_split _ _ _ _ _ E W0 (proj1 start91)) as (w1 & -> & ->). exists w1, 91%N, (t' ++ u). split; [reflexivity|]. split; [now apply ws_tail in W|exact start91].
      - destruct (ws_split _ _ _ _ _ E W0 (proj1 start123)) as (w1 & -> & ->). exists w1, 123%N, (t' ++ u). split; [reflexivity|]. split; [now apply ws_tail in W|exact start123]. }
    destruct D as (w' & b & r & -> & W' & ST).
    assert (P : exists a', wrun astep a (op_byte SSkipPeek) = ([], Ok (Some (a', DOk b))) /\ st a' (b :: r) None).
    { apply ran; [apply c_byte|exact (st_fin _ _ _ HS)|]. eapply runs_conseq; [apply wp_skip_raw; eauto|]. cbv beta. intros a1 t1 x [-> [S1 ->]].
      assert (EE : skipn (ws_len (w' ++ b :: r)) (w' ++ b :: r) = b :: r).
      { rewrite ws_len_ws by auto. rewrite ws_len_stop_at by (apply ST). rewrite Nat.add_0_r, skipn_app, skipn_all, Nat.sub_diag. reflexivity. }
      rewrite EE in *. auto. }
    destruct P as (a1 & R1 & S1). rewrite (wrun_ok _ _ _ _ _ _ _ _ _ _ R1). destruct (N.eqb_spec b EOFb); [destruct ST; contradiction|]. cbn [app].
    rewrite (wrun_waits _ _ _ _ _ _ _ ts); [reflexivity|]. apply (proj1 begun_runs ts t O (w0 ++ w') (b :: r)); [rewrite <- app_assoc; exact E|unfold ws in *; apply Forall_app; split; assumption|exact S1|].
    rewrite app_length in L. lia.
  - destruct (vtext_first _ _ _ V) as (b & t2 & ET & NB & NE). assert (E' : w ++ b :: (t2 ++ r) = w0 ++ s) by (rewrite <- E, ET; reflexivity).
    destruct (ws_split _ _ _ _ _ E' W0 NB) as (w1 & -> & ->). apply ws_tail in W.
    assert (P : exists a', wrun astep a (op_byte SSkipPeek) = ([], Ok (Some (a', DOk b))) /\ st a' (b :: t2 ++ r) None).
    { apply ran; [apply c_byte|exact (st_fin _ _ _ HS)|]. eapply runs_conseq; [apply wp_skip_raw; eauto|]. cbv beta. intros a1 t1 x [-> [S1 ->]].
      assert (EE : skipn (ws_len (w1 ++ b :: t2 ++ r)) (w1 ++ b :: t2 ++ r) = b :: t2 ++ r).
      { rewrite ws_len_ws by auto. rewrite ws_len_stop_at by exact NB. rewrite Nat.add_0_r, skipn_app, skipn_all, Nat.sub_diag. reflexivity. }
      rewrite EE in *. auto. }
    destruct P as (a1 & R1 & S1). rewrite (wrun_ok _ _ _ _ _ _ _ _ _ _ R1). destruct (N.eqb_spec b EOFb); [contradiction|]. cbn [app].
    rewrite app_length in L. cbn [length] in L. rewrite app_length in L.
    assert (S2 : st a1 ([] ++ t ++ r) None) by (rewrite ET; exact S1).
    destruct (whole_value v t V a1 [] r f S2 (Forall_nil _)) as (a2 & R2 & S3); [intro D; right; exact (ND D)|rewrite ET; cbn [length]; lia|].
    rewrite (wrun_ok _ _ _ _ _ _ _ _ _ _ R2). rewrite (IH [] r eq_refl (Forall_nil _) a2 f S3) by lia. reflexivity.
Qed.

Lemma decode_waits : forall ts t chunks size fuel, received ts t -> concat chunks = t -> ok_runs 99 chunks = true -> 2 <= size -> 2 * length t + 2 <= fuel ->
  decode_waiting fuel chunks size = (ts, true).
Proof.
  intros ts t chunks size fuel R E K SZ L. unfold decode_waiting.
  assert (W : wrun astep (a_init t RdFail) (produce fuel) = (ts, Ok None)) by (apply (produce_waits ts t R [] t eq_refl (Forall_nil _)); [repeat split|exact L]).
  pose proof (init_sim (delivering chunks) size SZ K) as S0. cbn [delivering rd_chunks rd_fin] in S0. rewrite E in S0.
  rewrite (wait_sim _ _ _ _ _ S0 (conj eq_refl (conj eq_refl eq_refl)) W). reflexivity.
Qed.

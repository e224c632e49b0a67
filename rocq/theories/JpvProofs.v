(** The JPV decoder and encoder. *)
From Coq Require Import List Arith ZArith NArith Bool Lia.
From Verif Require Import Base Tokens ScannerModel ScannerSpec ScannerProofs ProgModel ProgProofs
  JsonDecModel JsonSpec JsonDecProofs JsonDecValue P_JsonDec
  EncSpec PrinterModel JsonEncModel JsonEncProofs P_JsonEnc
  GoLiteral ScalarModel ScalarSpec ScalarProofs P_Scalar JpvEncModel JpvDecModel JpvSpec.

(* ------------------------------------------------------------------ *)
(** Parsed steps. *)
Definition parsed (s : jstep) (k : scalar) : Prop :=
  match s with
  | SName c => k = name_key c
  | SQuoted c => k = key_scalar c
  | SIndex n => exists ds, int_text ds /\ nat_digits 0 ds = Z.of_N n /\ k = new_key TNum (ds ++ [93%N])
  end.

Inductive parsed_text : list scalar -> bytes -> Prop :=
| pd_nil : parsed_text [] []
| pd_step : forall s k t ks r, step_text s t -> parsed s k -> parsed_text ks r ->
    (forall n, s = SIndex n -> t = 91%N :: sc_bytes k) ->
    parsed_text (k :: ks) (t ++ r).

Lemma path_parsed : forall p t, path_text p t -> exists ks, Forall2 parsed p ks /\ parsed_text ks t.
Proof.
  induction 1 as [|s p t r ST PT [ks [F PK]]]; [exists []; split; constructor|].
  assert (K : exists k, parsed s k /\ forall n, s = SIndex n -> t = 91%N :: sc_bytes k).
  { destruct ST as [c I|c C|n ds I D].
    - exists (name_key c). split; [reflexivity|discriminate].
    - exists (key_scalar c). split; [reflexivity|discriminate].
    - exists (new_key TNum (ds ++ [93%N])). split; [exists ds; auto|]. reflexivity. }
  destruct K as [k [K1 K2]].
  exists (k :: ks). split; [constructor; auto|]. econstructor; eauto.
Qed.

Section Fin.
Variable fin : rerr.
Notation st := (st fin).
Notation peeked := (peeked fin).

Lemma runs_jbind : forall A B (p : prog (jres A)) (f : A -> prog (jres B)) a Q,
  runs a p (fun a1 ts1 x => match x with
     | JOk v => runs a1 (f v) (fun a2 ts2 y => Q a2 (ts1 ++ ts2) y)
     | JErr e => Q a1 ts1 (JErr e)
     | JPanic => Q a1 ts1 JPanic
     end) -> runs a (jbind p f) Q.
Proof.
  intros A B p f a Q H. unfold jbind. apply runs_bind. eapply runs_conseq; [exact H|].
  cbv beta. intros a1 ts [v|e|] K; [exact K| |]; apply runs_ret; rewrite app_nil_r; exact K.
Qed.

Lemma runs_jbindd : forall A B (p : prog (dres A)) (f : A -> prog (jres B)) a Q,
  runs a p (fun a1 ts1 x => match x with
     | DOk v => runs a1 (f v) (fun a2 ts2 y => Q a2 (ts1 ++ ts2) y)
     | DErr e => Q a1 ts1 (JErr e)
     end) -> runs a (jbindd p f) Q.
Proof.
  intros A B p f a Q H. unfold jbindd. apply runs_bind. eapply runs_conseq; [exact H|].
  cbv beta. intros a1 ts [v|e] K; [exact K|]; apply runs_ret; rewrite app_nil_r; exact K.
Qed.

Lemma alpha_not_eof : forall b, is_alpha b = true -> b <> EOFb.
Proof. intros b H ->. discriminate. Qed.
Lemma alnum_not_eof : forall b, is_alnum b = true -> b <> EOFb.
Proof. intros b H ->. discriminate. Qed.

Lemma name_loop_ok : forall c f a r tk, st a (c ++ r) (Some tk) ->
  forallb alnum_byte c = true -> (exists b r', r = b :: r' /\ is_alnum b = false /\ b <> EOFb) ->
  length c < f ->
  runs a (name_loop f) (fun a' ts x => ts = [] /\ x = JOk (tk ++ c) /\ st a' r None).
Proof.
  induction c as [|b c IH]; intros f a r tk S F ST L; (destruct f as [|f]; [simpl in L; lia|]);
    cbn [name_loop app] in *; apply runs_jbindd.
  - destruct ST as [b [r' [-> [NA NE]]]].
    eapply runs_conseq; [eapply wp_read_eof; eauto|]. cbv beta. intros a1 t x [-> [-> P]].
    rewrite NA. apply runs_bind. eapply runs_conseq; [eapply wp_back; eauto|].
    cbv beta. intros a2 t2 x2 [-> S2]. apply runs_bind.
    eapply runs_conseq; [eapply wp_end; eauto|]. cbv beta. intros a3 t3 x3 [-> [-> S3]].
    apply runs_ret. cbn [app]. rewrite ?(app_nil_r tk), ?(app_nil_r acc), ?app_nil_r. auto.
  - cbn [forallb] in F. apply andb_prop in F. destruct F as [AB F].
    rewrite <- alnum_same in AB.
    eapply runs_conseq; [eapply wp_read_eof; eauto using alnum_not_eof|].
    cbv beta. intros a1 t x [-> [-> P]]. rewrite AB. apply peeked_st in P. destruct P as [S1 _].
    eapply runs_conseq; [apply (IH f a1 r (tk ++ [b])); auto; simpl in L; lia|].
    cbv beta. intros a2 t2 x2 [-> [-> S2]]. rewrite <- app_assoc. auto.
Qed.

Lemma wp_peek_eof : forall a b r tk, st a (b :: r) tk -> b <> EOFb ->
  runs a (op_byte_eof SPeek) (fun a' ts x => ts = [] /\ x = DOk b /\ a' = a).
Proof.
  intros a b r tk S NE. unfold op_byte_eof. apply runs_bind.
  eapply runs_conseq; [eapply wp_peek; eauto|]. cbv beta. intros a1 t x [-> [-> ->]].
  apply runs_ret. simpl. destruct (N.eqb_spec b EOFb); [contradiction|]. auto.
Qed.

Lemma int_first : forall ds, int_text ds -> exists d ds', ds = d :: ds' /\ digit d /\ Forall digit ds'.
Proof.
  intros ds [->|[d [ds' [-> [D F]]]]]; [exists 48%N, []|exists d, ds']; unfold digit in *; repeat split; auto; lia.
Qed.

(** ReadDigits directly after StartToken. *)
Lemma wp_digits_start : forall ds f a r, st a (ds ++ 93%N :: r) (Some []) -> int_text ds ->
  length ds < f ->
  runs a (read_digits f 0) (fun a' ts x => ts = [] /\ x = DOk (93%N, length ds) /\
    st a' r (Some (ds ++ [93%N]))).
Proof.
  intros ds f a r S I L. destruct (int_first ds I) as [d [ds' [-> [D F]]]].
  destruct f as [|f]; [simpl in L; lia|]. cbn [read_digits app] in *. apply runs_ebind.
  eapply runs_conseq; [eapply wp_read_cons; eauto|]. cbv beta. intros a1 t x [-> [-> P]].
  assert (N : N.eqb d EOFb = false). { apply N.eqb_neq. unfold digit, EOFb in *. lia. }
  rewrite N. apply is_digit_spec in D. rewrite D. cbn [orb negb].
  apply peeked_st in P. destruct P as [S1 B1].
  eapply runs_conseq; [eapply (wp_digits_ok fin ds' f a1 (93%N :: r) [d] 1)|].
  - exact S1.
  - exact B1.
  - exact F.
  - right. exists 93%N, r. split; [reflexivity|]. unfold digit. lia.
  - simpl in L. lia.
  - cbv beta. intros a2 t2 x2 [-> [b [-> P]]]. split; [reflexivity|].
    assert (b = 93%N) by (eapply peeked_hd; eauto). subst. apply peeked_st in P. destruct P as [S2 _].
    split; [reflexivity|exact S2].
Qed.

Lemma parse_path_ok : forall ks t, parsed_text ks t -> forall f a r acc,
  st a (t ++ r) None ->
  (exists b r', r = b :: r' /\ is_alnum b = false /\ b <> EOFb /\ b <> 91%N /\ b <> 46%N) ->
  length t < f ->
  runs a (parse_path f acc) (fun a' ts x => ts = [] /\ x = JOk (acc ++ ks) /\ st a' r None).
Proof.
  induction 1 as [|s k t ks t' STX PAR PT IH IDX]; intros f a r acc S ST L;
    (destruct f as [|f]; [lia|]); cbn [parse_path app] in *.
  - destruct ST as [b [r' [-> [NA [NE [N1 N2]]]]]]. apply runs_jbindd.
    eapply runs_conseq; [eapply wp_read_eof; eauto|]. cbv beta. intros a1 t x [-> [-> P]].
    apply N.eqb_neq in N1, N2. rewrite N1, N2. apply runs_bind.
    eapply runs_conseq; [eapply wp_back; eauto|]. cbv beta. intros a2 t2 x2 [-> S2].
    apply runs_ret. cbn [app]. rewrite ?(app_nil_r tk), ?(app_nil_r acc), ?app_nil_r. auto.
  - rewrite <- app_assoc in S. rewrite app_length in L.
    assert (STEP : forall a1, st a1 (t' ++ r) None -> length t' < f ->
      runs a1 (parse_path f (acc ++ [k]))
        (fun a' ts x => ts = [] /\ x = JOk (acc ++ k :: ks) /\ st a' r None)).
    { intros a1 S1 L1. eapply runs_conseq; [apply (IH f a1 r); auto|]. cbv beta.
      intros a2 t2 x [-> [-> S2]]. rewrite <- app_assoc. auto. }
    clear IH. destruct STX as [c I|c C|n ds I D]; cbn [app] in S; apply runs_jbindd.
    + (* .name *)
      cbn [parsed] in PAR. subst k.
      eapply runs_conseq; [eapply wp_read_eof; eauto; discriminate|]. cbv beta. intros a1 t x [-> [-> P]].
      apply peeked_st in P. destruct P as [S1 _]. cbn [N.eqb Pos.eqb].
      apply runs_bind. eapply runs_conseq; [eapply wp_start; exact S1|]. cbv beta.
      intros a2 t2 x2 [-> S2]. destruct c as [|b c]; [discriminate|].
      cbn [identifier] in I. apply andb_prop in I. destruct I as [AB I]. rewrite <- alpha_same in AB.
      cbn [app] in S2. apply runs_jbindd.
      eapply runs_conseq; [eapply wp_read_eof; [exact S2|now apply alpha_not_eof]|]. cbv beta.
      intros a3 t3 x3 [-> [-> P]]. apply peeked_st in P. destruct P as [S3 _]. rewrite AB.
      assert (NXT : exists b r', t' ++ r = b :: r' /\ is_alnum b = false /\ b <> EOFb).
      { clear - PT ST. destruct PT as [|s k t ks t'' STX PAR PT _].
        - destruct ST as [b [r' [-> [H1 [H2 _]]]]]. exists b, r'. auto.
        - destruct STX; cbn [app]; eexists _, _; (split; [reflexivity|split; [reflexivity|discriminate]]). }
      apply runs_jbind. eapply runs_conseq; [apply (name_loop_ok c f a3 (t' ++ r) [b]); auto|].
      { simpl in L. lia. }
      cbv beta. intros a4 t4 x4 [-> [-> S4]]. cbn [app].
      eapply runs_conseq; [apply STEP; auto; simpl in L; lia|]. auto.
    + (* quoted *)
      cbn [parsed] in PAR. subst k.
      eapply runs_conseq; [eapply wp_read_eof; eauto; discriminate|]. cbv beta. intros a1 t x [-> [-> P]].
      apply peeked_st in P. destruct P as [S1 _]. cbn [N.eqb Pos.eqb].
      apply runs_jbindd. eapply runs_conseq; [eapply wp_peek_eof; [exact S1|discriminate]|].
      cbv beta. intros a2 t2 x2 [-> [-> ->]]. cbn [N.eqb Pos.eqb].
      rewrite <- !app_assoc in S1. cbn [app tok_app] in S1. apply runs_jbindd.
      eapply runs_conseq; [eapply (parse_string_ok fin false c a1 (93%N :: t' ++ r) f); eauto|].
      { cbn [length] in L. rewrite app_length in L. simpl in L. lia. }
      cbv beta. intros a3 t3 x3 [-> [-> S3]]. apply runs_jbindd.
      eapply runs_conseq; [eapply wp_read_eof; [exact S3|discriminate]|]. cbv beta.
      intros a4 t4 x4 [-> [-> P]]. apply peeked_st in P. destruct P as [S4 _]. cbn [N.eqb Pos.eqb].
      rewrite as_key_string.
      eapply runs_conseq; [apply STEP; auto; simpl in L; lia|]. auto.
    + (* index *)
      eapply runs_conseq; [eapply wp_read_eof; eauto; discriminate|]. cbv beta. intros a1 t x [-> [-> P]].
      apply peeked_st in P. destruct P as [S1 _]. cbn [N.eqb Pos.eqb].
      destruct (int_first ds I) as [d [ds' [E [DD F]]]].
      apply runs_jbindd. eapply runs_conseq; [eapply wp_peek_eof; [rewrite E in S1; exact S1|]|].
      { unfold digit, EOFb in *. lia. }
      cbv beta. intros a2 t2 x2 [-> [-> ->]].
      assert (ND : N.eqb d 34 = false). { apply N.eqb_neq. unfold digit in DD. lia. }
      rewrite ND. apply runs_bind. eapply runs_conseq; [eapply wp_start; exact S1|]. cbv beta.
      intros a3 t3 x3 [-> S3]. apply runs_jbindd.
      rewrite <- app_assoc in S3. cbn [app] in S3.
      eapply runs_conseq; [eapply (wp_digits_start ds f a3 (t' ++ r)); [exact S3|exact I|]|].
      { simpl in L. rewrite app_length in L. simpl in L. lia. }
      cbv beta. intros a4 t4 x4 [-> [-> S4]].
      assert (NZ : Nat.eqb (length ds) 0 = false) by (rewrite E; reflexivity).
      rewrite NZ. apply runs_bind. eapply runs_conseq; [eapply wp_end; exact S4|].
      cbv beta. intros a5 t5 x5 [-> [-> S5]]. cbn [N.eqb Pos.eqb].
      assert (EK : k = new_key TNum (ds ++ [93%N])).
      { destruct PAR as [ds2 [_ [_ ->]]]. specialize (IDX n eq_refl). cbn [new_key sc_bytes] in IDX.
        injection IDX as IDX. now rewrite IDX. }
      rewrite <- EK. eapply runs_conseq; [apply STEP; auto; simpl in L; lia|]. auto.
Qed.

(* ------------------------------------------------------------------ *)
(** The lines. *)
Lemma runs_emit_all : forall A ts (p : prog A) a Q,
  runs a p (fun a' ts' x => Q a' (ts ++ ts') x) -> runs a (emit_all ts p) Q.
Proof.
  induction ts as [|t ts IH]; intros p a Q H; cbn [emit_all app] in *; [exact H|].
  apply runs_emit. apply IH. exact H.
Qed.

(** What a sequence of parsed lines amounts to. *)
Fixpoint walk (last : list scalar) (ls : list (list scalar * jval)) : jres (list token * list scalar) :=
  match ls with
  | [] => JOk ([], last)
  | (q, v) :: r =>
      match update_path last q with
      | JOk ts =>
          match walk q r with
          | JOk (ts', q') => JOk (ts ++ toks v ++ ts', q')
          | JErr e => JErr e
          | JPanic => JPanic
          end
      | JErr e => JErr e
      | JPanic => JPanic
      end
  end.

Inductive ltext : list (list scalar * jval) -> bytes -> Prop :=
| lt_nil : forall w, ws w -> ltext [] w
| lt_cons : forall w p v pt t ls r, ws w -> parsed_text p pt -> vtext false v t -> sep_ok fin t r ->
    ltext ls r -> ltext ((p, v) :: ls) (w ++ (36%N :: pt ++ [32; 61; 32]%N ++ t) ++ r).

Lemma wp_skip_read : forall a w b r, st a (w ++ b :: r) None -> ws w -> ~ ws_byte b -> b <> EOFb ->
  runs a (op_byte_eof SSkipRead) (fun a' ts x => ts = [] /\ x = DOk b /\ st a' r None).
Proof.
  intros a w b r S W NB NE. unfold op_byte_eof. apply runs_bind.
  assert (L : ws_len (w ++ b :: r) = length w).
  { rewrite ws_len_ws by auto. rewrite ws_len_stop_at by auto. lia. }
  assert (S1 : st (a_skip a) (b :: r) None).
  { destruct S as [I [T [E F]]]. unfold a_skip. repeat split; cbn [a_in a_tok a_eof a_fin]; auto.
    - rewrite I, L, skipn_app, skipn_all, Nat.sub_diag. reflexivity.
    - now rewrite T. }
  destruct S1 as [I [T [E F]]].
  eapply runs_op; [cbn [astep]; rewrite I; reflexivity|].
  apply runs_ret. apply runs_ret. split; [reflexivity|]. split.
  - simpl. destruct (N.eqb_spec b EOFb); [contradiction|reflexivity].
  - unfold ProgModel.byte_of in *. repeat split; cbn [a_in a_tok a_eof a_fin]; auto. rewrite T. reflexivity.
Qed.

Lemma parse_line_ok : forall last p v pt t r a f ts,
  st a ((36%N :: pt ++ [32; 61; 32]%N ++ t) ++ r) None ->
  parsed_text p pt -> vtext false v t -> sep_ok fin t r ->
  update_path last p = JOk ts ->
  2 * length (36%N :: pt ++ [32; 61; 32]%N ++ t) <= f ->
  runs a (parse_line f last) (fun a' ts' x => ts' = ts ++ toks v /\ x = (JOk tt, p) /\ st a' r None).
Proof.
  intros last p v pt t r a f ts S PT V SP U L. unfold parse_line. apply runs_bind.
  cbn [length app] in *. rewrite app_length in L. cbn [length app] in L.
  eapply runs_conseq; [eapply wp_expect; exact S|]. cbv beta. intros a1 t1 x [-> [-> [S1 _]]].
  cbn [tok_app] in S1. rewrite <- app_assoc in S1. apply runs_bind.
  eapply runs_conseq; [apply (parse_path_ok p pt PT f a1 ((32 :: 61 :: 32 :: t)%N ++ r) []); [exact S1| |lia]|].
  { exists 32%N, ((61 :: 32 :: t)%N ++ r). repeat split; discriminate. }
  cbv beta. intros a2 t2 x2 [-> [-> S2]]. cbn [app] in *. apply runs_bind.
  eapply runs_conseq; [apply (wp_skip_read a2 [32%N] 61%N (32%N :: t ++ r)); [exact S2| | |discriminate]|].
  { apply ws_space. } { unfold ws_byte. lia. }
  cbv beta. intros a3 t3 x3 [-> [-> S3]]. cbn [N.eqb Pos.eqb]. rewrite U.
  apply runs_emit_all. apply runs_bind.
  eapply runs_conseq; [apply (proj1 (values_complete fin false) v t V a3 [32%N] r f); auto|].
  { apply ws_space. } { lia. }
  cbv beta. intros a4 t4 x4 [-> [-> S4]]. apply runs_ret. rewrite !app_nil_r. cbn [jlift app]. auto.
Qed.

Lemma produce_lines : forall ls t, ltext ls t -> fin = RdEOF -> forall a f last ts q,
  st a t None -> walk last ls = JOk (ts, q) -> 2 * length t + 2 <= f ->
  runs a (jproduce f last) (fun a' ts' x => ts' = ts ++ unwind_path q false /\ x = JOk tt).
Proof.
  intros ls t H FN. induction H as [w W|w p v pt t ls r W PT V SP LT IH]; intros a f last ts q S WK L;
    (destruct f as [|f]; [lia|]); cbn [jproduce walk] in *; apply runs_bind.
  - injection WK as <- <-.
    eapply runs_conseq; [apply wp_skip_raw; eauto|]. cbv beta. intros a1 t x [-> [S1 ->]].
    assert (E : skipn (ws_len w) w = []).
    { rewrite <- (app_nil_r w) at 1. rewrite ws_len_ws by auto. simpl. rewrite Nat.add_0_r.
      apply skipn_all. }
    rewrite E, FN. rewrite N.eqb_refl. apply runs_emit_all. apply runs_ret. rewrite app_nil_r. auto.
  - destruct (update_path last p) as [ts1| |] eqn:U; try discriminate.
    destruct (walk p ls) as [[ts2 q2]| |] eqn:WK2; try discriminate.
    injection WK as <- <-.
    eapply runs_conseq; [apply wp_skip_raw; eauto|]. cbv beta. intros a1 t1 x [-> [S1 ->]].
    assert (E : skipn (ws_len (w ++ (36%N :: pt ++ [32; 61; 32]%N ++ t) ++ r)) (w ++ (36%N :: pt ++ [32; 61; 32]%N ++ t) ++ r)
              = (36%N :: pt ++ [32; 61; 32]%N ++ t) ++ r).
    { rewrite ws_len_ws by auto. cbn [app]. rewrite ws_len_stop_at by (unfold ws_byte; lia).
      rewrite Nat.add_0_r. rewrite skipn_app, skipn_all, Nat.sub_diag. reflexivity. }
    rewrite E in *. cbn [app]. cbn [N.eqb Pos.eqb EOFb]. apply runs_bind.
    rewrite !app_length in L.
    eapply runs_conseq; [eapply (parse_line_ok last p v pt t r a1 f ts1); eauto; lia|].
    cbv beta. intros a2 t2 [x2 l2] [-> [EX S2]]. injection EX as -> ->.
    eapply runs_conseq; [eapply (IH a2 f p ts2 q2); eauto; simpl in L; lia|].
    cbv beta. intros a3 t3 x3 [-> ->]. split; [|reflexivity]. cbn [app].
    rewrite <- !app_assoc. reflexivity.
Qed.
End Fin.

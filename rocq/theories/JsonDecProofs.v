(** The JSON decoder on the plain scanner: weakest-precondition proofs. *)
From Coq Require Import List Arith NArith Bool Lia.
From Verif Require Import Base Tokens ScannerModel ScannerSpec ScannerProofs
  ProgModel ProgProofs JsonDecModel JsonSpec.

Section Fin.
Variable fin : rerr.

(** State predicates: unread bytes [s], recorded bytes [tk]. *)
Definition st (a : ast) (s : bytes) (tk : option bytes) : Prop :=
  a_in a = s /\ a_tok a = tk /\ a_eof a = 0 /\ a_fin a = fin.
Definition bk (a : ast) : Prop := a_last a <> None /\ a_prev a <> None.

(** The byte [b] (255 at the end) has just been read off [s]. *)
Definition peeked (a : ast) (s : bytes) (tk : option bytes) (b : N) : Prop :=
  a_fin a = fin /\ bk a /\
  ((exists r, s = b :: r /\ a_in a = r /\ a_last a = Some b /\ a_tok a = tok_app tk [b] /\
              a_eof a = 0) \/
   (s = [] /\ b = EOFb /\ fin = RdEOF /\ a_in a = [] /\ a_eof a = 1 /\ a_tok a = tk)).

Lemma peeked_st : forall a b r tk, peeked a (b :: r) tk b -> st a r (tok_app tk [b]) /\ bk a.
Proof.
  intros a b r tk [F [B [[r' [E [H1 [H2 [H3 H4]]]]]|[E _]]]]; [|discriminate].
  injection E as <-. repeat split; auto; apply B.
Qed.

Lemma peeked_nil : forall a tk b, peeked a [] tk b -> b = EOFb.
Proof. intros a tk b [F [B [[r' [E _]]|[_ [E _]]]]]; [discriminate|exact E]. Qed.

Lemma peeked_cons : forall a s tk b, peeked a s tk b -> b <> EOFb -> exists r, s = b :: r.
Proof. intros a s tk b [F [B [[r' [E _]]|[_ [E _]]]]] N; [eauto|contradiction]. Qed.

Lemma peeked_hd : forall a c r tk b, peeked a (c :: r) tk b -> b = c.
Proof. intros a c r tk b [F [B [[r' [E _]]|[E _]]]]; congruence. Qed.

Lemma wp_read_cons : forall a b r tk, st a (b :: r) tk ->
  runs a (op_byte SRead) (fun a' ts x => ts = [] /\ x = DOk b /\ peeked a' (b :: r) tk b).
Proof.
  intros a b r tk [I [T [E F]]]. eapply runs_op.
  - simpl. rewrite I. reflexivity.
  - apply runs_ret. repeat split; simpl; auto; try discriminate.
    left. exists r. rewrite T. auto.
Qed.

Lemma wp_read_bk : forall a s tk, st a s tk -> bk a ->
  runs a (op_byte SRead) (fun a' ts x => ts = [] /\
    ((exists b, x = DOk b /\ peeked a' s tk b) \/ (x = DErr DIo /\ s = [] /\ fin = RdFail))).
Proof.
  intros a s tk S B. destruct s as [|b r].
  - destruct S as [I [T [E F]]].
    assert (FC : fin = RdEOF \/ fin = RdFail) by (destruct fin; auto).
    destruct FC as [FN|FN].
    + eapply runs_op; [simpl; rewrite I, F, FN; reflexivity|]. apply runs_ret. split; auto.
      left. exists EOFb. split; auto. unfold peeked. simpl. rewrite E.
      repeat split; auto; try apply B. right. repeat split; auto.
    + eapply runs_op; [simpl; rewrite I, F, FN; reflexivity|]. apply runs_ret. split; auto.
  - eapply runs_conseq; [apply wp_read_cons; eauto|]. simpl. intros a1 t x [H1 [H2 H3]]. eauto.
Qed.

Lemma wp_unexpected : forall A a,
  runs a (@unexpected_byte A) (fun _ ts x => ts = [] /\ exists e, x = DErr e).
Proof.
  intros A a. unfold unexpected_byte. apply runs_bind. eapply runs_op; [reflexivity|].
  apply runs_ret. apply runs_bind.
  assert (H : exists a1 x, astep a SRead = Ok (a1, x)).
  { simpl. destruct (a_in a); [destruct (a_fin a)|]; eauto. }
  destruct H as [a1 [x H]]. eapply runs_op; [exact H|]. apply runs_ret.
  destruct (byte_of x); apply runs_ret; eauto.
Qed.

Lemma wp_back : forall a s tk b, peeked a s tk b ->
  runs a (op_unit SBack) (fun a' ts _ => ts = [] /\ st a' s tk).
Proof.
  intros a s tk b [F [[B1 B2] H]].
  destruct (a_last a) as [lb|] eqn:L; [|congruence].
  destruct (a_prev a) as [pr|] eqn:P; [|congruence].
  destruct H as [[r [E [H1 [H2 [H3 H4]]]]]|[E [H1 [H2 [H3 [H4 H5]]]]]].
  - injection H2 as ->. eapply runs_op; [simpl; rewrite L, P, H4; reflexivity|].
    apply runs_ret. repeat split; simpl; auto.
    + congruence.
    + rewrite H3. destruct tk; simpl; [|reflexivity]. now rewrite removelast_last.
  - eapply runs_op; [simpl; rewrite L, P, H4; reflexivity|].
    apply runs_ret. repeat split; simpl; auto. congruence.
Qed.

(** Back then report: an error without tokens. *)
Lemma wp_back_unexpected : forall A a s tk b, peeked a s tk b ->
  runs a (pbind (op_unit SBack) (fun _ => @unexpected_byte A))
    (fun _ ts x => ts = [] /\ exists e, x = DErr e).
Proof.
  intros. apply runs_bind. eapply runs_conseq; [eapply wp_back; eauto|].
  simpl. intros a1 t x [-> _]. apply wp_unexpected.
Qed.

Lemma wp_start : forall a s, st a s None ->
  runs a (op_unit SStart) (fun a' ts _ => ts = [] /\ st a' s (Some [])).
Proof.
  intros a s [I [T [E F]]]. eapply runs_op; [simpl; rewrite T; reflexivity|].
  apply runs_ret. repeat split; auto.
Qed.

Lemma wp_end : forall a s tk, st a s (Some tk) ->
  runs a end_token (fun a' ts x => ts = [] /\ x = tk /\ st a' s None).
Proof.
  intros a s tk [I [T [E F]]]. eapply runs_op; [simpl; rewrite T; reflexivity|].
  apply runs_ret. repeat split; auto.
Qed.

(* ------------------------------------------------------------------ *)
(** White space. *)

Lemma ws_byte_dec : forall b, (N.eqb b 10 || is_blank b) = true <-> ws_byte b.
Proof.
  intro b. unfold is_blank, ws_byte.
  destruct (N.eqb_spec b 10), (N.eqb_spec b 32), (N.eqb_spec b 9), (N.eqb_spec b 13);
    simpl; split; intro; auto; try discriminate; try tauto.
Qed.

Lemma ws_len_ws : forall w l, ws w -> ws_len (w ++ l) = length w + ws_len l.
Proof.
  induction w as [|b w IH]; intros l H; simpl; [reflexivity|].
  inversion H; subst. apply ws_byte_dec in H2. rewrite H2. now rewrite IH.
Qed.

Lemma ws_firstn : forall l, ws (firstn (ws_len l) l).
Proof.
  induction l as [|b l IH]; simpl; [constructor|].
  destruct (N.eqb b 10 || is_blank b) eqn:E; simpl; [|constructor].
  constructor; [now apply ws_byte_dec|exact IH].
Qed.

Lemma ws_len_stop_at : forall b r, ~ ws_byte b -> ws_len (b :: r) = 0.
Proof.
  intros b r H. simpl. destruct (N.eqb b 10 || is_blank b) eqn:E; [|reflexivity].
  apply ws_byte_dec in E. contradiction.
Qed.

Lemma skipn_ws_hd : forall l b r, skipn (ws_len l) l = b :: r -> ~ ws_byte b.
Proof.
  induction l as [|x l IH]; simpl; intros b r H; [discriminate|].
  destruct (N.eqb x 10 || is_blank x) eqn:E; simpl in H.
  - now apply IH in H.
  - injection H as <- _. intro W. apply ws_byte_dec in W. congruence.
Qed.

Lemma wp_skip_raw : forall a l, st a l None ->
  runs a (op_byte SSkipPeek) (fun a' ts x => ts = [] /\
    st a' (skipn (ws_len l) l) None /\
    x = match skipn (ws_len l) l with
        | b :: _ => DOk b
        | [] => match fin with RdEOF => DOk EOFb | RdFail => DErr DIo end
        end).
Proof.
  intros a l [I [T [E F]]].
  assert (S1 : st (a_skip a) (skipn (ws_len l) l) None).
  { unfold a_skip. repeat split; simpl; auto; try congruence. now rewrite T. }
  destruct (skipn (ws_len l) l) as [|b r] eqn:SK.
  - eapply runs_op.
    + cbn [astep]. destruct S1 as [-> _]. reflexivity.
    + apply runs_ret. split; auto. split; [exact S1|].
      unfold a_end_obs. destruct S1 as [_ [_ [_ ->]]]. destruct fin; reflexivity.
  - eapply runs_op.
    + cbn [astep]. destruct S1 as [-> _]. reflexivity.
    + apply runs_ret. auto.
Qed.

Lemma wp_skip : forall a l, st a l None ->
  runs a (op_byte_eof SSkipPeek) (fun a' ts x => ts = [] /\
    exists w l', l = w ++ l' /\ ws w /\ st a' l' None /\
    match x with
    | DOk b => (exists r, l' = b :: r) /\ b <> EOFb /\ ~ ws_byte b
    | DErr _ => l' = [] \/ exists r, l' = EOFb :: r
    end).
Proof.
  intros a l S. unfold op_byte_eof. apply runs_bind.
  eapply runs_conseq; [apply wp_skip_raw; eauto|]. simpl. intros a1 t x [-> [S1 ->]].
  apply runs_ret. split; auto. exists (firstn (ws_len l) l), (skipn (ws_len l) l).
  split; [symmetry; apply firstn_skipn|]. split; [apply ws_firstn|]. split; [exact S1|].
  destruct (skipn (ws_len l) l) as [|b r] eqn:SK.
  - destruct fin; simpl; auto.
  - simpl. destruct (N.eqb_spec b EOFb) as [->|NE]; eauto.
    repeat split; eauto. eapply skipn_ws_hd; eauto.
Qed.

Lemma wp_skip_to : forall a w b r, st a (w ++ b :: r) None -> ws w -> ~ ws_byte b ->
  b <> EOFb ->
  runs a (op_byte_eof SSkipPeek) (fun a' ts x => ts = [] /\ x = DOk b /\ st a' (b :: r) None).
Proof.
  intros a w b r S W NB NE. unfold op_byte_eof. apply runs_bind.
  eapply runs_conseq; [apply wp_skip_raw; eauto|]. simpl. intros a1 t x [-> [S1 ->]].
  assert (L : ws_len (w ++ b :: r) = length w).
  { rewrite ws_len_ws by auto. rewrite ws_len_stop_at by auto. lia. }
  rewrite L in *. rewrite skipn_app, Nat.sub_diag, skipn_all in *. simpl in *.
  apply runs_ret. split; auto. split; [|exact S1]. simpl.
  destruct (N.eqb_spec b EOFb); [contradiction|reflexivity].
Qed.

(** Reading the byte just peeked. *)
Lemma wp_read_unit : forall a b r tk, st a (b :: r) tk ->
  runs a (op_unit SRead) (fun a' ts _ => ts = [] /\ st a' r (tok_app tk [b])).
Proof.
  intros a b r tk [I [T [E F]]]. eapply runs_op; [simpl; rewrite I; reflexivity|].
  apply runs_ret. repeat split; simpl; auto. now rewrite T.
Qed.

Lemma wp_expect : forall a b r tk, st a (b :: r) tk ->
  runs a (expect_byte b) (fun a' ts x => ts = [] /\ x = DOk tt /\ st a' r (tok_app tk [b]) /\ bk a').
Proof.
  intros a b r tk S. unfold expect_byte. apply runs_ebind.
  eapply runs_conseq; [apply wp_read_cons; eauto|]. simpl. intros a1 t x [-> [-> P]].
  rewrite N.eqb_refl. apply runs_ret. apply peeked_st in P. tauto.
Qed.

(** ExpectByte where a byte is available or Back is possible. *)
Lemma wp_expect_any : forall a s tk xb, st a s tk -> (s <> [] \/ bk a) ->
  runs a (expect_byte xb) (fun a' ts x => ts = [] /\
    match x with
    | DOk _ => (exists r, s = xb :: r /\ st a' r (tok_app tk [xb]) /\ bk a') \/
               (s = [] /\ xb = EOFb)
    | DErr _ => forall r, s <> xb :: r
    end).
Proof.
  intros a s tk xb S H. unfold expect_byte. apply runs_ebind.
  assert (R : runs a (op_byte SRead) (fun a' ts x => ts = [] /\
    ((exists b, x = DOk b /\ peeked a' s tk b) \/ (x = DErr DIo /\ s = [] /\ fin = RdFail)))).
  { destruct H as [H|H]; [|now apply wp_read_bk].
    destruct s as [|b r]; [congruence|].
    eapply runs_conseq; [apply wp_read_cons; eauto|]. simpl. intros a1 t x [H1 [H2 H3]]. eauto. }
  eapply runs_conseq; [exact R|]. cbv beta. intros a1 t x [-> [[b [-> P]]|[-> [-> FN]]]].
  - destruct (N.eqb_spec b xb) as [->|NE].
    + apply runs_ret. split; auto. destruct s as [|c r].
      * right. split; auto. eapply peeked_nil; eauto.
      * left. pose proof (peeked_hd _ _ _ _ _ P); subst c. apply peeked_st in P.
        exists r. tauto.
    + eapply runs_conseq; [eapply wp_back_unexpected; eauto|].
      cbv beta. intros a2 t2 y [-> [e ->]]. split; auto. intros r ->.
      apply peeked_hd in P. congruence.
  - split; auto. discriminate.
Qed.

Lemma st_bk_nonempty : forall (s : bytes) a, (exists b r, s = b :: r) -> s <> [] \/ bk a.
Proof. intros s a [b [r ->]]. left. discriminate. Qed.

(** checkBytes. *)
Lemma wp_check_ok : forall xs a r tk, st a (xs ++ r) tk ->
  runs a (check_bytes xs) (fun a' ts x => ts = [] /\ x = DOk tt /\ st a' r (tok_app tk xs)).
Proof.
  induction xs as [|b xs IH]; intros a r tk S; simpl.
  - apply runs_ret. repeat split; try apply S. destruct tk; simpl; [|apply S].
    rewrite app_nil_r. apply S.
  - apply runs_ebind. eapply runs_conseq; [apply wp_expect; eauto|].
    cbv beta. intros a1 t x [-> [-> [S1 _]]]. simpl.
    eapply runs_conseq; [apply IH; eauto|]. cbv beta. intros a2 t2 y [-> [-> S2]].
    split; auto. split; auto. destruct tk; simpl in *; [|exact S2]. now rewrite <- app_assoc in S2.
Qed.

Lemma wp_check_any : forall xs a s tk, st a s tk -> (s <> [] \/ bk a) ->
  ~ In EOFb xs ->
  runs a (check_bytes xs) (fun a' ts x => ts = [] /\
    match x with
    | DOk _ => exists r, s = xs ++ r /\ st a' r (tok_app tk xs)
    | DErr _ => True
    end).
Proof.
  induction xs as [|b xs IH]; intros a s tk S H NI; simpl.
  - apply runs_ret. split; auto. exists s. split; auto.
    destruct tk; simpl; [|exact S]. now rewrite app_nil_r.
  - apply runs_ebind. eapply runs_conseq; [apply wp_expect_any; eauto|].
    cbv beta. intros a1 t x [-> R]. destruct x as [[]|e]; [|auto].
    destruct R as [[r [-> [S1 B1]]]|[-> ->]]; [|simpl in NI; tauto].
    eapply runs_conseq; [apply IH; eauto; simpl in NI; tauto|].
    cbv beta. intros a2 t2 y [-> R2]. split; auto. destruct y as [[]|e]; auto.
    destruct R2 as [r2 [-> S2]]. exists r2. split; auto.
    destruct tk; simpl in *; [|exact S2]. now rewrite <- app_assoc in S2.
Qed.

(* ------------------------------------------------------------------ *)
(** Strings. *)

Lemma is_hex_spec : forall b, is_hex b = true <-> hex b.
Proof.
  intro b. unfold is_hex, hex.
  destruct (N.leb_spec 48 b), (N.leb_spec b 57), (N.leb_spec 97 b), (N.leb_spec b 102),
    (N.leb_spec 65 b), (N.leb_spec b 70); simpl; split; intro; try discriminate; auto; lia.
Qed.

Lemma is_esc_letter_spec : forall b, is_esc_letter b = true <-> escape_letter b.
Proof.
  intro b. unfold is_esc_letter, escape_letter. simpl.
  destruct (N.eqb_spec b 34), (N.eqb_spec b 92), (N.eqb_spec b 47), (N.eqb_spec b 98),
    (N.eqb_spec b 102), (N.eqb_spec b 110), (N.eqb_spec b 114), (N.eqb_spec b 116);
    simpl; split; intro H; try discriminate; try reflexivity; subst; intuition congruence.
Qed.

Lemma alpha_same : forall b, is_alpha b = alpha_byte b.
Proof.
  intro b. unfold is_alpha, alpha_byte.
  destruct (N.leb 97 b && N.leb b 122), (N.leb 65 b && N.leb b 90); reflexivity.
Qed.

Lemma alnum_same : forall b, is_alnum b = alnum_byte b.
Proof. intro b. unfold is_alnum, alnum_byte, is_digit. now rewrite alpha_same. Qed.

(** Evolution of the isAlnum flag over unescaped characters. *)
Fixpoint alf (al fst : bool) (u : bytes) : bool :=
  match u with
  | [] => al
  | b :: r => if al then (if fst then alf (is_alpha b) false r else alf (is_alnum b) fst r)
              else false
  end.

Lemma alf_false : forall fst u, alf false fst u = false.
Proof. destruct u; reflexivity. Qed.

Lemma alf_rest : forall u, alf true false u = forallb alnum_byte u.
Proof.
  induction u as [|b u IH]; simpl; [reflexivity|]. rewrite alnum_same.
  destruct (alnum_byte b); simpl; [exact IH|apply alf_false].
Qed.

Lemma alf_decoded : forall c, alf true true (unescaped_chars c) = decoded_alnum c.
Proof.
  intro c. unfold decoded_alnum. destruct (unescaped_chars c) as [|b u]; [reflexivity|].
  simpl. rewrite alpha_same. destruct (alpha_byte b); simpl; [apply alf_rest|apply alf_false].
Qed.

Definition str_result (tk c : bytes) (al un fst : bool) : scalar :=
  mkScalar (tk ++ c ++ [34%N]) TStr false (alf al fst (unescaped_chars c))
           (un && negb (has_escape c)).

Lemma wp_read_eof : forall a b r tk, st a (b :: r) tk -> b <> EOFb ->
  runs a (op_byte_eof SRead) (fun a' ts x => ts = [] /\ x = DOk b /\ peeked a' (b :: r) tk b).
Proof.
  intros a b r tk S NE. unfold op_byte_eof. apply runs_bind.
  eapply runs_conseq; [apply wp_read_cons; eauto|]. cbv beta. intros a1 t x [-> [-> P]].
  apply runs_ret. simpl. destruct (N.eqb_spec b EOFb); [contradiction|]. auto.
Qed.

Lemma wp_read_eof_any : forall a s tk, st a s tk -> bk a ->
  runs a (op_byte_eof SRead) (fun a' ts x => ts = [] /\
    match x with
    | DOk b => exists r, s = b :: r /\ b <> EOFb /\ peeked a' s tk b
    | DErr _ => True
    end).
Proof.
  intros a s tk S B. unfold op_byte_eof. apply runs_bind.
  eapply runs_conseq; [apply wp_read_bk; eauto|]. cbv beta.
  intros a1 t x [-> [[b [-> P]]|[-> [-> FN]]]]; apply runs_ret; split; auto.
  - simpl. destruct (N.eqb_spec b EOFb) as [->|NE]; [exact I|].
    destruct (peeked_cons _ _ _ _ P NE) as [r ->]. eauto.
  - exact I.
Qed.

Lemma wp_hex_ok : forall n a h r tk, st a (h ++ r) tk -> length h = n -> Forall hex h ->
  bk a ->
  runs a (hex_digits n) (fun a' ts x => ts = [] /\ x = DOk tt /\ st a' r (tok_app tk h) /\ bk a').
Proof.
  induction n as [|n IH]; intros a h r tk S L F B; simpl.
  - destruct h; [|discriminate]. apply runs_ret. repeat split; try apply S; try apply B.
    destruct tk; simpl; [rewrite app_nil_r|]; apply S.
  - destruct h as [|b h]; [discriminate|]. inversion F; subst. simpl in L.
    assert (NE : b <> EOFb) by (unfold hex, EOFb in *; lia).
    apply runs_ebind. eapply runs_conseq; [apply wp_read_eof; [apply S|exact NE]|].
    cbv beta. intros a1 t x [-> [-> P]]. apply is_hex_spec in H1. rewrite H1.
    apply peeked_st in P. destruct P as [S1 B1].
    eapply runs_conseq; [apply (IH a1 h r (tok_app tk [b])); [exact S1|lia|assumption|exact B1]|]. cbv beta.
    intros a2 t2 y [-> [-> [S2 B2]]]. repeat split; auto; try apply S2; try apply B2.
    destruct tk; simpl in *; [|apply S2]. rewrite <- app_assoc in S2. apply S2.
Qed.

Lemma wp_hex_any : forall n a s tk, st a s tk -> bk a ->
  runs a (hex_digits n) (fun a' ts x => ts = [] /\
    match x with
    | DOk _ => exists h r, s = h ++ r /\ length h = n /\ Forall hex h /\
                 st a' r (tok_app tk h) /\ bk a'
    | DErr _ => True
    end).
Proof.
  induction n as [|n IH]; intros a s tk S B; simpl.
  - apply runs_ret. split; auto. exists [], s. repeat split; auto; try apply S; try apply B.
    destruct tk; simpl; [rewrite app_nil_r|]; apply S.
  - apply runs_ebind. eapply runs_conseq; [apply wp_read_eof_any; eauto|].
    cbv beta. intros a1 t x [-> R]. destruct x as [b|e]; [|auto].
    destruct R as [r [-> [NE P]]]. destruct (is_hex b) eqn:HB.
    + apply peeked_st in P. destruct P as [S1 B1].
      eapply runs_conseq; [apply IH; eauto|]. cbv beta. intros a2 t2 y [-> R2].
      split; auto. destruct y as [[]|e]; auto. destruct R2 as [h [r2 [-> [L [F [S2 B2]]]]]].
      exists (b :: h), r2. repeat split; simpl; auto; try apply S2; try apply B2.
      * constructor; [now apply is_hex_spec|exact F].
      * destruct tk; simpl in *; [|apply S2]. rewrite <- app_assoc in S2. apply S2.
    + eapply runs_conseq; [eapply wp_back_unexpected; eauto|].
      cbv beta. intros a2 t2 y [-> [e ->]]. auto.
Qed.

(** The flags and bytes after one more unit [u] of the string. *)
Lemma str_result_plain : forall tk b c (al un fst : bool), b <> 92%N ->
  str_result (tk ++ [b]) c
     (if al then (if fst then is_alpha b else is_alnum b) else al) un
     (if al then false else fst)
  = str_result tk (b :: c) al un fst.
Proof.
  intros tk b c al un fst NE. unfold str_result. simpl unescaped_chars.
  unfold has_escape. cbn [existsb].
  destruct (N.eqb_spec b 92); [contradiction|]. destruct (N.eqb_spec 92 b); [congruence|].
  cbn [orb alf]. rewrite <- app_assoc. simpl app at 2.
  f_equal. destruct al; [|apply alf_false]. destruct fst; reflexivity.
Qed.

Lemma str_result_esc : forall tk x c al un fst, x <> 117%N ->
  str_result (tk ++ [92%N; x]) c al false fst = str_result tk (92%N :: x :: c) al un fst.
Proof.
  intros tk x c al un fst NE. unfold str_result. rewrite <- app_assoc. cbn [app].
  unfold has_escape. cbn [existsb unescaped_chars N.eqb Pos.eqb].
  destruct (N.eqb_spec x 117); [contradiction|]. cbn [orb negb]. rewrite andb_false_r. reflexivity.
Qed.

Lemma str_result_u : forall tk h c al un fst, length h = 4 ->
  str_result (tk ++ [92%N; 117%N] ++ h) c al false fst
  = str_result tk (92%N :: 117%N :: h ++ c) al un fst.
Proof.
  intros tk h c al un fst L. destruct h as [|h1 [|h2 [|h3 [|h4 [|]]]]]; try discriminate.
  unfold str_result. rewrite <- !app_assoc. cbn [app].
  unfold has_escape. cbn [existsb unescaped_chars N.eqb Pos.eqb]. cbn [orb negb].
  rewrite andb_false_r. reflexivity.
Qed.

Lemma string_loop_plain : forall f (al un fst : bool) b,
  (if al then if fst then string_loop f (is_alpha b) un false
              else string_loop f (is_alnum b) un fst
   else string_loop f al un fst)
  = string_loop f (if al then (if fst then is_alpha b else is_alnum b) else al) un
                  (if al then false else fst).
Proof. intros. destruct al, fst; reflexivity. Qed.

Lemma wp_string_ok : forall strict c, chars strict c -> forall a r tk al un fst f,
  st a (c ++ 34%N :: r) (Some tk) -> bk a -> length c < f ->
  runs a (string_loop f al un fst) (fun a' ts x => ts = [] /\
    x = DOk (str_result tk c al un fst) /\ st a' r None).
Proof.
  assert (ESC : forall (b : N) l, b <> 117%N -> b <> EOFb ->
    (forall a r tk al un fst f,
      st a (l ++ 34%N :: r) (Some tk) -> bk a -> length l < f ->
      runs a (string_loop f al un fst) (fun a' ts x => ts = [] /\
        x = DOk (str_result tk l al un fst) /\ st a' r None)) ->
    forall a r tk al un fst f,
      st a ((92%N :: b :: l) ++ 34%N :: r) (Some tk) -> bk a -> length (92%N :: b :: l) < f ->
      runs a (string_loop f al un fst) (fun a' ts x => ts = [] /\
        x = DOk (str_result tk (92%N :: b :: l) al un fst) /\ st a' r None)).
  { intros b l N1 N2 IH a r tk al un fst f S B L. destruct f as [|f]; [lia|]. cbn [string_loop].
    apply runs_ebind. eapply runs_conseq; [apply wp_read_eof; [apply S|discriminate]|].
    cbv beta. intros a1 t x [-> [-> P]]. cbn [N.eqb Pos.eqb].
    apply peeked_st in P. destruct P as [S1 B1].
    apply runs_ebind. eapply runs_conseq; [apply wp_read_eof; [apply S1|assumption]|].
    cbv beta. intros a2 t2 x2 [-> [-> P2]]. apply peeked_st in P2. destruct P2 as [S2 B2].
    cbn [tok_app] in S2. rewrite <- app_assoc in S2. cbn [app] in S2.
    assert (R : runs a2 (string_loop f al false fst) (fun a' ts x => ts = [] /\
       x = DOk (str_result tk (92%N :: b :: l) al un fst) /\ st a' r None)).
    { eapply runs_conseq; [apply (IH a2 r); [exact S2|exact B2|simpl in L; lia]|].
      cbv beta. intros a3 t3 x3 [-> [-> S3]]. rewrite (str_result_esc tk b l al un fst) by auto. auto. }
    destruct (is_esc_letter b); [exact R|].
    destruct (N.eqb_spec b 117); [contradiction|]. exact R. }
  induction 1 as [|b l P C IH|b l E C IH|x1 x2 x3 x4 l H1 H2 H3 H4 C IH|b l E N1 N2 C IH].
  - (* closing quote *)
    intros a r tk al un fst f S B L. destruct f as [|f]; [simpl in L; lia|]. cbn [string_loop app].
    apply runs_ebind. eapply runs_conseq; [apply wp_read_eof; [apply S|discriminate]|].
    cbv beta. intros a1 t x [-> [-> P]]. cbn [N.eqb Pos.eqb].
    apply peeked_st in P. destruct P as [S1 B1]. apply runs_bind.
    eapply runs_conseq; [eapply wp_end; exact S1|]. cbv beta. intros a2 t2 x2 [-> [-> S2]].
    apply runs_ret. split; auto. split; [|exact S2]. f_equal. unfold str_result. simpl.
    rewrite andb_true_r. reflexivity.
  - intros a r tk al un fst f S B L. destruct f as [|f]; [simpl in L; lia|]. cbn [string_loop].
    destruct P as [P1 [P2 [P3 P4]]].
    apply runs_ebind. eapply runs_conseq; [apply wp_read_eof; [apply S|exact P4]|].
    cbv beta. intros a1 t x [-> [-> P]].
    destruct (N.eqb_spec b 92); [contradiction|]. destruct (N.eqb_spec b 34); [contradiction|].
    unfold is_ctrl. destruct (N.ltb_spec b 32); [lia|].
    apply peeked_st in P. destruct P as [S1 B1].
    rewrite string_loop_plain. rewrite <- (str_result_plain tk b l al un fst) by auto.
    eapply runs_conseq; [apply (IH a1 r); [exact S1|exact B1|simpl in L; lia]|]. auto.
  - intros. apply ESC; auto.
    + intro; subst. unfold escape_letter in E. simpl in E. intuition discriminate.
    + intro; subst. unfold escape_letter, EOFb in E. simpl in E. intuition discriminate.
  - intros a r tk al un fst f S B L. destruct f as [|f]; [simpl in L; lia|]. cbn [string_loop].
    apply runs_ebind. eapply runs_conseq; [apply wp_read_eof; [apply S|discriminate]|].
    cbv beta. intros a1 t x [-> [-> P]]. cbn [N.eqb Pos.eqb].
    apply peeked_st in P. destruct P as [S1 B1].
    apply runs_ebind. eapply runs_conseq; [apply wp_read_eof; [apply S1|discriminate]|].
    cbv beta. intros a2 t2 y2 [-> [-> P2]]. apply peeked_st in P2. destruct P2 as [S2 B2].
    replace (is_esc_letter 117) with false by reflexivity. cbn [N.eqb Pos.eqb].
    apply runs_ebind.
    eapply runs_conseq; [apply (wp_hex_ok 4 a2 [x1; x2; x3; x4] (l ++ 34%N :: r)); eauto|].
    cbv beta. intros a3 t3 y3 [-> [-> [S3 B3]]].
    cbn [tok_app] in S3. rewrite <- !app_assoc in S3.
    eapply runs_conseq; [apply (IH a3 r); [exact S3|exact B3|simpl in L; lia]|].
    cbv beta. intros a4 t4 y4 [-> [-> S4]]. split; auto. split; auto.
    f_equal. exact (str_result_u tk [x1; x2; x3; x4] l al un fst eq_refl).
  - intros. apply ESC; auto.
Qed.

Lemma wp_string_any : forall f a s tk al un fst,
  st a s (Some tk) -> bk a -> length s < f ->
  runs a (string_loop f al un fst) (fun a' ts x => ts = [] /\
    match x with
    | DOk sc => exists c r, s = c ++ 34%N :: r /\ chars false c /\
                  sc = str_result tk c al un fst /\ st a' r None
    | DErr _ => True
    end).
Proof.
  induction f as [|f IH]; intros a s tk al un fst S B L; [lia|]. cbn [string_loop].
  apply runs_ebind. eapply runs_conseq; [apply wp_read_eof_any; eauto|].
  cbv beta. intros a1 t x [-> R]. destruct x as [b|e]; [|auto].
  destruct R as [s1 [-> [NE P]]].
  pose proof P as P0. apply peeked_st in P. destruct P as [S1 B1].
  destruct (N.eqb_spec b 92) as [->|N92].
  - apply runs_ebind. eapply runs_conseq; [apply wp_read_eof_any; eauto|].
    cbv beta. intros a2 t2 x2 [-> R2]. destruct x2 as [x|e]; [|auto].
    destruct R2 as [s2 [-> [NEx P2]]]. apply peeked_st in P2. destruct P2 as [S2 B2].
    cbn [tok_app] in S2. rewrite <- app_assoc in S2. cbn [app] in S2.
    assert (R : x <> 117%N -> runs a2 (string_loop f al false fst) (fun a' ts y => ts = [] /\
      match y with
      | DOk sc => exists c r, 92%N :: x :: s2 = c ++ 34%N :: r /\ chars false c /\
                  sc = str_result tk c al un fst /\ st a' r None
      | DErr _ => True
      end)).
    { intro N1. eapply runs_conseq; [apply (IH a2 s2); [exact S2|exact B2|simpl in L; lia]|].
      cbv beta. intros a3 t3 y [-> R3]. split; auto. destruct y as [sc|e]; auto.
      destruct R3 as [c [r [-> [C [-> S3]]]]]. exists (92%N :: x :: c), r.
      repeat split; auto; try apply S3.
      - now apply ch_any.
      - now rewrite (str_result_esc tk x c al un fst) by auto. }
    destruct (is_esc_letter x) eqn:EL.
    + apply R. intros ->. discriminate.
    + destruct (N.eqb_spec x 117) as [->|N1]; [|now apply R].
      apply runs_ebind. eapply runs_conseq; [apply wp_hex_any; eauto|].
      cbv beta. intros a3 t3 x3 [-> R3]. destruct x3 as [[]|e]; [|auto].
      destruct R3 as [h [s3 [-> [Lh [Fh [S3 B3]]]]]].
      cbn [tok_app] in S3. rewrite <- app_assoc in S3.
      simpl in L. rewrite app_length in L.
      eapply runs_conseq; [apply (IH a3 s3); [exact S3|exact B3|lia]|].
      cbv beta. intros a4 t4 y [-> R4]. split; auto. destruct y as [sc|e]; auto.
      destruct R4 as [c [r [-> [C [-> S4]]]]].
      exists (92%N :: 117%N :: h ++ c), r. repeat split; auto; try apply S4.
      * cbn [app]. now rewrite <- app_assoc.
      * destruct h as [|h1 [|h2 [|h3 [|h4 [|]]]]]; try discriminate.
        inversion Fh as [|? ? F1 Fh1]; subst. inversion Fh1 as [|? ? F2 Fh2]; subst.
        inversion Fh2 as [|? ? F3 Fh3]; subst. inversion Fh3 as [|? ? F4 Fh4]; subst.
        now apply ch_u.
      * rewrite <- (str_result_u tk h c al un fst) by auto. reflexivity.
  - destruct (N.eqb_spec b 34) as [->|N34].
    + apply runs_bind. eapply runs_conseq; [eapply wp_end; exact S1|].
      cbv beta. intros a2 t2 x2 [-> [-> S2]]. apply runs_ret. split; auto.
      exists [], s1. repeat split; auto; try apply S2; [constructor|].
      unfold str_result. simpl. now rewrite andb_true_r.
    + unfold is_ctrl. destruct (N.ltb_spec b 32) as [CT|CT].
      * eapply runs_conseq; [eapply wp_back_unexpected; eauto|].
        cbv beta. intros a2 t2 y [-> [e ->]]. auto.
      * rewrite string_loop_plain.
        eapply runs_conseq; [apply (IH a1 s1); [exact S1|exact B1|simpl in L; lia]|].
        cbv beta. intros a2 t2 y [-> R2]. split; auto. destruct y as [sc|e]; auto.
        destruct R2 as [c [r [-> [C [-> S2]]]]]. exists (b :: c), r.
        repeat split; auto; try apply S2.
        -- apply ch_plain; auto. repeat split; auto.
        -- now rewrite (str_result_plain tk b c al un fst) by auto.
Qed.

Lemma parse_string_ok : forall strict c a r f, chars strict c ->
  st a (34%N :: c ++ 34%N :: r) None -> length c < f ->
  runs a (parse_string f) (fun a' ts x => ts = [] /\ x = DOk (string_scalar c) /\ st a' r None).
Proof.
  intros strict c a r f C S L. unfold parse_string. apply runs_bind.
  eapply runs_conseq; [eapply wp_start; eauto|]. cbv beta. intros a1 t x [-> S1].
  apply runs_ebind. eapply runs_conseq; [eapply wp_expect; eauto|].
  cbv beta. intros a2 t2 x2 [-> [-> [S2 B2]]].
  eapply runs_conseq; [eapply wp_string_ok; eauto|]. cbv beta.
  intros a3 t3 x3 [-> [-> S3]]. split; auto. split; auto. f_equal.
  unfold str_result, string_scalar. rewrite alf_decoded. reflexivity.
Qed.

Lemma parse_string_any : forall a s f, st a s None -> s <> [] -> length s <= f ->
  runs a (parse_string f) (fun a' ts x => ts = [] /\
    match x with
    | DOk sc => exists c r, s = 34%N :: c ++ 34%N :: r /\ chars false c /\
                  sc = string_scalar c /\ st a' r None
    | DErr _ => True
    end).
Proof.
  intros a s f S NE L. unfold parse_string. apply runs_bind.
  eapply runs_conseq; [eapply wp_start; eauto|]. cbv beta. intros a1 t x [-> S1].
  apply runs_ebind. eapply runs_conseq; [eapply wp_expect_any; eauto|].
  cbv beta. intros a2 t2 x2 [-> R]. destruct x2 as [[]|e]; [|auto].
  destruct R as [[r [-> [S2 B2]]]|[-> _]]; [|congruence].
  eapply runs_conseq; [eapply wp_string_any; eauto; simpl in L; lia|]. cbv beta.
  intros a3 t3 x3 [-> R3]. split; auto. destruct x3 as [sc|e]; auto.
  destruct R3 as [c [r3 [-> [C [-> S3]]]]]. exists c, r3. repeat split; auto; try apply S3.
  unfold str_result, string_scalar. rewrite alf_decoded. reflexivity.
Qed.

(* ------------------------------------------------------------------ *)
(** Numbers. *)

Lemma is_digit_spec : forall b, is_digit b = true <-> digit b.
Proof.
  intro b. unfold is_digit, digit.
  destruct (N.leb_spec 48 b), (N.leb_spec b 57); simpl; split; intro; try discriminate; auto; lia.
Qed.

(** What follows does not start with a byte in [P]. *)
Definition stops (P : N -> Prop) (r : bytes) : Prop :=
  (r = [] /\ fin = RdEOF) \/ exists c r', r = c :: r' /\ ~ P c.

Lemma digit_not_eof : ~ digit EOFb.
Proof. unfold digit, EOFb. lia. Qed.

Lemma peeked_stops : forall P a s tk b, peeked a s tk b -> stops P s -> ~ P EOFb -> ~ P b.
Proof.
  intros P a s tk b PK [[-> _]|[c [r [-> H]]]] NE.
  - apply peeked_nil in PK. now subst.
  - apply peeked_hd in PK. now subst.
Qed.

Lemma wp_read_stops : forall P a s tk, st a s tk -> bk a -> stops P s ->
  runs a (op_byte SRead) (fun a' ts x => ts = [] /\ exists b, x = DOk b /\ peeked a' s tk b).
Proof.
  intros P a s tk S B H. eapply runs_conseq; [apply wp_read_bk; eauto|].
  cbv beta. intros a1 t x [-> [R|[_ [E F]]]]; auto.
  destruct H as [[_ H]|[c [r [-> _]]]]; [congruence|discriminate].
Qed.

Lemma wp_digits_any : forall f a s tk n, st a s (Some tk) -> bk a -> length s < f ->
  runs a (read_digits f n) (fun a' ts x => ts = [] /\
    match x with
    | DOk (b, n') => exists ds s', s = ds ++ s' /\ Forall digit ds /\ n' = n + length ds /\
                       peeked a' s' (Some (tk ++ ds)) b
    | DErr _ => True
    end).
Proof.
  induction f as [|f IH]; intros a s tk n S B L; [lia|]. cbn [read_digits].
  apply runs_ebind. eapply runs_conseq; [apply wp_read_bk; eauto|].
  cbv beta. intros a1 t x [-> [[b [-> P]]|[-> _]]]; [|auto].
  destruct (N.eqb b EOFb || negb (is_digit b)) eqn:E.
  - apply runs_ret. split; auto. exists [], s. rewrite app_nil_r.
    repeat (split; [solve [auto | simpl; lia]|]). exact P.
  - apply orb_false_iff in E. destruct E as [E1 E2].
    apply negb_false_iff in E2. apply is_digit_spec in E2. apply N.eqb_neq in E1.
    destruct (peeked_cons _ _ _ _ P E1) as [r ->]. apply peeked_st in P. destruct P as [S1 B1].
    eapply runs_conseq; [apply (IH a1 r); [exact S1|exact B1|simpl in L; lia]|].
    cbv beta. intros a2 t2 x [-> R]. split; auto. destruct x as [[b' n']|e]; auto.
    destruct R as [ds [s' [-> [F [-> P]]]]]. exists (b :: ds), s'.
    split; auto. split; [constructor; auto|]. split; [simpl; lia|].
    rewrite <- app_assoc in P. exact P.
Qed.

Lemma wp_digits_ok : forall ds f a r tk n, st a (ds ++ r) (Some tk) -> bk a ->
  Forall digit ds -> stops digit r -> length ds < f ->
  runs a (read_digits f n) (fun a' ts x => ts = [] /\
    exists b, x = DOk (b, n + length ds) /\ peeked a' r (Some (tk ++ ds)) b).
Proof.
  induction ds as [|d ds IH]; intros f a r tk n S B F ST L; (destruct f as [|f]; [simpl in L; lia|]);
    cbn [read_digits app] in *; apply runs_ebind.
  - eapply runs_conseq; [eapply wp_read_stops; eauto|].
    cbv beta. intros a1 t x [-> [b [-> P]]].
    assert (ND : is_digit b = false).
    { destruct (is_digit b) eqn:E; auto. apply is_digit_spec in E.
      exfalso. eapply peeked_stops; eauto using digit_not_eof. }
    rewrite ND, orb_true_r. apply runs_ret. split; auto. exists b.
    rewrite app_nil_r, Nat.add_0_r. auto.
  - inversion F; subst. eapply runs_conseq; [apply wp_read_cons; eauto|].
    cbv beta. intros a1 t x [-> [-> P]]. apply peeked_st in P. destruct P as [S1 B1].
    assert (N : N.eqb d EOFb = false).
    { apply N.eqb_neq. unfold digit, EOFb in *. lia. }
    rewrite N. apply is_digit_spec in H1. rewrite H1. cbn [orb negb].
    eapply runs_conseq; [apply (IH f a1 r); [exact S1|exact B1|auto|auto|simpl in L; lia]|].
    cbv beta. intros a2 t2 x [-> [b [-> P]]]. split; auto. exists b.
    rewrite <- app_assoc in P. split; [|exact P]. f_equal. f_equal. simpl. lia.
Qed.

Lemma wp_number_end : forall a s tk b, peeked a s (Some tk) b ->
  runs a (pbind (op_unit SBack) (fun _ => pbind end_token (fun t => Ret (DOk (new_scalar TNum t)))))
    (fun a' ts x => ts = [] /\ x = DOk (new_scalar TNum tk) /\ st a' s None).
Proof.
  intros a s tk b P. apply runs_bind. eapply runs_conseq; [eapply wp_back; eauto|].
  cbv beta. intros a1 t x [-> S1]. apply runs_bind.
  eapply runs_conseq; [eapply wp_end; eauto|]. cbv beta. intros a2 t2 x2 [-> [-> S2]].
  apply runs_ret. auto.
Qed.

(** Optional sign of the exponent. *)
Definition is_sign (b : N) : bool := N.eqb b 45 || N.eqb b 43.

Lemma wp_peek : forall a s tk, st a s tk ->
  runs a (op_byte SPeek) (fun a' ts x => ts = [] /\ a' = a /\
    match s with
    | b :: _ => x = DOk b
    | [] => x = DOk EOFb \/ (fin = RdFail /\ exists e, x = DErr e)
    end).
Proof.
  intros a s tk [I [T [E F]]]. destruct s as [|b r].
  - eapply runs_op; [simpl; rewrite I; reflexivity|]. apply runs_ret.
    unfold a_end_obs. rewrite F. destruct fin; simpl; eauto 6.
  - eapply runs_op; [simpl; rewrite I; reflexivity|]. apply runs_ret. auto.
Qed.

Lemma wp_read_unit_bk : forall a b r tk, st a (b :: r) tk ->
  runs a (op_unit SRead) (fun a' ts _ => ts = [] /\ st a' r (tok_app tk [b]) /\ bk a').
Proof.
  intros a b r tk [I [T [E F]]]. eapply runs_op; [simpl; rewrite I; reflexivity|].
  apply runs_ret. repeat split; simpl; auto; try discriminate. now rewrite T.
Qed.

Lemma is_sign_spec : forall b, is_sign b = true <-> b = 43%N \/ b = 45%N.
Proof.
  intro b. unfold is_sign. destruct (N.eqb_spec b 45), (N.eqb_spec b 43); simpl;
    split; intro; try discriminate; auto; intuition congruence.
Qed.

Lemma number_exp_any : forall f a s tk b, peeked a s (Some tk) b -> length s < f ->
  runs a (number_exp f b) (fun a' ts x => ts = [] /\
    match x with
    | DOk sc => exists e r, s = e ++ r /\ exp_text e /\ sc = new_scalar TNum (tk ++ e) /\
                  st a' r None
    | DErr _ => True
    end).
Proof.
  intros f a s tk b P L. unfold number_exp.
  destruct (N.eqb b 101 || N.eqb b 69) eqn:E.
  - apply orb_true_iff in E. rewrite !N.eqb_eq in E.
    assert (NE : b <> EOFb) by (unfold EOFb; lia).
    destruct (peeked_cons _ _ _ _ P NE) as [s1 ->]. apply peeked_st in P. destruct P as [S1 B1].
    apply runs_ebind. eapply runs_conseq; [eapply wp_peek; eauto|].
    cbv beta. intros a1 t x [-> [-> R]].
    assert (TAIL : forall a sg s2, st a s2 (Some (tk ++ b :: sg)) -> bk a ->
       (sg = [] \/ sg = [43%N] \/ sg = [45%N]) -> length s2 < f -> s1 = sg ++ s2 ->
       runs a (ebind (read_digits f 0) (fun '(_, n) =>
          if Nat.eqb n 0 then pbind (op_unit SBack) (fun _ => unexpected_byte)
          else pbind (op_unit SBack) (fun _ => pbind end_token
                 (fun t => Ret (DOk (new_scalar TNum t))))))
        (fun a' ts x => ts = [] /\
          match x with
          | DOk sc => exists e r, b :: s1 = e ++ r /\ exp_text e /\
                        sc = new_scalar TNum (tk ++ e) /\ st a' r None
          | DErr _ => True
          end)).
    { clear a S1 B1 R L. intros a sg s2 S B SG L ->. apply runs_ebind.
      eapply runs_conseq; [apply (wp_digits_any f a s2 (tk ++ b :: sg)); auto|].
      cbv beta. intros a1 t1 y [-> R]. destruct y as [[b' n]|e]; [|auto].
      destruct R as [ds [s' [-> [F [-> P]]]]]. simpl plus.
      destruct (Nat.eqb_spec (length ds) 0) as [Z|Z].
      - eapply runs_conseq; [eapply wp_back_unexpected; eauto|].
        cbv beta. intros a2 t2 y [-> [e ->]]. auto.
      - eapply runs_conseq; [eapply wp_number_end; eauto|].
        cbv beta. intros a2 t2 y [-> [-> S2]]. split; auto.
        exists (b :: sg ++ ds), s'. split; [cbn [app]; now rewrite app_assoc|].
        split.
        { right. exists b, sg, ds. repeat split; auto; try tauto; try (intros ->; apply Z; reflexivity). }
        split; [|exact S2]. rewrite <- app_assoc. reflexivity. }
    destruct s1 as [|c s2].
    + destruct R as [->|[_ [e ->]]]; [|auto]. cbn [N.eqb Pos.eqb orb]. apply runs_bind.
      replace ((EOFb =? 45)%N || (EOFb =? 43)%N) with false by reflexivity.
      apply runs_ret. cbn [app]. apply (TAIL a [] []); auto.
      * simpl in L. simpl. lia.
    + subst x. apply runs_bind. fold (is_sign c). destruct (is_sign c) eqn:SG.
      * apply is_sign_spec in SG.
        eapply runs_conseq; [eapply wp_read_unit_bk; eauto|].
        cbv beta. intros a2 t2 _ [-> [S2 B2]]. cbn [app].
        apply (TAIL a2 [c] s2); auto.
        -- cbn [tok_app] in S2. rewrite <- app_assoc in S2. exact S2.
        -- destruct SG; subst; auto.
        -- simpl in L. lia.
      * apply runs_ret. cbn [app]. apply (TAIL a [] (c :: s2)); auto.
        simpl in *. lia.
  - eapply runs_conseq; [eapply wp_number_end; eauto|].
    cbv beta. intros a2 t2 y [-> [-> S2]]. split; auto.
    exists [], s. split; auto. split; [now left|]. rewrite app_nil_r. auto.
Qed.

Lemma exp_byte_not_eof : ~ (EOFb = 101%N \/ EOFb = 69%N).
Proof. unfold EOFb. lia. Qed.

Lemma cont_not_eof : ~ continues_number EOFb.
Proof. unfold continues_number, digit, EOFb. lia. Qed.

Lemma stops_weaken : forall (P Q : N -> Prop) r, (forall b, Q b -> P b) -> stops P r -> stops Q r.
Proof.
  intros P Q r H [S|[c [r' [-> S]]]]; [now left|]. right. exists c, r'. auto.
Qed.

Lemma stops_digit : forall r, stops continues_number r -> stops digit r.
Proof. intros r. apply stops_weaken. unfold continues_number. tauto. Qed.

Lemma number_exp_ok : forall f a e r tk b, exp_text e -> stops continues_number r ->
  peeked a (e ++ r) (Some tk) b -> length e < f ->
  runs a (number_exp f b) (fun a' ts x => ts = [] /\
    x = DOk (new_scalar TNum (tk ++ e)) /\ st a' r None).
Proof.
  intros f a e r tk b [->|[eb [sg [ds [-> [EB [SG [NE F]]]]]]]] ST P L; unfold number_exp.
  - pose proof (peeked_stops _ _ _ _ _ P ST cont_not_eof) as NB.
    replace (N.eqb b 101 || N.eqb b 69) with false.
    2:{ symmetry. apply orb_false_iff. rewrite !N.eqb_neq. unfold continues_number in NB. tauto. }
    rewrite app_nil_r. eapply wp_number_end; eauto.
  - cbn [app] in P. pose proof (peeked_hd _ _ _ _ _ P); subst eb.
    replace (N.eqb b 101 || N.eqb b 69) with true.
    2:{ symmetry. apply orb_true_iff. rewrite !N.eqb_eq. tauto. }
    apply peeked_st in P. destruct P as [S1 B1].
    assert (TAIL : forall a, st a (ds ++ r) (Some (tk ++ b :: sg)) -> bk a ->
       runs a (ebind (read_digits f 0) (fun '(_, n) =>
          if Nat.eqb n 0 then pbind (op_unit SBack) (fun _ => unexpected_byte)
          else pbind (op_unit SBack) (fun _ => pbind end_token
                 (fun t => Ret (DOk (new_scalar TNum t))))))
        (fun a' ts x => ts = [] /\
          x = DOk (new_scalar TNum (tk ++ b :: sg ++ ds)) /\ st a' r None)).
    { clear a S1 B1. intros a S B. apply runs_ebind.
      eapply runs_conseq; [apply (wp_digits_ok ds f a r (tk ++ b :: sg)); auto|].
      - now apply stops_digit.
      - simpl in L. rewrite app_length in L. lia.
      - cbv beta. intros a1 t1 y [-> [b' [-> P]]]. simpl plus.
        destruct (Nat.eqb_spec (length ds) 0) as [Z|Z]; [destruct ds; [congruence|discriminate]|].
        eapply runs_conseq; [eapply wp_number_end; eauto|].
        cbv beta. intros a2 t2 y [-> [-> S2]]. split; auto. split; [|exact S2].
        rewrite <- app_assoc. reflexivity. }
    destruct ds as [|d ds]; [congruence|]. inversion F; subst.
    apply runs_ebind. eapply runs_conseq; [eapply wp_peek; eauto|].
    cbv beta. intros a1 t x [-> [-> R]]. rewrite <- app_assoc in R.
    destruct SG as [->|SG].
    + cbn [app] in R, S1. subst x. apply runs_bind.
      replace (N.eqb d 45 || N.eqb d 43) with false.
      2:{ symmetry. apply orb_false_iff. rewrite !N.eqb_neq. unfold digit in *. lia. }
      apply runs_ret. cbn [app]. apply TAIL; [|exact B1]. exact S1.
    + assert (SG' : exists g, sg = [g] /\ (g = 43%N \/ g = 45%N)) by (destruct SG; eauto).
      destruct SG' as [g [-> G]]. cbn [app] in R, S1. subst x. apply runs_bind.
      apply is_sign_spec in G. fold (is_sign g). rewrite G.
      eapply runs_conseq; [eapply wp_read_unit_bk; eauto|].
      cbv beta. intros a2 t2 _ [-> [S2 B2]]. cbn [app]. apply TAIL; [|exact B2].
      cbn [tok_app] in S2. rewrite <- app_assoc in S2. exact S2.
Qed.

Lemma number_frac_any : forall f a s tk b, peeked a s (Some tk) b -> length s < f ->
  runs a (number_frac f b) (fun a' ts x => ts = [] /\
    match x with
    | DOk sc => exists fr e r, s = fr ++ e ++ r /\ frac_text fr /\ exp_text e /\
                  sc = new_scalar TNum (tk ++ fr ++ e) /\ st a' r None
    | DErr _ => True
    end).
Proof.
  intros f a s tk b P L. unfold number_frac. destruct (N.eqb_spec b 46) as [->|NB].
  - destruct (peeked_cons _ _ _ _ P) as [s1 ->]; [discriminate|].
    apply peeked_st in P. destruct P as [S1 B1]. simpl in L.
    apply runs_ebind. eapply runs_conseq; [apply wp_digits_any; eauto; lia|].
    cbv beta. intros a1 t1 y [-> R]. destruct y as [[b' n]|e]; [|auto].
    destruct R as [ds [s' [-> [F [-> P]]]]]. simpl plus.
    rewrite app_length in L.
    destruct (Nat.eqb_spec (length ds) 0) as [Z|Z].
    + eapply runs_conseq; [eapply wp_back_unexpected; eauto|].
      cbv beta. intros a2 t2 y [-> [e ->]]. auto.
    + eapply runs_conseq; [eapply number_exp_any; eauto; lia|].
      cbv beta. intros a2 t2 y [-> R2]. split; auto. destruct y as [sc|e]; auto.
      destruct R2 as [e [r [-> [X [-> S2]]]]].
      exists (46%N :: ds), e, r. split; auto. split.
      { right. exists ds. repeat split; auto; try (intros ->; apply Z; reflexivity). }
      split; auto. split; [|exact S2]. f_equal. rewrite <- !app_assoc. reflexivity.
  - eapply runs_conseq; [eapply number_exp_any; eauto; lia|].
    cbv beta. intros a2 t2 y [-> R2]. split; auto. destruct y as [sc|e]; auto.
    destruct R2 as [e [r [-> [X [-> S2]]]]].
    exists [], e, r. split; auto. split; [now left|]. auto.
Qed.

Lemma exp_stops_digit : forall e r, exp_text e -> stops continues_number r -> stops digit (e ++ r).
Proof.
  intros e r [->|[eb [sg [ds [-> [EB _]]]]]] ST; [now apply stops_digit|].
  right. exists eb, ((sg ++ ds) ++ r). split; [reflexivity|]. unfold digit. lia.
Qed.

Lemma number_frac_ok : forall f a fr e r tk b, frac_text fr -> exp_text e ->
  stops continues_number r -> peeked a (fr ++ e ++ r) (Some tk) b ->
  length (fr ++ e) < f ->
  runs a (number_frac f b) (fun a' ts x => ts = [] /\
    x = DOk (new_scalar TNum (tk ++ fr ++ e)) /\ st a' r None).
Proof.
  intros f a fr e r tk b [->|[ds [-> [NE F]]]] X ST P L; unfold number_frac;
    rewrite app_length in L.
  - cbn [app] in *. simpl in L. destruct (N.eqb_spec b 46) as [->|NB].
    + exfalso. destruct X as [->|[eb [sg [ds [-> [EB _]]]]]].
      * eapply (peeked_stops _ _ _ _ _ P ST cont_not_eof). unfold continues_number. auto.
      * cbn [app] in P. apply peeked_hd in P. lia.
    + eapply number_exp_ok; eauto.
  - cbn [app] in P. pose proof (peeked_hd _ _ _ _ _ P); subst b. cbn [N.eqb Pos.eqb].
    apply peeked_st in P. destruct P as [S1 B1]. simpl in L.
    apply runs_ebind. eapply runs_conseq; [apply (wp_digits_ok ds f a (e ++ r) (tk ++ [46%N])); auto|].
    + now apply exp_stops_digit.
    + lia.
    + cbv beta. intros a1 t1 y [-> [b' [-> P]]]. simpl plus.
      destruct (Nat.eqb_spec (length ds) 0) as [Z|Z]; [destruct ds; [congruence|discriminate]|].
      eapply runs_conseq; [apply (number_exp_ok f a1 e r ((tk ++ [46%N]) ++ ds)); auto; lia|].
      cbv beta. intros a2 t2 y [-> [-> S2]]. split; auto. split; [|exact S2].
      rewrite <- !app_assoc. reflexivity.
Qed.

Lemma parse_number_any : forall f a s, st a s None -> s <> [] -> length s < f ->
  runs a (parse_number f) (fun a' ts x => ts = [] /\
    match x with
    | DOk sc => exists t r, s = t ++ r /\ number_text t /\ sc = new_scalar TNum t /\ st a' r None
    | DErr _ => True
    end).
Proof.
  intros f a s S NE L. unfold parse_number. apply runs_bind.
  eapply runs_conseq; [eapply wp_start; eauto|]. cbv beta. intros a1 t x [-> S1].
  destruct s as [|c s1]; [congruence|]. cbn [app].
  apply runs_ebind. eapply runs_conseq; [eapply wp_read_cons; eauto|].
  cbv beta. intros a2 t2 x2 [-> [-> P]]. cbn [app].
  assert (MAIN : forall a sg s2 b, peeked a s2 (Some sg) b -> b <> EOFb ->
     (sg = [] \/ sg = [45%N]) -> c :: s1 = sg ++ s2 ->
     runs a (if N.eqb b 48 then ebind (op_byte SRead) (fun b => number_frac f b)
             else if N.leb 49 b && N.leb b 57 then
               ebind (read_digits f 0) (fun '(b, _) => number_frac f b)
             else pbind (op_unit SBack) (fun _ => unexpected_byte))
       (fun a' ts x => ts = [] /\
         match x with
         | DOk sc => exists t r, c :: s1 = t ++ r /\ number_text t /\ sc = new_scalar TNum t /\
                       st a' r None
         | DErr _ => True
         end)).
  { clear a a1 a2 S S1 P. intros a sg s2 b P NB SG EQ.
    destruct (peeked_cons _ _ _ _ P NB) as [s3 ->].
    pose proof P as P0. apply peeked_st in P. destruct P as [S1 B1].
    assert (LL : length (c :: s1) = length sg + S (length s3)) by (rewrite EQ, app_length; reflexivity).
    simpl in L, LL.
    destruct (N.eqb_spec b 48) as [->|N48].
    - apply runs_ebind. eapply runs_conseq; [eapply wp_read_bk; eauto|].
      cbv beta. intros a3 t3 x3 [-> [[b3 [-> P3]]|[-> _]]]; [|auto].
      cbn [app tok_app] in *.
      eapply runs_conseq; [eapply number_frac_any; eauto; lia|].
      cbv beta. intros a4 t4 y [-> R]. split; auto. destruct y as [sc|e]; auto.
      destruct R as [fr [e [r [-> [X1 [X2 [-> S4]]]]]]].
      exists (sg ++ [48%N] ++ fr ++ e), r. split; [rewrite EQ, <- !app_assoc; reflexivity|].
      split.
      { exists sg, [48%N], fr, e. repeat split; auto. now left. }
      split; [|exact S4]. rewrite <- !app_assoc. reflexivity.
    - destruct (N.leb 49 b && N.leb b 57) eqn:D.
      + apply andb_true_iff in D. rewrite !N.leb_le in D.
        apply runs_ebind. cbn [tok_app] in S1.
        eapply runs_conseq; [eapply (wp_digits_any f a s3); eauto; lia|].
        cbv beta. intros a3 t3 x3 [-> R]. destruct x3 as [[b3 n]|e]; [|auto].
        destruct R as [ds [s4 [-> [F [_ P]]]]]. rewrite app_length in LL.
        cbn [app]. eapply runs_conseq; [eapply number_frac_any; eauto; lia|].
        cbv beta. intros a4 t4 y [-> R]. split; auto. destruct y as [sc|e]; auto.
        destruct R as [fr [e [r [-> [X1 [X2 [-> S4]]]]]]].
        exists (sg ++ (b :: ds) ++ fr ++ e), r. split; [rewrite EQ; repeat (rewrite <- app_assoc; cbn [app]); reflexivity|].
        split.
        { exists sg, (b :: ds), fr, e. repeat split; auto. right. exists b, ds. auto. }
        split; [|exact S4]. rewrite <- !app_assoc. reflexivity.
      + eapply runs_conseq; [eapply wp_back_unexpected; eauto|].
        cbv beta. intros a3 t3 y [-> [e ->]]. auto. }
  apply runs_ebind. destruct (N.eqb_spec c 45) as [->|N45].
  - apply peeked_st in P. destruct P as [S2 B2]. cbn [tok_app app] in S2.
    eapply runs_conseq; [eapply wp_read_eof_any; eauto|].
    cbv beta. intros a3 t3 x3 [-> R]. destruct x3 as [b|e]; [|auto].
    destruct R as [s2 [-> [NB P]]]. cbn [app].
    eapply (MAIN a3 [45%N] (b :: s2)); auto.
  - apply runs_ret. cbn [app check_eof]. destruct (N.eqb_spec c EOFb) as [->|NB].
    + auto.
    + eapply (MAIN a2 [] (c :: s1)); auto.
Qed.

Lemma int_stops_digit : forall fr e r, frac_text fr -> exp_text e -> stops continues_number r ->
  stops digit (fr ++ e ++ r).
Proof.
  intros fr e r [->|[ds [-> _]]] X ST; [cbn [app]; now apply exp_stops_digit|].
  right. exists 46%N, (ds ++ e ++ r). split; [reflexivity|]. unfold digit. lia.
Qed.

Lemma stops_tail : forall P fr e r, stops P r -> fr ++ e ++ r = [] -> fin = RdEOF.
Proof.
  intros P fr e r [[_ F]|[c [r' [-> _]]]] E; [exact F|].
  destruct fr; [destruct e|]; discriminate.
Qed.

Lemma parse_number_ok : forall f a t r, st a (t ++ r) None -> number_text t ->
  stops continues_number r -> length t < f ->
  runs a (parse_number f) (fun a' ts x => ts = [] /\
    x = DOk (new_scalar TNum t) /\ st a' r None).
Proof.
  intros f a t r S [sg [i [fr [e [-> [SG [IT [FT ET]]]]]]]] ST L.
  rewrite <- !app_assoc in S. rewrite !app_length in L.
  unfold parse_number. apply runs_bind.
  eapply runs_conseq; [eapply wp_start; eauto|]. cbv beta. intros a1 t x [-> S1].
  assert (IH : exists d ds, i = d :: ds /\ digit d).
  { destruct IT as [->|[d [ds [-> [D _]]]]]; unfold digit; do 2 eexists; split; try reflexivity; lia. }
  destruct IH as [d [ds [EI DD]]].
  assert (MAIN : forall a b, peeked a (i ++ fr ++ e ++ r) (Some sg) b ->
     runs a (if N.eqb b 48 then ebind (op_byte SRead) (fun b => number_frac f b)
             else if N.leb 49 b && N.leb b 57 then
               ebind (read_digits f 0) (fun '(b, _) => number_frac f b)
             else pbind (op_unit SBack) (fun _ => unexpected_byte))
       (fun a' ts x => ts = [] /\ x = DOk (new_scalar TNum (sg ++ i ++ fr ++ e)) /\
                       st a' r None)).
  { clear a a1 S S1. intros a b P.
    destruct IT as [->|[d1 [ds1 [-> [D F]]]]].
    - cbn [app] in P. pose proof (peeked_hd _ _ _ _ _ P); subst b. cbn [N.eqb Pos.eqb].
      apply peeked_st in P. destruct P as [S1 B1].
      apply runs_ebind. eapply runs_conseq; [eapply (wp_read_stops digit); eauto|].
      { now apply int_stops_digit. }
      cbv beta. intros a3 t3 x3 [-> [b3 [-> P3]]].
      eapply runs_conseq; [eapply (number_frac_ok f a3 fr e r); eauto|].
      { rewrite app_length. lia. }
      cbv beta. intros a4 t4 y [-> [-> S4]]. split; auto. split; [|exact S4].
      rewrite <- !app_assoc. reflexivity.
    - cbn [app] in P. pose proof (peeked_hd _ _ _ _ _ P); subst b.
      destruct (N.eqb_spec d1 48); [lia|].
      replace (N.leb 49 d1 && N.leb d1 57) with true
        by (symmetry; apply andb_true_iff; rewrite !N.leb_le; lia).
      apply peeked_st in P. destruct P as [S1 B1]. cbn [tok_app] in S1.
      apply runs_ebind. simpl in L.
      eapply runs_conseq; [eapply (wp_digits_ok ds1 f a (fr ++ e ++ r)); eauto|].
      { now apply int_stops_digit. }
      { lia. }
      cbv beta. intros a3 t3 x3 [-> [b3 [-> P3]]].
      eapply runs_conseq; [eapply (number_frac_ok f a3 fr e r); eauto|].
      { rewrite app_length. lia. }
      cbv beta. intros a4 t4 y [-> [-> S4]]. split; auto. split; [|exact S4].
      rewrite <- !app_assoc. reflexivity. }
  apply runs_ebind. destruct SG as [->| ->].
  - cbn [app] in *. rewrite EI in S1. cbn [app] in S1.
    eapply runs_conseq; [eapply wp_read_cons; eauto|].
    cbv beta. intros a2 t2 x2 [-> [-> P]]. apply runs_ebind.
    destruct (N.eqb_spec d 45); [unfold digit in DD; lia|]. apply runs_ret.
    cbn [check_eof]. destruct (N.eqb_spec d EOFb); [unfold digit, EOFb in *; lia|].
    cbn [app]. apply MAIN. rewrite EI. exact P.
  - cbn [app] in S1.
    eapply runs_conseq; [eapply wp_read_cons; eauto|].
    cbv beta. intros a2 t2 x2 [-> [-> P]]. apply peeked_st in P. destruct P as [S2 B2].
    cbn [N.eqb Pos.eqb]. apply runs_ebind. rewrite EI in S2. cbn [app] in S2.
    eapply runs_conseq; [eapply wp_read_eof; eauto|].
    { unfold digit, EOFb in *. lia. }
    cbv beta. intros a3 t3 x3 [-> [-> P]]. cbn [app]. apply MAIN. rewrite EI. exact P.
Qed.

End Fin.

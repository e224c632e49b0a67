(** The JSON decoder on the plain scanner: values and streams of values. *)
From Coq Require Import List Arith NArith Bool Lia.
From Verif Require Import Base Tokens ScannerModel ScannerSpec ScannerProofs
  ProgModel ProgProofs JsonDecModel JsonSpec JsonDecProofs.

Ltac nrm := repeat (progress cbn [app] || rewrite <- app_assoc).
Ltac nrmin H := repeat (progress cbn [app] in H || rewrite <- app_assoc in H).
Ltac wstep L := eapply runs_conseq; [eapply L; eauto|]; cbv beta.

Definition key_toks (m : scalar * jval) : list token := TScalar (fst m) :: toks (snd m).

Lemma as_key_string : forall c, as_key (string_scalar c) = key_scalar c.
Proof. reflexivity. Qed.

(** First bytes of texts. *)
Lemma number_first : forall t, number_text t -> exists b t', t = b :: t' /\
  (b = 45%N \/ digit b).
Proof.
  intros t [sg [i [f [e [-> [[->| ->] [[->|[d [ds [-> [D _]]]]] _]]]]]]]; simpl;
    do 2 eexists; split; try reflexivity; unfold digit; lia.
Qed.

Lemma number_ends : forall t, number_text t -> ends_in_digit t.
Proof.
  assert (LAST : forall ds, digits1 ds -> ends_in_digit ds).
  { intros ds [NE F]. destruct (exists_last NE) as [t' [d ->]]. exists t', d. split; auto.
    apply Forall_app in F. destruct F as [_ F]. now inversion F. }
  assert (APP : forall x y, ends_in_digit y -> ends_in_digit (x ++ y)).
  { intros x y [t' [d [-> D]]]. exists (x ++ t'), d. split; [apply app_assoc|exact D]. }
  intros t [sg [i [f [e [-> [_ [I [F E]]]]]]]]. apply APP.
  destruct E as [->|[eb [s [ds [-> [_ [_ D]]]]]]].
  - rewrite app_nil_r. destruct F as [->|[ds [-> D]]].
    + rewrite app_nil_r. destruct I as [->|[d [ds [-> [D F]]]]].
      * exists [], 48%N. split; auto. unfold digit; lia.
      * apply LAST. split; [discriminate|]. constructor; auto. unfold digit; lia.
    + apply APP. apply (APP [46%N]). auto.
  - apply APP. apply APP. apply (APP (eb :: s)). auto.
Qed.

Definition starter (b : N) : Prop := ~ ws_byte b /\ b <> EOFb.

Lemma starter_intro : forall b, In b [34; 91; 123; 116; 102; 110; 45; 93; 125; 44; 58]%N \/ digit b -> starter b.
Proof.
  intros b H. unfold starter, ws_byte, EOFb, digit in *. simpl in H. lia.
Qed.

Lemma vtext_first : forall strict v t, vtext strict v t -> exists b t', t = b :: t' /\ starter b.
Proof.
  intros strict v t H. inversion H; subst;
    try (do 2 eexists; split; [reflexivity|apply starter_intro; left; simpl; tauto]).
  destruct (number_first _ H0) as [b [t' [-> B]]]. do 2 eexists; split; [reflexivity|].
  apply starter_intro. simpl. destruct B; auto. left. subst. tauto.
Qed.

Lemma vtext_not_close : forall strict v t b t', vtext strict v t -> t = b :: t' -> b <> 93%N.
Proof.
  intros strict v t b t' H E. inversion H; subst; try discriminate;
    try (injection H2 as <-; discriminate); try (intros ->; discriminate).
  destruct (number_first _ H0) as [b2 [t2 [E2 B]]]. injection E2 as -> ->.
  unfold digit in B. lia.
Qed.

Lemma elems_ws : forall strict l w t, ws w -> elems strict l t -> elems strict l (w ++ t).
Proof.
  intros strict l w t W H. inversion H; subst.
  - rewrite app_assoc. apply el_one; auto. apply Forall_app; auto.
  - rewrite app_assoc. apply el_cons; auto. apply Forall_app; auto.
Qed.

Lemma members_ws : forall strict l w t, ws w -> members strict l t -> members strict l (w ++ t).
Proof.
  intros strict l w t W H. inversion H; subst.
  - rewrite app_assoc. apply me_one; auto. apply Forall_app; auto.
  - rewrite app_assoc. apply me_cons; auto. apply Forall_app; auto.
Qed.

(** Spelling. *)
Lemma spells_app : forall st ts1 p1 ts2 p2, spells st ts1 p1 -> spells st ts2 p2 ->
  spells st (ts1 ++ ts2) (p1 ++ p2).
Proof.
  intros st ts1 p1 ts2 p2 H H2. induction H; cbn [app]; try (constructor; assumption); auto.
  rewrite <- app_assoc. constructor; auto.
Qed.

Lemma spells_ws : forall st w, ws w -> spells st [] w.
Proof. intros st w. induction 1; constructor; auto. now left. Qed.

Lemma spells_wsl : forall st w ts p, ws w -> spells st ts p -> spells st ts (w ++ p).
Proof. intros. apply (spells_app st [] w ts p); auto using spells_ws. Qed.

Lemma spells_one : forall st s, literal st s -> spells st [TScalar s] (sc_bytes s).
Proof. intros. rewrite <- (app_nil_r (sc_bytes s)). apply sp_lit; [exact H|constructor]. Qed.

Lemma spells_key : forall st c, chars st c -> spells st [TScalar (key_scalar c)] (34%N :: c ++ [34%N]).
Proof. intros. apply (spells_one st (key_scalar c)). right; right; eauto. Qed.

Ltac spc := first [apply sp_nil | apply sp_sarr | apply sp_earr | apply sp_sobj | apply sp_eobj].

Lemma spells_value : forall strict,
  (forall v t, vtext strict v t -> spells strict (toks v) t) /\
  (forall l t, elems strict l t -> spells strict (flat_map toks l) t) /\
  (forall l t, members strict l t -> spells strict (flat_map key_toks l) t).
Proof.
  intro strict. apply vtext_elems_members_ind; intros; cbn [toks flat_map elision app].
  - apply (spells_one strict null_scalar). left; simpl; auto.
  - apply (spells_one strict true_scalar). left; simpl; auto.
  - apply (spells_one strict false_scalar). left; simpl; auto.
  - apply (spells_one strict (new_scalar TNum l)). right; left; eauto.
  - apply (spells_one strict (string_scalar c)). right; right; eauto.
  - spc. apply spells_wsl; auto. repeat spc.
  - spc. apply spells_app; auto. repeat spc.
  - spc. apply spells_wsl; auto. repeat spc.
  - spc. apply spells_app; auto. repeat spc.
  - rewrite app_nil_r. apply spells_wsl; auto.
    rewrite <- (app_nil_r (toks v)). apply spells_app; auto using spells_ws.
  - apply spells_wsl; auto. apply spells_app; auto. apply spells_wsl; auto.
    apply sp_gap; auto. right; auto.
  - rewrite app_nil_r. apply spells_wsl; auto.
    unfold key_toks at 1; cbn [fst].
    apply (spells_app strict [TScalar (key_scalar c)] (34%N :: c ++ [34%N]));
      [now apply spells_key|].
    cbn [snd]. apply spells_wsl; auto. apply sp_gap; [right; auto|]. apply spells_wsl; auto.
    rewrite <- (app_nil_r (toks v)). apply spells_app; auto using spells_ws.
  - apply spells_wsl; auto.
    unfold key_toks at 1; cbn [fst].
    apply (spells_app strict [TScalar (key_scalar c)] (34%N :: c ++ [34%N]));
      [now apply spells_key|].
    cbn [snd]. apply spells_wsl; auto. apply sp_gap; [right; auto|]. apply spells_wsl; auto.
    apply spells_app; auto. apply spells_wsl; auto. apply sp_gap; auto. right; auto.
Qed.

Section Fin.
Variable fin : rerr.
Notation st := (st fin).

Definition sep_ok (t r : bytes) : Prop := ends_in_digit t -> stops fin continues_number r.

Lemma stops_ws_app : forall w b r, ws w -> (b = 93%N \/ b = 125%N \/ b = 44%N) ->
  stops fin continues_number (w ++ b :: r).
Proof.
  intros w b r W B. right. destruct w as [|c w].
  - exists b, r. split; auto. unfold continues_number, digit. lia.
  - inversion W; subst. exists c, (w ++ b :: r). split; auto.
    unfold ws_byte, continues_number, digit in *. lia.
Qed.

Lemma not_digit_end : forall t d, ~ digit d -> ~ ends_in_digit (t ++ [d]).
Proof. intros t d N [t' [d' [E D]]]. apply app_inj_tail in E. destruct E; subst; auto. Qed.

(** Literals. *)
Lemma no_eof_lits : ~ In EOFb true_bytes /\ ~ In EOFb false_bytes /\ ~ In EOFb null_bytes.
Proof. unfold EOFb; simpl. repeat split; intuition discriminate. Qed.

Section Step.
(** The dispatch of ParseValue on its first byte. *)
Lemma pv_start : forall f a w b r Q, ws w -> starter b -> st a (w ++ b :: r) None ->
  (forall a1, st a1 (b :: r) None ->
    runs a1
      (if N.eqb b 34 then
         ebind (parse_string f) (fun s => emit_ok (TScalar s))
       else if N.eqb b 91 then
         ebind (expect_byte 91) (fun _ => Emit TStartArr
           (ebind (op_byte_eof SSkipPeek) (fun b =>
            if N.eqb b 93 then pbind (op_unit SRead) (fun _ => emit_ok TEndArr)
            else array_loop f)))
       else if N.eqb b 123 then
         ebind (expect_byte 123) (fun _ => Emit TStartObj
           (ebind (op_byte_eof SSkipPeek) (fun b =>
            if N.eqb b 125 then pbind (op_unit SRead) (fun _ => emit_ok TEndObj)
            else object_loop f)))
       else if N.eqb b 116 then
         ebind (check_bytes true_bytes) (fun _ => emit_ok (TScalar true_scalar))
       else if N.eqb b 102 then
         ebind (check_bytes false_bytes) (fun _ => emit_ok (TScalar false_scalar))
       else if N.eqb b 110 then
         ebind (check_bytes null_bytes) (fun _ => emit_ok (TScalar null_scalar))
       else if (N.eqb b 45) || ((N.leb 48 b) && (N.leb b 57)) then
         ebind (parse_number f) (fun s => emit_ok (TScalar s))
       else unexpected_byte) Q) ->
  runs a (parse_value (S f)) Q.
Proof.
  intros f a w b r Q W [NW NE] HS H. cbn [parse_value]. apply runs_ebind.
  eapply runs_conseq; [eapply wp_skip_to; eauto|]. cbv beta. intros a1 t x [-> [-> S1]].
  eapply runs_conseq; [apply H; exact S1|]. auto.
Qed.
End Step.

Lemma wp_emit_ok : forall a t (Q : ast -> list token -> dres unit -> Prop),
  Q a [t] (DOk tt) -> runs a (emit_ok t) Q.
Proof. intros. unfold emit_ok. apply runs_emit. apply runs_ret. auto. Qed.

Lemma close_ok : forall a b r tk, st a (b :: r) None ->
  runs a (pbind (op_unit SRead) (fun _ => emit_ok tk))
    (fun a' ts x => ts = [tk] /\ x = DOk tt /\ st a' r None).
Proof.
  intros a b r tk S. apply runs_bind. wstep wp_read_unit. intros a1 t [] [-> S1].
  apply wp_emit_ok. auto.
Qed.

(* ------------------------------------------------------------------ *)
(** Completeness. *)

Lemma values_complete : forall strict,
  (forall v t, vtext strict v t -> forall a w r f,
     st a (w ++ t ++ r) None -> ws w -> sep_ok t r -> 2 * length t + 1 <= f ->
     runs a (parse_value f) (fun a' ts x => ts = toks v /\ x = DOk tt /\ st a' r None)) /\
  (forall l t, elems strict l t ->
     exists w b t', t = w ++ b :: t' /\ ws w /\ starter b /\ b <> 93%N /\
     forall a w' r f, ws w' ->
     st a (w' ++ (b :: t') ++ 93%N :: r) None -> 2 * length (b :: t') + 2 <= f ->
     runs a (array_loop f) (fun a' ts x =>
       ts = flat_map toks l ++ [TEndArr] /\ x = DOk tt /\ st a' r None)) /\
  (forall l t, members strict l t ->
     exists w t', t = w ++ 34%N :: t' /\ ws w /\
     forall a r f,
     st a (34%N :: t' ++ 125%N :: r) None -> 2 * length (34%N :: t') + 2 <= f ->
     runs a (object_loop f) (fun a' ts x =>
       ts = flat_map key_toks l ++ [TEndObj] /\ x = DOk tt /\ st a' r None)).
Proof.
  intro strict. apply vtext_elems_members_ind.
  - (* null *) intros a w r f S W SP L. destruct f as [|f]; [lia|].
    eapply pv_start; [exact W| |exact S|]; [apply starter_intro; simpl; tauto|].
    intros a1 S1. cbn [N.eqb Pos.eqb].
    apply runs_ebind. eapply runs_conseq; [apply (wp_check_ok fin null_bytes a1 r None); exact S1|].
    cbv beta. intros a2 t2 x [-> [-> S2]]. apply wp_emit_ok. auto.
  - intros a w r f S W SP L. destruct f as [|f]; [lia|].
    eapply pv_start; [exact W| |exact S|]; [apply starter_intro; simpl; tauto|].
    intros a1 S1. cbn [N.eqb Pos.eqb].
    apply runs_ebind. eapply runs_conseq; [apply (wp_check_ok fin true_bytes a1 r None); exact S1|].
    cbv beta. intros a2 t2 x [-> [-> S2]]. apply wp_emit_ok. auto.
  - intros a w r f S W SP L. destruct f as [|f]; [lia|].
    eapply pv_start; [exact W| |exact S|]; [apply starter_intro; simpl; tauto|].
    intros a1 S1. cbn [N.eqb Pos.eqb].
    apply runs_ebind. eapply runs_conseq; [apply (wp_check_ok fin false_bytes a1 r None); exact S1|].
    cbv beta. intros a2 t2 x [-> [-> S2]]. apply wp_emit_ok. auto.
  - (* number *) intros l NT a w r f S W SP L. destruct f as [|f]; [lia|].
    destruct (number_first _ NT) as [b [l' [E B]]].
    assert (S0 : st a (w ++ b :: (l' ++ r)) None) by (rewrite E in S; exact S).
    eapply pv_start; [exact W| |exact S0|].
    { apply starter_intro. destruct B; subst; simpl; tauto. }
    intros a1 S1.
    assert (S2 : st a1 (l ++ r) None) by (rewrite E; exact S1).
    assert (C : (N.eqb b 34 = false /\ N.eqb b 91 = false /\ N.eqb b 123 = false /\
                 N.eqb b 116 = false /\ N.eqb b 102 = false /\ N.eqb b 110 = false) /\
                (N.eqb b 45 || N.leb 48 b && N.leb b 57) = true).
    { rewrite !N.eqb_neq, orb_true_iff, andb_true_iff, N.eqb_eq, !N.leb_le.
      unfold digit in B. lia. }
    destruct C as [[-> [-> [-> [-> [-> ->]]]]] ->].
    apply runs_ebind.
    eapply runs_conseq; [eapply (parse_number_ok fin f a1 l r); eauto|].
    + apply SP. now apply number_ends.
    + rewrite E in *. simpl in *. lia.
    + cbv beta. intros a2 t2 x [-> [-> S3]]. apply wp_emit_ok. auto.
  - (* string *) intros c C a w r f S W SP L. destruct f as [|f]; [lia|].
    assert (S0 : st a (w ++ 34%N :: (c ++ 34%N :: r)) None).
    { rewrite <- app_comm_cons, <- app_assoc in S. exact S. }
    eapply pv_start; [exact W| |exact S0|]; [apply starter_intro; simpl; tauto|].
    intros a1 S1. cbn [N.eqb Pos.eqb]. apply runs_ebind.
    eapply runs_conseq; [eapply (parse_string_ok fin strict c a1 r f); eauto|].
    + simpl in L. rewrite app_length in L. simpl in L. lia.
    + cbv beta. intros a2 t2 x [-> [-> S2]]. apply wp_emit_ok. auto.
  - (* empty array *) intros w0 W0 a w r f S W SP L. destruct f as [|f]; [lia|].
    assert (S0 : st a (w ++ 91%N :: (w0 ++ 93%N :: r)) None).
    { rewrite <- app_comm_cons, <- app_assoc in S. exact S. }
    eapply pv_start; [exact W| |exact S0|]; [apply starter_intro; simpl; tauto|].
    intros a1 S1. cbn [N.eqb Pos.eqb]. apply runs_ebind. wstep wp_expect.
    intros a2 t2 x [-> [-> [S2 _]]]. apply runs_emit. cbn [tok_app] in S2. apply runs_ebind.
    eapply runs_conseq; [eapply (wp_skip_to fin a2 w0 93%N r); eauto|].
    { unfold ws_byte; lia. } { unfold EOFb; lia. }
    cbv beta. intros a3 t3 x [-> [-> S3]]. cbn [N.eqb Pos.eqb].
    wstep close_ok. intros a4 t4 x [-> [-> S4]]. auto.
  - (* array *) intros l t E [w0 [b0 [t0 [ET [W0 [ST0 [NB0 IH]]]]]]] a w r f S W SP L.
    destruct f as [|f]; [lia|].
    assert (S0 : st a (w ++ 91%N :: (t ++ 93%N :: r)) None).
    { rewrite <- app_comm_cons, <- app_assoc in S. exact S. }
    eapply pv_start; [exact W| |exact S0|]; [apply starter_intro; simpl; tauto|].
    intros a1 S1. cbn [N.eqb Pos.eqb]. apply runs_ebind. wstep wp_expect.
    intros a2 t2 x [-> [-> [S2 _]]]. apply runs_emit. cbn [tok_app] in S2. apply runs_ebind.
    rewrite ET in S2. rewrite <- app_assoc in S2. cbn [app] in S2.
    eapply runs_conseq; [eapply (wp_skip_to fin a2 w0 b0 (t0 ++ 93%N :: r)); eauto; apply ST0|].
    cbv beta. intros a3 t3 x [-> [-> S3]].
    destruct (N.eqb_spec b0 93); [contradiction|].
    eapply runs_conseq; [apply (IH a3 [] r f); [constructor|exact S3|]|].
    { simpl in L. rewrite ET in L. rewrite !app_length in L. simpl in *. lia. }
    cbv beta. intros a4 t4 x [-> [-> S4]]. cbn [app]. split; [reflexivity|auto].
  - (* empty object *) intros w0 W0 a w r f S W SP L. destruct f as [|f]; [lia|].
    assert (S0 : st a (w ++ 123%N :: (w0 ++ 125%N :: r)) None).
    { rewrite <- app_comm_cons, <- app_assoc in S. exact S. }
    eapply pv_start; [exact W| |exact S0|]; [apply starter_intro; simpl; tauto|].
    intros a1 S1. cbn [N.eqb Pos.eqb]. apply runs_ebind. wstep wp_expect.
    intros a2 t2 x [-> [-> [S2 _]]]. apply runs_emit. cbn [tok_app] in S2. apply runs_ebind.
    eapply runs_conseq; [eapply (wp_skip_to fin a2 w0 125%N r); eauto|].
    { unfold ws_byte; lia. } { unfold EOFb; lia. }
    cbv beta. intros a3 t3 x [-> [-> S3]]. cbn [N.eqb Pos.eqb].
    wstep close_ok. intros a4 t4 x [-> [-> S4]]. auto.
  - (* object *) intros l t E [w0 [t0 [ET [W0 IH]]]] a w r f S W SP L.
    destruct f as [|f]; [lia|].
    assert (S0 : st a (w ++ 123%N :: (t ++ 125%N :: r)) None).
    { rewrite <- app_comm_cons, <- app_assoc in S. exact S. }
    eapply pv_start; [exact W| |exact S0|]; [apply starter_intro; simpl; tauto|].
    intros a1 S1. cbn [N.eqb Pos.eqb]. apply runs_ebind. wstep wp_expect.
    intros a2 t2 x [-> [-> [S2 _]]]. apply runs_emit. cbn [tok_app] in S2. apply runs_ebind.
    rewrite ET in S2. rewrite <- app_assoc in S2. cbn [app] in S2.
    eapply runs_conseq; [eapply (wp_skip_to fin a2 w0 34%N (t0 ++ 125%N :: r)); eauto|].
    { unfold ws_byte; lia. } { unfold EOFb; lia. }
    cbv beta. intros a3 t3 x [-> [-> S3]]. cbn [N.eqb Pos.eqb].
    eapply runs_conseq; [apply (IH a3 r f); [exact S3|]|].
    { simpl in L. rewrite ET in L. rewrite !app_length in L. simpl in *. lia. }
    cbv beta. intros a4 t4 x [-> [-> S4]]. cbn [app]. split; [reflexivity|auto].
  - (* last item *) intros w1 v t w2 W1 V IH W2.
    destruct (vtext_first _ _ _ V) as [b [t' [ET SB]]].
    exists w1, b, (t' ++ w2). split; [rewrite ET; reflexivity|]. split; auto. split; auto.
    split; [eapply vtext_not_close; eauto|].
    intros a w' r f W' S L. destruct f as [|f]; [lia|]. cbn [array_loop].
    rewrite app_comm_cons, <- ET in S, L. rewrite <- app_assoc in S. rewrite app_length in L.
    apply runs_ebind. eapply runs_conseq; [apply (IH a w' (w2 ++ 93%N :: r) f); auto|].
    { intros _. apply stops_ws_app; auto. } { lia. }
    cbv beta. intros a1 t1 x [-> [-> S1]]. apply runs_ebind.
    eapply runs_conseq; [eapply (wp_skip_to fin a1 w2 93%N r); eauto|].
    { unfold ws_byte; lia. } { unfold EOFb; lia. }
    cbv beta. intros a2 t2 x [-> [-> S2]]. cbn [N.eqb Pos.eqb].
    wstep close_ok. intros a3 t3 x [-> [-> S3]]. cbn [flat_map]. rewrite app_nil_r. auto.
  - (* more items *) intros w1 v t w2 l u W1 V IH W2 EL [w3 [b3 [u' [EU [W3 [SB3 [NB3 IHl]]]]]]].
    destruct (vtext_first _ _ _ V) as [b [t' [ET SB]]].
    exists w1, b, (t' ++ w2 ++ 44%N :: u). split; [rewrite ET; reflexivity|]. split; auto. split; auto.
    split; [eapply vtext_not_close; eauto|].
    intros a w' r f W' S L. destruct f as [|f]; [lia|]. cbn [array_loop].
    rewrite app_comm_cons, <- ET in S, L. rewrite <- !app_assoc in S. rewrite !app_length in L.
    apply runs_ebind.
    eapply runs_conseq; [apply (IH a w' (w2 ++ 44%N :: u ++ 93%N :: r) f); auto|].
    { intros _. apply stops_ws_app; auto. } { lia. }
    cbv beta. intros a1 t1 x [-> [-> S1]]. apply runs_ebind.
    eapply runs_conseq; [eapply (wp_skip_to fin a1 w2 44%N (u ++ 93%N :: r)); eauto|].
    { unfold ws_byte; lia. } { unfold EOFb; lia. }
    cbv beta. intros a2 t2 x [-> [-> S2]]. cbn [N.eqb Pos.eqb].
    apply runs_bind. wstep wp_read_unit. intros a3 t3 [] [-> S3]. cbn [tok_app] in S3.
    rewrite EU in S3. rewrite <- app_assoc in S3.
    eapply runs_conseq; [apply (IHl a3 w3 r f); auto|].
    { rewrite EU in L. simpl in *. rewrite app_length in L. simpl in L. lia. }
    cbv beta. intros a4 t4 x [-> [-> S4]]. cbn [flat_map app]. rewrite <- app_assoc. auto.
  - (* last member *) intros w1 c w2 w3 v t w4 W1 C W2 W3 V IH W4.
    exists w1, (c ++ 34%N :: w2 ++ 58%N :: w3 ++ t ++ w4).
    split. { nrm. reflexivity. }
    split; auto.
    intros a r f S L. destruct f as [|f]; [lia|]. cbn [object_loop].
    nrmin S.
    repeat (cbn [length] in L; rewrite ?app_length in L).
    apply runs_ebind. eapply runs_conseq; [eapply (parse_string_ok fin strict c a _ f); eauto; lia|].
    cbv beta. intros a1 t1 x [-> [-> S1]]. apply runs_emit. apply runs_ebind.
    eapply runs_conseq; [eapply (wp_skip_to fin a1 w2 58%N); eauto|].
    { unfold ws_byte; lia. } { unfold EOFb; lia. }
    cbv beta. intros a2 t2 x [-> [-> S2]]. cbn [N.eqb Pos.eqb].
    apply runs_bind. wstep wp_read_unit. intros a3 t3 [] [-> S3]. cbn [tok_app] in S3.
    apply runs_ebind. eapply runs_conseq; [apply (IH a3 w3 (w4 ++ 125%N :: r) f); auto|].
    { intros _. apply stops_ws_app; auto. } { lia. }
    cbv beta. intros a4 t4 x [-> [-> S4]]. apply runs_ebind.
    eapply runs_conseq; [eapply (wp_skip_to fin a4 w4 125%N r); eauto|].
    { unfold ws_byte; lia. } { unfold EOFb; lia. }
    cbv beta. intros a5 t5 x [-> [-> S5]]. cbn [N.eqb Pos.eqb].
    wstep close_ok. intros a6 t6 x [-> [-> S6]]. split; [|auto].
    rewrite as_key_string. cbn [flat_map app key_toks fst snd]. rewrite app_nil_r. reflexivity.
  - (* more members *) intros w1 c w2 w3 v t w4 l u W1 C W2 W3 V IH W4 ME [w5 [u' [EU [W5 IHl]]]].
    exists w1, (c ++ 34%N :: w2 ++ 58%N :: w3 ++ t ++ w4 ++ 44%N :: u).
    split. { nrm. reflexivity. }
    split; auto.
    intros a r f S L. destruct f as [|f]; [lia|]. cbn [object_loop].
    nrmin S.
    repeat (cbn [length] in L; rewrite ?app_length in L).
    apply runs_ebind. eapply runs_conseq; [eapply (parse_string_ok fin strict c a _ f); eauto; lia|].
    cbv beta. intros a1 t1 x [-> [-> S1]]. apply runs_emit. apply runs_ebind.
    eapply runs_conseq; [eapply (wp_skip_to fin a1 w2 58%N); eauto|].
    { unfold ws_byte; lia. } { unfold EOFb; lia. }
    cbv beta. intros a2 t2 x [-> [-> S2]]. cbn [N.eqb Pos.eqb].
    apply runs_bind. wstep wp_read_unit. intros a3 t3 [] [-> S3]. cbn [tok_app] in S3.
    apply runs_ebind. eapply runs_conseq; [apply (IH a3 w3 (w4 ++ 44%N :: u ++ 125%N :: r) f); auto|].
    { intros _. apply stops_ws_app; auto. } { lia. }
    cbv beta. intros a4 t4 x [-> [-> S4]]. apply runs_ebind.
    eapply runs_conseq; [eapply (wp_skip_to fin a4 w4 44%N); eauto|].
    { unfold ws_byte; lia. } { unfold EOFb; lia. }
    cbv beta. intros a5 t5 x [-> [-> S5]]. cbn [N.eqb Pos.eqb].
    apply runs_bind. wstep wp_read_unit. intros a6 t6 [] [-> S6]. cbn [tok_app] in S6.
    rewrite EU in S6. rewrite <- app_assoc in S6. cbn [app] in S6.
    apply runs_ebind. eapply runs_conseq; [eapply (wp_skip_to fin a6 w5 34%N); eauto|].
    { unfold ws_byte; lia. } { unfold EOFb; lia. }
    cbv beta. intros a7 t7 x [-> [-> S7]].
    eapply runs_conseq; [apply (IHl a7 r f); auto|].
    { rewrite EU in L. cbn [length] in *. rewrite app_length in L. cbn [length] in L. lia. }
    cbv beta. intros a8 t8 x [-> [-> S8]]. split; [|auto].
    rewrite as_key_string. cbn [flat_map app key_toks fst snd]. rewrite <- app_assoc. reflexivity.
Qed.

Lemma produce_complete : forall strict vs t, stext strict sep_ok vs t -> fin = RdEOF ->
  forall a f, st a t None -> 2 * length t + 2 <= f ->
  runs a (produce f) (fun a' ts x => ts = stream vs /\ x = DOk tt).
Proof.
  intros strict vs t H FN. induction H as [w W|w v t vs r W V SP H IH]; intros a f S L;
    (destruct f as [|f]; [lia|]); cbn [produce]; apply runs_ebind.
  - eapply runs_conseq; [apply wp_skip_raw; eauto|]. cbv beta. intros a1 t x [-> [S1 ->]].
    assert (E : skipn (ws_len w) w = []).
    { rewrite <- (app_nil_r w) at 1. rewrite ws_len_ws by auto. simpl. rewrite Nat.add_0_r.
      apply skipn_all. }
    rewrite E, FN. rewrite N.eqb_refl. apply runs_ret. auto.
  - destruct (vtext_first _ _ _ V) as [b [t' [ET [NW NE]]]].
    assert (S0 : st a (w ++ b :: (t' ++ r)) None) by (rewrite ET in S; exact S).
    pose proof (wp_skip_to fin a w b (t' ++ r) S0 W NW NE) as R.
    assert (R' : runs a (op_byte SSkipPeek) (fun a' ts x => ts = [] /\ x = DOk b /\ st a' (b :: t' ++ r) None)).
    { eapply runs_conseq; [apply wp_skip_raw; eauto|]. cbv beta. intros a1 t1 x [-> [S1 ->]].
      assert (E : skipn (ws_len (w ++ b :: t' ++ r)) (w ++ b :: t' ++ r) = b :: t' ++ r).
      { rewrite ws_len_ws by auto. rewrite ws_len_stop_at by auto. rewrite Nat.add_0_r.
        rewrite skipn_app, skipn_all, Nat.sub_diag. reflexivity. }
      rewrite E in *. auto. }
    eapply runs_conseq; [exact R'|]. cbv beta. intros a1 t1 x [-> [-> S1]].
    destruct (N.eqb_spec b EOFb); [contradiction|].
    apply runs_ebind. rewrite !app_length in L.
    assert (S2 : st a1 ([] ++ t ++ r) None) by (rewrite ET; exact S1).
    eapply runs_conseq; [apply (proj1 (values_complete strict) v t V a1 [] r f); auto|].
    { constructor. } { lia. }
    cbv beta. intros a2 t2 x [-> [-> S3]].
    eapply runs_conseq; [apply (IH a2 f); auto; rewrite ET in L; simpl in L; lia|].
    cbv beta. intros a3 t3 x [-> ->]. auto.
Qed.

(* ------------------------------------------------------------------ *)
(** Soundness. *)

Definition spelled (ts : list token) (l : bytes) : Prop :=
  exists p r, l = p ++ r /\ spells false ts p.

Definition val_post (l : bytes) (a' : ast) (ts : list token) (x : dres unit) : Prop :=
  match x with
  | DOk _ => exists w v t r, l = w ++ t ++ r /\ ws w /\ vtext false v t /\ ts = toks v /\
               st a' r None
  | DErr _ => (exists v suf, ts ++ suf = toks v) /\ spelled ts l
  end.
Definition arr_post (l : bytes) (a' : ast) (ts : list token) (x : dres unit) : Prop :=
  match x with
  | DOk _ => exists items t r, l = t ++ 93%N :: r /\ elems false items t /\
               ts = flat_map toks items ++ [TEndArr] /\ st a' r None
  | DErr _ => (exists items suf, ts ++ suf = flat_map toks items ++ [TEndArr]) /\ spelled ts l
  end.
Definition obj_post (l : bytes) (a' : ast) (ts : list token) (x : dres unit) : Prop :=
  match x with
  | DOk _ => exists ms t r, l = t ++ 125%N :: r /\ members false ms t /\
               ts = flat_map key_toks ms ++ [TEndObj] /\ st a' r None
  | DErr _ => (exists ms suf, ts ++ suf = flat_map key_toks ms ++ [TEndObj]) /\ spelled ts l
  end.

Lemma unexpected_val : forall A a (Q : ast -> list token -> dres A -> Prop),
  (forall a' e, Q a' [] (DErr e)) -> runs a unexpected_byte Q.
Proof.
  intros A a Q H. eapply runs_conseq; [apply wp_unexpected|]. cbv beta.
  intros a1 t x [-> [e ->]]. auto.
Qed.

Lemma spelled_nil : forall l, spelled [] l.
Proof. intro l. exists [], l. split; [reflexivity|constructor]. Qed.
Lemma spelled_app : forall ts1 p1 ts2 l, spells false ts1 p1 -> spelled ts2 l ->
  spelled (ts1 ++ ts2) (p1 ++ l).
Proof.
  intros ts1 p1 ts2 l H [p [r [-> H2]]]. exists (p1 ++ p), r. split; [apply app_assoc|].
  now apply spells_app.
Qed.
Lemma spelled_here : forall ts p l, spells false ts p -> spelled ts (p ++ l).
Proof. intros ts p l H. exists p, l. auto. Qed.
Lemma val_err_nil : forall l a' e, val_post l a' [] (DErr e).
Proof. intros. split; [exists (JScalar null_scalar), [TScalar null_scalar]; reflexivity|apply spelled_nil]. Qed.
Lemma arr_err_nil : forall l a' e, arr_post l a' [] (DErr e).
Proof. intros. split; [exists [], [TEndArr]; reflexivity|apply spelled_nil]. Qed.
Lemma obj_err_nil : forall l a' e, obj_post l a' [] (DErr e).
Proof. intros. split; [exists [], [TEndObj]; reflexivity|apply spelled_nil]. Qed.
Lemma vsp : forall v t, vtext false v t -> spells false (toks v) t.
Proof. apply (spells_value false). Qed.

Lemma values_sound : forall f,
  (forall a l, st a l None -> 2 * length l + 1 <= f ->
     runs a (parse_value f) (val_post l)) /\
  (forall a l, st a l None -> 2 * length l + 2 <= f ->
     runs a (array_loop f) (arr_post l)) /\
  (forall a l, st a l None -> l <> [] -> 2 * length l + 2 <= f ->
     runs a (object_loop f) (obj_post l)).
Proof.
  induction f as [|f [IHv [IHa IHo]]]; [split; [|split]; intros; lia|].
  split; [|split].
  - (* value *) intros a l S L. cbn [parse_value].
    apply runs_ebind. eapply runs_conseq; [eapply wp_skip; eauto|].
    cbv beta. intros a1 t x [-> [w [l' [-> [W [S1 R]]]]]].
    destruct x as [b|e]; [|apply val_err_nil].
    destruct R as [[r ->] [NE NW]]. rewrite app_length in L. simpl in L.
    assert (LIT : forall lit sc, ~ In EOFb lit -> vtext false (JScalar sc) lit ->
       runs a1 (ebind (check_bytes lit) (fun _ => emit_ok (TScalar sc)))
         (fun a2 t2 y => val_post (w ++ b :: r) a2 ([] ++ t2) y)).
    { intros lit sc NI V. apply runs_ebind.
      eapply runs_conseq; [eapply (wp_check_any fin lit a1 (b :: r) None); eauto; left; discriminate|].
      cbv beta. intros a2 t2 y [-> R2]. destruct y as [[]|e]; [|apply val_err_nil].
      destruct R2 as [r2 [E S2]]. apply wp_emit_ok.
      exists w, (JScalar sc), lit, r2. rewrite E. repeat split; auto; apply S2. }
    destruct (N.eqb_spec b 34) as [->|N34].
    { (* string *) apply runs_ebind.
      eapply runs_conseq; [eapply (parse_string_any fin a1 (34%N :: r) f); eauto; try discriminate; simpl; lia|].
      cbv beta. intros a2 t2 y [-> R2]. destruct y as [sc|e]; [|apply val_err_nil].
      destruct R2 as [c [r2 [E [C [-> S2]]]]]. apply wp_emit_ok.
      exists w, (JScalar (string_scalar c)), (34%N :: c ++ [34%N]), r2.
      rewrite E. cbn [app]. rewrite <- app_assoc. split; [reflexivity|].
      split; auto. split; [now apply vt_str|]. split; auto. }
    destruct (N.eqb_spec b 91) as [->|N91].
    { (* array *) apply runs_ebind. wstep wp_expect. intros a2 t2 y [-> [-> [S2 _]]].
      apply runs_emit. apply runs_ebind. eapply runs_conseq; [eapply wp_skip; eauto|].
      cbv beta. intros a3 t3 y [-> [w2 [l2 [-> [W2 [S3 R3]]]]]].
      destruct y as [b2|e].
      2:{ split; [exists (JArr [] false), [TEndArr]; reflexivity|].
          apply (spelled_app [] w); [now apply spells_ws|].
          apply (spelled_here [TStartArr] [91%N]). repeat spc. }
      destruct R3 as [[r3 ->] [NE3 NW3]].
      destruct (N.eqb_spec b2 93) as [->|N93].
      - wstep close_ok. intros a4 t4 y [-> [-> S4]].
        exists w, (JArr [] false), (91%N :: w2 ++ [93%N]), r3.
        cbn [app]. rewrite <- app_assoc. split; [reflexivity|].
        split; auto. split; [now apply vt_arr0|]. split; auto.
      - rewrite app_length in L. simpl in L.
        eapply runs_conseq; [apply (IHa a3 (b2 :: r3) S3); simpl; lia|].
        intros a4 t4 y R4. destruct y as [[]|e].
        + destruct R4 as [items [t5 [r5 [E [EL [-> S5]]]]]].
          rewrite E. exists w, (JArr items false), (91%N :: (w2 ++ t5) ++ [93%N]), r5.
          split; [cbn [app]; rewrite <- !app_assoc; reflexivity|].
          split; auto. split; [apply vt_arr; now apply elems_ws|]. split; [|exact S5]. reflexivity.
        + destruct R4 as [[items [suf E]] SPL]. split.
          { exists (JArr items false), suf. cbn [app toks elision]. now rewrite E. }
          apply (spelled_app [] w); [now apply spells_ws|]. cbn [app].
          apply (spelled_app [TStartArr] [91%N]); [repeat spc|].
          apply (spelled_app [] w2); [now apply spells_ws|exact SPL]. }
    destruct (N.eqb_spec b 123) as [->|N123].
    { (* object *) apply runs_ebind. wstep wp_expect. intros a2 t2 y [-> [-> [S2 _]]].
      apply runs_emit. apply runs_ebind. eapply runs_conseq; [eapply wp_skip; eauto|].
      cbv beta. intros a3 t3 y [-> [w2 [l2 [-> [W2 [S3 R3]]]]]].
      destruct y as [b2|e].
      2:{ split; [exists (JObj [] false), [TEndObj]; reflexivity|].
          apply (spelled_app [] w); [now apply spells_ws|].
          apply (spelled_here [TStartObj] [123%N]). repeat spc. }
      destruct R3 as [[r3 ->] [NE3 NW3]].
      destruct (N.eqb_spec b2 125) as [->|N93].
      - wstep close_ok. intros a4 t4 y [-> [-> S4]].
        exists w, (JObj [] false), (123%N :: w2 ++ [125%N]), r3.
        cbn [app]. rewrite <- app_assoc. split; [reflexivity|].
        split; auto. split; [now apply vt_obj0|]. split; auto.
      - rewrite app_length in L. simpl in L.
        eapply runs_conseq; [apply (IHo a3 (b2 :: r3) S3); [discriminate|simpl; lia]|].
        intros a4 t4 y R4. destruct y as [[]|e].
        + destruct R4 as [items [t5 [r5 [E [EL [-> S5]]]]]].
          rewrite E. exists w, (JObj items false), (123%N :: (w2 ++ t5) ++ [125%N]), r5.
          split; [cbn [app]; rewrite <- !app_assoc; reflexivity|].
          split; auto. split; [apply vt_obj; now apply members_ws|]. split; [|exact S5]. reflexivity.
        + destruct R4 as [[items [suf E]] SPL]. split.
          { exists (JObj items false), suf. cbn [app toks elision].
            unfold key_toks in E. now rewrite E. }
          apply (spelled_app [] w); [now apply spells_ws|]. cbn [app].
          apply (spelled_app [TStartObj] [123%N]); [repeat spc|].
          apply (spelled_app [] w2); [now apply spells_ws|exact SPL]. }
    destruct no_eof_lits as [NI1 [NI2 NI3]].
    destruct (N.eqb_spec b 116); [apply LIT; auto; constructor|].
    destruct (N.eqb_spec b 102); [apply LIT; auto; constructor|].
    destruct (N.eqb_spec b 110); [apply LIT; auto; constructor|].
    destruct (N.eqb b 45 || N.leb 48 b && N.leb b 57).
    { apply runs_ebind.
      eapply runs_conseq; [eapply (parse_number_any fin f a1 (b :: r)); eauto; try discriminate; simpl; lia|].
      cbv beta. intros a2 t2 y [-> R2]. destruct y as [sc|e]; [|apply val_err_nil].
      destruct R2 as [t [r2 [E [C [-> S2]]]]]. apply wp_emit_ok.
      exists w, (JScalar (new_scalar TNum t)), t, r2.
      rewrite E. split; [reflexivity|]. split; auto. split; [now apply vt_num|]. split; auto. }
    apply unexpected_val. intros. apply val_err_nil.
  - (* array_loop *) intros a l S L. cbn [array_loop].
    apply runs_ebind. eapply runs_conseq; [apply (IHv a l S); lia|].
    intros a1 t1 x R. destruct x as [[]|e].
    2:{ destruct R as [[v [suf E]] SPL]. split; [|exact SPL]. exists [v], (suf ++ [TEndArr]).
        cbn [flat_map]. rewrite app_nil_r, app_assoc, E. reflexivity. }
    destruct R as [w [v [t [r [-> [W [V [-> S1]]]]]]]].
    destruct (vtext_first _ _ _ V) as [b0 [t0 [ET _]]].
    apply runs_ebind. eapply runs_conseq; [eapply wp_skip; eauto|].
    cbv beta. intros a2 t2 x [-> [w2 [l2 [-> [W2 [S2 R2]]]]]].
    rewrite !app_length in L. rewrite ET in L. simpl in L. rewrite app_nil_r.
    destruct x as [b|e].
    2:{ split; [exists [v], [TEndArr]; cbn [flat_map]; now rewrite !app_nil_r|].
        apply (spelled_app [] w); [now apply spells_ws|].
        apply spelled_here. now apply vsp. }
    destruct R2 as [[r2 ->] [NE2 NW2]]. simpl in L.
    destruct (N.eqb_spec b 93) as [->|N93].
    { wstep close_ok. intros a4 t4 y [-> [-> S4]].
      exists [v], (w ++ t ++ w2), r2. split; [rewrite <- !app_assoc; reflexivity|].
      split; [now apply el_one|]. split; auto. cbn [flat_map]. now rewrite app_nil_r. }
    destruct (N.eqb_spec b 44) as [->|N44].
    { apply runs_bind. wstep wp_read_unit. intros a3 t3 [] [-> S3].
      cbn [app]. eapply runs_conseq; [apply (IHa a3 r2 S3); lia|].
      intros a4 t4 y R4. destruct y as [[]|e].
      - destruct R4 as [items [t5 [r5 [-> [EL [-> S5]]]]]].
        exists (v :: items), (w ++ t ++ w2 ++ 44%N :: t5), r5.
        split; [nrm; reflexivity|].
        split; [now apply el_cons|]. split; auto. cbn [flat_map]. now rewrite <- app_assoc.
      - destruct R4 as [[items [suf E]] SPL]. split.
        { exists (v :: items), suf. cbn [flat_map]. rewrite <- !app_assoc, E. reflexivity. }
        apply (spelled_app [] w); [now apply spells_ws|].
        apply spelled_app; [now apply vsp|].
        apply (spelled_app [] w2); [now apply spells_ws|].
        apply (spelled_app [] [44%N]); [|exact SPL]. apply sp_gap; [right; auto|constructor]. }
    apply unexpected_val. intros. rewrite app_nil_r. split.
    { exists [v], [TEndArr]. cbn [flat_map]. now rewrite app_nil_r. }
    apply (spelled_app [] w); [now apply spells_ws|].
    apply spelled_here. now apply vsp.
  - (* object_loop *) intros a l S NL L. cbn [object_loop].
    apply runs_ebind. eapply runs_conseq; [eapply (parse_string_any fin a l f); eauto; lia|].
    cbv beta. intros a1 t1 x [-> R]. destruct x as [k|e]; [|apply obj_err_nil].
    destruct R as [c [r [-> [C [-> S1]]]]]. cbn [length] in L. rewrite app_length in L. cbn [length] in L.
    apply runs_emit. rewrite as_key_string.
    assert (KERR : forall a' e, obj_post (34%N :: c ++ 34%N :: r) a' [TScalar (key_scalar c)] (DErr e)).
    { intros. split.
      - exists [(key_scalar c, JScalar null_scalar)], [TScalar null_scalar; TEndObj]. reflexivity.
      - replace (34%N :: c ++ 34%N :: r) with ((34%N :: c ++ [34%N]) ++ r) by (nrm; reflexivity).
        apply spelled_here. now apply spells_key. }
    apply runs_ebind. eapply runs_conseq; [eapply wp_skip; eauto|].
    cbv beta. intros a2 t2 x [-> [w2 [l2 [-> [W2 [S2 R2]]]]]].
    destruct x as [b|e]; [|apply KERR].
    destruct R2 as [[r2 ->] [NE2 NW2]]. rewrite app_length in L. cbn [length] in L.
    destruct (N.eqb_spec b 58) as [->|N58].
    2:{ apply unexpected_val. intros. apply KERR. }
    apply runs_bind. wstep wp_read_unit. intros a3 t3 [] [-> S3]. cbn [app].
    apply runs_ebind. eapply runs_conseq; [apply (IHv a3 r2 S3); lia|].
    intros a4 t4 x R4. destruct x as [[]|e].
    2:{ destruct R4 as [[v [suf E]] SPL]. split.
        - exists [(key_scalar c, v)], (suf ++ [TEndObj]).
          cbn [flat_map key_toks app fst snd]. rewrite app_nil_r, app_assoc, E. reflexivity.
        - replace (34%N :: c ++ 34%N :: w2 ++ 58%N :: r2)
            with ((34%N :: c ++ [34%N]) ++ w2 ++ [58%N] ++ r2) by (nrm; reflexivity).
          apply (spelled_app [TScalar (key_scalar c)]); [now apply spells_key|].
          apply (spelled_app [] w2); [now apply spells_ws|].
          apply (spelled_app [] [58%N]); [|exact SPL]. apply sp_gap; [right; auto|constructor]. }
    destruct R4 as [w3 [v [t [r4 [-> [W3 [V [-> S4]]]]]]]].
    apply runs_ebind. eapply runs_conseq; [eapply wp_skip; eauto|].
    cbv beta. intros a5 t5 x [-> [w4 [l5 [-> [W4 [S5 R5]]]]]].
    rewrite !app_length in L. rewrite app_nil_r.
    assert (KV : forall ts x, spelled ts x -> spelled ((TScalar (key_scalar c) :: toks v) ++ ts)
       (34%N :: c ++ 34%N :: w2 ++ 58%N :: w3 ++ t ++ x)).
    { intros ts x0 H.
      replace (34%N :: c ++ 34%N :: w2 ++ 58%N :: w3 ++ t ++ x0)
        with ((34%N :: c ++ [34%N]) ++ w2 ++ [58%N] ++ w3 ++ t ++ x0) by (nrm; reflexivity).
      apply (spelled_app [TScalar (key_scalar c)]); [now apply spells_key|].
      apply (spelled_app [] w2); [now apply spells_ws|].
      apply (spelled_app [] [58%N]); [apply sp_gap; [right; auto|constructor]|].
      apply (spelled_app [] w3); [now apply spells_ws|].
      apply spelled_app; [now apply vsp|exact H]. }
    assert (VERR : forall x a' e, obj_post (34%N :: c ++ 34%N :: w2 ++ 58%N :: w3 ++ t ++ x) a'
               (TScalar (key_scalar c) :: toks v) (DErr e)).
    { intros. split.
      - exists [(key_scalar c, v)], [TEndObj]. cbn [flat_map key_toks app fst snd].
        now rewrite app_nil_r.
      - rewrite <- (app_nil_r (toks v)). apply (KV []). apply spelled_nil. }
    destruct x as [b|e]; [|apply VERR].
    destruct R5 as [[r5 ->] [NE5 NW5]]. cbn [length] in L.
    destruct (N.eqb_spec b 125) as [->|N125].
    { wstep close_ok. intros a6 t6 y [-> [-> S6]].
      exists [(key_scalar c, v)], ([] ++ (34%N :: c ++ [34%N]) ++ w2 ++ 58%N :: w3 ++ t ++ w4), r5.
      split; [nrm; reflexivity|].
      split; [apply me_one; auto; constructor|]. split; auto.
      cbn [flat_map key_toks app fst snd]. now rewrite app_nil_r. }
    destruct (N.eqb_spec b 44) as [->|N44].
    2:{ apply unexpected_val. intros. rewrite app_nil_r. apply VERR. }
    apply runs_bind. wstep wp_read_unit. intros a6 t6 [] [-> S6]. cbn [app].
    apply runs_ebind. eapply runs_conseq; [eapply wp_skip; eauto|].
    cbv beta. intros a7 t7 x [-> [w7 [l7 [-> [W7 [S7 R7]]]]]]. rewrite app_length in L.
    destruct x as [b|e]; [|rewrite app_nil_r; apply VERR].
    destruct R7 as [[r7 ->] [NE7 NW7]]. cbn [length] in L. cbn [app].
    eapply runs_conseq; [apply (IHo a7 (b :: r7) S7); [discriminate|cbn [length]; lia]|].
    intros a8 t8 y R8. destruct y as [[]|e].
    + destruct R8 as [ms [t9 [r9 [E [ME [-> S9]]]]]]. rewrite E.
      exists ((key_scalar c, v) :: ms),
        ([] ++ (34%N :: c ++ [34%N]) ++ w2 ++ 58%N :: w3 ++ t ++ w4 ++ 44%N :: (w7 ++ t9)), r9.
      split; [nrm; reflexivity|].
      split; [apply me_cons; auto; [constructor|now apply members_ws]|]. split; auto.
      cbn [flat_map key_toks app fst snd]. now rewrite <- app_assoc.
    + destruct R8 as [[ms [suf E]] SPL]. split.
      { exists ((key_scalar c, v) :: ms), suf.
        cbn [flat_map key_toks app fst snd]. rewrite <- !app_assoc, E. reflexivity. }
      apply KV. apply (spelled_app [] w4); [now apply spells_ws|].
      apply (spelled_app [] [44%N]); [apply sp_gap; [right; auto|constructor]|].
      apply (spelled_app [] w7); [now apply spells_ws|exact SPL].
Qed.

Lemma produce_sound : forall f a l, st a l None -> 2 * length l + 2 <= f ->
  runs a (produce f) (fun a' ts x =>
    match x with
    | DOk _ => exists vs t, ts = stream vs /\ stext false juxtaposed vs t /\
                 (l = t /\ fin = RdEOF \/ exists r, l = t ++ EOFb :: r)
    | DErr _ => (exists vs suf, ts ++ suf = stream vs) /\ spelled ts l
    end).
Proof.
  induction f as [|f IH]; intros a l S L; [lia|]. cbn [produce].
  apply runs_ebind. eapply runs_conseq; [apply wp_skip_raw; eauto|].
  cbv beta. intros a1 t x [-> [S1 ->]].
  pose proof (firstn_skipn (ws_len l) l) as SPL. pose proof (ws_firstn l) as WF.
  set (w := firstn (ws_len l) l) in *. set (l1 := skipn (ws_len l) l) in *.
  clearbody w l1.
  assert (NIL : stext false juxtaposed [] w) by (now constructor).
  destruct l1 as [|b r].
  - destruct fin eqn:FN.
    + rewrite N.eqb_refl. apply runs_ret.
      exists [], w. rewrite app_nil_r in SPL. auto.
    + split; [exists [], []; reflexivity|apply spelled_nil].
  - destruct (N.eqb_spec b EOFb) as [->|NE].
    { apply runs_ret. exists [], w. eauto. }
    apply runs_ebind.
    assert (LL : length (b :: r) <= length l) by (rewrite <- SPL, app_length; lia).
    eapply runs_conseq; [apply (proj1 (values_sound f) a1 (b :: r) S1); lia|].
    intros a2 t2 x R. destruct x as [[]|e].
    2:{ destruct R as [[v [suf E]] SP]. split.
        - exists [v], suf. cbn [stream flat_map app].
          unfold stream; cbn [flat_map]. rewrite app_nil_r. exact E.
        - rewrite <- SPL. apply (spelled_app [] w); [now apply spells_ws|exact SP]. }
    destruct R as [w2 [v [t [r2 [E [W2 [V [-> S2]]]]]]]].
    destruct (vtext_first _ _ _ V) as [b0 [t0 [ET _]]].
    assert (L2 : length (b :: r) = length w2 + length t + length r2)
      by (rewrite E, !app_length; lia).
    rewrite ET in L2. simpl in L2, LL.
    eapply runs_conseq; [apply (IH a2 r2 S2); lia|].
    cbv beta. intros a3 t3 x R. destruct x as [[]|e].
    + destruct R as [vs [u [-> [STX H]]]]. exists (v :: vs), ((w ++ w2) ++ t ++ u).
      split; [reflexivity|]. split.
      { apply st_cons; auto; [apply Forall_app; auto|exact I]. }
      rewrite <- SPL, E. destruct H as [[-> FN]|[r3 ->]].
      * left. split; [now rewrite <- app_assoc|exact FN].
      * right. exists r3. now rewrite <- !app_assoc.
    + destruct R as [[vs [suf E3]] SP]. split.
      { exists (v :: vs), suf. cbn [app].
        unfold stream in *; cbn [flat_map]. now rewrite <- app_assoc, E3. }
      rewrite <- SPL, E. apply (spelled_app [] w); [now apply spells_ws|].
      apply (spelled_app [] w2); [now apply spells_ws|].
      apply spelled_app; [now apply vsp|exact SP].
Qed.
End Fin.

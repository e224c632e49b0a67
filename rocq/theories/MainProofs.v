(** Proofs about the buffered output of jp. *)
From Coq Require Import List Arith ZArith NArith Bool Lia.
From Verif Require Import Base Tokens PrinterModel JsonEncModel JsonEncRel JpvEncModel MainModel.

Definition got (w : bufw) : bytes := dv_got (bw_dev w).
Definition all_of (w : bufw) : bytes := got w ++ bw_buf w.

(** Nothing is lost: the buffer and the device hold all that was written; or the
    device has failed and lacks something of [all]. *)
Definition holds (size : nat) (all : bytes) (w : bufw) : Prop :=
  bw_err w = false /\ all_of w = all /\ length (bw_buf w) <= size \/
  bw_err w = true /\ dv_room (bw_dev w) = Some 0 /\ exists rest, rest <> [] /\ all = got w ++ rest.

Definition roomy (w w' : bufw) : Prop := dv_room (bw_dev w) = None -> dv_room (bw_dev w') = None /\ bw_err w' = bw_err w.

Lemma dev_write_cases : forall d b d' n e, dev_write d b = (d', n, e) ->
  (e = false /\ n = length b /\ dv_got d' = dv_got d ++ b \/
   e = true /\ n < length b /\ dv_got d' = dv_got d ++ firstn n b /\ dv_room d' = Some 0) /\
  (dv_room d = None -> e = false /\ dv_room d' = None).
Proof.
  intros d b d' n e E. unfold dev_write in E. destruct (dv_room d) as [k|] eqn:R.
  - split; [|discriminate]. destruct (Nat.leb_spec (length b) k); injection E as <- <- <-; [left|right]; auto.
  - injection E as <- <- <-. split; [left; auto|auto].
Qed.

Lemma flush_holds : forall size w, bw_err w = false -> length (bw_buf w) <= size ->
  holds size (all_of w) (bw_flush w) /\ roomy w (bw_flush w) /\ (bw_err (bw_flush w) = false -> bw_buf (bw_flush w) = []).
Proof.
  intros size w E L. unfold bw_flush. rewrite E. destruct (bw_buf w) as [|b r] eqn:B.
  - split; [left; rewrite E, B; auto|]. split; [intro; auto|auto].
  - rewrite <- B in *. destruct (dev_write (bw_dev w) (bw_buf w)) as [[d n] e] eqn:D.
    destruct (dev_write_cases _ _ _ _ _ D) as [[[-> [-> G]]|[-> [N [G R]]]] NR]; cbn [bw_err bw_buf].
    + split; [left; unfold all_of, got; cbn [bw_err bw_buf bw_dev]; rewrite G, app_nil_r; repeat split; cbn; lia|].
      split; [|auto]. intros H. cbn [bw_dev bw_err]. split; [now apply NR|auto].
    + split; [|split; [|discriminate]].
      * right. cbn [bw_err bw_dev]. split; [reflexivity|]. split; [exact R|]. exists (skipn n (bw_buf w)). split.
        -- intro X. assert (LX : length (skipn n (bw_buf w)) = 0) by (rewrite X; reflexivity). rewrite skipn_length in LX. lia.
        -- unfold all_of, got. cbn [bw_dev]. rewrite G, <- app_assoc, firstn_skipn. reflexivity.
      * intro H. destruct (NR H) as [X _]. discriminate.
Qed.

Section Bufio.
Variable size : nat.
Hypothesis pos : 0 < size.

Lemma loop_err : forall f w p, bw_err w = true -> bw_write_loop size (S f) w p = Ok w.
Proof. intros f w p E. cbn [bw_write_loop]. rewrite E, andb_false_r. reflexivity. Qed.

Lemma loop_step : forall f w p, bw_err w = false -> bw_buf w <> [] ->
  bw_write_loop size (S f) w p =
  if size - length (bw_buf w) <? length p then
    bw_write_loop size f (bw_flush (mkBw (bw_buf w ++ firstn (size - length (bw_buf w)) p) false (bw_dev w)))
      (skipn (size - length (bw_buf w)) p)
  else Ok (mkBw (bw_buf w ++ p) false (bw_dev w)).
Proof.
  intros f w p E B. cbn [bw_write_loop]. rewrite E, andb_true_r.
  destruct (bw_buf w); [congruence|reflexivity].
Qed.

(** With an empty buffer one more turn is enough. *)
Lemma loop_empty : forall f w p, bw_err w = false -> bw_buf w = [] ->
  exists w', bw_write_loop size (S (S f)) w p = Ok w' /\ holds size (got w ++ p) w' /\ roomy w w'.
Proof.
  intros f w p E B. cbn [bw_write_loop]. rewrite E, B. cbn [length]. rewrite Nat.sub_0_r, andb_true_r.
  destruct (Nat.ltb_spec size (length p)) as [L|L].
  - destruct (dev_write (bw_dev w) p) as [[d n] e] eqn:D.
    destruct (dev_write_cases _ _ _ _ _ D) as [[[-> [-> G]]|[-> [N [G R]]]] NR].
    + cbn [bw_buf bw_err]. rewrite skipn_all. cbn [length]. rewrite Nat.sub_0_r, andb_true_r.
      destruct (Nat.ltb_spec size 0); [lia|]. eexists. split; [reflexivity|]. split.
      * left. unfold all_of, got. cbn [bw_err bw_buf bw_dev app length]. rewrite G, app_nil_r. repeat split; lia.
      * intro H1. cbn [bw_dev bw_err]. rewrite E. split; [now apply NR|reflexivity].
    + cbn [bw_buf bw_err]. rewrite andb_false_r. eexists. split; [reflexivity|]. split.
      * right. cbn [bw_err bw_dev]. split; [reflexivity|]. split; [exact R|]. exists (skipn n p). split.
        -- intro X. assert (LX : length (skipn n p) = 0) by (rewrite X; reflexivity). rewrite skipn_length in LX. lia.
        -- unfold got. cbn [bw_dev]. rewrite G, <- app_assoc, firstn_skipn. reflexivity.
      * intro H. destruct (NR H) as [X _]. discriminate.
  - eexists. split; [reflexivity|]. split.
    + left. unfold all_of, got. cbn [bw_err bw_buf bw_dev app]. repeat split. exact L.
    + intro H. cbn [bw_dev bw_err]. auto.
Qed.

Lemma write_holds : forall w p, bw_err w = false -> length (bw_buf w) <= size ->
  exists w', bw_write size w p = Ok w' /\ holds size (all_of w ++ p) w' /\ roomy w w'.
Proof.
  intros w p E L. unfold bw_write. destruct (bw_buf w) as [|b r] eqn:B.
  - destruct (loop_empty 1 w p E B) as [w' [R H]]. exists w'. split; [exact R|]. unfold all_of. rewrite B, app_nil_r. exact H.
  - assert (NB : bw_buf w <> []) by (rewrite B; discriminate). rewrite <- B in *. clear B b r.
    change 3 with (S 2). rewrite (loop_step 2 w p E NB).
    destruct (Nat.ltb_spec (size - length (bw_buf w)) (length p)) as [M|M].
    + set (n := size - length (bw_buf w)). set (w0 := mkBw (bw_buf w ++ firstn n p) false (bw_dev w)).
      assert (L0 : length (bw_buf w0) <= size) by (cbn [w0 bw_buf]; rewrite app_length, firstn_length; lia).
      destruct (flush_holds size w0 eq_refl L0) as [H [RM EM]].
      assert (AL : all_of w ++ p = all_of w0 ++ skipn n p).
      { unfold all_of, got. cbn [w0 bw_buf bw_dev]. rewrite <- !app_assoc, firstn_skipn. reflexivity. }
      destruct (bw_err (bw_flush w0)) eqn:EF.
      * change 2 with (S 1). rewrite (loop_err 1) by exact EF. eexists. split; [reflexivity|]. split.
        -- right. destruct H as [[X _]|[_ [R [rest [NN A]]]]]; [congruence|]. split; [exact EF|]. split; [exact R|].
           exists (rest ++ skipn n p). split; [destruct rest; [congruence|discriminate]|]. rewrite AL, A, <- app_assoc. reflexivity.
        -- intro Q. destruct (RM Q) as [X Y]. rewrite E. split; [exact X|]. exact Y.
      * destruct H as [[_ [A _]]|[X _]]; [|congruence]. specialize (EM eq_refl).
        destruct (loop_empty 0 (bw_flush w0) (skipn n p) EF EM) as [w' [R [H RR]]]. exists w'. split; [exact R|]. split.
        -- rewrite AL. unfold all_of in A at 1. rewrite EM, app_nil_r in A. rewrite <- A. exact H.
        -- intro Q. destruct (RM Q) as [X Y]. destruct (RR X) as [X' Y']. split; [exact X'|]. rewrite Y', EF, E. reflexivity.
    + eexists. split; [reflexivity|]. split.
      * left. unfold all_of, got. cbn [bw_err bw_buf bw_dev]. rewrite app_length, app_assoc. repeat split. lia.
      * intro Q. cbn [bw_dev bw_err]. auto.
Qed.

Lemma put_all_holds : forall ws w, bw_err w = false -> length (bw_buf w) <= size ->
  exists w' failed, put_all size w ws = Ok (w', failed) /\ bw_err w' = failed /\
    holds size (all_of w ++ written ws) w' /\ roomy w w'.
Proof.
  induction ws as [|o ws IH]; intros w E L; cbn [put_all].
  - exists w, false. split; [reflexivity|]. split; [exact E|]. split; [|intro; auto]. left. cbn [written]. rewrite app_nil_r. auto.
  - assert (H : exists w1, match o with WWrite b => bw_write size w b | WFlush => Ok (bw_flush w) end = Ok w1 /\
      holds size (all_of w ++ written [o]) w1 /\ roomy w w1).
    { destruct o as [b|]; cbn [written].
      - rewrite app_nil_r. apply write_holds; auto.
      - rewrite app_nil_r. destruct (flush_holds size w E L) as [H1 [H2 _]]. eauto. }
    destruct H as [w1 [-> [H RM]]]. cbn [bind].
    replace (all_of w ++ written (o :: ws)) with ((all_of w ++ written [o]) ++ written ws)
      by (rewrite <- app_assoc; f_equal; destruct o; cbn [written]; rewrite ?app_nil_r; reflexivity).
    destruct (bw_err w1) eqn:E1.
    + exists w1, true. split; [reflexivity|]. split; [exact E1|].
      destruct H as [[X _]|[_ [R [rest [NN A]]]]]; [congruence|]. split; [|exact RM].
      right. split; [exact E1|]. split; [exact R|]. exists (rest ++ written ws). split; [destruct rest; [congruence|discriminate]|].
      rewrite A, <- app_assoc. reflexivity.
    + destruct H as [[_ [A L1]]|[X _]]; [|congruence]. destruct (IH w1 E1 L1) as [w' [fl [P [F [H R']]]]].
      exists w', fl. split; [exact P|]. split; [exact F|]. rewrite <- A. split; [exact H|].
      intro Q. destruct (RM Q) as [X Y]. destruct (R' X) as [X' Y']. split; [exact X'|]. rewrite Y', E1, E. reflexivity.
Qed.

(** If the last operation is a flush, the buffer is empty. *)
Lemma put_all_flushed : forall ws w w', bw_err w = false -> length (bw_buf w) <= size ->
  put_all size w (ws ++ [WFlush]) = Ok (w', false) -> bw_buf w' = [].
Proof.
  induction ws as [|o ws IH]; intros w w' E L P; cbn [app put_all] in P.
  - cbn [bind] in P. destruct (flush_holds size w E L) as [_ [_ H]].
    destruct (bw_err (bw_flush w)) eqn:X; [discriminate|]. injection P as <-. now apply H.
  - assert (H : exists w1, match o with WWrite b => bw_write size w b | WFlush => Ok (bw_flush w) end = Ok w1 /\
      exists all, holds size all w1).
    { destruct o as [b|].
      - destruct (write_holds w b E L) as [w1 [H1 [H2 _]]]. eauto.
      - destruct (flush_holds size w E L) as [H1 _]. eauto. }
    destruct H as [w1 [H1 [all H]]]. rewrite H1 in P. cbn [bind] in P. destruct (bw_err w1) eqn:E1; [discriminate|].
    destruct H as [[_ [_ L1]]|[X _]]; [|congruence]. eauto.
Qed.
End Bufio.

(* ------------------------------------------------------------------ *)
(** The device holds what has gone into it, up to its capacity. *)
Definition fits (cap : option nat) (w : bufw) : Prop :=
  match cap, dv_room (bw_dev w) with
  | None, None => True
  | Some k, Some r => length (got w) + r = k
  | _, _ => False
  end.

Lemma dev_write_fits : forall cap w w' b d n e, fits cap w -> dev_write (bw_dev w) b = (d, n, e) ->
  bw_dev w' = d -> fits cap w'.
Proof.
  intros cap w w' b d n e F E W. unfold fits, got in *. rewrite W. unfold dev_write in E.
  destruct cap as [k|], (dv_room (bw_dev w)) as [r|]; try contradiction.
  - destruct (Nat.leb_spec (length b) r); injection E as <- <- <-; cbn [dv_room dv_got]; rewrite app_length, ?firstn_length; lia.
  - injection E as <- <- <-. exact I.
Qed.
Lemma flush_fits : forall cap w, fits cap w -> fits cap (bw_flush w).
Proof.
  intros cap w F. unfold bw_flush. destruct (bw_err w); [exact F|]. destruct (bw_buf w) as [|b r] eqn:B; [exact F|]. rewrite <- B.
  destruct (dev_write (bw_dev w) (bw_buf w)) as [[d n] e] eqn:D.
  destruct e; eapply dev_write_fits; eauto.
Qed.
Lemma loop_fits : forall size cap f w p w', fits cap w -> bw_write_loop size f w p = Ok w' -> fits cap w'.
Proof.
  induction f as [|f IH]; intros w p w' F E; [discriminate|]. cbn [bw_write_loop] in E. destruct (_ && _).
  - destruct (bw_buf w) as [|b r] eqn:B.
    + destruct (dev_write (bw_dev w) p) as [[d n] e] eqn:D. eapply IH; [|exact E]. eapply dev_write_fits; eauto.
    + eapply IH; [|exact E]. apply flush_fits. exact F.
  - destruct (bw_err w); injection E as <-; exact F.
Qed.
Lemma put_all_fits : forall size cap ws w w' fl, fits cap w -> put_all size w ws = Ok (w', fl) -> fits cap w'.
Proof.
  induction ws as [|o ws IH]; intros w w' fl F E; cbn [put_all] in E; [injection E as <- _; exact F|].
  destruct (match o with WWrite b => bw_write size w b | WFlush => Ok (bw_flush w) end) as [w1| |] eqn:E1; try discriminate.
  cbn [bind] in E. assert (F1 : fits cap w1).
  { destruct o; [eapply loop_fits; eauto|injection E1 as <-; now apply flush_fits]. }
  destruct (bw_err w1); [injection E as <- _; exact F1|eauto].
Qed.

Definition taken (cap : option nat) (out : bytes) : bytes := match cap with None => out | Some k => firstn k out end.

(** What has been delivered once the buffer is flushed, or the device has failed. *)
Lemma delivered : forall size cap out w, holds size out w -> fits cap w -> (bw_err w = false -> bw_buf w = []) ->
  got w = taken cap out /\ (bw_err w = true <-> exists k, cap = Some k /\ k < length out).
Proof.
  intros size cap out w H F B. destruct H as [[E [A L]]|[E [R [rest [NN A]]]]].
  - rewrite (B E) in *. unfold all_of in A. rewrite (B E), app_nil_r in A. subst out. unfold fits in F.
    destruct cap as [k|], (dv_room (bw_dev w)) as [r|]; try contradiction; cbn [taken].
    + split; [rewrite firstn_all2 by lia; reflexivity|]. split; [congruence|]. intros [k' [X Y]]. injection X as <-. lia.
    + split; [reflexivity|]. split; [congruence|]. intros [k' [X _]]. discriminate.
  - unfold fits in F. rewrite R in F. destruct cap as [k|]; [|contradiction]. rewrite Nat.add_0_r in F. subst out. cbn [taken].
    rewrite <- F, firstn_app, Nat.sub_diag, firstn_all, firstn_O, app_nil_r. split; [reflexivity|]. split; [|auto]. intros _.
    exists (length (got w)). rewrite app_length. destruct rest; [congruence|cbn [length]; split; [reflexivity|lia]].
Qed.

Lemma jp_end_spec : forall A size indent flusher epipe room cs (o : eout A), 0 < size -> o <> EFuel ->
  let out := written (printer_run indent flusher 0 cs) in
  exists oc, jp_end size indent flusher epipe room cs o = Ok oc /\
    oc_stdout oc = taken room out /\
    (oc_status oc = 0%Z \/ oc_status oc = 1%Z /\ epipe = false /\ exists k, room = Some k /\ k < length out) /\
    (epipe = false -> oc_status oc = 0%Z -> forall k, room = Some k -> length out <= k + size) /\
    ((exists ws, printer_run indent flusher 0 cs = ws ++ [WFlush]) -> epipe = false -> oc_status oc = 0%Z ->
       forall k, room = Some k -> length out <= k).
Proof.
  intros A size indent flusher epipe room cs o P NF out.
  unfold jp_end. assert (F0 : fits room (new_bufw room)) by (unfold fits, new_bufw, got; cbn; destruct room; cbn; auto).
  destruct (put_all_holds size P (printer_run indent flusher 0 cs) (new_bufw room) eq_refl ltac:(cbn; lia)) as [w [fl [E [F [H _]]]]].
  cbn [all_of got new_bufw bw_dev dv_got bw_buf app] in H. fold out in H. rewrite E. cbn [bind].
  pose proof (put_all_fits _ room _ _ _ _ F0 E) as FT.
  replace (match o with EDone _ _ | EPanic => _ | EFuel => OutOfFuel end) with
    (if fl && negb epipe then Ok (mkOutcome (dv_got (bw_dev w)) 1) else Ok (mkOutcome (dv_got (bw_dev (bw_flush w))) 0))
    by (destruct o; [reflexivity|reflexivity|congruence]).
  destruct fl.
  - assert (D : got w = taken room out /\ exists k, room = Some k /\ k < length out).
    { destruct (delivered size room out w H FT ltac:(congruence)) as [D1 D2]. split; [exact D1|]. apply D2. exact F. }
    destruct D as [D [k [RK LK]]]. replace (bw_flush w) with w by (unfold bw_flush; rewrite F; reflexivity).
    destruct epipe; cbn [andb negb]; eexists; (split; [reflexivity|]); cbn [oc_stdout oc_status].
    + split; [exact D|]. split; [left; reflexivity|]. split; discriminate.
    + split; [exact D|]. split; [right; eauto 6|]. split; [discriminate|]. intros _ _. discriminate.
  - cbn [andb]. eexists. split; [reflexivity|]. cbn [oc_stdout oc_status].
    destruct H as [[_ [AL L]]|[X _]]; [|congruence].
    destruct (flush_holds size w F L) as [H [_ B]]. rewrite AL in H.
    destruct (delivered size room out (bw_flush w) H (flush_fits _ _ FT) B) as [D1 D2].
    split; [exact D1|]. split; [left; reflexivity|].
    assert (G : forall k, room = Some k -> length (got w) <= k).
    { intros k ->. unfold fits in FT. destruct (dv_room (bw_dev w)); [lia|contradiction]. }
    split.
    + intros _ _ k RK. rewrite <- AL. unfold all_of. rewrite app_length. specialize (G k RK). lia.
    + intros [ws W] _ _ k RK. rewrite W in E. pose proof (put_all_flushed size P ws (new_bufw room) w eq_refl ltac:(cbn; lia) E) as BE.
      rewrite <- AL. unfold all_of. rewrite BE, app_nil_r. now apply G.
Qed.

(* ------------------------------------------------------------------ *)
(** The JPV encoder terminates, and more fuel does not change its calls. *)
Definition up {A} (m m' : enc A) : Prop := forall ts, snd (m ts) = EFuel \/ m' ts = m ts.
Lemma up_refl : forall A (m : enc A), up m m.
Proof. intros A m ts. now right. Qed.
Lemma up_fuel : forall A (m : enc A), up efuel m.
Proof. intros A m ts. now left. Qed.
Lemma up_bind : forall A B (m m' : enc A) (f f' : A -> enc B), up m m' -> (forall a, up (f a) (f' a)) -> up (ebnd m f) (ebnd m' f').
Proof.
  intros A B m m' f f' H K ts. unfold ebnd. destruct (H ts) as [E|E].
  - left. destruct (m ts) as [cs o]. cbn [snd] in E. subst o. reflexivity.
  - rewrite E. destruct (m ts) as [cs [a r| |]]; auto. destruct (K a r) as [X|X].
    + left. destruct (f a r). exact X.
    + right. rewrite X. reflexivity.
Qed.
Lemma up_write : forall col quote f g, f <= g ->
  (forall path v, up (jwrite_value col quote f path v) (jwrite_value col quote g path v)) /\
  (forall path c el, up (jobject_items col quote f path c el) (jobject_items col quote g path c el)) /\
  (forall path c el, up (jarray_items col quote f path c el) (jarray_items col quote g path c el)).
Proof.
  induction f as [|f IH]; intros [|g] L; try lia; [repeat split; intros; apply up_fuel..|].
  destruct (IH g ltac:(lia)) as [IV [IO IA]]. split; [|split].
  - intros path v. cbn [jwrite_value]. destruct v; [apply up_refl|apply IO|apply IA].
  - intros path c el. cbn [jobject_items]. apply up_bind; [apply up_refl|]. intros [[[k v]|] el1]; [|apply up_refl].
    apply up_bind; [apply IV|]. intros _. apply IO.
  - intros path c el. cbn [jarray_items]. apply up_bind; [apply up_refl|]. intros [[v|] el1]; [|apply up_refl].
    apply up_bind; [apply IV|]. intros _. apply IA.
Qed.
Lemma up_consume : forall col quote f g, f <= g -> up (jconsume_loop col quote f) (jconsume_loop col quote g).
Proof.
  induction f as [|f IH]; intros [|g] L; try lia; try apply up_fuel. cbn [jconsume_loop].
  apply up_bind; [apply up_refl|]. intros [t|]; [|apply up_refl]. apply up_bind; [apply up_refl|]. intros v.
  apply up_bind; [apply up_write; lia|]. intros _. apply up_bind; [apply up_refl|]. intros _. apply IH. lia.
Qed.

Lemma lands_succinct : forall col s ts, lands (print_succinct col s) ts (fun _ r => r = ts).
Proof.
  intros col s ts. unfold print_succinct. destruct (sc_alnum s); [|now apply lands_calls].
  destruct (sc_bytes s) as [|a [|b r]]; try (apply lands_bind, lands_calls; exact I). now apply lands_calls.
Qed.
Lemma lands_keys : forall col quote path ts, lands (write_keys col quote path) ts (fun _ r => r = ts).
Proof.
  induction path as [|k path IH]; intros ts; cbn [write_keys]; [now apply lands_ret|].
  apply lands_bind. destruct (_ && _).
  - apply lands_bind, lands_pb. eapply lands_conseq; [apply lands_succinct|]. intros ? ? ->. apply IH.
  - ld. apply IH.
Qed.
Lemma lands_path : forall col quote path ts, lands (write_path col quote path) ts (fun _ r => r = ts).
Proof.
  intros. unfold write_path. ld. eapply lands_conseq; [apply lands_keys|]. intros ? ? ->. now apply lands_pb.
Qed.
Lemma lands_end : forall col quote path e el b0 b1 ts,
  lands (write_collection_end col quote path e el b0 b1) ts (fun _ r => r = ts).
Proof.
  intros. unfold write_collection_end. ld; auto; (eapply lands_conseq; [apply lands_path|]); intros ? ? ->; ld; reflexivity.
Qed.
Lemma lands_jwrite : forall col quote f,
  (forall path v ts, 2 * length ts + 2 <= f -> lands (jwrite_value col quote f path v) ts (fun _ r => length r <= length ts)) /\
  (forall path c el ts, 2 * length ts + 1 <= f -> lands (jobject_items col quote f path c el) ts (fun _ r => length r <= length ts)) /\
  (forall path c el ts, 2 * length ts + 1 <= f -> lands (jarray_items col quote f path c el) ts (fun _ r => length r <= length ts)).
Proof.
  induction f as [|f [IV [IO IA]]]; [repeat split; intros; lia|]. split; [|split].
  - intros path v ts L. cbn [jwrite_value]. destruct v; [|apply IO; lia|apply IA; lia].
    ld. eapply lands_conseq; [apply lands_path|]. intros ? ? ->. ld. lia.
  - intros path c el ts L. cbn [jobject_items]. ld. eapply lands_conseq; [apply lands_obj_advance|].
    intros [[[k v]|] el1] r H; cbn [fst] in H; ld.
    + use IV. use IO. lia.
    + eapply lands_conseq; [apply lands_end|]. intros ? ? ->. lia.
  - intros path c el ts L. cbn [jarray_items]. ld. eapply lands_conseq; [apply lands_arr_advance|].
    intros [[v|] el1] r H; cbv beta in H; ld.
    + use IV. use IA. lia.
    + eapply lands_conseq; [apply lands_end|]. intros ? ? ->. lia.
Qed.
Lemma lands_jconsume : forall col quote f ts, 2 * length ts + 2 <= f -> lands (jconsume_loop col quote f) ts (fun _ _ => True).
Proof.
  induction f as [|f IH]; intros ts L; [lia|]. cbn [jconsume_loop]. apply lands_bind.
  destruct ts as [|t ts]; [unfold lands; simpl; exact I|].
  unfold lands at 1; cbn [enext snd]. cbn [length] in L.
  apply lands_bind. eapply lands_conseq; [apply lands_next_value|]. intros v r ->.
  apply lands_bind. destruct (lands_jwrite col quote f) as [IV _]. use IV. ld. apply IH. lia.
Qed.

(** The calls of either encoder. *)
Lemma encode_calls_stable : forall o ts, exists cs e, e <> EFuel /\
  forall fuel, 2 * length ts + 2 <= fuel -> encode_calls fuel o ts = (cs, e).
Proof.
  intros o ts. unfold encode_calls. destruct (jo_jpv o).
  - pose proof (lands_jconsume (jo_color o) (jo_quote o) _ ts (le_n _)) as K. unfold lands in K.
    destruct (jconsume_loop (jo_color o) (jo_quote o) (2 * length ts + 2) ts) as [cs e] eqn:R. cbn [snd] in K.
    exists cs, e. split; [destruct e; [discriminate|discriminate|contradiction]|]. intros f L.
    destruct (up_consume (jo_color o) (jo_quote o) _ f L ts) as [E|E]; rewrite R in E; [cbn [snd] in E; subst e; contradiction|exact E].
  - pose proof (lands_consume (jo_color o) (jo_width o) 2 _ ts (le_n _)) as K. unfold lands in K.
    destruct (consume_loop (jo_color o) (jo_width o) 2 (2 * length ts + 2) ts) as [cs e] eqn:R. cbn [snd] in K.
    exists cs, e. assert (NE : e <> EFuel) by (destruct e; [discriminate|discriminate|contradiction]).
    split; [exact NE|]. intros f L. rewrite (consume_mono _ _ _ (2 * length ts + 2) f ts L); [exact R|]. rewrite R. exact NE.
Qed.

(** A run that ends well ends with the reset of the printer. *)
Lemma done_bind : forall A B (m : enc A) (k : A -> enc B) ts cs b r, ebnd m k ts = (cs, EDone b r) ->
  exists c1 a r1 c2, m ts = (c1, EDone a r1) /\ k a r1 = (c2, EDone b r) /\ cs = c1 ++ c2.
Proof.
  intros A B m k ts cs b r E. unfold ebnd in E. destruct (m ts) as [c1 [a r1| |]]; try discriminate.
  destruct (k a r1) as [c2 o] eqn:K. injection E as <- ->. exists c1, a, r1, c2. rewrite K. auto.
Qed.
Lemma reset_tail : forall A (loop : enc unit) (m : enc A) ts cs r,
  (forall ts cs r, loop ts = (cs, EDone tt r) -> cs = [] \/ exists c, cs = c ++ [PReset]) ->
  ebnd m (fun _ => ebnd (ecalls [PReset]) (fun _ => loop)) ts = (cs, EDone tt r) -> exists c, cs = c ++ [PReset].
Proof.
  intros A loop m ts cs r IH E. apply done_bind in E as (c1 & a & r1 & c2 & _ & E & ->).
  apply done_bind in E as (c3 & [] & r3 & c4 & E3 & E & ->). injection E3 as <- _.
  destruct (IH _ _ _ E) as [->|[c ->]].
  - exists c1. reflexivity.
  - exists (c1 ++ [PReset] ++ c). rewrite <- !app_assoc. reflexivity.
Qed.
Lemma calls_end : forall o fuel ts cs r, encode_calls fuel o ts = (cs, EDone tt r) -> cs = [] \/ exists c, cs = c ++ [PReset].
Proof.
  intros o. unfold encode_calls. destruct (jo_jpv o).
  - induction fuel as [|f IH]; intros ts cs r E; [discriminate|]. cbn [jconsume_loop] in E.
    apply done_bind in E as (c1 & a & r1 & c2 & E1 & E & ->).
    assert (c1 = []) by (destruct ts; injection E1; auto). subst c1. destruct a as [t|]; [|injection E as <- _; now left].
    apply done_bind in E as (c3 & v & r3 & c4 & _ & E & ->). right.
    destruct (reset_tail _ _ _ _ _ _ IH E) as [c ->]. exists (c3 ++ c). cbn [app]. apply app_assoc.
  - induction fuel as [|f IH]; intros ts cs r E; [discriminate|]. cbn [consume_loop] in E.
    apply done_bind in E as (c1 & a & r1 & c2 & E1 & E & ->).
    assert (c1 = []) by (destruct ts; injection E1; auto). subst c1. destruct a as [t|]; [|injection E as <- _; now left].
    apply done_bind in E as (c3 & v & r3 & c4 & _ & E & ->). right.
    destruct (reset_tail _ _ _ _ _ _ IH E) as [c ->]. exists (c3 ++ c). cbn [app]. apply app_assoc.
Qed.
Lemma run_reset : forall indent cs lvl, exists ws, printer_run indent true lvl (cs ++ [PReset]) = ws ++ [WFlush].
Proof.
  induction cs as [|c cs IH]; intros lvl; cbn [app printer_run].
  - exists [WWrite [10%N]]. reflexivity.
  - destruct (printer_call indent true lvl c) as [w l]. destruct (IH l) as [ws ->]. exists (w ++ ws). apply app_assoc.
Qed.

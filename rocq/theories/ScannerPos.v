(** Positions and recorded tokens of the plain scanner. *)
From Coq Require Import List Arith NArith Bool Lia.
From Verif Require Import Base ScannerModel ScannerSpec ScannerProofs.

Lemma after_last_newline_snoc : forall l b,
  after_last_newline (l ++ [b]) = if N.eqb b 10 then [] else after_last_newline l ++ [b].
Proof.
  induction l as [|x l IH]; intro b; simpl.
  - destruct (N.eqb b 10); reflexivity.
  - rewrite existsb_app. cbn [existsb]. rewrite orb_false_r, IH. rewrite (N.eqb_sym 10 b).
    destruct (N.eqb b 10); simpl.
    + rewrite orb_true_r. reflexivity.
    + rewrite orb_false_r. destruct (existsb (N.eqb 10) l); [reflexivity|].
      destruct (N.eqb x 10); reflexivity.
Qed.

Lemma count_app : forall f l r, count f (l ++ r) = count f l + count f r.
Proof. intros. unfold count. rewrite filter_app, app_length. reflexivity. Qed.

Lemma count_cons : forall f b l, count f (b :: l) = (if f b then 1 else 0) + count f l.
Proof. intros. unfold count; simpl. destruct (f b); reflexivity. Qed.

Lemma pos_of_snoc : forall l b, pos_of (l ++ [b]) = bump_pos (pos_of l) b.
Proof.
  intros l b. unfold pos_of, bump_pos. rewrite after_last_newline_snoc, count_app, count_cons.
  rewrite (N.eqb_sym 10 b). change (count (N.eqb 10) []) with 0.
  destruct (N.eqb_spec b 10) as [->|H]; cbn [line col].
  - f_equal. lia.
  - rewrite !Nat.add_0_r. rewrite count_app, count_cons.
    change (count (fun b => N.ltb b 192) []) with 0.
    destruct (N.ltb b 192); f_equal; lia.
Qed.

Lemma pos_of_app : forall r l, fold_left bump_pos r (pos_of l) = pos_of (l ++ r).
Proof.
  induction r as [|b r IH]; intro l; simpl; [now rewrite app_nil_r|].
  rewrite <- pos_of_snoc, IH, <- app_assoc. reflexivity.
Qed.

Record pinv (all : bytes) (rd : bool) (a : ast) (done : bytes) : Prop := mkPinv {
  pi_all : all = done ++ a_in a;
  pi_pos : a_pos a = pos_of done;
  pi_last : forall b, a_last a = Some b -> exists d, done = d ++ [b] /\
              (rd = true -> a_eof a = 0 -> forall pr, a_prev a = Some pr -> pr = pos_of d)
}.

Lemma a_skip_pinv : forall all rd a d, pinv all rd a d ->
  pinv all rd (a_skip a) (d ++ firstn (ws_len (a_in a)) (a_in a)).
Proof.
  intros all rd a d [P1 P2 P3]. unfold a_skip. constructor; simpl.
  - rewrite <- app_assoc, firstn_skipn. exact P1.
  - rewrite P2. apply pos_of_app.
  - intros b Hb. destruct (firstn (ws_len (a_in a)) (a_in a)); [|discriminate].
    rewrite app_nil_r. now apply P3.
Qed.

Lemma pinv_weaken : forall all rd a d, pinv all rd a d -> pinv all false a d.
Proof.
  intros all rd a d [P1 P2 P3]. constructor; auto. intros b Hb.
  destruct (P3 b Hb) as [d' [D _]]. exists d'. split; auto. discriminate.
Qed.

Lemma pinv_weaken_any : forall all rd rd' a d, pinv all rd a d ->
  (rd' = true -> rd = true) -> pinv all rd' a d.
Proof.
  intros all rd rd' a d [P1 P2 P3] W. constructor; auto. intros b Hb.
  destruct (P3 b Hb) as [d' [D E]]. exists d'. split; auto.
Qed.

Lemma step_pinv : forall all rd a d o a' x, pinv all rd a d -> astep a o = Ok (a', x) ->
  (o = SBack -> rd = true) ->
  exists d', pinv all (rd_after rd o x) a' d' /\ (forall p, x = OPos p -> p = pos_of d').
Proof.
  intros all rd a d o a' x P H B.
  destruct o; cbn [astep] in H.
  - destruct P as [P1 P2 P3]. destruct (a_in a) as [|b r] eqn:E.
    + destruct (a_fin a); injection H as <- <-.
      * exists d. split; [|discriminate]. constructor; simpl; auto.
        intros b Hb. destruct (P3 b Hb) as [d' [D _]]. exists d'. split; auto. discriminate.
      * exists d. split; [|discriminate]. constructor; simpl; auto; [now rewrite E|].
        intros b Hb. destruct (P3 b Hb) as [d' [D D2]]. exists d'. split; auto. discriminate.
    + injection H as <- <-. exists (d ++ [b]). split; [|discriminate].
      constructor; simpl.
      * now rewrite <- app_assoc.
      * now rewrite P2, pos_of_snoc.
      * intros b' Hb. injection Hb as <-. exists d. split; auto. intros _ _ pr Hp.
        injection Hp as <-. exact P2.
  - destruct (a_in a); injection H as <- <-; exists d; split; auto;
      try discriminate. unfold a_end_obs. destruct (a_fin a); discriminate.
  - pose proof (a_skip_pinv _ _ _ _ P) as PS.
    destruct (a_in (a_skip a)) as [|b r] eqn:E; injection H as <- <-; eexists; (split; [exact PS|]);
      try discriminate. unfold a_end_obs. destruct (a_fin _); discriminate.
  - pose proof (a_skip_pinv _ _ _ _ P) as PS.
    set (d1 := d ++ _) in PS. clearbody d1. generalize dependent (a_skip a). intros s1 H PS.
    destruct (a_in s1) as [|b r] eqn:E; injection H as <- <-.
    + exists d1. split; [eapply pinv_weaken; eauto|]. unfold a_end_obs. destruct (a_fin _); discriminate.
    + exists (d1 ++ [b]). split; [|discriminate]. destruct PS as [Q1 Q2 Q3].
      constructor; cbn [a_in a_pos a_last].
      * rewrite <- app_assoc. simpl. now rewrite <- E.
      * now rewrite Q2, pos_of_snoc.
      * intros b' Hb. injection Hb as <-. exists d1. split; auto. discriminate.
  - destruct P as [P1 P2 P3].
    destruct (a_last a) as [b|] eqn:L; [|discriminate].
    destruct (a_prev a) as [pr|] eqn:PR; [|discriminate].
    specialize (B eq_refl). subst rd. destruct (P3 b eq_refl) as [d' [D E]].
    destruct (a_eof a) as [|e] eqn:EO; injection H as <- <-.
    + exists d'. split; [|discriminate]. constructor; simpl.
      * rewrite P1, D, <- app_assoc. reflexivity.
      * apply E; auto.
      * discriminate.
    + exists d. split; [|discriminate]. constructor; simpl; auto.
      intros b0 Hb0. injection Hb0 as <-. exists d'. split; auto. discriminate.
  - destruct (a_tok a); [discriminate|]. injection H as <- <-. exists d. destruct P as [P1 P2 P3].
    split; [constructor; simpl; auto; discriminate|]. intros p Hp. injection Hp as <-. exact P2.
  - destruct (a_tok a); [|discriminate]. injection H as <- <-. exists d. destruct P as [P1 P2 P3].
    split; [constructor; simpl; auto|]. discriminate.
  - injection H as <- <-. exists d. split; [exact P|]. intros p Hp. injection Hp as <-. apply P.
Qed.

Lemma run_pinv : forall ops all rd a d a' xs, pinv all rd a d -> arun a ops = Ok (a', xs) ->
  backs_follow_reads rd ops xs = true ->
  exists rd' d', pinv all rd' a' d'.
Proof.
  induction ops as [|o ops IH]; simpl; intros all rd a d a' xs P H B.
  - injection H as <- <-. eauto.
  - destruct (astep a o) as [[a1 x]| |] eqn:E; simpl in H; try discriminate.
    destruct (arun a1 ops) as [[a2 ys]| |] eqn:R; simpl in H; try discriminate.
    injection H as <- <-. simpl in B. apply andb_prop in B. destruct B as [B1 B2].
    destruct (step_pinv _ _ _ _ _ _ _ P E) as [d1 [P1 _]]; [intros ->; exact B1|].
    eapply IH; eauto.
Qed.

Lemma init_pinv : forall all fin, pinv all false (a_init all fin) [].
Proof. intros. constructor; simpl; auto. discriminate. Qed.

(** Columns count characters when all of them have at most two bytes. *)
Lemma narrow_count : forall l, narrow_text l ->
  count (fun b => N.ltb b 192) l = utf8_chars l.
Proof.
  induction 1 as [|b l H N IH|b c l H1 H2 N IH]; [reflexivity| |].
  - unfold utf8_chars in *. rewrite !count_cons, IH.
    destruct (N.ltb_spec b 192); [|lia]. destruct (N.leb_spec 128 b); [lia|]. reflexivity.
  - unfold utf8_chars in *. rewrite !count_cons, IH.
    destruct (N.ltb_spec b 192); [lia|]. destruct (N.ltb_spec c 192); [|lia].
    destruct (N.leb_spec 128 b); [|lia]. destruct (N.leb_spec 128 c); [|lia]. reflexivity.
Qed.

Lemma narrow_after_newline : forall l, narrow_text l -> narrow_text (after_last_newline l).
Proof.
  induction 1 as [|b l H N IH|b c l H1 H2 N IH]; [constructor| |].
  - simpl. destruct (existsb (N.eqb 10) l); [exact IH|].
    destruct (N.eqb b 10); [exact N|]. now constructor.
  - cbn [after_last_newline existsb]. destruct (N.eqb_spec 10 c) as [Hc|Hc]; [lia|].
    destruct (N.eqb_spec c 10) as [Hc'|Hc']; [lia|]. cbn [orb].
    destruct (existsb (N.eqb 10) l) eqn:E; [exact IH|].
    destruct (N.eqb_spec b 10) as [Hb|Hb]; [lia|]. now constructor.
Qed.

(** Recorded tokens. *)
Definition tinv (all : bytes) (a : ast) : Prop :=
  exists t, a_tok a = Some t /\ all = t ++ a_in a /\
    (forall b, a_last a = Some b -> exists t', t = t' ++ [b]).

Definition no_token_op (o : sop) : bool :=
  match o with SStart | SEnd => false | _ => true end.

Lemma a_skip_tinv : forall all a, tinv all a -> tinv all (a_skip a).
Proof.
  intros all a [t [T1 [T2 T3]]]. unfold tinv, a_skip; simpl. rewrite T1. simpl.
  eexists. split; [reflexivity|]. split.
  - rewrite <- app_assoc, firstn_skipn. exact T2.
  - intros b Hb. destruct (firstn (ws_len (a_in a)) (a_in a)); [|discriminate].
    rewrite app_nil_r. auto.
Qed.

Lemma step_tinv : forall all a o a' x, tinv all a -> no_token_op o = true ->
  astep a o = Ok (a', x) -> tinv all a'.
Proof.
  intros all a o a' x T K H. pose proof (a_skip_tinv _ _ T) as TS.
  destruct o; cbn [astep] in H; try discriminate.
  - destruct T as [t [T1 [T2 T3]]]. destruct (a_in a) as [|b r] eqn:E.
    + destruct (a_fin a); injection H as <- <-; exists t; simpl; auto. rewrite E. auto.
    + injection H as <- <-. exists (t ++ [b]). simpl. rewrite T1. simpl.
      rewrite <- app_assoc. repeat split; auto. intros b' Hb. injection Hb as <-. eauto.
  - destruct (a_in a); injection H as <- <-; exact T.
  - destruct (a_in (a_skip a)); injection H as <- <-; exact TS.
  - generalize dependent (a_skip a). intros s1 H TS.
    destruct (a_in s1) as [|b r] eqn:E; injection H as <- <-; [exact TS|].
    destruct TS as [t [T1 [T2 T3]]]. exists (t ++ [b]). cbn [a_in a_tok a_last]. rewrite T1. simpl.
    rewrite <- app_assoc. simpl. rewrite <- E. repeat split; auto. intros b' Hb. injection Hb as <-. eauto.
  - destruct T as [t [T1 [T2 T3]]].
    destruct (a_last a) as [b|] eqn:L; [|discriminate].
    destruct (a_prev a) as [pr|] eqn:PR; [|discriminate].
    destruct (T3 b eq_refl) as [t' E].
    destruct (a_eof a) as [|e] eqn:EO; injection H as <- <-.
    + exists t'. simpl. rewrite T1, E, removelast_last. repeat split.
      * rewrite T2, E, <- app_assoc. reflexivity.
      * discriminate.
    + exists t. simpl. auto.
  - injection H as <- <-. exact T.
Qed.

Lemma run_tinv : forall ops all a a' xs, tinv all a -> forallb no_token_op ops = true ->
  arun a ops = Ok (a', xs) -> tinv all a'.
Proof.
  induction ops as [|o ops IH]; simpl; intros all a a' xs T K H.
  - injection H as <- <-. exact T.
  - apply andb_prop in K. destruct K as [K1 K2].
    destruct (astep a o) as [[a1 x]| |] eqn:E; simpl in H; try discriminate.
    destruct (arun a1 ops) as [[a2 ys]| |] eqn:R; simpl in H; try discriminate.
    injection H as <- <-. eapply (IH all a1); eauto. eapply step_tinv; eauto.
Qed.

Lemma arun_app : forall o1 o2 a a1 x1,
  arun a o1 = Ok (a1, x1) ->
  arun a (o1 ++ o2) = bind (arun a1 o2) (fun y => Ok (fst y, x1 ++ snd y)).
Proof.
  induction o1 as [|o o1 IH]; simpl; intros o2 a a1 x1 H.
  - injection H as <- <-. destruct (arun a o2) as [[? ?]| |]; reflexivity.
  - destruct (astep a o) as [[a2 x]| |]; simpl in *; try discriminate.
    destruct (arun a2 o1) as [[a3 ys]| |] eqn:R; simpl in H; try discriminate.
    injection H as <- <-. rewrite (IH o2 _ _ _ R).
    destruct (arun a3 o2) as [[? ?]| |]; reflexivity.
Qed.

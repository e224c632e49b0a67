(** The text that the JPV encoder writes, with colours and elisions. *)
From Coq Require Import List Arith ZArith NArith Bool Lia.
From Verif Require Import Base Tokens JsonSpec EncSpec PrinterModel JsonEncModel JsonEncProofs
  ScalarSpec JpvEncModel JpvSpec JpvEncProofs JpvLayoutSpec.

Section Lines.
Variable col : option colorizer.
Variable quote : bool.

Lemma colour_same : forall co s, scalar_color co s = colour co s.
Proof. reflexivity. Qed.

Definition step_of (k : scalar) : bytes :=
  if sc_alnum k && negb quote then 46%N :: in_colour col k (contents (sc_bytes k))
  else 91%N :: in_colour col k (sc_bytes k) ++ [93%N].
Definition idx (i : N) : scalar := new_key TNum (itoa i).

Definition own_texts (pt l r : bytes) (empty e : bool) : list bytes :=
  map (fun p : pline => 36%N :: pt ++ sep ++ snd p) (own_line l r empty e).

Definition nilb {A} (l : list A) : bool := match l with [] => true | _ => false end.

Fixpoint plines (pt : bytes) (v : jval) : list bytes :=
  match v with
  | JScalar s => [36%N :: pt ++ sep ++ in_colour col s (sc_bytes s)]
  | JArr l e =>
      imap (fun i x => plines (pt ++ step_of (idx i)) x) 0%N l ++ own_texts pt [91%N] [93%N] (nilb l) e
  | JObj l e =>
      flat_map (fun m => plines (pt ++ step_of (fst m)) (snd m)) l ++ own_texts pt [123%N] [125%N] (nilb l) e
  end.

Definition prel (pt : bytes) (l : pline) (t : bytes) : Prop :=
  exists p, ppath_text col quote (fst l) p /\ t = 36%N :: (pt ++ p) ++ sep ++ snd l.

Lemma prel_under : forall pt s st ls ts, pstep_text col quote s st ->
  Forall2 (prel (pt ++ st)) ls ts -> Forall2 (prel pt) (map (under s) ls) ts.
Proof.
  intros pt s st ls ts ST F. induction F as [|l t ls ts [p [P ->]] F IH]; cbn [map]; constructor; auto.
  exists (st ++ p). split; [constructor; auto|]. now rewrite <- !app_assoc.
Qed.

Lemma member_text : forall k, pstep_text col quote (PMember k) (step_of k).
Proof.
  intros k. unfold step_of. destruct (sc_alnum k) eqn:A; destruct quote eqn:Q; cbn [andb negb];
    try (apply pt_quoted; rewrite ?A, ?Q; auto). apply pt_name; auto.
Qed.
Lemma item_text : forall i, pstep_text col quote (PItem i) (step_of (idx i)).
Proof.
  intros i. unfold step_of, idx. cbn [new_key sc_alnum andb sc_bytes].
  destruct (itoa_ok i). apply pt_item; auto.
Qed.

Lemma own_ok : forall pt l r empty e, Forall2 (prel pt) (own_line l r empty e) (own_texts pt l r empty e).
Proof.
  intros pt l r empty e. unfold own_texts, own_line.
  destruct empty, e; cbn [map snd]; constructor; try constructor;
    exists []; (split; [constructor|]); now rewrite app_nil_r.
Qed.

Lemma plines_ok : forall v pt, Forall2 (prel pt) (value_lines col v) (plines pt v).
Proof.
  apply (jval_induction (fun v => forall pt, Forall2 (prel pt) (value_lines col v) (plines pt v))).
  - intros s pt. cbn [value_lines plines]. constructor; [|constructor].
    exists []. rewrite app_nil_r. split; [constructor|reflexivity].
  - intros l e IH pt. cbn [value_lines plines]. apply Forall2_app; [|apply own_ok].
    generalize 0%N. induction IH as [|x l X IH IHl]; intros n; cbn [imap]; [constructor|].
    apply Forall2_app; [|apply IHl]. eapply prel_under; [apply item_text|]. apply X.
  - intros l e IH pt. cbn [value_lines plines]. apply Forall2_app; [|apply own_ok].
    induction IH as [|x l X IH IHl]; cbn [flat_map]; [constructor|].
    apply Forall2_app; [|apply IHl]. eapply prel_under; [apply member_text|]. apply X.
Qed.
End Lines.

Section Run.
Variable size : Z.
Variable flusher : bool.
Variable col : option colorizer.
Variable quote : bool.
Notation txt := (text size flusher).
Notation lev := (level size flusher).
Notation step_of := (step_of col quote).
Notation printable := (printable quote).
Notation plines := (plines col quote).

Lemma scalar_run : forall s, exists cs,
  (forall ts, ecalls (print_scalar col s) ts = (cs, EDone tt ts)) /\
  forall lvl, txt lvl cs = in_colour col s (sc_bytes s) /\ lev lvl cs = lvl.
Proof.
  intros s. exists (print_scalar col s). split; [reflexivity|]. intros lvl.
  unfold print_scalar, in_colour. destruct col; tx; split; reflexivity.
Qed.

Lemma succinct_run : forall k a b r, sc_alnum k = true -> sc_bytes k = a :: b :: r -> exists cs,
  (forall ts, print_succinct col k ts = (cs, EDone tt ts)) /\
  forall lvl, txt lvl cs = in_colour col k (contents (sc_bytes k)) /\ lev lvl cs = lvl.
Proof.
  intros k a b r AL E. unfold print_succinct. rewrite AL, E. unfold contents. cbn [tl].
  eexists. split; [reflexivity|]. intros lvl. unfold in_colour.
  destruct col; tx; split; reflexivity.
Qed.

Lemma keys_run : forall path, Forall printable path -> exists cs,
  (forall ts, write_keys col quote path ts = (cs, EDone tt ts)) /\
  forall lvl, txt lvl cs = flat_map step_of path /\ lev lvl cs = lvl.
Proof.
  induction path as [|k path IH]; intros F.
  - exists []. split; [reflexivity|]. intros lvl. split; reflexivity.
  - inversion F as [|? ? P F']; subst. destruct (IH F') as [cs [R T]].
    destruct (sc_alnum k && negb quote) eqn:AL.
    + destruct (P AL) as [a [b [r E]]]. assert (A : sc_alnum k = true) by (now apply andb_prop in AL).
      destruct (succinct_run k a b r A E) as [c1 [R1 T1]].
      exists (([PBytes [46%N]] ++ c1) ++ cs). split.
      * intros ts. cbn [write_keys]. rewrite AL. eapply ebnd_done; [|apply R].
        eapply ebnd_done; [|apply R1]. reflexivity.
      * intros lvl. destruct (T lvl) as [T2 T3]. destruct (T1 lvl) as [T4 T5].
        rewrite !text_app, !level_app. cbn [level printer_call snd].
        rewrite !T5, T3, T4, T2. split; [|reflexivity].
        rewrite text_bytes, text_nil. cbn [flat_map]. unfold JpvLayout.step_of at 2. rewrite AL. reflexivity.
    + destruct (scalar_run k) as [c1 [R1 T1]].
      exists (([PBytes [91%N]] ++ c1 ++ [PBytes [93%N]]) ++ cs). split.
      * intros ts. cbn [write_keys]. rewrite AL. eapply ebnd_done; [|apply R].
        eapply ebnd_done; [reflexivity|]. eapply ebnd_done; [apply R1|]. reflexivity.
      * intros lvl. destruct (T lvl) as [T2 T3]. destruct (T1 lvl) as [T4 T5].
        rewrite !text_app, !level_app. cbn [level printer_call snd].
        rewrite !T5, T4. cbn [level printer_call snd]. rewrite T2, T3. split; [|reflexivity].
        rewrite !text_bytes, !text_nil. cbn [flat_map]. unfold JpvLayout.step_of at 2. rewrite AL.
        cbn [app]. rewrite <- !app_assoc. reflexivity.
Qed.

Lemma path_run : forall path, Forall printable path -> exists cs,
  (forall ts, write_path col quote path ts = (cs, EDone tt ts)) /\
  forall lvl, txt lvl cs = 36%N :: flat_map step_of path ++ sep /\ lev lvl cs = lvl.
Proof.
  intros path F. destruct (keys_run path F) as [cs [R T]].
  exists ([PBytes [36%N]] ++ cs ++ [PBytes sep]). split.
  - intros ts. unfold write_path. eapply ebnd_eq; [reflexivity| |reflexivity].
    eapply ebnd_done; [apply R|]. reflexivity.
  - intros lvl. destruct (T lvl) as [T1 T2].
    rewrite !text_app, !level_app. cbn [level printer_call snd]. rewrite T1, T2. split; [|reflexivity].
    rewrite !text_bytes, !text_nil, app_nil_r. reflexivity.
Qed.

Lemma leaf_run : forall path (m : enc unit) c x, Forall printable path ->
  (forall ts, m ts = (c, EDone tt ts)) -> (forall lvl, txt lvl c = x /\ lev lvl c = lvl) -> exists cs,
  (forall ts, ebnd (write_path col quote path) (fun _ => ebnd m (fun _ => ecalls [PNewLine])) ts
     = (cs, EDone tt ts)) /\
  forall lvl, txt lvl cs = (36%N :: flat_map step_of path ++ sep ++ x) ++ nl size flusher lvl /\
    lev lvl cs = lvl.
Proof.
  intros path m c x F M X. destruct (path_run path F) as [cs [R T]].
  exists (cs ++ c ++ [PNewLine]). split.
  - intros ts. eapply ebnd_done; [apply R|]. eapply ebnd_done; [apply M|]. reflexivity.
  - intros lvl. destruct (T lvl) as [T1 T2]. destruct (X lvl) as [X1 X2].
    rewrite !text_app, !level_app, T1, T2, X1, X2. split; [|reflexivity].
    rewrite text_newline, text_nil, app_nil_r. cbn [app]. rewrite <- !app_assoc. reflexivity.
Qed.

Lemma pb_run : forall b, (forall ts, pb b ts = ([PBytes b], EDone tt ts)) /\
  forall lvl, txt lvl [PBytes b] = b /\ lev lvl [PBytes b] = lvl.
Proof. intros b. split; [reflexivity|]. intros lvl. tx. split; reflexivity. Qed.

Lemma own_run : forall path empty e l r el0 el1, Forall printable path ->
  el0 = l ++ r -> el1 = l ++ [46; 46; 46]%N ++ r -> exists cs,
  (forall ts, write_collection_end col quote path empty e el0 el1 ts = (cs, EDone tt ts)) /\
  forall lvl, txt lvl cs = lines_text size flusher lvl (own_texts (flat_map step_of path) l r empty e) /\
    lev lvl cs = lvl.
Proof.
  intros path empty e l r el0 el1 P E0 E1. unfold write_collection_end, own_texts, own_line.
  destruct empty, e; cbn [orb negb map snd].
  - destruct (pb_run el1) as [R T]. destruct (leaf_run path _ _ _ P R T) as [cs [RC TC]].
    exists cs. split; [exact RC|]. intros lvl. destruct (TC lvl) as [T1 T2]. split; [|exact T2].
    rewrite T1, E1. unfold lines_text. cbn [flat_map]. now rewrite app_nil_r.
  - destruct (pb_run el0) as [R T]. destruct (leaf_run path _ _ _ P R T) as [cs [RC TC]].
    exists cs. split; [exact RC|]. intros lvl. destruct (TC lvl) as [T1 T2]. split; [|exact T2].
    rewrite T1, E0. unfold lines_text. cbn [flat_map]. now rewrite app_nil_r.
  - destruct (pb_run elision_bytes) as [R T]. destruct (leaf_run path _ _ _ P R T) as [cs [RC TC]].
    exists cs. split; [exact RC|]. intros lvl. destruct (TC lvl) as [T1 T2]. split; [|exact T2].
    rewrite T1. unfold lines_text. cbn [flat_map]. now rewrite app_nil_r.
  - exists []. split; [reflexivity|]. intros lvl. split; reflexivity.
Qed.

Definition pwrites (v : jval) : Prop := forall path, Forall printable path -> exists n cs,
  (forall f rest, (n <= f)%nat ->
     jwrite_value col quote f path (ev v) (body v ++ rest) = (cs, EDone tt rest)) /\
  forall lvl, txt lvl cs = lines_text size flusher lvl (plines (flat_map step_of path) v) /\
    lev lvl cs = lvl.

Lemma snoc_steps : forall path k, flat_map step_of (path ++ [k]) = flat_map step_of path ++ step_of k.
Proof. intros. rewrite flat_map_app. cbn [flat_map]. now rewrite app_nil_r. Qed.

Lemma lines_app : forall lvl a b,
  lines_text size flusher lvl (a ++ b) = lines_text size flusher lvl a ++ lines_text size flusher lvl b.
Proof. intros. unfold lines_text. apply flat_map_app. Qed.

Lemma array_run : forall l e i path, Forall pwrites l -> Forall printable path ->
  exists n cs,
  (forall f rest, (n <= f)%nat ->
     jarray_items col quote f path i false (flat_map toks l ++ elision e ++ TEndArr :: rest) = (cs, EDone tt rest)) /\
  forall lvl, txt lvl cs = lines_text size flusher lvl (imap (fun i x =>
      plines (flat_map step_of path ++ step_of (idx i)) x) i l
      ++ own_texts (flat_map step_of path) [91%N] [93%N] (nilb l && (i =? 0)%N) e) /\ lev lvl cs = lvl.
Proof.
  induction l as [|v l IH]; intros e i path H P.
  - destruct (own_run path (i =? 0)%N e [91%N] [93%N] empty_array_bytes elided_array_bytes P eq_refl eq_refl)
      as [cs [R T]].
    exists 1%nat, cs. split.
    + intros [|f] rest L; [lia|]. cbn [jarray_items flat_map app].
      apply (ebnd_done _ _ _ _ _ [] _ _ _ _ (arr_advance_nil e rest)). cbn [orb]. apply R.
    + intros lvl. apply T.
  - inversion H as [|? ? W H']; subst.
    assert (P' : Forall printable (path ++ [idx i])).
    { apply Forall_app. split; [exact P|]. constructor; [|constructor]. intro A. discriminate A. }
    destruct (W _ P') as [n1 [cs1 [R1 T1]]].
    destruct (IH e (i + 1)%N path H' P) as [n2 [cs2 [R2 T2]]].
    exists (S (n1 + n2)), (cs1 ++ cs2). split.
    + intros [|f] rest L; [lia|]. cbn [jarray_items flat_map]. rewrite <- app_assoc.
      apply (ebnd_done _ _ _ _ _ [] _ _ _ _ (arr_advance_cons v _)). cbn [orb].
      eapply ebnd_done; [apply R1; lia|]. apply R2; lia.
    + intros lvl. destruct (T1 lvl) as [T11 T12]. destruct (T2 lvl) as [T21 T22].
      rewrite text_app, T11, T12, T21, level_app, T12, T22. split; [|reflexivity].
      cbn [imap]. rewrite snoc_steps, !lines_app, <- !app_assoc. do 3 f_equal.
      destruct (N.eqb_spec (i + 1) 0); [lia|]. now rewrite andb_false_r.
Qed.

Lemma object_run : forall l e i path, Forall (fun m => pwrites (snd m)) l ->
  Forall (fun m => printable (fst m)) l -> Forall printable path ->
  exists n cs,
  (forall f rest, (n <= f)%nat ->
     jobject_items col quote f path i false (flat_map key_toks l ++ elision e ++ TEndObj :: rest) = (cs, EDone tt rest)) /\
  forall lvl, txt lvl cs = lines_text size flusher lvl (flat_map (fun m =>
      plines (flat_map step_of path ++ step_of (fst m)) (snd m)) l
      ++ own_texts (flat_map step_of path) [123%N] [125%N] (nilb l && (i =? 0)%N) e) /\ lev lvl cs = lvl.
Proof.
  induction l as [|[k v] l IH]; intros e i path H PK P.
  - destruct (own_run path (i =? 0)%N e [123%N] [125%N] empty_object_bytes elided_object_bytes P eq_refl eq_refl)
      as [cs [R T]].
    exists 1%nat, cs. split.
    + intros [|f] rest L; [lia|]. cbn [jobject_items flat_map app].
      apply (ebnd_done _ _ _ _ _ [] _ _ _ _ (obj_advance_nil e rest)). cbn [orb]. apply R.
    + intros lvl. apply T.
  - inversion H as [|? ? W H']; subst. inversion PK as [|? ? PK1 PK']; subst. cbn [fst snd] in *.
    assert (P' : Forall printable (path ++ [k])).
    { apply Forall_app. split; [exact P|]. constructor; [exact PK1|constructor]. }
    destruct (W _ P') as [n1 [cs1 [R1 T1]]].
    destruct (IH e (i + 1)%N path H' PK' P) as [n2 [cs2 [R2 T2]]].
    exists (S (n1 + n2)), (cs1 ++ cs2). split.
    + intros [|f] rest L; [lia|]. cbn [jobject_items flat_map]. unfold key_toks at 1. cbn [fst snd].
      rewrite <- app_assoc. rewrite <- app_comm_cons.
      apply (ebnd_done _ _ _ _ _ [] _ _ _ _ (obj_advance_cons k v _)). cbn [orb].
      eapply ebnd_done; [apply R1; lia|]. apply R2; lia.
    + intros lvl. destruct (T1 lvl) as [T11 T12]. destruct (T2 lvl) as [T21 T22].
      rewrite text_app, T11, T12, T21, level_app, T12, T22. split; [|reflexivity].
      cbn [flat_map fst snd]. rewrite snoc_steps, !lines_app, <- !app_assoc. do 3 f_equal.
      destruct (N.eqb_spec (i + 1) 0); [lia|]. now rewrite andb_false_r.
Qed.

Lemma pwrites_all : forall v, quotes_to_drop quote v -> pwrites v.
Proof.
  apply (jval_induction (fun v => quotes_to_drop quote v -> pwrites v)).
  - intros s _ path P. destruct (scalar_run s) as [c [R T]].
    destruct (leaf_run path _ _ _ P R T) as [cs [R1 T1]].
    exists 1%nat, cs. split.
    + intros [|f] rest L; [lia|]. cbn [jwrite_value ev body app]. apply R1.
    + intros lvl. destruct (T1 lvl) as [T2 T3]. split; [|exact T3]. rewrite T2.
      unfold lines_text. cbn [JpvLayout.plines flat_map]. now rewrite app_nil_r.
  - intros l e IH Q path P. inversion Q as [|? ? F|]; subst.
    assert (W : Forall pwrites l).
    { rewrite Forall_forall in *. intros y I. apply IH; auto. }
    destruct (array_run l e 0%N path W P) as [n [cs [R1 T]]].
    exists (S n), cs. split.
    + intros [|f] rest L; [lia|]. cbn [jwrite_value ev]. unfold body.
      rewrite <- !app_assoc. apply R1. lia.
    + intros lvl. destruct (T lvl) as [T1 T2]. split; [|exact T2]. rewrite T1.
      cbn [JpvLayout.plines N.eqb]. now rewrite andb_true_r.
  - intros l e IH Q path P. inversion Q as [| |? ? F]; subst.
    assert (W : Forall (fun m => pwrites (snd m)) l).
    { rewrite Forall_forall in *. intros y I. apply IH; auto. apply F; auto. }
    assert (PK : Forall (fun m => printable (fst m)) l).
    { rewrite Forall_forall in *. intros y I. destruct (F y I) as [A _]. intros AL.
      apply andb_prop in AL. destruct AL as [AL NQ]. apply negb_true_iff in NQ.
      specialize (A AL NQ). destruct (sc_bytes (fst y)) as [|a [|b r]]; cbn [length] in A; try lia. eauto. }
    destruct (object_run l e 0%N path W PK P) as [n [cs [R1 T]]].
    exists (S n), cs. split.
    + intros [|f] rest L; [lia|]. cbn [jwrite_value ev]. unfold body.
      rewrite <- !app_assoc. apply R1. lia.
    + intros lvl. destruct (T lvl) as [T1 T2]. split; [|exact T2]. rewrite T1.
      cbn [JpvLayout.plines N.eqb]. now rewrite andb_true_r.
Qed.

Lemma values_run : forall vs, Forall (quotes_to_drop quote) vs -> exists n cs,
  (forall f, (n <= f)%nat -> jconsume_loop col quote f (stream vs) = (cs, EDone tt [])) /\
  txt 0 cs = flat_map (fun v => lines_text size flusher 0 (plines [] v) ++ [10%N]) vs.
Proof.
  induction vs as [|v vs IH]; intros Q.
  - exists 1%nat, []. split; [|reflexivity]. intros [|f] L; [lia|]. reflexivity.
  - inversion Q as [|? ? Q1 Q2]; subst. destruct (IH Q2) as [n2 [cs2 [R2 T2]]].
    destruct (pwrites_all v Q1 [] ltac:(constructor)) as [n [cs [R1 T]]].
    exists (S (n + n2)), (cs ++ [PReset] ++ cs2). split.
    + intros [|f] L; [lia|]. cbn [jconsume_loop]. unfold stream. cbn [flat_map]. rewrite toks_split.
      rewrite <- app_comm_cons. eapply ebnd_eq; [reflexivity| |reflexivity].
      eapply ebnd_eq; [apply next_value_hd| |reflexivity].
      eapply ebnd_done; [apply R1; lia|]. eapply ebnd_done; [reflexivity|]. apply R2. lia.
    + destruct (T 0%Z) as [T3 T4]. rewrite text_app, T3, T4. cbn [app]. rewrite text_reset, T2.
      cbn [flat_map]. rewrite <- !app_assoc. reflexivity.
Qed.
End Run.

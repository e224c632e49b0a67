(** What the JPV encoder writes. *)
From Coq Require Import List Arith ZArith NArith Bool Lia.
From Verif Require Import Base Tokens JsonSpec EncSpec PrinterModel JsonEncModel JsonEncProofs
  ScalarSpec JpvEncModel JpvSpec.

(** Itoa. *)
Lemma nat_digits_app : forall a b acc, nat_digits acc (a ++ b) = nat_digits (nat_digits acc a) b.
Proof. induction a as [|d a IH]; intros b acc; cbn [app nat_digits]; auto. Qed.

Lemma itoa_loop_ok : forall f n acc, (n < 10 ^ N.of_nat f)%N -> (0 < f)%nat ->
  exists ds, itoa_loop f n acc = ds ++ acc /\ Forall digit ds /\ nat_digits 0 ds = Z.of_N n /\
    (n <> 0%N -> exists d ds', ds = d :: ds' /\ (49 <= d <= 57)%N) /\ (n = 0%N -> ds = [48%N]).
Proof.
  induction f as [|f IH]; intros n acc L P; [lia|]. cbn [itoa_loop].
  pose proof (N.div_mod n 10 ltac:(lia)) as DM. pose proof (N.mod_lt n 10 ltac:(lia)) as ML.
  destruct (N.ltb_spec n 10) as [S|B].
  - assert (E : (n / 10 = 0)%N) by (apply N.div_small; lia). exists [(48 + n mod 10)%N].
    split; [reflexivity|]. split; [constructor; [unfold digit; lia|constructor]|].
    split; [cbn [nat_digits]; lia|]. split.
    + intros NZ. exists (48 + n mod 10)%N, []. split; [reflexivity|lia].
    + intros ->. reflexivity.
  - assert (Q : (n / 10 < 10 ^ N.of_nat f)%N).
    { apply N.div_lt_upper_bound; [lia|]. rewrite Nat2N.inj_succ, N.pow_succ_r' in L. lia. }
    assert (NZ : (n / 10 <> 0)%N) by (intro Z0; rewrite Z0 in DM; lia).
    assert (FP : (0 < f)%nat).
    { destruct f; [|lia]. cbn [N.of_nat] in Q. rewrite N.pow_0_r in Q. lia. }
    destruct (IH (n / 10)%N ((48 + n mod 10)%N :: acc) Q FP) as [ds [E [F [V [HD _]]]]].
    exists (ds ++ [(48 + n mod 10)%N]). split; [rewrite E, <- app_assoc; reflexivity|].
    split; [apply Forall_app; split; [exact F|constructor; [clear - ML; revert ML; generalize (n mod 10)%N; unfold digit; lia|constructor]]|].
    split; [rewrite nat_digits_app, V; cbn [nat_digits]; lia|]. split; [|lia].
    intros _. destruct (HD NZ) as [d [ds' [-> D]]]. exists d, (ds' ++ [(48 + n mod 10)%N]). auto.
Qed.

Lemma size_pow : forall n, (n < 10 ^ N.of_nat (S (N.size_nat n)))%N.
Proof.
  intros n. assert (A : (n < 2 ^ N.size n)%N) by apply N.size_gt.
  assert (E : N.size n = N.of_nat (N.size_nat n)).
  { clear A. destruct n as [|p]; [reflexivity|]. cbn [N.size N.size_nat]. symmetry.
    induction p as [p IH|p IH|]; cbn [Pos.size Pos.size_nat]; [| |reflexivity].
    - rewrite Nat2N.inj_succ, IH. reflexivity.
    - rewrite Nat2N.inj_succ, IH. reflexivity. }
  rewrite E in A. rewrite Nat2N.inj_succ, N.pow_succ_r'.
  assert (B : (2 ^ N.of_nat (N.size_nat n) <= 10 ^ N.of_nat (N.size_nat n))%N) by (apply N.pow_le_mono_l; lia).
  lia.
Qed.

Lemma itoa_ok : forall n, int_text (itoa n) /\ nat_digits 0 (itoa n) = Z.of_N n.
Proof.
  intros n. destruct (itoa_loop_ok (S (N.size_nat n)) n [] (size_pow n) ltac:(lia)) as [ds [E [F [V [HD H0]]]]].
  unfold itoa. rewrite E, app_nil_r. split; [|exact V].
  destruct (N.eq_dec n 0) as [Z|NZ]; [left; auto|].
  destruct (HD NZ) as [d [ds' [-> D]]]. right. inversion F; subst. exists d, ds'. auto.
Qed.

(** The lines written for a value, below the path written [pt]. *)
Definition sep : bytes := [32; 61; 32]%N.
Section Lines.
Variable quote : bool.
Definition key_text (k : scalar) : bytes :=
  if sc_alnum k && negb quote then 46%N :: contents (sc_bytes k)
  else 91%N :: sc_bytes k ++ [93%N].
Definition index_text (i : N) : bytes := key_text (new_key TNum (itoa i)).
Fixpoint jlines (pt : bytes) (v : jval) : list bytes :=
  match v with
  | JScalar s => [36%N :: pt ++ sep ++ sc_bytes s]
  | JArr l _ =>
      match l with
      | [] => [36%N :: pt ++ sep ++ [91; 93]%N]
      | _ => imap (fun i x => jlines (pt ++ index_text i) x) 0%N l
      end
  | JObj l _ =>
      match l with
      | [] => [36%N :: pt ++ sep ++ [123; 125]%N]
      | _ => flat_map (fun m => jlines (pt ++ key_text (fst m)) (snd m)) l
      end
  end.

Definition rel_line (pt : bytes) (l : line) (t : bytes) : Prop :=
  exists p x, path_text (fst l) p /\ leaf_text (snd l) x /\ t = 36%N :: (pt ++ p) ++ sep ++ x.

Lemma rel_below : forall pt s st ls ts, step_text s st ->
  Forall2 (rel_line (pt ++ st)) ls ts -> Forall2 (rel_line pt) (map (below s) ls) ts.
Proof.
  intros pt s st ls ts ST F. induction F as [|l t ls ts [p [x [P [X ->]]]] F IH]; cbn [map]; constructor; auto.
  exists (st ++ p), x. split; [constructor; auto|]. split; [exact X|]. now rewrite <- !app_assoc.
Qed.

Lemma key_step_text : forall k, string_text false (sc_bytes k) ->
  (sc_alnum k = true -> quote = false -> identifier (contents (sc_bytes k)) = true) ->
  step_text (key_step quote k) (key_text k).
Proof.
  intros k [c [E C]] A. unfold key_step, key_text.
  assert (EC : contents (sc_bytes k) = c).
  { rewrite E. unfold contents. cbn [tl]. apply removelast_last. }
  destruct (sc_alnum k) eqn:AL; destruct quote; cbn [andb negb];
    try (rewrite EC, E; cbn [app]; rewrite <- app_assoc; apply tx_quoted; exact C).
  apply tx_name. auto.
Qed.
Lemma index_step_text : forall i, step_text (SIndex i) (index_text i).
Proof.
  intros i. unfold index_text, key_text. cbn [new_key sc_alnum andb sc_bytes].
  destruct (itoa_ok i). apply tx_index; auto.
Qed.

Lemma jlines_ok : forall R v, representable R quote v -> forall pt,
  Forall2 (rel_line pt) (leaves quote v) (jlines pt v).
Proof.
  intros R. apply (jval_induction (fun v => representable R quote v -> forall pt,
    Forall2 (rel_line pt) (leaves quote v) (jlines pt v))).
  - intros s _ pt. cbn [leaves jlines]. constructor; [|constructor].
    exists [], (sc_bytes s). rewrite app_nil_r. repeat split. constructor.
  - intros l e IH RP pt. inversion RP as [|? F LN|]; subst. destruct l as [|x l].
    + cbn [leaves jlines]. constructor; [|constructor].
      exists [], [91; 93]%N. rewrite app_nil_r. repeat split. constructor.
    + cbn [leaves jlines]. generalize 0%N. clear RP LN. revert IH F. generalize (x :: l). clear x l.
      induction l as [|x l IHl]; intros IH F n; cbn [imap]; [constructor|].
      inversion IH; subst. inversion F; subst. apply Forall2_app; auto.
      eapply rel_below; [apply index_step_text|]. auto.
  - intros l e IH RP pt. inversion RP as [| |? F D]; subst. destruct l as [|x l].
    + cbn [leaves jlines]. constructor; [|constructor].
      exists [], [123; 125]%N. rewrite app_nil_r. repeat split. constructor.
    + cbn [leaves jlines]. clear RP D. revert IH F. generalize (x :: l). clear x l.
      induction l as [|x l IHl]; intros IH F; cbn [flat_map]; [constructor|].
      inversion IH as [|? ? H1 H2]; subst. inversion F as [|? ? [T [S [A RP]]] F']; subst.
      apply Forall2_app; auto. eapply rel_below; [apply key_step_text; eauto|]. auto.
Qed.
End Lines.

(* ------------------------------------------------------------------ *)
(** Running the encoder. *)
Section Run.
Variable size : Z.
Variable flusher : bool.
Variable quote : bool.
Notation txt := (text size flusher).
Notation lev := (level size flusher).

Definition printable (k : scalar) : Prop :=
  sc_alnum k && negb quote = true -> exists a b r, sc_bytes k = a :: b :: r.

Lemma write_keys_run : forall path, Forall printable path -> exists cs,
  (forall ts, write_keys None quote path ts = (cs, EDone tt ts)) /\
  forall lvl, txt lvl cs = flat_map (key_text quote) path /\ lev lvl cs = lvl.
Proof.
  induction path as [|k path IH]; intros F.
  - exists []. split; [reflexivity|]. intros lvl. split; reflexivity.
  - inversion F as [|? ? P F']; subst. destruct (IH F') as [cs [R T]].
    destruct (sc_alnum k && negb quote) eqn:AL.
    + destruct (P AL) as [a [b [r E]]].
      exists ([PBytes [46%N]; PBytes (removelast (b :: r))] ++ cs). split.
      * intros ts. cbn [write_keys]. rewrite AL. eapply ebnd_done; [|apply R].
        eapply ebnd_eq; [reflexivity| |reflexivity].
        unfold print_succinct. apply andb_prop in AL. destruct AL as [-> _]. rewrite E. reflexivity.
      * intros lvl. destruct (T lvl) as [T1 T2]. split; [|exact T2].
        tx. rewrite T1. cbn [flat_map]. unfold key_text at 2. rewrite AL. unfold contents. rewrite E.
        cbn [tl app]. rewrite ?app_nil_r. reflexivity.
    + exists ([PBytes [91%N]; PBytes (sc_bytes k); PBytes [93%N]] ++ cs). split.
      * intros ts. cbn [write_keys]. rewrite AL. eapply ebnd_done; [|apply R]. reflexivity.
      * intros lvl. destruct (T lvl) as [T1 T2]. split; [|exact T2].
        tx. rewrite T1. cbn [flat_map]. unfold key_text at 2. rewrite AL.
        cbn [app]. rewrite <- !app_assoc. reflexivity.
Qed.

Definition lines_text (lvl : Z) (ls : list bytes) : bytes :=
  flat_map (fun l => l ++ nl size flusher lvl) ls.

Lemma write_path_run : forall path, Forall printable path -> exists cs,
  (forall ts, write_path None quote path ts = (cs, EDone tt ts)) /\
  forall lvl, txt lvl cs = 36%N :: flat_map (key_text quote) path ++ sep /\ lev lvl cs = lvl.
Proof.
  intros path F. destruct (write_keys_run path F) as [cs [R T]].
  exists ([PBytes [36%N]] ++ cs ++ [PBytes sep]). split.
  - intros ts. unfold write_path. eapply ebnd_eq; [reflexivity| |reflexivity].
    eapply ebnd_done; [apply R|]. reflexivity.
  - intros lvl. destruct (T lvl) as [T1 T2]. split.
    + rewrite text_app. cbn [level]. rewrite text_bytes, text_nil. cbn [app printer_call snd level].
      rewrite text_app, T1, T2. rewrite text_bytes, text_nil. rewrite app_nil_r. reflexivity.
    + cbn [app level printer_call snd]. clear - T T2. revert T2. revert lvl.
      assert (LA : forall a b lvl, lev lvl (a ++ b) = lev (lev lvl a) b).
      { induction a; intros; cbn [app level]; auto. }
      intros lvl T2. rewrite LA, T2. reflexivity.
Qed.

Lemma level_app : forall a b lvl, lev lvl (a ++ b) = lev (lev lvl a) b.
Proof. induction a; intros; cbn [app level]; auto. Qed.

(** A leaf. *)
Lemma write_leaf_run : forall path (m : enc unit) x, Forall printable path ->
  (forall ts, m ts = ([PBytes x], EDone tt ts)) -> exists cs,
  (forall ts, ebnd (write_path None quote path) (fun _ => ebnd m (fun _ => ecalls [PNewLine])) ts
     = (cs, EDone tt ts)) /\
  forall lvl, txt lvl cs = (36%N :: flat_map (key_text quote) path ++ sep ++ x) ++ nl size flusher lvl /\
    lev lvl cs = lvl.
Proof.
  intros path m x F M. destruct (write_path_run path F) as [cs [R T]].
  exists (cs ++ [PBytes x] ++ [PNewLine]). split.
  - intros ts. eapply ebnd_done; [apply R|]. eapply ebnd_done; [apply M|]. reflexivity.
  - intros lvl. destruct (T lvl) as [T1 T2]. split.
    + rewrite text_app, T1, T2. cbn [app]. rewrite text_bytes, text_newline, text_nil.
      rewrite app_nil_r. rewrite <- !app_assoc. reflexivity.
    + rewrite level_app, T2. reflexivity.
Qed.

Definition jwrites (v : jval) : Prop := forall path, Forall printable path -> exists n cs,
  (forall f rest, (n <= f)%nat ->
     jwrite_value None quote f path (ev v) (body v ++ rest) = (cs, EDone tt rest)) /\
  forall lvl, txt lvl cs = lines_text lvl (jlines quote (flat_map (key_text quote) path) v) /\
    lev lvl cs = lvl.

Lemma flat_snoc : forall path k, flat_map (key_text quote) (path ++ [k]) =
  flat_map (key_text quote) path ++ key_text quote k.
Proof. intros. rewrite flat_map_app. cbn [flat_map]. now rewrite app_nil_r. Qed.

Lemma jarray_run : forall l i path, Forall jwrites l -> Forall printable path -> (l <> [] \/ i <> 0%N) ->
  exists n cs,
  (forall f rest, (n <= f)%nat ->
     jarray_items None quote f path i false (flat_map toks l ++ TEndArr :: rest) = (cs, EDone tt rest)) /\
  forall lvl, txt lvl cs = lines_text lvl (imap (fun i x =>
      jlines quote (flat_map (key_text quote) path ++ index_text quote i) x) i l) /\ lev lvl cs = lvl.
Proof.
  induction l as [|v l IH]; intros i path H P NE.
  - exists 1%nat, []. split.
    + intros [|f] rest L; [lia|]. cbn [jarray_items flat_map app].
      apply (ebnd_done _ _ _ _ _ [] _ _ _ _ (arr_advance_nil false rest)). cbn [orb].
      unfold write_collection_end. destruct (N.eqb_spec i 0) as [->|NZ]; [destruct NE; congruence|].
      reflexivity.
    + intros lvl. split; reflexivity.
  - inversion H as [|? ? W H']; subst.
    assert (P' : Forall printable (path ++ [new_key TNum (itoa i)])).
    { apply Forall_app. split; [exact P|]. constructor; [|constructor]. intro A. discriminate A. }
    destruct (W _ P') as [n1 [cs1 [R1 T1]]].
    destruct (IH (i + 1)%N path H' P ltac:(right; lia)) as [n2 [cs2 [R2 T2]]].
    exists (S (n1 + n2)), (cs1 ++ cs2). split.
    + intros [|f] rest L; [lia|]. cbn [jarray_items flat_map]. rewrite <- app_assoc.
      apply (ebnd_done _ _ _ _ _ [] _ _ _ _ (arr_advance_cons v _)). cbn [orb].
      eapply ebnd_done; [apply R1; lia|]. apply R2; lia.
    + intros lvl. destruct (T1 lvl) as [T11 T12]. destruct (T2 lvl) as [T21 T22].
      rewrite text_app, T11, T12, T21, level_app, T12, T22. split; [|reflexivity].
      cbn [imap]. unfold lines_text. rewrite flat_snoc. rewrite flat_map_app. reflexivity.
Qed.

Lemma jobject_run : forall l i path, Forall (fun m => jwrites (snd m)) l ->
  Forall (fun m => printable (fst m)) l -> Forall printable path -> (l <> [] \/ i <> 0%N) ->
  exists n cs,
  (forall f rest, (n <= f)%nat ->
     jobject_items None quote f path i false (flat_map key_toks l ++ TEndObj :: rest) = (cs, EDone tt rest)) /\
  forall lvl, txt lvl cs = lines_text lvl (flat_map (fun m =>
      jlines quote (flat_map (key_text quote) path ++ key_text quote (fst m)) (snd m)) l) /\ lev lvl cs = lvl.
Proof.
  induction l as [|[k v] l IH]; intros i path H PK P NE.
  - exists 1%nat, []. split.
    + intros [|f] rest L; [lia|]. cbn [jobject_items flat_map app].
      apply (ebnd_done _ _ _ _ _ [] _ _ _ _ (obj_advance_nil false rest)). cbn [orb].
      unfold write_collection_end. destruct (N.eqb_spec i 0) as [->|NZ]; [destruct NE; congruence|].
      reflexivity.
    + intros lvl. split; reflexivity.
  - inversion H as [|? ? W H']; subst. inversion PK as [|? ? PK1 PK']; subst. cbn [fst snd] in *.
    assert (P' : Forall printable (path ++ [k])).
    { apply Forall_app. split; [exact P|]. constructor; [exact PK1|constructor]. }
    destruct (W _ P') as [n1 [cs1 [R1 T1]]].
    destruct (IH (i + 1)%N path H' PK' P ltac:(right; lia)) as [n2 [cs2 [R2 T2]]].
    exists (S (n1 + n2)), (cs1 ++ cs2). split.
    + intros [|f] rest L; [lia|]. cbn [jobject_items flat_map]. unfold key_toks at 1. cbn [fst snd].
      rewrite <- app_assoc. rewrite <- app_comm_cons.
      apply (ebnd_done _ _ _ _ _ [] _ _ _ _ (obj_advance_cons k v _)). cbn [orb].
      eapply ebnd_done; [apply R1; lia|]. apply R2; lia.
    + intros lvl. destruct (T1 lvl) as [T11 T12]. destruct (T2 lvl) as [T21 T22].
      rewrite text_app, T11, T12, T21, level_app, T12, T22. split; [|reflexivity].
      cbn [flat_map fst snd]. unfold lines_text. rewrite flat_snoc. rewrite flat_map_app. reflexivity.
Qed.

Lemma string_printable : forall k, string_text false (sc_bytes k) -> printable k.
Proof.
  intros k [c [E _]] _. rewrite E. destruct c as [|b c]; [exists 34%N, 34%N, []|exists 34%N, b, (c ++ [34%N])]; reflexivity.
Qed.

Lemma jwrites_all : forall R v, representable R quote v -> jwrites v.
Proof.
  intros R. apply (jval_induction (fun v => representable R quote v -> jwrites v)).
  - intros s _ path P.
    destruct (write_leaf_run path (ecalls (print_scalar None s)) (sc_bytes s) P) as [cs [R1 T]]; [reflexivity|].
    exists 1%nat, cs. split.
    + intros [|f] rest L; [lia|]. cbn [jwrite_value ev body app]. apply R1.
    + intros lvl. destruct (T lvl) as [T1 T2]. split; [|exact T2]. rewrite T1.
      unfold lines_text. cbn [jlines flat_map]. now rewrite app_nil_r.
  - intros l e IH RP path P. inversion RP as [|? F LN|]; subst. destruct l as [|x l].
    + destruct (write_leaf_run path (pb empty_array_bytes) empty_array_bytes P) as [cs [R1 T]]; [reflexivity|].
      exists 2%nat, cs. split.
      * intros [|[|f]] rest L; try lia. cbn [jwrite_value ev body flat_map elision app jarray_items].
        apply (ebnd_done _ _ _ _ _ [] _ _ _ _ (arr_advance_nil false rest)). cbn [orb].
        unfold write_collection_end. cbn [N.eqb orb negb]. apply R1.
      * intros lvl. destruct (T lvl) as [T1 T2]. split; [|exact T2]. rewrite T1.
        unfold lines_text. cbn [jlines flat_map]. now rewrite app_nil_r.
    + assert (W : Forall jwrites (x :: l)).
      { rewrite Forall_forall in *. intros y I. apply IH; auto. }
      destruct (jarray_run (x :: l) 0%N path W P ltac:(left; discriminate)) as [n [cs [R1 T]]].
      exists (S n), cs. split; [|exact T].
      intros [|f] rest L; [lia|]. cbn [jwrite_value ev]. unfold body. cbn [elision app].
      rewrite <- app_assoc. apply R1. lia.
  - intros l e IH RP path P. inversion RP as [| |? F D]; subst. destruct l as [|x l].
    + destruct (write_leaf_run path (pb empty_object_bytes) empty_object_bytes P) as [cs [R1 T]]; [reflexivity|].
      exists 2%nat, cs. split.
      * intros [|[|f]] rest L; try lia. cbn [jwrite_value ev body flat_map elision app jobject_items].
        apply (ebnd_done _ _ _ _ _ [] _ _ _ _ (obj_advance_nil false rest)). cbn [orb].
        unfold write_collection_end. cbn [N.eqb orb negb]. apply R1.
      * intros lvl. destruct (T lvl) as [T1 T2]. split; [|exact T2]. rewrite T1.
        unfold lines_text. cbn [jlines flat_map]. now rewrite app_nil_r.
    + assert (W : Forall (fun m => jwrites (snd m)) (x :: l)).
      { rewrite Forall_forall in *. intros y I. apply IH; auto. apply F; auto. }
      assert (PK : Forall (fun m => printable (fst m)) (x :: l)).
      { rewrite Forall_forall in *. intros y I. apply string_printable. apply F; auto. }
      destruct (jobject_run (x :: l) 0%N path W PK P ltac:(left; discriminate)) as [n [cs [R1 T]]].
      exists (S n), cs. split; [|exact T].
      intros [|f] rest L; [lia|]. cbn [jwrite_value ev]. unfold body. cbn [elision app].
      rewrite <- app_assoc. apply R1. lia.
Qed.

Lemma jconsume_run : forall R v, representable R quote v -> exists n cs,
  (forall f, (n <= f)%nat -> jconsume_loop None quote f (toks v) = (cs, EDone tt [])) /\
  txt 0 cs = lines_text 0 (jlines quote [] v) ++ [10%N].
Proof.
  intros R v RP. destruct (jwrites_all R v RP [] ltac:(constructor)) as [n [cs [R1 T]]].
  exists (S (S n)), (cs ++ [PReset]). split.
  - intros [|[|f]] L; try lia. cbn [jconsume_loop]. rewrite toks_split.
    eapply ebnd_eq; [reflexivity| |reflexivity]. rewrite <- (app_nil_r (body v)).
    eapply ebnd_eq; [apply next_value_hd| |reflexivity].
    eapply ebnd_done; [apply R1; lia|]. reflexivity.
  - destruct (T 0%Z) as [T1 T2]. rewrite text_app, T1, T2. rewrite text_reset, text_nil. reflexivity.
Qed.
End Run.

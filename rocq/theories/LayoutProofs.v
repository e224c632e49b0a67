(** The JSON encoder lays out values as in [layout]. *)
From Coq Require Import List Arith ZArith NArith Bool Lia.
From Verif Require Import Base Tokens JsonSpec EncSpec PrinterModel JsonEncModel JsonEncProofs LayoutSpec.

Section Run.
Variable col : option colorizer.
Variable size : Z.
Variable flusher : bool.
Variable width_limit max_items : Z.
Notation txt := (text size flusher).
Notation lev := (level size flusher).
Notation wv := (write_value col width_limit max_items).
Notation oitems := (object_items col width_limit max_items).
Notation aitems := (array_items col width_limit max_items).
Notation citems := (array_items_compact col width_limit max_items).
Notation wpend := (write_pending col width_limit max_items).
Notation wcompact := (write_object_compact col width_limit max_items).
Notation orest := (object_rest col width_limit max_items).
Notation lay := (layout (painted col) width_limit max_items size).
Notation brk := (break size).

Lemma level_app : forall a b l, lev l (a ++ b) = lev (lev l a) b.
Proof. induction a as [|c a IH]; intros b l; [reflexivity|]. cbn [app level]. apply IH. Qed.
Lemma nl_break : forall d, nl size flusher d = brk d.
Proof.
  intro d. unfold nl, new_line, break. destruct (size <? 0)%Z; [reflexivity|]. rewrite written_app, written_nl. cbn [app]. f_equal.
  induction (Z.to_nat (size * d)) as [|n IH]; [reflexivity|]. cbn [repeat written app]. now rewrite IH.
Qed.

(** Calls that write [t d] at depth [d] and leave the depth changed by [k]. *)
Definition does (cs : list pcall) (k : Z) (t : Z -> bytes) : Prop := forall d, txt d cs = t d /\ lev d cs = (d + k)%Z.
Lemma does_app : forall a b k1 k2 t1 t2, does a k1 t1 -> does b k2 t2 -> does (a ++ b) (k1 + k2) (fun d => t1 d ++ t2 (d + k1)%Z).
Proof. intros a b k1 k2 t1 t2 A B d. destruct (A d) as [A1 A2], (B (d + k1)%Z) as [B1 B2]. rewrite text_app, level_app, A1, A2, B1, B2. split; [reflexivity|lia]. Qed.
Lemma does_eq : forall cs k k' t t', does cs k t -> k = k' -> (forall d, t d = t' d) -> does cs k' t'.
Proof. intros cs k k' t t' D -> E d. rewrite <- E. apply D. Qed.
Lemma does_nil : does [] 0 (fun _ => []).
Proof. intro d. split; [reflexivity|]. cbn [level]. lia. Qed.
Lemma does_bytes : forall b, does [PBytes b] 0 (fun _ => b).
Proof. intros b d. split; [rewrite text_bytes, text_nil, app_nil_r; reflexivity|]. cbn. lia. Qed.
Lemma does_newline : does [PNewLine] 0 (fun d => brk d).
Proof. intros d. split; [rewrite text_newline, text_nil, app_nil_r; apply nl_break|]. cbn. lia. Qed.
Lemma does_indent : does [PIndent] 1 (fun d => brk (d + 1)).
Proof. intros d. split; [rewrite text_indent, text_nil, app_nil_r; apply nl_break|]. cbn. lia. Qed.
Lemma does_dedent : does [PDedent] (-1) (fun d => brk (d - 1)).
Proof. intros d. split; [rewrite text_dedent, text_nil, app_nil_r; apply nl_break|]. cbn. lia. Qed.
Lemma does_scalar : forall s, does (print_scalar col s) 0 (fun _ => painted col s).
Proof.
  intros s d. unfold print_scalar, painted. destruct col as [c|]; [|apply does_bytes].
  split; [rewrite !text_bytes, text_nil, app_nil_r; reflexivity|]. cbn. lia.
Qed.

(** [ran m r cs rest]: with enough fuel. *)
Definition writes (v : jval) : Prop := exists n cs,
  (forall f rest, n <= f -> wv f (ev v) (body v ++ rest) = (cs, EDone tt rest)) /\ does cs 0 (fun d => lay d v).

Lemma scalar_writes : forall s, writes (JScalar s).
Proof. intro s. exists 1, (print_scalar col s). split; [intros [|f] rest L; [lia|]; reflexivity|]. apply does_scalar. Qed.

Definition begin_text (first : bool) (d : Z) : bytes := if first then brk (d + 1) else 44%N :: brk d.
Definition step (first : bool) : Z := if first then 1 else 0.
Lemma start_does : forall first, does (start_calls first) (step first) (begin_text first).
Proof.
  intros []; [exact does_indent|].
  eapply does_eq; [exact (does_app _ _ _ _ _ _ (does_bytes item_separator_bytes) does_newline)|reflexivity|].
  intro d. cbn [begin_text item_separator_bytes app]. now rewrite Z.add_0_r.
Qed.
(** What follows the items: dots, and the end of a broken collection. *)
Definition end_text (first e : bool) (close : bytes) (d : Z) : bytes :=
  (if e then (if first then [] else brk d) ++ [46; 46; 46]%N else []) ++ (if first then [] else brk (d - 1)) ++ close.
Lemma end_does : forall first e close, does (end_calls first e close) (if first then 0 else -1) (end_text first e close).
Proof.
  intros first e close. unfold end_calls, end_text.
  assert (A : does (if e then (if first then [] else [PNewLine]) ++ [PBytes elision_bytes] else []) 0 (fun d => if e then (if first then [] else brk d) ++ [46; 46; 46]%N else [])).
  { destruct e; [|exact does_nil]. destruct first; [apply does_bytes|].
    eapply does_eq; [exact (does_app _ _ _ _ _ _ does_newline (does_bytes elision_bytes))|reflexivity|reflexivity]. }
  assert (B : does (if first then [] else [PDedent]) (if first then 0 else -1) (fun d => if first then [] else brk (d - 1))) by (destruct first; [exact does_nil|exact does_dedent]).
  eapply does_eq; [exact (does_app _ _ _ _ _ _ A (does_app _ _ _ _ _ _ B (does_bytes close)))|destruct first; reflexivity|].
  intro d. cbn beta. now rewrite Z.add_0_r.
Qed.

Lemma join_cons : forall sep t l, join sep (t :: l) = t ++ match l with [] => [] | _ => sep ++ join sep l end.
Proof. intros sep t [|u l]; cbn [join]; [now rewrite app_nil_r|reflexivity]. Qed.
(** The lines that follow others. *)
Definition more (d : Z) (lines : list bytes) : bytes := flat_map (fun t => 44%N :: brk d ++ t) lines.
Lemma join_more : forall d t l, join (44%N :: brk d) (t :: l) = t ++ more d l.
Proof.
  intros d t l. revert t. induction l as [|u l IH]; intro t; rewrite join_cons; [reflexivity|]. f_equal. rewrite IH. cbn [more flat_map app]. now rewrite <- app_assoc.
Qed.
(** Lines written when [first] says that none has been written before; [d] is the
    depth before. *)
Definition lines_text (first : bool) (d : Z) (lines : Z -> list bytes) (e : bool) (close : bytes) : bytes :=
  let d' := (d + step first)%Z in
  (if first then brk d' ++ join (44%N :: brk d') (lines d') else more d' (lines d')) ++ end_text false e close d'.
Lemma lines_cons : forall (first : bool) d (t : Z -> bytes) (l : Z -> list bytes) e close,
  lines_text first d (fun d => t d :: l d) e close = begin_text first d ++ t (d + step first)%Z ++ lines_text false (d + step first) l e close.
Proof.
  intros first d t l e close. unfold lines_text, begin_text, step. destruct first.
  - rewrite join_more, Z.add_0_r, <- !app_assoc. reflexivity.
  - cbn [more flat_map app]. rewrite !Z.add_0_r, <- !app_assoc. reflexivity.
Qed.
Lemma lines_nil : forall d e close, lines_text false d (fun _ => []) e close = end_text false e close d.
Proof. intros. unfold lines_text, step. cbn [more flat_map app]. now rewrite Z.add_0_r. Qed.

(** Without compaction. *)
Lemma array_items_run : forall l e first, Forall writes l -> (l = [] -> first = false) -> exists n cs,
  (forall f rest, n <= f -> aitems f first false (flat_map toks l ++ elision e ++ TEndArr :: rest) = (cs, EDone tt rest)) /\
  does cs (if first then 0 else -1) (fun d => lines_text first d (fun d => map (lay d) l) e close_array_bytes).
Proof.
  induction l as [|v l IH]; intros e first H NE.
  - rewrite (NE eq_refl). exists 1, (end_calls false e close_array_bytes). split.
    + intros [|f] rest L; [lia|]. cbn [array_items flat_map app].
      apply (ebnd_done _ _ _ _ _ [] _ _ _ _ (arr_advance_nil e rest)). exact (end_done false e close_array_bytes rest).
    + eapply does_eq; [apply end_does|reflexivity|]. intro d. cbn [map]. now rewrite lines_nil.
  - inversion H as [|? ? (n1 & cs1 & R1 & T1) H']; subst. destruct (IH e false H' ltac:(reflexivity)) as (n2 & cs2 & R2 & T2).
    exists (S (n1 + n2)), (start_calls first ++ cs1 ++ cs2). split.
    + intros [|f] rest L; [lia|]. cbn [array_items flat_map]. rewrite <- app_assoc.
      apply (ebnd_done _ _ _ _ _ [] _ _ _ _ (arr_advance_cons v _)). cbn [orb].
      eapply ebnd_done; [apply start_done|]. eapply ebnd_done; [apply R1; lia|]. apply R2; lia.
    + eapply does_eq; [exact (does_app _ _ _ _ _ _ (start_does first) (does_app _ _ _ _ _ _ T1 T2))|destruct first; reflexivity|].
      intro d. cbn [map]. rewrite lines_cons. now rewrite Z.add_0_r.
Qed.
Definition member_text (d : Z) (m : scalar * jval) : bytes := painted col (fst m) ++ colon_space ++ lay d (snd m).
Definition member_calls (k : scalar) : list pcall := print_scalar col k ++ [PBytes key_value_separator_bytes].
Lemma member_does : forall k v cs, does cs 0 (fun d => lay d v) -> does (print_scalar col k ++ [PBytes key_value_separator_bytes] ++ cs) 0 (fun d => member_text d (k, v)).
Proof.
  intros k v cs T. eapply does_eq; [exact (does_app _ _ _ _ _ _ (does_scalar k) (does_app _ _ _ _ _ _ (does_bytes key_value_separator_bytes) T))|reflexivity|].
  intro d. unfold member_text. cbn [fst snd]. now rewrite !Z.add_0_r.
Qed.
Lemma object_items_run : forall l e first, Forall (fun m => writes (snd m)) l -> (l = [] -> first = false) -> exists n cs,
  (forall f rest, n <= f -> oitems f first false (flat_map key_toks l ++ elision e ++ TEndObj :: rest) = (cs, EDone tt rest)) /\
  does cs (if first then 0 else -1) (fun d => lines_text first d (fun d => map (member_text d) l) e close_object_bytes).
Proof.
  induction l as [|[k v] l IH]; intros e first H NE.
  - rewrite (NE eq_refl). exists 1, (end_calls false e close_object_bytes). split.
    + intros [|f] rest L; [lia|]. cbn [object_items flat_map app].
      apply (ebnd_done _ _ _ _ _ [] _ _ _ _ (obj_advance_nil e rest)). exact (end_done false e close_object_bytes rest).
    + eapply does_eq; [apply end_does|reflexivity|]. intro d. cbn [map]. now rewrite lines_nil.
  - inversion H as [|? ? (n1 & cs1 & R1 & T1) H']; subst. cbn [snd] in *. destruct (IH e false H' ltac:(reflexivity)) as (n2 & cs2 & R2 & T2).
    exists (S (n1 + n2)), (start_calls first ++ (print_scalar col k ++ [PBytes key_value_separator_bytes] ++ cs1) ++ cs2). split.
    + intros [|f] rest L; [lia|]. cbn [object_items]. rewrite flat_cons.
      apply (ebnd_done _ _ _ _ _ [] _ _ _ _ (obj_advance_cons k v _)). cbn [orb].
      eapply ebnd_done; [apply start_done|]. rewrite <- !app_assoc.
      eapply ebnd_eq; [reflexivity| |reflexivity]. eapply ebnd_eq; [reflexivity| |reflexivity].
      eapply ebnd_done; [apply R1; lia|]. apply R2; lia.
    + eapply does_eq; [exact (does_app _ _ _ _ _ _ (start_does first) (does_app _ _ _ _ _ _ (member_does k v cs1 T1) T2))|destruct first; reflexivity|].
      intro d. cbn [map]. rewrite lines_cons. now rewrite Z.add_0_r.
Qed.

(** The items of a line. *)
Lemma write_items_does : forall is, exists cs, (forall ts, write_items col true is ts = (cs, EDone tt ts)) /\ does cs 0 (fun _ => join comma_space (map (painted col) is)).
Proof.
  assert (F : forall is, exists cs, (forall ts, write_items col false is ts = (cs, EDone tt ts)) /\ does cs 0 (fun _ => flat_map (fun s => comma_space ++ painted col s) is)).
  { induction is as [|s is (cs & R & T)]; [exists []; split; [reflexivity|exact does_nil]|].
    exists ([PBytes compact_item_separator_bytes] ++ print_scalar col s ++ cs). split.
    - intro ts. cbn [write_items]. eapply ebnd_done; [reflexivity|]. eapply ebnd_done; [reflexivity|]. apply R.
    - eapply does_eq; [exact (does_app _ _ _ _ _ _ (does_bytes compact_item_separator_bytes) (does_app _ _ _ _ _ _ (does_scalar s) T))|reflexivity|].
      intro d. cbn [flat_map]. now rewrite <- app_assoc. }
  intros [|s is]; [exists []; split; [reflexivity|exact does_nil]|]. destruct (F is) as (cs & R & T).
  exists (print_scalar col s ++ cs). split.
  - intro ts. cbn [write_items]. eapply (ebnd_done _ _ _ _ _ [] tt ts); [reflexivity|]. eapply ebnd_done; [reflexivity|]. apply R.
  - eapply does_eq; [exact (does_app _ _ _ _ _ _ (does_scalar s) T)|reflexivity|]. intro d. cbn [map]. clear. revert s.
    induction is as [|s' is IH]; intro s; rewrite join_cons; [reflexivity|]. cbn [map flat_map]. f_equal. rewrite <- app_assoc. f_equal. exact (IH s').
Qed.

(* ------------------------------------------------------------------ *)
(** Arrays with compaction. *)
Definition items (d : Z) (l : list jval) : list (option Z * bytes) := map (fun x => (scalar_width x, lay d x)) l.
Lemma lines_ext : forall first d l l' e close, (forall d, l d = l' d) -> lines_text first d l e close = lines_text first d l' e close.
Proof. intros first d l l' e close H. unfold lines_text. now rewrite H. Qed.
Definition closing (k : bool) : Z := if k then 0 else -1.

(** A value on a line of its own, before other lines. *)
Lemma alone_run : forall (first : bool) v l e total (lines : Z -> list bytes), writes v ->
  (exists n cs, (forall f rest, n <= f -> citems f [] total false false (flat_map toks l ++ elision e ++ TEndArr :: rest) = (cs, EDone tt rest)) /\
     does cs (-1) (fun d => lines_text false d lines e close_array_bytes)) ->
  exists n cs,
    (forall f rest, n <= f ->
       ebnd (if first then ecalls [PIndent] else ebnd (pb item_separator_bytes) (fun _ => ecalls [PNewLine]))
         (fun _ => ebnd (wv f (ev v)) (fun _ => citems f [] total false false))
         (body v ++ flat_map toks l ++ elision e ++ TEndArr :: rest) = (cs, EDone tt rest)) /\
    does cs (closing first) (fun d => lines_text first d (fun d => lay d v :: lines d) e close_array_bytes).
Proof.
  intros first v l e total lines (n1 & cs1 & R1 & T1) (n2 & cs2 & R2 & T2). exists (n1 + n2), (start_calls first ++ cs1 ++ cs2). split.
  - intros f rest L. eapply ebnd_done; [apply start_done|]. eapply ebnd_done; [apply R1; lia|]. apply R2; lia.
  - eapply does_eq; [exact (does_app _ _ _ _ _ _ (start_does first) (does_app _ _ _ _ _ _ T1 T2))|destruct first; reflexivity|].
    intro d. rewrite lines_cons. now rewrite Z.add_0_r.
Qed.
(** After a scalar that is too wide. *)
Lemma wide_run : forall l e total, Forall writes l -> (width_limit < total)%Z -> exists n cs,
  (forall f rest, n <= f -> citems f [] total false false (flat_map toks l ++ elision e ++ TEndArr :: rest) = (cs, EDone tt rest)) /\
  does cs (-1) (fun d => lines_text false d (fun d => map (join comma_space) (map (fun x => [snd x]) (items d l))) e close_array_bytes).
Proof.
  induction l as [|v l IH]; intros e total H W.
  - exists 1, (end_calls false e close_array_bytes). split.
    + intros [|f] rest L; [lia|]. cbn [array_items_compact flat_map app].
      apply (ebnd_done _ _ _ _ _ [] _ _ _ _ (arr_advance_nil e rest)). apply (ebnd_done _ _ _ _ _ [] tt rest); [reflexivity|]. exact (end_done false e close_array_bytes rest).
    + eapply does_eq; [apply end_does|reflexivity|]. intro d. cbn [map items]. now rewrite lines_nil.
  - inversion H as [|? ? WV H']; subst.
    assert (G : forall total', (width_limit < total')%Z -> exists n cs,
      (forall f rest, n <= f ->
       ebnd (ebnd (pb item_separator_bytes) (fun _ => ecalls [PNewLine])) (fun _ => ebnd (wv f (ev v)) (fun _ => citems f [] total' false false))
         (body v ++ flat_map toks l ++ elision e ++ TEndArr :: rest) = (cs, EDone tt rest)) /\
      does cs (-1) (fun d => lines_text false d (fun d => lay d v :: map (join comma_space) (map (fun x => [snd x]) (items d l))) e close_array_bytes)).
    { intros total' W'. exact (alone_run false v l e total' _ WV (IH e total' H' W')). }
    destruct v as [s|l0 e0|l0 e0].
    + destruct (G (total + (zlen (sc_bytes s) + 2))%Z ltac:(unfold zlen; lia)) as (n & cs & R & T). exists (S n), cs. split; [|exact T].
      intros [|f] rest L; [lia|]. cbn [array_items_compact flat_map]. rewrite <- app_assoc. eapply (ebnd_done _ _ _ _ _ [] _ _ _ _ (arr_advance_cons (JScalar s) _)).
      cbn [ev orb body app]. destruct (Z.leb_spec (total + (zlen (sc_bytes s) + 2)) width_limit); [unfold zlen in *; lia|]. apply R; lia.
    + destruct (G total W) as (n & cs & R & T). exists (S n), cs. split; [|exact T].
      intros [|f] rest L; [lia|]. cbn [array_items_compact flat_map]. rewrite <- app_assoc. eapply (ebnd_done _ _ _ _ _ [] _ _ _ _ (arr_advance_cons _ _)).
      cbn [ev orb]. apply R; lia.
    + destruct (G total W) as (n & cs & R & T). exists (S n), cs. split; [|exact T].
      intros [|f] rest L; [lia|]. cbn [array_items_compact flat_map]. rewrite <- app_assoc. eapply (ebnd_done _ _ _ _ _ [] _ _ _ _ (arr_advance_cons _ _)).
      cbn [ev orb]. apply R; lia.
Qed.

Definition inline (total : Z) (l : list jval) : bool :=
  match line_width (map scalar_width l) with Some n => (total + 2 + n <=? width_limit)%Z | None => false end.
Lemma line_width_min : forall l n, line_width (map scalar_width l) = Some n -> (-2 <= n)%Z.
Proof.
  induction l as [|v l IH]; intros n H; cbn [map line_width] in H; [injection H as <-; lia|]. destruct v as [s| |]; cbn [scalar_width] in H; try discriminate.
  destruct (line_width _) as [m|] eqn:E; [|discriminate]. injection H as <-. specialize (IH m eq_refl). lia.
Qed.
Lemma inline_scalar : forall total s l, inline total (JScalar s :: l) = inline (total + (zlen (sc_bytes s) + 2)) l.
Proof.
  intros total s l. unfold inline. cbn [map scalar_width line_width]. destruct (line_width _); [|reflexivity]. unfold zlen. f_equal. lia.
Qed.
Lemma inline_over : forall total l, (width_limit < total)%Z -> inline total l = false.
Proof.
  intros total l H. unfold inline. destruct (line_width _) as [n|] eqn:E; [|reflexivity]. apply line_width_min in E. apply Z.leb_gt. lia.
Qed.

Lemma rows_nil : forall w its, rows width_limit [] w its = rows width_limit [] 0 its.
Proof. intros w [|[[?|] ?] ?]; reflexivity. Qed.

(** The state of the loop. *)
Definition pending (is : list scalar) (total : Z) : Prop := (is = [] -> total = (-2)%Z) /\ (-2 <= total <= width_limit)%Z.
Definition compact_text (first : bool) (d : Z) (is : list scalar) (total : Z) (l : list jval) (e : bool) : bytes :=
  if first && inline total l then join comma_space (map (painted col) is ++ map (lay d) l) ++ dots e ++ close_array_bytes
  else lines_text first d (fun d => map (join comma_space) (rows width_limit (map (painted col) is) total (items d l))) e close_array_bytes.

Lemma compact_items_run : (0 < width_limit)%Z -> forall l e first is total, Forall writes l -> pending is total -> exists n cs,
  (forall f rest, n <= f -> citems f is total first false (flat_map toks l ++ elision e ++ TEndArr :: rest) = (cs, EDone tt rest)) /\
  does cs (closing first) (fun d => compact_text first d is total l e).
Proof.
  intros WP. induction l as [|v l IH]; intros e first is total H P.
  - destruct (write_items_does is) as (csi & Ri & Ti).
    exists 1, ((match is with [] => [] | _ => if first then [] else start_calls false end ++ csi) ++ end_calls first e close_array_bytes). split.
    + intros [|f] rest L; [lia|]. cbn [array_items_compact flat_map app].
      apply (ebnd_done _ _ _ _ _ [] _ _ _ _ (arr_advance_nil e rest)). cbn [orb].
      destruct is as [|s is].
      { assert (csi = []) by (specialize (Ri []); cbn in Ri; injection Ri; auto). subst csi. cbn [app]. apply (ebnd_done _ _ _ _ _ [] tt rest); [reflexivity|]. apply end_done. }
      eapply ebnd_done; [|apply end_done]. eapply ebnd_done; [|apply Ri]. destruct first; reflexivity.
    + assert (IL : inline total [] = true) by (unfold inline; cbn [map line_width]; apply Z.leb_le; destruct P; lia).
      unfold compact_text. rewrite IL. destruct first; cbn [andb].
      * assert (E : match is with [] => [] | _ => @nil pcall end = []) by now destruct is. rewrite E. cbn [app].
        eapply does_eq; [exact (does_app _ _ _ _ _ _ Ti (end_does true e close_array_bytes))|reflexivity|].
        intro d. cbn [map]. rewrite app_nil_r. unfold end_text. cbn [app]. destruct e; reflexivity.
      * destruct is as [|s is].
        -- assert (csi = []) by (specialize (Ri []); cbn in Ri; injection Ri; auto). subst csi. cbn [app].
           eapply does_eq; [apply end_does|reflexivity|]. intro d. cbn [map items rows]. now rewrite lines_nil.
        -- rewrite <- app_assoc. eapply does_eq; [exact (does_app _ _ _ _ _ _ (start_does false) (does_app _ _ _ _ _ _ Ti (end_does false e close_array_bytes)))|reflexivity|].
           intro d. cbn [items map rows]. rewrite (lines_cons false d (fun _ => _) (fun _ => [])). rewrite lines_nil. now rewrite Z.add_0_r.
  - inversion H as [|? ? WV H']; subst. destruct P as [PN PB].
    assert (NIL : pending [] (-2)) by (split; [reflexivity|lia]).
    (* a collection *)
    assert (COLL : scalar_width v = None -> exists n cs,
      (forall f rest, n <= f -> citems (S f) is total first false (toks v ++ flat_map toks l ++ elision e ++ TEndArr :: rest) = (cs, EDone tt rest)) /\
      does cs (closing first) (fun d => compact_text first d is total (v :: l) e)).
    { intro SW. assert (IL : inline total (v :: l) = false) by (unfold inline; cbn [map]; now rewrite SW).
      destruct (IH e false [] (-2)%Z H' NIL) as (n0 & cs0 & R0 & T0).
      assert (L0 : forall first : bool, exists n cs, (forall f rest, n <= f ->
       ebnd (if first then ecalls [PIndent] else ebnd (pb item_separator_bytes) (fun _ => ecalls [PNewLine]))
         (fun _ => ebnd (wv f (ev v)) (fun _ => citems f [] (-2) false false))
         (body v ++ flat_map toks l ++ elision e ++ TEndArr :: rest) = (cs, EDone tt rest)) /\
        does cs (closing first) (fun d => lines_text first d (fun d => lay d v :: map (join comma_space) (rows width_limit [] (-2) (items d l))) e close_array_bytes)).
      { intro first0. apply alone_run; [exact WV|]. exists n0, cs0. split; [exact R0|]. exact T0. }
      destruct is as [|s0 is].
      - rewrite (PN eq_refl) in *. destruct (L0 first) as (n & cs & R & T). exists n, cs. split.
        + intros f rest L. cbn [array_items_compact]. eapply (ebnd_done _ _ _ _ _ [] _ _ _ _ (arr_advance_cons _ _)).
          destruct v; [discriminate SW| |]; cbn [ev orb] in *; apply R; lia.
        + eapply does_eq; [exact T|reflexivity|]. intro d. unfold compact_text. rewrite IL, andb_false_r. apply lines_ext. intro d'. cbn [items map]. rewrite SW. cbn [rows map app].
          rewrite (rows_nil (-2)). reflexivity.
      - destruct (L0 false) as (n & cs & R & T). destruct (write_items_does (s0 :: is)) as (csi & Ri & Ti).
        exists n, (start_calls first ++ csi ++ cs). split.
        + intros f rest L. cbn [array_items_compact]. eapply (ebnd_done _ _ _ _ _ [] _ _ _ _ (arr_advance_cons _ _)).
          specialize (R f rest L). rewrite ebnd_assoc in R.
          destruct v; [discriminate SW| |]; cbn [ev orb] in *; (eapply ebnd_done; [apply start_done|]; eapply ebnd_done; [apply Ri|]; exact R).
        + eapply does_eq; [exact (does_app _ _ _ _ _ _ (start_does first) (does_app _ _ _ _ _ _ Ti T))|destruct first; reflexivity|].
          intro d. unfold compact_text. rewrite IL, andb_false_r.
          rewrite (lines_ext first d _ (fun d => join comma_space (map (painted col) (s0 :: is)) :: lay d v :: map (join comma_space) (rows width_limit [] (-2) (items d l)))).
          * rewrite (lines_cons first d (fun _ => _)). now rewrite Z.add_0_r.
          * intro d'. cbn [items map]. rewrite SW. cbn [rows map app]. rewrite (rows_nil (-2)). reflexivity. }
    assert (GEN : exists n cs, (forall f rest, n <= f ->
       citems (S f) is total first false (toks v ++ flat_map toks l ++ elision e ++ TEndArr :: rest) = (cs, EDone tt rest)) /\
       does cs (closing first) (fun d => compact_text first d is total (v :: l) e)).
    2:{ destruct GEN as (n & cs & R & T). exists (S n), cs. split; [|exact T].
        intros [|f] rest L; [lia|]. cbn [flat_map]. rewrite <- app_assoc. apply R. lia. }
    destruct v as [s|l0 e0|l0 e0]; [|apply COLL; reflexivity..]. clear COLL.
    assert (ZP : (0 <= zlen (sc_bytes s))%Z) by (unfold zlen; lia).
    cbn [array_items_compact]. set (total' := (total + (zlen (sc_bytes s) + 2))%Z) in *.
    destruct (Z.leb_spec total' width_limit) as [LE|GT].
    + (* it is added to the line *)
      assert (P' : pending (is ++ [s]) total') by (split; [destruct is; discriminate|unfold total'; lia]).
      destruct (IH e first (is ++ [s]) total' H' P') as (n & cs & R & T). exists n, cs. split.
      * intros f rest L. eapply (ebnd_done _ _ _ _ _ [] _ _ _ _ (arr_advance_cons (JScalar s) _)). cbn [ev orb body app]. fold total'.
        rewrite (proj2 (Z.leb_le total' width_limit) LE). apply R; lia.
      * eapply does_eq; [exact T|reflexivity|]. intro d. unfold compact_text. rewrite inline_scalar. fold total'.
        rewrite map_app. cbn [map layout]. rewrite <- app_assoc. cbn [app].
        destruct (first && inline total' l); [reflexivity|]. apply lines_ext. intro d'. f_equal. cbn [items map scalar_width layout rows].
        destruct (Z.ltb_spec width_limit (Z.of_nat (length (sc_bytes s)))); [unfold total', zlen in *; lia|].
        destruct is as [|s0 is]; cbn [map app].
        -- pose proof (PN eq_refl) as PN'. replace total' with (Z.of_nat (length (sc_bytes s))) by (unfold total', zlen; lia). reflexivity.
        -- replace (total + 2 + Z.of_nat (length (sc_bytes s)))%Z with total' by (unfold total', zlen; lia).
           rewrite (proj2 (Z.leb_le total' width_limit) LE). reflexivity.
    + (* it does not fit *)
      assert (IL : inline total (JScalar s :: l) = false) by (rewrite inline_scalar; now apply inline_over).
      assert (GT' : (total' <=? width_limit)%Z = false) by now apply Z.leb_gt.
      destruct is as [|s0 is].
      * pose proof (PN eq_refl) as PN'.
        destruct (alone_run first (JScalar s) l e total' _ WV (wide_run l e total' H' GT)) as (n & cs & R & T). exists n, cs. split.
        -- intros f rest L. eapply (ebnd_done _ _ _ _ _ [] _ _ _ _ (arr_advance_cons (JScalar s) _)). cbn [ev orb body app]. fold total'. rewrite GT'. apply R; lia.
        -- eapply does_eq; [exact T|reflexivity|]. intro d. unfold compact_text. rewrite IL, andb_false_r. apply lines_ext. intro d'. cbn [items map scalar_width layout rows app].
           destruct (Z.ltb_spec width_limit (Z.of_nat (length (sc_bytes s)))); [reflexivity|unfold total', zlen in *; lia].
      * destruct (write_items_does (s0 :: is)) as (csi & Ri & Ti). destruct (Z.leb_spec (zlen (sc_bytes s)) width_limit) as [LE2|GT2].
        -- destruct (IH e false [s] (zlen (sc_bytes s)) H') as (n & cs & R & T); [split; [discriminate|lia]|].
           exists n, (start_calls first ++ csi ++ cs). split.
           ++ intros f rest L. eapply (ebnd_done _ _ _ _ _ [] _ _ _ _ (arr_advance_cons (JScalar s) _)). cbn [ev orb body app]. fold total'. rewrite GT'.
              eapply ebnd_done; [apply start_done|]. eapply ebnd_done; [apply Ri|]. rewrite (proj2 (Z.leb_le _ _) LE2). apply R; lia.
           ++ eapply does_eq; [exact (does_app _ _ _ _ _ _ (start_does first) (does_app _ _ _ _ _ _ Ti T))|destruct first; reflexivity|].
              intro d. unfold compact_text. rewrite IL, andb_false_r. cbn [andb].
              rewrite (lines_ext first d _ (fun d => join comma_space (map (painted col) (s0 :: is)) :: map (join comma_space) (rows width_limit (map (painted col) [s]) (zlen (sc_bytes s)) (items d l)))).
              ** rewrite (lines_cons first d (fun _ => _)). now rewrite Z.add_0_r.
              ** intro d'. cbn [items map scalar_width layout rows].
                 destruct (Z.ltb_spec width_limit (Z.of_nat (length (sc_bytes s)))); [unfold zlen in *; lia|].
                 replace (total + 2 + Z.of_nat (length (sc_bytes s)))%Z with total' by (unfold total', zlen; lia). rewrite GT'. reflexivity.
        -- destruct (alone_run false (JScalar s) l e (zlen (sc_bytes s)) _ WV (wide_run l e _ H' GT2)) as (n & cs & R & T).
           exists n, (start_calls first ++ csi ++ cs). split.
           ++ intros f rest L. eapply (ebnd_done _ _ _ _ _ [] _ _ _ _ (arr_advance_cons (JScalar s) _)). cbn [ev orb body app]. fold total'. rewrite GT'.
              eapply ebnd_done; [apply start_done|]. eapply ebnd_done; [apply Ri|]. rewrite (proj2 (Z.leb_gt _ _) GT2).
              specialize (R f rest L). rewrite ebnd_assoc in R. exact R.
           ++ eapply does_eq; [exact (does_app _ _ _ _ _ _ (start_does first) (does_app _ _ _ _ _ _ Ti T))|destruct first; reflexivity|].
              intro d. unfold compact_text. rewrite IL, andb_false_r.
              rewrite (lines_ext first d _ (fun d => join comma_space (map (painted col) (s0 :: is)) :: lay d (JScalar s) :: map (join comma_space) (map (fun x => [snd x]) (items d l)))).
              ** rewrite (lines_cons first d (fun _ => _)). now rewrite Z.add_0_r.
              ** intro d'. cbn [items map scalar_width layout rows].
                 destruct (Z.ltb_spec width_limit (Z.of_nat (length (sc_bytes s)))); [reflexivity|unfold zlen in *; lia].
Qed.

(* ------------------------------------------------------------------ *)
(** Objects with compaction. *)
Fixpoint all_fit (count total : Z) (ms : list (scalar * jval)) : bool :=
  match ms with
  | [] => true
  | (k, JScalar s) :: r =>
      let total' := (total + (zlen (sc_bytes k) + zlen (sc_bytes s) + 4))%Z in
      (count + 1 <=? max_items)%Z && (total' <=? width_limit)%Z && all_fit (count + 1) total' r
  | _ => false
  end.
Lemma member_width_min : forall l n, line_width (map member_width l) = Some n -> (-2 <= n)%Z.
Proof.
  induction l as [|[k v] l IH]; intros n H; cbn [map line_width] in H; [injection H as <-; lia|].
  unfold member_width at 1 in H. cbn [fst snd] in H. destruct v as [s| |]; cbn [scalar_width] in H; try discriminate.
  destruct (line_width _) as [m|] eqn:E; [|discriminate]. injection H as <-. specialize (IH m eq_refl). lia.
Qed.
Lemma all_fit_ok : forall ms count total, ms <> [] -> all_fit count total ms =
  (count + Z.of_nat (length ms) <=? max_items)%Z && match line_width (map member_width ms) with Some n => (total + 2 + n <=? width_limit)%Z | None => false end.
Proof.
  induction ms as [|[k v] ms IH]; intros count total NE; [congruence|]. clear NE. cbn [all_fit map line_width]. unfold member_width at 1. cbn [fst snd].
  destruct v as [s| |]; cbn [scalar_width]; [|now rewrite andb_false_r..].
  set (total' := (total + (zlen (sc_bytes k) + zlen (sc_bytes s) + 4))%Z).
  destruct ms as [|m ms].
  - cbn [all_fit map line_width length]. rewrite andb_true_r. f_equal. f_equal. unfold total', zlen. lia.
  - rewrite IH by discriminate. set (ms' := m :: ms) in *. destruct (line_width (map member_width ms')) as [n|] eqn:E; [|now rewrite !andb_false_r].
    pose proof (member_width_min _ _ E) as MN. replace (Z.of_nat (length ((k, JScalar s) :: ms'))) with (1 + Z.of_nat (length ms'))%Z by (cbn [length]; lia).
    assert (L1 : (1 <= Z.of_nat (length ms'))%Z) by (unfold ms'; cbn [length]; lia).
    assert (EQ : (total + 2 + (Z.of_nat (length (sc_bytes k)) + 2 + Z.of_nat (length (sc_bytes s)) + 2 + n) = total' + 2 + n)%Z) by (unfold total', zlen; lia). rewrite EQ.
    repeat match goal with |- context [(?a <=? ?b)%Z] => destruct (Z.leb_spec a b) end; cbn [andb]; try reflexivity; lia.
Qed.
Lemma object_inline_ok : forall l, object_inline width_limit max_items l = all_fit 0 (-2) l.
Proof.
  intros [|m l]; [reflexivity|]. rewrite all_fit_ok by discriminate. unfold object_inline, fits. cbn [LayoutSpec.empty orb]. f_equal.
Qed.

Lemma collect_exact : forall ms pending total e, exists pre post,
  ms = pre ++ post /\
  (if all_fit (Z.of_nat (length pending)) total ms then post = [] /\ bodies pre = [] else pre <> []) /\
  forall f rest, length ms < f ->
    collect_items width_limit max_items f pending total false (flat_map key_toks ms ++ elision e ++ TEndObj :: rest) =
    ([], EDone (pending ++ handles pre, all_fit (Z.of_nat (length pending)) total ms, all_fit (Z.of_nat (length pending)) total ms && e)
       (if all_fit (Z.of_nat (length pending)) total ms then rest
        else bodies pre ++ flat_map key_toks post ++ elision e ++ TEndObj :: rest)).
Proof.
  induction ms as [|[k v] ms IH]; intros pending total e.
  - exists [], []. split; [reflexivity|]. split; [cbn [all_fit]; auto|].
    intros [|f] rest L; [simpl in L; lia|]. cbn [collect_items flat_map app all_fit].
    cbn [handles map orb andb]. rewrite app_nil_r. eapply ebnd_eq; [apply (obj_advance_nil e rest)| |reflexivity]. reflexivity.
  - destruct (match v with JScalar s =>
         (Z.of_nat (length (pending ++ [(k, ev v)])) <=? max_items)%Z &&
         (total + (zlen (sc_bytes k) + zlen (sc_bytes s) + 4) <=? width_limit)%Z
       | _ => false end) eqn:GO.
    + destruct v as [s| |]; [|discriminate..].
      destruct (IH (pending ++ [(k, EScalar s)]) (total + (zlen (sc_bytes k) + zlen (sc_bytes s) + 4))%Z e) as (pre & post & EQ & C & R).
      assert (A : all_fit (Z.of_nat (length pending)) total ((k, JScalar s) :: ms) =
                  all_fit (Z.of_nat (length (pending ++ [(k, EScalar s)]))) (total + (zlen (sc_bytes k) + zlen (sc_bytes s) + 4)) ms).
      { cbn [all_fit]. cbn [ev] in GO. rewrite app_length in *. cbn [length] in *.
        replace (Z.of_nat (length pending) + 1)%Z with (Z.of_nat (length pending + 1)) by lia. rewrite GO. reflexivity. }
      exists ((k, JScalar s) :: pre), post. split; [rewrite EQ; reflexivity|]. rewrite A.
      split; [destruct (all_fit _ _ ms); [exact C|discriminate]|].
      intros [|f] rest L; [simpl in L; lia|]. cbn [collect_items]. rewrite flat_cons.
      eapply ebnd_eq; [apply (obj_advance_cons k (JScalar s))| |reflexivity].
      cbn [ev orb body app] in *. rewrite GO.
      rewrite R by (simpl in L; lia). cbn [handles map fst snd ev bodies flat_map body app].
      rewrite <- app_assoc. reflexivity.
    + assert (A : all_fit (Z.of_nat (length pending)) total ((k, v) :: ms) = false).
      { cbn [all_fit]. destruct v as [s| |]; [|reflexivity..]. cbn [ev] in GO. rewrite app_length in GO. cbn [length] in GO.
        replace (Z.of_nat (length pending) + 1)%Z with (Z.of_nat (length pending + 1)) by lia. rewrite GO. reflexivity. }
      exists [(k, v)], ms. split; [reflexivity|]. rewrite A. split; [discriminate|].
      intros [|f] rest L; [simpl in L; lia|]. cbn [collect_items]. rewrite flat_cons.
      eapply ebnd_eq; [apply (obj_advance_cons k v)| |reflexivity].
      cbn [orb andb handles map fst snd bodies flat_map]. rewrite app_nil_r.
      destruct v as [s|l0 e0|l0 e0]; cbn [ev] in *; [rewrite GO|..]; reflexivity.
Qed.

Definition separator (compact : bool) (d : Z) : bytes := if compact then comma_space else 44%N :: brk d.
Lemma pending_run : forall ms (compact : bool), Forall (fun m => writes (snd m)) ms -> exists n cs,
  (forall f rest, n <= f -> wpend f compact true (handles ms) (bodies ms ++ rest) = (cs, EDone tt rest)) /\
  does cs 0 (fun d => join (separator compact d) (map (member_text d) ms)).
Proof.
  intros ms compact.
  assert (F : forall ml, Forall (fun m => writes (snd m)) ml -> exists n cs,
    (forall f rest, n <= f -> wpend f compact false (handles ml) (bodies ml ++ rest) = (cs, EDone tt rest)) /\
    does cs 0 (fun d => flat_map (fun m => separator compact d ++ member_text d m) ml)).
  { induction ml as [|[k v] ms0 IH]; intro H.
    { exists 1, []. split; [|exact does_nil]. intros [|f] rest L; [lia|]. reflexivity. }
    inversion H as [|? ? (n1 & cs1 & R1 & T1) H']; subst. cbn [snd] in *. destruct (IH H') as (n2 & cs2 & R2 & T2).
    set (sep := if compact then [PBytes compact_item_separator_bytes] else [PBytes item_separator_bytes; PNewLine]).
    assert (SD : does sep 0 (separator compact)) by (unfold sep; destruct compact; [apply does_bytes|exact (start_does false)]).
    exists (S (n1 + n2)), (sep ++ (print_scalar col k ++ [PBytes key_value_separator_bytes] ++ cs1) ++ cs2). split.
    - intros [|f] rest L; [lia|]. cbn [write_pending handles map fst snd bodies flat_map]. rewrite <- app_assoc.
      eapply ebnd_done; [instantiate (1 := body v ++ flat_map (fun m => body (snd m)) ms0 ++ rest); unfold sep; destruct compact; reflexivity|].
      rewrite <- !app_assoc. eapply ebnd_eq; [reflexivity| |reflexivity]. eapply ebnd_eq; [reflexivity| |reflexivity].
      eapply ebnd_done; [apply R1; lia|]. apply R2; lia.
    - eapply does_eq; [exact (does_app _ _ _ _ _ _ SD (does_app _ _ _ _ _ _ (member_does k v cs1 T1) T2))|reflexivity|].
      intro d. cbn [flat_map]. rewrite !Z.add_0_r, <- app_assoc. reflexivity. }
  intro H. destruct ms as [|[k v] ms].
  { exists 1, []. split; [|exact does_nil]. intros [|f] rest L; [lia|]. reflexivity. }
  inversion H as [|? ? (n1 & cs1 & R1 & T1) H']; subst. cbn [snd] in *. destruct (F ms H') as (n2 & cs2 & R2 & T2).
  exists (S (n1 + n2)), (print_scalar col k ++ [PBytes key_value_separator_bytes] ++ cs1 ++ cs2). split.
  - intros [|f] rest L; [lia|]. cbn [write_pending handles map fst snd bodies flat_map]. rewrite <- app_assoc.
    apply (ebnd_done _ _ _ _ _ [] tt (body v ++ flat_map (fun m => body (snd m)) ms ++ rest)); [reflexivity|].
    eapply ebnd_eq; [reflexivity| |reflexivity]. eapply ebnd_eq; [reflexivity| |reflexivity].
    eapply ebnd_done; [apply R1; lia|]. apply R2; lia.
  - assert (EQ : print_scalar col k ++ [PBytes key_value_separator_bytes] ++ cs1 ++ cs2 = (print_scalar col k ++ [PBytes key_value_separator_bytes] ++ cs1) ++ cs2) by now rewrite <- !app_assoc.
    rewrite EQ. eapply does_eq; [exact (does_app _ _ _ _ _ _ (member_does k v cs1 T1) T2)|reflexivity|].
    intro d. cbn [map]. rewrite Z.add_0_r. clear. generalize (k, v) as m. induction ms as [|m' ms IH]; intro m; rewrite join_cons; [reflexivity|].
    cbn [map flat_map]. f_equal. rewrite <- app_assoc. f_equal. exact (IH m').
Qed.

Lemma object_rest_run : forall l e, Forall (fun m => writes (snd m)) l -> exists n cs,
  (forall f rest, n <= f -> orest f false (flat_map key_toks l ++ elision e ++ TEndObj :: rest) = (cs, EDone tt rest)) /\
  does cs (-1) (fun d => more d (map (member_text d) l) ++ (if e then brk d ++ [46; 46; 46]%N else []) ++ brk (d - 1)).
Proof.
  induction l as [|[k v] l IH]; intros e H.
  - exists 1, ((if e then [PNewLine; PBytes elision_bytes] else []) ++ [PDedent]). split.
    + intros [|f] rest L; [lia|]. cbn [object_rest flat_map app].
      eapply ebnd_eq; [apply obj_advance_nil| |reflexivity]. destruct e; reflexivity.
    + assert (A : does (if e then [PNewLine; PBytes elision_bytes] else []) 0 (fun d => if e then brk d ++ [46; 46; 46]%N else [])).
      { destruct e; [|exact does_nil]. eapply does_eq; [exact (does_app _ _ _ _ _ _ does_newline (does_bytes elision_bytes))|reflexivity|reflexivity]. }
      eapply does_eq; [exact (does_app _ _ _ _ _ _ A does_dedent)|reflexivity|]. intro d. cbn [more flat_map map app]. now rewrite Z.add_0_r.
  - inversion H as [|? ? (n1 & cs1 & R1 & T1) H']; subst. cbn [snd] in *. destruct (IH e H') as (n2 & cs2 & R2 & T2).
    exists (S (n1 + n2)), (start_calls false ++ (print_scalar col k ++ [PBytes key_value_separator_bytes] ++ cs1) ++ cs2). split.
    + intros [|f] rest L; [lia|]. cbn [object_rest]. rewrite flat_cons.
      eapply ebnd_eq; [apply (obj_advance_cons k v)| |reflexivity]. cbn [orb start_calls]. rewrite <- !app_assoc.
      change ([PBytes item_separator_bytes; PNewLine] ++ print_scalar col k ++ [PBytes key_value_separator_bytes] ++ cs1 ++ cs2) with
        ([PBytes item_separator_bytes] ++ [PNewLine] ++ print_scalar col k ++ [PBytes key_value_separator_bytes] ++ cs1 ++ cs2).
      do 4 (eapply ebnd_eq; [reflexivity| |reflexivity]). eapply ebnd_done; [apply R1; lia|]. apply R2; lia.
    + eapply does_eq; [exact (does_app _ _ _ _ _ _ (start_does false) (does_app _ _ _ _ _ _ (member_does k v cs1 T1) T2))|reflexivity|].
      intro d. cbn [more map flat_map step begin_text]. rewrite !Z.add_0_r. cbn [app]. now rewrite <- !app_assoc.
Qed.

Lemma object_compact_run : forall l e, Forall (fun m => writes (snd m)) l -> exists n cs,
  (forall f rest, n <= f -> wcompact f (flat_map key_toks l ++ elision e ++ TEndObj :: rest) = (cs, EDone tt rest)) /\
  does cs 0 (fun d => lay d (JObj l e)).
Proof.
  intros l e H. destruct (collect_exact l [] (-2)%Z e) as (pre & post & EQ & C & R). cbn [length Z.of_nat] in *.
  pose proof (object_inline_ok l) as IL.
  assert (H12 : Forall (fun m => writes (snd m)) pre /\ Forall (fun m => writes (snd m)) post) by (rewrite EQ in H; now apply Forall_app in H). destruct H12 as [H1 H2].
  destruct (pending_run pre (all_fit 0 (-2) l) H1) as (n1 & cs1 & R1 & T1).
  destruct (all_fit 0 (-2) l) eqn:AF.
  - destruct C as [-> C]. rewrite app_nil_r in EQ. subst l.
    exists (S (S (length pre + n1))), ([PBytes open_object_bytes] ++ (cs1 ++ if e then [PBytes elision_bytes] else []) ++ [PBytes close_object_bytes]). split.
    + intros [|f] rest L; [lia|]. cbn [write_object_compact].
      eapply ebnd_eq; [apply R; lia| |reflexivity].
      cbn [app andb]. eapply ebnd_eq; [reflexivity| |reflexivity].
      eapply ebnd_eq; [| |reflexivity].
      { eapply ebnd_eq; [| |reflexivity].
        { specialize (R1 f rest ltac:(lia)). rewrite C in R1. exact R1. }
        instantiate (1 := rest). instantiate (1 := tt). destruct e; reflexivity. }
      reflexivity.
    + assert (E : does (if e then [PBytes elision_bytes] else []) 0 (fun _ => dots e)) by (destruct e; [apply does_bytes|exact does_nil]).
      eapply does_eq; [exact (does_app _ _ _ _ _ _ (does_bytes open_object_bytes) (does_app _ _ _ _ _ _ (does_app _ _ _ _ _ _ T1 E) (does_bytes close_object_bytes)))|reflexivity|].
      intro d. cbn [layout]. rewrite IL, Z.add_0_r. cbn [open_object_bytes app]. reflexivity.
  - destruct (object_rest_run post e H2) as (n2 & cs2 & R2 & T2).
    exists (S (S (length l + n1 + n2))), ([PBytes open_object_bytes] ++ ([PIndent] ++ cs1 ++ cs2) ++ [PBytes close_object_bytes]). split.
    + intros [|f] rest L; [lia|]. cbn [write_object_compact].
      eapply ebnd_eq; [apply R; lia| |reflexivity].
      cbn [app andb]. eapply ebnd_eq; [reflexivity| |reflexivity].
      eapply ebnd_eq.
      { eapply ebnd_eq; [reflexivity| |reflexivity].
        eapply ebnd_eq; [apply R1; lia| |reflexivity]. apply R2; lia. }
      { reflexivity. }
      reflexivity.
    + eapply does_eq; [exact (does_app _ _ _ _ _ _ (does_bytes open_object_bytes) (does_app _ _ _ _ _ _ (does_app _ _ _ _ _ _ does_indent (does_app _ _ _ _ _ _ T1 T2)) (does_bytes close_object_bytes)))|reflexivity|].
      intro d. cbn [layout]. rewrite IL, !Z.add_0_r. cbn [open_object_bytes app]. f_equal. f_equal. unfold broken. f_equal.
      change (map (fun m => painted col (fst m) ++ colon_space ++ lay (d + 1) (snd m)) l) with (map (member_text (d + 1)) l).
      rewrite EQ, map_app. replace (d + 1 - 1)%Z with d by lia. cbn [separator].
      destruct pre as [|m pre]; [congruence|]. cbn [map app]. rewrite !join_more. unfold more. rewrite flat_map_app, <- !app_assoc. reflexivity.
Qed.

Lemma wv_arr : forall f, wv (S f) EArray =
  if (0 <? width_limit)%Z then ebnd (pb open_array_bytes) (fun _ => citems f [] (-2)%Z true false)
  else ebnd (pb open_array_bytes) (fun _ => aitems f true false).
Proof. reflexivity. Qed.
Lemma wv_obj : forall f, wv (S f) EObject =
  if (0 <? max_items)%Z then wcompact f
  else ebnd (pb open_object_bytes) (fun _ => oitems f true false).
Proof. reflexivity. Qed.

(** Every value is written as it is laid out. *)
Theorem write_value_layout : forall v, writes v.
Proof.
  apply jval_induction.
  - exact scalar_writes.
  - intros l e H.
    assert (G : exists n cs, (forall f rest, n <= f -> (if (0 <? width_limit)%Z then citems f [] (-2)%Z true false else aitems f true false) (flat_map toks l ++ elision e ++ TEndArr :: rest) = (cs, EDone tt rest)) /\
      does cs 0 (fun d => (if array_inline width_limit l then join comma_space (map (lay d) l) ++ dots e
               else broken size d (map (join comma_space) (array_rows width_limit (map (fun x => (scalar_width x, lay (d + 1) x)) l))) e) ++ [93%N])).
    { unfold array_inline, array_rows. destruct (Z.ltb_spec 0 width_limit) as [W|W].
      - destruct (compact_items_run W l e true [] (-2)%Z H) as (n & cs & R & T); [split; [reflexivity|lia]|]. exists n, cs. split; [exact R|].
        eapply does_eq; [exact T|reflexivity|]. intro d. unfold compact_text. cbn [andb map app].
        assert (E : inline (-2) l = LayoutSpec.empty l || fits width_limit (map scalar_width l)).
        { unfold inline, fits. destruct l; [cbn [LayoutSpec.empty orb map line_width]; apply Z.leb_le; lia|]. cbn [LayoutSpec.empty orb]. destruct (line_width _); reflexivity. }
        rewrite E. destruct (LayoutSpec.empty l || fits width_limit (map scalar_width l)); [now rewrite <- app_assoc|].
        unfold lines_text, broken, step. rewrite (rows_nil (-2)). unfold end_text. replace (d + 1 - 1)%Z with d by lia. rewrite <- !app_assoc. reflexivity.
      - cbn [andb]. rewrite orb_false_r. destruct l as [|v l].
        + exists 1, (end_calls true e close_array_bytes). split.
          * intros [|f] rest L; [lia|]. cbn [array_items flat_map app].
            apply (ebnd_done _ _ _ _ _ [] _ _ _ _ (arr_advance_nil e rest)). exact (end_done true e close_array_bytes rest).
          * eapply does_eq; [apply end_does|reflexivity|]. intro d. cbn [LayoutSpec.empty map join app]. unfold end_text. cbn [app]. destruct e; reflexivity.
        + destruct (array_items_run (v :: l) e true H ltac:(discriminate)) as (n & cs & R & T). exists n, cs. split; [exact R|].
          eapply does_eq; [exact T|reflexivity|]. intro d. cbn [LayoutSpec.empty]. unfold lines_text, broken, step, end_text. replace (d + 1 - 1)%Z with d by lia.
          rewrite <- !app_assoc. f_equal. f_equal. f_equal. rewrite !map_map. apply map_ext. intro x. reflexivity. }
    destruct G as (n & cs & R & T). exists (S n), ([PBytes open_array_bytes] ++ cs). split.
    + intros [|f] rest L; [lia|]. cbn [ev body]. rewrite wv_arr, <- !app_assoc. specialize (R f rest ltac:(lia)).
      destruct (0 <? width_limit)%Z; (eapply ebnd_eq; [reflexivity|exact R|reflexivity]).
    + eapply does_eq; [exact (does_app _ _ _ _ _ _ (does_bytes open_array_bytes) T)|reflexivity|]. intro d. cbn [layout]. rewrite Z.add_0_r. reflexivity.
  - intros l e H. destruct (Z.ltb_spec 0 max_items) as [M|M].
    + destruct (object_compact_run l e H) as (n & cs & R & T). exists (S n), cs. split; [|exact T].
      intros [|f] rest L; [lia|]. cbn [ev body]. rewrite wv_obj, (proj2 (Z.ltb_lt 0 max_items) M), <- !app_assoc. exact (R f rest ltac:(lia)).
    + assert (G : exists n cs, (forall f rest, n <= f -> oitems f true false (flat_map key_toks l ++ elision e ++ TEndObj :: rest) = (cs, EDone tt rest)) /\
        does cs 0 (fun d => (if object_inline width_limit max_items l then join comma_space (map (fun m => painted col (fst m) ++ colon_space ++ lay d (snd m)) l) ++ dots e
                else broken size d (map (fun m => painted col (fst m) ++ colon_space ++ lay (d + 1) (snd m)) l) e) ++ [125%N])).
      { destruct l as [|m l].
        - exists 1, (end_calls true e close_object_bytes). split.
          * intros [|f] rest L; [lia|]. cbn [object_items flat_map app].
            apply (ebnd_done _ _ _ _ _ [] _ _ _ _ (obj_advance_nil e rest)). exact (end_done true e close_object_bytes rest).
          * eapply does_eq; [apply end_does|reflexivity|]. intro d. cbn [object_inline LayoutSpec.empty map join app orb]. unfold end_text. cbn [app]. destruct e; reflexivity.
        - destruct (object_items_run (m :: l) e true H ltac:(discriminate)) as (n & cs & R & T). exists n, cs. split; [exact R|].
          assert (IL : object_inline width_limit max_items (m :: l) = false).
          { unfold object_inline. cbn [LayoutSpec.empty orb]. destruct (Z.leb_spec (Z.of_nat (length (m :: l))) max_items) as [K|K]; [cbn [length] in K; lia|reflexivity]. }
          rewrite IL. eapply does_eq; [exact T|reflexivity|]. intro d. unfold lines_text, broken, step, end_text. replace (d + 1 - 1)%Z with d by lia.
          rewrite <- !app_assoc. reflexivity. }
      destruct G as (n & cs & R & T). exists (S n), ([PBytes open_object_bytes] ++ cs). split.
      * intros [|f] rest L; [lia|]. cbn [ev body]. rewrite wv_obj, (proj2 (Z.ltb_ge 0 max_items) M), <- !app_assoc.
        eapply ebnd_eq; [reflexivity| |reflexivity]. exact (R f rest ltac:(lia)).
      * eapply does_eq; [exact (does_app _ _ _ _ _ _ (does_bytes open_object_bytes) T)|reflexivity|]. intro d. cbn [layout]. rewrite Z.add_0_r. reflexivity.
Qed.

Theorem consume_layout : forall vs, exists n cs,
  (forall f, n <= f -> consume_loop col width_limit max_items f (stream vs) = (cs, EDone tt [])) /\
  txt 0 cs = flat_map (fun v => lay 0 v ++ [10%N]) vs.
Proof.
  induction vs as [|v vs (n2 & cs2 & R2 & T2)].
  - exists 1, []. split; [intros [|f] L; [lia|]; reflexivity|reflexivity].
  - destruct (write_value_layout v) as (n1 & cs1 & R1 & T1).
    exists (S (n1 + n2)), (cs1 ++ [PReset] ++ cs2). split.
    + intros [|f] L; [lia|]. cbn [consume_loop stream flat_map]. rewrite toks_split.
      eapply ebnd_eq; [reflexivity| |reflexivity]. eapply ebnd_eq; [apply next_value_hd| |reflexivity].
      eapply ebnd_eq; [apply R1; lia| |reflexivity]. eapply ebnd_eq; [reflexivity| |reflexivity]. apply R2; lia.
    + rewrite text_app. destruct (T1 0%Z) as [-> ->]. rewrite Z.add_0_r. cbn [app]. rewrite text_reset, T2. cbn [flat_map]. now rewrite <- app_assoc.
Qed.
End Run.

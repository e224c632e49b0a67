(** The JSON encoder writes texts of the values it receives. *)
From Coq Require Import List Arith ZArith NArith Bool Lia.
From Verif Require Import Base Tokens JsonSpec EncSpec PrinterModel JsonEncModel.
Local Open Scope N_scope.

(** The text a list of printer calls amounts to. *)
Section Text.
Variable size : Z.
Variable flusher : bool.

Definition text (lvl : Z) (cs : list pcall) : bytes := written (printer_run size flusher lvl cs).

Fixpoint level (lvl : Z) (cs : list pcall) : Z :=
  match cs with
  | [] => lvl
  | c :: r => level (snd (printer_call size flusher lvl c)) r
  end.

Lemma written_app : forall a b, written (a ++ b) = written a ++ written b.
Proof.
  induction a as [|[x|] a IH]; intros b; cbn [app written]; [reflexivity| |apply IH].
  rewrite IH, app_assoc. reflexivity.
Qed.

Lemma text_app : forall a b lvl, text lvl (a ++ b) = text lvl a ++ text (level lvl a) b.
Proof.
  unfold text. induction a as [|c a IH]; intros b lvl; [reflexivity|].
  cbn [app printer_run level]. destruct (printer_call size flusher lvl c) as [w l']. cbn [snd].
  rewrite !written_app, IH, app_assoc. reflexivity.
Qed.

Lemma text_nil : forall lvl, text lvl [] = [].
Proof. reflexivity. Qed.

Lemma text_bytes : forall b r lvl, text lvl (PBytes b :: r) = b ++ text lvl r.
Proof. reflexivity. Qed.

Definition nl (lvl : Z) : bytes := written (new_line size flusher lvl).

Lemma written_nl : written (write_nl flusher) = [10].
Proof. unfold write_nl. destruct flusher; reflexivity. Qed.

Lemma nl_ws : forall lvl, ws (nl lvl).
Proof.
  intros lvl. unfold nl, new_line. destruct (size <? 0)%Z; [constructor|].
  rewrite written_app, written_nl. constructor; [right; right; left; reflexivity|].
  induction (Z.to_nat (size * lvl)) as [|n IH]; [constructor|].
  cbn [repeat written app]. constructor; [left; reflexivity|exact IH].
Qed.

Lemma text_indent : forall r lvl, text lvl (PIndent :: r) = nl (lvl + 1) ++ text (lvl + 1) r.
Proof. intros. unfold text. cbn [printer_run printer_call]. apply written_app. Qed.
Lemma text_dedent : forall r lvl, text lvl (PDedent :: r) = nl (lvl - 1) ++ text (lvl - 1) r.
Proof. intros. unfold text. cbn [printer_run printer_call]. apply written_app. Qed.
Lemma text_newline : forall r lvl, text lvl (PNewLine :: r) = nl lvl ++ text lvl r.
Proof. intros. unfold text. cbn [printer_run printer_call]. apply written_app. Qed.
Lemma text_reset : forall r lvl, text lvl (PReset :: r) = 10 :: text 0 r.
Proof.
  intros. unfold text. cbn [printer_run printer_call]. rewrite written_app, written_nl. reflexivity.
Qed.
End Text.

Ltac tx := repeat first [ progress cbn [app level printer_call snd] | rewrite text_bytes | rewrite text_indent | rewrite text_dedent
  | rewrite text_newline | rewrite text_reset | rewrite text_nil | rewrite text_app
  | rewrite app_nil_r ].

(** Evaluation. *)
Lemma ebnd_done : forall A B (m : enc A) (f : A -> enc B) ts cs a r cs' o,
  m ts = (cs, EDone a r) -> f a r = (cs', o) -> ebnd m f ts = (cs ++ cs', o).
Proof. intros A B m f ts cs a r cs' o H H'. unfold ebnd. rewrite H, H'. reflexivity. Qed.

Lemma ebnd_eq : forall A B (m : enc A) (f : A -> enc B) ts cs a r cs' o c,
  m ts = (cs, EDone a r) -> f a r = (cs', o) -> c = cs ++ cs' -> ebnd m f ts = (c, o).
Proof. intros; subst; eapply ebnd_done; eauto. Qed.

Lemma ebnd_assoc : forall A B C (m : enc A) (f : A -> enc B) (g : B -> enc C) ts,
  ebnd (ebnd m f) g ts = ebnd m (fun x => ebnd (f x) g) ts.
Proof.
  intros. unfold ebnd. destruct (m ts) as [cs [a r| |]]; [|reflexivity..].
  destruct (f a r) as [cs' [b r'| |]]; [|reflexivity..].
  destruct (g b r') as [cs'' o]. rewrite app_assoc. reflexivity.
Qed.

Lemma ecalls_done : forall cs ts, ecalls cs ts = (cs, EDone tt ts).
Proof. reflexivity. Qed.

Definition ev (v : jval) : evalue :=
  match v with JScalar s => EScalar s | JArr _ _ => EArray | JObj _ _ => EObject end.
Definition key_toks (m : scalar * jval) : list token := TScalar (fst m) :: toks (snd m).
Definition hd_tok (v : jval) : token :=
  match v with JScalar s => TScalar s | JArr _ _ => TStartArr | JObj _ _ => TStartObj end.
Definition body (v : jval) : list token :=
  match v with
  | JScalar s => []
  | JArr l e => flat_map toks l ++ elision e ++ [TEndArr]
  | JObj l e => flat_map key_toks l ++ elision e ++ [TEndObj]
  end.

Lemma toks_split : forall v, toks v = hd_tok v :: body v.
Proof. destruct v; reflexivity. Qed.

Lemma flat_cons : forall k v l x,
  flat_map key_toks ((k, v) :: l) ++ x = TScalar k :: toks v ++ flat_map key_toks l ++ x.
Proof. intros. cbn [flat_map key_toks fst snd app]. rewrite <- app_assoc. reflexivity. Qed.

Lemma next_value_hd : forall v r, next_value (hd_tok v) r = ([], EDone (ev v) r).
Proof. destruct v; reflexivity. Qed.

Lemma obj_advance_cons : forall k v r,
  obj_advance (TScalar k :: toks v ++ r) = ([], EDone (Some (k, ev v), false) (body v ++ r)).
Proof. intros. rewrite toks_split. unfold obj_advance. cbn [app obj_advance_l].
  rewrite next_value_hd. reflexivity. Qed.

Lemma obj_advance_nil : forall e r,
  obj_advance (elision e ++ TEndObj :: r) = ([], EDone (None, e) r).
Proof. intros [] r; reflexivity. Qed.

Lemma arr_advance_cons : forall v r,
  arr_advance (toks v ++ r) = ([], EDone (Some (ev v), false) (body v ++ r)).
Proof. intros. rewrite toks_split. unfold arr_advance.
  destruct v; reflexivity. Qed.

Lemma arr_advance_nil : forall e r,
  arr_advance (elision e ++ TEndArr :: r) = ([], EDone (None, e) r).
Proof. intros [] r; reflexivity. Qed.

Definition phead (l : list jval) (e : bool) (t : bytes) : Prop :=
  match l with
  | [] => exists w1 w2, ws w1 /\ ws w2 /\ t = w1 ++ dots e ++ w2
  | v :: l' => exists w tv r, ws w /\ ptext v tv /\ ptail l' e r /\ t = w ++ tv ++ r
  end.
Definition qhead (l : list (scalar * jval)) (e : bool) (t : bytes) : Prop :=
  match l with
  | [] => exists w1 w2, ws w1 /\ ws w2 /\ t = w1 ++ dots e ++ w2
  | (k, v) :: l' => exists w w1 w2 tv r, ws w /\ ws w1 /\ ws w2 /\ ptext v tv /\ qtail l' e r /\
      t = w ++ sc_bytes k ++ w1 ++ 58 :: w2 ++ tv ++ r
  end.

Lemma pt_arr_head : forall l e t, phead l e t -> ptext (JArr l e) (91 :: t ++ [93]).
Proof.
  intros [|v l] e t H.
  - destruct H as [w1 [w2 [W1 [W2 ->]]]]. constructor; auto.
  - destruct H as [w [tv [r [W [T [R ->]]]]]]. constructor; auto.
Qed.
Lemma pt_obj_head : forall l e t, qhead l e t -> ptext (JObj l e) (123 :: t ++ [125]).
Proof.
  intros [|[k v] l] e t H.
  - destruct H as [w1 [w2 [W1 [W2 ->]]]]. constructor; auto.
  - destruct H as [w [w1 [w2 [tv [r [W [W1 [W2 [T [R ->]]]]]]]]]]. constructor; auto.
Qed.

Lemma ws_nil : ws [].
Proof. constructor. Qed.
Lemma ws_space : ws [32].
Proof. constructor; [left; reflexivity|constructor]. Qed.
Lemma ws_app : forall a b, ws a -> ws b -> ws (a ++ b).
Proof. intros a b A B. apply Forall_app. auto. Qed.

Lemma ptail_ws : forall l e w t, ws w -> ptail l e t -> ptail l e (w ++ t).
Proof.
  intros l e w t W H. destruct H as [e w1 w2 W1 W2|v l e w0 w' t r W0 W' T R].
  - rewrite app_assoc. constructor; auto using ws_app.
  - rewrite app_assoc. constructor; auto using ws_app.
Qed.
Lemma qtail_ws : forall l e w t, ws w -> qtail l e t -> qtail l e (w ++ t).
Proof.
  intros l e w t W H. destruct H as [e w1 w2 W1 W2|k v l e w0 w' w1 w2 t r W0 W' W1 W2 T R].
  - rewrite app_assoc. constructor; auto using ws_app.
  - rewrite app_assoc. constructor; auto using ws_app.
Qed.

Section Run.
Variable size : Z.
Variable flusher : bool.
Variable width_limit max_items : Z.
Notation txt := (text size flusher).
Notation wv := (write_value None width_limit max_items).
Notation oitems := (object_items None width_limit max_items).
Notation aitems := (array_items None width_limit max_items).
Notation citems := (array_items_compact None width_limit max_items).
Notation wpend := (write_pending None width_limit max_items).
Notation wcompact := (write_object_compact None width_limit max_items).
Notation orest := (object_rest None width_limit max_items).

Definition writes (v : jval) : Prop := exists n cs,
  (forall f rest, (n <= f)%nat -> wv f (ev v) (body v ++ rest) = (cs, EDone tt rest)) /\
  forall lvl, ptext v (txt lvl cs).

Ltac nrm := repeat (progress cbn [app] || rewrite <- app_assoc).
Ltac ed := eapply ebnd_done; [first [reflexivity | eassumption | eauto]|].


Definition start_calls (first : bool) : list pcall :=
  if first then [PIndent] else [PBytes item_separator_bytes; PNewLine].
Lemma start_done : forall (first : bool) ts,
  (if first then ecalls [PIndent] else ebnd (pb item_separator_bytes) (fun _ => ecalls [PNewLine])) ts =
  (start_calls first, EDone tt ts).
Proof. intros [] ts; reflexivity. Qed.

Definition end_calls (first e : bool) (close : bytes) : list pcall :=
  (if e then (if first then [] else [PNewLine]) ++ [PBytes elision_bytes] else [])
  ++ (if first then [] else [PDedent]) ++ [PBytes close].
Lemma end_done : forall (first e : bool) close ts,
  ebnd (if e then ebnd (if first then eret tt else ecalls [PNewLine]) (fun _ => pb elision_bytes)
        else eret tt)
    (fun _ => ebnd (if first then eret tt else ecalls [PDedent]) (fun _ => pb close)) ts =
  (end_calls first e close, EDone tt ts).
Proof. intros [] [] close ts; reflexivity. Qed.

Lemma end_text : forall (first e : bool) close lvl, exists w1 w2, ws w1 /\ ws w2 /\
  txt lvl (end_calls first e close) = (w1 ++ dots e ++ w2) ++ close.
Proof.
  intros [] [] close lvl; unfold end_calls; tx.
  - exists [], []. repeat (split; [apply ws_nil|]). rewrite ?app_nil_r. reflexivity.
  - exists [], []. repeat (split; [apply ws_nil|]). rewrite ?app_nil_r. reflexivity.
  - exists (nl size flusher lvl), (nl size flusher (lvl - 1)). split; [apply nl_ws|].
    split; [apply nl_ws|]. nrm. reflexivity.
  - exists [], (nl size flusher (lvl - 1)). split; [apply ws_nil|].
    split; [apply nl_ws|]. nrm. reflexivity.
Qed.

Lemma start_text : forall (first : bool) lvl r, exists w lvl', ws w /\
  txt lvl (start_calls first ++ r) = (if first then [] else [44]) ++ w ++ txt lvl' r.
Proof.
  intros [] lvl r; unfold start_calls; tx; eexists _, _; (split; [|reflexivity]); apply nl_ws.
Qed.

(** The text of a list of items, first ([first = true]) or following others. *)
Definition ptxt (first : bool) (l : list jval) (e : bool) (t : bytes) : Prop :=
  if first then phead l e t else ptail l e t.
Definition qtxt (first : bool) (l : list (scalar * jval)) (e : bool) (t : bytes) : Prop :=
  if first then qhead l e t else qtail l e t.

Lemma ptxt_nil : forall first e w1 w2, ws w1 -> ws w2 -> ptxt first [] e (w1 ++ dots e ++ w2).
Proof. intros [] e w1 w2 W1 W2; simpl; [exists w1, w2; auto|constructor; auto]. Qed.
Lemma qtxt_nil : forall first e w1 w2, ws w1 -> ws w2 -> qtxt first [] e (w1 ++ dots e ++ w2).
Proof. intros [] e w1 w2 W1 W2; simpl; [exists w1, w2; auto|constructor; auto]. Qed.
Lemma ptxt_cons : forall (first : bool) v l e w t r, ws w -> ptext v t -> ptail l e r ->
  ptxt first (v :: l) e ((if first then [] else [44]) ++ w ++ t ++ r).
Proof.
  intros [] v l e w t r W T R; simpl; [exists w, t, r; auto|].
  apply (tl_cons v l e [] w t r); auto using ws_nil.
Qed.
Lemma qtxt_cons : forall (first : bool) k v l e w w1 w2 t r, ws w -> ws w1 -> ws w2 ->
  ptext v t -> qtail l e r ->
  qtxt first ((k, v) :: l) e ((if first then [] else [44]) ++ w ++ sc_bytes k ++ w1 ++ 58 :: w2 ++ t ++ r).
Proof.
  intros [] k v l e w w1 w2 t r W W1 W2 T R; simpl; [exists w, w1, w2, t, r; repeat (split; [assumption|]); auto|].
  apply (ql_cons k v l e [] w w1 w2 t r); auto using ws_nil.
Qed.

(** Writing an array without compaction. *)
Lemma array_items_run : forall l e (first : bool), Forall writes l -> exists n cs,
  (forall f rest, (n <= f)%nat ->
     aitems f first false (flat_map toks l ++ elision e ++ TEndArr :: rest) = (cs, EDone tt rest)) /\
  forall lvl, exists t, txt lvl cs = t ++ [93] /\ ptxt first l e t.
Proof.
  induction l as [|v l IH]; intros e first H.
  - exists 1%nat, (end_calls first e close_array_bytes). split.
    + intros [|f] rest L; [lia|]. cbn [array_items flat_map app].
      apply (ebnd_done _ _ _ _ _ [] _ _ _ _ (arr_advance_nil e rest)). apply end_done.
    + intros lvl. destruct (end_text first e close_array_bytes lvl) as [w1 [w2 [W1 [W2 E]]]].
      exists (w1 ++ dots e ++ w2). split; [exact E|]. apply ptxt_nil; auto.
  - inversion H as [|? ? [n1 [cs1 [R1 T1]]] H' E]; subst.
    destruct (IH e false H') as [n2 [cs2 [R2 T2]]].
    exists (S (n1 + n2)), (start_calls first ++ cs1 ++ cs2). split.
    + intros [|f] rest L; [lia|]. cbn [array_items flat_map]. rewrite <- app_assoc.
      apply (ebnd_done _ _ _ _ _ [] _ _ _ _ (arr_advance_cons v _)). cbn [orb].
      eapply ebnd_done; [apply start_done|].
      eapply ebnd_done; [apply R1; lia|]. apply R2; lia.
    + intros lvl. destruct (start_text first lvl (cs1 ++ cs2)) as [w [lvl' [W ->]]].
      rewrite text_app. destruct (T2 (level size flusher lvl' cs1)) as [t [-> P]].
      exists ((if first then [] else [44]) ++ w ++ txt lvl' cs1 ++ t). split; [nrm; rewrite <- ?app_assoc; reflexivity|].
      apply ptxt_cons; auto.
Qed.

(** Writing an object without compaction. *)
Lemma object_items_run : forall l e (first : bool), Forall (fun m => writes (snd m)) l -> exists n cs,
  (forall f rest, (n <= f)%nat ->
     oitems f first false (flat_map key_toks l ++ elision e ++ TEndObj :: rest) = (cs, EDone tt rest)) /\
  forall lvl, exists t, txt lvl cs = t ++ [125] /\ qtxt first l e t.
Proof.
  induction l as [|[k v] l IH]; intros e first H.
  - exists 1%nat, (end_calls first e close_object_bytes). split.
    + intros [|f] rest L; [lia|]. cbn [object_items flat_map app].
      apply (ebnd_done _ _ _ _ _ [] _ _ _ _ (obj_advance_nil e rest)). apply end_done.
    + intros lvl. destruct (end_text first e close_object_bytes lvl) as [w1 [w2 [W1 [W2 E]]]].
      exists (w1 ++ dots e ++ w2). split; [exact E|]. apply qtxt_nil; auto.
  - inversion H as [|? ? [n1 [cs1 [R1 T1]]] H' E]; subst. cbn [snd] in *.
    destruct (IH e false H') as [n2 [cs2 [R2 T2]]].
    exists (S (n1 + n2)), (start_calls first ++ [PBytes (sc_bytes k)] ++
      [PBytes key_value_separator_bytes] ++ cs1 ++ cs2). split.
    + intros [|f] rest L; [lia|]. cbn [object_items flat_map key_toks fst snd].
      rewrite <- app_assoc. rewrite <- app_comm_cons.
      apply (ebnd_done _ _ _ _ _ [] _ _ _ _ (obj_advance_cons k v _)). cbn [orb].
      eapply ebnd_done; [apply start_done|].
      eapply ebnd_eq; [reflexivity| |reflexivity]. eapply ebnd_eq; [reflexivity| |reflexivity].
      eapply ebnd_done; [apply R1; lia|]. apply R2; lia.
    + intros lvl. destruct (start_text first lvl ([PBytes (sc_bytes k)] ++
        [PBytes key_value_separator_bytes] ++ cs1 ++ cs2)) as [w [lvl' [W ->]]].
      tx. destruct (T2 (level size flusher lvl' cs1)) as [t [-> P]].
      exists ((if first then [] else [44]) ++ w ++ sc_bytes k ++ [] ++ 58 :: [32] ++ txt lvl' cs1 ++ t).
      split; [nrm; rewrite <- ?app_assoc; reflexivity|].
      apply qtxt_cons; auto using ws_nil, ws_space.
Qed.

(** Compact items of an array. *)
Lemma write_items_run : forall is (first : bool), exists cs,
  (forall ts, write_items None first is ts = (cs, EDone tt ts)) /\
  forall lvl, match is with
    | [] => txt lvl cs = []
    | s :: is' => exists u, txt lvl cs = (if first then [] else [44; 32]) ++ sc_bytes s ++ u /\
        forall l e r, ptail l e r -> ptail (map JScalar is' ++ l) e (u ++ r)
    end.
Proof.
  induction is as [|s is IH]; intros first.
  - exists []. split; reflexivity.
  - destruct (IH false) as [cs [R T]].
    exists ((if first then [] else [PBytes compact_item_separator_bytes]) ++ [PBytes (sc_bytes s)] ++ cs). split.
    + intros ts. cbn [write_items].
      eapply ebnd_done; [instantiate (1 := ts); destruct first; reflexivity|].
      eapply ebnd_done; [reflexivity|]. apply R.
    + intros lvl. specialize (T lvl). exists (txt lvl cs). split; [destruct first; tx; reflexivity|].
      intros l e r P. destruct is as [|s' is].
      * rewrite T. exact P.
      * destruct T as [u [-> H]]. cbn [map app]. rewrite <- app_assoc.
        apply (tl_cons (JScalar s') _ e [] [32] (sc_bytes s') (u ++ r));
          auto using ws_nil, ws_space. constructor.
Qed.

Lemma start_items_text : forall (first : bool) is cs ts cs2 l e,
  is <> [] -> write_items None true is ts = (cs, EDone tt ts) ->
  (forall lvl, exists t, txt lvl cs2 = t ++ [93] /\ ptail l e t) ->
  forall lvl, exists t, txt lvl (start_calls first ++ cs ++ cs2) = t ++ [93] /\
    ptxt first (map JScalar is ++ l) e t.
Proof.
  intros first is cs ts cs2 l e NE W T2 lvl.
  destruct (write_items_run is true) as [cs' [R T]]. rewrite R in W. injection W as W; subst cs'.
  destruct (start_text first lvl (cs ++ cs2)) as [w [lvl' [Ww ->]]].
  rewrite text_app. destruct (T2 (level size flusher lvl' cs)) as [t [-> P]].
  destruct is as [|s is]; [congruence|]. destruct (T lvl') as [u [-> H]].
  exists ((if first then [] else [44]) ++ w ++ sc_bytes s ++ u ++ t).
  split; [nrm; rewrite <- ?app_assoc; reflexivity|].
  cbn [map app]. apply ptxt_cons; auto. constructor.
Qed.

(** Writing an array with compaction. *)
Lemma nil_end : forall (first e : bool) lvl, exists t, txt lvl (end_calls first e close_array_bytes) = t ++ [93] /\
  ptxt first [] e t.
Proof.
  intros first e lvl. destruct (end_text first e close_array_bytes lvl) as [w1 [w2 [W1 [W2 E]]]].
  exists (w1 ++ dots e ++ w2). split; [exact E|]. apply ptxt_nil; auto.
Qed.

Lemma ptxt_true_items : forall s is e u t, (forall l e r, ptail l e r -> ptail (map JScalar is ++ l) e (u ++ r)) ->
  ptail [] e t -> ptxt true (map JScalar (s :: is) ++ []) e (sc_bytes s ++ u ++ t).
Proof.
  intros s is e u t H P. cbn [map app]. exists [], (sc_bytes s), (u ++ t).
  split; [apply ws_nil|]. split; [constructor|]. split; auto.
Qed.

Lemma compact_items_run : forall l e (first : bool) is total, Forall writes l -> exists n cs,
  (forall f rest, (n <= f)%nat ->
     citems f is total first false (flat_map toks l ++ elision e ++ TEndArr :: rest) = (cs, EDone tt rest)) /\
  forall lvl, exists t, txt lvl cs = t ++ [93] /\ ptxt first (map JScalar is ++ l) e t.
Proof.
  induction l as [|v l IH]; intros e first is total H.
  - destruct is as [|s is].
    + exists 1%nat, (end_calls first e close_array_bytes). split.
      * intros [|f] rest L; [lia|]. cbn [array_items_compact flat_map app].
        apply (ebnd_done _ _ _ _ _ [] _ _ _ _ (arr_advance_nil e rest)).
        cbn [orb]. apply (ebnd_done _ _ _ _ _ [] tt rest); [reflexivity|]. apply end_done.
      * apply nil_end.
    + destruct (write_items_run (s :: is) true) as [csi [Ri Ti]].
      exists 1%nat, (((if first then [] else start_calls false) ++ csi) ++ end_calls first e close_array_bytes). split.
      * intros [|f] rest L; [lia|]. cbn [array_items_compact flat_map app].
        apply (ebnd_done _ _ _ _ _ [] _ _ _ _ (arr_advance_nil e rest)).
        cbn [orb]. eapply ebnd_done; [|apply end_done].
        eapply ebnd_done; [|apply Ri]. destruct first; reflexivity.
      * intros lvl. destruct first.
        -- cbn [app]. rewrite text_app. destruct (Ti lvl) as [u [-> Hu]].
           destruct (nil_end true e (level size flusher lvl csi)) as [t [-> [w1 [w2 [W1 [W2 ->]]]]]].
           exists (sc_bytes s ++ u ++ w1 ++ dots e ++ w2). split; [nrm; rewrite <- ?app_assoc; reflexivity|].
           apply ptxt_true_items; auto. constructor; auto.
        -- rewrite <- app_assoc. apply (start_items_text false (s :: is) csi [] _ [] e); [discriminate|apply Ri|].
           apply (nil_end false e).
  - inversion H as [|? ? [n1 [cs1 [R1 T1]]] H' E]; subst.
    (* the value is written on its own *)
    assert (ALONE : forall (first : bool) total, exists n cs,
      (forall f rest, (n <= f)%nat ->
        ebnd (if first then ecalls [PIndent] else ebnd (pb item_separator_bytes) (fun _ => ecalls [PNewLine]))
         (fun _ => ebnd (wv f (ev v)) (fun _ => citems f [] total false false))
         (body v ++ flat_map toks l ++ elision e ++ TEndArr :: rest) = (cs, EDone tt rest)) /\
      forall lvl, exists t, txt lvl cs = t ++ [93] /\ ptxt first (v :: l) e t).
    { intros first0 total0. destruct (IH e false [] total0 H') as [n2 [cs2 [R2 T2]]].
      exists (n1 + n2)%nat, (start_calls first0 ++ cs1 ++ cs2). split.
      - intros f rest L. eapply ebnd_done; [apply start_done|].
        eapply ebnd_done; [apply R1; lia|]. apply R2; lia.
      - intros lvl. destruct (start_text first0 lvl (cs1 ++ cs2)) as [w [lvl' [W ->]]].
        rewrite text_app. destruct (T2 (level size flusher lvl' cs1)) as [t [-> P]].
        exists ((if first0 then [] else [44]) ++ w ++ txt lvl' cs1 ++ t).
        split; [nrm; rewrite <- ?app_assoc; reflexivity|]. apply ptxt_cons; auto. }
    (* the pending items are written, then the value on its own *)
    assert (AFTER : is <> [] -> forall total, exists n cs,
      (forall f rest, (n <= f)%nat ->
        ebnd (if first then ecalls [PIndent] else ebnd (pb item_separator_bytes) (fun _ => ecalls [PNewLine]))
         (fun _ => ebnd (write_items None true is) (fun _ => ebnd (pb item_separator_bytes) (fun _ =>
            ebnd (ecalls [PNewLine]) (fun _ => ebnd (wv f (ev v)) (fun _ => citems f [] total false false)))))
         (body v ++ flat_map toks l ++ elision e ++ TEndArr :: rest) = (cs, EDone tt rest)) /\
      forall lvl, exists t, txt lvl cs = t ++ [93] /\ ptxt first (map JScalar is ++ v :: l) e t).
    { intros NE total0. destruct (ALONE false total0) as [n2 [cs2 [R2 T2]]].
      destruct (write_items_run is true) as [csi [Ri Ti]].
      exists n2, (start_calls first ++ csi ++ cs2). split.
      - intros f rest L. eapply ebnd_done; [apply start_done|].
        eapply ebnd_done; [apply Ri|]. specialize (R2 f rest L). rewrite ebnd_assoc in R2. exact R2.
      - apply (start_items_text first is csi [] cs2 (v :: l) e NE (Ri [])). exact T2. }
    assert (GEN : exists n cs, (forall f rest, (n <= f)%nat ->
       citems (S f) is total first false (toks v ++ flat_map toks l ++ elision e ++ TEndArr :: rest) = (cs, EDone tt rest)) /\
       forall lvl, exists t, txt lvl cs = t ++ [93] /\ ptxt first (map JScalar is ++ v :: l) e t).
    2:{ destruct GEN as [n [cs [R T]]]. exists (S n), cs. split; [|exact T].
        intros [|f] rest L; [lia|]. cbn [flat_map]. rewrite <- app_assoc. apply R. lia. }
    destruct v as [s|l0 e0|l0 e0].
    + cbn [array_items_compact].
      destruct (total + (zlen (sc_bytes s) + 2) <=? width_limit)%Z eqn:LE.
      * destruct (IH e first (is ++ [s]) (total + (zlen (sc_bytes s) + 2))%Z H') as [n2 [cs2 [R2 T2]]].
        exists n2, cs2. split.
        -- intros f rest L. eapply (ebnd_done _ _ _ _ _ [] _ _ _ _ (arr_advance_cons (JScalar s) _)).
           cbn [ev orb body app]. rewrite LE. apply R2; lia.
        -- rewrite map_app in T2. intros lvl. destruct (T2 lvl) as [t P]. exists t.
           rewrite <- app_assoc in P. exact P.
      * destruct is as [|s0 is].
        -- destruct (ALONE first (total + (zlen (sc_bytes s) + 2))%Z) as [n2 [cs2 [R2 T2]]].
           exists n2, cs2. split; [|exact T2]. intros f rest L.
           eapply (ebnd_done _ _ _ _ _ [] _ _ _ _ (arr_advance_cons (JScalar s) _)).
           cbn [ev orb body app]. rewrite LE. apply R2; lia.
        -- destruct (zlen (sc_bytes s) <=? width_limit)%Z eqn:LE2.
           ++ destruct (IH e false [s] (zlen (sc_bytes s)) H') as [n2 [cs2 [R2 T2]]].
              destruct (write_items_run (s0 :: is) true) as [csi [Ri Ti]].
              exists n2, (start_calls first ++ csi ++ cs2). split.
              ** intros f rest L.
                 eapply (ebnd_done _ _ _ _ _ [] _ _ _ _ (arr_advance_cons (JScalar s) _)).
                 cbn [ev orb body app]. rewrite LE. eapply ebnd_done; [apply start_done|].
                 eapply ebnd_done; [apply Ri|]. rewrite LE2. apply R2; lia.
              ** apply (start_items_text first (s0 :: is) csi [] cs2 (JScalar s :: l) e); [discriminate|apply Ri|exact T2].
           ++ destruct (AFTER ltac:(discriminate) (zlen (sc_bytes s))) as [n2 [cs2 [R2 T2]]].
              exists n2, cs2. split; [|exact T2]. intros f rest L.
              eapply (ebnd_done _ _ _ _ _ [] _ _ _ _ (arr_advance_cons (JScalar s) _)).
              cbn [ev orb body app]. rewrite LE. rewrite LE2. apply R2; lia.
    + cbn [array_items_compact]. destruct is as [|s0 is].
      * destruct (ALONE first total) as [n2 [cs2 [R2 T2]]].
        exists n2, cs2. split; [|exact T2]. intros f rest L.
        eapply (ebnd_done _ _ _ _ _ [] _ _ _ _ (arr_advance_cons _ _)).
        cbn [ev orb]. apply R2; lia.
      * destruct (AFTER ltac:(discriminate) (-2)%Z) as [n2 [cs2 [R2 T2]]].
        exists n2, cs2. split; [|exact T2]. intros f rest L.
        eapply (ebnd_done _ _ _ _ _ [] _ _ _ _ (arr_advance_cons _ _)).
        cbn [ev orb]. apply R2; lia.
    + cbn [array_items_compact]. destruct is as [|s0 is].
      * destruct (ALONE first total) as [n2 [cs2 [R2 T2]]].
        exists n2, cs2. split; [|exact T2]. intros f rest L.
        eapply (ebnd_done _ _ _ _ _ [] _ _ _ _ (arr_advance_cons _ _)).
        cbn [ev orb]. apply R2; lia.
      * destruct (AFTER ltac:(discriminate) (-2)%Z) as [n2 [cs2 [R2 T2]]].
        exists n2, cs2. split; [|exact T2]. intros f rest L.
        eapply (ebnd_done _ _ _ _ _ [] _ _ _ _ (arr_advance_cons _ _)).
        cbn [ev orb]. apply R2; lia.
Qed.

(** Objects with compaction. *)
Definition bodies (ms : list (scalar * jval)) : list token := flat_map (fun m => body (snd m)) ms.
Definition handles (ms : list (scalar * jval)) : list (scalar * evalue) :=
  map (fun m => (fst m, ev (snd m))) ms.

Lemma collect_run : forall ms pending total e, exists pre post (compact : bool),
  ms = pre ++ post /\
  (if compact then post = [] /\ bodies pre = [] else pre <> []) /\
  forall f rest, (length ms < f)%nat ->
    collect_items width_limit max_items f pending total false
      (flat_map key_toks ms ++ elision e ++ TEndObj :: rest) =
    ([], EDone (pending ++ handles pre, compact, compact && e)
       (if compact then rest
        else bodies pre ++ flat_map key_toks post ++ elision e ++ TEndObj :: rest)).
Proof.
  induction ms as [|[k v] ms IH]; intros pending total e.
  - exists [], [], true. split; [reflexivity|]. split; [auto|].
    intros [|f] rest L; [simpl in L; lia|]. cbn [collect_items flat_map app].
    cbn [handles map orb andb]. rewrite app_nil_r.
    eapply ebnd_eq; [apply (obj_advance_nil e rest)| |reflexivity]. reflexivity.
  - destruct (match v with JScalar s =>
         (Z.of_nat (length (pending ++ [(k, ev v)])) <=? max_items)%Z &&
         (total + (zlen (sc_bytes k) + zlen (sc_bytes s) + 4) <=? width_limit)%Z
       | _ => false end) eqn:GO.
    + destruct v as [s| |]; [|discriminate..].
      destruct (IH (pending ++ [(k, EScalar s)]) (total + (zlen (sc_bytes k) + zlen (sc_bytes s) + 4))%Z e)
        as [pre [post [compact [EQ [C R]]]]].
      exists ((k, JScalar s) :: pre), post, compact. split; [rewrite EQ; reflexivity|].
      split; [destruct compact; [exact C|discriminate]|].
      intros [|f] rest L; [simpl in L; lia|]. cbn [collect_items]. rewrite flat_cons.
      eapply ebnd_eq; [apply (obj_advance_cons k (JScalar s))| |reflexivity].
      cbn [ev orb body app] in *. rewrite GO.
      rewrite R by (simpl in L; lia). cbn [handles map fst snd ev bodies flat_map body app].
      rewrite <- app_assoc. reflexivity.
    + exists [(k, v)], ms, false. split; [reflexivity|]. split; [discriminate|].
      intros [|f] rest L; [simpl in L; lia|]. cbn [collect_items]. rewrite flat_cons.
      eapply ebnd_eq; [apply (obj_advance_cons k v)| |reflexivity].
      cbn [orb andb handles map fst snd bodies flat_map]. rewrite app_nil_r.
      destruct v as [s|l0 e0|l0 e0]; cbn [ev] in *; [rewrite GO|..]; reflexivity.
Qed.

Lemma pending_run : forall ms (compact first : bool), Forall (fun m => writes (snd m)) ms ->
  exists n cs,
  (forall f rest, (n <= f)%nat ->
     wpend f compact first (handles ms) (bodies ms ++ rest) = (cs, EDone tt rest)) /\
  forall lvl, match ms with
    | [] => txt lvl cs = []
    | (k, v) :: ms' => exists w t u, ws w /\ ptext v t /\
        txt lvl cs = (if first then [] else 44 :: w) ++ sc_bytes k ++ [58; 32] ++ t ++ u /\
        forall l e r, qtail l e r -> qtail (ms' ++ l) e (u ++ r)
    end.
Proof.
  induction ms as [|[k v] ms IH]; intros compact first H.
  - exists 1%nat, []. split; [|reflexivity]. intros [|f] rest L; [lia|]. reflexivity.
  - inversion H as [|? ? [n1 [cs1 [R1 T1]]] H' E]; subst. cbn [snd] in *.
    destruct (IH compact false H') as [n2 [cs2 [R2 T2]]].
    exists (S (n1 + n2)), ((if first then [] else if compact then [PBytes compact_item_separator_bytes]
       else [PBytes item_separator_bytes; PNewLine]) ++ [PBytes (sc_bytes k)] ++
      [PBytes key_value_separator_bytes] ++ cs1 ++ cs2). split.
    + intros [|f] rest L; [lia|]. cbn [write_pending handles map fst snd bodies flat_map].
      rewrite <- app_assoc.
      eapply ebnd_done; [instantiate (1 := body v ++ flat_map (fun m => body (snd m)) ms ++ rest); destruct first, compact; reflexivity|].
      eapply ebnd_eq; [reflexivity| |reflexivity]. eapply ebnd_eq; [reflexivity| |reflexivity].
      eapply ebnd_done; [apply R1; lia|]. apply R2; lia.
    + intros lvl.
      assert (SEP : exists w, ws w /\ txt lvl ((if first then [] else if compact then [PBytes compact_item_separator_bytes]
          else [PBytes item_separator_bytes; PNewLine]) ++ [PBytes (sc_bytes k)] ++
          [PBytes key_value_separator_bytes] ++ cs1 ++ cs2) =
          (if first then [] else 44 :: w) ++ sc_bytes k ++ [58; 32] ++ txt lvl cs1 ++
            txt (level size flusher lvl cs1) cs2).
      { destruct first; [|destruct compact]; tx.
        - exists []. split; [apply ws_nil|reflexivity].
        - exists [32]. split; [apply ws_space|reflexivity].
        - exists (nl size flusher lvl). split; [apply nl_ws|]. nrm. reflexivity. }
      destruct SEP as [w [W ->]]. exists w, (txt lvl cs1), (txt (level size flusher lvl cs1) cs2).
      split; [exact W|]. split; [apply T1|]. split; [reflexivity|].
      intros l e r P. specialize (T2 (level size flusher lvl cs1)). destruct ms as [|[k' v'] ms].
      * rewrite T2. exact P.
      * destruct T2 as [w' [t [u [W' [T [-> Q]]]]]].
        match goal with |- qtail _ _ ?x => replace x
          with ([] ++ 44 :: w' ++ sc_bytes k' ++ [] ++ 58 :: [32] ++ t ++ (u ++ r)) by (nrm; reflexivity) end.
        cbn [app]. apply (ql_cons k' v' (ms ++ l) e [] w' [] [32]); auto using ws_nil, ws_space.
Qed.

Lemma object_rest_run : forall l e, Forall (fun m => writes (snd m)) l -> exists n cs,
  (forall f rest, (n <= f)%nat ->
     orest f false (flat_map key_toks l ++ elision e ++ TEndObj :: rest) = (cs, EDone tt rest)) /\
  forall lvl, qtail l e (txt lvl cs).
Proof.
  induction l as [|[k v] l IH]; intros e H.
  - exists 1%nat, ((if e then [PNewLine; PBytes elision_bytes] else []) ++ [PDedent]). split.
    + intros [|f] rest L; [lia|]. cbn [object_rest flat_map app].
      eapply ebnd_eq; [apply obj_advance_nil| |reflexivity]. destruct e; reflexivity.
    + intros lvl. destruct e; tx.
      * apply (ql_nil true); apply nl_ws.
      * apply (ql_nil false [] _ ws_nil (nl_ws _ _ _)).
  - inversion H as [|? ? [n1 [cs1 [R1 T1]]] H' E]; subst. cbn [snd] in *.
    destruct (IH e H') as [n2 [cs2 [R2 T2]]].
    exists (S (n1 + n2)), ([PBytes item_separator_bytes] ++ [PNewLine] ++ [PBytes (sc_bytes k)] ++
      [PBytes key_value_separator_bytes] ++ cs1 ++ cs2). split.
    + intros [|f] rest L; [lia|]. cbn [object_rest]. rewrite flat_cons.
      eapply ebnd_eq; [apply (obj_advance_cons k v)| |reflexivity]. cbn [orb].
      do 4 (eapply ebnd_eq; [reflexivity| |reflexivity]).
      eapply ebnd_done; [apply R1; lia|]. apply R2; lia.
    + intros lvl. tx.
      apply (ql_cons k v l e [] (nl size flusher lvl) [] [32]); auto using ws_nil, ws_space.
      apply nl_ws.
Qed.

Lemma bodies_app : forall a b, bodies (a ++ b) = bodies a ++ bodies b.
Proof. intros. apply flat_map_app. Qed.

Lemma object_compact_run : forall l e, Forall (fun m => writes (snd m)) l -> exists n cs,
  (forall f rest, (n <= f)%nat ->
     wcompact f (flat_map key_toks l ++ elision e ++ TEndObj :: rest) = (cs, EDone tt rest)) /\
  forall lvl, ptext (JObj l e) (txt lvl cs).
Proof.
  intros l e H. destruct (collect_run l [] (-2)%Z e) as [pre [post [compact [-> [C R]]]]].
  apply Forall_app in H. destruct H as [H1 H2].
  destruct (pending_run pre compact true H1) as [n1 [cs1 [R1 T1]]].
  destruct compact.
  - destruct C as [-> C].
    exists (S (S (length pre + n1))), ([PBytes open_object_bytes] ++ (cs1 ++ if e then [PBytes elision_bytes] else [])
      ++ [PBytes close_object_bytes]). split.
    + intros [|f] rest L; [lia|]. cbn [write_object_compact].
      eapply ebnd_eq; [apply R; rewrite app_length; simpl; lia| |reflexivity].
      cbn [app andb]. eapply ebnd_eq; [reflexivity| |reflexivity].
      eapply ebnd_eq; [| |reflexivity].
      { eapply ebnd_eq; [| |reflexivity].
        { specialize (R1 f rest ltac:(lia)). rewrite C in R1. exact R1. }
        instantiate (1 := rest). instantiate (1 := tt). destruct e; reflexivity. }
      reflexivity.
    + intros lvl. rewrite app_nil_r. tx.
      set (lv := level size flusher lvl cs1).
      assert (E : txt lv (if e then [PBytes elision_bytes] else []) = dots e)
        by (destruct e; reflexivity).
      rewrite E. clear E. specialize (T1 lvl). destruct pre as [|[k v] pre].
      * rewrite T1. replace (open_object_bytes ++ ([] ++ dots e) ++ close_object_bytes)
          with (123 :: ([] ++ dots e ++ []) ++ [125]) by (rewrite app_nil_r; reflexivity).
        constructor; apply ws_nil.
      * destruct T1 as [w [t [u [W [T [-> Q]]]]]].
        replace (open_object_bytes ++ _ ++ close_object_bytes) with
          (123 :: ([] ++ sc_bytes k ++ [] ++ 58 :: [32] ++ t ++ (u ++ [] ++ dots e ++ [])) ++ [125])
          by (rewrite app_nil_r; unfold open_object_bytes; nrm; reflexivity).
        constructor; auto using ws_nil, ws_space.
        specialize (Q [] e _ (ql_nil e [] [] ws_nil ws_nil)). rewrite app_nil_r in Q. exact Q.
  - destruct (object_rest_run post e H2) as [n2 [cs2 [R2 T2]]].
    exists (S (S (length (pre ++ post) + n1 + n2))), ([PBytes open_object_bytes] ++ ([PIndent] ++ cs1 ++ cs2)
      ++ [PBytes close_object_bytes]). split.
    + intros [|f] rest L; [lia|]. cbn [write_object_compact].
      eapply ebnd_eq; [apply R; lia| |reflexivity].
      cbn [app andb]. eapply ebnd_eq; [reflexivity| |reflexivity].
      eapply ebnd_eq.
      { eapply ebnd_eq; [reflexivity| |reflexivity].
        eapply ebnd_eq; [apply R1; lia| |reflexivity]. apply R2; lia. }
      { reflexivity. }
      reflexivity.
    + intros lvl. tx.
      specialize (T1 (lvl + 1)%Z). destruct pre as [|[k v] pre]; [congruence|].
      destruct T1 as [w [t [u [W [T [-> Q]]]]]].
      specialize (T2 (level size flusher (lvl + 1) cs1)).
      match goal with |- ptext _ ?x => replace x with
        (123 :: (nl size flusher (lvl + 1) ++ sc_bytes k ++ [] ++ 58 :: [32] ++ t ++ (u ++ txt (level size flusher (lvl + 1) cs1) cs2)) ++ [125]) end.
      2:{ unfold open_object_bytes. nrm. reflexivity. }
      cbn [app]. apply (pt_obj k v (pre ++ post) e (nl size flusher (lvl + 1)) [] [32]); auto using ws_nil, ws_space.
      apply nl_ws.
Qed.

Lemma wv_arr : forall f, wv (S f) EArray =
  if (0 <? width_limit)%Z then ebnd (pb open_array_bytes) (fun _ => citems f [] (-2)%Z true false)
  else ebnd (pb open_array_bytes) (fun _ => aitems f true false).
Proof. reflexivity. Qed.
Lemma wv_obj : forall f, wv (S f) EObject =
  if (0 <? max_items)%Z then wcompact f
  else ebnd (pb open_object_bytes) (fun _ => oitems f true false).
Proof. reflexivity. Qed.

(** Every value is written as one of its texts. *)
Theorem write_value_run : forall v, writes v.
Proof.
  apply jval_induction.
  - intros s. exists 1%nat, [PBytes (sc_bytes s)]. split.
    + intros [|f] rest L; [lia|]. reflexivity.
    + intros lvl. tx. constructor.
  - intros l e H. destruct (0 <? width_limit)%Z eqn:W.
    + destruct (compact_items_run l e true [] (-2)%Z H) as [n [cs [R T]]].
      exists (S n), ([PBytes open_array_bytes] ++ cs). split.
      * intros [|f] rest L; [lia|]. cbn [ev body]. rewrite wv_arr, W.
        nrm. eapply ebnd_eq; [reflexivity| |reflexivity]. exact (R f rest ltac:(lia)).
      * intros lvl. tx. destruct (T lvl) as [t [-> P]]. apply (pt_arr_head l e t P).
    + destruct (array_items_run l e true H) as [n [cs [R T]]].
      exists (S n), ([PBytes open_array_bytes] ++ cs). split.
      * intros [|f] rest L; [lia|]. cbn [ev body]. rewrite wv_arr, W.
        nrm. eapply ebnd_eq; [reflexivity| |reflexivity]. exact (R f rest ltac:(lia)).
      * intros lvl. tx. destruct (T lvl) as [t [-> P]]. apply (pt_arr_head l e t P).
  - intros l e H. destruct (0 <? max_items)%Z eqn:W.
    + destruct (object_compact_run l e H) as [n [cs [R T]]].
      exists (S n), cs. split; [|exact T].
      intros [|f] rest L; [lia|]. cbn [ev body]. rewrite wv_obj, W.
      nrm. exact (R f rest ltac:(lia)).
    + destruct (object_items_run l e true H) as [n [cs [R T]]].
      exists (S n), ([PBytes open_object_bytes] ++ cs). split.
      * intros [|f] rest L; [lia|]. cbn [ev body]. rewrite wv_obj, W.
        nrm. eapply ebnd_eq; [reflexivity| |reflexivity]. exact (R f rest ltac:(lia)).
      * intros lvl. tx. destruct (T lvl) as [t [-> P]]. apply (pt_obj_head l e t P).
Qed.

(** A stream of values is written as one text per value, each followed by a
    line feed. *)
Theorem consume_run : forall vs, exists n cs,
  (forall f, (n <= f)%nat ->
     consume_loop None width_limit max_items f (stream vs) = (cs, EDone tt [])) /\
  forall lvl, exists ts, Forall2 ptext vs ts /\ txt lvl cs = concat (map (fun t => t ++ [10]) ts).
Proof.
  induction vs as [|v vs [n2 [cs2 [R2 T2]]]].
  - exists 1%nat, []. split; [intros [|f] L; [lia|]; reflexivity|]. intros lvl. exists []. auto.
  - destruct (write_value_run v) as [n1 [cs1 [R1 T1]]].
    exists (S (n1 + n2)), (cs1 ++ [PReset] ++ cs2). split.
    + intros [|f] L; [lia|]. cbn [consume_loop stream flat_map]. rewrite toks_split.
      eapply ebnd_eq; [reflexivity| |reflexivity].
      eapply ebnd_eq; [apply next_value_hd| |reflexivity].
      eapply ebnd_eq; [apply R1; lia| |reflexivity].
      eapply ebnd_eq; [reflexivity| |reflexivity]. apply R2; lia.
    + intros lvl. tx. destruct (T2 0%Z) as [ts [F ->]].
      exists (txt lvl cs1 :: ts). split; [constructor; auto|]. cbn [map concat]. nrm. reflexivity.
Qed.
End Run.

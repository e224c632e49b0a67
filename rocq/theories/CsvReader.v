(** The model of csv.Reader against the specification of CSV text. *)
From Coq Require Import List Arith NArith Bool Lia.
From Verif Require Import Base Tokens ScannerModel CsvReaderModel CsvTextSpec.
Import ListNotations.
Local Open Scope N_scope.

Definition no (c : N) (l : bytes) : Prop := ~ In c l.
Lemma no_cons : forall c b l, no c (b :: l) <-> b <> c /\ no c l.
Proof. intros c b l. unfold no. cbn [In]. intuition. Qed.
Lemma no_app : forall c l m, no c (l ++ m) <-> no c l /\ no c m.
Proof. intros c l m. unfold no. rewrite in_app_iff. tauto. Qed.
Lemma no_nil : forall c, no c [].
Proof. intros c []. Qed.

(* ------------------------------------------------------------------ *)
(** Lines. *)
Lemma cut_line_spec : forall t, exists h, no 10 h /\
  ((exists r, cut_line t = (h ++ [10], r) /\ t = h ++ 10 :: r) \/ cut_line t = (h, []) /\ t = h).
Proof.
  induction t as [|b t (h & N & IH)].
  - exists []. split; [apply no_nil|]. right. auto.
  - cbn [cut_line]. destruct (N.eqb_spec b 10) as [->|NB].
    + exists []. split; [apply no_nil|]. left. exists t. auto.
    + exists (b :: h). split; [apply no_cons; auto|]. destruct IH as [(r & -> & ->)|[-> ->]]; [left; exists r; auto|right; auto].
Qed.

Lemma unix_cons : forall b t, b <> 13 -> unix (b :: t) = b :: unix t.
Proof. intros b t N. destruct b as [|q]; [reflexivity|]. do 4 (destruct q as [q|q|]; try reflexivity). congruence. Qed.
Lemma unix_cr : forall c t, c <> 10 -> unix (13 :: c :: t) = 13 :: unix (c :: t).
Proof. intros c t N. destruct c as [|q]; [reflexivity|]. do 4 (destruct q as [q|q|]; try reflexivity). congruence. Qed.
Lemma drop_cr_cons : forall b c l, drop_cr (b :: c :: l) = b :: drop_cr (c :: l).
Proof. intros b c l. unfold drop_cr. change (last (b :: c :: l) 0) with (last (c :: l) 0). now destruct (_ =? 13). Qed.

Lemma unix_line : forall h r, no 10 h -> unix (h ++ 10 :: r) = drop_cr h ++ 10 :: unix r.
Proof.
  induction h as [|b h IH]; intros r N; [reflexivity|]. apply no_cons in N as [NB N]. destruct h as [|c h].
  - destruct (N.eq_dec b 13) as [->|NC]; [reflexivity|]. cbn [app]. rewrite unix_cons by exact NC. unfold drop_cr. cbn [last].
    rewrite (proj2 (N.eqb_neq _ _) NC). reflexivity.
  - rewrite drop_cr_cons. cbn [app]. pose proof N as N'. apply no_cons in N' as [NC _].
    destruct (N.eq_dec b 13) as [->|ND]; [rewrite unix_cr by exact NC|rewrite unix_cons by exact ND]; f_equal; exact (IH r N).
Qed.
Lemma unix_last : forall h, no 10 h -> unix h = drop_cr h.
Proof.
  induction h as [|b h IH]; intros N; [reflexivity|]. apply no_cons in N as [NB N]. destruct h as [|c h].
  - destruct (N.eq_dec b 13) as [->|NC]; [reflexivity|]. rewrite unix_cons by exact NC. unfold drop_cr. cbn [last].
    rewrite (proj2 (N.eqb_neq _ _) NC). reflexivity.
  - rewrite drop_cr_cons. pose proof N as N'. apply no_cons in N' as [NC _].
    destruct (N.eq_dec b 13) as [->|ND]; [rewrite unix_cr by exact NC|rewrite unix_cons by exact ND]; f_equal; exact (IH N).
Qed.
Lemma unix_app : forall t r, last t 0 = 10 -> unix (t ++ r) = unix t ++ unix r.
Proof.
  intros t. remember (length t) as k eqn:K. revert t K. induction k as [k IH] using lt_wf_ind. intros t K r L. subst k.
  destruct (cut_line_spec t) as (h & N & [(r' & _ & ->)|[_ ->]]).
  - rewrite <- app_assoc. cbn [app]. rewrite !unix_line by exact N. rewrite <- app_assoc. cbn [app]. f_equal. f_equal.
    destruct r' as [|b r']; [reflexivity|]. apply (IH (length (b :: r'))); [rewrite app_length; cbn [length]; lia|reflexivity|].
    clear - L. revert L. induction h as [|c h IH]; cbn [app]; intro L; [exact L|]. apply IH. destruct h; exact L.
  - exfalso. destruct h as [|b h]; [discriminate|]. apply N. rewrite <- L. clear. revert b. induction h as [|c h IH]; intro b; [now left|].
    change (last (b :: c :: h) 0) with (last (c :: h) 0). right. apply IH.
Qed.
Lemma drop_cr_no : forall c h, no c h -> no c (drop_cr h).
Proof.
  intros c h N. unfold drop_cr. destruct (_ =? 13); [|exact N]. intro I. apply N.
  destruct h as [|b h]; [destruct I|]. rewrite (app_removelast_last 0) by discriminate. apply in_or_app. now left.
Qed.
Lemma drop_cr_length : forall h, (length (drop_cr h) <= length h)%nat.
Proof.
  intro h. unfold drop_cr. destruct (_ =? 13); [|lia]. destruct h as [|b h]; [reflexivity|].
  rewrite (app_removelast_last 0 (l := b :: h)) at 2 by discriminate. rewrite app_length. lia.
Qed.

Lemma ends_lf_line : forall h, ends_lf (h ++ [10]) = true.
Proof. intro h. unfold ends_lf. now rewrite last_last. Qed.
Lemma ends_lf_no : forall h, no 10 h -> ends_lf h = false.
Proof.
  intros h N. unfold ends_lf. apply N.eqb_neq. intro E. destruct h as [|b h]; [discriminate|]. apply N. rewrite <- E.
  rewrite (app_removelast_last 0 (l := b :: h)) at 2 by discriminate. apply in_or_app. right. now left.
Qed.
Lemma chomp_line : forall h, chomp (h ++ [10]) = h.
Proof. intro h. unfold chomp. now rewrite ends_lf_line, removelast_last. Qed.
Lemma chomp_no : forall h, no 10 h -> chomp h = h.
Proof. intros h N. unfold chomp. now rewrite ends_lf_no. Qed.

(** The line in hand and the input after it, and what is to be read of them. *)
Definition repr (line t u : bytes) : Prop :=
  u = line ++ unix t /\ ((exists h, line = h ++ [10] /\ no 10 h) \/ no 10 line /\ t = []).

Lemma read_line_none : forall fin t line t', read_line fin t = (line, None, t') ->
  repr line t' (unix t) /\ (length line + length t' <= length t)%nat /\ (length t' < length t)%nat /\
  exists raw, t = raw ++ t' /\ (last raw 0 = 10 \/ t' = []).
Proof.
  intros fin t line t' E. unfold read_line in E. destruct t as [|b t]; [discriminate|]. remember (b :: t) as s eqn:S.
  destruct (cut_line_spec s) as (h & N & [(r & C & D)|[C D]]); rewrite C in E.
  - rewrite ends_lf_line, removelast_last in E. injection E as <- <-. pose proof (drop_cr_length h). rewrite D. split; [|split; [|split]].
    + rewrite unix_line by exact N. split; [now rewrite <- app_assoc|]. left. exists (drop_cr h). split; [reflexivity|now apply drop_cr_no].
    + rewrite !app_length. cbn [length]. lia.
    + rewrite !app_length. cbn [length]. lia.
    + exists (h ++ [10]). rewrite <- app_assoc, last_last. auto.
  - rewrite (ends_lf_no h N) in E. destruct fin; [|discriminate]. injection E as <- <-. pose proof (drop_cr_length h). rewrite D in *. split; [|split; [|split]].
    + rewrite unix_last by exact N. split; [now rewrite app_nil_r|]. right. split; [now apply drop_cr_no|reflexivity].
    + cbn [length]. lia.
    + rewrite S. cbn [length]. lia.
    + exists h. rewrite app_nil_r. auto.
Qed.
Lemma read_line_eof : forall t, t <> [] -> exists line t', read_line RdEOF t = (line, None, t').
Proof.
  intros t NE. unfold read_line. destruct t as [|b t]; [congruence|]. destruct (cut_line (b :: t)) as [l r]. destruct (ends_lf l); eauto.
Qed.
Lemma read_line_some : forall fin t, fin = RdEOF /\ t <> [] \/ In 10 (unix t) -> exists line t', read_line fin t = (line, None, t').
Proof.
  intros fin t [[-> NE]|I]; [now apply read_line_eof|]. unfold read_line. destruct t as [|b t]; [destruct I|]. destruct (cut_line_spec (b :: t)) as (h & N & [(r & -> & _)|[_ X]]).
  - rewrite ends_lf_line. eauto.
  - exfalso. rewrite X, unix_last in I by exact N. exact (drop_cr_no _ _ N I).
Qed.
Lemma read_line_less : forall fin t line err t', read_line fin t = (line, err, t') -> (length line + length t' <= length t)%nat.
Proof.
  intros fin t line err t' E. unfold read_line in E. destruct t as [|b t]; [injection E as <- _ <-; cbn; lia|]. remember (b :: t) as s eqn:S.
  destruct (cut_line_spec s) as (h & N & [(r & C & D)|[C D]]); rewrite C in E; pose proof (drop_cr_length h).
  - rewrite ends_lf_line, removelast_last in E. injection E as <- _ <-. rewrite D, !app_length. cbn [length]. lia.
  - rewrite (ends_lf_no h N) in E. rewrite D. destruct fin; injection E as <- _ <-; cbn [length]; lia.
Qed.

Lemma repr_byte : forall g c v line t, repr line t (g ++ c :: v) -> no 10 g -> c <> 10 ->
  exists line', line = g ++ c :: line' /\ repr line' t v.
Proof.
  intros g c v line t [E R] N NC. revert line E R. induction g as [|b g IH]; intros line E R; cbn [app] in E.
  - destruct line as [|x line].
    + exfalso. destruct R as [(h & A & _)|[_ ->]]; [destruct h; discriminate|discriminate].
    + injection E as <- E. exists line. split; [reflexivity|]. split; [exact E|]. destruct R as [(h & A & NH)|[NL ->]].
      * left. destruct h as [|y h]; [injection A as A _; congruence|]. injection A as -> ->. exists h. split; [reflexivity|]. now apply no_cons in NH.
      * right. split; [now apply no_cons in NL|reflexivity].
  - apply no_cons in N as [NB N]. destruct line as [|x line].
    + exfalso. destruct R as [(h & A & _)|[_ ->]]; [destruct h; discriminate|discriminate].
    + injection E as <- E. destruct (IH N line E) as (line' & -> & R').
      * destruct R as [(h & A & NH)|[NL ->]].
        -- left. destruct h as [|y h]; [injection A as A _; congruence|]. injection A as _ ->. exists h. split; [reflexivity|]. now apply no_cons in NH.
        -- right. split; [now apply no_cons in NL|reflexivity].
      * exists line'. auto.
Qed.
Lemma repr_lf : forall g v line t, repr line t (g ++ 10 :: v) -> no 10 g -> line = g ++ [10] /\ unix t = v.
Proof.
  intros g v line t [E R] N. revert line E R. induction g as [|b g IH]; intros line E R; cbn [app] in E.
  - destruct line as [|x line].
    + exfalso. destruct R as [(h & A & _)|[_ ->]]; [destruct h; discriminate|discriminate].
    + injection E as <- E. destruct R as [(h & A & NH)|[NL ->]]; [|exfalso; apply no_cons in NL; tauto].
      destruct h as [|y h]; [injection A as ->; auto|]. injection A as A _. apply no_cons in NH as [NH _]. congruence.
  - apply no_cons in N as [NB N]. destruct line as [|x line].
    + exfalso. destruct R as [(h & A & _)|[_ ->]]; [destruct h; discriminate|discriminate].
    + injection E as <- E. destruct (IH N line E) as (-> & U); [|auto]. destruct R as [(h & A & NH)|[NL ->]].
      * left. destruct h as [|y h]; [injection A as A _; congruence|]. injection A as _ ->. exists h. split; [reflexivity|]. now apply no_cons in NH.
      * right. split; [now apply no_cons in NL|reflexivity].
Qed.
Lemma repr_end : forall g line t, repr line t g -> no 10 g -> line = g /\ t = [].
Proof.
  intros g line t [E R] N. destruct R as [(h & -> & _)|[_ ->]].
  - exfalso. apply N. rewrite E. apply in_or_app. left. apply in_or_app. right. now left.
  - rewrite app_nil_r in E. auto.
Qed.

Lemma cut_at_some : forall c g l, no c g -> cut_at c (g ++ c :: l) = Some (g, l).
Proof.
  induction g as [|b g IH]; intros l N; cbn [cut_at app]; [now rewrite N.eqb_refl|]. apply no_cons in N as [NB N].
  rewrite (proj2 (N.eqb_neq _ _) NB), (IH l N). reflexivity.
Qed.
Lemma cut_at_none : forall c l, no c l -> cut_at c l = None.
Proof.
  induction l as [|b l IH]; intro N; [reflexivity|]. apply no_cons in N as [NB N]. cbn [cut_at]. now rewrite (proj2 (N.eqb_neq _ _) NB), (IH N).
Qed.
Lemma cut_at_cases : forall c l, match cut_at c l with Some (p, q) => l = p ++ c :: q /\ no c p | None => no c l end.
Proof.
  induction l as [|b l IH]; cbn [cut_at]; [apply no_nil|]. destruct (N.eqb_spec b c) as [->|NB]; [split; [reflexivity|apply no_nil]|].
  destruct (cut_at c l) as [[p q]|]; [destruct IH as [-> IH]; split; [reflexivity|]|]; apply no_cons; auto.
Qed.
Lemma no_existsb : forall c l, existsb (N.eqb c) l = false <-> no c l.
Proof.
  intros c l. unfold no. induction l as [|b l IH]; cbn [existsb In]; [tauto|]. destruct (N.eqb_spec c b) as [->|NB]; cbn [orb]; [|rewrite IH; intuition].
  split; [discriminate|]. intro H. destruct H. now left.
Qed.

(** Unfolding the scanner at the beginning of a field. *)
Lemma scan_quote : forall n fin line err t dst, scan_fields (S n) fin None (34 :: line) err t dst = scan_fields n fin (Some []) line err t dst.
Proof. reflexivity. Qed.
Lemma scan_plain : forall n fin line err t dst, (forall l, line <> 34 :: l) ->
  scan_fields (S n) fin None line err t dst =
  match cut_at 44 line with
  | Some (f, line') => if existsb (N.eqb 34) f then Ok None else scan_fields n fin None line' err t (dst ++ [f])
  | None => if existsb (N.eqb 34) (chomp line) then Ok None else Ok (match err with None => Some (dst ++ [chomp line], t) | Some _ => None end)
  end.
Proof.
  intros n fin line err t dst N. destruct line as [|b l]; [reflexivity|]. destruct b as [|q]; [reflexivity|]. do 6 (destruct q as [q|q|]; try reflexivity).
  now destruct (N l).
Qed.
Definition after_quote (n : nat) (fin : rerr) (buf line : bytes) (err : option rerr) (t : bytes) (dst : list bytes) :=
  match line with
  | 34 :: line'' => scan_fields n fin (Some (buf ++ [34])) line'' err t dst
  | 44 :: line'' => scan_fields n fin None line'' err t (dst ++ [buf])
  | [] => Ok (match err with None => Some (dst ++ [buf], t) | Some _ => None end)
  | [10] => Ok (match err with None => Some (dst ++ [buf], t) | Some _ => None end)
  | _ => Ok None
  end.
Lemma scan_in_quotes : forall n fin buf line err t dst,
  scan_fields (S n) fin (Some buf) line err t dst =
  match cut_at 34 line with
  | Some (p, line') => after_quote n fin (buf ++ p) line' err t dst
  | None =>
      match line with
      | [] => Ok None
      | _ => match err with
             | Some _ => Ok None
             | None => let '(line', err', t') := read_line fin t in
                       scan_fields n fin (Some (buf ++ line)) line' (match err' with Some RdEOF => None | _ => err' end) t' dst
             end
      end
  end.
Proof.
  intros. cbn [scan_fields]. destruct (cut_at 34 line) as [[p line']|]; [|reflexivity]. unfold after_quote. now rewrite <- app_assoc.
Qed.

Lemma doubled_app : forall f g, doubled (f ++ g) = doubled f ++ doubled g.
Proof. intros. unfold doubled. apply flat_map_app. Qed.
Lemma doubled_plain : forall f, no 34 f -> doubled f = f.
Proof.
  induction f as [|b f IH]; intro N; [reflexivity|]. apply no_cons in N as [NB N]. unfold doubled in *. cbn [flat_map]. rewrite (proj2 (N.eqb_neq _ _) NB), (IH N). reflexivity.
Qed.

(** A stretch without quotation marks and line feeds, and what is after it. *)
Lemma stretch : forall f, exists g, no 34 g /\ no 10 g /\ (f = g \/ (exists f', f = g ++ 34 :: f') \/ exists f', f = g ++ 10 :: f').
Proof.
  induction f as [|b f (g & N1 & N2 & IH)].
  - exists []. repeat split; try apply no_nil. auto.
  - destruct (N.eq_dec b 34) as [->|NB]; [exists []; repeat split; try apply no_nil; right; left; now exists f|].
    destruct (N.eq_dec b 10) as [->|NC]; [exists []; repeat split; try apply no_nil; right; right; now exists f|].
    exists (b :: g). split; [apply no_cons; auto|]. split; [apply no_cons; auto|].
    destruct IH as [->|[[f' ->]|[f' ->]]]; [auto|right; left; now exists f'|right; right; now exists f'].
Qed.

(** Reading what is between quotation marks. *)
Lemma quoted_run : forall fin k f, (length f <= k)%nat -> forall buf line t dst v n, fin = RdEOF \/ In 10 v ->
  repr line t (doubled f ++ 34 :: v) -> (length line + length t < n)%nat ->
  exists n' line' t', scan_fields n fin (Some buf) line None t dst = after_quote n' fin (buf ++ f) line' None t' dst /\
    repr line' t' v /\ (length line' + length t' < n')%nat /\ (length t' <= length t)%nat.
Proof.
  intros fin k. induction k as [|k IH]; intros f LK buf line t dst v n FV R LN.
  - destruct f; [|cbn [length] in LK; lia]. destruct n as [|n]; [lia|].
    destruct (repr_byte [] 34 v line t R (no_nil _) ltac:(discriminate)) as (line' & -> & R').
    exists n, line', t. rewrite scan_in_quotes. cbn [app cut_at N.eqb Pos.eqb]. split; [reflexivity|]. split; [exact R'|]. cbn [app length] in LN. lia.
  - destruct n as [|n]; [lia|]. destruct (stretch f) as (g & N1 & N2 & [->|[[f' ->]|[f' ->]]]).
    + rewrite doubled_plain in R by exact N1. destruct (repr_byte g 34 v line t R N2 ltac:(discriminate)) as (line' & -> & R').
      exists n, line', t. rewrite scan_in_quotes, cut_at_some by exact N1. split; [reflexivity|]. split; [exact R'|]. rewrite app_length in LN. cbn [length] in LN. lia.
    + rewrite doubled_app, (doubled_plain g N1) in R. change (doubled (34 :: f')) with (34 :: 34 :: doubled f') in R. rewrite <- app_assoc in R. cbn [app] in R.
      destruct (repr_byte g 34 _ line t R N2 ltac:(discriminate)) as (line' & -> & R').
      destruct (repr_byte [] 34 _ line' t R' (no_nil _) ltac:(discriminate)) as (line2 & -> & R2). cbn [app] in *.
      rewrite app_length in LK. cbn [length] in LK. rewrite app_length in LN. cbn [length] in LN.
      rewrite scan_in_quotes, cut_at_some by exact N1.
      destruct (IH f' ltac:(lia) ((buf ++ g) ++ [34]) line2 t dst v n FV R2 ltac:(lia)) as (n' & line3 & t3 & E & R3 & L3 & L4).
      exists n', line3, t3. split; [|auto]. etransitivity; [exact E|]. f_equal. rewrite <- !app_assoc. reflexivity.
    + rewrite doubled_app, (doubled_plain g N1) in R. change (doubled (10 :: f')) with (10 :: doubled f') in R. rewrite <- app_assoc in R. cbn [app] in R.
      destruct (repr_lf g _ line t R N2) as (-> & U).
      assert (NT : t <> []) by (intros ->; symmetry in U; apply app_eq_nil in U as [_ U]; discriminate). destruct (read_line_some fin t) as (line2 & t2 & RL).
      { destruct FV as [->|I]; [now left|right]. rewrite U. apply in_or_app. right. now right. }
      destruct (read_line_none _ _ _ _ RL) as (R2 & LE & LT & _). rewrite U in R2.
      rewrite app_length in LK, LN. cbn [length] in LK, LN. assert (SC : scan_fields (S n) fin (Some buf) (g ++ [10]) None t dst = scan_fields n fin (Some (buf ++ g ++ [10])) line2 None t2 dst).
      { rewrite scan_in_quotes, cut_at_none by (apply no_app; split; [exact N1|apply no_cons; split; [discriminate|apply no_nil]]).
        rewrite RL. destruct g; reflexivity. }
      rewrite SC.
      destruct (IH f' ltac:(lia) (buf ++ g ++ [10]) line2 t2 dst v n FV R2 ltac:(lia)) as (n' & line3 & t3 & E & R3 & L3 & L4).
      exists n', line3, t3. split; [etransitivity; [exact E|]; f_equal; rewrite <- !app_assoc; reflexivity|]. split; [exact R3|]. split; [exact L3|]. lia.
Qed.

(** The text [tx] of a record and the end of it. *)
Definition ends (tx u t' : bytes) : Prop := u = tx ++ 10 :: unix t' \/ u = tx /\ t' = [].

Lemma repr_same : forall line t u u', repr line t u -> u = u' -> repr line t u'.
Proof. intros line t u u' R <-. exact R. Qed.

Lemma fields_run : forall fin r tx, record_text r tx -> forall u u' line t dst n,
  (u = tx ++ 10 :: u' \/ u = tx /\ u' = [] /\ fin = RdEOF) -> repr line t u -> (length line + length t < n)%nat ->
  exists t', scan_fields n fin None line None t dst = Ok (Some (dst ++ r, t')) /\ unix t' = u' /\ (length t' <= length t)%nat.
Proof.
  intros fin r tx H. induction H as [f tx F|f tx r ux F H IH]; intros u u' line t dst n E R LN; (destruct n as [|n]; [lia|]).
  - destruct F as [f P|f].
    + assert (N34 : no 34 f) by (intro I; apply P in I; tauto). assert (N44 : no 44 f) by (intro I; apply P in I; tauto). assert (N10 : no 10 f) by (intro I; apply P in I; tauto).
      assert (ND : forall x l, f ++ x <> 34 :: l \/ f = []).
      { intros x l. destruct f as [|b f]; [now right|left]. intro X. injection X as -> _. apply no_cons in N34. tauto. }
      destruct E as [->|(-> & -> & FE)].
      * destruct (repr_lf f u' line t R N10) as [-> U]. exists t. rewrite scan_plain.
        2:{ intros l X. destruct (ND [10] l) as [Y| ->]; [auto|discriminate]. }
        rewrite cut_at_none by (apply no_app; split; [exact N44|apply no_cons; split; [discriminate|apply no_nil]]).
        rewrite chomp_line, (proj2 (no_existsb 34 f) N34). split; [reflexivity|]. split; [exact U|lia].
      * destruct (repr_end f line t R N10) as [-> ->]. exists []. rewrite scan_plain.
        2:{ intros l X. destruct (ND [] l) as [Y| ->]; [rewrite app_nil_r in Y; auto|discriminate]. }
        rewrite cut_at_none by exact N44. rewrite chomp_no, (proj2 (no_existsb 34 f) N34) by exact N10. split; [reflexivity|]. split; [reflexivity|cbn; lia].
    + assert (E' : exists v, u = 34 :: doubled f ++ 34 :: v /\ (v = 10 :: u' \/ v = [] /\ u' = [] /\ fin = RdEOF)).
      { destruct E as [->|(-> & -> & FE)]; [exists (10 :: u')|exists []]; (split; [|auto]); cbn [app]; rewrite <- ?app_assoc; reflexivity. }
      destruct E' as (v & -> & V). destruct (repr_byte [] 34 _ line t R (no_nil _) ltac:(discriminate)) as (line1 & -> & R1). cbn [app length] in *.
      rewrite scan_quote. destruct (quoted_run fin (length f) f (le_n _) [] line1 t dst v n ltac:(destruct V as [->|(_ & _ & ->)]; [right; now left|now left]) R1 ltac:(lia)) as (n' & line' & t' & EQ & R' & L' & LT).
      destruct V as [->|(-> & -> & FE)].
      * destruct (repr_lf [] u' line' t' R' (no_nil _)) as [-> U]. exists t'. split; [etransitivity; [exact EQ|reflexivity]|]. split; [exact U|exact LT].
      * destruct (repr_end [] line' t' R' (no_nil _)) as [-> ->]. exists []. split; [etransitivity; [exact EQ|reflexivity]|]. split; [reflexivity|cbn; lia].
  - assert (E' : exists w, u = tx ++ 44 :: w /\ (w = ux ++ 10 :: u' \/ w = ux /\ u' = [] /\ fin = RdEOF)).
    { destruct E as [->|(-> & -> & FE)]; [exists (ux ++ 10 :: u')|exists ux]; (split; [|auto]); rewrite <- ?app_assoc; reflexivity. }
    destruct E' as (w & -> & W). destruct F as [f P|f].
    + assert (N34 : no 34 f) by (intro I; apply P in I; tauto). assert (N44 : no 44 f) by (intro I; apply P in I; tauto). assert (N10 : no 10 f) by (intro I; apply P in I; tauto).
      destruct (repr_byte f 44 w line t R N10 ltac:(discriminate)) as (line1 & -> & R1). rewrite app_length in LN. cbn [length] in LN. rewrite scan_plain.
      2:{ intros l X. destruct f as [|b f]; [discriminate|]. injection X as -> _. apply no_cons in N34. tauto. }
      rewrite cut_at_some, (proj2 (no_existsb 34 f) N34) by exact N44.
      destruct (IH w u' line1 t (dst ++ [f]) n W R1 ltac:(lia)) as (t' & E1 & U & L). exists t'. split; [|auto]. etransitivity; [exact E1|]. rewrite <- app_assoc. reflexivity.
    + apply (repr_same _ _ _ (34 :: doubled f ++ 34 :: 44 :: w)) in R; [|cbn [app]; rewrite <- app_assoc; reflexivity].
      destruct (repr_byte [] 34 _ line t R (no_nil _) ltac:(discriminate)) as (line1 & -> & R1). cbn [app length] in *.
      rewrite scan_quote. destruct (quoted_run fin (length f) f (le_n _) [] line1 t dst (44 :: w) n ltac:(destruct W as [->|(_ & _ & ->)]; [right; right; apply in_or_app; right; now left|now left]) R1 ltac:(lia)) as (n' & line' & t' & EQ & R' & L' & LT).
      destruct (repr_byte [] 44 _ line' t' R' (no_nil _) ltac:(discriminate)) as (line2 & -> & R2). cbn [app length] in *.
      destruct (IH w u' line2 t' (dst ++ [f]) n' W R2 ltac:(lia)) as (t2 & E1 & U & L). exists t2. split; [etransitivity; [exact EQ|]; etransitivity; [exact E1|]; rewrite <- app_assoc; reflexivity|]. split; [exact U|lia].
Qed.

(* ------------------------------------------------------------------ *)
(** The other direction. *)
Lemma scan_err : forall n fin q line e t dst x, scan_fields n fin q line (Some e) t dst = Ok x -> x = None.
Proof.
  induction n as [|n IH]; intros fin q line e t dst x E; [discriminate|]. destruct q as [buf|].
  - rewrite scan_in_quotes in E. destruct (cut_at 34 line) as [[p line']|].
    + unfold after_quote in E. destruct line' as [|b l]; [congruence|]. destruct (N.eq_dec b 34) as [->|N34]; [eauto|]. destruct (N.eq_dec b 44) as [->|N44]; [eauto|].
      destruct (N.eq_dec b 10) as [->|N10]; [destruct l; congruence|].
      destruct b as [|q]; [congruence|]. do 6 (destruct q as [q|q|]; try congruence).
    + destruct line; congruence.
  - destruct line as [|b l]; [cbn in E; congruence|]. destruct (N.eq_dec b 34) as [->|N34]; [rewrite scan_quote in E; eauto|].
    rewrite scan_plain in E by (intros l' X; congruence). destruct (cut_at 44 (b :: l)) as [[f line']|].
    + destruct (existsb _ f); [congruence|eauto].
    + destruct (existsb _ _); congruence.
Qed.

Definition rest_of (t t' : bytes) : Prop := exists raw, t = raw ++ t' /\ (raw = [] \/ last raw 0 = 10 \/ t' = []).
Lemma rest_refl : forall t, rest_of t t.
Proof. intro t. exists []. auto. Qed.
Lemma last_app : forall (l m : bytes), m <> [] -> last (l ++ m) 0 = last m 0.
Proof.
  intros l m NE. destruct (exists_last NE) as (m' & x & ->). rewrite app_assoc. now rewrite !last_last.
Qed.
Lemma rest_trans : forall t t1 t2, (exists raw, t = raw ++ t1 /\ (raw = [] \/ last raw 0 = 10 \/ t1 = [])) -> rest_of t1 t2 -> rest_of t t2.
Proof.
  intros t t1 t2 (r1 & -> & H1) (r2 & -> & H2). exists (r1 ++ r2). split; [now rewrite app_assoc|].
  destruct H2 as [->|[H2|H2]]; [|destruct r2 as [|b r2]; [discriminate|]; right; left; now rewrite last_app|auto].
  rewrite app_nil_r. cbn [app] in H1. exact H1.
Qed.

Lemma repr_after : forall g c line' t u, repr (g ++ c :: line') t u -> no 10 g -> c <> 10 -> exists v, u = g ++ c :: v /\ repr line' t v.
Proof.
  intros g c line' t u R N NC. exists (line' ++ unix t). destruct R as [-> R].
  assert (E : (g ++ c :: line') ++ unix t = g ++ c :: line' ++ unix t) by (rewrite <- app_assoc; reflexivity). split; [exact E|].
  destruct (repr_byte g c (line' ++ unix t) (g ++ c :: line') t) as (l & EL & R'); [split; [now rewrite E|exact R]|exact N|exact NC|].
  apply app_inv_head in EL. injection EL as <-. exact R'.
Qed.
Lemma repr_no_lf : forall g c line' t u, repr (g ++ c :: line') t u -> c <> 10 -> no 10 g.
Proof.
  intros g c line' t u [_ R] NC I. destruct R as [(h & E & N)|[N _]].
  - revert h E N. induction g as [|b g IH]; intros h E N; [destruct I|]. destruct h as [|x h].
    + injection E as _ E. destruct g; discriminate.
    + injection E as -> E. apply no_cons in N as [NX N]. destruct I as [I|I]; [congruence|]. eapply IH; eauto.
  - apply N. apply in_or_app. now left.
Qed.
(** The whole line is the rest of the record. *)
Lemma repr_whole : forall line t u, repr line t u -> ends (chomp line) u t.
Proof.
  intros line t u [-> [(h & -> & N)|[N ->]]].
  - rewrite chomp_line. left. rewrite <- app_assoc. reflexivity.
  - rewrite chomp_no by exact N. right. cbn [unix]. now rewrite app_nil_r.
Qed.

Lemma ends_app : forall p tx u t', ends tx u t' -> ends (p ++ tx) (p ++ u) t'.
Proof. intros p tx u t' [->|[-> ->]]; [left; now rewrite <- app_assoc|right; auto]. Qed.
Lemma scan_sound : forall n fin line t dst r t', 
  (scan_fields n fin None line None t dst = Ok (Some (r, t')) -> forall u, repr line t u ->
     exists r0 tx, r = dst ++ r0 /\ record_text r0 tx /\ ends tx u t' /\ rest_of t t') /\
  (forall buf, scan_fields n fin (Some buf) line None t dst = Ok (Some (r, t')) -> forall u, repr line t u ->
     exists f r0 tx, r = dst ++ (buf ++ f) :: r0 /\ ends (doubled f ++ 34 :: tx) u t' /\ rest_of t t' /\
       (r0 = [] /\ tx = [] \/ exists tx', tx = 44 :: tx' /\ record_text r0 tx')).
Proof.
  induction n as [|n IH]; intros fin line t dst r t'; [split; [discriminate|intros; discriminate]|]. split.
  - intros E u R. assert (Q : (exists l, line = 34 :: l) \/ forall l, line <> 34 :: l).
    { destruct line as [|b l]; [right; discriminate|]. destruct (N.eq_dec b 34) as [->|]; [left; eauto|right; congruence]. }
    destruct Q as [[l ->]|Q].
    + rewrite scan_quote in E. destruct (repr_after [] 34 l t u R (no_nil _) ltac:(discriminate)) as (v & -> & R1).
      destruct (proj2 (IH fin l t dst r t') [] E v R1) as (f & r0 & tx & -> & EN & RE & [[-> ->]|(tx' & -> & RT)]); cbn [app].
      * exists [f], (34 :: doubled f ++ [34]). split; [reflexivity|]. split; [constructor; constructor|]. split; [|exact RE]. apply (ends_app [34]) in EN. exact EN.
      * exists (f :: r0), ((34 :: doubled f ++ [34]) ++ 44 :: tx'). split; [reflexivity|]. split; [constructor; [constructor|exact RT]|]. split; [|exact RE].
        apply (ends_app [34]) in EN. cbn [app] in *. rewrite <- app_assoc. exact EN.
    + rewrite scan_plain in E by exact Q. pose proof (cut_at_cases 44 line) as C. destruct (cut_at 44 line) as [[f line']|].
      * destruct C as [-> N44]. destruct (existsb (N.eqb 34) f) eqn:X; [discriminate|]. apply no_existsb in X.
        pose proof (repr_no_lf _ _ _ _ _ R ltac:(discriminate)) as N10. destruct (repr_after _ _ _ _ _ R N10 ltac:(discriminate)) as (v & -> & R1).
        destruct (proj1 (IH fin line' t (dst ++ [f]) r t') E v R1) as (r0 & tx & -> & RT & EN & RE). exists (f :: r0), (f ++ 44 :: tx).
        split; [now rewrite <- app_assoc|]. split; [constructor; [constructor|exact RT]|].
        { intros b I. split; [intros ->; auto|]. split; intros ->; auto. }
        split; [|exact RE]. apply (ends_app (f ++ [44])) in EN. rewrite <- !app_assoc in EN. exact EN.
      * destruct (existsb (N.eqb 34) (chomp line)) eqn:X; [discriminate|]. apply no_existsb in X. injection E as <- <-.
        exists [chomp line], (chomp line). split; [reflexivity|]. split; [|split; [now apply repr_whole|apply rest_refl]]. constructor. constructor.
        intros b I. split; [intros ->; auto|].
        assert (I2 : In b line) by (unfold chomp in I; destruct (ends_lf line); [|exact I]; destruct line as [|y line]; [destruct I|]; rewrite (app_removelast_last 0) by discriminate; apply in_or_app; now left).
        split; [intros ->; auto|]. intros ->. destruct R as [_ [(h & -> & N)|[N _]]]; [rewrite chomp_line in I; auto|auto].
  - intros buf E u R. rewrite scan_in_quotes in E. pose proof (cut_at_cases 34 line) as C. destruct (cut_at 34 line) as [[p line']|].
    + destruct C as [-> N34]. pose proof (repr_no_lf _ _ _ _ _ R ltac:(discriminate)) as N10. destruct (repr_after _ _ _ _ _ R N10 ltac:(discriminate)) as (v & -> & R1).
      unfold after_quote in E. destruct line' as [|b l].
      * injection E as <- <-. exists p, [], []. split; [reflexivity|]. rewrite (doubled_plain p N34). split; [|split; [apply rest_refl|auto]].
        pose proof (repr_whole _ _ _ R1) as W. apply (ends_app (p ++ [34])) in W. rewrite <- !app_assoc in W. exact W.
      * destruct (N.eq_dec b 34) as [->|NB]; [|destruct (N.eq_dec b 44) as [->|NC]].
        -- destruct (repr_after [] 34 l t v R1 (no_nil _) ltac:(discriminate)) as (v2 & -> & R2).
           destruct (proj2 (IH fin l t dst r t') _ E v2 R2) as (f & r0 & tx & -> & EN & RE & T). exists (p ++ 34 :: f), r0, tx.
           split; [rewrite <- !app_assoc; reflexivity|]. split; [|auto]. rewrite doubled_app, (doubled_plain p N34). change (doubled (34 :: f)) with (34 :: 34 :: doubled f).
           apply (ends_app (p ++ [34; 34])) in EN. rewrite <- !app_assoc in EN. rewrite <- app_assoc. exact EN.
        -- destruct (repr_after [] 44 l t v R1 (no_nil _) ltac:(discriminate)) as (v2 & -> & R2).
           destruct (proj1 (IH fin l t (dst ++ [buf ++ p]) r t') E v2 R2) as (r0 & tx & -> & RT & EN & RE). exists p, r0, (44 :: tx).
           split; [now rewrite <- app_assoc|]. rewrite (doubled_plain p N34). split; [|split; [exact RE|right; eauto]].
           apply (ends_app (p ++ [34; 44])) in EN. rewrite <- !app_assoc in EN. exact EN.
        -- assert (X : b = 10 /\ l = [] /\ r = dst ++ [buf ++ p] /\ t' = t).
           { destruct (N.eq_dec b 10) as [->|N0]; [destruct l; [injection E as <- <-; auto|discriminate]|].
             destruct b as [|q]; [discriminate|]. do 6 (destruct q as [q|q|]; try discriminate; try congruence). }
           destruct X as (-> & -> & -> & ->). exists p, [], []. split; [reflexivity|]. rewrite (doubled_plain p N34). split; [|split; [apply rest_refl|auto]].
           pose proof (repr_whole _ _ _ R1) as W. change (chomp [10]) with (@nil N) in W. apply (ends_app (p ++ [34])) in W. rewrite <- !app_assoc in W. exact W.
    + destruct line as [|b l]; [discriminate|]. remember (b :: l) as line eqn:EL. destruct (read_line fin t) as [[line' err'] t1] eqn:RL.
      destruct err' as [[|]|].
      * (* the end of the input *)
        exfalso. assert (X : line' = []).
        { unfold read_line in RL. destruct t as [|y t0]; [now injection RL as <- _|]. destruct (cut_line (y :: t0)) as [l0 r0]. destruct (ends_lf l0); [discriminate|]. destruct fin; discriminate. }
        subst line'. destruct n; [discriminate|]. rewrite scan_in_quotes in E. discriminate.
      * apply scan_err in E. discriminate.
      * destruct (read_line_none _ _ _ _ RL) as (R1 & _ & LT & raw & RA & RB).
        destruct (proj2 (IH fin line' t1 dst r t') _ E (unix t) R1) as (f & r0 & tx & -> & EN & RE & T).
        destruct R as [-> R]. destruct R as [(h & H & NH)|[_ ->]]; [|cbn [length] in LT; lia].
        exists (line ++ f), r0, tx. split; [now rewrite <- app_assoc|]. split; [|split; [|exact T]].
        -- rewrite doubled_app, (doubled_plain line C). apply (ends_app line) in EN. rewrite <- app_assoc. exact EN.
        -- apply (rest_trans t t1 t'); [exists raw; split; [exact RA|tauto]|exact RE].
Qed.

(* ------------------------------------------------------------------ *)
(** The scanner always ends. *)
Lemma scan_total : forall n fin q line err t dst, (length line + length t < n)%nat -> exists x, scan_fields n fin q line err t dst = Ok x.
Proof.
  induction n as [|n IH]; intros fin q line err t dst LN; [lia|]. destruct q as [buf|].
  - rewrite scan_in_quotes. pose proof (cut_at_cases 34 line) as C. destruct (cut_at 34 line) as [[p line']|].
    + destruct C as [-> _]. rewrite app_length in LN. cbn [length] in LN. unfold after_quote. destruct line' as [|b l]; [eauto|]. cbn [length] in LN.
      destruct (N.eq_dec b 34) as [->|N34]; [apply IH; lia|]. destruct (N.eq_dec b 44) as [->|N44]; [apply IH; lia|].
      destruct (N.eq_dec b 10) as [->|N10]; [destruct l; eauto|].
      destruct b as [|q]; [eauto|]. do 6 (destruct q as [q|q|]; eauto; try congruence).
    + destruct line as [|b l]; [eauto|]. destruct err; [eauto|]. destruct (read_line fin t) as [[line' err'] t1] eqn:RL.
      pose proof (read_line_less _ _ _ _ _ RL). apply IH. cbn [length] in LN. lia.
  - assert (Q : (exists l, line = 34 :: l) \/ forall l, line <> 34 :: l).
    { destruct line as [|b l]; [right; discriminate|]. destruct (N.eq_dec b 34) as [->|]; [left; eauto|right; congruence]. }
    destruct Q as [[l ->]|Q]; [rewrite scan_quote; apply IH; cbn [length] in LN; lia|]. rewrite scan_plain by exact Q.
    pose proof (cut_at_cases 44 line) as C. destruct (cut_at 44 line) as [[f line']|].
    + destruct C as [-> _]. rewrite app_length in LN. cbn [length] in LN. destruct (existsb _ f); [eauto|]. apply IH. lia.
    + destruct (existsb _ _); eauto.
Qed.

(** One record. *)
Definition blank (line : bytes) : bool := match line with [] => true | [10] => true | _ => false end.
Lemma blank_cases : forall line, blank line = true <-> line = [] \/ line = [10].
Proof.
  intro line. split; [|intros [-> | ->]; reflexivity]. destruct line as [|b l]; [auto|]. cbn [blank]. intro H. right.
  destruct (N.eq_dec b 10) as [->|N10]; [destruct l; [reflexivity|discriminate]|]. exfalso. destruct b as [|q]; [discriminate|]. do 4 (destruct q as [q|q|]; try discriminate). congruence.
Qed.
Definition one_record (fin : rerr) (line : bytes) (err : option rerr) (t' : bytes) : res record_read :=
  do x <- scan_fields (S (length line + length t')) fin None line err t' [] ; Ok (match x with Some (r, t'') => Rec r t'' | None => RecFail end).
Lemma read_record_eq : forall n fin t, read_record (S n) fin t =
  let '(line, err, t') := read_line fin t in
  match err with
  | Some RdEOF => Ok RecEnd
  | Some RdFail => one_record fin line err t'
  | None => if blank line then read_record n fin t' else one_record fin line err t'
  end.
Proof. intros n fin t. cbn [read_record]. destruct (read_line fin t) as [[line err] t']. destruct err as [[|]|]; reflexivity. Qed.

Lemma record_total : forall n fin t, (length t < n)%nat -> exists x, forall m, (length t < m)%nat -> read_record m fin t = Ok x.
Proof.
  induction n as [|n IH]; intros fin t LN; [lia|].
  assert (ONE : forall line err t', exists x, one_record fin line err t' = Ok x).
  { intros line err t'. unfold one_record. destruct (scan_total (S (length line + length t')) fin None line err t' [] ltac:(lia)) as [x ->]. cbn [bind]. eauto. }
  destruct (read_line fin t) as [[line err] t'] eqn:RL. destruct err as [[|]|].
  - exists RecEnd. intros [|m] LM; [lia|]. rewrite read_record_eq, RL. reflexivity.
  - destruct (ONE line (Some RdFail) t') as [x E]. exists x. intros [|m] LM; [lia|]. rewrite read_record_eq, RL. exact E.
  - destruct (read_line_none _ _ _ _ RL) as (_ & _ & LT & _). destruct (blank line) eqn:B.
    + destruct (IH fin t' ltac:(lia)) as [x E]. exists x. intros [|m] LM; [lia|]. rewrite read_record_eq, RL, B. apply E. lia.
    + destruct (ONE line None t') as [x E]. exists x. intros [|m] LM; [lia|]. rewrite read_record_eq, RL, B. exact E.
Qed.

Lemma blank_line : forall fin t line t', read_line fin t = (line, None, t') -> blank line = true ->
  unix t = 10 :: unix t' \/ unix t = [] /\ t' = [].
Proof.
  intros fin t line t' RL B. destruct (read_line_none _ _ _ _ RL) as ([U R] & _). rewrite U. apply blank_cases in B as [-> | ->]; [right|left; reflexivity].
  destruct R as [(h & E & _)|[_ ->]]; [destruct h; discriminate|]. auto.
Qed.

Lemma record_sound : forall n fin t x, read_record n fin t = Ok x ->
  match x with
  | RecEnd => fin = RdEOF /\ records_text [] (unix t)
  | RecFail => True
  | Rec r t' => exists k tx u, unix t = repeat 10 k ++ u /\ ends tx u t' /\ record_text r tx /\ tx <> [] /\ (length t' < length t)%nat /\
      exists raw, t = raw ++ t' /\ (last raw 0 = 10 \/ t' = [])
  end.
Proof.
  induction n as [|n IH]; intros fin t x E; [discriminate|]. rewrite read_record_eq in E. destruct (read_line fin t) as [[line err] t1] eqn:RL.
  destruct err as [[|]|].
  - injection E as <-. assert (X : fin = RdEOF /\ t = []).
    { unfold read_line in RL. destruct t as [|y t0]; [injection RL as _ -> _; auto|]. destruct (cut_line (y :: t0)) as [l0 r0]. destruct (ends_lf l0); [discriminate|]. destruct fin; discriminate. }
    destruct X as [-> ->]. split; [reflexivity|constructor].
  - unfold one_record in E. destruct (scan_fields _ fin None line (Some RdFail) t1 []) as [y| |] eqn:SC; try discriminate. apply scan_err in SC as ->. injection E as <-. exact I.
  - destruct (read_line_none _ _ _ _ RL) as (R & _ & LT & raw & RA & RB). destruct (blank line) eqn:B.
    + specialize (IH fin t1 x E). destruct x as [| |r t'].
      * destruct IH as [-> IH]. split; [reflexivity|]. destruct (blank_line _ _ _ _ RL B) as [->|[-> _]]; [now constructor|constructor].
      * exact I.
      * destruct IH as (k & tx & u & U & EN & RT & NE & LL & raw' & RA' & RB').
        destruct (blank_line _ _ _ _ RL B) as [UT|[_ ->]].
        -- exists (S k), tx, u. split; [rewrite UT, U; reflexivity|]. split; [exact EN|]. split; [exact RT|]. split; [exact NE|]. split; [lia|].
           exists (raw ++ raw'). split; [rewrite RA, RA'; now rewrite app_assoc|]. destruct RB' as [RB'|RB']; [|auto]. destruct raw' as [|b raw']; [discriminate|]. left. now rewrite last_app.
        -- cbn [length] in LL. lia.
    + unfold one_record in E. destruct (scan_fields _ fin None line None t1 []) as [y| |] eqn:SC; try discriminate. injection E as <-. destruct y as [[r t']|]; [|exact I].
      destruct (proj1 (scan_sound _ fin line t1 [] r t') SC (unix t) R) as (r0 & tx & -> & RT & EN & raw' & RA' & RB'). exists 0%nat, tx, (unix t). cbn [app repeat].
      split; [reflexivity|]. split; [exact EN|]. split; [exact RT|]. split.
      * intros ->. assert (X : blank line = true); [|congruence]. apply blank_cases. destruct EN as [EN|[EN _]]; rewrite EN in R.
        -- right. exact (proj1 (repr_lf [] _ line t1 R (no_nil _))).
        -- left. exact (proj1 (repr_end [] line t1 R (no_nil _))).
      * split; [rewrite RA' in LT; rewrite app_length in LT; lia|]. exists (raw ++ raw'). split; [rewrite RA, RA'; now rewrite app_assoc|].
        destruct RB' as [->|[RB'|RB']]; [rewrite app_nil_r; rewrite RA' in RB; exact RB| |auto]. destruct raw' as [|b raw']; [discriminate|]. left. now rewrite last_app.
Qed.

Lemma record_first : forall r tx, record_text r tx -> forall x, tx <> 10 :: x.
Proof.
  assert (F : forall f t, field_text f t -> forall x, t <> 10 :: x).
  { intros f t [g P|g] x E; [|discriminate]. rewrite E in P. destruct (P 10) as (_ & _ & X); [now left|]. congruence. }
  intros r tx [f t FT|f t r0 u FT _] x; [eapply F; eauto|]. destruct t as [|b t]; [discriminate|]. intro E. injection E as -> _. exact (F _ _ FT t eq_refl).
Qed.

Lemma record_complete : forall fin n t r tx u', record_text r tx -> tx <> [] -> (unix t = tx ++ 10 :: u' \/ unix t = tx /\ u' = [] /\ fin = RdEOF) -> (length t < n)%nat ->
  exists t', read_record n fin t = Ok (Rec r t') /\ unix t' = u' /\ (length t' < length t)%nat.
Proof.
  intros fin n t r tx u' RT NE U LN. destruct n as [|n]; [lia|]. assert (NT : t <> []).
  { intros ->. destruct U as [U|(U & _ & _)]; [destruct tx; discriminate|]. symmetry in U. contradiction. }
  destruct (read_line_some fin t) as (line & t1 & RL).
  { destruct U as [->|(_ & _ & ->)]; [right; apply in_or_app; right; now left|now left]. }
  destruct (read_line_none _ _ _ _ RL) as (R & _ & LT & _).
  rewrite read_record_eq, RL. assert (B : blank line = false).
  { destruct (blank line) eqn:B; [|reflexivity]. exfalso. destruct (blank_line _ _ _ _ RL B) as [X|[X _]].
    - destruct tx as [|b tx]; [congruence|]. destruct U as [U|(U & _ & _)]; rewrite X in U; injection U as <- _; eapply record_first; eauto.
    - rewrite X in U. destruct U as [U|(U & _ & _)]; [destruct tx; discriminate|]. congruence. }
  rewrite B. unfold one_record.
  destruct (fields_run fin r tx RT (unix t) u' line t1 [] (S (length line + length t1)) U R ltac:(lia)) as (t' & E & UT & LL). rewrite E. cbn [bind app].
  exists t'. split; [reflexivity|]. split; [exact UT|lia].
Qed.

(* ------------------------------------------------------------------ *)
(** All records. *)
Definition fits_width (width : option nat) (r : list bytes) : Prop := match width with None => True | Some w => length r = w end.
Lemma fits_width_eq : forall width r, (match width with None => true | Some w => Nat.eqb (length r) w end) = true <-> fits_width width r.
Proof. intros [w|] r; cbn [fits_width]; [apply Nat.eqb_eq|tauto]. Qed.

Lemma all_total : forall n fin width t, (length t < n)%nat -> exists x, read_all n fin width t = Ok x.
Proof.
  induction n as [|n IH]; intros fin width t LN; [lia|]. cbn [read_all]. destruct (record_total (S (length t)) fin t ltac:(lia)) as [x E].
  specialize (E (S (length t)) ltac:(lia)). rewrite E. cbn [bind]. pose proof (record_sound _ _ _ _ E) as S. destruct x as [| |r t']; [eauto|eauto|].
  destruct S as (k & tx & u & _ & _ & _ & _ & LT & _). destruct (match width with None => true | Some w => Nat.eqb (length r) w end); [|eauto].
  destruct (IH fin (Some (length r)) t' ltac:(lia)) as [y ->]. cbn [bind]. eauto.
Qed.

Lemma blanks_text : forall k rs u, records_text rs u -> records_text rs (repeat 10 k ++ u).
Proof. induction k as [|k IH]; intros rs u H; [exact H|]. cbn [repeat app]. constructor. now apply IH. Qed.

Lemma all_sound : forall n fin width t rs, read_all n fin width t = Ok (rs, false) ->
  fin = RdEOF /\ records_text rs (unix t) /\ (forall r, In r rs -> fits_width width r) /\ rectangular rs.
Proof.
  induction n as [|n IH]; intros fin width t rs E; [discriminate|]. cbn [read_all] in E. destruct (read_record (S (length t)) fin t) as [x| |] eqn:R; try discriminate.
  cbn [bind] in E. pose proof (record_sound _ _ _ _ R) as S. destruct x as [| |r t']; [|discriminate|].
  - injection E as <-. destruct S as [-> S]. split; [reflexivity|]. split; [exact S|]. split; [intros r []|]. exists 0%nat. constructor.
  - destruct (match width with None => true | Some w => Nat.eqb (length r) w end) eqn:W; [|discriminate]. apply fits_width_eq in W.
    destruct (read_all n fin (Some (length r)) t') as [[rs' b]| |] eqn:A; try discriminate. cbn [bind fst snd] in E. injection E as <- ->.
    destruct (IH _ _ _ _ A) as (-> & RT & FW & _). destruct S as (k & tx & u & -> & EN & RR & NE & _). split; [reflexivity|]. split; [|split].
    + apply blanks_text. destruct EN as [->|[-> ->]]; [now constructor|].
      assert (rs' = []) as ->; [|now constructor]. destruct n; [discriminate|]. cbn in A. now injection A as <-.
    + intros r' [<-|I]; [exact W|]. apply FW in I. cbn [fits_width] in I. destruct width as [w|]; [|exact Logic.I]. cbn [fits_width] in *. congruence.
    + exists (length r). constructor; [reflexivity|]. apply Forall_forall. exact FW.
Qed.

Lemma records_empty : forall rs, records_text rs [] -> rs = [].
Proof. intros rs H. inversion H; subst; try reflexivity; [congruence|]. destruct t; discriminate. Qed.

Lemma all_complete : forall rs u, records_text rs u -> forall n width t, unix t = u -> (length t < n)%nat ->
  (forall r, In r rs -> fits_width width r) -> rectangular rs -> read_all n RdEOF width t = Ok (rs, false).
Proof.
  intros rs u H. induction H as [|rs u H IH|r tx RT NE|r tx rs u RT NE H IH]; intros n width t U LN FW RE; (destruct n as [|n]; [lia|]).
  - (* nothing to read *)
    cbn [read_all]. assert (E : read_record (S (length t)) RdEOF t = Ok RecEnd).
    { destruct t as [|b t]; [reflexivity|]. destruct (read_line_eof (b :: t) ltac:(discriminate)) as (line & t1 & RL). destruct (read_line_none _ _ _ _ RL) as ([V _] & _ & LT & _).
      rewrite U in V. symmetry in V. apply app_eq_nil in V as [-> V]. rewrite read_record_eq, RL. cbn [blank].
      destruct (blank_line _ _ _ _ RL eq_refl) as [X|[_ ->]]; [congruence|]. reflexivity. }
    now rewrite E.
  - (* an empty line *)
    assert (NT : t <> []) by (intros ->; discriminate). destruct (read_line_eof t NT) as (line & t1 & RL). destruct (read_line_none _ _ _ _ RL) as (R & _ & LT & _). rewrite U in R.
    destruct (repr_lf [] u line t1 R (no_nil _)) as [-> U1]. rewrite <- (IH (S n) width t1 U1 ltac:(lia) FW RE). cbn [read_all].
    replace (read_record (S (length t)) RdEOF t) with (read_record (S (length t1)) RdEOF t1); [reflexivity|].
    rewrite (read_record_eq (length t)), RL. cbn [blank app]. destruct (record_total (S (length t1)) RdEOF t1 ltac:(lia)) as [x E]. rewrite !E by lia. reflexivity.
  - destruct (record_complete RdEOF (S (length t)) t r tx [] RT NE (or_intror (conj U (conj eq_refl eq_refl))) ltac:(lia)) as (t' & E & U' & LT). cbn [read_all]. rewrite E. cbn [bind].
    rewrite (proj2 (fits_width_eq width r)) by (apply FW; now left).
    assert (X : read_all n RdEOF (Some (length r)) t' = Ok ([], false)).
    { destruct n as [|n]; [lia|]. cbn [read_all]. destruct (record_total (S (length t')) RdEOF t' ltac:(lia)) as [x E']. specialize (E' (S (length t')) ltac:(lia)). rewrite E'. cbn [bind].
      destruct t' as [|b t']; [cbn in E'; injection E' as <-; reflexivity|]. destruct (read_line_eof (b :: t') ltac:(discriminate)) as (line & t1 & RL).
      destruct (read_line_none _ _ _ _ RL) as ([V _] & _). rewrite U' in V. symmetry in V. apply app_eq_nil in V as [-> V].
      destruct (blank_line _ _ _ _ RL eq_refl) as [Y|[_ ->]]; [congruence|]. rewrite read_record_eq, RL in E'. cbn in E'. injection E' as <-. reflexivity. }
    now rewrite X.
  - destruct (record_complete RdEOF (S (length t)) t r tx u RT NE (or_introl U) ltac:(lia)) as (t' & E & U' & LT). cbn [read_all]. rewrite E. cbn [bind].
    rewrite (proj2 (fits_width_eq width r)) by (apply FW; now left).
    destruct RE as [w RE]. pose proof (Forall_inv RE) as HW. pose proof (Forall_inv_tail RE) as RW. cbn beta in HW.
    rewrite (IH n (Some (length r)) t' U' ltac:(lia)); [reflexivity| |now exists w]. intros r' I. rewrite Forall_forall in RW. cbn [fits_width]. rewrite HW. now apply RW.
Qed.

Lemma record_last : forall r tx, record_text r tx -> tx <> [] -> last tx 0 <> 10.
Proof.
  intros r tx RR. induction RR as [f t F|f t r u F RR IH]; intros NE X.
  - destruct F as [f P|f]; [|change (34 :: doubled f ++ [34]) with ((34 :: doubled f) ++ [34]) in X; rewrite last_last in X; discriminate].
    destruct (P 10) as (_ & _ & Y); [|congruence]. rewrite <- X. destruct (exists_last NE) as (h & z & ->). rewrite last_last. apply in_or_app. right. now left.
  - destruct u as [|y u]; [rewrite last_last in X; discriminate|]. apply IH; [discriminate|]. change (44 :: y :: u) with ([44] ++ y :: u) in X. rewrite app_assoc, last_app in X by discriminate. exact X.
Qed.

(** Failures: the records before the failure are those of a first part of the text. *)
Lemma all_prefix : forall n fin width t rs b, read_all n fin width t = Ok (rs, b) ->
  rectangular rs /\ (forall r, In r rs -> fits_width width r) /\ exists t1 t2, t = t1 ++ t2 /\ (t1 = [] \/ last t1 0 = 10 \/ t2 = []) /\ records_text rs (unix t1).
Proof.
  induction n as [|n IH]; intros fin width t rs b E; [discriminate|]. cbn [read_all] in E. destruct (read_record (S (length t)) fin t) as [x| |] eqn:R; try discriminate.
  cbn [bind] in E. pose proof (record_sound _ _ _ _ R) as S.
  assert (NONE : rs = [] -> rectangular rs /\ (forall r, In r rs -> fits_width width r) /\ exists t1 t2, t = t1 ++ t2 /\ (t1 = [] \/ last t1 0 = 10 \/ t2 = []) /\ records_text rs (unix t1)).
  { intros ->. split; [exists 0%nat; constructor|]. split; [intros r []|]. exists [], t. split; [reflexivity|]. split; [auto|constructor]. }
  destruct x as [| |r t']; [apply NONE; congruence|apply NONE; congruence|].
  destruct (match width with None => true | Some w => Nat.eqb (length r) w end) eqn:W; [|apply NONE; congruence]. apply fits_width_eq in W.
  destruct (read_all n fin (Some (length r)) t') as [[rs' b']| |] eqn:A; try discriminate. cbn [bind fst snd] in E. injection E as <- ->.
  destruct (IH _ _ _ _ _ A) as (_ & FW & t1 & t2 & -> & T1 & RT). destruct S as (k & tx & u & U & EN & RR & NE & LT & raw & -> & RB).
  split; [exists (length r); constructor; [reflexivity|]; apply Forall_forall; exact FW|]. split.
  { intros r' [<-|I]; [exact W|]. apply FW in I. cbn [fits_width] in I. destruct width as [w|]; [|exact Logic.I]. cbn [fits_width] in *. congruence. }
  exists (raw ++ t1), t2. split; [now rewrite app_assoc|]. split.
  { destruct T1 as [->|[T1|T1]]; [rewrite app_nil_r; destruct RB as [RB|RB]; [auto|apply app_eq_nil in RB; tauto]| |auto]. destruct t1 as [|y t1]; [discriminate|]. right; left. now rewrite last_app. }
  destruct RB as [RB|RB].
  - rewrite (unix_app raw (t1 ++ t2) RB) in U. rewrite (unix_app raw t1 RB).
    assert (U0 : exists s, unix raw = repeat 10 k ++ tx ++ 10 :: s /\ s = []).
    { exists []. split; [|reflexivity]. destruct EN as [->|[-> T0]].
      - change (10 :: unix (t1 ++ t2)) with ([10] ++ unix (t1 ++ t2)) in U. rewrite !app_assoc in U. apply app_inv_tail in U. rewrite U, <- !app_assoc. reflexivity.
      - (* impossible: the record ends at the end of the input but a line feed has been read *)
        exfalso. rewrite T0 in U. cbn [unix] in U. rewrite app_nil_r in U.
        assert (X : last (unix raw) 0 = 10).
        { destruct raw as [|y raw]; [discriminate|]. destruct (exists_last (l := y :: raw) ltac:(discriminate)) as (h & z & EZ). rewrite EZ in RB |- *. rewrite last_last in RB. subst z.
          clear. destruct h as [|y h]; [reflexivity|].
          assert (G : forall n h, (length h <= n)%nat -> last (unix (h ++ [10])) 0 = 10).
          { induction n as [|n IH]; intros h0 L; [destruct h0; [reflexivity|cbn [length] in L; lia]|]. destruct (cut_line_spec h0) as (g & N & [(r & _ & ->)|[_ ->]]).
            - rewrite <- app_assoc. cbn [app]. rewrite unix_line by exact N. rewrite app_length in L. cbn [length] in L. specialize (IH r ltac:(lia)).
              change (10 :: unix (r ++ [10])) with ([10] ++ unix (r ++ [10])). rewrite app_assoc, last_app; [exact IH|]. intro X. rewrite X in IH. discriminate.
            - rewrite unix_line by exact N. now rewrite last_app. }
          eapply G. reflexivity. }
        rewrite U in X. rewrite last_app in X by exact NE. exact (record_last _ _ RR NE X). }
    destruct U0 as (s & -> & ->). rewrite <- app_assoc. apply blanks_text. rewrite <- app_assoc. cbn [app]. now constructor.
  - apply app_eq_nil in RB as [-> ->]. rewrite app_nil_r in U |- *. rewrite U. apply records_empty in RT. subst rs'. apply blanks_text.
    destruct EN as [->|[-> _]]; [cbn [app unix]; constructor; [exact RR|exact NE|constructor]|now constructor].
Qed.

(** What is before a fault is read, whatever follows. *)
Lemma all_begins : forall rs u, records_text rs u -> (u = [] \/ last u 0 = 10) -> forall n fin width t v, unix t = u ++ v -> (length t < n)%nat ->
  (forall r, In r rs -> fits_width width r) -> rectangular rs -> exists more b, read_all n fin width t = Ok (rs ++ more, b).
Proof.
  intros rs u H. induction H as [|rs u H IH|r tx RT NE|r tx rs u RT NE H IH]; intros LF n fin width t v U LN FW RE.
  - destruct (all_total n fin width t LN) as [[more b] E]. exists more, b. exact E.
  - destruct n as [|n]; [lia|]. cbn [app] in U. destruct (read_line_some fin t) as (line & t1 & RL); [right; rewrite U; now left|]. destruct (read_line_none _ _ _ _ RL) as (R & _ & LT & _). rewrite U in R.
    destruct (repr_lf [] (u ++ v) line t1 R (no_nil _)) as [-> U1].
    destruct (IH ltac:(destruct u; [auto|right; destruct LF as [LF|LF]; [discriminate|exact LF]]) (S n) fin width t1 v U1 ltac:(lia) FW RE) as (more & b & E). exists more, b. rewrite <- E. cbn [read_all].
    replace (read_record (S (length t)) fin t) with (read_record (S (length t1)) fin t1); [reflexivity|].
    rewrite (read_record_eq (length t)), RL. cbn [blank app]. destruct (record_total (S (length t1)) fin t1 ltac:(lia)) as [x E1]. rewrite !E1 by lia. reflexivity.
  - exfalso. destruct LF as [LF|LF]; [contradiction|]. exact (record_last _ _ RT NE LF).
  - destruct n as [|n]; [lia|]. rewrite <- app_assoc in U. cbn [app] in U.
    destruct (record_complete fin (S (length t)) t r tx (u ++ v) RT NE (or_introl U) ltac:(lia)) as (t' & E & U' & LT). cbn [read_all]. rewrite E. cbn [bind].
    rewrite (proj2 (fits_width_eq width r)) by (apply FW; now left).
    destruct RE as [w RE]. pose proof (Forall_inv RE) as HW. pose proof (Forall_inv_tail RE) as RW. cbn beta in HW.
    destruct (IH) with (n := n) (fin := fin) (width := Some (length r)) (t := t') (v := v) as (more & b & E1); [ |exact U'|lia| |now exists w|].
    + destruct u as [|y u]; [auto|right]. destruct LF as [LF|LF]; [destruct tx; discriminate|]. change (10 :: y :: u) with ([10] ++ y :: u) in LF. rewrite app_assoc, last_app in LF by discriminate. exact LF.
    + intros r' I. rewrite Forall_forall in RW. cbn [fits_width]. rewrite HW. now apply RW.
    + rewrite E1. exists more, b. reflexivity.
Qed.

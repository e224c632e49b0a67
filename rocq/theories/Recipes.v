(** C74: the nodes of the queries of recipes (RecipeSpec.v). *)
From Coq Require Import String List Arith ZArith NArith Bool Lia Sorted.
From Verif Require Import Base Tokens JsonSpec ScalarSpec GoLiteral P_Scalar EncSpec SelectSpec P_Select CursorModel EqualSpec P_Equal
  PathAst PathTypes PathSpec PathTame PathSel PathOrder P_DocOrder P_Ordinary GrammarModel GrammarSpec QuerySyntax CliModel RecipeSpec.
Import ListNotations.

(* ------------------------------------------------------------------ *)
(** Positions and elements. *)
Lemma pick_here : forall A (pre : list A) a l is, pick (pre ++ a :: l) (length pre :: is) = a :: pick (pre ++ a :: l) is.
Proof. intros A pre a l is. unfold pick. cbn [flat_map]. rewrite nth_error_app2 by lia. rewrite Nat.sub_diag. reflexivity. Qed.
Lemma pick_map : forall A B (f : A -> B) l is, pick (map f l) is = map f (pick l is).
Proof.
  intros A B f l. induction is as [|i is IH]; [reflexivity|]. unfold pick in *. cbn [flat_map]. rewrite IH, map_app, nth_error_map.
  destruct (nth_error l i); reflexivity.
Qed.
Lemma kept_sifted : forall A (P : A -> Prop) i l is, kept P i l is -> forall pre, length pre = i -> sifted P l (pick (pre ++ l) is).
Proof.
  induction 1 as [i|i a l is PA K IH|i a l is PA K IH]; intros pre L.
  - constructor.
  - subst i. rewrite pick_here. apply sf_yes; [exact PA|]. specialize (IH (pre ++ [a])). rewrite <- app_assoc in IH. apply IH. rewrite app_length; cbn; lia.
  - apply sf_no; [exact PA|]. specialize (IH (pre ++ [a])). rewrite <- app_assoc in IH. apply IH. rewrite app_length; cbn; lia.
Qed.
Lemma sifted_kept : forall A (P : A -> Prop) l m, sifted P l m -> forall pre, exists is, kept P (length pre) l is /\ m = pick (pre ++ l) is.
Proof.
  induction 1 as [|a l m PA H IH|a l m PA H IH]; intro pre.
  - exists []. split; [constructor|reflexivity].
  - destruct (IH (pre ++ [a])) as (is & K & E). rewrite app_length, Nat.add_1_r in K. rewrite <- app_assoc in E. cbn [app] in E.
    exists (length pre :: is). split; [now constructor|]. now rewrite pick_here, E.
  - destruct (IH (pre ++ [a])) as (is & K & E). rewrite app_length, Nat.add_1_r in K. rewrite <- app_assoc in E. cbn [app] in E.
    exists is. split; [now apply kept_no|exact E].
Qed.
Lemma sifted_iff : forall A (P : A -> Prop) l m, sifted P l m <-> exists is, kept P 0 l is /\ m = pick l is.
Proof.
  intros A P l m. split.
  - intro H. exact (sifted_kept A P l m H []).
  - intros (is & K & ->). exact (kept_sifted A P 0 l is K [] eq_refl).
Qed.
Lemma kept_map : forall A B (f : A -> B) (P : B -> Prop) l i is, kept P i (map f l) is <-> kept (fun a => P (f a)) i l is.
Proof.
  intros A B f P. induction l as [|a l IH]; intros i is; cbn [map].
  - split; intro H; inversion H; constructor.
  - split; intro H; inversion H; subst; (apply kept_yes + apply kept_no); auto; now apply IH.
Qed.
Lemma sifted_impl : forall A (P Q : A -> Prop), (forall a, P a <-> Q a) -> forall l m, sifted P l m -> sifted Q l m.
Proof. intros A P Q H. induction 1; [constructor|apply sf_yes; auto; now apply H|apply sf_no; auto]. intro X. apply H in X. auto. Qed.
Lemma pick_seq : forall A (l : list A) n a, pick l (seq a n) = firstn n (skipn a l).
Proof.
  intros A l. induction n as [|n IH]; intro a; [reflexivity|]. unfold pick in *. cbn [seq flat_map]. rewrite IH. 
  destruct (nth_error l a) as [y|] eqn:E.
  - apply nth_error_split in E as (l1 & l2 & -> & <-). assert (X : forall (p q : list A), skipn (length p) (p ++ q) = q).
    { intros p q. rewrite skipn_app, skipn_all, Nat.sub_diag. reflexivity. }
    rewrite X. replace (l1 ++ y :: l2) with ((l1 ++ [y]) ++ l2) by (now rewrite <- app_assoc).
    replace (S (length l1)) with (length (l1 ++ [y])) by (rewrite app_length; cbn; lia). rewrite X. reflexivity.
  - apply nth_error_None in E. rewrite !skipn_all2 by lia. now rewrite !firstn_nil.
Qed.

(** Slices with step 1. *)
Lemma go_up_seq : forall k i u, (0 <= i)%Z -> (u - i <= Z.of_nat k)%Z -> go_up k i u 1 = map Z.of_nat (seq (Z.to_nat i) (Z.to_nat (u - i))).
Proof.
  induction k as [|k IH]; intros i u P L; cbn [go_up].
  - replace (Z.to_nat (u - i)) with 0 by lia. reflexivity.
  - destruct (Z.ltb_spec i u) as [H|H].
    + rewrite IH by lia. replace (Z.to_nat (u - i)) with (S (Z.to_nat (u - (i + 1)))) by lia. cbn [seq map]. rewrite Z2Nat.id by lia. f_equal.
      f_equal. f_equal. lia.
    + replace (Z.to_nat (u - i)) with 0 by lia. reflexivity.
Qed.
Lemma nat_positions : forall l, map Z.to_nat (map Z.of_nat l) = l.
Proof. intro l. rewrite map_map. erewrite map_ext; [apply map_id|]. intro. apply Nat2Z.id. Qed.
Lemma head_slice : forall n len, map Z.to_nat (rfc_slice None (Some (Z.of_nat n)) 1 len) = seq 0 (Nat.min n len).
Proof.
  intros n len. unfold rfc_slice, bounds, default, normalize. change (0 <=? 1)%Z with true. change (0 <? 1)%Z with true. cbn [Z.leb Z.compare].
  destruct (Z.leb_spec 0 (Z.of_nat n)) as [H|H]; [|lia]. rewrite go_up_seq, nat_positions by lia. f_equal; lia.
Qed.
Lemma tail_slice : forall n len, 0 < n -> map Z.to_nat (rfc_slice (Some (- Z.of_nat n)%Z) None 1 len) = seq (len - n) (Nat.min n len).
Proof.
  intros n len P. unfold rfc_slice, bounds, default, normalize. change (0 <=? 1)%Z with true. change (0 <? 1)%Z with true.
  destruct (Z.leb_spec 0 (- Z.of_nat n)) as [H|H]; [lia|]. destruct (Z.leb_spec 0 (Z.of_nat len)) as [H'|H']; [|lia].
  rewrite go_up_seq, nat_positions by lia. f_equal; lia.
Qed.
Lemma nth_index : forall n len, map Z.to_nat (rfc_index (Z.of_nat n) (Z.of_nat len)) = if n <? len then [n] else [].
Proof.
  intros n len. unfold rfc_index, normalize. destruct (Z.leb_spec 0 (Z.of_nat n)) as [H|H]; [|lia].
  destruct (Z.leb_spec 0 (Z.of_nat n)) as [_|H']; [|lia]. cbn [andb]. destruct (Z.ltb_spec (Z.of_nat n) (Z.of_nat len)), (Nat.ltb_spec n len); try lia; [|reflexivity].
  cbn [map]. now rewrite Nat2Z.id.
Qed.

(* ------------------------------------------------------------------ *)
(** Segments with one selector. *)
Section Nodes.
Variable matches : bytes -> bytes -> Prop.
Variable strict : bool.
Variable root : jval.
Notation nodes := (nodes matches strict root).
Notation segment_nodes := (segment_nodes matches strict root).
Notation selects := (selects matches strict root).
Notation holds := (holds matches strict root).

Lemma child_segment_nodes : forall s x l, segment_nodes (JSegment false [s]) x l <-> exists is, selects s x is /\ l = pick (children x) is.
Proof.
  intros s x l. cbn [PathSpec.segment_nodes]. split.
  - intros (is & (iss & E & ->) & ->). destruct iss as [|i [|j iss]]; cbn in E; try tauto. exists i. cbn [concat]. rewrite app_nil_r. tauto.
  - intros (is & S1 & ->). exists is. split; [|reflexivity]. exists [is]. cbn. rewrite app_nil_r. tauto.
Qed.
Lemma below_segment_nodes : forall s x l, strict = false -> segment_nodes (JSegment true [s]) x l <-> walk (selects s) x l.
Proof.
  intros s x l E. cbn [PathSpec.segment_nodes]. rewrite E. split; apply walk_impl; intros y is.
  - intros (iss & H & ->). destruct iss as [|i [|j iss]]; cbn in H; try tauto. cbn [concat]. rewrite app_nil_r. tauto.
  - intro H. exists [is]. cbn. rewrite app_nil_r. tauto.
Qed.

Lemma name_segment : forall name x l, segment_nodes (JSegment false [JName name]) x l <-> member name x l.
Proof.
  intros name x l. rewrite child_segment_nodes. cbn [PathSpec.selects]. destruct x as [s|ys e|ms e]; cbn [member children].
  - split; [intros (is & -> & ->); reflexivity|intros ->; now exists []].
  - split; [intros (is & -> & ->); reflexivity|intros ->; now exists []].
  - split.
    + intros (is & K & ->). exists (pick ms is). split; [apply sifted_iff; eauto|apply pick_map].
    + intros (m' & H & ->). apply sifted_iff in H as (is & K & ->). exists is. split; [exact K|]. symmetry. apply pick_map.
Qed.
Lemma wild_segment : forall x l, segment_nodes (JSegment false [JWild]) x l <-> l = contents x.
Proof.
  intros x l. rewrite child_segment_nodes. cbn [PathSpec.selects]. change (contents x) with (children x). split.
  - intros (is & -> & ->). rewrite pick_seq. cbn [skipn]. apply firstn_all.
  - intros ->. eexists. split; [reflexivity|]. rewrite pick_seq. cbn [skipn]. symmetry. apply firstn_all.
Qed.
Lemma head_segment : forall n x l, segment_nodes (JSegment false [JSlice None (Some (Z.of_nat n)) 1]) x l <-> l = firstn n (items x).
Proof.
  intros n x l. rewrite child_segment_nodes. cbn [PathSpec.selects].
  assert (X : forall ys : list jval, pick ys (map Z.to_nat (rfc_slice None (Some (Z.of_nat n)) 1 (length ys))) = firstn n ys).
  { intro ys. rewrite head_slice, pick_seq. cbn [skipn]. destruct (Nat.min_spec n (length ys)) as [[_ ->]|[H ->]]; [reflexivity|]. now rewrite firstn_all, firstn_all2. }
  destruct x as [s|ys e|ms e]; cbn [items children]; rewrite ?firstn_nil.
  - split; [intros (is & -> & ->); reflexivity|intros ->; now exists []].
  - split; [intros (is & -> & ->); apply X|intros ->; eexists; split; [reflexivity|symmetry; apply X]].
  - split; [intros (is & -> & ->); reflexivity|intros ->; now exists []].
Qed.
Lemma tail_segment : forall n x l, 0 < n -> segment_nodes (JSegment false [JSlice (Some (- Z.of_nat n)%Z) None 1]) x l <-> l = skipn (length (items x) - n) (items x).
Proof.
  intros n x l P. rewrite child_segment_nodes. cbn [PathSpec.selects].
  assert (X : forall ys : list jval, pick ys (map Z.to_nat (rfc_slice (Some (- Z.of_nat n)%Z) None 1 (length ys))) = skipn (length ys - n) ys).
  { intro ys. rewrite tail_slice, pick_seq by exact P. apply firstn_all2. rewrite skipn_length. lia. }
  destruct x as [s|ys e|ms e]; cbn [items children]; rewrite ?skipn_nil.
  - split; [intros (is & -> & ->); reflexivity|intros ->; now exists []].
  - split; [intros (is & -> & ->); apply X|intros ->; eexists; split; [reflexivity|symmetry; apply X]].
  - split; [intros (is & -> & ->); reflexivity|intros ->; now exists []].
Qed.
Lemma item_segment : forall n x l, segment_nodes (JSegment false [JIndex (Z.of_nat n)]) x l <-> l = firstn 1 (skipn n (items x)).
Proof.
  intros n x l. rewrite child_segment_nodes. cbn [PathSpec.selects].
  assert (X : forall ys : list jval, pick ys (map Z.to_nat (rfc_index (Z.of_nat n) (Z.of_nat (length ys)))) = firstn 1 (skipn n ys)).
  { intro ys. rewrite nth_index, <- pick_seq. cbn [seq]. destruct (Nat.ltb_spec n (length ys)); [reflexivity|]. unfold pick. cbn [flat_map].
    now rewrite (proj2 (nth_error_None ys n)). }
  destruct x as [s|ys e|ms e]; cbn [items children]; rewrite ?skipn_nil.
  - split; [intros (is & -> & ->); reflexivity|intros ->; now exists []].
  - split; [intros (is & -> & ->); apply X|intros ->; eexists; split; [reflexivity|symmetry; apply X]].
  - split; [intros (is & -> & ->); reflexivity|intros ->; now exists []].
Qed.
Lemma filter_segment : forall c P x l, (forall z, holds c z <-> P z) -> segment_nodes (JSegment false [JFilter c]) x l <-> sifted P (contents x) l.
Proof.
  intros c P x l H. rewrite child_segment_nodes. cbn [PathSpec.selects]. change (contents x) with (children x). rewrite sifted_iff.
  split; intros (is & K & ->); exists is; (split; [|reflexivity]); (eapply kept_impl; [|exact K]); intro z; rewrite (H z); reflexivity.
Qed.

(** Descendants. *)
Lemma merge_skip : forall l i j is b, j < i -> merge i (j :: is) l b = merge i is l b.
Proof.
  induction l as [|y l IH]; intros i j is b H; [reflexivity|]. destruct b as [|b bl]; [reflexivity|]. cbn [merge]. rewrite IH by lia.
  cbn [count_occ]. destruct (Nat.eq_dec j i); [lia|reflexivity].
Qed.
Lemma kept_count : forall A (P : A -> Prop) i l is, kept P (S i) l is -> count_occ Nat.eq_dec is i = 0.
Proof.
  intros A P i l is K. apply kept_from in K as [_ F]. apply count_occ_not_In. intro H. rewrite Forall_forall in F. specialize (F _ H). lia.
Qed.
Lemma entries_values : forall x, map snd (entries x) = children x.
Proof. destruct x; cbn [entries children]; rewrite ?map_map; [reflexivity|apply map_id|reflexivity]. Qed.

Section Below.
Variable P : option scalar -> jval -> Prop.
Variable R : jval -> list nat -> Prop.
Hypothesis chosen : forall x is, R x is <-> kept (fun e => P (fst e) (snd e)) 0 (entries x) is.

Lemma merge_below : forall es i is bl, kept (fun e => P (fst e) (snd e)) i es is -> Forall2 (below P) (map snd es) bl ->
  below_all P es (merge i is (map snd es) bl).
Proof.
  induction es as [|[k y] es IH]; intros i is bl K F; inversion F as [|? b ? bl' FB FR]; subst; [constructor|].
  cbn [map snd merge]. inversion K as [|? ? ? is' PA K'|? ? ? is' PA K']; subst.
  - cbn [count_occ]. destruct (Nat.eq_dec i i); [|lia]. rewrite (kept_count _ _ _ _ _ K'), merge_skip by lia. cbn [repeat app fst snd] in *.
    apply below_yes; auto.
  - rewrite (kept_count _ _ _ _ _ K'). cbn [repeat app fst snd] in *. apply below_no; auto.
Qed.
Lemma below_merge : forall es i l, below_all P es l -> exists is bl, kept (fun e => P (fst e) (snd e)) i es is /\ Forall2 (below P) (map snd es) bl /\
  l = merge i is (map snd es) bl.
Proof.
  induction es as [|[k y] es IH]; intros i l B; inversion B as [|? ? ? a b PA BY BR|? ? ? a b PA BY BR]; subst.
  - exists [], []. repeat split; constructor.
  - destruct (IH (S i) b BR) as (is & bl & K & F & ->). exists (i :: is), (a :: bl). repeat split.
    + now apply kept_yes.
    + now constructor.
    + cbn [map snd merge count_occ]. destruct (Nat.eq_dec i i); [|lia]. now rewrite (kept_count _ _ _ _ _ K), merge_skip by lia.
  - destruct (IH (S i) b BR) as (is & bl & K & F & ->). exists is, (a :: bl). repeat split.
    + now apply kept_no.
    + now constructor.
    + cbn [map snd merge]. now rewrite (kept_count _ _ _ _ _ K).
Qed.
Lemma forall2_in : forall A B (Q S : A -> B -> Prop) l l', (forall a, In a l -> forall b, Q a b -> S a b) -> Forall2 Q l l' -> Forall2 S l l'.
Proof. intros A B Q S l l' H F. induction F; constructor; [apply H; [now left|assumption]|]. apply IHF. intros; apply H; [now right|assumption]. Qed.

Lemma walk_below_n : forall n x, length (toks x) < n -> forall l, walk R x l <-> below P x l.
Proof.
  induction n as [|n IH]; intros x L l; [lia|].
  assert (IH' : forall y, In y (children x) -> forall l, walk R y l <-> below P y l).
  { intros y J. apply IH. apply toks_child in J. lia. }
  split.
  - intro W. inversion W as [? is bl C F E1 E2]; subst. constructor. apply chosen in C. rewrite <- entries_values in *. apply merge_below; [exact C|].
    eapply forall2_in; [|exact F]. intros y J b. apply IH'. exact J.
  - intro B. inversion B as [? ? BA]; subst. destruct (below_merge _ 0 _ BA) as (is & bl & K & F & ->). rewrite entries_values in *.
    apply walk_node; [now apply chosen|]. eapply forall2_in; [|exact F]. intros y J b. apply IH'. exact J.
Qed.
Lemma walk_below : forall x l, walk R x l <-> below P x l.
Proof. intro x. eapply walk_below_n. apply Nat.lt_succ_diag_r. Qed.
End Below.

Lemma kept_none : forall A (P : A -> Prop) l i is, (forall a, In a l -> ~ P a) -> kept P i l is <-> is = [].
Proof.
  intros A P. induction l as [|a l IH]; intros i is H.
  - split; [intro K; inversion K; reflexivity|intros ->; constructor].
  - split.
    + intro K. inversion K as [|? ? ? is' PA K'|? ? ? is' PA K']; subst; [destruct (H a (or_introl eq_refl) PA)|].
      apply IH in K'; [exact K'|]. intros b B. apply H. now right.
    + intros ->. apply kept_no; [apply H; now left|]. apply IH; [|reflexivity]. intros b B. apply H. now right.
Qed.
Lemma below_name : forall name x l, strict = false -> segment_nodes (JSegment true [JName name]) x l <-> below (called name) x l.
Proof.
  intros name x l E. rewrite below_segment_nodes by exact E. apply walk_below. clear x l. intros x is. cbn [PathSpec.selects].
  destruct x as [s|ys e|ms e]; cbn [entries].
  - split; [intros ->; constructor|intro K; inversion K; reflexivity].
  - rewrite kept_none; [tauto|]. intros [k y] J (s & F & _). apply in_map_iff in J as (z & J & _). injection J as <- _. cbn in F. discriminate.
  - rewrite kept_map. cbn [fst snd]. split; apply kept_impl; intros [k y]; unfold called; cbn [fst]; (split; [try (intro Z; exists k; tauto); intros (s & Z & W); now injection Z as ->|try (intro Z; exists k; tauto); intros (s & Z & W); now injection Z as ->]).
Qed.
Lemma below_filter : forall c P x l, strict = false -> (forall z, holds c z <-> P z) -> segment_nodes (JSegment true [JFilter c]) x l <-> below (fun _ => P) x l.
Proof.
  intros c P x l E H. rewrite below_segment_nodes by exact E. apply walk_below. clear x l. intros x is. cbn [PathSpec.selects].
  rewrite <- entries_values, kept_map. split; apply kept_impl; intro a; [apply H|symmetry; apply H].
Qed.
End Nodes.

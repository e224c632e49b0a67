(** The two orders in which the specification gives the nodes of descendant
    segments: the nodes are the same, and so are the values of filters. *)
From Coq Require Import List ZArith NArith Arith Bool Lia Permutation.
From Verif Require Import Base Tokens JsonSpec GoLiteral CursorModel P_Scalar P_Equal SelectSpec P_Select PathAst PathSpec PathTame PathMarks PathStep PathInd PathBag PathBagRfc.

Lemma forall2_flat : forall A B C (R : B -> C -> Prop) (f : A -> list B) l ls, Forall2 R (flat_map f l) ls -> exists lss, ls = concat lss /\ Forall2 (fun a ls => Forall2 R (f a) ls) l lss.
Proof.
  intros A B C R f. induction l as [|a l IH]; intros ls H; cbn [flat_map] in H.
  - inversion H; subst. exists []. split; [reflexivity|constructor].
  - apply Forall2_app_inv_l in H as (l1 & l2 & F1 & F2 & ->). apply IH in F2 as [lss [-> F2]]. exists (l1 :: lss). split; [reflexivity|now constructor].
Qed.
Lemma flat_forall2 : forall A B C (R : B -> C -> Prop) (f : A -> list B) l lss, Forall2 (fun a ls => Forall2 R (f a) ls) l lss -> Forall2 R (flat_map f l) (concat lss).
Proof.
  intros A B C R f l lss H. induction H as [|a ls l lss H1 H IH]; [constructor|]. cbn [flat_map concat]. now apply Forall2_app.
Qed.
Lemma concat_perm : forall A (l l' : list (list A)), Permutation l l' -> Permutation (concat l) (concat l').
Proof. intros A l l' P. rewrite <- (map_id l), <- (map_id l'), <- !flat_map_concat_map. now apply Permutation_flat_map. Qed.
Lemma concat_perms : forall A (l l' : list (list A)), Forall2 (@Permutation A) l l' -> Permutation (concat l) (concat l').
Proof. intros A l l' F. induction F; [constructor|]. cbn [concat]. now apply Permutation_app. Qed.

Section Walk.
  Variable chosen : jval -> list nat -> Prop.
  Definition kids (x : jval) (l : list jval) : Prop := exists is, chosen x is /\ l = pick (children x) is.
  Lemma strict_walk : forall x ls, Forall2 kids (descendants x) ls -> exists l, walk chosen x l /\ Permutation (concat ls) l.
  Proof.
    intro x. induction x as [x IH] using children_ind. intros ls F. rewrite descendants_eq in F. inversion F as [|? l1 ? ls' [is [C ->]] F']; subst.
    apply forall2_flat in F' as [lss [-> F']].
    assert (B : exists below, Forall2 (walk chosen) (children x) below /\ Forall2 (fun ls b => Permutation (concat ls) b) lss below).
    { clear F C. assert (IH' : forall y, In y (children x) -> forall ls, Forall2 kids (descendants y) ls -> exists l, walk chosen y l /\ Permutation (concat ls) l) by auto. clear IH. revert IH'. generalize dependent lss.
      induction (children x) as [|y ys IHy]; intros lss F' IH; inversion F' as [|? a ? lss' H1 F2]; subst.
      - exists []. split; constructor.
      - destruct (IH y (or_introl eq_refl) a H1) as [b [B1 B2]]. destruct (IHy lss' F2 (fun z Z => IH z (or_intror Z))) as [below [B3 B4]]. exists (b :: below). split; now constructor. }
    destruct B as [below [B1 B2]]. exists (merge 0 is (children x) below). split; [now constructor|].
    rewrite merge_perm by (symmetry; clear - B1; induction B1; cbn; auto). cbn [concat]. apply Permutation_app_head.
    clear - B2. induction B2 as [|a b lss below P B2 IH]; [constructor|]. cbn [concat]. rewrite concat_app. now apply Permutation_app.
  Qed.
  Lemma walk_strict : forall x l, walk chosen x l -> exists ls, Forall2 kids (descendants x) ls /\ Permutation l (concat ls).
  Proof.
    intro x. induction x as [x IH] using children_ind. intros l W. inversion W as [? is below C FB]; subst.
    assert (B : exists lss, Forall2 (fun y ls => Forall2 kids (descendants y) ls) (children x) lss /\ Forall2 (fun b ls => Permutation b (concat ls)) below lss).
    { clear W C. assert (IH' : forall y, In y (children x) -> forall l, walk chosen y l -> exists ls, Forall2 kids (descendants y) ls /\ Permutation l (concat ls)) by auto. clear IH. revert IH'.
      induction FB as [|y b ys below H1 FB IHF]; intro IH; [exists []; split; constructor|].
      destruct (IH y (or_introl eq_refl) b H1) as [a [A1 A2]]. destruct (IHF (fun z Z => IH z (or_intror Z))) as [lss [A3 A4]]. exists (a :: lss). split; now constructor. }
    destruct B as [lss [B1 B2]]. exists (pick (children x) is :: concat lss). split.
    - rewrite descendants_eq. constructor; [exists is; auto|now apply flat_forall2].
    - rewrite merge_perm by (symmetry; clear - FB; induction FB; cbn; auto). cbn [concat]. apply Permutation_app_head.
      clear - B2. induction B2 as [|b a below lss P B2 IH]; [constructor|]. cbn [concat]. rewrite concat_app. now apply Permutation_app.
  Qed.
End Walk.
Lemma walk_impl : forall (R S : jval -> list nat -> Prop), (forall x is, R x is -> S x is) -> forall x l, walk R x l -> walk S x l.
Proof.
  intros R S H x. induction x as [x IH] using children_ind. intros l W. inversion W as [? is below C FB]; subst. constructor; [auto|].
  assert (IH' : forall y, In y (children x) -> forall l, walk R y l -> walk S y l) by auto. clear - FB IH'. induction FB as [|y b ys below H1 FB IHF]; constructor; [apply IH'; [now left|exact H1]|].
  apply IHF. intros z Z. apply IH'. now right.
Qed.
Lemma forall2_impl : forall A B (R S : A -> B -> Prop), (forall a b, R a b -> S a b) -> forall l l', Forall2 R l l' -> Forall2 S l l'.
Proof. intros A B R S H l l' F. induction F; constructor; auto. Qed.
Lemma each_impl : forall A B (R S : A -> B -> Prop) l, Forall (fun a => forall b, R a b -> S a b) l -> forall l', each R l l' -> each S l l'.
Proof. intros A B R S l F. induction F as [|a l H F IH]; intros [|b l'] E; cbn [each] in *; try tauto. destruct E. split; auto. Qed.
Lemma kept_impl : forall A (P Q : A -> Prop), (forall a, P a <-> Q a) -> forall l i is, kept P i l is -> kept Q i l is.
Proof. intros A P Q H l i is K. induction K; [constructor|apply kept_yes; [now apply H|assumption]|apply kept_no; [now rewrite <- H|assumption]]. Qed.
Lemma some_impl : forall A (P Q : A -> Prop) l, Forall (fun a => P a -> Q a) l -> some P l -> some Q l.
Proof. intros A P Q l F. induction F as [|a l H F IH]; intro E; cbn [some] in *; [exact E|]. destruct E; [left|right]; auto. Qed.
Lemma all_impl : forall A (P Q : A -> Prop) l, Forall (fun a => P a -> Q a) l -> all P l -> all Q l.
Proof. intros A P Q l F. induction F as [|a l H F IH]; intro E; cbn [all] in *; [exact E|]. destruct E; split; auto. Qed.

Section Order.
Variable matches : bytes -> bytes -> Prop.
Variable root : jval.
Notation nodes st := (nodes matches st root).
Notation segment_nodes st := (segment_nodes matches st root).
Notation path st := (path matches st root).

Definition same_q (q : jquery) : Prop := forall st st' x l, nodes st q x l -> exists l', nodes st' q x l' /\ Permutation l l'.
Definition same_g (g : jsegment) : Prop := forall st st' x l, segment_nodes st g x l -> exists l', segment_nodes st' g x l' /\ Permutation l l'.
Definition same_s (s : jselector) : Prop := forall st st' x is, selects matches st root s x is -> selects matches st' root s x is.
Definition same_c (c : jlogical) : Prop := forall st st' x, holds matches st root c x -> holds matches st' root c x.
Definition same_v (v : jcomparable) : Prop := forall st st' x o, value matches st root v x o -> value matches st' root v x o.
Definition same_f (f : jcall) : Prop := forall st st' x,
  (forall o, call_value matches st root f x o -> call_value matches st' root f x o) /\ (call_holds matches st root f x -> call_holds matches st' root f x).
Definition same_a (a : jarg) : Prop := forall st st' x,
  (forall o, arg_value matches st root a x o -> arg_value matches st' root a x o) /\
  (forall l, arg_nodes matches st root a x l -> exists l', arg_nodes matches st' root a x l' /\ Permutation l l').

Lemma same_path : forall segs, Forall same_g segs -> forall st st' xs xs' l, Permutation xs xs' -> path st segs xs l -> exists l', path st' segs xs' l' /\ Permutation l l'.
Proof.
  intros segs F st st'. induction F as [|seg segs H F IH]; intros xs xs' l P N; cbn [PathStep.path] in *.
  - subst l. eauto.
  - destruct N as [ls [FS N]].
    assert (K : exists ls', Forall2 (segment_nodes st' seg) xs ls' /\ Forall2 (@Permutation jval) ls ls').
    { clear - FS H. induction FS as [|x l xs ls HX FS IHF]; [exists []; split; constructor|]. destruct (H st st' x l HX) as [l' [A B]]. destruct IHF as [ls' [C D]]. exists (l' :: ls'). split; now constructor. }
    destruct K as [ls1 [K1 K2]].
    destruct (Permutation_Forall2 P K1) as [ls2 [P2 K3]].
    destruct (IH (concat ls) (concat ls2) l) as [l' [A B]]; [rewrite (concat_perms _ _ _ K2); now apply concat_perm|exact N|]. exists l'. split; [|exact B]. exists ls2. auto.
Qed.
Lemma same_segment : forall d sels, Forall same_s sels -> same_g (JSegment d sels).
Proof.
  intros d sels F st st' x l N. cbn [PathSpec.segment_nodes] in *.
  set (ch := fun st x is => exists iss, each (fun s => selects matches st root s x) sels iss /\ is = concat iss) in *.
  assert (CH : forall y is, ch st y is -> ch st' y is).
  { intros y is [iss [E ->]]. exists iss. split; [|reflexivity]. eapply each_impl; [|exact E]. eapply Forall_impl; [|exact F]. intros s H b. apply H. }
  change (if d then if st then exists ls, Forall2 (kids (ch st)) (descendants x) ls /\ l = concat ls else walk (ch st) x l else kids (ch st) x l) in N.
  change (exists l', (if d then if st' then exists ls, Forall2 (kids (ch st')) (descendants x) ls /\ l' = concat ls else walk (ch st') x l' else kids (ch st') x l') /\ Permutation l l').
  assert (KI : forall y r, kids (ch st) y r -> kids (ch st') y r) by (intros y r [is [C ->]]; exists is; auto).
  clearbody ch. destruct d; [|exists l; split; [auto|apply Permutation_refl]]. destruct st, st'.
  - destruct N as [ls [N ->]]. exists (concat ls). split; [|apply Permutation_refl]. exists ls. split; [|reflexivity]. eapply forall2_impl; [|exact N]. exact KI.
  - destruct N as [ls [N ->]]. destruct (strict_walk (ch true) x ls N) as [l' [A B]]. exists l'. split; [|exact B]. eapply walk_impl; [|exact A]. exact CH.
  - destruct (walk_strict (ch false) x l N) as [ls [A B]]. exists (concat ls). split; [|exact B]. exists ls. split; [|reflexivity]. eapply forall2_impl; [|exact A]. exact KI.
  - exists l. split; [|apply Permutation_refl]. eapply walk_impl; [|exact N]. exact CH.
Qed.
Lemma same_one : forall (l l' : list jval), Permutation l l' -> match l with [y] => Some y | _ => None end = match l' with [y] => Some y | _ => None end.
Proof.
  intros l l' P. assert (L := Permutation_length P). destruct l as [|a [|b l]], l' as [|a' [|b' l']]; try discriminate; [reflexivity| |reflexivity].
  apply Permutation_length_1 in P. now subst.
Qed.

Theorem same_all : (forall q, same_q q) /\ (forall g, same_g g) /\ (forall s, same_s s) /\ (forall c, same_c c) /\ (forall v, same_v v) /\ (forall f, same_f f) /\ (forall a, same_a a).
Proof.
  apply path_ind.
  - intros r segs F st st' x l N. rewrite nodes_path in N. destruct (same_path segs F st st' _ _ l (Permutation_refl _) N) as [l' [A B]]. exists l'. auto.
  - apply same_segment.
  - intros n st st' x is H. exact H.
  - intros st st' x is H. exact H.
  - intros i st st' x is H. exact H.
  - intros a b s st st' x is H. exact H.
  - intros c IH st st' x is H. change (kept (holds matches st root c) 0 (children x) is) in H. change (kept (holds matches st' root c) 0 (children x) is). eapply kept_impl; [|exact H]. intro a. split; apply IH.
  - intros l F st st' x H. change (some (fun c => holds matches st root c x) l) in H. change (some (fun c => holds matches st' root c x) l). eapply some_impl; [|exact H]. eapply Forall_impl; [|exact F]. intros c HC. apply HC.
  - intros l F st st' x H. change (all (fun c => holds matches st root c x) l) in H. change (all (fun c => holds matches st' root c x) l). eapply all_impl; [|exact H]. eapply Forall_impl; [|exact F]. intros c HC. apply HC.
  - intros c IH st st' x H. change (~ holds matches st root c x) in H. change (~ holds matches st' root c x). intro K. apply H. revert K. apply IH.
  - intros a op b HA HB st st' x (u & v & U & V & C). exists u, v. split; [eapply HA; exact U|]. split; [eapply HB; exact V|exact C].
  - intros q IH st st' x (y & l & N). destruct (IH st st' x _ N) as [l' [A B]]. destruct l' as [|z l']; [apply Permutation_sym, Permutation_nil in B; discriminate|]. exists z, l'. exact A.
  - intros f IH st st' x. apply IH.
  - intros s st st' x o H. exact H.
  - intros q st st' x o H. exact H.
  - intros f IH st st' x o. apply IH.
  - intros n args F st st' x.
    assert (VA : forall a, In a args -> forall o, arg_value matches st root a x o -> arg_value matches st' root a x o) by (intros a J; rewrite Forall_forall in F; apply F; exact J).
    assert (NA : forall a, In a args -> forall l, arg_nodes matches st root a x l -> exists l', arg_nodes matches st' root a x l' /\ Permutation l l') by (intros a J; rewrite Forall_forall in F; apply F; exact J).
    clear F. split.
    + intros o H. destruct args as [|a [|b args]]; try exact H. specialize (VA a (or_introl eq_refl)). specialize (NA a (or_introl eq_refl)).
      change ((n = n_length /\ exists v, arg_value matches st root a x v /\ length_value v o) \/
            (n = n_count /\ exists l, arg_nodes matches st root a x l /\ o = Some (number (length l))) \/
            (n = n_value /\ exists l, arg_nodes matches st root a x l /\ o = match l with [y] => Some y | _ => None end)) in H.
      change ((n = n_length /\ exists v, arg_value matches st' root a x v /\ length_value v o) \/
            (n = n_count /\ exists l, arg_nodes matches st' root a x l /\ o = Some (number (length l))) \/
            (n = n_value /\ exists l, arg_nodes matches st' root a x l /\ o = match l with [y] => Some y | _ => None end)).
      destruct H as [[E [v [V LV]]]|[[E [l [N EO]]]|[E [l [N EO]]]]].
      * left. eauto.
      * right. left. split; [exact E|]. destruct (NA l N) as [l' [A B]]. exists l'. split; [exact A|]. now rewrite <- (Permutation_length B).
      * right. right. split; [exact E|]. destruct (NA l N) as [l' [A B]]. exists l'. split; [exact A|]. rewrite EO. now apply same_one.
    + intro H. destruct args as [|a [|b [|c args]]]; try exact H.
      change (exists u v, arg_value matches st root a x u /\ arg_value matches st root b x v /\ (n = n_match /\ full_match matches u v \/ n = n_search /\ part_match matches u v)) in H.
      change (exists u v, arg_value matches st' root a x u /\ arg_value matches st' root b x v /\ (n = n_match /\ full_match matches u v \/ n = n_search /\ part_match matches u v)).
      destruct H as (u & v & U & V & K). exists u, v. split; [apply VA; [now left|exact U]|]. split; [apply VA; [right; now left|exact V]|exact K].
  - intros s st st' x. split; [intros o H; exact H|intros l []].
  - intros q IH st st' x. split.
    + intros o H. change (nodes st q x [] /\ o = None \/ exists y, nodes st q x [y] /\ o = Some y) in H. change (nodes st' q x [] /\ o = None \/ exists y, nodes st' q x [y] /\ o = Some y).
      destruct H as [[N E]|[y [N E]]]; destruct (IH st st' x _ N) as [l' [A B]].
      * left. apply Permutation_nil in B. subst l'. auto.
      * right. apply Permutation_length_1_inv in B. subst l'. eauto.
    + intros l N. apply IH with (st := st). exact N.
  - intros c _ st st' x. split; [intros o []|intros l []].
  - intros f IH st st' x. split; [intros o; apply IH|intros l []].
Qed.
End Order.

Lemma stream_perm : forall a b : list jval, Permutation a b -> length (stream a) = length (stream b).
Proof. intros a b P. unfold stream. apply Permutation_length. now apply Permutation_flat_map. Qed.

(** Whether a query is claimed to work does not depend on the order either. *)
Section Tame.
Variable matches : bytes -> bytes -> Prop.
Variable find : bytes -> bytes -> option (nat * nat).
Variable root : jval.
Notation nodes st := (nodes matches st root).
Notation segment_nodes st := (segment_nodes matches st root).
Definition tq (q : jquery) : Prop := forall st st' x, tame_query matches find st root q x -> tame_query matches find st' root q x.
Definition tg (g : jsegment) : Prop := forall st st' x, tame_segment matches find st root g x -> tame_segment matches find st' root g x.
Definition ts (s : jselector) : Prop := forall st st' x, tame_selector matches find st root s x -> tame_selector matches find st' root s x.
Definition tc (c : jlogical) : Prop := forall st st' x, tame_logical matches find st root c x -> tame_logical matches find st' root c x.
Definition tv (v : jcomparable) : Prop := forall st st' x, tame_value matches find st root v x -> tame_value matches find st' root v x.
Definition tf (f : jcall) : Prop := forall st st' x, tame_call matches find st root f x -> tame_call matches find st' root f x.
Definition ta (a : jarg) : Prop := forall st st' x, tame_arg matches find st root a x -> tame_arg matches find st' root a x.

Definition tame_path st : list jsegment -> jval -> Prop :=
  fix go (segs : list jsegment) (x : jval) : Prop :=
  match segs with
  | [] => True
  | seg :: rest =>
      tame_segment matches find st root seg x /\
      (reverses_some seg = true -> rest = [] /\ forall l, segment_nodes st seg x l -> Forall scalar_node l) /\
      forall l, segment_nodes st seg x l -> forall y, In y l -> go rest y
  end.
Lemma tame_path_same : forall segs, Forall tg segs -> forall st st' x, tame_path st segs x -> tame_path st' segs x.
Proof.
  intros segs F st st'. assert (SG := proj1 (proj2 (same_all matches root))). induction F as [|seg segs H F IH]; intros x T; [exact I|]. cbn [tame_path] in T |- *. destruct T as (T1 & T2 & T3). split; [|split].
  - eapply H; exact T1.
  - intro R. destruct (T2 R) as [A B]. split; [exact A|]. intros l N. destruct (SG seg st' st x l N) as [l' [N' P]]. eapply Permutation_Forall; [symmetry; exact P|]. auto.
  - intros l N y Y. destruct (SG seg st' st x l N) as [l' [N' P]]. apply IH. eapply T3; [exact N'|]. eapply Permutation_in; eauto.
Qed.

Theorem tame_all : (forall q, tq q) /\ (forall g, tg g) /\ (forall s, ts s) /\ (forall c, tc c) /\ (forall v, tv v) /\ (forall f, tf f) /\ (forall a, ta a).
Proof.
  destruct (same_all matches root) as (SQ & _ & _ & _ & _ & _ & SA).
  apply path_ind.
  - intros r segs F st st' x T. change (tame_path st segs (if r then root else x)) in T. change (tame_path st' segs (if r then root else x)). eapply tame_path_same; eauto.
  - intros [|] sels F st st' x T.
    + change (forall y, In y (descendants x) -> all (fun s => tame_selector matches find st root s y) sels) in T. change (forall y, In y (descendants x) -> all (fun s => tame_selector matches find st' root s y) sels).
      intros y Y. eapply all_impl; [|exact (T y Y)]. eapply Forall_impl; [|exact F]. intros s H. apply H.
    + change (all (fun s => tame_selector matches find st root s x) sels) in T. change (all (fun s => tame_selector matches find st' root s x) sels).
      eapply all_impl; [|exact T]. eapply Forall_impl; [|exact F]. intros s H. apply H.
  - intros n st st' x T. exact T.
  - intros st st' x T. exact T.
  - intros i st st' x T. exact T.
  - intros a b s st st' x T. exact T.
  - intros c IH st st' x T. change (forall y, In y (children x) -> tame_logical matches find st root c y) in T. change (forall y, In y (children x) -> tame_logical matches find st' root c y). intros y Y. eapply IH; auto.
  - intros l F st st' x T. change (all (fun c => tame_logical matches find st root c x) l) in T. change (all (fun c => tame_logical matches find st' root c x) l). eapply all_impl; [|exact T]. eapply Forall_impl; [|exact F]. intros c H. apply H.
  - intros l F st st' x T. change (all (fun c => tame_logical matches find st root c x) l) in T. change (all (fun c => tame_logical matches find st' root c x) l). eapply all_impl; [|exact T]. eapply Forall_impl; [|exact F]. intros c H. apply H.
  - intros c IH st st' x T. change (tame_logical matches find st root c x) in T. change (tame_logical matches find st' root c x). eapply IH; exact T.
  - intros a op b HA HB st st' x [T1 T2]. split; [eapply HA; exact T1|eapply HB; exact T2].
  - intros q IH st st' x [T1 T2]. split; [exact T1|eapply IH; exact T2].
  - intros f IH st st' x T. change (tame_call matches find st root f x) in T. change (tame_call matches find st' root f x). eapply IH; exact T.
  - intros s st st' x T. exact T.
  - intros q st st' x T. exact T.
  - intros f IH st st' x T. change (tame_call matches find st root f x) in T. change (tame_call matches find st' root f x). eapply IH; exact T.
  - intros n args F st st' x [T1 T2]. split.
    + eapply all_impl; [|exact T1]. eapply Forall_impl; [|exact F]. intros a H. apply H.
    + destruct args as [|a [|b [|c args]]]; try exact I.
      * destruct T2 as (A & B & C). split; [|split].
        -- intros E v V. apply (A E). eapply SA; exact V.
        -- intro E. destruct (B E) as [B1 B2]. split; [exact B1|]. intros l N. destruct (proj2 (SA a st' st x) l N) as [l' [N' P]]. rewrite (Permutation_length P). auto.
        -- intro E. destruct (C E) as [C1 C2]. split; [exact C1|]. intros y N. apply C2. destruct (proj2 (SA a st' st x) [y] N) as [l' [N' P]]. apply Permutation_length_1_inv in P. now subst l'.
      * intros u v t p U V. apply T2; eapply SA; [exact U|exact V].
  - intros s st st' x T. exact T.
  - intros q IH st st' x [T1 T2]. split; [eapply IH; exact T1|exact T2].
  - intros c _ st st' x T. exact T.
  - intros f IH st st' x T. change (tame_call matches find st root f x) in T. change (tame_call matches find st' root f x). eapply IH; exact T.
Qed.
End Tame.

(** The queries inside filters. *)
Section Inner.
Variables P P' : jsingular -> Prop.
Variables Q Q' : jquery -> Prop.
Hypothesis HP : forall q, P q -> P' q.
Hypothesis HQ : forall q, Q q -> Q' q.
Theorem inner_impl : (forall q, inner_query P Q q -> inner_query P' Q' q) /\ (forall g, inner_segment P Q g -> inner_segment P' Q' g) /\
  (forall s, inner_selector P Q s -> inner_selector P' Q' s) /\ (forall c, inner_logical P Q c -> inner_logical P' Q' c) /\
  (forall v, inner_value P Q v -> inner_value P' Q' v) /\ (forall f, inner_call P Q f -> inner_call P' Q' f) /\ (forall a b, inner_arg P Q b a -> inner_arg P' Q' b a).
Proof.
  apply (path_ind (fun q => inner_query P Q q -> inner_query P' Q' q) (fun g => inner_segment P Q g -> inner_segment P' Q' g)
    (fun s => inner_selector P Q s -> inner_selector P' Q' s) (fun c => inner_logical P Q c -> inner_logical P' Q' c)
    (fun v => inner_value P Q v -> inner_value P' Q' v) (fun f => inner_call P Q f -> inner_call P' Q' f) (fun a => forall b, inner_arg P Q b a -> inner_arg P' Q' b a)).
  - intros r segs F. apply all_impl. exact F.
  - intros d sels F. apply all_impl. exact F.
  - auto.
  - auto.
  - auto.
  - auto.
  - intros c IH T. exact (IH T).
  - intros l F. apply all_impl. exact F.
  - intros l F. apply all_impl. exact F.
  - intros c IH T. exact (IH T).
  - intros a op b HA HB [T1 T2]. split; [exact (HA T1)|exact (HB T2)].
  - intros q IH [T1 T2]. split; [auto|exact (IH T2)].
  - intros f IH T. exact (IH T).
  - auto.
  - intros [r l] T. change (r = true -> P (JSingular r l)) in T. change (r = true -> P' (JSingular r l)). intro E. apply HP. exact (T E).
  - intros f IH T. exact (IH T).
  - intros n args F. apply all_impl. eapply Forall_impl; [|exact F]. intros a H. apply H.
  - auto.
  - intros q IH [|] T.
    + destruct T as [T1 T2]. split; [auto|exact (IH T2)].
    + destruct q as [[|] segs]; [|exact Logic.I]. change (forall l, singular_steps segs = Some l -> P (JSingular true l)) in T. change (forall l, singular_steps segs = Some l -> P' (JSingular true l)). intros l E. apply HP. exact (T l E).
  - auto.
  - intros f IH b T. exact (IH T).
Qed.
End Inner.

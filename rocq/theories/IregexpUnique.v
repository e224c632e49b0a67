(** A string is read as one I-Regexp at most. *)
From Coq Require Import List ZArith NArith Arith Bool Lia.
From Verif Require Import Base ScalarSpec IregexpSpec IregexpProofs.
Local Open Scope N_scope.

Definition starts (P : N -> Prop) (t : list N) : Prop := match t with [] => True | c :: _ => P c end.

Lemma span_unique : forall (P : N -> Prop) n n' x x' t t', Forall P n -> Forall P n' -> ~ P x -> ~ P x' ->
  n ++ x :: t = n' ++ x' :: t' -> n = n' /\ x = x' /\ t = t'.
Proof.
  intros P n. induction n as [|a n IH]; intros [|a' n'] x x' t t' F F' X X' E; cbn in E.
  - now injection E as -> ->.
  - injection E as -> _. inversion F'; subst; tauto.
  - injection E as <- _. inversion F; subst; tauto.
  - injection E as -> E. inversion F; subst. inversion F'; subst. destruct (IH _ _ _ _ _ H2 H4 X X' E) as [-> [-> ->]]. auto.
Qed.

Lemma digit_not : forall x, ~ 48 <= x <= 57 -> ~ (fun c => 48 <= c <= 57) x. Proof. auto. Qed.

Lemma quant_unique : forall q q' t t', ok_quant q -> ok_quant q' ->
  starts (fun c => ~ In c [42; 43; 63; 123]) t -> starts (fun c => ~ In c [42; 43; 63; 123]) t' ->
  show_quant q ++ t = show_quant q' ++ t' -> q = q' /\ t = t'.
Proof.
  assert (D : forall n n' x x' t t', digits n -> digits n' -> ~ 48 <= x <= 57 -> ~ 48 <= x' <= 57 -> n ++ x :: t = n' ++ x' :: t' -> n = n' /\ x = x' /\ t = t').
  { intros n n' x x' t t' [_ A] [_ B] X X' E. eapply span_unique; eauto. }
  intros q q' t t' O O' T T' E.
  destruct q, q'; cbn [show_quant app] in E; cbn [ok_quant] in O, O'; try (split; [reflexivity|]; congruence);
    try (exfalso; subst; cbn in T, T'; try discriminate E; try injection E as E; subst; cbn in *; tauto); try discriminate E;
    injection E as E; rewrite <- ?app_assoc in E; cbn [app] in E.
  all: repeat match goal with H : digits _ /\ digits _ |- _ => destruct H end.
  all: repeat match goal with H : _ ++ _ = _ ++ _ |- _ => apply D in H; [destruct H as [? [? ?]]; subst|assumption|assumption|lia|lia] end; try discriminate; try congruence.
  all: rewrite <- ?app_assoc in *; cbn [app] in *.
  all: repeat match goal with
    | H : _ :: _ = _ :: _ |- _ => injection H as ?; subst
    | H : 125 :: _ = ?m ++ _ , D : digits ?m |- _ => exfalso; destruct D as [N F]; destruct m; [congruence|]; cbn in H; injection H as <- _; inversion F; lia
    | H : ?m ++ _ = 125 :: _ , D : digits ?m |- _ => exfalso; destruct D as [N F]; destruct m; [congruence|]; cbn in H; injection H as -> _; inversion F; lia
    end; auto.
  all: try (repeat match goal with H : _ ++ _ = _ ++ _ |- _ => apply D in H; [destruct H as [? [? ?]]; subst|assumption|assumption|lia|lia] end; auto).
Qed.

Lemma cat_unique : forall k k' n n' t t', letters n -> letters n' -> show_cat k n ++ t = show_cat k' n' ++ t' -> k = k' /\ n = n' /\ t = t'.
Proof.
  intros k k' n n' t t' L L' E. unfold show_cat in E. cbn [app] in E. injection E as K E. rewrite <- !app_assoc in E. cbn [app] in E.
  apply (span_unique (fun c => 97 <= c <= 122 \/ 65 <= c <= 90)) in E; [|assumption|assumption|lia|lia]. destruct E as [-> [_ ->]]. destruct k, k'; try discriminate K; auto.
Qed.

Lemma escapable_not : forall c, escapable c -> c <> 80 /\ c <> 112.
Proof. intros c H. cbn in H. repeat destruct H as [<-|H]; try (split; discriminate); destruct H. Qed.

Lemma cchar_unique : forall a b t t', ok_cchar a -> ok_cchar b -> show_cchar a ++ t = show_cchar b ++ t' -> a = b /\ t = t'.
Proof.
  intros [a|a] [b|b] t t' A B E; cbn [show_cchar app ok_cchar] in *.
  - injection E as -> ->. auto.
  - injection E as -> _. destruct A as [_ A]. cbn in A. tauto.
  - injection E as <- _. destruct B as [_ B]. cbn in B. tauto.
  - injection E as -> ->. auto.
Qed.
Lemma cchar_first : forall c, ok_cchar c -> exists x r, show_cchar c = x :: r /\ x <> 45 /\ x <> 93 /\ x <> 91.
Proof.
  intros [c|c] O; cbn in *; eexists; eexists; (split; [reflexivity|]); [|repeat split; discriminate]. destruct O as [_ O]. cbn in O. repeat split; intros ->; tauto.
Qed.
Lemma item_first : forall i, ok_item i -> exists x r, show_item i = x :: r /\ x <> 45 /\ x <> 93.
Proof.
  intros [c|a b|k n] O; cbn [show_item ok_item] in *.
  - destruct (cchar_first c O) as [x [r [-> [A [B _]]]]]. eauto.
  - destruct (cchar_first a (proj1 O)) as [x [r [-> [A [B _]]]]]. cbn [app]. eauto.
  - unfold show_cat. cbn [app]. eexists. eexists. split; [reflexivity|]. split; discriminate.
Qed.

Definition class_tail (t : list N) : Prop := starts (fun c => c <> 45) t \/ exists t', t = 45 :: 93 :: t'.
Lemma cchar_cat : forall c k n t t', ok_cchar c -> show_cchar c ++ t <> show_cat k n ++ t'.
Proof.
  intros [c|c] k n t t' O E; cbn in *.
  - injection E as -> _. destruct O as [_ O]. cbn in O. tauto.
  - injection E as E _. destruct (escapable_not c O) as [A B]. destruct k; congruence.
Qed.
Lemma item_unique : forall i i' t t', ok_item i -> ok_item i' -> class_tail t -> class_tail t' -> show_item i ++ t = show_item i' ++ t' -> i = i' /\ t = t'.
Proof.
  assert (X : forall c, ok_cchar c -> forall t a b t', ok_cchar a -> ok_cchar b -> class_tail t -> show_cchar c ++ t <> (show_cchar a ++ [45] ++ show_cchar b) ++ t').
  { intros c C t a b t' A B T E. rewrite <- !app_assoc in E. apply cchar_unique in E; [|assumption|assumption]. destruct E as [_ ->]. cbn [app] in T.
    destruct T as [T|[t2 T]]; [cbn in T; congruence|]. injection T as T. destruct (cchar_first b B) as [x [r [F [_ [N _]]]]]. rewrite F in T. cbn in T. congruence. }
  intros [c|a b|k n] [c'|a' b'|k' n'] t t' O O' T T' E; cbn [show_item ok_item] in *.
  - apply cchar_unique in E; [|assumption|assumption]. destruct E as [-> ->]. auto.
  - destruct O'. exfalso. revert E. now apply X.
  - exfalso. revert E. now apply cchar_cat.
  - destruct O. symmetry in E. exfalso. revert E. now apply X.
  - destruct O as [A B], O' as [A' B']. rewrite <- !app_assoc in E. apply cchar_unique in E; [|assumption|assumption]. destruct E as [-> E]. cbn [app] in E. injection E as E. apply cchar_unique in E; [|assumption|assumption]. destruct E as [-> ->]. auto.
  - destruct O. exfalso. rewrite <- !app_assoc in E. revert E. now apply cchar_cat.
  - exfalso. symmetry in E. revert E. now apply cchar_cat.
  - destruct O'. exfalso. symmetry in E. rewrite <- !app_assoc in E. revert E. now apply cchar_cat.
  - apply cat_unique in E; [|assumption|assumption]. destruct E as [-> [-> ->]]. auto.
Qed.

Lemma tail_ok : forall l d t, Forall ok_item l -> class_tail (flat_map show_item l ++ dash d ++ 93 :: t).
Proof.
  intros [|i l] d t F.
  - destruct d; cbn; [right; eexists; reflexivity|left; cbn; discriminate].
  - inversion F; subst. destruct (item_first i H1) as [x [r [E [A B]]]]. left. cbn [flat_map]. rewrite E. cbn. exact A.
Qed.
Lemma items_unique : forall l l' d d' t t', Forall ok_item l -> Forall ok_item l' ->
  flat_map show_item l ++ dash d ++ 93 :: t = flat_map show_item l' ++ dash d' ++ 93 :: t' -> l = l' /\ d = d' /\ t = t'.
Proof.
  induction l as [|i l IH]; intros [|i' l'] d d' t t' F F' E.
  - destruct d, d'; cbn in E; try discriminate E; injection E as ->; auto.
  - inversion F'; subst. destruct (item_first i' H1) as [x [r [Q [A B]]]]. cbn [flat_map] in E. rewrite Q in E. destruct d; cbn in E; injection E as Q2 _; congruence.
  - inversion F; subst. destruct (item_first i H1) as [x [r [Q [A B]]]]. cbn [flat_map] in E. rewrite Q in E. destruct d'; cbn in E; injection E as Q2 _; congruence.
  - inversion F; subst. inversion F'; subst. cbn [flat_map] in E. rewrite <- !app_assoc in E. apply item_unique in E; [|assumption|assumption|now apply tail_ok|now apply tail_ok].
    destruct E as [-> E]. destruct (IH _ _ _ _ _ H2 H4 E) as [-> [-> ->]]. auto.
Qed.

Lemma class_unique : forall k k' t t', ok_class k -> ok_class k' -> show_class k ++ t = show_class k' ++ t' -> k = k' /\ t = t'.
Proof.
  assert (FST : forall f l d t, Forall ok_item l -> (f = true \/ l <> []) -> (f = false -> match l with CSingle (CChar c) :: _ | CRange (CChar c) _ :: _ => c <> 94 | _ => True end) ->
    starts (fun c => c <> 94) (dash f ++ flat_map show_item l ++ dash d ++ 93 :: t)).
  { intros f l d t F N H. destruct f; [cbn; discriminate|]. specialize (H eq_refl). destruct l as [|i l]; [destruct N; congruence|]. inversion F; subst. cbn [dash app flat_map].
    destruct i as [[c|c]|[a|a] b|k n]; cbn; try discriminate; exact H. }
  assert (DSH : forall f l d t f' l' d' t', Forall ok_item l -> Forall ok_item l' -> (f = true \/ l <> []) -> (f' = true \/ l' <> []) ->
    dash f ++ flat_map show_item l ++ dash d ++ 93 :: t = dash f' ++ flat_map show_item l' ++ dash d' ++ 93 :: t' -> f = f' /\ l = l' /\ d = d' /\ t = t').
  { intros f l d t f' l' d' t' F F' N N' E. destruct f, f'; cbn [dash app] in E.
    - injection E as E. apply items_unique in E; [|assumption|assumption]. tauto.
    - exfalso. destruct l' as [|i l']; [destruct N'; congruence|]. inversion F'; subst. destruct (item_first i H1) as [x [r [Q [A B]]]]. cbn [flat_map] in E. rewrite Q in E. cbn in E. congruence.
    - exfalso. destruct l as [|i l]; [destruct N; congruence|]. inversion F; subst. destruct (item_first i H1) as [x [r [Q [A B]]]]. cbn [flat_map] in E. rewrite Q in E. cbn in E. congruence.
    - apply items_unique in E; [|assumption|assumption]. tauto. }
  intros [n f l d] [n' f' l' d'] t t' [O1 [O2 O3]] [O1' [O2' O3']] E. cbn [c_neg c_first c_items c_last] in *. unfold show_class in E. cbn [c_neg c_first c_items c_last] in E.
  rewrite <- !app_assoc in E. cbn [app] in E. injection E as E. destruct n, n'; cbn [app] in E.
  - injection E as E. apply DSH in E; try assumption. destruct E as [-> [-> [-> ->]]]. auto.
  - exfalso. assert (H := FST f' l' d' t' O1' O2' (O3' eq_refl)). rewrite <- E in H. cbn in H. congruence.
  - exfalso. assert (H := FST f l d t O1 O2 (O3 eq_refl)). rewrite E in H. cbn in H. congruence.
  - apply DSH in E; try assumption. destruct E as [-> [-> [-> ->]]]. auto.
Qed.

Lemma atom_first : forall a, ok_atom a -> exists x r, show_atom a = x :: r /\ ~ In x [41; 42; 43; 63; 123; 124].
Proof.
  intros [c| |c|k n|k|r] O; cbn [show_atom ok_atom] in *; try (eexists; eexists; split; [reflexivity|cbn; lia]).
  destruct O as [_ O]. eexists. eexists. split; [reflexivity|]. cbn in *. tauto.
Qed.

Definition ends_branch : list N -> Prop := starts (fun c => c = 41 \/ c = 124).
Definition ends_regexp : list N -> Prop := starts (fun c => c = 41).
Lemma branch_starts : forall b t, ok_branch b -> ends_branch t -> starts (fun c => ~ In c [42; 43; 63; 123]) (show_branch b ++ t).
Proof.
  intros [|[a q] b] t O T; cbn [show_branch ok_branch app] in *.
  - destruct t as [|c t]; [exact Logic.I|]. cbn in *. lia.
  - destruct O as [[O _] _]. destruct (atom_first a O) as [x [r [E N]]]. cbn [show_piece]. rewrite E. cbn in *. tauto.
Qed.

Lemma show_unique :
  (forall r, ok_regexp r -> forall r' t t', ok_regexp r' -> ends_regexp t -> ends_regexp t' -> show_regexp r ++ t = show_regexp r' ++ t' -> r = r' /\ t = t') /\
  (forall b, ok_branch b -> forall b' t t', ok_branch b' -> ends_branch t -> ends_branch t' -> show_branch b ++ t = show_branch b' ++ t' -> b = b' /\ t = t') /\
  (forall p, ok_piece p -> forall p' t t', ok_piece p' -> starts (fun c => ~ In c [42; 43; 63; 123]) t -> starts (fun c => ~ In c [42; 43; 63; 123]) t' ->
     show_piece p ++ t = show_piece p' ++ t' -> p = p' /\ t = t') /\
  (forall a, ok_atom a -> forall a' t t', ok_atom a' -> show_atom a ++ t = show_atom a' ++ t' -> a = a' /\ t = t').
Proof.
  assert (EB : forall t, ends_regexp t -> ends_branch t) by (intros [|c t] H; cbn in *; auto).
  assert (OR : forall t, ends_branch (124 :: t)) by (intro t; cbn; auto).
  apply regexp_mut.
  - intros b IH O [b'|b' r'] t t' O' T T' E; cbn [show_regexp ok_regexp] in *.
    + apply IH in E; auto. destruct E as [-> ->]. auto.
    + rewrite <- !app_assoc in E. cbn [app] in E. destruct O' as [O1 O2]. apply IH in E; auto. destruct E as [_ ->]. cbn in T. discriminate.
  - intros b IH r IHr [O1 O2] [b'|b' r'] t t' O' T T' E; cbn [show_regexp ok_regexp] in *.
    + rewrite <- !app_assoc in E. cbn [app] in E. apply IH in E; auto. destruct E as [_ <-]. cbn in T'. discriminate.
    + destruct O' as [O1' O2']. rewrite <- !app_assoc in E. cbn [app] in E. apply IH in E; auto. destruct E as [-> E]. cbn [app] in E. injection E as E. apply IHr in E; auto. destruct E as [-> ->]. auto.
  - intros _ [|[a' q'] b'] t t' O' T T' E; cbn [show_branch ok_branch app] in *; [auto|]. destruct O' as [[O' _] _]. destruct (atom_first a' O') as [x [r [F N]]]. cbn [show_piece] in E. rewrite F in E. subst t. cbn in *. lia.
  - intros p IH b IHb [O1 O2] [|p' b'] t t' O' T T' E; cbn [show_branch ok_branch app] in *.
    + destruct p as [a q]. destruct O1 as [O1 _]. destruct (atom_first a O1) as [x [r [F N]]]. cbn [show_piece] in E. rewrite F in E. subst t'. cbn in *. lia.
    + destruct O' as [O1' O2']. rewrite <- !app_assoc in E. cbn [app] in E. apply IH in E; auto using branch_starts. destruct E as [-> E]. apply IHb in E; auto. destruct E as [-> ->]. auto.
  - intros a IH q [O1 O2] [a' q'] t t' [O1' O2'] T T' E. cbn [show_piece] in E. rewrite <- !app_assoc in E. cbn [app] in E. apply IH in E; auto. destruct E as [-> E]. apply quant_unique in E; auto. destruct E as [-> ->]. auto.
  - intros c O [c'| |c'|k' n'|k'|r'] t t' O' E; cbn in E; try (injection E as -> ->; auto); exfalso; destruct O as [_ O]; cbn in O; try tauto.
  - intros O [c'| |c'|k' n'|k'|r'] t t' O' E; cbn in E; try discriminate E; [|now injection E as ->]. injection E as <- _. destruct O' as [_ O']. cbn in O'. tauto.
  - intros c O [c'| |c'|k' n'|k'|r'] t t' O' E; cbn in E; try discriminate E.
    + injection E as <- _. destruct O' as [_ O']. cbn in O'. tauto.
    + injection E as -> ->. auto.
    + injection E as E _. destruct (escapable_not c O) as [A B]. destruct k'; congruence.
  - intros k n O [c'| |c'|k' n'|k'|r'] t t' O' E; try (cbn in E; discriminate E).
    + cbn in E. injection E as <- _. destruct O' as [_ O']. cbn in O'. tauto.
    + cbn in E. injection E as E _. destruct (escapable_not c' O') as [A B]. destruct k; congruence.
    + cbn [show_atom] in E. apply cat_unique in E; auto. destruct E as [-> [-> ->]]. auto.
  - intros k O [c'| |c'|k' n'|k'|r'] t t' O' E; try (cbn in E; discriminate E).
    + cbn in E. injection E as <- _. destruct O' as [_ O']. cbn in O'. tauto.
    + cbn [show_atom] in E. apply class_unique in E; auto. destruct E as [-> ->]. auto.
  - intros r IH O [c'| |c'|k' n'|k'|r'] t t' O' E; try (cbn in E; discriminate E).
    + cbn in E. injection E as <- _. destruct O' as [_ O']. cbn in O'. tauto.
    + cbn [show_atom ok_atom] in *. rewrite <- !app_assoc in E. cbn [app] in E. injection E as E. apply IH in E; cbn; auto. destruct E as [-> E]. injection E as ->. auto.
Qed.

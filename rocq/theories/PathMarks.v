(** The items a compiled selector takes, as positions; how the lists of PathAbs.v
    are made from them. *)
From Coq Require Import List ZArith NArith Arith Bool Lia.
From Verif Require Import Base Tokens JsonSpec ScalarModel IterModel IterSpec P_Scalar P_Equal SelectModel SelectSpec P_Select SelectMore
  ScalarSpec EqualSpec ScalarProofs PathModel PathAbs PathPure PathBody PathMain PathAst PathSpec PathTame.

(** The positions of the marks. *)
Fixpoint positions (i : nat) (bs : list bool) : list nat :=
  match bs with
  | [] => []
  | b :: r => (if b then [i] else []) ++ positions (S i) r
  end.
Fixpoint marks {R} (h : jval -> bool) (s : selector) (l : list (item R)) : list bool :=
  match l with
  | [] => []
  | i :: l' => takes_item h s i :: (if d_nomore (it_dec i s) then map (fun _ => false) l' else marks h s l')
  end.

Lemma positions_none : forall A (l : list A) i, positions i (map (fun _ => false) l) = [].
Proof. intros A. induction l as [|a l IH]; intro i; [reflexivity|]. cbn [map positions app]. apply IH. Qed.
Lemma positions_all : forall A (l : list A) i, positions i (map (fun _ => true) l) = seq i (length l).
Proof. intros A. induction l as [|a l IH]; intro i; [reflexivity|]. cbn [map positions app length seq]. now rewrite IH. Qed.
Lemma positions_ge : forall bs i j, In j (positions i bs) -> i <= j.
Proof.
  induction bs as [|b bs IH]; intros i j J; [destruct J|]. cbn [positions] in J. apply in_app_or in J as [J|J].
  - destruct b; [destruct J as [<-|[]]; lia|destruct J].
  - apply IH in J. lia.
Qed.
Lemma marks_rel : forall A B h s (a : list (item A)) (b : list (item B)), Forall2 (fun i j => it_dec i = it_dec j /\ it_val i = it_val j) a b -> marks h s a = marks h s b.
Proof.
  intros A B h s a b H. induction H as [|i j a b [E1 E2] H IH]; [reflexivity|]. cbn [marks]. unfold takes_item. rewrite E1, E2, IH. f_equal.
  destruct (d_nomore _); [|reflexivity]. assert (L : length a = length b) by (clear - H; induction H; cbn; auto). clear - L. revert b L. induction a as [|x a IH]; intros [|y b] L; cbn in *; try lia; [reflexivity|]. f_equal. apply IH. lia.
Qed.
Lemma marks_annot : forall A B h s look x (f : jval -> A) (g : jval -> B), marks h s (annot look x f) = marks h s (annot look x g).
Proof. intros A B h s look x f g. apply marks_rel, annot_rel. intros dec y _. now split. Qed.

Lemma pick_app : forall A (l : list A) a b, pick l (a ++ b) = pick l a ++ pick l b.
Proof. intros. unfold pick. apply flat_map_app. Qed.
Lemma pick_rev : forall A (l : list A) is, pick l (rev is) = rev (pick l is).
Proof.
  intros A l. induction is as [|i is IH]; [reflexivity|]. cbn [rev]. rewrite pick_app, IH. unfold pick at 2 3. cbn [flat_map].
  rewrite rev_app_distr. f_equal. rewrite app_nil_r. now destruct (nth_error l i).
Qed.
Lemma pick_concat : forall A (l : list A) iss, pick l (concat iss) = flat_map (pick l) iss.
Proof. intros A l. induction iss as [|is iss IH]; [reflexivity|]. cbn [concat flat_map]. now rewrite pick_app, IH. Qed.
Lemma pick_in : forall A (l : list A) is y, In y (pick l is) -> In y l.
Proof.
  intros A l is y J. apply in_flat_map in J as [i [_ J]]. destruct (nth_error l i) as [a|] eqn:E; [|destruct J].
  destruct J as [<-|[]]. eapply nth_error_In. exact E.
Qed.

Lemma picks_pick_at : forall R h s (its : list (item R)) pre,
  pick (pre ++ map it_val its) (positions (length pre) (marks h s its)) = picks h s its.
Proof.
  intros R h s. induction its as [|i its IH]; intro pre; [reflexivity|]. cbn [marks positions picks map]. rewrite pick_app. f_equal.
  - destruct (takes_item h s i); [|reflexivity]. unfold pick. cbn [flat_map]. rewrite nth_error_app2, Nat.sub_diag by lia. reflexivity.
  - destruct (d_nomore _); [now rewrite positions_none|]. specialize (IH (pre ++ [it_val i])). rewrite <- app_assoc in IH. cbn [app] in IH.
    rewrite app_length in IH. cbn [length] in IH. rewrite Nat.add_1_r in IH. exact IH.
Qed.
Lemma picks_pick : forall R h s (its : list (item R)), picks h s its = pick (map it_val its) (positions 0 (marks h s its)).
Proof. intros R h s its. symmetry. exact (picks_pick_at R h s its []). Qed.

(** Each result in its place. *)
Lemma merge_drop : forall l below a i is, a < i -> merge i (a :: is) l below = merge i is l below.
Proof.
  induction l as [|y l IH]; intros [|b below] a i is L; try reflexivity. cbn [merge]. rewrite count_occ_cons_neq by lia. now rewrite IH by lia.
Qed.
Lemma count_none : forall bs i j, j < i -> count_occ Nat.eq_dec (positions i bs) j = 0.
Proof. intros bs i j L. apply count_occ_not_In. intro J. apply positions_ge in J. lia. Qed.
Lemma merge_none : forall l below i, length l = length below -> merge i [] l below = concat below.
Proof. induction l as [|y l IH]; intros [|b below] i E; try discriminate; [reflexivity|]. cbn [merge count_occ repeat app concat]. f_equal. apply IH. now injection E. Qed.
Lemma mixed_merge : forall h s (its : list (item (list jval))) i,
  mixed h (fun y => [y]) s its = merge i (positions i (marks h s its)) (map it_val its) (map it_res its).
Proof.
  intros h s. induction its as [|t its IH]; intro i; [reflexivity|]. cbn [mixed marks positions map merge].
  assert (C : forall bs, count_occ Nat.eq_dec ((if takes_item h s t then [i] else []) ++ positions (S i) bs) i = if takes_item h s t then 1 else 0).
  { intro bs. destruct (takes_item h s t); cbn [app]; [rewrite count_occ_cons_eq by reflexivity|]; now rewrite count_none by lia. }
  rewrite C. f_equal; [now destruct (takes_item h s t)|]. f_equal.
  assert (D : forall is l below, merge (S i) ((if takes_item h s t then [i] else []) ++ is) l below = merge (S i) is l below).
  { intros. destruct (takes_item h s t); [|reflexivity]. cbn [app]. apply merge_drop. lia. }
  rewrite D. destruct (d_nomore _); [|apply IH]. rewrite positions_none, merge_none by now rewrite !map_length. apply flat_map_concat_map.
Qed.

(** A segment and what follows it. *)
Lemma mixed_flat : forall h f s (its its' : list (item (list jval))),
  Forall2 (fun i j => it_dec i = it_dec j /\ it_val i = it_val j /\ it_res i = flat_map f (it_res j)) its its' ->
  mixed h f s its = flat_map f (mixed h (fun y => [y]) s its').
Proof.
  intros h f s its its' H. induction H as [|i j its its' [E1 [E2 E3]] H IH]; [reflexivity|]. cbn [mixed]. unfold takes_item. rewrite E1, E2, E3, !flat_map_app.
  f_equal; [destruct (_ || _); cbn [flat_map]; now rewrite ?app_nil_r|]. f_equal. destruct (d_nomore _); [|exact IH].
  clear - H. induction H as [|i j its its' [_ [_ E]] H IH]; [reflexivity|]. cbn [flat_map]. now rewrite E, IH, flat_map_app.
Qed.
Lemma flat_map_one : forall A (l : list A), flat_map (fun y => [y]) l = l.
Proof. intros A. induction l as [|a l IH]; [reflexivity|]. cbn [flat_map app]. now rewrite IH. Qed.
Lemma flat_map_flat : forall A B C (f : A -> list B) (g : B -> list C) l, flat_map g (flat_map f l) = flat_map (fun a => flat_map g (f a)) l.
Proof. intros A B C f g. induction l as [|a l IH]; [reflexivity|]. cbn [flat_map]. now rewrite flat_map_app, IH. Qed.

Lemma child_flat : forall R R' hs f sels (its : list (item R)) (its' : list (item R')),
  Forall2 (fun i j => it_dec i = it_dec j /\ it_val i = it_val j) its its' ->
  (existsb sel_reverses sels = true -> forall y, f y = [y]) ->
  child hs f sels its = flat_map f (child hs (fun y => [y]) sels its').
Proof.
  intros R R' hs f sels its its' H RV. unfold child. rewrite flat_map_flat.
  assert (E : forall s, picks (hs s) s its = picks (hs s) s its').
  { intro s. clear - H. induction H as [|i j its its' [E1 E2] H IH]; [reflexivity|]. cbn [picks]. unfold takes_item. now rewrite E1, E2, IH. }
  destruct (existsb sel_reverses sels) eqn:X.
  - specialize (RV eq_refl). assert (F : forall l, flat_map f l = l) by (intro l; rewrite <- (flat_map_one _ l) at 2; apply flat_map_ext; auto).
    apply flat_map_ext. intro s. now rewrite !F, flat_map_one, E.
  - clear RV. induction sels as [|s sels IH]; [reflexivity|]. cbn [existsb] in X. apply orb_false_iff in X as [X1 X2]. cbn [flat_map].
    rewrite IH by exact X2. f_equal. unfold ordered. now rewrite X1, flat_map_one, E.
Qed.

(** The children of a node. *)
Lemma items_children : forall x, map snd (items x) = children x.
Proof. intros [s|l e|l e]; cbn [items children]; [reflexivity|now rewrite map_map, map_id|now rewrite map_map]. Qed.
Lemma annot_children : forall R look x (f : jval -> R), map it_val (annot look x f) = children x.
Proof. intros. now rewrite annot_vals, items_children. Qed.
Lemma annot_results : forall R look x (f : jval -> R), map it_res (annot look x f) = map f (children x).
Proof.
  intros R look x f. rewrite <- (annot_children unit look x (fun _ => tt)).
  assert (H := annot_rel _ _ (fun (a : item R) (b : item unit) => it_val a = it_val b /\ it_res a = f (it_val a)) f (fun _ => tt) look x (fun _ _ _ => conj eq_refl eq_refl)).
  induction H as [|a b l l' [E1 E2] H IH]; [reflexivity|]. cbn [map]. now rewrite IH, E2, E1.
Qed.
Lemma children_ind : forall P : jval -> Prop, (forall x, (forall y, In y (children x) -> P y) -> P x) -> forall x, P x.
Proof. intros P H. apply in_items_ind. intros x IH. apply H. intros y Y. apply IH. now rewrite items_children. Qed.
Lemma descendants_eq : forall x, descendants x = x :: flat_map descendants (children x).
Proof.
  intros [s|l e|l e]; cbn [descendants children]; [reflexivity|reflexivity|]. f_equal. induction l as [|m l IH]; [reflexivity|]. cbn [map flat_map]. now rewrite IH.
Qed.

Section Following.
  Variable find : bytes -> bytes -> option (nat * nat).
  Variable sing : list (option jval).
  Variable inner : list (list jval).
  Notation sem_seg := (sem_seg find sing inner).
  Notation sem_sel := (sem_sel find sing inner).
  Notation after := (after find sing inner).

  Lemma sem_following : forall sels look desc strict following, (existsb sel_reverses sels = true -> following = None) ->
    forall x, sem_seg (Seg sels look desc strict following) x = flat_map (after following) (sem_seg (Seg sels look desc strict None) x).
  Proof.
    intros sels look desc strict following RV x. induction x as [x IH] using children_ind. rewrite !sem_seg_eq. cbv zeta.
    set (its := annot look x (sem_seg (Seg sels look desc strict following))). set (its' := annot look x (sem_seg (Seg sels look desc strict None))).
    assert (H : Forall2 (fun i j => it_dec i = it_dec j /\ it_val i = it_val j /\ it_res i = flat_map (after following) (it_res j)) its its').
    { apply annot_rel. intros dec y Y. rewrite items_children in Y. cbn [it_dec it_val it_res]. auto. }
    assert (H1 : Forall2 (fun i j => it_dec i = it_dec j /\ it_val i = it_val j) its its') by (clear - H; induction H as [|? ? ? ? [A [B _]]]; constructor; auto).
    assert (RV' : existsb sel_reverses sels = true -> forall y, after following y = [y]) by (intros E y; now rewrite (RV E)).
    destruct desc; [destruct strict|].
    - rewrite flat_map_app. f_equal; [now apply child_flat|]. clear - H. induction H as [|i j its its' [_ [_ E]] H IH]; [reflexivity|]. cbn [flat_map]. now rewrite E, IH, flat_map_app.
    - destruct sels as [|s [|]]; [reflexivity| |reflexivity]. now apply mixed_flat.
    - now apply child_flat.
  Qed.

  (** The positions of the items a selector takes. *)
  Definition taken (s : selector) (look : Z) (x : jval) : list nat :=
    let l := positions 0 (marks (sem_sel s) s (annot look x (fun _ => tt))) in if sel_reverses s then rev l else l.
  Definition taken_all (sels : list selector) (look : Z) (x : jval) : list nat := flat_map (fun s => taken s look x) sels.

  Lemma ordered_taken : forall R s look x (f : jval -> R), ordered s (picks (sem_sel s) s (annot look x f)) = pick (children x) (taken s look x).
  Proof.
    intros R s look x f. unfold ordered, taken. cbv zeta. rewrite picks_pick, annot_children, (marks_annot _ unit _ _ _ _ _ (fun _ => tt)). destruct (sel_reverses s); [now rewrite pick_rev|reflexivity].
  Qed.
  Lemma child_taken : forall R sels look x (f : jval -> R), child sem_sel (fun y => [y]) sels (annot look x f) = pick (children x) (taken_all sels look x).
  Proof.
    intros R sels look x f. unfold child, taken_all. induction sels as [|s sels IH]; [reflexivity|]. cbn [flat_map]. rewrite pick_app, IH. f_equal. rewrite flat_map_one. apply ordered_taken.
  Qed.
  Lemma picked_taken : forall s look x y, In y (picks (sem_sel s) s (annot look x (fun _ => tt))) <-> In y (pick (children x) (taken s look x)).
  Proof.
    intros s look x y. rewrite <- (ordered_taken _ s look x (fun _ => tt)). unfold ordered. destruct (sel_reverses s); [apply in_rev|reflexivity].
  Qed.
  Lemma sem_child : forall sels look strict x, sem_seg (Seg sels look false strict None) x = pick (children x) (taken_all sels look x).
  Proof. intros. rewrite sem_seg_eq. cbv zeta. apply child_taken. Qed.
  Lemma sem_strict : forall sels look x, sem_seg (Seg sels look true true None) x = flat_map (fun y => pick (children y) (taken_all sels look y)) (descendants x).
  Proof.
    intros sels look x. induction x as [x IH] using children_ind. rewrite sem_seg_eq, descendants_eq. cbv zeta. cbn [flat_map]. f_equal; [apply child_taken|].
    rewrite flat_map_flat. rewrite flat_map_concat_map, annot_results. rewrite flat_map_concat_map. f_equal. apply map_ext_in. auto.
  Qed.
  Lemma sem_relaxed : forall s look x, sel_reverses s = false ->
    sem_seg (Seg [s] look true false None) x = merge 0 (taken_all [s] look x) (children x) (map (sem_seg (Seg [s] look true false None)) (children x)).
  Proof.
    intros s look x RV. rewrite sem_seg_eq. cbv zeta. change (after None) with (fun y : jval => [y]). rewrite (mixed_merge _ _ _ 0), annot_children, annot_results.
    unfold taken_all. cbn [flat_map]. rewrite app_nil_r. unfold taken. rewrite RV. now rewrite (marks_annot _ unit _ _ _ _ _ (fun _ => tt)).
  Qed.
End Following.

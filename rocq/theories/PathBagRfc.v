(** The nodes of a query whose descendant segments may have several selectors are
    those of the specification, up to the order. *)
From Coq Require Import List ZArith NArith Arith Bool Lia Permutation.
From Verif Require Import Base Tokens JsonSpec GoLiteral ScalarModel IterModel IterSpec P_Scalar P_Equal SelectModel SelectSpec P_Select CursorModel
  PathModel PathAbs PathPure PathSim PathBody PathSing PathComp PathFun PathMain PathTop PathAst PathSpec PathTame PathMarks PathSel PathVal PathStep PathInd CompileModel PathRfc PathRun PathBag PathBagRun.

Lemma forall2_exists : forall A B (R : A -> B -> Prop) l, (forall a, In a l -> exists b, R a b) -> exists bs, Forall2 R l bs.
Proof.
  intros A B R. induction l as [|a l IH]; intro H; [exists []; constructor|]. destruct (H a (or_introl eq_refl)) as [b B1]. destruct (IH (fun c J => H c (or_intror J))) as [bs F].
  exists (b :: bs). now constructor.
Qed.

(** The two orders of the specification have the same nodes. *)
Lemma insert_perm : forall A (z : A) n k is (f : nat -> list A),
  n = count_occ Nat.eq_dec is k ->
  Permutation (repeat z n ++ flat_map (fun i => if S k <=? i then f i else []) is)
              (flat_map (fun i => if k <=? i then if i =? k then [z] else f i else []) is).
Proof.
  intros A z n k is f ->. induction is as [|i is IH]; [constructor|]. cbn [count_occ flat_map]. destruct (Nat.eq_dec i k) as [->|NE].
  - rewrite Nat.leb_refl, Nat.eqb_refl. assert (S k <=? k = false) as -> by (apply Nat.leb_gt; lia). cbn [repeat app]. now constructor.
  - rewrite (proj2 (Nat.eqb_neq _ _) NE). assert ((S k <=? i) = (k <=? i)) as ->.
    { destruct (Nat.leb_spec (S k) i), (Nat.leb_spec k i); auto; lia. }
    rewrite app_assoc. rewrite (Permutation_app_comm (repeat z _)). rewrite <- app_assoc. now apply Permutation_app_head.
Qed.
Lemma merge_perm_at : forall l below is pre, length below = length l ->
  Permutation (merge (length pre) is l below)
              (flat_map (fun i => if length pre <=? i then match nth_error (pre ++ l) i with Some a => [a] | None => [] end else []) is ++ concat below).
Proof.
  induction l as [|z l IH]; intros [|b below] is pre E; try discriminate; cbn [merge concat].
  - rewrite app_nil_r. assert (flat_map (fun i => if length pre <=? i then match nth_error (pre ++ []) i with Some a => [a] | None => [] end else []) is = []) as ->; [|constructor].
    rewrite app_nil_r. induction is as [|i is IHi]; [reflexivity|]. cbn [flat_map]. rewrite IHi. destruct (Nat.leb_spec (length pre) i); [|reflexivity].
    now rewrite (proj2 (nth_error_None pre i)) by lia.
  - injection E as E. specialize (IH below is (pre ++ [z]) E). rewrite app_length in IH. cbn [length] in IH. rewrite Nat.add_1_r, <- app_assoc in IH. cbn [app] in IH.
    rewrite IH. clear IH. rewrite (Permutation_app_comm b). rewrite <- !app_assoc. rewrite (Permutation_app_comm (concat below) b). rewrite !app_assoc. do 2 apply Permutation_app_tail.
    rewrite (insert_perm _ z _ (length pre) is (fun i => match nth_error (pre ++ z :: l) i with Some a => [a] | None => [] end) eq_refl).
    apply flat_map_perm. intros i _. destruct (length pre <=? i); [|constructor]. destruct (Nat.eqb_spec i (length pre)) as [->|]; [|apply Permutation_refl].
    rewrite nth_error_app2, Nat.sub_diag by lia. apply Permutation_refl.
Qed.
Lemma merge_perm : forall l below is, length below = length l -> Permutation (merge 0 is l below) (pick l is ++ concat below).
Proof. intros l below is E. exact (merge_perm_at l below is [] E). Qed.

Section Rfc.
Variable matches : bytes -> bytes -> Prop.
Variable find : bytes -> bytes -> option (nat * nat).
Variable strict : bool.
Variable root : jval.
Hypothesis root_clean : clean root.
Notation nodes := (nodes matches strict root).
Notation segment_nodes := (segment_nodes matches strict root).
Notation selects := (selects matches strict root).
Notation path := (path matches strict root).
Notation tame_path := (tame_path matches find strict root).
Notation tame_selector := (tame_selector matches find strict root).
Notation good := (good matches find strict root).
Notation covers := (covers matches strict root).
Notation inner_segment := (inner_segment (good_singular root) (good_query matches find strict root)).

Lemma bag_none : forall sing inner l look desc x, bag_seg find sing inner (Seg l look desc strict None) x =
  pick (children x) (taken_all find sing inner l look x) ++ if desc then flat_map (bag_seg find sing inner (Seg l look desc strict None)) (children x) else [].
Proof.
  intros sing inner l look desc x. rewrite bag_seg_eq. cbv zeta. f_equal; [apply child_taken|]. destruct desc; [|reflexivity].
  now rewrite !flat_map_concat_map, annot_results.
Qed.
Lemma flat_map_rev_perm : forall A B (f : A -> list B) l, Permutation (flat_map f (rev l)) (flat_map f l).
Proof. intros A B f l. apply Permutation_flat_map. symmetry. apply Permutation_rev. Qed.
Lemma bag_following : forall sing inner l look desc following x,
  Permutation (flat_map (bag_after find sing inner following) (bag_seg find sing inner (Seg l look desc strict None) x)) (bag_seg find sing inner (Seg l look desc strict following) x).
Proof.
  intros sing inner l look desc following x. induction x as [x IH] using children_ind. rewrite !bag_seg_eq. cbv zeta. rewrite flat_map_app. apply Permutation_app.
  - unfold child. cbn [bag_after]. rewrite flat_map_flat. apply flat_map_perm. intros s _. rewrite flat_map_one.
    rewrite (picks_annot _ _ _ _ look x _ (bag_seg find sing inner (Seg l look desc strict following))). unfold ordered. destruct (sel_reverses s); [|apply Permutation_refl].
    rewrite flat_map_rev_perm. apply Permutation_rev.
  - destruct desc; [|constructor]. rewrite !flat_map_concat_map, !annot_results, <- !flat_map_concat_map. rewrite flat_map_flat. now apply flat_map_perm.
Qed.

(** The nodes of a segment. *)
Lemma seg_nodes_bag : forall sing inner (desc : bool) sels l look x,
  (forall y, (if desc then In y (descendants x) else y = x) -> forall is, (exists iss, each (fun s => selects s y) sels iss /\ is = concat iss) <-> is = taken_all find sing inner l look y) ->
  exists r, (forall r', segment_nodes (JSegment desc sels) x r' <-> r' = r) /\ Permutation r (bag_seg find sing inner (Seg l look desc strict None) x).
Proof.
  intros sing inner desc sels l look x H. cbn [PathSpec.segment_nodes].
  set (chosen := fun (x : jval) (is : list nat) => exists iss, each (fun s => selects s x) sels iss /\ is = concat iss) in *.
  assert (CH : forall y, (if desc then In y (descendants x) else y = x) -> forall r, (exists is, chosen y is /\ r = pick (children y) is) <-> r = pick (children y) (taken_all find sing inner l look y)).
  { intros y Y r'. split; [intros [is [K ->]]; apply (H y Y) in K; now subst|intros ->; eexists; split; [now apply (H y Y)|reflexivity]]. }
  destruct desc.
  - set (bag := bag_seg find sing inner (Seg l look true strict None)). destruct strict eqn:ST.
    + exists (flat_map (fun y => pick (children y) (taken_all find sing inner l look y)) (descendants x)). split.
      * assert (FI := fun ls => forall2_iff _ _ (fun y r => exists is, chosen y is /\ r = pick (children y) is) (fun y => pick (children y) (taken_all find sing inner l look y)) (descendants x) ls CH).
        intro r. rewrite flat_map_concat_map. split.
        -- intros [ls [F ->]]. apply FI in F. now subst.
        -- intros ->. eexists. split; [now apply FI|reflexivity].
      * clear CH H. induction x as [x IH] using children_ind. rewrite descendants_eq. unfold bag. rewrite <- ST, bag_none, ST. fold bag. cbn [flat_map]. apply Permutation_app_head.
        rewrite flat_map_flat. apply flat_map_perm. exact IH.
    + clear CH. revert H. induction x as [x IH] using children_ind. intro H.
      assert (EX : exists below, Forall2 (fun y r => (forall r', walk chosen y r' <-> r' = r) /\ Permutation r (bag y)) (children x) below).
      { apply forall2_exists. intros y Y. apply IH; [exact Y|]. intros z Z. apply H. eapply descendants_child; eauto. }
      destruct EX as [below FB].
      assert (HX : forall is, chosen x is <-> is = taken_all find sing inner l look x) by (apply H; rewrite descendants_eq; now left).
      exists (merge 0 (taken_all find sing inner l look x) (children x) below). split.
      * intro r. split.
        -- intro W. inversion W as [? is below' CX FB']; subst. apply HX in CX. subst is. f_equal. clear - FB FB'. revert below' FB'. induction FB as [|y b ys below [E _] FB IHF]; intros below' FB'; inversion FB'; subst; [reflexivity|].
           f_equal; [now apply E|auto].
        -- intros ->. constructor; [now apply HX|]. clear - FB. induction FB as [|y b ys below [E _] FB IHF]; constructor; [now apply E|auto].
      * assert (LB : length below = length (children x)) by (clear - FB; induction FB; cbn; auto).
        rewrite merge_perm by exact LB. unfold bag. rewrite <- ST, bag_none, ST. fold bag. apply Permutation_app_head.
        clear - FB. induction FB as [|y b ys below [_ P] FB IHF]; [constructor|]. cbn [concat flat_map]. now apply Permutation_app.
  - exists (pick (children x) (taken_all find sing inner l look x)). split; [now apply CH|]. rewrite bag_none, app_nil_r. apply Permutation_refl.
Qed.

Lemma bag_sub : forall sing inner desc l look x y, In y (bag_seg find sing inner (Seg l look desc strict None) x) -> In y (flat_map children (descendants x)).
Proof.
  intros sing inner desc l look x. induction x as [x IH] using children_ind. intros y J. rewrite bag_none in J. rewrite descendants_eq. cbn [flat_map]. apply in_or_app. apply in_app_or in J as [J|J].
  - left. eapply pick_in. exact J.
  - right. destruct desc; [|destruct J]. apply in_flat_map in J as [z [Z J]]. apply IH in J; [|exact Z]. rewrite flat_map_flat. apply in_flat_map. eauto.
Qed.
Lemma bag_clean : forall sing inner desc l look x y, clean x -> In y (bag_seg find sing inner (Seg l look desc strict None) x) -> clean y.
Proof.
  intros sing inner desc l look x y C J. apply bag_sub in J. apply in_flat_map in J as [z [Z J]]. eapply clean_child; [|exact J]. eapply clean_descendant; eauto.
Qed.
Lemma bag_own : forall sing inner desc l look x s y, In s l -> In y (picked find sing inner s look x) -> In y (bag_seg find sing inner (Seg l look desc strict None) x).
Proof.
  intros sing inner desc l look x s y S1 J. unfold picked in J. apply picked_taken in J. rewrite bag_none. apply in_or_app. left.
  apply in_flat_map in J as [i [J1 J2]]. apply in_flat_map. exists i. split; [|exact J2]. apply in_flat_map. eauto.
Qed.
Lemma bag_below : forall sing inner l look x z y, In z (children x) -> In y (bag_seg find sing inner (Seg l look true strict None) z) -> In y (bag_seg find sing inner (Seg l look true strict None) x).
Proof.
  intros sing inner l look x z y Z J. rewrite (bag_none _ _ _ _ _ x). apply in_or_app. right. apply in_flat_map. eauto.
Qed.

Lemma bag_fine : forall sing inner (desc : bool) l look following x, clean x ->
  (forall c y z, (if desc then In y (descendants x) else y = x) -> In (SFilter c) l -> In z (children y) -> fine_cond find sing inner c z) ->
  (existsb sel_reverses l = true -> following = None /\ Forall scalar_node (bag_seg find sing inner (Seg l look desc strict None) x)) ->
  (forall fs, following = Some fs -> forall y, In y (bag_seg find sing inner (Seg l look desc strict None) x) -> fine_bag find sing inner fs y) ->
  fine_bag find sing inner (Seg l look desc strict following) x.
Proof.
  intros sing inner desc l look following x. induction x as [x IH] using children_ind. intros C FC RV FF. constructor.
  - now apply clean_keys_ok.
  - intros -> y Y. rewrite items_children in Y. apply IH; auto.
    + eapply clean_child; eauto.
    + intros c z w Z. apply FC. eapply descendants_child; eauto.
    + intro R. destruct (RV R) as [-> F]. split; [reflexivity|]. rewrite Forall_forall in *. intros z Z. apply F. eapply bag_below; eauto.
    + intros fs E z Z. apply (FF fs E). eapply bag_below; eauto.
  - intros c y J Y. rewrite items_children in Y. eapply FC; [|exact J|exact Y]. destruct desc; [rewrite descendants_eq; now left|reflexivity].
  - intros fs E s y S1 Y. apply (FF fs E). eapply bag_own; eauto.
  - intros R s y S1 Y. destruct (RV R) as [-> F]. cbn [bag_after]. constructor; [|constructor]. rewrite Forall_forall in F. specialize (F y (bag_own _ _ _ _ _ _ _ _ S1 Y)). destruct y; try destruct F. exact Logic.I.
Qed.

Lemma path_bag : forall segs xs g (bag : jval -> list jval),
  (forall x, In x xs -> exists l0, (forall l, path segs [x] l <-> l = l0) /\ Permutation l0 (bag x)) -> Permutation xs g ->
  exists l0, (forall l, path segs xs l <-> l = l0) /\ Permutation l0 (flat_map bag g).
Proof.
  intros segs xs g bag H P.
  enough (K : exists l0, (forall l, path segs xs l <-> l = l0) /\ Permutation l0 (flat_map bag xs)).
  { destruct K as [l0 [E1 E2]]. exists l0. split; [exact E1|]. rewrite E2. now apply Permutation_flat_map. }
  clear g P. induction xs as [|x xs IH].
  - exists []. split; [apply path_nil|constructor].
  - destruct (H x (or_introl eq_refl)) as [a [A1 A2]]. destruct (IH (fun y Y => H y (or_intror Y))) as [b [B1 B2]]. exists (a ++ b). split.
    + intro l. change (x :: xs) with ([x] ++ xs). rewrite path_app. split.
      * intros (l1 & l2 & H1 & H2 & ->). apply A1 in H1. apply B1 in H2. now subst.
      * intros ->. exists a, b. split; [now apply A1|]. split; [now apply B1|reflexivity].
    + cbn [flat_map]. now apply Permutation_app.
Qed.

Lemma bag_path_ok : forall segs t first t', compile_segments (compile_segment strict) segs t = Some (first, t') -> good t -> all inner_segment segs ->
  good t' /\ extends t t' /\ (segs = [] -> first = None) /\
  forall sing inner, covers t' sing inner -> forall x, clean x -> tame_path segs x ->
    (forall s, first = Some s -> fine_bag find sing inner s x) /\
    exists l0, (forall l, path segs [x] l <-> l = l0) /\ Permutation l0 (bag_after find sing inner first x).
Proof.
  induction segs as [|[desc sels] segs IH]; intros t first t' E G I; cbn [compile_segments] in E.
  { injection E as <- <-. split; [exact G|]. split; [apply extends_refl|]. split; [auto|]. intros sing inner C x CX _. split; [discriminate|]. exists [x]. split; [reflexivity|apply Permutation_refl]. }
  assert (GS : Forall (goal_s matches find strict root) sels) by (apply Forall_forall; intros s _; apply (all_goals matches find strict root root_clean)). destruct I as [IS II].
  destruct (compile_segments (compile_segment strict) segs t) as [[following t1]|] eqn:ER; [|discriminate]. rewrite compile_segment_eq in E.
  destruct (compile_list (compile_selector strict) sels t1) as [[l t2]|] eqn:EL; [|discriminate]. injection E as <- <-.
  destruct (IH _ _ _ ER G II) as (G1 & X1 & NN & H1). destruct (selectors_ok _ _ _ _ _ _ _ _ GS EL G1 IS) as (G2 & X2 & RV & ON & H2).
  split; [exact G2|]. split; [eapply extends_trans; eauto|]. split; [discriminate|].
  intros sing inner C x CX T. cbn [PathRfc.tame_path] in T. destruct T as [T1 [T2 T3]].
  assert (C1 := covers_ext _ _ _ _ _ _ _ X2 C). specialize (H1 _ _ C1). specialize (H2 _ _ C). set (look := max_lookahead l) in *.
  assert (HY : forall y, (if desc then In y (descendants x) else y = x) -> (look <= max64)%Z /\
    (forall is, (exists iss, each (fun s => selects s y) sels iss /\ is = concat iss) <-> is = taken_all find sing inner l look y) /\
    (forall c z, In (SFilter c) l -> In z (children y) -> fine_cond find sing inner c z)).
  { intros y Y. assert (CY : clean y) by (destruct desc; [eapply clean_descendant; eauto|now subst]).
    assert (TY : all (fun s => tame_selector s y) sels) by (cbn [PathTame.tame_segment] in T1; destruct desc; [auto|now subst]).
    destruct (H2 y CY TY) as [L1 [L2 L3]]. split; [exact L1|]. split; [|exact L3]. apply L2. fold look. split; [apply Z.le_refl|exact L1]. }
  destruct (seg_nodes_bag sing inner desc sels l look x (fun y Y => proj1 (proj2 (HY y Y)))) as [g [SG PG]].
  set (b := bag_seg find sing inner (Seg l look desc strict None) x) in *.
  assert (RN : existsb sel_reverses l = true -> following = None /\ Forall scalar_node b).
  { intro R. apply RV in R. destruct (T2 R) as [-> SC]. split; [now apply NN|]. eapply Permutation_Forall; [exact PG|]. apply SC. now apply SG. }
  assert (HG : forall y, In y b -> (forall s, following = Some s -> fine_bag find sing inner s y) /\ exists l0, (forall r, path segs [y] r <-> r = l0) /\ Permutation l0 (bag_after find sing inner following y)).
  { intros y Y. apply H1; [eapply bag_clean; eauto|]. eapply T3; [apply SG; reflexivity|]. eapply Permutation_in; [symmetry; exact PG|exact Y]. }
  split.
  - intros s [= <-]. apply bag_fine; auto.
    + intros c y z Y J Z. exact (proj2 (proj2 (HY y Y)) c z J Z).
    + intros fs -> y Y. apply (HG y Y). reflexivity.
  - destruct (path_bag segs g b (bag_after find sing inner following)) as [l0 [A1 A2]]; [|exact PG|].
    + intros y Y. apply HG. eapply Permutation_in; [exact PG|exact Y].
    + exists l0. split.
      * intro r. rewrite (path_cons _ _ _ _ _ _ _ SG). apply A1.
      * rewrite A2. cbn [bag_after]. apply bag_following.
Qed.

(** The whole query. *)
Definition ready (q : jquery) : Prop :=
  tame_query matches find strict root q root /\ inner_query (good_singular root) (good_query matches find strict root) q.

Theorem program_ok : forall segs r, compile strict (JQuery true segs) = Some r -> ready (JQuery true segs) ->
  fine_program find r root /\ exists l0, (forall l, nodes (JQuery true segs) root l <-> l = l0) /\ Permutation l0 (main_values find r root).
Proof.
  intros segs r E (TQ & IQ). set (q := JQuery true segs) in *. unfold compile in E. destruct (compile_query strict q (mkTables [] [])) as [[r0 t]|] eqn:EC; [|discriminate]. injection E as <-.
  change (compile_query strict q (mkTables [] [])) with (let? (first, t1) := compile_segments (compile_segment strict) segs (mkTables [] []) in Some (QFirst first, t1)) in EC.
  destruct (compile_segments (compile_segment strict) segs (mkTables [] [])) as [[first t1]|] eqn:ES; [|discriminate]. injection EC as <- <-.
  assert (G0 : good (mkTables [] [])).
  { split; [intros e []|]. intros pre e post H. destruct pre; discriminate. }
  destruct (bag_path_ok _ _ _ _ ES G0 IQ) as (G & _ & _ & H).
  unfold fine_program, main_values. cbn [rn_singular rn_queries rn_main]. set (sing := singular_values (map snd (tb_sing t1)) root).
  assert (CS : cov_sing root (tb_sing t1) sing).
  { intros i e N. unfold sing, singular_values. rewrite map_map. apply (map_nth_error (fun e => singular (snd e) root)). exact N. }
  destruct (inner_values_ok matches find strict root sing t1 G CS (tb_inner t1) [] []) as [FQ CI]; [reflexivity|reflexivity|intros i e N; destruct i; discriminate|]. cbn [app] in CI.
  destruct (H sing _ (conj CS CI) root root_clean TQ) as [FM [l0 [HN HP]]]. split.
  - split; [|split; [exact FQ|]].
    + apply Forall_forall. intros c J. apply in_map_iff in J as [e [<- J]]. destruct (proj1 G e J) as [l [-> [NS [SL [y SY]]]]]. cbn [snd].
      destruct (steps_iff l root root_clean SL) as [A [B D]]. change (steps l root (Some y)) in SY. apply A in SY. split; [now apply not_scalar_node|]. split; [exact B|].
      exists y. split; [now symmetry|]. rewrite <- SY in D. destruct D as [_ [_ D]]. unfold fits. cbn [stream flat_map]. rewrite app_nil_r. unfold maxint. lia.
    + destruct first as [s|]; [now apply FM|exact Logic.I].
  - exists l0. split; [exact HN|]. rewrite HP. destruct first as [s|]; cbn [bag_after main_nodes]; [|apply Permutation_refl]. apply emits.
Qed.
End Rfc.

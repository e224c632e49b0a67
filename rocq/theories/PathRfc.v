(** Compiled queries select what RFC 9535 says. *)
From Coq Require Import List ZArith NArith Arith Bool Lia Permutation.
From Verif Require Import Base Tokens JsonSpec GoLiteral ScalarModel IterModel IterSpec P_Scalar P_Equal SelectModel SelectSpec P_Select SelectMore CursorModel EncSpec
  ScalarSpec EqualSpec ScalarProofs ScriptSpec ScriptProofs EqualProofs PathModel PathAbs PathPure PathSim PathBody PathSing PathComp PathFun PathMain PathTop PathAst PathSpec PathTame PathMarks PathSel PathVal PathStep PathInd CompileModel.

Section Rfc.
Variable matches : bytes -> bytes -> Prop.
Variable find : bytes -> bytes -> option (nat * nat).
Variable strict : bool.
Variable root : jval.
Hypothesis root_clean : clean root.
Notation nodes := (nodes matches strict root).
Notation segment_nodes := (segment_nodes matches strict root).
Notation selects := (selects matches strict root).
Notation holds := (holds matches strict root).
Notation value := (value matches strict root).
Notation call_value := (call_value matches strict root).
Notation call_holds := (call_holds matches strict root).
Notation arg_value := (arg_value matches strict root).
Notation arg_nodes := (arg_nodes matches strict root).
Notation path := (path matches strict root).
Notation tame_query := (tame_query matches find strict root).
Notation tame_segment := (tame_segment matches find strict root).
Notation tame_selector := (tame_selector matches find strict root).
Notation tame_logical := (tame_logical matches find strict root).
Notation tame_value := (tame_value matches find strict root).
Notation tame_call := (tame_call matches find strict root).
Notation tame_arg := (tame_arg matches find strict root).

Definition good_singular (sq : jsingular) : Prop :=
  ~ scalar_node root /\ match sq with JSingular _ l => Forall safe_step l end /\ exists y, singular_node root sq root (Some y).
Definition good_query (q : jquery) : Prop :=
  ~ scalar_node root /\ simple q /\ tame_query q root /\ forall l, nodes q root l -> (Z.of_nat (length (stream l)) < maxint)%Z.
Notation inner_query := (inner_query good_singular good_query).
Notation inner_segment := (inner_segment good_singular good_query).
Notation inner_selector := (inner_selector good_singular good_query).
Notation inner_logical := (inner_logical good_singular good_query).
Notation inner_value := (inner_value good_singular good_query).
Notation inner_call := (inner_call good_singular good_query).
Notation inner_arg := (inner_arg good_singular good_query).

Fixpoint tame_path (segs : list jsegment) (x : jval) : Prop :=
  match segs with
  | [] => True
  | seg :: rest =>
      tame_segment seg x /\
      (reverses_some seg = true -> rest = [] /\ forall l, segment_nodes seg x l -> Forall scalar_node l) /\
      forall l, segment_nodes seg x l -> forall y, In y l -> tame_path rest y
  end.
Lemma tame_query_path : forall r segs x, tame_query (JQuery r segs) x = tame_path segs (if r then root else x).
Proof. reflexivity. Qed.

Definition start (q : jquery) (x : jval) : jval := if absolute q then root else x.

(* ------------------------------------------------------------------ *)
(** The tables of the compiler. *)
Definition extends (t t' : tables) : Prop := exists a b, tb_sing t' = tb_sing t ++ a /\ tb_inner t' = tb_inner t ++ b.
Lemma extends_refl : forall t, extends t t.
Proof. intro t. exists [], []. now rewrite !app_nil_r. Qed.
Lemma extends_trans : forall t t1 t2, extends t t1 -> extends t1 t2 -> extends t t2.
Proof. intros t t1 t2 [a [b [E1 E2]]] [a' [b' [E3 E4]]]. exists (a ++ a'), (b ++ b'). rewrite E3, E4, E1, E2, !app_assoc. auto. Qed.

Definition cov_sing (l : list (jsingular * list ssel)) (sing : list (option jval)) : Prop :=
  forall i e, nth_error l i = Some e -> nth_error sing i = Some (singular (snd e) root).
Definition cov_inner (l : list (jquery * query)) (inner : list (list jval)) : Prop :=
  forall i e, nth_error l i = Some e -> exists r, nth_error inner i = Some r /\ forall r', nodes (fst e) root r' <-> r' = r.
Definition covers (t : tables) (sing : list (option jval)) (inner : list (list jval)) : Prop :=
  cov_sing (tb_sing t) sing /\ cov_inner (tb_inner t) inner.
Lemma nth_app : forall A (a b : list A) i e, nth_error a i = Some e -> nth_error (a ++ b) i = Some e.
Proof. intros A a b i e H. rewrite nth_error_app1; [exact H|]. apply nth_error_Some. congruence. Qed.
Lemma covers_ext : forall t t' sing inner, extends t t' -> covers t' sing inner -> covers t sing inner.
Proof.
  intros t t' sing inner [a [b [E1 E2]]] [C1 C2]. unfold cov_sing, cov_inner in *. split; intros i e H; [apply C1|apply C2]; [rewrite E1|rewrite E2]; now apply nth_app.
Qed.

Definition entry_ok (st : list (jsingular * list ssel)) (pre : list (jquery * query)) (e : jquery * query) : Prop :=
  absolute (fst e) = true /\ good_query (fst e) /\ simple_query (snd e) /\
  forall sing inner, cov_sing st sing -> cov_inner pre inner ->
    fine_query find sing inner (snd e) root /\ forall l, nodes (fst e) root l <-> l = sem_query find sing inner (snd e) root.
Definition good (t : tables) : Prop :=
  (forall e, In e (tb_sing t) -> exists l, e = (JSingular true l, map compile_step l) /\ good_singular (JSingular true l)) /\
  (forall pre e post, tb_inner t = pre ++ e :: post -> entry_ok (tb_sing t) pre e).
Lemma entry_more : forall st a pre e, entry_ok st pre e -> entry_ok (st ++ a) pre e.
Proof.
  intros st a pre e [H1 [H2 [H3 H]]]. split; [exact H1|]. split; [exact H2|]. split; [exact H3|]. intros sing inner C1 C2. apply H; [|exact C2].
  intros i e' N. apply C1. now apply nth_app.
Qed.

(* ------------------------------------------------------------------ *)
(** The statements. *)
Definition goal_s (s : jselector) : Prop := forall t s' t', compile_selector strict s t = Some (s', t') -> good t -> inner_selector s ->
  good t' /\ extends t t' /\ (sel_reverses s' = true -> forward s = false) /\
  forall sing inner, covers t' sing inner -> forall x, clean x -> tame_selector s x ->
    (sel_lookahead s' <= max64)%Z /\
    (forall look, (sel_lookahead s' <= look <= max64)%Z -> forall is, selects s x is <-> is = taken find sing inner s' look x) /\
    (forall c y, s' = SFilter c -> In y (children x) -> fine_cond find sing inner c y).
Definition goal_c (c : jlogical) : Prop := forall t c' t', compile_cond strict c t = Some (c', t') -> good t -> inner_logical c ->
  good t' /\ extends t t' /\
  forall sing inner, covers t' sing inner -> forall x, clean x -> tame_logical c x ->
    fine_cond find sing inner c' x /\ (sem_cond find sing inner c' x = true <-> holds c x).
Definition comp_ok (sing : list (option jval)) (inner : list (list jval)) (m : operand) (x : jval) (R : option jval -> Prop) : Prop :=
  fine_comp find sing inner m x /\ (forall o, R o <-> o = sem_comp find sing inner m x) /\ good_value (sem_comp find sing inner m x).
Definition goal_v (a : jcomparable) : Prop := forall t m t', compile_comparable strict a t = Some (m, t') -> good t -> inner_value a ->
  good t' /\ extends t t' /\
  forall sing inner, covers t' sing inner -> forall x, clean x -> tame_value a x -> comp_ok sing inner m x (value a x).
Definition goal_f (f : jcall) : Prop := forall ty t g args t', compile_call strict f ty t = Some ((g, args), t') -> good t -> inner_call f ->
  good t' /\ extends t t' /\
  forall sing inner, covers t' sing inner -> forall x, clean x -> tame_call f x ->
    match ty with
    | TyValue => comp_ok sing inner (MFun g args) x (call_value f x)
    | TyLogical => fine_cond find sing inner (CFun g args) x /\ (sem_cond find sing inner (CFun g args) x = true <-> call_holds f x)
    | TyNodes => False
    end.
Definition query_ok (sing : list (option jval)) (inner : list (list jval)) (q' : query) (x y : jval) (q : jquery) : Prop :=
  fine_query find sing inner q' y /\ forall l, nodes q x l <-> l = sem_query find sing inner q' y.
Definition goal_q (q : jquery) : Prop := forall t q' t', compile_query strict q t = Some (q', t') -> good t -> inner_query q ->
  good t' /\ extends t t' /\ (simple q -> simple_query q') /\ (plain q -> plain_query q') /\
  forall sing inner, covers t' sing inner -> forall x, clean (start q x) -> simple q -> tame_query q x -> query_ok sing inner q' x (start q x) q.
Definition goal_a (a : jarg) : Prop :=
  (forall t a' t', compile_arg strict a TyValue t = Some (a', t') -> good t -> inner_arg false a ->
     good t' /\ extends t t' /\ exists m, a' = AVal m /\ (relative a -> own m = true) /\
     forall sing inner, covers t' sing inner -> forall x, clean x -> tame_arg a x -> comp_ok sing inner m x (arg_value a x)) /\
  (forall t a' t', compile_arg strict a TyNodes t = Some (a', t') -> good t -> inner_arg true a ->
     good t' /\ extends t t' /\ exists q q', a = JArgQuery q /\ a' = ANodes q' /\ (simple q -> simple_query q') /\ (plain q -> plain_query q') /\
     forall sing inner, covers t' sing inner -> forall x, clean x -> simple q -> tame_arg a x -> query_ok sing inner q' x x q).
Definition goal_g (seg : jsegment) : Prop := match seg with JSegment desc sels => Forall goal_s sels end.

(* ------------------------------------------------------------------ *)
(** Selectors. *)
Lemma selector_name : forall n, goal_s (JName n).
Proof.
  intros n t s' t' [= <- <-] G I. split; [exact G|]. split; [apply extends_refl|]. split; [now intros |]. intros sing inner C x CX T.
  split; [cbn; unfold max64; lia|]. split; [|discriminate]. intros look B is. cbn [PathSpec.selects].
  destruct x as [s|l e|l e]; [now rewrite taken_scalar|now rewrite taken_name_array|]. rewrite taken_name_object by exact CX.
  apply kept_iff. intros m J. destruct (clean_keys l e m CX J). now apply spells_string.
Qed.
Lemma selector_wild : goal_s JWild.
Proof.
  intros t s' t' [= <- <-] G I. split; [exact G|]. split; [apply extends_refl|]. split; [now intros |]. intros sing inner C x CX T.
  split; [cbn; unfold max64; lia|]. split; [|discriminate]. intros look B is. now rewrite taken_wild.
Qed.
Lemma selector_index : forall i, goal_s (JIndex i).
Proof.
  intros i t s' t' [= <- <-] G I. split; [exact G|]. split; [apply extends_refl|]. split; [now intros |]. intros sing inner C x CX T.
  cbn [PathTame.tame_selector] in T. assert (SN : sane (PIndex i)) by exact T. pose proof (look_range _ SN) as LR. cbn [sel_lookahead].
  split; [lia|]. split; [|discriminate]. intros look B is. cbn [PathSpec.selects].
  destruct x as [s|l e|l e]; [now rewrite taken_scalar| |now rewrite taken_pos_object]. pose proof (clean_length _ CX) as L. cbn [children] in L.
  rewrite taken_pos_array by (auto; lia). rewrite C32_index by (auto; lia). reflexivity.
Qed.
Lemma slice_reverses : forall a b st, reverses (compile_slice a b st) = true -> forward (JSlice a b st) = false.
Proof.
  intros a b st H. unfold compile_slice in H. cbn [forward]. destruct (Z.eqb_spec st 0); [discriminate|]. destruct (Z.ltb_spec st 0).
  - apply Z.leb_gt. lia.
  - destruct (_ || _)%bool in H; discriminate.
Qed.
Lemma selector_slice : forall a b st, goal_s (JSlice a b st).
Proof.
  intros a b st t s' t' [= <- <-] G I. split; [exact G|]. split; [apply extends_refl|]. split; [apply slice_reverses|]. intros sing inner C x CX T.
  cbn [PathTame.tame_selector] in T. destruct T as [SA [SB ST]]. pose proof (slice_sane a b st SA SB) as SN. pose proof (look_range _ SN) as LR. cbn [sel_lookahead].
  split; [lia|]. split; [|discriminate]. intros look B is. cbn [PathSpec.selects].
  destruct x as [s|l e|l e]; [now rewrite taken_scalar| |now rewrite taken_pos_object]. pose proof (clean_length _ CX) as L. cbn [children] in L, ST.
  rewrite taken_pos_array by (auto; lia). rewrite slice_select by (auto; lia). reflexivity.
Qed.
Lemma selector_filter : forall c, goal_c c -> goal_s (JFilter c).
Proof.
  intros c IH t s' t' E G I. change (compile_selector strict (JFilter c) t) with (let? (c', t1) := compile_cond strict c t in Some (SFilter c', t1)) in E. destruct (compile_cond strict c t) as [[c' t1]|] eqn:EC; [|discriminate]. injection E as <- <-.
  destruct (IH _ _ _ EC G I) as [G1 [X1 H]]. split; [exact G1|]. split; [exact X1|]. split; [now intros |]. intros sing inner C x CX T.
  split; [cbn; unfold max64; lia|]. cbn [PathTame.tame_selector] in T. specialize (H sing inner C). split.
  - intros look B is. cbn [PathSpec.selects]. rewrite taken_filter. apply kept_iff. intros y Y. assert (CY : clean y) by (eapply clean_child; eauto). specialize (H y CY (T y Y)) as [_ H]. now rewrite H.
  - intros c0 y [= <-] Y. apply (H y); [eapply clean_child; eauto|exact (T y Y)].
Qed.

(** Lists. *)
Lemma all_in : forall A (P : A -> Prop) l, all P l <-> forall a, In a l -> P a.
Proof.
  intros A P. induction l as [|a l IH]; cbn [all]; [split; [intros _ a []|auto]|]. rewrite IH. split.
  - intros [H1 H2] b [<-|J]; auto.
  - intro H. split; [apply H; now left|intros; apply H; now right].
Qed.
Lemma some_in : forall A (P : A -> Prop) l, some P l <-> exists a, In a l /\ P a.
Proof.
  intros A P. induction l as [|a l IH]; cbn [some]; [split; [tauto|intros [a [[] _]]]|]. rewrite IH. split.
  - intros [H|[b [J H]]]; [exists a|exists b]; split; auto; [now left|now right].
  - intros [b [[<-|J] H]]; [now left|right; eauto].
Qed.

(** The selectors of a segment. *)
Lemma selectors_ok : forall sels t l t', Forall goal_s sels -> compile_list (compile_selector strict) sels t = Some (l, t') -> good t -> all inner_selector sels ->
  good t' /\ extends t t' /\ (existsb sel_reverses l = true -> existsb (fun s => negb (forward s)) sels = true) /\ (single sels -> one_forward l) /\
  forall sing inner, covers t' sing inner -> forall x, clean x -> all (fun s => tame_selector s x) sels ->
    (max_lookahead l <= max64)%Z /\
    (forall look, (max_lookahead l <= look <= max64)%Z -> forall is, (exists iss, each (fun s => selects s x) sels iss /\ is = concat iss) <-> is = taken_all find sing inner l look x) /\
    (forall c y, In (SFilter c) l -> In y (children x) -> fine_cond find sing inner c y).
Proof.
  intros sels t l t' F E G I.
  assert (M : good t' /\ extends t t' /\ Forall2 (fun s s' => (sel_reverses s' = true -> forward s = false) /\
     forall sing inner, covers t' sing inner -> forall x, clean x -> tame_selector s x ->
    (sel_lookahead s' <= max64)%Z /\
    (forall look, (sel_lookahead s' <= look <= max64)%Z -> forall is, selects s x is <-> is = taken find sing inner s' look x) /\
    (forall c y, s' = SFilter c -> In y (children x) -> fine_cond find sing inner c y)) sels l).
  { revert t l E G I. induction F as [|s sels HS F IH]; intros t l E G I; cbn [compile_list] in E.
    - injection E as <- <-. split; [exact G|]. split; [apply extends_refl|constructor].
    - destruct (compile_selector strict s t) as [[s' t1]|] eqn:ES; [|discriminate]. destruct (compile_list _ sels t1) as [[l' t2]|] eqn:EL; [|discriminate]. injection E as <- <-.
      destruct I as [I1 I2]. destruct (HS _ _ _ ES G I1) as [G1 [X1 [R1 H1]]]. destruct (IH _ _ EL G1 I2) as [G2 [X2 H2]].
      split; [exact G2|]. split; [eapply extends_trans; eauto|]. constructor; [|exact H2]. split; [exact R1|]. intros sing inner C. apply H1. eapply covers_ext; eauto. }
  destruct M as [G' [X M]]. split; [exact G'|]. split; [exact X|]. clear E G I F X. split; [|split].
  - clear G'. induction M as [|s s' sels l [R _] M IH]; cbn [existsb]; [discriminate|]. intro H. apply orb_true_iff in H as [H|H]; apply orb_true_iff; [left; now rewrite (R H)|right; auto].
  - intro S1. destruct sels as [|s [|]]; try now destruct S1. inversion M as [|? s' ? l' [R _] M']; subst. inversion M'; subst. exists s'. split; [reflexivity|]. cbn [single] in S1. destruct (sel_reverses s'); [|reflexivity]. now rewrite (R eq_refl) in S1.
  - intros sing inner C x CX T. rewrite all_in in T.
    assert (N : Forall2 (fun s s' => (sel_lookahead s' <= max64)%Z /\
      (forall look, (sel_lookahead s' <= look <= max64)%Z -> forall is, selects s x is <-> is = taken find sing inner s' look x) /\
      (forall c y, s' = SFilter c -> In y (children x) -> fine_cond find sing inner c y)) sels l).
    { clear - M C CX T. induction M as [|s s' sels l [_ H] M IH]; constructor; [apply H; auto; apply T; now left|apply IH; intros; apply T; now right]. }
    clear M T. split; [|split].
    + apply max_lookahead_le; [unfold max64; lia|]. intros s' J. clear - N J. induction N as [|s s0 sels l [H _] N IH]; [destruct J|]. destruct J as [<-|J]; auto.
    + intros look B is. assert (B' : forall s', In s' l -> (sel_lookahead s' <= look <= max64)%Z) by (intros s' J; pose proof (max_lookahead_ge l s' J); lia).
      unfold taken_all. rewrite flat_map_concat_map. clear B. revert is. induction N as [|s s' sels l [_ [H _]] N IH]; intro is.
      * split; [intros [iss [E ->]]; destruct iss; [reflexivity|destruct E]|intros ->; exists []; split; [exact Logic.I|reflexivity]].
      * specialize (H look (B' s' (or_introl eq_refl))). specialize (IH (fun s0 J => B' s0 (or_intror J))). cbn [map concat]. split.
        -- intros [iss [E ->]]. destruct iss as [|i1 iss]; [destruct E|]. cbn [each] in E. destruct E as [E1 E2]. apply H in E1. cbn [concat]. f_equal; [exact E1|]. apply IH. eauto.
        -- intros ->. destruct (proj2 (IH _) eq_refl) as [iss [E1 E2]]. exists (taken find sing inner s' look x :: iss). split; [split; [now apply H|exact E1]|]. cbn [concat]. now rewrite E2.
    + intros c y J Y. clear - N J Y. induction N as [|s s' sels l [_ [_ H]] N IH]; [destruct J|]. destruct J as [E|J]; [eapply H; eauto|auto].
Qed.

(** The nodes of a segment. *)
Lemma seg_nodes_ok : forall sing inner desc sels l look x,
  (desc = true -> one_forward l) ->
  (forall y, (if desc then In y (descendants x) else y = x) -> forall is, (exists iss, each (fun s => selects s y) sels iss /\ is = concat iss) <-> is = taken_all find sing inner l look y) ->
  forall r, segment_nodes (JSegment desc sels) x r <-> r = sem_seg find sing inner (Seg l look desc strict None) x.
Proof.
  intros sing inner desc sels l look x OF H r. cbn [PathSpec.segment_nodes].
  set (chosen := fun x is => exists iss, each (fun s => selects s x) sels iss /\ is = concat iss) in *.
  assert (CH : forall y, (if desc then In y (descendants x) else y = x) -> forall r, (exists is, chosen y is /\ r = pick (children y) is) <-> r = pick (children y) (taken_all find sing inner l look y)).
  { intros y Y r'. split; [intros [is [K ->]]; apply (H y Y) in K; now subst|intros ->; eexists; split; [now apply (H y Y)|reflexivity]]. }
  destruct desc; [destruct strict|].
  - rewrite sem_strict. assert (FI := fun ls => forall2_iff _ _ (fun y r => exists is, chosen y is /\ r = pick (children y) is) (fun y => pick (children y) (taken_all find sing inner l look y)) (descendants x) ls CH).
    rewrite flat_map_concat_map. split.
    + intros [ls [F ->]]. apply FI in F. now subst.
    + intros ->. eexists. split; [now apply FI|reflexivity].
  - destruct (OF eq_refl) as [s [-> RV]]. clear OF CH. revert H r. induction x as [x IH] using children_ind. intros H r. rewrite sem_relaxed by exact RV.
    assert (FI : forall ls, Forall2 (walk chosen) (children x) ls <-> ls = map (sem_seg find sing inner (Seg [s] look true false None)) (children x)).
    { intro ls. apply forall2_iff. intros y Y. apply IH; [exact Y|]. intros z Z. apply H. eapply descendants_child; eauto. }
    assert (HX : forall is, chosen x is <-> is = taken_all find sing inner [s] look x) by (apply H; rewrite descendants_eq; now left). split.
    + intro W. inversion W as [? is below CX FB]; subst. apply HX in CX. apply FI in FB. now subst.
    + intros ->. constructor; [now apply HX|now apply FI].
  - rewrite sem_child. now apply CH.
Qed.

Lemma merge_in : forall l is below i y, length below = length l -> In y (merge i is l below) -> In y l \/ In y (concat below).
Proof.
  induction l as [|z l IH]; intros is [|b below] i y E J; try discriminate; cbn [merge] in J; [destruct J|]. apply in_app_or in J as [J|J].
  - apply repeat_spec in J. left. now left.
  - apply in_app_or in J as [J|J]; [right; apply in_or_app; now left|]. apply IH in J; [|now injection E]. destruct J as [J|J]; [left; now right|right; apply in_or_app; now right].
Qed.
Lemma in_merge : forall l is below i y, length below = length l -> In y (concat below) -> In y (merge i is l below).
Proof.
  induction l as [|z l IH]; intros is [|b below] i y E J; try discriminate; [exact J|]. cbn [merge concat] in *. apply in_or_app. right. apply in_app_or in J as [J|J]; apply in_or_app; [now left|right].
  apply IH; [now injection E|exact J].
Qed.
Lemma merge_pick_at : forall l is below pre y, length below = length l ->
  In y (flat_map (fun i => if length pre <=? i then match nth_error (pre ++ l) i with Some a => [a] | None => [] end else []) is) -> In y (merge (length pre) is l below).
Proof.
  induction l as [|z l IH]; intros is [|b below] pre y E J; try discriminate.
  - apply in_flat_map in J as [i [_ J]]. destruct (Nat.leb_spec (length pre) i); [|destruct J]. rewrite app_nil_r, (proj2 (nth_error_None pre i)) in J by lia. destruct J.
  - cbn [merge]. apply in_flat_map in J as [i [I J]]. destruct (Nat.leb_spec (length pre) i); [|destruct J]. apply in_or_app. destruct (Nat.eq_dec (length pre) i) as [<-|NE].
    + left. rewrite nth_error_app2, Nat.sub_diag in J by lia. destruct J as [<-|[]]. assert (P : (0 < count_occ Nat.eq_dec is (length pre))%nat) by (apply count_occ_In; exact I).
      destruct (count_occ Nat.eq_dec is (length pre)); [lia|now left].
    + right. apply in_or_app. right. specialize (IH is below (pre ++ [z]) y). rewrite app_length, <- app_assoc in IH. cbn [length app] in IH. rewrite Nat.add_1_r in IH.
      apply IH; [now injection E|]. apply in_flat_map. exists i. split; [exact I|]. rewrite (proj2 (Nat.leb_le _ _)) by lia. exact J.
Qed.
Lemma merge_pick : forall l is below y, length below = length l -> In y (pick l is) -> In y (merge 0 is l below).
Proof. intros l is below y E J. apply (merge_pick_at l is below [] y E). exact J. Qed.

Lemma seg_sub : forall sing inner desc l look x y, (desc = true -> one_forward l) -> In y (sem_seg find sing inner (Seg l look desc strict None) x) -> In y (flat_map children (descendants x)).
Proof.
  intros sing inner desc l look x y OF J. destruct desc; [destruct strict|].
  - rewrite sem_strict in J. apply in_flat_map in J as [z [Z J]]. apply in_flat_map. exists z. split; [exact Z|eapply pick_in; exact J].
  - destruct (OF eq_refl) as [s [-> RV]]. revert y J. induction x as [x IH] using children_ind. intros y J. rewrite sem_relaxed in J by exact RV.
    rewrite descendants_eq. cbn [flat_map]. apply in_or_app. apply merge_in in J; [|now rewrite map_length]. destruct J as [J|J]; [now left|right].
    rewrite <- flat_map_concat_map in J. apply in_flat_map in J as [z [Z J]]. apply IH in J; [|exact Z]. rewrite flat_map_flat. apply in_flat_map. eauto.
  - rewrite sem_child in J. apply pick_in in J. rewrite descendants_eq. cbn [flat_map]. apply in_or_app. now left.
Qed.
Lemma seg_clean : forall sing inner desc l look x y, (desc = true -> one_forward l) -> clean x -> In y (sem_seg find sing inner (Seg l look desc strict None) x) -> clean y.
Proof.
  intros sing inner desc l look x y OF C J. apply seg_sub in J; [|exact OF]. apply in_flat_map in J as [z [Z J]]. eapply clean_child; [|exact J]. eapply clean_descendant; eauto.
Qed.
(** What a segment takes from a node is in the result; and what it gives below. *)
Lemma seg_own : forall sing inner desc l look x s y, (desc = true -> one_forward l) -> In s l -> In y (picked find sing inner s look x) -> In y (sem_seg find sing inner (Seg l look desc strict None) x).
Proof.
  intros sing inner desc l look x s y OF S1 J. unfold picked in J. apply picked_taken in J.
  assert (K : In y (pick (children x) (taken_all find sing inner l look x))).
  { apply in_flat_map in J as [i [J1 J2]]. apply in_flat_map. exists i. split; [|exact J2]. apply in_flat_map. eauto. }
  destruct desc; [destruct strict|].
  - rewrite sem_strict, descendants_eq. cbn [flat_map]. apply in_or_app. now left.
  - destruct (OF eq_refl) as [s0 [-> RV]]. rewrite sem_relaxed by exact RV. apply merge_pick; [now rewrite map_length|exact K].
  - now rewrite sem_child.
Qed.
Lemma seg_below : forall sing inner l look x z y, one_forward l -> In z (children x) -> In y (sem_seg find sing inner (Seg l look true strict None) z) -> In y (sem_seg find sing inner (Seg l look true strict None) x).
Proof.
  intros sing inner l look x z y OF Z J. destruct strict.
  - rewrite sem_strict in *. rewrite descendants_eq. cbn [flat_map]. apply in_or_app. right. rewrite flat_map_flat. apply in_flat_map. eauto.
  - destruct OF as [s [-> RV]]. rewrite (sem_relaxed _ _ _ s look x) by exact RV. apply in_merge; [now rewrite map_length|]. rewrite <- flat_map_concat_map. apply in_flat_map. eauto.
Qed.

Lemma seg_fine : forall sing inner desc l look following x, clean x -> (desc = true -> one_forward l) ->
  (forall c y z, (if desc then In y (descendants x) else y = x) -> In (SFilter c) l -> In z (children y) -> fine_cond find sing inner c z) ->
  (existsb sel_reverses l = true -> following = None /\ Forall scalar_node (sem_seg find sing inner (Seg l look desc strict None) x)) ->
  (forall fs, following = Some fs -> forall y, In y (sem_seg find sing inner (Seg l look desc strict None) x) -> fine_seg find sing inner fs y) ->
  fine_seg find sing inner (Seg l look desc strict following) x.
Proof.
  intros sing inner desc l look following x. induction x as [x IH] using children_ind. intros C OF FC RV FF. constructor.
  - now apply clean_keys_ok.
  - exact OF.
  - intros -> y Y. rewrite items_children in Y. apply IH; auto.
    + eapply clean_child; eauto.
    + intros c z w Z. apply FC. eapply descendants_child; eauto.
    + intro R. destruct (OF eq_refl) as [s [-> R']]. cbn in R. rewrite R' in R. discriminate.
    + intros fs E z Z. apply (FF fs E). eapply seg_below; eauto.
  - intros c y J Y. rewrite items_children in Y. eapply FC; [|exact J|exact Y]. destruct desc; [rewrite descendants_eq; now left|reflexivity].
  - intros fs E s y S1 Y. apply (FF fs E). eapply seg_own; eauto.
  - intros R s y S1 Y. destruct (RV R) as [-> F]. cbn [after]. constructor; [|constructor]. rewrite Forall_forall in F. specialize (F y (seg_own _ _ _ _ _ _ _ _ OF S1 Y)). destruct y; try destruct F. exact Logic.I.
Qed.

(** Queries. *)
Lemma compile_segment_eq : forall desc sels following t, compile_segment strict (JSegment desc sels) following t =
  let? (l, t1) := compile_list (compile_selector strict) sels t in Some (Seg l (max_lookahead l) desc strict following, t1).
Proof. reflexivity. Qed.
Lemma path_ok : forall segs t first t', Forall goal_g segs -> compile_segments (compile_segment strict) segs t = Some (first, t') -> good t -> all inner_segment segs ->
  good t' /\ extends t t' /\ (Forall simple_segment segs -> match first with Some s => simple_seg s | None => True end) /\
  (Forall plain_segment segs -> match first with Some s => plain_seg s | None => True end) /\
  (segs = [] -> first = None) /\
  forall sing inner, covers t' sing inner -> forall x, clean x -> Forall simple_segment segs -> tame_path segs x ->
    (forall s, first = Some s -> fine_seg find sing inner s x) /\ forall l, path segs [x] l <-> l = after find sing inner first x.
Proof.
  induction segs as [|[desc sels] segs IH]; intros t first t' GG E G I; cbn [compile_segments] in E.
  { injection E as <- <-. split; [exact G|]. split; [apply extends_refl|]. split; [auto|]. split; [auto|]. split; [auto|]. intros sing inner C x CX _ _. split; [discriminate|reflexivity]. }
  inversion GG as [|? ? GS GG']; subst. destruct I as [IS II].
  destruct (compile_segments (compile_segment strict) segs t) as [[following t1]|] eqn:ER; [|discriminate]. rewrite compile_segment_eq in E.
  destruct (compile_list (compile_selector strict) sels t1) as [[l t2]|] eqn:EL; [|discriminate]. injection E as <- <-.
  destruct (IH _ _ _ GG' ER G II) as (G1 & X1 & SS & PP & NN & H1). destruct (selectors_ok _ _ _ _ GS EL G1 IS) as (G2 & X2 & RV & ON & H2).
  split; [exact G2|]. split; [eapply extends_trans; eauto|]. split; [|split; [|split; [discriminate|]]].
  - intro F. inversion F as [|? ? F1 F2]; subst. split; [intro D; apply ON, F1, D|]. specialize (SS F2). destruct following; auto.
  - intro F. inversion F as [|? ? F1 F2]; subst. split; [apply ON, F1|]. specialize (PP F2). destruct following; auto.
  - intros sing inner C x CX SF T. inversion SF as [|? ? F1 F2]; subst. cbn [tame_path] in T. destruct T as [T1 [T2 T3]].
    pose proof (covers_ext _ _ _ _ X2 C) as C1. specialize (H1 _ _ C1). specialize (H2 _ _ C). set (look := max_lookahead l) in *.
    assert (OF : desc = true -> one_forward l) by (intro D; apply ON, F1, D).
    assert (HY : forall y, (if desc then In y (descendants x) else y = x) -> (look <= max64)%Z /\
      (forall is, (exists iss, each (fun s => selects s y) sels iss /\ is = concat iss) <-> is = taken_all find sing inner l look y) /\
      (forall c z, In (SFilter c) l -> In z (children y) -> fine_cond find sing inner c z)).
    { intros y Y. assert (CY : clean y) by (destruct desc; [eapply clean_descendant; eauto|now subst]).
      assert (TY : all (fun s => tame_selector s y) sels) by (cbn [PathTame.tame_segment] in T1; destruct desc; [auto|now subst]).
      destruct (H2 y CY TY) as [L1 [L2 L3]]. split; [exact L1|]. split; [|exact L3]. apply L2. fold look. split; [apply Z.le_refl|exact L1]. }
    assert (SG := seg_nodes_ok sing inner desc sels l look x OF (fun y Y => proj1 (proj2 (HY y Y)))).
    set (g := sem_seg find sing inner (Seg l look desc strict None) x) in *.
    assert (RN : existsb sel_reverses l = true -> following = None /\ Forall scalar_node g).
    { intro R. apply RV in R. destruct (T2 R) as [-> SC]. split; [now apply NN|]. apply SC. now apply SG. }
    assert (HG : forall y, In y g -> (forall s, following = Some s -> fine_seg find sing inner s y) /\ forall r, path segs [y] r <-> r = after find sing inner following y).
    { intros y Y. apply H1; [eapply seg_clean; eauto|exact F2|]. eapply T3; [apply SG; reflexivity|exact Y]. }
    split.
    + intros s [= <-]. apply seg_fine; auto.
      * intros c y z Y J Z. exact (proj2 (proj2 (HY y Y)) c z J Z).
      * intros fs -> y Y. apply (HG y Y). reflexivity.
    + intro r. rewrite (path_cons _ _ _ _ _ _ _ SG). rewrite (path_list _ _ _ segs (after find sing inner following) g) by (intros y Y; apply (HG y Y)).
      cbn [after]. rewrite sem_following by (intro R; apply (RN R)). reflexivity.
Qed.
Lemma query_goal : forall r segs, Forall goal_g segs -> goal_q (JQuery r segs).
Proof.
  intros r segs GG t q' t' E G I. change (compile_query strict (JQuery r segs) t) with (let? (first, t1) := compile_segments (compile_segment strict) segs t in Some (QFirst first, t1)) in E.
  destruct (compile_segments (compile_segment strict) segs t) as [[first t1]|] eqn:ES; [|discriminate]. injection E as <- <-.
  destruct (path_ok _ _ _ _ GG ES G I) as (G1 & X1 & SS & PP & _ & H). split; [exact G1|]. split; [exact X1|].
  split; [intro S1; specialize (SS S1); destruct first; auto|]. split; [intro S1; specialize (PP S1); destruct first; auto|].
  intros sing inner C x CX SQ T. rewrite tame_query_path in T. cbn [start absolute] in *. unfold start, absolute in *. destruct (H _ _ C _ CX SQ T) as [H1 H2]. split.
  - destruct first as [s|]; [constructor; now apply H1|constructor].
  - intro l. rewrite nodes_path, H2. destruct first; reflexivity.
Qed.
Lemma plain_is_simple : forall q, plain q -> simple q.
Proof. intros [r segs] H. cbn [plain simple] in *. eapply Forall_impl; [|exact H]. intros [d sels] P _. exact P. Qed.

Lemma snoc_split : forall A (l : list A) b pre e post, l ++ [b] = pre ++ e :: post -> (post = [] /\ pre = l /\ e = b) \/ exists p, post = p ++ [b] /\ l = pre ++ e :: p.
Proof.
  intros A l b pre e post H. destruct (exists_last (l := e :: post)) as [p [c E]]; [discriminate|]. rewrite E, app_assoc in H. apply app_inj_tail in H as [-> <-].
  destruct p as [|e' p]; cbn [app] in E; injection E as -> ->; [left; rewrite app_nil_r; auto|right; eauto].
Qed.
Lemma inner_ok : forall q t r t', compile_inner q (compile_query strict q) t = Some (r, t') -> goal_q q -> good t -> (absolute q = true -> good_query q) -> inner_query q ->
  good t' /\ extends t t' /\ (simple q -> simple_query r) /\ (plain q -> plain_query r) /\
  forall sing inner, covers t' sing inner -> forall x, clean x -> simple q -> tame_query q x -> query_ok sing inner r x x q.
Proof.
  intros [[|] segs] t r t' E GQ G QI II.
  2:{ destruct (GQ _ _ _ E G II) as (G1 & X1 & SS & PP & H). split; [exact G1|]. split; [exact X1|]. split; [exact SS|]. split; [exact PP|].
      intros sing inner C x CX S1 T. exact (H sing inner C x CX S1 T). }
  set (q := JQuery true segs) in *. unfold compile_inner in E. unfold q in E at 1.
  assert (HIT : forall tt i cq sing inner x, nth_error (tb_inner tt) i = Some (q, cq) -> covers tt sing inner -> query_ok sing inner (QInner i) x x q).
  { intros tt i cq sing inner x N [_ C]. destruct (C _ _ N) as [l [N' H]]. cbn [fst] in H. split; [constructor; apply nth_error_Some; congruence|].
    intro l'. change (nodes q x l') with (nodes q root l'). rewrite H. change (sem_query find sing inner (QInner i) x) with (match nth_error inner i with Some l => l | None => [] end). now rewrite N'. }
  destruct (find_entry _ _ 0) as [i|] eqn:EF.
  - injection E as <- <-. apply find_entry_ok in EF as (a & b & _ & N & EQ). apply query_eqb_eq in EQ. subst a. rewrite Nat.sub_0_r in N.
    split; [exact G|]. split; [apply extends_refl|]. split; [intros; exact Logic.I|]. split; [intros; exact Logic.I|]. intros sing inner C x _ _ _. eapply HIT; eauto.
  - destruct (compile_query strict q t) as [[cq t1]|] eqn:EC; [|discriminate]. injection E as <- <-. destruct (GQ _ _ _ EC G II) as ([GS GI] & X1 & SS & _ & H).
    specialize (QI eq_refl). split; [split; [exact GS|]|].
    + cbn [tb_inner tb_sing]. intros pre e post EE. apply snoc_split in EE as [(-> & -> & ->)|[p [-> EE]]]; [|eapply GI; exact EE].
      destruct QI as [NS [SQ [TQ FT]]]. split; [reflexivity|]. split; [exact (conj NS (conj SQ (conj TQ FT)))|]. split; [now apply SS|]. cbn [fst snd].
      intros sing inner C1 C2. destruct (H sing inner (conj C1 C2) root root_clean SQ TQ) as [H1 H2]. split; assumption.
    + split; [destruct X1 as [a [b [E1 E2]]]; exists a, (b ++ [(q, cq)]); cbn [tb_sing tb_inner]; rewrite E2, app_assoc; auto|].
      split; [intros; exact Logic.I|]. split; [intros; exact Logic.I|]. intros sing inner C x _ _ _. eapply HIT; [|exact C]. cbn [tb_inner]. rewrite nth_error_app2, Nat.sub_diag by lia. reflexivity.
Qed.

(** Values. *)
Lemma lit_ok : forall sing inner s x (R : option jval -> Prop), decent s -> (forall o, R o <-> o = Some (JScalar s)) -> comp_ok sing inner (MLit s) x R.
Proof. intros sing inner s x R D H. split; [constructor|]. split; [exact H|]. now apply scalar_clean. Qed.
Lemma singular_ok : forall q t m t', compile_singular q t = (m, t') -> good t -> (match q with JSingular r l => r = true -> good_singular q end) ->
  good t' /\ extends t t' /\ (match q with JSingular r _ => r = false -> own m = true end) /\
  forall sing inner, covers t' sing inner -> forall x, clean x -> (match q with JSingular _ l => Forall safe_step l end) -> comp_ok sing inner m x (singular_node root q x).
Proof.
  intros [[|] l] t m t' E G P; cbn [compile_singular] in E.
  2:{ injection E as <- <-. split; [exact G|]. split; [apply extends_refl|]. split; [auto|]. intros sing inner C x CX SL. destruct (steps_iff l x CX SL) as [A [B D]].
      split; [now constructor|]. split; [exact A|exact D]. }
  specialize (P eq_refl). set (q := JSingular true l) in *.
  assert (HIT : forall tt i sing inner x, nth_error (tb_sing tt) i = Some (q, map compile_step l) -> covers tt sing inner -> Forall safe_step l -> comp_ok sing inner (MInner i) x (singular_node root q x)).
  { intros tt i sing inner x N [C _] SL. specialize (C _ _ N). cbn [snd] in C. destruct (steps_iff l root root_clean SL) as [A [B D]].
    split; [constructor; apply nth_error_Some; congruence|]. change (sem_comp find sing inner (MInner i) x) with (match nth_error sing i with Some o => o | None => None end). rewrite C. split; [exact A|exact D]. }
  destruct (find_entry _ _ 0) as [i|] eqn:EF.
  - injection E as <- <-. apply find_entry_ok in EF as (a & b & _ & N & EQ). apply singular_eqb_eq in EQ. subst a. rewrite Nat.sub_0_r in N.
    destruct G as [GS GI]. destruct (GS _ (nth_error_In _ _ N)) as [l' [E' _]]. injection E' as -> ->. split; [split; assumption|]. split; [apply extends_refl|]. split; [discriminate|]. intros sing inner C x _ SL. eapply HIT; eauto.
  - injection E as <- <-. destruct G as [GS GI]. split; [split|].
    + cbn [tb_sing]. intros e J. apply in_app_or in J as [J|[<-|[]]]; [auto|]. exists l. auto.
    + cbn [tb_sing tb_inner]. intros pre e post EE. apply entry_more. eapply GI; exact EE.
    + split; [exists [(q, map compile_step l)], []; cbn [tb_sing tb_inner]; rewrite app_nil_r; auto|]. split; [discriminate|]. intros sing inner C x _ SL. eapply HIT; [|exact C|exact SL].
      cbn [tb_sing]. rewrite nth_error_app2, Nat.sub_diag by lia. reflexivity.
Qed.
Lemma value_lit : forall s, goal_v (JLit s).
Proof.
  intros s t m t' [= <- <-] G I. split; [exact G|]. split; [apply extends_refl|]. intros sing inner C x CX T. apply lit_ok; [exact T|reflexivity].
Qed.
Lemma value_sing : forall q, goal_v (JSing q).
Proof.
  intros q t m t' E G I. change (compile_comparable strict (JSing q) t) with (Some (compile_singular q t)) in E. injection E as E.
  assert (P : match q with JSingular r l => r = true -> good_singular q end) by (destruct q; exact I).
  destruct (singular_ok _ _ _ _ E G P) as (G1 & X1 & _ & H). split; [exact G1|]. split; [exact X1|]. intros sing inner C x CX T. apply H; auto.
Qed.
Lemma value_call : forall f, goal_f f -> goal_v (JValueCall f).
Proof.
  intros f GF t m t' E G I. change (compile_comparable strict (JValueCall f) t) with (let? ((g, args), t1) := compile_call strict f TyValue t in Some (MFun g args, t1)) in E.
  destruct (compile_call strict f TyValue t) as [[[g args] t1]|] eqn:EC; [|discriminate]. injection E as <- <-. exact (GF TyValue _ _ _ _ EC G I).
Qed.

(** Conditions. *)
Lemma conds_ok : forall l t l' t', Forall goal_c l -> compile_list (compile_cond strict) l t = Some (l', t') -> good t -> all inner_logical l ->
  good t' /\ extends t t' /\ forall sing inner, covers t' sing inner -> forall x, clean x -> all (fun c => tame_logical c x) l ->
    Forall2 (fun c c' => fine_cond find sing inner c' x /\ (sem_cond find sing inner c' x = true <-> holds c x)) l l'.
Proof.
  intros l t l' t' F. revert t l'. induction F as [|c l GC F IH]; intros t l' E G I; cbn [compile_list] in E.
  - injection E as <- <-. split; [exact G|]. split; [apply extends_refl|]. constructor.
  - destruct (compile_cond strict c t) as [[c' t1]|] eqn:ES; [|discriminate]. destruct (compile_list _ l t1) as [[r' t2]|] eqn:EL; [|discriminate]. injection E as <- <-.
    destruct I as [I1 I2]. destruct (GC _ _ _ ES G I1) as [G1 [X1 H1]]. destruct (IH _ _ EL G1 I2) as [G2 [X2 H2]].
    split; [exact G2|]. split; [eapply extends_trans; eauto|]. intros sing inner C x CX [T1 T2]. constructor; [|now apply H2]. apply H1; auto. eapply covers_ext; eauto.
Qed.
Lemma cond_or : forall l, Forall goal_c l -> goal_c (JOr l).
Proof.
  intros l GL t c' t' E G I. change (compile_cond strict (JOr l) t) with (let? (l', t1) := compile_list (compile_cond strict) l t in Some (COr l', t1)) in E.
  destruct (compile_list _ l t) as [[l' t1]|] eqn:EL; [|discriminate]. injection E as <- <-. destruct (conds_ok _ _ _ _ GL EL G I) as [G1 [X1 H]].
  split; [exact G1|]. split; [exact X1|]. intros sing inner C x CX T. specialize (H sing inner C x CX T). split.
  - constructor. intros c J. clear - H J. induction H as [|a b l l' [A _] H IH]; [destruct J|]. destruct J as [<-|J]; auto.
  - change (sem_cond find sing inner (COr l') x) with (existsb (fun c => sem_cond find sing inner c x) l'). change (holds (JOr l) x) with (some (fun c => holds c x) l).
    clear - H. induction H as [|a b l l' [_ A] H IH]; cbn [existsb some]; [split; [discriminate|tauto]|]. rewrite orb_true_iff, A, IH. reflexivity.
Qed.
Lemma cond_and : forall l, Forall goal_c l -> goal_c (JAnd l).
Proof.
  intros l GL t c' t' E G I. change (compile_cond strict (JAnd l) t) with (let? (l', t1) := compile_list (compile_cond strict) l t in Some (CAnd l', t1)) in E.
  destruct (compile_list _ l t) as [[l' t1]|] eqn:EL; [|discriminate]. injection E as <- <-. destruct (conds_ok _ _ _ _ GL EL G I) as [G1 [X1 H]].
  split; [exact G1|]. split; [exact X1|]. intros sing inner C x CX T. specialize (H sing inner C x CX T). split.
  - constructor. intros c J. clear - H J. induction H as [|a b l l' [A _] H IH]; [destruct J|]. destruct J as [<-|J]; auto.
  - change (sem_cond find sing inner (CAnd l') x) with (forallb (fun c => sem_cond find sing inner c x) l'). change (holds (JAnd l) x) with (all (fun c => holds c x) l).
    clear - H. induction H as [|a b l l' [_ A] H IH]; cbn [forallb all]; [tauto|]. rewrite andb_true_iff, A, IH. reflexivity.
Qed.
Lemma cond_not : forall c, goal_c c -> goal_c (JNot c).
Proof.
  intros c GC t c' t' E G I. change (compile_cond strict (JNot c) t) with (let? (d, t1) := compile_cond strict c t in Some (CNot d, t1)) in E.
  destruct (compile_cond strict c t) as [[d t1]|] eqn:EL; [|discriminate]. injection E as <- <-. destruct (GC _ _ _ EL G I) as [G1 [X1 H]].
  split; [exact G1|]. split; [exact X1|]. intros sing inner C x CX T. destruct (H sing inner C x CX T) as [A B]. split; [now constructor|].
  change (sem_cond find sing inner (CNot d) x) with (negb (sem_cond find sing inner d x)). change (holds (JNot c) x) with (~ holds c x). rewrite <- B. destruct (sem_cond find sing inner d x); cbn; split; congruence.
Qed.
Lemma comp_fine : forall sing inner a b x R S eq lt neg, comp_ok sing inner a x R -> comp_ok sing inner b x S -> fine_cond find sing inner (CComp a eq lt neg b) x.
Proof.
  intros sing inner a b x R S0 eq lt neg [A1 [A2 A3]] [B1 [B2 B3]]. constructor; auto; intros _; [now apply good_eq_fine|now apply good_less_fine].
Qed.
Lemma value_sym : forall s t, same_scalar_value s t -> same_scalar_value t s.
Proof.
  intros s t [T H]. split; [now symmetry|]. rewrite <- T. destruct (sc_type s); auto.
  - destruct H as (n & m & e & n' & m' & e' & A & B & E). exists n', m', e', n, m, e. auto.
  - destruct H as (c & c' & u & A & B & D & D'). exists c', c, u. auto.
Qed.
Lemma members_perm : forall R l l2, Permutation l l2 -> forall m, same_members R l m -> exists m', Permutation m m' /\ same_members R l2 m'.
Proof.
  induction 1 as [|[k x] l l' P IH|[k x] [k' y] l|l l' l'' P1 IH1 P2 IH2]; intros m M.
  - exists m. auto.
  - inversion M as [|? ? j z ? m1 A B M']; subst. destruct (IH m1 M') as [m' [Q N]]. exists ((j, z) :: m'). split; [now constructor|now constructor].
  - inversion M as [|? ? j z ? m1 A B M']; subst. inversion M' as [|? ? j' z' ? m2 A' B' M'']; subst. exists ((j', z') :: (j, z) :: m2). split; [constructor|constructor; auto; constructor; auto].
  - destruct (IH1 m M) as [m1 [Q1 N1]]. destruct (IH2 m1 N1) as [m2 [Q2 N2]]. exists m2. split; [eapply Permutation_trans; eauto|exact N2].
Qed.
Lemma same_sym1 : forall x y, same x y -> same y x.
Proof.
  induction x as [s|l e IH|l e IH] using jval_induction; intros y H; inversion H as [? t R|? ? l2 e2 I|? ? l2 e2 l' P M]; subst; clear H.
  - constructor. now apply value_sym.
  - constructor. revert l2 I. induction IH as [|x l HX IH IH2]; intros l2 I; inversion I; subst; constructor; auto. now apply HX.
  - assert (M2 : same_members same_scalar_value l' l).
    { clear P. revert l' M. induction IH as [|[k x] l HX IH IH2]; intros l' M; inversion M; subst; constructor; auto; [now apply value_sym|now apply HX]. }
    destruct (members_perm _ _ _ P _ M2) as [m' [Q N]]. eapply same_object; [|exact N]. now apply Permutation_sym.
Qed.
Lemma same_sym : forall u v, equal_values u v <-> equal_values v u.
Proof. intros [x|] [y|]; cbn; try tauto. split; apply same_sym1. Qed.
Lemma cond_cmp : forall a op b, goal_v a -> goal_v b -> goal_c (JCompare a op b).
Proof.
  intros a op b GA GB t c' t' E G I. change (compile_cond strict (JCompare a op b) t) with
    (let? (a', t1) := compile_comparable strict a t in let? (b', t2) := compile_comparable strict b t1 in
     let '(eq, lt, neg, swap) := op_flags op in Some (if swap then CComp b' eq lt neg a' else CComp a' eq lt neg b', t2)) in E.
  destruct (compile_comparable strict a t) as [[a' t1]|] eqn:EA; [|discriminate]. destruct (compile_comparable strict b t1) as [[b' t2]|] eqn:EB; [|discriminate].
  destruct I as [IA IB]. destruct (GA _ _ _ EA G IA) as [G1 [X1 HA]]. destruct (GB _ _ _ EB G1 IB) as [G2 [X2 HB]].
  assert (Et : t2 = t') by (destruct op; cbn in E; congruence). subst t'. split; [exact G2|]. split; [eapply extends_trans; eauto|]. intros sing inner C x CX [TA TB].
  specialize (HA sing inner (covers_ext _ _ _ _ X2 C) x CX TA). specialize (HB sing inner C x CX TB). split.
  { destruct op; injection E as <-; eapply comp_fine; eauto. }
  destruct HA as [_ [HA GVA]], HB as [_ [HB GVB]].
  assert (HV : holds (JCompare a op b) x <-> compares (sem_comp find sing inner a' x) op (sem_comp find sing inner b' x)).
  { change (holds (JCompare a op b) x) with (exists u v, value a x u /\ value b x v /\ compares u op v). split.
    - intros (u & v & U & V & K). apply HA in U. apply HB in V. now subst.
    - intro K. exists (sem_comp find sing inner a' x), (sem_comp find sing inner b' x). split; [now apply HA|]. split; [now apply HB|exact K]. }
  rewrite HV. clear HV HA HB.
  destruct op; injection E as <-;
    match goal with |- sem_cond _ _ _ (CComp ?p ?eq ?lt ?neg ?q) _ = _ <-> _ =>
      change (sem_cond find sing inner (CComp p eq lt neg q) x) with (xorb ((if eq then oeq (sem_comp find sing inner p x) (sem_comp find sing inner q x) else false) || (if lt then oless (sem_comp find sing inner p x) (sem_comp find sing inner q x) else false)) neg) end;
    generalize dependent (sem_comp find sing inner a' x); intros u GU; generalize dependent (sem_comp find sing inner b' x); intros v GV;
    cbn [compares]; rewrite ?xorb_false_r, ?orb_false_r, ?orb_true_iff, ?(oeq_iff u v), ?(oeq_iff v u), ?(oless_iff u v), ?(oless_iff v u) by assumption; try tauto.
  - rewrite xorb_true_r, <- (oeq_iff u v) by assumption. destruct (oeq u v); cbn; split; congruence.
  - rewrite (same_sym v u). tauto.
  - split; [intros [K|K]; [discriminate K|exact K]|intro K; right; exact K].
  - split; [intros [K|K]; [discriminate K|exact K]|intro K; right; exact K].
Qed.
Lemma cond_test : forall q, goal_q q -> goal_c (JTest q).
Proof.
  intros q GQ t c' t' E G I. change (compile_cond strict (JTest q) t) with (let? (r, t1) := compile_inner q (compile_query strict q) t in Some (CQuery r, t1)) in E.
  destruct (compile_inner q (compile_query strict q) t) as [[r t1]|] eqn:EI; [|discriminate]. injection E as <- <-. destruct I as [I1 I2].
  destruct (inner_ok _ _ _ _ EI GQ G I1 I2) as (G1 & X1 & _ & PP & H). split; [exact G1|]. split; [exact X1|]. intros sing inner C x CX [PQ T].
  destruct (H sing inner C x CX (plain_is_simple q PQ) T) as [A B]. split; [constructor; auto|].
  change (sem_cond find sing inner (CQuery r) x) with (match sem_query find sing inner r x with [] => false | _ => true end). change (holds (JTest q) x) with (exists y l, nodes q x (y :: l)).
  destruct (sem_query find sing inner r x) as [|y l] eqn:ER; (split; [intro K|intros (y' & l' & K)]).
  - discriminate.
  - apply B in K. discriminate.
  - exists y, l. now apply B.
  - reflexivity.
Qed.
Lemma cond_call : forall f, goal_f f -> goal_c (JTestCall f).
Proof.
  intros f GF t m t' E G I. change (compile_cond strict (JTestCall f) t) with (let? ((g, args), t1) := compile_call strict f TyLogical t in Some (CFun g args, t1)) in E.
  destruct (compile_call strict f TyLogical t) as [[[g args] t1]|] eqn:EC; [|discriminate]. injection E as <- <-. exact (GF TyLogical _ _ _ _ EC G I).
Qed.

(** The nodes of a query on clean values are clean. *)
Lemma walk_sub : forall R x l, walk R x l -> forall y, In y l -> In y (flat_map children (descendants x)).
Proof.
  intros R x. induction x as [x IH] using children_ind. intros l W y J. inversion W as [? is below K F]; subst. rewrite descendants_eq. cbn [flat_map]. apply in_or_app.
  assert (LN : length below = length (children x)) by (clear - F; induction F; cbn; congruence).
  apply merge_in in J; [|exact LN]. destruct J as [J|J]; [now left|right]. rewrite flat_map_flat. clear LN W. induction F as [|z b zs bs WZ F IHF]; [destruct J|]. cbn [concat flat_map] in *. apply in_or_app.
  apply in_app_or in J as [J|J]; [left; eapply IH; eauto; now left|right; apply IHF; [intros z' Z; apply IH; now right|exact J]].
Qed.
Lemma segment_clean : forall seg x l, clean x -> segment_nodes seg x l -> Forall clean l.
Proof.
  intros [desc sels] x l C H. apply Forall_forall. intros y Y.
  assert (S1 : In y (flat_map children (descendants x))).
  { cbn [PathSpec.segment_nodes] in H. destruct desc; [destruct strict|].
    - destruct H as [ls [F ->]]. clear C. induction F as [|z b zs bs [is [_ ->]] F IHF]; [destruct Y|]. cbn [concat flat_map] in *. apply in_or_app.
      apply in_app_or in Y as [Y|Y]; [left; eapply pick_in; exact Y|right; auto].
    - eapply walk_sub; eauto.
    - destruct H as [is [_ ->]]. rewrite descendants_eq. cbn [flat_map]. apply in_or_app. left. eapply pick_in; exact Y. }
  apply in_flat_map in S1 as [z [Z J]]. eapply clean_child; [|exact J]. eapply clean_descendant; eauto.
Qed.
Lemma path_clean : forall segs xs l, Forall clean xs -> path segs xs l -> Forall clean l.
Proof.
  induction segs as [|seg segs IH]; intros xs l C H; cbn [PathStep.path] in H; [now subst|]. destruct H as [ls [F H]]. eapply IH; [|exact H].
  clear H. induction F as [|x b xs bs HX F IHF]; [constructor|]. inversion C; subst. cbn [concat]. apply Forall_app. split; [eapply segment_clean; eauto|auto].
Qed.
Lemma nodes_clean : forall q x l, clean x -> nodes q x l -> Forall clean l.
Proof. intros [r segs] x l C H. rewrite nodes_path in H. eapply path_clean; [|exact H]. constructor; [destruct r; assumption|constructor]. Qed.

(** Arguments and functions. *)
Lemma steps_same : forall segs, as_steps segs = singular_steps segs.
Proof.
  induction segs as [|[[|] sels] segs IH]; [reflexivity| |]; cbn [as_steps singular_steps]; [reflexivity|].
  destruct sels as [|[n| |i|? ? ?|?] [|]]; try reflexivity; rewrite IH; destruct (singular_steps segs); reflexivity.
Qed.
Lemma arg_lit : forall s, goal_a (JArgLit s).
Proof.
  intro s. split; intros t a' t' E G I.
  - injection E as <- <-. split; [exact G|]. split; [apply extends_refl|]. exists (MLit s). split; [reflexivity|]. split; [intros []|]. intros sing inner C x CX T. apply lit_ok; [exact T|reflexivity].
  - discriminate E.
Qed.
Lemma arg_query : forall q, goal_q q -> goal_a (JArgQuery q).
Proof.
  intros q GQ. split; intros t a' t' E G I.
  - change (compile_arg strict (JArgQuery q) TyValue t) with (match as_singular q with Some sq => let '(m, t1) := compile_singular sq t in Some (AVal m, t1) | None => None end) in E.
    destruct q as [r segs]. cbn [as_singular] in E. destruct (as_steps segs) as [l|] eqn:ES; [|discriminate]. destruct (compile_singular (JSingular r l) t) as [m t1] eqn:EC. injection E as <- <-.
    assert (P : r = true -> good_singular (JSingular r l)) by (intros ->; apply I; now rewrite <- steps_same).
    destruct (singular_ok _ _ _ _ EC G P) as (G1 & X1 & OW & H). split; [exact G1|]. split; [exact X1|]. exists m. split; [reflexivity|].
    split; [destruct r; [intros []|intros _; now apply OW]|]. intros sing inner C x CX [_ T]. rewrite <- steps_same in T. specialize (T l ES).
    destruct (H sing inner C x CX T) as [A [B D]]. split; [exact A|]. split; [|exact D]. intro o. rewrite <- (B o).
    assert (CS : clean (if r then root else x)) by (destruct r; assumption).
    change (arg_value (JArgQuery (JQuery r segs)) x o) with (nodes (JQuery r segs) x [] /\ o = None \/ exists y, nodes (JQuery r segs) x [y] /\ o = Some y).
    change (singular_node root (JSingular r l) x o) with (steps l (if r then root else x) o). rewrite nodes_path.
    rewrite (singular_path matches strict root segs l _ ES CS T). setoid_rewrite (singular_path matches strict root segs l _ ES CS T).
    rewrite (proj1 (steps_iff l _ CS T)). destruct (singular (map compile_step l) (if r then root else x)) as [y|]; cbn [olist]; split.
    + intros [[K _]|[y' [K ->]]]; [discriminate|congruence].
    + intros ->. right. exists y. auto.
    + intros [[_ ->]|[y' [K ->]]]; [reflexivity|discriminate].
    + intros ->. left. auto.
  - change (compile_arg strict (JArgQuery q) TyNodes t) with (let? (r, t1) := compile_inner q (compile_query strict q) t in Some (ANodes r, t1)) in E.
    destruct (compile_inner q (compile_query strict q) t) as [[r t1]|] eqn:EI; [|discriminate]. injection E as <- <-. destruct I as [I1 I2].
    destruct (inner_ok _ _ _ _ EI GQ G I1 I2) as (G1 & X1 & SS & PP & H). split; [exact G1|]. split; [exact X1|]. exists q, r. split; [reflexivity|]. split; [reflexivity|]. split; [exact SS|]. split; [exact PP|].
    intros sing inner C x CX SQ [T _]. now apply H.
Qed.
Lemma arg_logical : forall c, goal_a (JArgLogical c).
Proof. intro c. split; intros t a' t' E G I; discriminate E. Qed.
Lemma arg_call : forall f, goal_f f -> goal_a (JArgCall f).
Proof.
  intros f GF. split; intros t a' t' E G I.
  - change (compile_arg strict (JArgCall f) TyValue t) with (let? ((g, args), t1) := compile_call strict f TyValue t in Some (AVal (MFun g args), t1)) in E.
    destruct (compile_call strict f TyValue t) as [[[g args] t1]|] eqn:EC; [|discriminate]. injection E as <- <-. destruct (GF TyValue _ _ _ _ EC G I) as [G1 [X1 H]].
    split; [exact G1|]. split; [exact X1|]. exists (MFun g args). split; [reflexivity|]. split; [intros []|exact H].
  - change (compile_arg strict (JArgCall f) TyNodes t) with (let? ((g, args), t1) := compile_call strict f TyNodes t in @None (arg * tables)) in E.
    destruct (compile_call strict f TyNodes t) as [[[g args] t1]|]; discriminate.
Qed.

Lemma lookup_name : forall name g, lookup name = Some g ->
  name = match g with FLength => n_length | FCount => n_count | FMatch => n_match | FSearch => n_search | FValue => n_value end.
Proof.
  intros name g H. unfold lookup in H.
  destruct (bytes_eqb name n_length) eqn:E; [injection H as <-; now apply bytes_eqb_eq|clear E]. destruct (bytes_eqb name n_count) eqn:E; [injection H as <-; now apply bytes_eqb_eq|clear E].
  destruct (bytes_eqb name n_match) eqn:E; [injection H as <-; now apply bytes_eqb_eq|clear E]. destruct (bytes_eqb name n_search) eqn:E; [injection H as <-; now apply bytes_eqb_eq|clear E].
  destruct (bytes_eqb name n_value) eqn:E; [injection H as <-; now apply bytes_eqb_eq|discriminate].
Qed.
Lemma call_goal : forall name args, Forall goal_a args -> goal_f (JCall name args).
Proof.
  intros name args GA ty t g args' t' E G I. change (compile_call strict (JCall name args) ty t) with
    (match lookup name with
     | None => None
     | Some g => if negb (converts_to (output_type g) ty) then None else if negb (length args =? length (input_types g))%nat then None
                 else let? (l, t1) := compile_args (compile_arg strict) args (input_types g) t in Some ((g, l), t1)
     end) in E.
  destruct (lookup name) as [g0|] eqn:EL; [|discriminate]. destruct (converts_to (output_type g0) ty) eqn:EC; cbn [negb] in E; [|discriminate].
  destruct (length args =? length (input_types g0))%nat eqn:EN; cbn [negb] in E; [|discriminate]. apply Nat.eqb_eq in EN.
  destruct (compile_args (compile_arg strict) args (input_types g0) t) as [[l t1]|] eqn:EA; [|discriminate]. injection E as <- <- <-.
  apply lookup_name in EL. change (inner_call (JCall name args)) with (all (inner_arg (takes_nodes name)) args) in I.
  destruct g0.
  - (* length *) subst name. destruct args as [|a [|]]; try discriminate. assert (ty = TyValue) as -> by (destruct ty; try discriminate; reflexivity).
    cbn [input_types compile_args] in EA. destruct (compile_arg strict a TyValue t) as [[a' t2]|] eqn:E1; [|discriminate]. injection EA as <- <-.
    inversion GA as [|? ? [GV _] _]; subst. destruct I as [I _]. destruct (GV _ _ _ E1 G I) as (G1 & X1 & m & -> & OW & H). split; [exact G1|]. split; [exact X1|].
    intros sing inner C x CX [[TA _] [TL _]]. specialize (TL eq_refl). destruct (H sing inner C x CX TA) as [A [B D]].
    specialize (TL _ (proj2 (B _) eq_refl)). set (v := sem_comp find sing inner m x) in *.
    assert (NO : forall l e, v = Some (JObj l e) -> l = []) by (intros l e EV; rewrite EV in TL; apply TL).
    split; [constructor|split].
    + exact A.
    + fold v. destruct v as [[s|l e|l e]|]; [right; exact Logic.I|left; now apply OW|left; apply OW; apply TL|right; exact Logic.I].
    + now apply good_text_fine.
    + intro o. change (sem_comp find sing inner (MFun FLength [AVal m]) x) with (length_of v). rewrite <- (length_iff v o D NO).
      change (call_value (JCall n_length [a]) x o) with ((n_length = n_length /\ exists v, arg_value a x v /\ length_value v o) \/ (n_length = n_count /\ exists l, arg_nodes a x l /\ o = Some (number (length l))) \/
            (n_length = n_value /\ exists l, arg_nodes a x l /\ o = match l with [y] => Some y | _ => None end)). split.
      * intros [[_ [v' [V L]]]|[[K _]|[K _]]]; [|discriminate|discriminate]. apply B in V. now subst v'.
      * intro L. left. split; [reflexivity|]. exists v. split; [now apply B|exact L].
    + change (sem_comp find sing inner (MFun FLength [AVal m]) x) with (length_of v). apply length_good; [exact D|]. intros s u EV. rewrite EV in TL. apply TL.
  - (* count *) subst name. destruct args as [|a [|]]; try discriminate. assert (ty = TyValue) as -> by (destruct ty; try discriminate; reflexivity).
    cbn [input_types compile_args] in EA. destruct (compile_arg strict a TyNodes t) as [[a' t2]|] eqn:E1; [|discriminate]. injection EA as <- <-.
    inversion GA as [|? ? [_ GV] _]; subst. destruct I as [I _]. destruct (GV _ _ _ E1 G I) as (G1 & X1 & q & q' & -> & -> & SS & PP & H). split; [exact G1|]. split; [exact X1|].
    intros sing inner C x CX [[TA _] [_ [TL _]]]. destruct (TL eq_refl) as [SQ TC]. destruct (H sing inner C x CX SQ TA) as [A B].
    change (PathSpec.arg_nodes matches strict root (JArgQuery q) x) with (nodes q x) in TC. specialize (TC _ (proj2 (B _) eq_refl)). set (r := sem_query find sing inner q' x) in *.
    split; [constructor; auto|]. change (sem_comp find sing inner (MFun FCount [ANodes q']) x) with (Some (count_of r)). split; [|now apply count_good].
    intro o. change (call_value (JCall n_count [JArgQuery q]) x o) with ((n_count = n_length /\ exists v, arg_value (JArgQuery q) x v /\ length_value v o) \/ (n_count = n_count /\ exists l, nodes q x l /\ o = Some (number (length l))) \/
            (n_count = n_value /\ exists l, nodes q x l /\ o = match l with [y] => Some y | _ => None end)). split.
    + intros [[K _]|[[_ [l [N L]]]|[K _]]]; [discriminate| |discriminate]. apply B in N. now subst l.
    + intros ->. right. left. split; [reflexivity|]. exists r. split; [now apply B|reflexivity].
  - (* match *) subst name. destruct args as [|a [|b [|]]]; try discriminate. assert (ty = TyLogical) as -> by (destruct ty; try discriminate; reflexivity).
    cbn [input_types compile_args] in EA. destruct (compile_arg strict a TyValue t) as [[a' t2]|] eqn:E1; [|discriminate]. destruct (compile_arg strict b TyValue t2) as [[b' t3]|] eqn:E2; [|discriminate]. injection EA as <- <-.
    inversion GA as [|? ? [GV _] GA']; subst. inversion GA' as [|? ? [GW _] _]; subst. destruct I as [I1 [I2 _]].
    destruct (GV _ _ _ E1 G I1) as (G1 & X1 & m & -> & _ & H1). destruct (GW _ _ _ E2 G1 I2) as (G2 & X2 & m2 & -> & _ & H2). split; [exact G2|]. split; [eapply extends_trans; eauto|].
    intros sing inner C x CX [[TA [TB _]] TM]. destruct (H1 sing inner (covers_ext _ _ _ _ X2 C) x CX TA) as [A1 [B1 D1]]. destruct (H2 sing inner C x CX TB) as [A2 [B2 D2]].
    set (u := sem_comp find sing inner m x) in *. set (v := sem_comp find sing inner m2 x) in *.
    assert (TM' : forall t p, text_of u t -> text_of v p -> find p t = Some (0, length t) <-> matches p t).
    { intros tt p U V. apply (TM u v tt p (proj2 (B1 _) eq_refl) (proj2 (B2 _) eq_refl) U V). reflexivity. }
    clear TM. destruct (located_eq find u v D1 D2) as [r [LR LC]]. split; [eapply fine_text; eauto; fail|].
    change (sem_cond find sing inner (CFun FMatch [AVal m; AVal m2]) x) with (match located find u v with Some (i, j) => (i =? 0)%nat && (j =? 0)%Z | None => false end).
    change (call_holds (JCall n_match [a; b]) x) with (exists u v, arg_value a x u /\ arg_value b x v /\ (n_match = n_match /\ full_match matches u v \/ n_match = n_search /\ part_match matches u v)).
    unfold located. rewrite LR.
    assert (HH : (exists u0 v0, arg_value a x u0 /\ arg_value b x v0 /\ (n_match = n_match /\ full_match matches u0 v0 \/ n_match = n_search /\ part_match matches u0 v0)) <-> full_match matches u v).
    { split.
      - intros (u' & v' & U & V & [[K M]|[K M]]); apply B1 in U; apply B2 in V; subst; [exact M|discriminate K].
      - intro M. exists u, v. split; [now apply B1|]. split; [now apply B2|]. auto. }
    rewrite HH. clear HH. destruct LC as [(tt & p & U & V & ->)|[NO ->]].
    + transitivity (find p tt = Some (0, length tt)).
      * destruct (find p tt) as [[i j]|]; [|split; discriminate]. rewrite andb_true_iff, Nat.eqb_eq, Z.eqb_eq. split; [intros [-> E]; do 2 f_equal; lia|intros [= -> ->]; lia].
      * rewrite (TM' tt p U V). split; [intro M; exists tt, p; auto|]. intros (t' & p' & U' & V' & M). now rewrite (text_unique find _ _ _ U U'), (text_unique find _ _ _ V V').
    + split; [discriminate|]. intros (t' & p' & U' & V' & M). destruct (NO _ _ U' V').
  - (* search *) subst name. destruct args as [|a [|b [|]]]; try discriminate. assert (ty = TyLogical) as -> by (destruct ty; try discriminate; reflexivity).
    cbn [input_types compile_args] in EA. destruct (compile_arg strict a TyValue t) as [[a' t2]|] eqn:E1; [|discriminate]. destruct (compile_arg strict b TyValue t2) as [[b' t3]|] eqn:E2; [|discriminate]. injection EA as <- <-.
    inversion GA as [|? ? [GV _] GA']; subst. inversion GA' as [|? ? [GW _] _]; subst. destruct I as [I1 [I2 _]].
    destruct (GV _ _ _ E1 G I1) as (G1 & X1 & m & -> & _ & H1). destruct (GW _ _ _ E2 G1 I2) as (G2 & X2 & m2 & -> & _ & H2). split; [exact G2|]. split; [eapply extends_trans; eauto|].
    intros sing inner C x CX [[TA [TB _]] TM]. destruct (H1 sing inner (covers_ext _ _ _ _ X2 C) x CX TA) as [A1 [B1 D1]]. destruct (H2 sing inner C x CX TB) as [A2 [B2 D2]].
    set (u := sem_comp find sing inner m x) in *. set (v := sem_comp find sing inner m2 x) in *.
    assert (TM' : forall t p, text_of u t -> text_of v p -> find p t <> None <-> exists t1 t2 t3, t = t1 ++ t2 ++ t3 /\ matches p t2).
    { intros tt p U V. apply (TM u v tt p (proj2 (B1 _) eq_refl) (proj2 (B2 _) eq_refl) U V). reflexivity. }
    clear TM. destruct (located_eq find u v D1 D2) as [r [LR LC]]. split; [eapply fine_text; eauto; fail|].
    change (sem_cond find sing inner (CFun FSearch [AVal m; AVal m2]) x) with (match located find u v with Some _ => true | None => false end).
    change (call_holds (JCall n_search [a; b]) x) with (exists u v, arg_value a x u /\ arg_value b x v /\ (n_search = n_match /\ full_match matches u v \/ n_search = n_search /\ part_match matches u v)).
    unfold located. rewrite LR.
    assert (HH : (exists u0 v0, arg_value a x u0 /\ arg_value b x v0 /\ (n_search = n_match /\ full_match matches u0 v0 \/ n_search = n_search /\ part_match matches u0 v0)) <-> part_match matches u v).
    { split.
      - intros (u' & v' & U & V & [[K M]|[K M]]); apply B1 in U; apply B2 in V; subst; [discriminate K|exact M].
      - intro M. exists u, v. split; [now apply B1|]. split; [now apply B2|]. auto. }
    rewrite HH. clear HH. destruct LC as [(tt & p & U & V & ->)|[NO ->]].
    + transitivity (find p tt <> None).
      * destruct (find p tt) as [[i j]|]; split; congruence.
      * rewrite (TM' tt p U V). split.
        -- intros (t1 & t2' & t3' & -> & M). exists t1, t2', t3', p. auto.
        -- intros (t1 & t2' & t3' & p' & U' & V' & M). exists t1, t2', t3'. rewrite (text_unique find _ _ _ V V'). split; [exact (text_unique find _ _ _ U U')|exact M].
    + split; [discriminate|]. intros (t1 & t2' & t3' & p' & U' & V' & M). destruct (NO _ _ U' V').
  - (* value *) subst name. destruct args as [|a [|]]; try discriminate. assert (ty = TyValue) as -> by (destruct ty; try discriminate; reflexivity).
    cbn [input_types compile_args] in EA. destruct (compile_arg strict a TyNodes t) as [[a' t2]|] eqn:E1; [|discriminate]. injection EA as <- <-.
    inversion GA as [|? ? [_ GV] _]; subst. destruct I as [I _]. destruct (GV _ _ _ E1 G I) as (G1 & X1 & q & q' & -> & -> & SS & PP & H). split; [exact G1|]. split; [exact X1|].
    intros sing inner C x CX [[TA _] [_ [_ TL]]]. destruct (TL eq_refl) as [PQ TC]. destruct (H sing inner C x CX (plain_is_simple q PQ) TA) as [A B].
    change (PathSpec.arg_nodes matches strict root (JArgQuery q) x) with (nodes q x) in TC.
    set (r := sem_query find sing inner q' x) in *.
    assert (SC : forall y, r = [y] -> scalar_node y) by (intros y EY; apply TC, B; now rewrite EY).
    split; [constructor; auto; fold r; intros y EY; specialize (SC y EY); destruct y; try destruct SC; exact Logic.I|].
    assert (EV : sem_comp find sing inner (MFun FValue [ANodes q']) x = match r with [y] => Some y | _ => None end).
    { change (sem_comp find sing inner (MFun FValue [ANodes q']) x) with (match sem_function find FValue [SNodes r] with SVal o => o | _ => None end). destruct r as [|y [|]]; reflexivity. }
    rewrite EV. split.
    + intro o. change (call_value (JCall n_value [JArgQuery q]) x o) with ((n_value = n_length /\ exists v, arg_value (JArgQuery q) x v /\ length_value v o) \/ (n_value = n_count /\ exists l, nodes q x l /\ o = Some (number (length l))) \/
            (n_value = n_value /\ exists l, nodes q x l /\ o = match l with [y] => Some y | _ => None end)). split.
      * intros [[K _]|[[K _]|[_ [l [N L]]]]]; [discriminate|discriminate|]. apply B in N. now subst l.
      * intros ->. right. right. split; [reflexivity|]. exists r. split; [now apply B|reflexivity].
    + pose proof (nodes_clean q x r CX (proj2 (B _) eq_refl)) as F. destruct r as [|y [|]]; try exact Logic.I. now inversion F.
Qed.

Theorem all_goals : (forall q, goal_q q) /\ (forall g, goal_g g) /\ (forall s, goal_s s) /\ (forall c, goal_c c) /\ (forall v, goal_v v) /\ (forall f, goal_f f) /\ (forall a, goal_a a).
Proof.
  apply path_ind; auto using query_goal, selector_name, selector_wild, selector_index, selector_slice, selector_filter, cond_or, cond_and, cond_not, cond_cmp, cond_test, cond_call,
    value_lit, value_sing, value_call, call_goal, arg_lit, arg_query, arg_logical, arg_call.
Qed.
End Rfc.

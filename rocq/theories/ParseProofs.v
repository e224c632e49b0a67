(** The parser finds every query of the grammar. *)
From Coq Require Import List NArith ZArith Bool Arith Lia.
From Verif Require Import Base GrammarModel GrammarInd LexModel ParseModel QuerySyntax SyntaxSim SyntaxTokens.

Local Notation xq := (x_query single noblank marked).
Local Notation xg := (x_segment single noblank marked).
Local Notation xs := (x_selector single noblank marked).
Local Notation xo := (x_or single noblank marked).
Local Notation xd := (x_and single noblank marked).
Local Notation xb := (x_basic single noblank marked).
Local Notation xv := (x_comparable single noblank marked).
Local Notation xf := (x_call single noblank marked).
Local Notation xa := (x_argument single noblank marked).

(** What comes after an expression. *)
Definition stops (l : list bytes) (r : list lextok) : Prop := r = [] \/ exists t r', r = (LxOp, t) :: r' /\ In t l.
Definition stop_or : list lextok -> Prop := stops [op_close; op_close_square; op_comma].
Definition stop_and : list lextok -> Prop := stops [op_close; op_close_square; op_comma; op_or].
Definition stop_basic : list lextok -> Prop := stops [op_close; op_close_square; op_comma; op_or; op_and].
Definition stop_val (r : list lextok) : Prop := stop_basic r \/ exists t r', r = (LxCmp, t) :: r'.
Lemma stops_sub : forall l l' r, incl l l' -> stops l r -> stops l' r.
Proof. intros l l' r I [->|(t & r' & -> & T)]; [now left|right]. exists t, r'. split; [reflexivity|now apply I]. Qed.
Lemma or_and : forall r, stop_or r -> stop_and r.
Proof. intro r. apply stops_sub. intros t H. cbn in *. tauto. Qed.
Lemma and_basic : forall r, stop_and r -> stop_basic r.
Proof. intro r. apply stops_sub. intros t H. cbn in *. tauto. Qed.
Lemma basic_val : forall r, stop_basic r -> stop_val r.
Proof. intros r H. now left. Qed.
Ltac stop H := destruct H as [->|(?t & ?r & -> & H)]; [|cbn [In] in H; repeat destruct H as [<-|H]; try contradiction].

Lemma many_ok : forall A (p : parser A) (f : A -> @lang lextok) (fol : list lextok -> Prop) rest l ts k,
  Forall (fun x => forall us r, (length us <= length ts)%nat -> f x us -> fol r -> p (us ++ r) = POk x r /\ us <> [] /\ fol (us ++ r)) l ->
  p rest = PFail -> fol rest -> every f l ts -> (length ts < k)%nat -> pmany_n p k (ts ++ rest) = POk l rest /\ fol (ts ++ rest).
Proof.
  intros A p f fol rest l. induction l as [|x l IH]; intros ts k F P R E K; (destruct k as [|k]; [lia|]); cbn [every] in E.
  - unfold nothing in E. subst ts. cbn [app pmany_n]. now rewrite P.
  - destruct E as (us & vs & -> & U & V). inversion F as [|? ? X F']; subst. rewrite app_length in *.
    destruct (IH vs k) as [Q FL]; try assumption.
    + eapply Forall_impl; [|exact F']. intros z Z ws r L. apply Z. lia.
    + destruct (X us (vs ++ rest)) as (_ & N & _); [lia|exact U| |].
      * clear - IH F' R V P. destruct (IH vs (S (length vs))) as [_ H]; try assumption; [|lia]. eapply Forall_impl; [|exact F']. intros z Z ws r L. apply Z. lia.
      * destruct us; [congruence|]. cbn in K. lia.
    + destruct (X us (vs ++ rest)) as (Y & N & FO); [lia|exact U|exact FL|]. rewrite <- app_assoc. cbn [pmany_n]. rewrite Y. cbn [pbind]. rewrite Q. now split.
Qed.
Lemma many_all : forall A (p : parser A) (f : A -> @lang lextok) (fol : list lextok -> Prop) rest l ts,
  Forall (fun x => forall us r, (length us <= length ts)%nat -> f x us -> fol r -> p (us ++ r) = POk x r /\ us <> [] /\ fol (us ++ r)) l ->
  p rest = PFail -> fol rest -> every f l ts -> pmany p (ts ++ rest) = POk l rest /\ fol (ts ++ rest).
Proof. intros A p f fol rest l ts F P R E. unfold pmany. apply (many_ok A p f fol rest l ts); try assumption. rewrite app_length. lia. Qed.

Lemma pbind_ok : forall A B (m : presult A) (f : A -> list lextok -> presult B) a r v, m = POk a r -> f a r = v -> pbind m f = v.
Proof. intros A B m f a r v -> H. exact H. Qed.
Lemma string_ok : forall s ts rest, x_string single s ts -> p_string (ts ++ rest) = POk s rest.
Proof. intros [t|t] ts rest H; cbn [x_string] in H; inv_lang; reflexivity. Qed.
Lemma literal_ok : forall l ts rest, x_literal single l ts -> p_literal (ts ++ rest) = POk l rest.
Proof. intros [t|[t|t]|[|]|] ts rest H; cbn [x_literal x_string] in H; inv_lang; reflexivity. Qed.
Lemma step_ok : forall s ts rest, x_step single s ts -> p_step (ts ++ rest) = POk s rest.
Proof. intros [[t|t]|t|t] ts rest H; cbn [x_step x_string] in H; inv_lang; reflexivity. Qed.
Lemma step_stop : forall rest, stop_val rest -> p_step rest = PFail.
Proof. intros rest [H|(t & r & ->)]; [|reflexivity]. stop H; reflexivity. Qed.
Lemma slice_ok : forall a b c ts rest, xs (GSlice a b c) ts -> stop_or rest -> p_slice (ts ++ rest) = POk (GSlice a b c) rest.
Proof.
  intros a b c ts rest H S. autorewrite with rules in H.
  destruct a as [a|], b as [b|], c as [c|]; cbn [x_bound x_slice_step] in H; inv_lang; stop S; reflexivity.
Qed.
Lemma singular_ok : forall r l ts rest, xv (GSing r l) ts -> stop_val rest -> p_singular (ts ++ rest) = POk (r, l) rest.
Proof.
  intros r l ts rest H S. autorewrite with rules in H. inv_lang.
  assert (M : pmany p_step (y ++ rest) = POk l rest).
  { eapply (many_all _ _ _ (fun _ => True) rest l y); [|now apply step_stop|exact I|eassumption].
    clear. apply Forall_forall. intros x _ us r _ X _. apply (proj1 (nothing_cat _ _)) in X. split; [now apply step_ok|]. split; [|exact I].
    apply step_frag in X as [_ X]. now destruct us. }
  unfold p_singular, por, p_rel_singular, p_abs_singular. destruct r; cbn -[pmany]; rewrite M; reflexivity.
Qed.

(** A query that is not singular does not look like a comparison. *)
Definition no_cmp (r : list lextok) : Prop := match r with (LxCmp, _) :: _ => False | _ => True end.
Lemma segment_step : forall g ts r, xg g ts -> (exists s, p_step (ts ++ r) = POk s r) \/ (p_step (ts ++ r) = PFail /\ no_cmp (ts ++ r)).
Proof.
  intros g ts r H. destruct g as [a l| |t|a l| |t]; autorewrite with rules in H.
  - destruct a as [[n|n]| |a b c|i|e]; autorewrite with rules in H; cbn [x_string] in H; inv_lang.
    + destruct l as [|s l]; cbn [every] in *; inv_lang; [left; eexists; reflexivity|right; split; [reflexivity|exact I]].
    + destruct l as [|s l]; cbn [every] in *; inv_lang; [left; eexists; reflexivity|right; split; [reflexivity|exact I]].
    + right. split; [reflexivity|exact I].
    + right. destruct a as [a|]; cbn [x_bound] in *; inv_lang; (split; [reflexivity|exact I]).
    + destruct l as [|s l]; cbn [every] in *; inv_lang; [left; eexists; reflexivity|right; split; [reflexivity|exact I]].
    + right. split; [reflexivity|exact I].
  - inv_lang. right. split; [reflexivity|exact I].
  - inv_lang. left. eexists. reflexivity.
  - inv_lang. right. split; [reflexivity|exact I].
  - inv_lang. right. split; [reflexivity|exact I].
  - inv_lang. right. split; [reflexivity|exact I].
Qed.
Lemma segments_steps : forall segs ts rest k, every (fun g => noblank ;; xg g) segs ts -> stop_basic rest -> (length ts < k)%nat ->
  exists l r, pmany_n p_step k (ts ++ rest) = POk l r /\ no_cmp r.
Proof.
  induction segs as [|g segs IH]; intros ts rest k H S K; (destruct k as [|k]; [lia|]); cbn [every] in H.
  - unfold nothing in H. subst ts. cbn [app pmany_n]. rewrite step_stop by now left. exists [], rest. split; [reflexivity|]. stop S; exact I.
  - destruct H as (us & vs & -> & U & V). apply (proj1 (nothing_cat _ _)) in U. rewrite <- app_assoc.
    assert (N : us <> []) by (intro E; subst; now apply frags in U as [_ U]).
    destruct (segment_step g us (vs ++ rest) U) as [[s E]|[E NC]]; cbn [pmany_n]; rewrite E.
    + destruct (IH vs rest k V S) as (l & r & Q & NC); [rewrite app_length in K; destruct us; [congruence|]; cbn in K; lia|].
      cbn [pbind]. rewrite Q. cbn. exists (s :: l), r. now split.
    + exists [], (us ++ vs ++ rest). now split.
Qed.
Lemma query_singular : forall q ts rest, xq q ts -> stop_basic rest -> exists s r, p_singular (ts ++ rest) = POk s r /\ no_cmp r.
Proof.
  intros [root segs] ts rest H ST. autorewrite with rules in H. inv_lang.
  destruct (segments_steps segs y rest (S (length (y ++ rest)))) as (l & r & E & NC); [assumption|exact ST|rewrite app_length; lia|].
  exists (root, l), r. split; [|exact NC]. change (pmany p_step (y ++ rest) = POk l r) in E.
  unfold p_singular, por, p_rel_singular, p_abs_singular. destruct root; cbn -[pmany]; rewrite E; reflexivity.
Qed.
Lemma no_cmp_fail : forall r, no_cmp r -> ptok LxCmp r = PFail.
Proof. intros [|[[| | | | | | | | | | |] t] r] H; try reflexivity. destruct H. Qed.

(* ------------------------------------------------------------------ *)
(** Everything. *)
Definition Cq (q : gquery) : Prop := forall ts rest n, xq q ts -> stop_val rest -> (2 * length ts <= n)%nat -> p_filter_query (p_or n) (ts ++ rest) = POk q rest.
Definition Cg (g : gsegment) : Prop := forall ts rest n, xg g ts -> (2 * length ts <= n)%nat -> p_segment (p_or n) (ts ++ rest) = POk g rest.
Definition Cs (s : gselector) : Prop := forall ts rest n, xs s ts -> stop_or rest -> (2 * length ts <= n)%nat -> p_selector (p_or n) (ts ++ rest) = POk s rest.
Definition Co (e : gor) : Prop := forall ts rest n, xo e ts -> stop_or rest -> (2 * length ts + 2 <= n)%nat -> p_or n (ts ++ rest) = POk e rest.
Definition Cd (a : gand) : Prop := forall ts rest n, xd a ts -> stop_and rest -> (2 * length ts + 1 <= n)%nat -> p_and (p_or n) (p_call n) (ts ++ rest) = POk a rest.
Definition Cb (b : gbasic) : Prop := forall ts rest n, xb b ts -> stop_basic rest -> (2 * length ts + 1 <= n)%nat -> p_basic (p_or n) (p_call n) (ts ++ rest) = POk b rest.
Definition Cv (v : gcomparable) : Prop := forall ts rest n, xv v ts -> stop_val rest -> (2 * length ts + 1 <= n)%nat -> p_comparable (p_call n) (ts ++ rest) = POk v rest.
Definition Cf (f : gcall) : Prop := forall ts rest n, xf f ts -> (2 * length ts + 1 <= n)%nat -> p_call n (ts ++ rest) = POk f rest.
Definition Ca (a : garg) : Prop := forall ts rest n, xa a ts -> stop_or rest -> (2 * length ts + 2 <= n)%nat -> p_argument (p_or n) (p_call n) (ts ++ rest) = POk a rest.

Lemma frag_len : forall h l ts, frag h l ts -> ts <> [].
Proof. intros h l [|k ts] [_ F]; [destruct F|discriminate]. Qed.
Lemma selectors_ok : forall n l ts rest, Forall Cs l -> stop_or rest -> p_selector_rest (p_or n) rest = PFail -> (2 * length ts <= n)%nat ->
  every (fun s => noblank ;; op single op_comma ;; noblank ;; xs s) l ts -> pmany (p_selector_rest (p_or n)) (ts ++ rest) = POk l rest /\ stop_or (ts ++ rest).
Proof.
  intros n l ts rest F S P L E. eapply (many_all _ _ _ stop_or); [|exact P|exact S|exact E].
  eapply Forall_impl; [|exact F]. intros s C us r LU H R. inv_lang. split; [|split; [discriminate|right; do 2 eexists; split; [reflexivity|cbn; tauto]]].
  cbn [length] in *. unfold p_selector_rest. cbn -[p_selector p_or]. apply C; [assumption|exact R|lia].
Qed.
Lemma bracket_ok : forall n open f a l ts rest, Cs a -> Forall Cs l -> (2 * length ts <= n)%nat ->
  (op single open ;; noblank ;; xs a ;; every (fun s => noblank ;; op single op_comma ;; noblank ;; xs s) l ;; noblank ;; op single op_close_square) ts ->
  p_bracketed (p_or n) open f (ts ++ rest) = POk (f a l) rest.
Proof.
  intros n open f a l ts rest A L N H. inv_lang.
  match goal with H : xs a ?z |- _ => rename z into za end. match goal with H : every _ l ?z |- _ => rename z into zl end. cbn [length] in N. rewrite !app_length in N. cbn in N.
  unfold p_bracketed. cbn [app pop]. assert (E : bytes_eqb open open = true) by now apply bytes_eqb_eq. cbn [lextype_eqb andb]. rewrite E. cbn [pbind].
  rewrite <- !app_assoc. cbn [app].
  destruct (selectors_ok n l zl ((LxOp, op_close_square) :: rest) L) as [M S].
  - right. do 2 eexists. split; [reflexivity|cbn; tauto].
  - reflexivity.
  - lia.
  - assumption.
  - rewrite A; [cbn [pbind]; eapply pbind_ok; [exact M|]; reflexivity|assumption|exact S|lia].
Qed.

Lemma not_stop : forall rest r, stop_val rest -> rest = (LxFun, r) :: nil -> False.
Proof. intros rest r [H|(t & x & ->)] E; [|discriminate]. stop H; discriminate. Qed.

Lemma call_fail : forall n k ts, fst k <> LxFun -> p_call (S n) (k :: ts) = PFail.
Proof. intros n [[| | | | | | | | | | |] t] ts H; try reflexivity. now contradiction H. Qed.

Lemma complete : (forall q, Cq q) /\ (forall g, Cg g) /\ (forall s, Cs s) /\ (forall e, Co e) /\ (forall e, Cd e) /\ (forall e, Cb e) /\
  (forall v, Cv v) /\ (forall f, Cf f) /\ (forall a, Ca a).
Proof.
  apply grammar_ind; unfold Cq, Cg, Cs, Co, Cd, Cb, Cv, Cf, Ca; intros.
  - (* queries *)
    autorewrite with rules in H0. inv_lang. cbn [length] in *.
    assert (M : pmany (p_segment (p_or n)) (y ++ rest) = POk segs rest).
    { eapply (many_all _ _ _ (fun _ => True) rest segs y); [|destruct H1 as [H1|(t & r' & ->)]; [stop H1; reflexivity|reflexivity]|exact I|eassumption].
      eapply Forall_impl; [|exact H]. intros g G us r' L X _. apply (proj1 (nothing_cat _ _)) in X. split; [apply G; [exact X|lia]|]. split; [|exact I].
      now apply frags, frag_len in X. }
    unfold p_filter_query, por, p_rel_query, p_query. destruct r; cbn -[pmany p_segment]; rewrite M; reflexivity.
  - (* brackets *)
    autorewrite with rules in H1. unfold p_segment, p_child_segment, por. rewrite (bracket_ok n op_open_square GBracket a l ts rest H H0 H2 H1). reflexivity.
  - autorewrite with rules in H. inv_lang. reflexivity.
  - autorewrite with rules in H. inv_lang. reflexivity.
  - autorewrite with rules in H1. unfold p_segment, p_descendant_segment, por. rewrite (bracket_ok n op_desc_open GDescBracket a l ts rest H H0 H2 H1).
    inv_lang. reflexivity.
  - autorewrite with rules in H. inv_lang. reflexivity.
  - autorewrite with rules in H. inv_lang. reflexivity.
  - (* selectors *)
    autorewrite with rules in H. unfold p_selector, por, pmap. rewrite (string_ok n ts rest H). reflexivity.
  - autorewrite with rules in H. inv_lang. reflexivity.
  - assert (E := slice_ok a b s ts rest H H0). unfold p_selector, por, pmap. rewrite E.
    autorewrite with rules in H. destruct a as [a|]; cbn [x_bound] in H; inv_lang; reflexivity.
  - autorewrite with rules in H. inv_lang. stop H0; reflexivity.
  - autorewrite with rules in H0. inv_lang. cbn [length] in *. unfold p_selector, por, pmap, p_filter. cbn -[p_or]. rewrite H; [reflexivity|assumption|exact H1|lia].
  - (* or *)
    autorewrite with rules in H1. inv_lang. destruct n as [|n]; [lia|]. cbn [p_or]. unfold p_or_body. rewrite app_length in H3.
    destruct (many_all _ (p_or_rest (p_or n) (p_call n)) (fun x => noblank ;; op single op_or ;; noblank ;; xd x) stop_and rest l y) as [M S].
    + eapply Forall_impl; [|exact H0]. intros d D us r L X R. inv_lang. cbn [length] in L. split; [|split; [discriminate|right; do 2 eexists; split; [reflexivity|cbn; tauto]]].
      unfold p_or_rest. cbn -[p_and p_or p_call]. apply D; [assumption|exact R|lia].
    + stop H2; reflexivity.
    + now apply or_and.
    + assumption.
    + rewrite <- app_assoc, H; [cbn [pbind]; eapply pbind_ok; [exact M|]; reflexivity|assumption|exact S|lia].
  - (* and *)
    autorewrite with rules in H1. inv_lang. unfold p_and. rewrite app_length in H3.
    destruct (many_all _ (p_and_rest (p_or n) (p_call n)) (fun x => noblank ;; op single op_and ;; noblank ;; xb x) stop_basic rest l y) as [M S].
    + eapply Forall_impl; [|exact H0]. intros d D us r L X R. inv_lang. cbn [length] in L. split; [|split; [discriminate|right; do 2 eexists; split; [reflexivity|cbn; tauto]]].
      unfold p_and_rest. cbn -[p_basic p_or p_call]. apply D; [assumption|exact R|lia].
    + stop H2; reflexivity.
    + now apply and_basic.
    + assumption.
    + rewrite <- app_assoc, H; [cbn [pbind]; eapply pbind_ok; [exact M|]; reflexivity|assumption|exact S|lia].
  - (* parentheses *)
    autorewrite with rules in H0. inv_lang. unfold p_basic, por.
    match goal with H : xo e ?z |- _ => rename z into ze end. match goal with H : x_not _ _ n ?z |- _ => rename z into zn end.
    assert (E : p_paren (p_or n0) ((zn ++ (LxOp, op_open) :: ze ++ [(LxOp, op_close)]) ++ rest) = POk (GParen n e) rest); [|rewrite E; reflexivity].
    rewrite !app_length in H2. cbn [length] in H2. rewrite app_length in H2. cbn [length] in H2.
    assert (G : p_or n0 (ze ++ (LxOp, op_close) :: rest) = POk e ((LxOp, op_close) :: rest)).
    { apply H; [assumption|right; do 2 eexists; split; [reflexivity|cbn; tauto]|lia]. }
    rewrite <- app_assoc. cbn [app]. rewrite <- app_assoc. cbn [app].
    destruct n; cbn [x_not] in *; inv_lang; unfold p_paren; cbn -[p_or]; rewrite G; reflexivity.
  - (* comparisons *)
    autorewrite with rules in H1. inv_lang. match goal with H : xv a ?z |- _ => rename z into za end. match goal with H : xv b ?z |- _ => rename z into zb end.
    rewrite !app_length in H3. cbn [length] in H3. unfold p_basic, por.
    assert (E : p_comparison (p_call n) ((za ++ (LxCmp, op) :: zb) ++ rest) = POk (GCompare a op b) rest).
    { unfold p_comparison. rewrite <- app_assoc. cbn [app]. rewrite H; [|assumption|right; do 2 eexists; reflexivity|lia]. cbn -[p_comparable].
      rewrite H0; [reflexivity|assumption|now left|lia]. }
    rewrite E. rewrite <- app_assoc. cbn [app]. clear E H H0.
    destruct a as [lit|r steps|f]; autorewrite with rules in *.
    + destruct lit as [t|[t|t]|[|]|]; cbn [x_literal x_string] in *; inv_lang; reflexivity.
    + inv_lang. destruct r; reflexivity.
    + destruct f as [t [|arg args]]; autorewrite with rules in *; inv_lang; reflexivity.
  - (* test queries *)
    autorewrite with rules in H0. inv_lang. match goal with H : xq q ?z |- _ => rename z into zq, H into HB end. rewrite app_length in H2. unfold p_basic, por.
    destruct n; cbn [x_not] in *; inv_lang; cbn [length] in H2.
    + destruct q as [root segs]. assert (HB' := HB). autorewrite with rules in HB. inv_lang. match goal with H : every _ segs ?z |- _ => rename z into zl end.
      assert (E : p_filter_query (p_or n0) (((LxOp, if root then op_dollar else op_at) :: zl) ++ rest) = POk (GQuery root segs) rest).
      { apply H; [exact HB'|now left|cbn in *; lia]. }
      destruct n0 as [|n0]; [lia|]. cbn [app] in E.
      unfold p_test, por, pmap. destruct root; cbn -[p_filter_query p_or p_call]; rewrite (call_fail n0) by discriminate; rewrite E; reflexivity.
    + destruct (query_singular q zq rest) as (s & r & E1 & E2); [assumption|assumption|].
      assert (E : p_filter_query (p_or n0) (zq ++ rest) = POk q rest) by (apply H; [assumption|now left|lia]).
      assert (P : exists k z, zq = k :: z /\ (k = (LxOp, op_dollar) \/ k = (LxOp, op_at))).
      { destruct q as [root segs]. autorewrite with rules in *. inv_lang. destruct root; eauto. }
      destruct P as (k & z & -> & K). cbn [app] in *.
      assert (P1 : p_paren (p_or n0) (k :: z ++ rest) = PFail) by (destruct K as [->| ->]; reflexivity). rewrite P1.
      assert (P2 : p_comparison (p_call n0) (k :: z ++ rest) = PFail).
      { unfold p_comparison, p_comparable, por. assert (P3 : pmap GLit p_literal (k :: z ++ rest) = PFail) by (destruct K as [->| ->]; reflexivity).
        rewrite P3. unfold pmap. rewrite E1. cbn [pbind]. rewrite no_cmp_fail by exact E2. reflexivity. }
      rewrite P2. unfold p_test, por, pmap. assert (P4 : popt (pop op_not) (k :: z ++ rest) = POk None (k :: z ++ rest)) by (destruct K as [->| ->]; reflexivity).
      rewrite P4. cbn [pbind]. rewrite E. reflexivity.
  - (* test calls *)
    autorewrite with rules in H0. inv_lang. match goal with H : xf f ?z |- _ => rename z into zf end. rewrite app_length in H2. unfold p_basic, por.
    assert (E : p_call n0 (zf ++ rest) = POk f rest) by (apply H; [assumption|lia]).
    assert (P : exists t z, zf = (LxFun, t) :: z).
    { destruct f as [t [|a args]]; autorewrite with rules in *; inv_lang; eauto. }
    destruct P as (t & z & ->). cbn [app] in *.
    destruct n; cbn [x_not] in *; inv_lang; cbn [length] in H2.
    + destruct n0 as [|n0]; [lia|]. assert (P2 : p_comparison (p_call (S n0)) ((LxOp, op_not) :: (LxFun, t) :: z ++ rest) = PFail) by reflexivity.
      unfold p_test, por, pmap. cbn -[p_or p_call p_comparison]. rewrite P2. rewrite E. reflexivity.
    + assert (P2 : p_comparison (p_call n0) ((LxFun, t) :: z ++ rest) = PFail).
      { unfold p_comparison, p_comparable, por, pmap. cbn -[p_call]. rewrite E. cbn. stop H1; reflexivity. }
      rewrite P2. unfold p_test, por, pmap. cbn -[p_call]. rewrite E. reflexivity.
  - (* literals *)
    autorewrite with rules in H. unfold p_comparable, por, pmap. rewrite (literal_ok s ts rest H). reflexivity.
  - assert (E := singular_ok r l ts rest H H0). unfold p_comparable, por, pmap. rewrite E. autorewrite with rules in H. inv_lang. destruct r; reflexivity.
  - autorewrite with rules in H0. unfold p_comparable, por, pmap. rewrite (H ts rest n H0 H2). destruct f as [t [|a args]]; autorewrite with rules in H0; inv_lang; reflexivity.
  - (* calls *)
    destruct n0 as [|m]; [lia|]. cbn [p_call]. unfold p_call_body. destruct args as [|a args]; autorewrite with rules in H0; inv_lang; cbn [length] in H1.
    + destruct m as [|m]; [lia|]. destruct m as [|m]; [lia|]. reflexivity.
    + match goal with H : xa a ?z |- _ => rename z into za end. match goal with H : every _ args ?z |- _ => rename z into zl end.
      rewrite !app_length in H1. cbn [length] in H1. inversion H as [|? ? HA HL]; subst.
      assert (E : p_arguments (p_or m) (p_call m) ((za ++ zl) ++ (LxOp, op_close) :: rest) = POk (a :: args) ((LxOp, op_close) :: rest)).
      { unfold p_arguments. rewrite <- app_assoc.
        destruct (many_all _ (p_argument_rest (p_or m) (p_call m)) (fun x => noblank ;; op single op_comma ;; noblank ;; xa x) stop_or ((LxOp, op_close) :: rest) args zl) as [M S].
        - eapply Forall_impl; [|exact HL]. intros d D us r L X R. inv_lang. cbn [length] in L. split; [|split; [discriminate|right; do 2 eexists; split; [reflexivity|cbn; tauto]]].
          unfold p_argument_rest. cbn -[p_argument p_or p_call]. apply D; [assumption|exact R|lia].
        - reflexivity.
        - right. do 2 eexists. split; [reflexivity|cbn; tauto].
        - assumption.
        - rewrite HA; [cbn [pbind]; eapply pbind_ok; [exact M|]; reflexivity|assumption|exact S|lia]. }
      cbn [app ptok lextype_eqb pbind]. unfold popt. rewrite <- app_assoc. cbn [app]. rewrite E. reflexivity.
  - (* arguments *)
    autorewrite with rules in H. unfold p_argument, por, pmap. rewrite (literal_ok s ts rest H). reflexivity.
  - autorewrite with rules in H0. unfold p_argument, por, pmap. rewrite (H ts rest n); [|exact H0|now apply basic_val, and_basic, or_and|lia].
    destruct q as [root segs]. autorewrite with rules in H0. inv_lang. destruct root; reflexivity.
  - autorewrite with rules in H0. destruct H0 as [MK H0]. assert (E := H ts rest n H0 H1 H2). unfold p_argument, por, pmap. rewrite E.
    destruct n as [|n]; [lia|].
    assert (P : exists k z, ts = k :: z /\ (k = (LxOp, op_open) \/ k = (LxOp, op_not))).
    { clear - MK H0. destruct c as [[b l] l']. cbn in MK. autorewrite with rules in H0. inv_lang. destruct b as [nb e|a0 o b0|[|] q|[|] f]; try contradiction; autorewrite with rules in *; cbn [x_not] in *; inv_lang; eauto.
      destruct nb; cbn [x_not] in *; inv_lang; eauto. }
    destruct P as (k & z & -> & K). cbn [app] in *. rewrite call_fail by (destruct K as [->| ->]; discriminate). destruct K as [->| ->]; reflexivity.
  - autorewrite with rules in H0. unfold p_argument, por, pmap. rewrite (H ts rest n H0) by lia. destruct f as [t [|a args]]; autorewrite with rules in H0; inv_lang; reflexivity.
Qed.

(** The parser finds nothing but queries of the grammar, and its fuel suffices. *)
From Coq Require Import List NArith ZArith Bool Arith Lia.
From Verif Require Import Base GrammarModel GrammarInd LexModel ParseModel QuerySyntax SyntaxSim SyntaxTokens ParseProofs.

Local Notation xq := (x_query single noblank marked).
Local Notation xg := (x_segment single noblank marked).
Local Notation xs := (x_selector single noblank marked).
Local Notation xo := (x_or single noblank marked).
Local Notation xd := (x_and single noblank marked).
Local Notation xb := (x_basic single noblank marked).
Local Notation xv := (x_comparable single noblank marked).
Local Notation xf := (x_call single noblank marked).
Local Notation xa := (x_argument single noblank marked).

(** The tokens taken are a text of the result; there was enough fuel. *)
Definition okres {A} (R : A -> @lang lextok) (ts : list lextok) (m : presult A) : Prop :=
  match m with POk a r => exists us, ts = us ++ r /\ R a us | PFail => True | PFuel => False end.

Lemma ok_ret : forall A (R : A -> @lang lextok) a ts, R a [] -> okres R ts (POk a ts).
Proof. intros A R a ts H. exists []. now split. Qed.
Lemma ok_bind : forall A B (R : A -> @lang lextok) (R' : B -> @lang lextok) ts m f, okres R ts m ->
  (forall a us r, ts = us ++ r -> R a us -> okres (fun b vs => R' b (us ++ vs)) r (f a r)) -> okres R' ts (pbind m f).
Proof.
  intros A B R R' ts [a r| |] f H F; cbn in *; [|exact I|exact H]. destruct H as (us & -> & H). specialize (F a us r eq_refl H).
  destruct (f a r) as [b r'| |]; cbn in *; [|exact I|exact F]. destruct F as (vs & -> & F). exists (us ++ vs). split; [now rewrite app_assoc|exact F].
Qed.
Lemma ok_map : forall A B (R : A -> @lang lextok) (R' : B -> @lang lextok) (g : A -> B) p ts, okres R ts (p ts) -> (forall a us, R a us -> R' (g a) us) -> okres R' ts (pmap g p ts).
Proof. intros A B R R' g p ts H G. unfold pmap. destruct (p ts) as [a r| |]; cbn in *; auto. destruct H as (us & -> & H). exists us. auto. Qed.
Lemma ok_or : forall A (R : A -> @lang lextok) p q ts, okres R ts (p ts) -> (p ts = PFail -> okres R ts (q ts)) -> okres R ts (por p q ts).
Proof. intros A R p q ts P Q. unfold por. destruct (p ts) as [a r| |] eqn:E; cbn in *; auto. Qed.
Lemma ok_opt : forall A (R : A -> @lang lextok) p ts, okres R ts (p ts) -> okres (fun o us => match o with Some a => R a us | None => us = [] end) ts (popt p ts).
Proof. intros A R p ts H. unfold popt. destruct (p ts) as [a r| |]; cbn in *; auto. exists []. now split. Qed.
Lemma ok_weak : forall A (R R' : A -> @lang lextok) ts m, okres R ts m -> (forall a us, R a us -> R' a us) -> okres R' ts m.
Proof. intros A R R' ts [a r| |] H W; cbn in *; auto. destruct H as (us & -> & H). exists us. auto. Qed.
(** Tokens that the tokeniser makes. *)
Definition okbool (ts : list lextok) : Prop := Forall (fun k => terminal k) ts.
Lemma okbool_app : forall a b, okbool (a ++ b) -> okbool b.
Proof. intros a b H. now apply Forall_app in H. Qed.
Lemma ok_many : forall A (R : A -> @lang lextok) (p : parser A) M ts, (length ts <= M)%nat -> okbool ts -> (forall us, (length us <= M)%nat -> okbool us -> okres R us (p us)) ->
  (forall a us, R a us -> us <> []) -> okres (every R) ts (pmany p ts).
Proof.
  intros A R p M ts L T H N. unfold pmany. assert (G : forall k us, (length us <= M)%nat -> okbool us -> (length us < k)%nat -> okres (every R) us (pmany_n p k us)).
  { induction k as [|k IH]; intros us LU TU K; [lia|]. cbn [pmany_n]. specialize (H us LU TU). destruct (p us) as [a r| |]; cbn in H; [|now exists []|exact H].
    destruct H as (vs & -> & H). specialize (N a vs H). rewrite app_length in *. destruct vs as [|v vs]; [congruence|]. cbn in *.
    specialize (IH r ltac:(lia) (okbool_app (v :: vs) r TU) ltac:(lia)). destruct (pmany_n p k r) as [l r'| |]; cbn in *; [|exact I|exact IH].
    destruct IH as (ws & -> & IH). exists (v :: vs ++ ws). cbn. split; [now rewrite app_assoc|]. change (v :: vs ++ ws) with ((v :: vs) ++ ws). now apply cat_intro. }
  apply G; [exact L|exact T|lia].
Qed.
Lemma many_never : forall A (p : parser A) k ts, pmany_n p k ts <> PFail.
Proof.
  intros A p. induction k as [|k IH]; intros ts; [discriminate|]. cbn [pmany_n]. destruct (p ts) as [a r| |]; try discriminate. specialize (IH r).
  destruct (pmany_n p k r); [discriminate|congruence|discriminate].
Qed.
Lemma ok_tok : forall ty ts, okres (fun t => single (ty, t)) ts (ptok ty ts).
Proof.
  intros ty [|[ty' t] ts]; [exact I|]. cbn. destruct (lextype_eqb ty ty') eqn:E; [|exact I]. exists [(ty', t)]. split; [reflexivity|].
  assert (ty = ty') as -> by (destruct ty, ty'; try discriminate; reflexivity). reflexivity.
Qed.
Lemma ok_op : forall o ts, okres (fun _ => op single o) ts (pop o ts).
Proof.
  intros o [|[ty' t] ts]; [exact I|]. cbn. destruct ty'; try exact I. destruct (bytes_eqb o t) eqn:E; [|exact I]. apply bytes_eqb_eq in E as <-.
  exists [(LxOp, o)]. now split.
Qed.
Ltac cats := repeat first [rewrite <- app_assoc | apply cat_intro | apply (cat_intro noblank _ []); [reflexivity|]].

Lemma ok_string : forall ts, okres (x_string single) ts (p_string ts).
Proof.
  intro ts. apply ok_or; [|intros _]; (eapply ok_map; [apply ok_tok|]); intros a us H; exact H.
Qed.
Lemma ok_literal : forall ts, okbool ts -> okres (x_literal single) ts (p_literal ts).
Proof.
  intros ts OK. apply ok_or; [|intros _; apply ok_or; [|intros _; apply ok_or; [|intros _]]].
  - apply ok_or; [|intros _]; (eapply ok_map; [apply ok_tok|]); intros a us H; [now left|now right].
  - eapply ok_map; [apply ok_string|]. auto.
  - unfold pmap. destruct ts as [|[ty t] ts]; [exact I|]. cbn. destruct ty; try exact I. cbn. inversion OK as [|? ? T _]; subst. cbn in T.
    exists [(LxBool, t)]. split; [reflexivity|]. destruct T as [->| ->]; reflexivity.
  - unfold pmap. destruct ts as [|[ty t] ts]; [exact I|]. cbn. destruct ty; try exact I. cbn. inversion OK as [|? ? T _]; subst. cbn in T. subst t.
    exists [(LxNull, [110; 117; 108; 108]%N)]. now split.
Qed.
Lemma ok_step : forall ts, okres (x_step single) ts (p_step ts).
Proof.
  intro ts. apply ok_or; [|intros _; apply ok_or; [|intros _]].
  - unfold p_bracket_name. eapply ok_bind; [apply ok_op|]. intros [] u1 r1 _ U1. eapply ok_bind; [apply ok_string|]. intros s u2 r2 _ U2.
    eapply ok_bind; [apply ok_op|]. intros [] u3 r3 _ U3. apply ok_ret. rewrite app_nil_r. cbn [x_step]. now cats.
  - eapply ok_map; [apply ok_tok|]. intros a us H. exact H.
  - unfold p_index_segment. eapply ok_bind; [apply ok_op|]. intros [] u1 r1 _ U1. eapply ok_bind; [apply ok_tok|]. intros s u2 r2 _ U2.
    eapply ok_bind; [apply ok_op|]. intros [] u3 r3 _ U3. apply ok_ret. rewrite app_nil_r. cbn [x_step]. now cats.
Qed.
Lemma step_nonempty : forall s us, x_step single s us -> us <> [].
Proof. intros s us H. apply step_frag in H. now apply frag_len in H. Qed.
Lemma ok_steps : forall ts, okbool ts -> okres (every (fun s => noblank ;; x_step single s)) ts (pmany p_step ts).
Proof.
  intros ts T. eapply (ok_many _ _ _ (length ts)); [lia|exact T| |].
  - intros us _ _. eapply ok_weak; [apply ok_step|]. intros a vs H. now apply nothing_cat.
  - intros a us H. apply (proj1 (nothing_cat _ _)) in H. now apply step_nonempty in H.
Qed.
Definition x_singular (s : bool * list gstep) : @lang lextok := x_comparable single noblank marked (GSing (fst s) (snd s)).
Lemma ok_singular : forall ts, okbool ts -> okres x_singular ts (p_singular ts).
Proof.
  intros ts T. apply ok_or; [|intros _].
  - unfold p_rel_singular. eapply ok_bind; [apply ok_op|]. intros [] u1 r1 -> U1. apply okbool_app in T. eapply ok_bind; [now apply ok_steps|]. intros l u2 r2 _ U2. apply ok_ret. rewrite app_nil_r.
    unfold x_singular. autorewrite with rules. cbn [fst snd]. now cats.
  - unfold p_abs_singular. eapply ok_bind; [apply ok_op|]. intros [] u1 r1 -> U1. apply okbool_app in T. eapply ok_bind; [now apply ok_steps|]. intros l u2 r2 _ U2. apply ok_ret. rewrite app_nil_r.
    unfold x_singular. autorewrite with rules. cbn [fst snd]. now cats.
Qed.
Lemma ok_slice : forall ts, okres xs ts (p_slice ts).
Proof.
  intro ts. unfold p_slice. eapply ok_bind; [apply ok_opt, ok_tok|]. intros a u1 r1 _ U1. eapply ok_bind; [apply ok_op|]. intros [] u2 r2 _ U2.
  eapply ok_bind; [apply ok_opt, ok_tok|]. intros b u3 r3 _ U3. eapply ok_bind.
  - apply ok_opt. instantiate (1 := fun o => match o with Some t => op single op_colon ;; int single t | None => op single op_colon end).
    unfold p_slice_step. eapply ok_bind; [apply ok_op|]. intros [] v1 s1 _ V1. eapply ok_weak; [apply ok_opt, ok_tok|]. intros [t|] us H; cbv beta in *.
    + now cats.
    + subst us. now rewrite app_nil_r.
  - intros c u4 r4 _ U4. apply ok_ret. rewrite app_nil_r. autorewrite with rules.
    assert (BD : forall o us, match o with Some t => single (LxInt, t) us | None => us = [] end -> x_bound single noblank o us).
    { intros [t|] us H; [|exact H]. exists us, []. rewrite app_nil_r. now repeat split. }
    apply cat_intro; [now apply BD|]. apply cat_intro; [exact U2|]. apply nothing_cat. apply cat_intro; [now apply BD|].
    destruct c as [[t|]|]; cbn [x_slice_step].
    + destruct U4 as (x & y & -> & X & Y). apply cat_intro; [exact X|]. now apply nothing_cat.
    + now right.
    + now left.
Qed.

Section Bodies.
  Variables (rec_or : parser gor) (rec_call : parser gcall) (M : nat).
  Hypothesis Hor : forall ts, (length ts < M)%nat -> okbool ts -> okres xo ts (rec_or ts).

  Lemma ok_filter : forall ts, (length ts <= M)%nat -> okbool ts -> okres xs ts (p_filter rec_or ts).
  Proof.
    intros ts L T. unfold p_filter. eapply ok_bind; [apply ok_op|]. intros [] u1 r1 -> U1. apply okbool_app in T. rewrite app_length in L.
    eapply ok_bind; [apply Hor; [|exact T]|].
    - unfold op, single in U1. subst u1. cbn in L. lia.
    - intros e u2 r2 _ U2. apply ok_ret. rewrite app_nil_r. autorewrite with rules. apply cat_intro; [exact U1|]. now apply nothing_cat.
  Qed.
  Lemma ok_selector : forall ts, (length ts <= M)%nat -> okbool ts -> okres xs ts (p_selector rec_or ts).
  Proof.
    intros ts L T. apply ok_or; [|intros _; apply ok_or; [|intros _; apply ok_or; [|intros _; apply ok_or; [|intros _]]]].
    - eapply ok_map; [apply ok_string|]. intros a us H. now autorewrite with rules.
    - eapply ok_map; [apply ok_op|]. intros a us H. now autorewrite with rules.
    - apply ok_slice.
    - eapply ok_map; [apply ok_tok|]. intros a us H. now autorewrite with rules.
    - now apply ok_filter.
  Qed.
  Lemma ok_selector_rest : forall ts, (length ts <= M)%nat -> okbool ts ->
    okres (fun s => noblank ;; op single op_comma ;; noblank ;; xs s) ts (p_selector_rest rec_or ts).
  Proof.
    intros ts L T. unfold p_selector_rest. eapply ok_bind; [apply ok_op|]. intros [] u1 r1 -> U1. apply okbool_app in T. rewrite app_length in L.
    eapply ok_weak; [apply ok_selector; [lia|exact T]|]. intros s us H. apply nothing_cat, cat_intro; [exact U1|]. now apply nothing_cat.
  Qed.
  Lemma ok_bracketed : forall ts o f, (length ts <= M)%nat -> okbool ts ->
    (forall a l, xg (f a l) = (op single o ;; noblank ;; xs a ;; every (fun s => noblank ;; op single op_comma ;; noblank ;; xs s) l ;; noblank ;; op single op_close_square)) ->
    okres xg ts (p_bracketed rec_or o f ts).
  Proof.
    intros ts o f L T F. unfold p_bracketed. eapply ok_bind; [apply ok_op|]. intros [] u1 r1 -> U1. apply okbool_app in T. rewrite app_length in L.
    eapply ok_bind; [apply ok_selector; [lia|exact T]|]. intros a u2 r2 -> U2. apply okbool_app in T. rewrite app_length in L.
    eapply ok_bind.
    { eapply (ok_many _ _ _ M); [lia|exact T| |].
      - intros us LU TU. now apply ok_selector_rest.
      - intros s us H. apply (proj1 (nothing_cat _ _)) in H. destruct H as (x & y & -> & X & _). unfold op, single in X. subst x. discriminate. }
    intros l u3 r3 -> U3. eapply ok_bind; [apply ok_op|]. intros [] u4 r4 _ U4. apply ok_ret. rewrite app_nil_r, F.
    apply cat_intro; [exact U1|]. apply nothing_cat. apply cat_intro; [exact U2|]. apply cat_intro; [exact U3|]. now apply nothing_cat.
  Qed.
  Lemma ok_segment : forall ts, (length ts <= M)%nat -> okbool ts -> okres xg ts (p_segment rec_or ts).
  Proof.
    intros ts L T. apply ok_or; [|intros _]; apply ok_or; [|intros _; apply ok_or; [|intros _]| |intros _; apply ok_or; [|intros _]].
    - apply ok_bracketed; [exact L|exact T|reflexivity].
    - eapply ok_map; [apply ok_op|]. intros a us H. now autorewrite with rules.
    - eapply ok_map; [apply ok_tok|]. intros a us H. now autorewrite with rules.
    - apply ok_bracketed; [exact L|exact T|reflexivity].
    - eapply ok_map; [apply ok_op|]. intros a us H. now autorewrite with rules.
    - eapply ok_map; [apply ok_tok|]. intros a us H. now autorewrite with rules.
  Qed.
  Lemma ok_segments : forall ts, (length ts <= M)%nat -> okbool ts -> okres (every (fun g => noblank ;; xg g)) ts (pmany (p_segment rec_or) ts).
  Proof.
    intros ts L T. eapply (ok_many _ _ _ M); [exact L|exact T| |].
    - intros us LU TU. eapply ok_weak; [now apply ok_segment|]. intros g vs H. now apply nothing_cat.
    - intros g us H. apply (proj1 (nothing_cat _ _)) in H. now apply frags, frag_len in H.
  Qed.
  Lemma ok_query : forall ts, (length ts <= M)%nat -> okbool ts -> okres xq ts (p_query rec_or ts).
  Proof.
    intros ts L T. unfold p_query. eapply ok_bind; [apply ok_op|]. intros [] u1 r1 -> U1. apply okbool_app in T. rewrite app_length in L.
    eapply ok_bind; [apply ok_segments; [lia|exact T]|]. intros l u2 r2 _ U2. apply ok_ret. rewrite app_nil_r. autorewrite with rules. now apply cat_intro.
  Qed.
  Lemma ok_rel_query : forall ts, (length ts <= M)%nat -> okbool ts -> okres xq ts (p_rel_query rec_or ts).
  Proof.
    intros ts L T. unfold p_rel_query. eapply ok_bind; [apply ok_op|]. intros [] u1 r1 -> U1. apply okbool_app in T. rewrite app_length in L.
    eapply ok_bind; [apply ok_segments; [lia|exact T]|]. intros l u2 r2 _ U2. apply ok_ret. rewrite app_nil_r. autorewrite with rules. now apply cat_intro.
  Qed.
  Lemma ok_filter_query : forall ts, (length ts <= M)%nat -> okbool ts -> okres xq ts (p_filter_query rec_or ts).
  Proof. intros ts L T. apply ok_or; [now apply ok_rel_query|intros _; now apply ok_query]. Qed.

  Hypothesis Hcall : forall ts, (length ts <= M)%nat -> okbool ts -> okres xf ts (rec_call ts).
  Lemma ok_comparable : forall ts, (length ts <= M)%nat -> okbool ts -> okres xv ts (p_comparable rec_call ts).
  Proof.
    intros ts L T. apply ok_or; [|intros _; apply ok_or; [|intros _]].
    - eapply ok_map; [now apply ok_literal|]. intros a us H. now autorewrite with rules.
    - eapply ok_map; [now apply ok_singular|]. intros a us H. exact H.
    - eapply ok_map; [now apply Hcall|]. intros a us H. now autorewrite with rules.
  Qed.
  Lemma ok_comparison : forall ts, (length ts <= M)%nat -> okbool ts -> okres xb ts (p_comparison rec_call ts).
  Proof.
    intros ts L T. unfold p_comparison. eapply ok_bind; [now apply ok_comparable|]. intros a u1 r1 -> U1. apply okbool_app in T. rewrite app_length in L.
    eapply ok_bind; [apply ok_tok|]. intros o u2 r2 -> U2. apply okbool_app in T. rewrite app_length in L.
    eapply ok_bind; [apply ok_comparable; [lia|exact T]|]. intros b u3 r3 _ U3. apply ok_ret. rewrite app_nil_r. autorewrite with rules.
    apply cat_intro; [exact U1|]. apply nothing_cat. apply cat_intro; [exact U2|]. now apply nothing_cat.
  Qed.
  Lemma ok_not : forall ts, okres (fun o => x_not single noblank (is_some o)) ts (popt (pop op_not) ts).
  Proof.
    intro ts. eapply ok_weak; [apply ok_opt, ok_op|]. intros [u|] us H; cbn; [|exact H]. exists us, []. rewrite app_nil_r. now repeat split.
  Qed.
  Lemma ok_paren : forall ts, (length ts <= M)%nat -> okbool ts -> okres xb ts (p_paren rec_or ts).
  Proof.
    intros ts L T. unfold p_paren. eapply ok_bind; [apply ok_not|]. intros o u1 r1 -> U1. apply okbool_app in T. rewrite app_length in L.
    eapply ok_bind; [apply ok_op|]. intros [] u2 r2 -> U2. apply okbool_app in T. rewrite app_length in L.
    eapply ok_bind; [apply Hor; [unfold op, single in U2; subst u2; cbn in L; lia|exact T]|]. intros e u3 r3 -> U3.
    eapply ok_bind; [apply ok_op|]. intros [] u4 r4 _ U4. apply ok_ret. rewrite app_nil_r. autorewrite with rules.
    apply cat_intro; [exact U1|]. apply cat_intro; [exact U2|]. apply nothing_cat. apply cat_intro; [exact U3|]. now apply nothing_cat.
  Qed.
  Lemma ok_test : forall ts, (length ts <= M)%nat -> okbool ts -> okres xb ts (p_test rec_or rec_call ts).
  Proof.
    intros ts L T. unfold p_test. eapply ok_bind; [apply ok_not|]. intros o u1 r1 -> U1. apply okbool_app in T. rewrite app_length in L.
    apply ok_or; [|intros _].
    - eapply ok_map; [apply ok_filter_query; [lia|exact T]|]. intros q us H. autorewrite with rules. now apply cat_intro.
    - eapply ok_map; [apply Hcall; [lia|exact T]|]. intros q us H. autorewrite with rules. now apply cat_intro.
  Qed.
  Lemma ok_basic : forall ts, (length ts <= M)%nat -> okbool ts -> okres xb ts (p_basic rec_or rec_call ts).
  Proof. intros ts L T. apply ok_or; [now apply ok_paren|intros _; apply ok_or; [now apply ok_comparison|intros _; now apply ok_test]]. Qed.
  Lemma ok_and : forall ts, (length ts <= M)%nat -> okbool ts -> okres xd ts (p_and rec_or rec_call ts).
  Proof.
    intros ts L T. unfold p_and. eapply ok_bind; [now apply ok_basic|]. intros a u1 r1 -> U1. apply okbool_app in T. rewrite app_length in L.
    eapply ok_bind.
    { eapply (ok_many _ (fun x => noblank ;; op single op_and ;; noblank ;; xb x) _ M); [lia|exact T| |].
      - intros us LU TU. unfold p_and_rest. eapply ok_bind; [apply ok_op|]. intros [] v1 s1 -> V1. apply okbool_app in TU. rewrite app_length in LU.
        eapply ok_weak; [apply ok_basic; [lia|exact TU]|]. intros s vs H. apply nothing_cat, cat_intro; [exact V1|]. now apply nothing_cat.
      - intros s us H. apply (proj1 (nothing_cat _ _)) in H. destruct H as (x & y & -> & X & _). unfold op, single in X. subst x. discriminate. }
    intros l u2 r2 _ U2. apply ok_ret. rewrite app_nil_r. autorewrite with rules. now apply cat_intro.
  Qed.
  Lemma ok_or_body : forall ts, (length ts <= M)%nat -> okbool ts -> okres xo ts (p_or_body rec_or rec_call ts).
  Proof.
    intros ts L T. unfold p_or_body. eapply ok_bind; [now apply ok_and|]. intros a u1 r1 -> U1. apply okbool_app in T. rewrite app_length in L.
    eapply ok_bind.
    { eapply (ok_many _ (fun x => noblank ;; op single op_or ;; noblank ;; xd x) _ M); [lia|exact T| |].
      - intros us LU TU. unfold p_or_rest. eapply ok_bind; [apply ok_op|]. intros [] v1 s1 -> V1. apply okbool_app in TU. rewrite app_length in LU.
        eapply ok_weak; [apply ok_and; [lia|exact TU]|]. intros s vs H. apply nothing_cat, cat_intro; [exact V1|]. now apply nothing_cat.
      - intros s us H. apply (proj1 (nothing_cat _ _)) in H. destruct H as (x & y & -> & X & _). unfold op, single in X. subst x. discriminate. }
    intros l u2 r2 _ U2. apply ok_ret. rewrite app_nil_r. autorewrite with rules. now apply cat_intro.
  Qed.
End Bodies.

Section Calls.
  Variables (rec_or : parser gor) (rec_call : parser gcall) (M : nat).
  Hypothesis Hor : forall ts, (length ts < M)%nat -> okbool ts -> okres xo ts (rec_or ts).
  Hypothesis Hcall : forall ts, (length ts < M)%nat -> okbool ts -> okres xf ts (rec_call ts).
  (** Calls are found. *)
  Hypothesis Hfound : forall f us r, (length (us ++ r) < M)%nat -> xf f us -> rec_call (us ++ r) <> PFail.

  (** An expression that begins with no literal, query or call begins with a
      parenthesis or a negation. *)
  Lemma marked_logical : forall ts e us r, (length ts < M)%nat -> ts = us ++ r -> xo e us -> pmap GArgLit p_literal ts = PFail ->
    pmap GArgQuery (p_filter_query rec_or) ts = PFail -> pmap GArgCall rec_call ts = PFail -> marked e.
  Proof.
    intros ts [[b l] l'] us r L -> H P1 P2 P3. autorewrite with rules in H. destruct H as (x & y & -> & H & Y). autorewrite with rules in H. destruct H as (x1 & y1 & -> & H & Y1).
    cbn [marked].
    assert (LT : forall lit z, x_literal single lit z -> forall w, pmap GArgLit p_literal (z ++ w) = PFail -> False).
    { intros lit z Z w Q. unfold pmap in Q. rewrite (literal_ok lit z w Z) in Q. discriminate. }
    assert (QR : forall o z, pmap GArgQuery (p_filter_query rec_or) ((LxOp, if o : bool then op_dollar else op_at) :: z) = PFail -> False).
    { intros o z Q. unfold pmap, p_filter_query, por, p_rel_query, p_query in Q. unfold pmany in Q.
      assert (NF := fun k z' => many_never _ (p_segment rec_or) k z').
      destruct o; cbn -[pmany_n p_segment length] in Q; specialize (NF (S (length z)) z); destruct (pmany_n (p_segment rec_or) (S (length z)) z); try discriminate; congruence. }
    assert (CL : forall f z w, (length (z ++ w) < M)%nat -> xf f z -> pmap GArgCall rec_call (z ++ w) = PFail -> False).
    { intros f z w LW Z Q. specialize (Hfound f z w LW Z). unfold pmap in Q. destruct (rec_call (z ++ w)); [discriminate|congruence|discriminate]. }
    rewrite <- !app_assoc in *.
    destruct b as [n e|a o b0|[|] q|[|] f]; try exact I; exfalso; autorewrite with rules in H.
    - destruct H as (x2 & y2 & -> & H & _). rewrite <- app_assoc in *. destruct a as [lit|root steps|f]; autorewrite with rules in H.
      + exact (LT lit x2 H _ P1).
      + inv_lang. exact (QR root _ P2).
      + exact (CL f x2 _ L H P3).
    - cbn [x_not] in H. inv_lang. destruct q as [root segs]. autorewrite with rules in *. inv_lang. exact (QR root _ P2).
    - cbn [x_not] in H. inv_lang. exact (CL f _ _ L B P3).
  Qed.
  Lemma ok_argument : forall ts, (length ts < M)%nat -> okbool ts -> okres xa ts (p_argument rec_or rec_call ts).
  Proof.
    intros ts L T. apply ok_or; [|intros P1; apply ok_or; [|intros P2; apply ok_or; [|intros P3]]].
    - eapply ok_map; [now apply ok_literal|]. intros a us H. now autorewrite with rules.
    - eapply ok_map; [apply (ok_filter_query rec_or M); [exact Hor|lia|exact T]|]. intros a us H. now autorewrite with rules.
    - eapply ok_map; [now apply Hcall|]. intros a us H. now autorewrite with rules.
    - specialize (Hor ts L T). unfold pmap. destruct (rec_or ts) as [e r| |]; cbn in *; [|exact I|exact Hor]. destruct Hor as (us & E & H).
      exists us. split; [exact E|]. autorewrite with rules. split; [|exact H]. exact (marked_logical ts e us r L E H P1 P2 P3).
  Qed.
  Lemma ok_arguments : forall ts, (length ts < M)%nat -> okbool ts ->
    okres (fun l us => exists a l', l = a :: l' /\ (xa a ;; every (fun x => noblank ;; op single op_comma ;; noblank ;; xa x) l') us) ts (p_arguments rec_or rec_call ts).
  Proof.
    intros ts L T. unfold p_arguments. eapply ok_bind; [now apply ok_argument|]. intros a u1 r1 -> U1. apply okbool_app in T. rewrite app_length in L.
    eapply ok_bind.
    { eapply (ok_many _ (fun x => noblank ;; op single op_comma ;; noblank ;; xa x) _ (length r1)); [lia|exact T| |].
      - intros us LU TU. unfold p_argument_rest. eapply ok_bind; [apply ok_op|]. intros [] v1 s1 -> V1. apply okbool_app in TU. rewrite app_length in LU.
        eapply ok_weak; [apply ok_argument; [lia|exact TU]|]. intros s vs H. apply nothing_cat, cat_intro; [exact V1|]. now apply nothing_cat.
      - intros s us H. apply (proj1 (nothing_cat _ _)) in H. destruct H as (x & y & -> & X & _). unfold op, single in X. subst x. discriminate. }
    intros l u2 r2 _ U2. apply ok_ret. rewrite app_nil_r. exists a, l. split; [reflexivity|]. now apply cat_intro.
  Qed.
  Lemma ok_call_body : forall ts, (length ts <= M)%nat -> okbool ts -> okres xf ts (p_call_body rec_or rec_call ts).
  Proof.
    intros ts L T. unfold p_call_body. eapply ok_bind; [apply ok_tok|]. intros t u1 r1 -> U1. apply okbool_app in T. rewrite app_length in L.
    eapply ok_bind; [apply ok_opt, ok_arguments; [unfold single in U1; subst u1; cbn in L; lia|exact T]|]. intros o u2 r2 _ U2.
    eapply ok_bind; [apply ok_op|]. intros [] u3 r3 _ U3. apply ok_ret. rewrite app_nil_r. destruct o as [l|].
    - destruct U2 as (a & l' & -> & U2). autorewrite with rules. apply cat_intro; [exact U1|]. apply nothing_cat. apply cat_intro; [exact U2|]. now apply nothing_cat.
    - subst u2. autorewrite with rules. apply cat_intro; [exact U1|]. apply nothing_cat. apply (cat_intro nothing _ []); [reflexivity|]. now apply nothing_cat.
  Qed.
End Calls.

Lemma sound : forall n, (forall ts, (2 * length ts + 2 <= n)%nat -> okbool ts -> okres xo ts (p_or n ts)) /\
  (forall ts, (2 * length ts + 1 <= n)%nat -> okbool ts -> okres xf ts (p_call n ts)).
Proof.
  induction n as [|n [IO IC]]; split; intros ts L T; try lia; cbn [p_or p_call].
  - apply (ok_or_body (p_or n) (p_call n) (length ts)).
    + intros us LU TU. apply IO; [lia|exact TU].
    + intros us LU TU. apply IC; [lia|exact TU].
    + lia.
    + exact T.
  - apply (ok_call_body (p_or n) (p_call n) (length ts)).
    + intros us LU TU. apply IO; [lia|exact TU].
    + intros us LU TU. apply IC; [lia|exact TU].
    + intros f us r LU F E. destruct complete as (_ & _ & _ & _ & _ & _ & _ & C & _). rewrite app_length in LU. rewrite (C f us r n F) in E by lia. discriminate.
    + lia.
    + exact T.
Qed.

(** [parse_query] finds exactly the queries that are texts of the grammar. *)
Theorem parse_complete : forall segs ts, xq (GQuery true segs) ts -> parse_query ts = Some (GQuery true segs, []).
Proof.
  intros segs ts H. unfold parse_query. set (n := S (S (2 * length ts))). destruct complete as (C & _).
  assert (E := C (GQuery true segs) ts [] n H (or_introl (or_introl eq_refl)) ltac:(unfold n; lia)). rewrite app_nil_r in E.
  unfold p_filter_query, por in E. autorewrite with rules in H. inv_lang. cbn [app] in *.
  change (p_rel_query (p_or n) ((LxOp, op_dollar) :: y)) with (@PFail gquery) in E. cbv beta iota in E. now rewrite E.
Qed.
Theorem parse_sound : forall ts, okbool ts ->
  match parse_query ts with
  | Some (q, r) => exists us segs, ts = us ++ r /\ q = GQuery true segs /\ xq q us
  | None => forall r, ts <> (LxOp, op_dollar) :: r
  end.
Proof.
  intros ts T. unfold parse_query. set (n := S (S (2 * length ts))).
  assert (OK := ok_query (p_or n) (length ts) (fun us LU TU => proj1 (sound n) us ltac:(unfold n; lia) TU) ts (Nat.le_refl _) T).
  destruct (p_query (p_or n) ts) as [q r| |] eqn:E; cbn in OK; [|intros r ->|destruct OK].
  - destruct OK as (us & -> & H). exists us. unfold p_query in E. destruct (pop op_dollar (us ++ r)) as [u r1| |]; cbn [pbind] in E; try discriminate.
    destruct (pmany (p_segment (p_or n)) r1) as [l r2| |]; cbn [pbind] in E; try discriminate. injection E as <- <-. exists l. now repeat split.
  - clearbody n. unfold p_query in E. cbn -[pmany p_segment] in E.
    assert (NF := fun k => many_never _ (p_segment (p_or n)) k r).
    specialize (NF (S (length r))). unfold pmany in E. destruct (pmany_n (p_segment (p_or n)) (S (length r)) r); try discriminate. congruence.
Qed.

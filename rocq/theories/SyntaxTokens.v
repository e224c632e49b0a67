(** The token sequences of queries: no two tokens that are next to each other
    could be taken for others. *)
From Coq Require Import List NArith ZArith Bool Arith Lia.
From Verif Require Import Base GrammarModel GrammarInd LexModel ParseModel QuerySyntax SyntaxSim LexTokens.
Local Open Scope N_scope.

(** The grammar on tokens. *)
Definition single (k : lextok) : @lang lextok := fun ts => ts = [k].
Definition noblank : @lang lextok := nothing.

Ltac inv_lang :=
  repeat match goal with
  | H : (_ ;; _) _ |- _ => let x := fresh "x" in let y := fresh "y" in let A := fresh "A" in let B := fresh "B" in destruct H as (x & y & -> & A & B)
  | H : nothing _ |- _ => unfold nothing in H; subst
  | H : noblank _ |- _ => unfold noblank, nothing in H; subst
  | H : single _ _ |- _ => unfold single in H; subst
  | H : op single _ _ |- _ => unfold op, single in H; subst
  | H : int single _ _ |- _ => unfold int, single in H; subst
  | H : x_root single _ _ |- _ => unfold x_root, op, single in H; subst
  | H : either _ _ _ |- _ => destruct H as [H|H]
  end; cbn [app] in *.

Definition h_any (k : lextok) : bool := negb (compares k).
Definition h_seg (k : lextok) : bool := negb (compares k) && negb (wordish k).
Definition h_sep (k : lextok) : bool := negb (compares k) && negb (wordish k) && negb (dotted k).
Definition l_any (k : lextok) : bool := negb (compares k) && match fst k with LxOp => negb (bytes_eqb (snd k) op_not) | _ => true end.
Definition l_seg (k : lextok) : bool := l_any k && match fst k with LxNull | LxBool | LxInt | LxNumber => false | _ => true end.
Definition always (k : lextok) : bool := true.

Lemma adj_any_sep : forall k k', h_sep k' = true -> adjacent k k' = true.
Proof.
  intros k k' H. unfold h_sep in H. apply andb_true_iff in H as [H H3]. apply andb_true_iff in H as [H1 H2]. unfold adjacent.
  rewrite H1, H2, H3. destruct (fst k); try reflexivity. now rewrite orb_true_r.
Qed.
Lemma adj_seg : forall k k', l_seg k = true -> h_seg k' = true -> adjacent k k' = true.
Proof.
  intros k k' H H'. unfold h_seg in H'. apply andb_true_iff in H' as [H1 H2]. unfold l_seg, l_any in H. unfold adjacent. rewrite H1, H2.
  destruct (fst k); try reflexivity; try (rewrite orb_true_r; reflexivity); rewrite ?andb_false_r in H; discriminate.
Qed.
Lemma adj_any_cmp : forall k t, l_any k = true -> adjacent k (LxCmp, t) = true.
Proof.
  intros [[| | | | | | | | | | |] u] t H; unfold adjacent, l_any in *; cbn in *; try reflexivity; try discriminate. now rewrite H.
Qed.
Lemma adj_cmp_any : forall k' t, h_any k' = true -> adjacent (LxCmp, t) k' = true.
Proof. intros k' t H. exact H. Qed.
Lemma adj_op_any : forall k' t, h_any k' = true -> adjacent (LxOp, t) k' = true.
Proof. intros k' t H. unfold adjacent. cbn. unfold h_any in H. rewrite H. apply orb_true_r. Qed.

Lemma last_cons : forall (ts : list lextok) k d d', last (k :: ts) d = last (k :: ts) d'.
Proof. induction ts as [|a ts IH]; intros k d d'; [reflexivity|]. change (last (a :: ts) d = last (a :: ts) d'). apply IH. Qed.
Definition frag (h l : lextok -> bool) (ts : list lextok) : Prop :=
  chain ts /\ match ts with [] => False | k :: r => h k = true /\ l (last (k :: r) k) = true end.
Lemma frag_one : forall h l k, h k = true -> l k = true -> frag h l [k].
Proof. intros h l k H L. repeat split; assumption. Qed.
Lemma frag_weak : forall (h l h' l' : lextok -> bool) ts, frag h l ts -> (forall k, h k = true -> h' k = true) -> (forall k, l k = true -> l' k = true) -> frag h' l' ts.
Proof. intros h l h' l' [|k ts] [C F] H L; [destruct F|]. destruct F as [F1 F2]. repeat split; [apply C|apply C|now apply H|now apply L]. Qed.
Lemma chain_app : forall a b, chain a -> chain b -> (forall k k' r, a <> [] -> last a k = k -> b = k' :: r -> adjacent k k' = true) -> chain (a ++ b).
Proof.
  induction a as [|k a IH]; intros b A B H; [exact B|]. cbn [app chain]. destruct A as [A1 A2]. split.
  - destruct a as [|k2 a]; [|exact A1]. cbn [app]. destruct b as [|k' b]; [exact I|]. apply (H k k' b); [discriminate|reflexivity|reflexivity].
  - apply IH; [exact A2|exact B|]. intros q q' r N L E. apply (H q q' r); [discriminate| |exact E]. destruct a as [|k2 a]; [congruence|exact L].
Qed.
Lemma frag_app : forall h l h' l' a b, frag h l a -> frag h' l' b -> (forall k k', l k = true -> h' k' = true -> adjacent k k' = true) -> frag h l' (a ++ b).
Proof.
  intros h l h' l' [|k a] [|k' b] [A FA] [B FB] H; try contradiction. destruct FA as [A1 A2], FB as [B1 B2]. split.
  - apply chain_app; [exact A|exact B|]. intros q q' r _ L E. injection E as <- <-. apply H; [|exact B1]. rewrite (last_cons a k q k) in L. now rewrite <- L.
  - cbn [app]. split; [exact A1|]. assert (E : forall c d, last (c ++ k' :: b) d = last (k' :: b) k').
    { induction c as [|x c IH]; intro d; [apply last_cons|]. cbn [app]. rewrite <- (IH d). destruct c; reflexivity. }
    change (k :: a ++ k' :: b) with ((k :: a) ++ k' :: b). now rewrite E.
Qed.
Lemma frag_every : forall T (f : T -> @lang lextok) h l h' l' (L : list T), Forall (fun x => forall ts, f x ts -> frag h' l' ts) L ->
  (forall k k', l k = true -> h' k' = true -> adjacent k k' = true) -> (forall k, l' k = true -> l k = true) ->
  forall a ts, frag h l a -> every f L ts -> frag h l (a ++ ts).
Proof.
  intros T f h l h' l' L F H W. induction F as [|x L X F IH]; intros a ts A E; cbn [every] in E.
  - unfold nothing in E. subst. now rewrite app_nil_r.
  - destruct E as (b & c & -> & B & C). rewrite app_assoc. apply IH; [|exact C]. eapply frag_app; [exact A| |exact H]. eapply frag_weak; [now apply X|auto|exact W].
Qed.
Lemma seg_sep : forall k, h_seg k = true -> h_any k = true.
Proof. intros k H. unfold h_seg, h_any in *. now apply andb_true_iff in H. Qed.
Lemma l_seg_any : forall k, l_seg k = true -> l_any k = true.
Proof. intros k H. unfold l_seg in H. now apply andb_true_iff in H. Qed.
Lemma nothing_cat : forall (x : @lang lextok) ts, (noblank ;; x) ts <-> x ts.
Proof. intros x ts. split; [intros (a & b & -> & -> & H); exact H|intro H; now exists [], ts]. Qed.

Section Frags.
  Variable log : gor -> Prop.
  Definition isfrag (h l : lextok -> bool) (x : @lang lextok) : Prop := forall ts, x ts -> frag h l ts.
  Lemma step_frag : forall s, isfrag h_seg l_seg (x_step single s).
  Proof.
    intros [[t|t]|t|t] ts H; cbn [x_step x_string] in H; inv_lang; repeat split.
  Qed.
  Lemma literal_frag : forall l, isfrag h_any l_any (x_literal single l).
  Proof. intros [t|[t|t]|[|]|] ts H; cbn [x_literal x_string] in H; inv_lang; repeat split. Qed.
  (** A token before or after. *)
  Lemma frag_cons : forall h l h' k ts, frag h l ts -> h' k = true -> (forall k', h k' = true -> adjacent k k' = true) -> frag h' l (k :: ts).
  Proof. intros h l h' k ts F H A. apply (frag_app h' (fun q => match q with (ty, t) => if lextype_eqb ty (fst k) && bytes_eqb t (snd k) then true else false end) h l [k] ts).
    - apply frag_one; [exact H|]. destruct k as [ty t]. cbn. assert (E : bytes_eqb t t = true) by now apply bytes_eqb_eq. rewrite E. now destruct ty.
    - exact F.
    - intros [ty t] k' E Q. destruct k as [ty' t']. cbn in E. destruct (lextype_eqb ty ty') eqn:E1; [|discriminate]. destruct (bytes_eqb t t') eqn:E2; [|discriminate].
      apply bytes_eqb_eq in E2 as ->. assert (ty = ty') as -> by (destruct ty, ty'; try discriminate; reflexivity). now apply A.
  Qed.
  Lemma frag_snoc : forall h l l' k ts, frag h l ts -> h_sep k = true -> l' k = true -> frag h l' (ts ++ [k]).
  Proof. intros h l l' k ts F S L. apply (frag_app h l h_sep l' ts [k]); [exact F|now apply frag_one|]. intros a b _ B. now apply adj_any_sep. Qed.
  Lemma op_cons : forall l h' t ts, frag h_any l ts -> h' (LxOp, t) = true -> frag h' l ((LxOp, t) :: ts).
  Proof. intros l h' t ts F H. apply (frag_cons h_any l); [exact F|exact H|]. intros k' K. now apply adj_op_any. Qed.

  Lemma items_frag : forall T (f : T -> @lang lextok) sep l, (sep = op_comma \/ sep = op_and \/ sep = op_or) -> Forall (fun x => isfrag h_any l_any (f x)) l -> forall a ts,
    frag h_any l_any a -> every (fun x => noblank ;; op single sep ;; noblank ;; f x) l ts -> frag h_any l_any (a ++ ts).
  Proof.
    intros T f sep l SEP F a ts A E. eapply (frag_every T _ h_any l_any h_sep l_any l); [| |auto|exact A|exact E].
    - eapply Forall_impl; [|exact F]. intros x X us U. inv_lang. apply op_cons; [now apply X|]. destruct SEP as [->|[->| ->]]; reflexivity.
    - intros k k' _ K. now apply adj_any_sep.
  Qed.
  Lemma not_frag : forall n ts us, x_not single noblank n ts -> frag h_any l_any us -> frag h_any l_any (ts ++ us).
  Proof. intros [|] ts us H F; cbn [x_not] in H; inv_lang; [|exact F]. now apply op_cons. Qed.
  Lemma bracket_frag : forall open a l ts, (open = op_open_square \/ open = op_desc_open) -> isfrag h_any l_any (x_selector single noblank log a) ->
    Forall (fun x => isfrag h_any l_any (x_selector single noblank log x)) l ->
    (op single open ;; noblank ;; x_selector single noblank log a ;; every (fun s => noblank ;; op single op_comma ;; noblank ;; x_selector single noblank log s) l ;; noblank ;; op single op_close_square) ts ->
    frag h_seg l_seg ts.
  Proof.
    intros open a l ts O A L H. inv_lang. rewrite app_assoc. apply op_cons; [|destruct O as [->| ->]; reflexivity].
    apply (frag_snoc h_any l_any l_seg); [|reflexivity|reflexivity]. eapply items_frag; [now left|exact L|now apply A|eassumption].
  Qed.

  Lemma frags :
    (forall q, isfrag h_seg l_seg (x_query single noblank log q)) /\ (forall g, isfrag h_seg l_seg (x_segment single noblank log g)) /\
    (forall s, isfrag h_any l_any (x_selector single noblank log s)) /\ (forall e, isfrag h_any l_any (x_or single noblank log e)) /\
    (forall e, isfrag h_any l_any (x_and single noblank log e)) /\ (forall e, isfrag h_any l_any (x_basic single noblank log e)) /\
    (forall v, isfrag h_any l_any (x_comparable single noblank log v)) /\ (forall f, isfrag h_any l_seg (x_call single noblank log f)) /\
    (forall a, isfrag h_any l_any (x_argument single noblank log a)).
  Proof.
    apply grammar_ind; intros; intros ts HT; autorewrite with rules in HT.
    - inv_lang. eapply (frag_every _ _ h_seg l_seg h_seg l_seg segs) with (a := [_]); [| |auto| |eassumption].
      + eapply Forall_impl; [|exact H]. intros g G us U. apply (proj1 (nothing_cat _ _)) in U. now apply G.
      + apply adj_seg.
      + destruct r; now apply frag_one.
    - eapply bracket_frag; [now left|exact H|exact H0|exact HT].
    - inv_lang. now apply frag_one.
    - inv_lang. now apply frag_one.
    - eapply bracket_frag; [now right|exact H|exact H0|exact HT].
    - inv_lang. now apply frag_one.
    - inv_lang. now apply frag_one.
    - destruct n as [t|t]; cbn [x_string] in HT; inv_lang; now apply frag_one.
    - inv_lang. now apply frag_one.
    - destruct a as [a|], b as [b|], s as [s|]; cbn [x_bound x_slice_step] in HT; inv_lang; repeat split.
    - inv_lang. now apply frag_one.
    - inv_lang. apply op_cons; [now apply H|reflexivity].
    - inv_lang. eapply items_frag; [now right; right|exact H0|now apply H|eassumption].
    - inv_lang. eapply items_frag; [now right; left|exact H0|now apply H|eassumption].
    - inv_lang. apply (not_frag n); [assumption|]. apply op_cons; [|reflexivity]. apply (frag_snoc h_any l_any l_any); [now apply H|reflexivity|reflexivity].
    - inv_lang. eapply frag_app with (h' := compares) (l' := l_any); [now apply H| |].
      + apply (frag_cons h_any l_any); [now apply H0|reflexivity|]. intros k' K. now apply adj_cmp_any.
      + intros k [[| | | | | | | | | | |] t] L C; try discriminate. now apply adj_any_cmp.
    - inv_lang. apply (not_frag n); [assumption|]. eapply frag_weak; [now apply H|apply seg_sep|apply l_seg_any].
    - inv_lang. apply (not_frag n); [assumption|]. eapply frag_weak; [now apply H|auto|apply l_seg_any].
    - now apply literal_frag in HT.
    - inv_lang. eapply frag_weak; [|apply seg_sep|apply l_seg_any].
      eapply (frag_every _ _ h_seg l_seg h_seg l_seg l) with (a := [_]); [| |auto| |eassumption].
      + clear. induction l as [|s l IH]; constructor; [|exact IH]. intros us U. apply (proj1 (nothing_cat _ _)) in U. now apply step_frag in U.
      + apply adj_seg.
      + destruct r; now apply frag_one.
    - eapply frag_weak; [now apply H|auto|apply l_seg_any].
    - destruct args as [|a args]; autorewrite with rules in HT; inv_lang; [repeat split|]. inversion H; subst. 
      apply (frag_cons h_any l_seg); [|reflexivity|reflexivity].
      apply (frag_snoc h_any l_any l_seg); [|reflexivity|reflexivity]. eapply items_frag; [now left|eassumption|auto|eassumption].
    - now apply literal_frag in HT.
    - eapply frag_weak; [now apply H|apply seg_sep|apply l_seg_any].
    - destruct HT as [_ HT]. now apply H.
    - eapply frag_weak; [now apply H|auto|apply l_seg_any].
  Qed.
  Theorem query_chain : forall q ts, x_query single noblank log q ts -> chain ts.
  Proof. intros q ts H. apply frags in H. apply H. Qed.
End Frags.

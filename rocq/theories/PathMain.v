(** The evaluators and segments of a compiled query do what [sem_seg],
    [sem_cond], ... say, on the values on which they are [fine]. *)
From Coq Require Import List ZArith NArith Arith Bool Lia.
From Verif Require Import Base Tokens JsonSpec EncSpec ScalarModel CursorModel IterModel IterSpec IterCore IterThr IterRel IterSound
  ScriptSpec ScriptProofs IterLib EqualSpec EqualModel EqualProofs P_Scalar P_Equal UseLib SelectModel PathModel PathAbs PathFacts PathPure PathSim PathDisp PathLoop PathBody PathSing PathComp PathFun.
Open Scope iprog_scope.

Definition own (c : operand) : bool := match c with MSing _ => true | _ => false end.
Definition plain_query (q : query) : Prop := match q with QFirst (Some s) => plain_seg s | _ => True end.
Definition simple_query (q : query) : Prop := match q with QFirst (Some s) => simple_seg s | _ => True end.

Section Main.
Variable find : bytes -> bytes -> option (nat * nat).
Variable sing : list (option jval).
Variable inner : list (list jval).
Notation sem_seg := (sem_seg find sing inner).
Notation sem_sel := (sem_sel find sing inner).
Notation sem_cond := (sem_cond find sing inner).
Notation sem_comp := (sem_comp find sing inner).
Notation sem_query := (sem_query find sing inner).
Notation after := (after find sing inner).

Definition picked (s : selector) (look : Z) (x : jval) : list jval := picks (sem_sel s) s (annot look x (fun _ => tt)).

Inductive fine_seg : segment -> jval -> Prop :=
| fine_Seg : forall sels look desc strict following x,
    keys_ok x ->
    (desc = true -> one_forward sels) ->
    (desc = true -> forall y, In y (map snd (items x)) -> fine_seg (Seg sels look desc strict following) y) ->
    (forall c y, In (SFilter c) sels -> In y (map snd (items x)) -> fine_cond c y) ->
    (forall fs, following = Some fs -> forall s y, In s sels -> In y (picked s look x) -> fine_seg fs y) ->
    (existsb sel_reverses sels = true -> forall s y, In s sels -> In y (picked s look x) -> Forall is_scalar (after following y)) ->
    fine_seg (Seg sels look desc strict following) x
with fine_cond : cond -> jval -> Prop :=
| fine_or : forall l x, (forall c, In c l -> fine_cond c x) -> fine_cond (COr l) x
| fine_and : forall l x, (forall c, In c l -> fine_cond c x) -> fine_cond (CAnd l) x
| fine_not : forall c x, fine_cond c x -> fine_cond (CNot c) x
| fine_cmp : forall a eq lt neg b x, fine_comp a x -> fine_comp b x ->
    (eq = true -> eq_fine (sem_comp a x) (sem_comp b x)) -> (lt = true -> less_fine (sem_comp a x) (sem_comp b x)) ->
    fine_cond (CComp a eq lt neg b) x
| fine_exists : forall q x, fine_query q x -> plain_query q -> fine_cond (CQuery q) x
| fine_text : forall f a b x l, f = FMatch \/ f = FSearch -> fine_comp a x -> fine_comp b x ->
    match_index find (as_arg (sem_comp a x)) (as_arg (sem_comp b x)) = Ok l ->
    fine_cond (CFun f [AVal a; AVal b]) x
with fine_comp : operand -> jval -> Prop :=
| fine_lit : forall s x, fine_comp (MLit s) x
| fine_sing : forall l x, sing_ok l x -> fine_comp (MSing l) x
| fine_inner : forall i x, i < length sing -> fine_comp (MInner i) x
| fine_length : forall c x, fine_comp c x -> (own c = true \/ flat (sem_comp c x)) -> text_fine (sem_comp c x) -> fine_comp (MFun FLength [AVal c]) x
| fine_count : forall q x, fine_query q x -> simple_query q -> fine_comp (MFun FCount [ANodes q]) x
| fine_value : forall q x, fine_query q x -> plain_query q -> (forall y, sem_query q x = [y] -> is_scalar y) -> fine_comp (MFun FValue [ANodes q]) x
with fine_query : query -> jval -> Prop :=
| fine_self : forall x, fine_query (QFirst None) x
| fine_first : forall s x, fine_seg s x -> fine_query (QFirst (Some s)) x
| fine_list : forall i x, i < length inner -> fine_query (QInner i) x.

Scheme fine_seg_min := Minimality for fine_seg Sort Prop
  with fine_cond_min := Minimality for fine_cond Sort Prop
  with fine_comp_min := Minimality for fine_comp Sort Prop
  with fine_query_min := Minimality for fine_query Sort Prop.
Combined Scheme fine_ind from fine_seg_min, fine_cond_min, fine_comp_min, fine_query_min.

(** Enough fuel. *)
Lemma fuel_list : forall A (l : list A) (P : nat -> A -> Prop), (forall a, In a l -> exists N, forall n, N <= n -> P n a) ->
  exists N, forall n, N <= n -> forall a, In a l -> P n a.
Proof.
  intros A. induction l as [|a l IH]; intros P H; [exists 0; intros n _ a []|].
  destruct (H a (or_introl eq_refl)) as [N1 H1]. destruct (IH P (fun b B => H b (or_intror B))) as [N2 H2].
  exists (N1 + N2). intros n L b [<-|B]; [apply H1; lia|apply H2; [lia|exact B]].
Qed.
Lemma fuel_if : forall (C : Prop) (P : nat -> Prop), C \/ ~ C -> (C -> exists N, forall n, N <= n -> P n) -> exists N, forall n, N <= n -> C -> P n.
Proof.
  intros C P [Y|Y] H; [destruct (H Y) as [N K]; exists N; auto|exists 0; intros n _ c; contradiction].
Qed.

Lemma picks_rel : forall A B h s (a : list (item A)) (b : list (item B)), Forall2 (fun i j => it_dec i = it_dec j /\ it_val i = it_val j) a b -> picks h s a = picks h s b.
Proof.
  intros A B h s a b H. induction H as [|i j a b [E1 E2] H IH]; [reflexivity|]. cbn [picks]. unfold takes_item. now rewrite E1, E2, IH.
Qed.
Lemma picks_annot : forall A B h s look x (f : jval -> A) (g : jval -> B), picks h s (annot look x f) = picks h s (annot look x g).
Proof. intros A B h s look x f g. apply picks_rel, annot_rel. intros dec y _. now split. Qed.
Lemma picks_in : forall A h s (a : list (item A)) y, In y (picks h s a) -> In y (map it_val a).
Proof.
  intros A h s. induction a as [|i a IH]; intros y J; [exact J|]. cbn [picks map] in *. apply in_app_or in J as [J|J].
  - destruct (takes_item h s i); [destruct J as [<-|[]]; now left|destruct J].
  - destruct (d_nomore _); [destruct J|right; auto].
Qed.
Lemma picked_in : forall s look x y, In y (picked s look x) -> In y (map snd (items x)).
Proof. intros s look x y J. rewrite <- (annot_vals _ look x (fun _ => tt)). eapply picks_in. exact J. Qed.

Lemma annot_res : forall A (f : jval -> A) look x i, In i (annot look x f) -> it_res i = f (it_val i) /\ exists j, In j (annot look x (fun _ => tt)) /\ it_dec j = it_dec i.
Proof.
  intros A f look x i J.
  assert (H := annot_rel _ _ (fun (a : item A) (b : item unit) => it_dec a = it_dec b /\ it_res a = f (it_val a)) f (fun _ => tt) look x (fun _ _ _ => conj eq_refl eq_refl)).
  induction H as [|a b l l' [H1 H2] H IH]; [destruct J|]. destruct J as [<-|J].
  - split; [exact H2|]. exists b. split; [now left|congruence].
  - destruct (IH J) as [R [j [K E]]]. split; [exact R|]. exists j. split; [now right|exact E].
Qed.

Definition sound (dec : selector -> decision) : Prop :=
  forall s, match s with SFilter _ => dec s = dont_know | _ => d_yes (dec s) = true \/ d_no (dec s) = true end.
Lemma index_sound : forall i n, sound (selects_index i n).
Proof.
  intros i n [name| |p|c]; cbn; auto. unfold selects_from_index. destruct p; cbn.
  all: repeat match goal with |- context [if ?b then _ else _] => destruct b end; cbn; auto.
Qed.
Lemma key_sound : forall k, sound (selects_key k).
Proof. intros k [name| |p|c]; cbn; auto. destruct (bytes_eqb _ _); cbn; auto. Qed.
Lemma annot_sound : forall A (f : jval -> A) look x i, In i (annot look x f) -> sound (it_dec i).
Proof.
  intros A f look [s|l e|l e] i J; cbn [annot] in J; [destruct J| |].
  - revert J. generalize (start_look look (length l) (min64 + 1)), 0%Z. generalize (map (fun y => (y, f y)) l). intro ys. induction ys as [|y ys IH]; intros s k J; [destruct J|].
    cbn [annot_arr] in J. destruct J as [<-|J]; [apply index_sound|eauto].
  - unfold annot_obj in J. apply in_map_iff in J as [m [<- _]]. apply key_sound.
Qed.

(* ------------------------------------------------------------------ *)
(** Scalars only. *)
Lemma forall_flat : forall A B (P : B -> Prop) (f : A -> list B) l, Forall P (flat_map f l) -> forall a, In a l -> Forall P (f a).
Proof. intros A B P f l H a J. apply Forall_forall. intros b K. rewrite Forall_forall in H. apply H, in_flat_map. eauto. Qed.
Lemma scalars_picks : forall (P : jval -> Prop) sels (its : list (item (list jval))) following, Forall P (child sem_sel (after following) sels its) ->
  forall s y, In s sels -> In y (picks (sem_sel s) s its) -> Forall P (after following y).
Proof.
  intros P sels its following H s y J K. pose proof (forall_flat _ _ _ _ _ H s J) as H1. unfold ordered in H1. cbv beta in H1.
  destruct (sel_reverses s); [apply Forall_rev in H1; rewrite rev_involutive in H1|]; eapply forall_flat; eassumption.
Qed.
Lemma scalars_mixed : forall (P : jval -> Prop) h f s (its : list (item (list jval))), Forall P (mixed h f s its) ->
  (forall y, In y (picks h s its) -> Forall P (f y)) /\ (forall i, In i its -> Forall P (it_res i)).
Proof.
  intros P h f s. induction its as [|i its IH]; intro H; [split; intros ? []|]. cbn [mixed picks] in *.
  apply Forall_app in H as [H1 H]. apply Forall_app in H as [H2 H3]. split.
  - intros y J. apply in_app_or in J as [J|J].
    + destruct (takes_item h s i); [destruct J as [<-|[]]; exact H1|destruct J].
    + destruct (d_nomore _); [destruct J|]. now apply IH.
  - intros j [<-|J]; [exact H2|]. destruct (d_nomore _); [now apply (forall_flat _ _ _ _ _ H3)|now apply IH].
Qed.
Lemma scalars_of : forall (P : jval -> Prop) sels look desc strict following x, let seg := Seg sels look desc strict following in
  (desc = true -> one_forward sels) -> Forall P (sem_seg seg x) ->
  (forall s y, In s sels -> In y (picked s look x) -> Forall P (after following y)) /\
  (desc = true -> forall y, In y (map snd (items x)) -> Forall P (sem_seg seg y)).
Proof.
  intros P sels look desc strict following x seg OF H. unfold seg in H. rewrite sem_seg_eq in H. fold seg in H. cbv zeta in H.
  set (its := annot look x (sem_seg seg)) in *.
  assert (PK : forall s, picked s look x = picks (sem_sel s) s its) by (intro s; apply picks_annot).
  assert (RS : (forall i, In i its -> Forall P (it_res i)) -> forall y, In y (map snd (items x)) -> Forall P (sem_seg seg y)).
  { intros R y J. rewrite <- (annot_vals _ look x (sem_seg seg)) in J. apply in_map_iff in J as [i [<- J]].
    rewrite <- (proj1 (annot_res _ _ _ _ _ J)). now apply R. }
  destruct desc.
  - destruct (OF eq_refl) as [s0 [-> F]]. destruct strict.
    + apply Forall_app in H as [H1 H2]. split.
      * intros s y J K. rewrite PK in K. eapply scalars_picks; eassumption.
      * intros _. apply RS. intros i J. exact (forall_flat _ _ _ _ _ H2 i J).
    + apply scalars_mixed in H as [H1 H2]. split; [|intros _; now apply RS]. intros s y [<-|[]] K. rewrite PK in K. auto.
  - split; [|discriminate]. intros s y J K. rewrite PK in K. eapply scalars_picks; eassumption.
Qed.

(* ------------------------------------------------------------------ *)
Section Ctx.
Variable ctx : context.
Notation ctx_rel := (ctx_rel ctx sing inner).
Notation good_step := (good_step ctx sing inner).
Notation peek := (peek ctx sing inner).
Notation answers := (answers ctx sing inner).
Notation tv := (transform_value find ctx).
Notation ev := (eval_cond find ctx).
Notation ec := (eval_comp find ctx).

Lemma good_tail_intro : forall tv0 ev0 following fa seg desc sb sb' (its : list aitem) (P : selector -> Prop),
  (forall i, In i its -> good_common ctx sing inner tv0 fa seg desc sb' i) ->
  (forall e y, P (SFilter e) -> In y (map it_val its) -> peek (ev0 e) y (sem_sel (SFilter e) y)) ->
  (forall s y, P s -> In y (picks (sem_sel s) s its) -> good_step sb (fprog tv0 following) y (fa y)) ->
  good_tail ctx sing inner tv0 ev0 sem_sel following fa seg desc sb sb' P its.
Proof.
  intros tv0 ev0 following fa seg desc sb sb'. induction its as [|i its IH]; intros P GC GF GS; [exact Logic.I|]. cbn [good_tail].
  split; [apply GC; now left|]. split.
  - intros s PS. split; [intros e ->; apply GF; [exact PS|now left]|]. intro T. apply (GS s); [exact PS|]. cbn [picks]. rewrite T. now left.
  - apply IH; [intros j J; apply GC; now right|intros e y [PS _] J; apply GF; [exact PS|now right]|].
    intros s y [PS NM] J. apply (GS s); [exact PS|]. cbn [picks]. apply in_or_app. right. now rewrite NM.
Qed.

Lemma ev_fun : forall n f args v, ev (S n) (CFun f args) v =
  ilet r <- run_fun find ctx (tv n) (ec n) (ev n) n f args v ; match r with FBool b => IRet b | FVal _ => IPanic end.
Proof. reflexivity. Qed.
Lemma ec_fun : forall n f args v, ec (S n) (MFun f args) v =
  ilet r <- run_fun find ctx (tv n) (ec n) (ev n) n f args v ; match r with FVal o => IRet o | FBool _ => IPanic end.
Proof. reflexivity. Qed.
Lemma ev_not : forall n c v, ev (S n) (CNot c) v = ilet b <- ev n c v ; IRet (negb b).
Proof. reflexivity. Qed.
Lemma feed_one : forall Q x, feed Q [x] = aprocess Q x.
Proof. intros Q x. cbn [feed]. destruct (aprocess Q x) as [Q' []]; reflexivity. Qed.
Lemma query_plain : forall q x Q, plain_query q -> aquery inner sem_sel q x Q = feed Q (sem_query q x).
Proof.
  intros [[s|]|i] x Q H; cbn [aquery plain_query] in *.
  - now apply plain_steps.
  - symmetry. apply feed_one.
  - cbn. destruct (nth_error inner i) as [l|]; reflexivity.
Qed.
Lemma query_total : forall q x Q, simple_query q -> total Q -> aquery inner sem_sel q x Q = feed Q (sem_query q x).
Proof.
  intros [[s|]|i] x Q H T; cbn [aquery simple_query] in *.
  - now apply total_steps.
  - symmetry. apply feed_one.
  - cbn. destruct (nth_error inner i) as [l|]; reflexivity.
Qed.
Lemma feed_halt : forall l, snd (feed PHalt l) = match l with [] => true | _ => false end.
Proof. intros [|x l]; reflexivity. Qed.
Lemma feed_count : forall l n, fst (feed (PCount n) l) = PCount (n + N.of_nat (length l))%N.
Proof.
  induction l as [|x l IH]; intro n; cbn [feed length aprocess]; [cbn; now rewrite N.add_0_r|]. rewrite IH. f_equal. lia.
Qed.
Lemma feed_value : forall l, fst (feed (PValue None) l) = PValue (match l with [y] => Some y | _ => None end).
Proof. intros [|x [|y l]]; reflexivity. Qed.

Lemma own_weaken : forall p x o, answers true p x o -> forall b, answers b p x o.
Proof.
  intros p x o H b t it v ids idsC F CR SC. destruct (H t it v ids idsC F CR SC) as [t' [it' [r [ids' [R [C [N [IE [A|[D _]]]]]]]]]]; [|discriminate].
  exists t', it', r, ids'. split; [exact R|]. split; [exact C|]. split; [exact N|]. split; [exact IE|]. now left.
Qed.
Lemma answers_flat : forall p x o, flat o -> (forall t it v ids idsC, fresh t v x ids -> ctx_rel t it idsC -> sep idsC ids ->
    exists t' it' ids', spec_run (p v) (mkSt t it) = Some (mkSt t' it', sval_of o) /\ change t t' ids /\ newer t None ids ids' /\ iext it it' /\ chain t' v ids') ->
  answers false p x o.
Proof.
  intros p x o FO H t it v ids idsC F CR SC. destruct (H t it v ids idsC F CR SC) as [t' [it' [ids' [R [C [N [IE CH]]]]]]].
  exists t', it', (sval_of o), ids'. split; [exact R|]. split; [exact C|]. split; [exact N|]. split; [exact IE|]. right.
  split; [reflexivity|]. split; [exact CH|]. destruct o as [[s|l e|l e]|]; try contradiction; cbn; [|exact Logic.I]. exists []. split; [now split|intros j []].
Qed.

Lemma any_ok : forall ev0 x l, (forall c, In c l -> peek (ev0 c) x (sem_cond c x)) -> peek (any_true ev0 l) x (existsb (fun c => sem_cond c x) l).
Proof.
  intros ev0 x. induction l as [|c l IH]; intros H t it v ids idsC F CR.
  - exists t, it. cbn. split; [reflexivity|]. split; [apply change_refl|apply iext_refl].
  - cbn [any_true existsb]. rewrite spec_bind. destruct (H c (or_introl eq_refl) t it v ids idsC F CR) as [t1 [it1 [-> [C1 E1]]]]. cbn [obind].
    destruct (sem_cond c x); [exists t1, it1; auto|]. cbn [orb].
    assert (B : forall j, In j ids -> j < length t) by (intros j J; exact (fresh_lt _ _ _ _ _ F J)).
    assert (F1 : fresh t1 v x ids) by (eapply fresh_frame; [exact F|same C1]). assert (LE := cg_len _ _ _ C1).
    assert (CR1 : ctx_rel t1 it1 idsC) by (eapply ctx_frame; [exact CR|same C1|exact E1|exact LE]).
    destruct (IH (fun d D => H d (or_intror D)) t1 it1 v ids idsC F1 CR1) as [t2 [it2 [-> [C2 E2]]]]. exists t2, it2. split; [reflexivity|].
    split; [eapply change_trans; eassumption|eapply iext_trans; eassumption].
Qed.
Lemma all_ok : forall ev0 x l, (forall c, In c l -> peek (ev0 c) x (sem_cond c x)) -> peek (all_true ev0 l) x (forallb (fun c => sem_cond c x) l).
Proof.
  intros ev0 x. induction l as [|c l IH]; intros H t it v ids idsC F CR.
  - exists t, it. cbn. split; [reflexivity|]. split; [apply change_refl|apply iext_refl].
  - cbn [all_true forallb]. rewrite spec_bind. destruct (H c (or_introl eq_refl) t it v ids idsC F CR) as [t1 [it1 [-> [C1 E1]]]]. cbn [obind].
    destruct (sem_cond c x); [|exists t1, it1; auto]. cbn [andb].
    assert (B : forall j, In j ids -> j < length t) by (intros j J; exact (fresh_lt _ _ _ _ _ F J)).
    assert (F1 : fresh t1 v x ids) by (eapply fresh_frame; [exact F|same C1]). assert (LE := cg_len _ _ _ C1).
    assert (CR1 : ctx_rel t1 it1 idsC) by (eapply ctx_frame; [exact CR|same C1|exact E1|exact LE]).
    destruct (IH (fun d D => H d (or_intror D)) t1 it1 v ids idsC F1 CR1) as [t2 [it2 [-> [C2 E2]]]]. exists t2, it2. split; [reflexivity|].
    split; [eapply change_trans; eassumption|eapply iext_trans; eassumption].
Qed.

End Ctx.
(** Enough fuel, whatever the values of the inner queries are. *)
Notation good_step ctx := (PathSim.good_step ctx sing inner).
Notation peek ctx := (PathDisp.peek ctx sing inner).
Notation answers ctx := (PathComp.answers ctx sing inner).
Notation tv ctx := (transform_value find ctx).
Notation ev ctx := (eval_cond find ctx).
Notation ec ctx := (eval_comp find ctx).
Definition seg_goal (seg : segment) (x : jval) : Prop :=
  forall sb, (sb = true -> Forall is_scalar (sem_seg seg x)) -> exists N, forall n, N <= n -> forall ctx, good_step ctx sb (tv ctx n seg) x (atrans sem_sel seg x).
Definition cond_goal (c : cond) (x : jval) : Prop := exists N, forall n, N <= n -> forall ctx, peek ctx (ev ctx n c) x (sem_cond c x).
Definition comp_goal (c : operand) (x : jval) : Prop := exists N, forall n, N <= n -> forall ctx, answers ctx (own c) (ec ctx n c) x (sem_comp c x).
Definition query_goal (q : query) (x : jval) : Prop :=
  exists N, forall n, N <= n -> forall ctx, good_step ctx false (fun v P => map_value ctx (tv ctx n) n q v P) x (aquery inner sem_sel q x).

Lemma follow_ok : forall sb following y, (sb = true -> Forall is_scalar (after following y)) ->
  (forall fs, following = Some fs -> seg_goal fs y) ->
  exists N, forall n, N <= n -> forall ctx, good_step ctx sb (fprog (tv ctx n) following) y (afollow sem_sel following y).
Proof.
  intros sb [fs|] y SC H; cbn [fprog afollow PathAbs.after] in *; [now apply (H fs)|]. exists 0. intros n _ ctx L t it v ids P Q idsP idsC F PR S1 CR S2 S3.
  apply (process_ok P sb y); auto. intro E. specialize (SC E). inversion SC as [|? ? A _]; subst. destruct y as [s| |]; try contradiction. eauto.
Qed.

Lemma seg_ok : forall sels look desc strict following x, keys_ok x ->
  (desc = true -> one_forward sels) ->
  (desc = true -> forall y, In y (map snd (items x)) -> seg_goal (Seg sels look desc strict following) y) ->
  (forall c y, In (SFilter c) sels -> In y (map snd (items x)) -> cond_goal c y) ->
  (forall fs, following = Some fs -> forall s y, In s sels -> In y (picked s look x) -> seg_goal fs y) ->
  (existsb sel_reverses sels = true -> forall s y, In s sels -> In y (picked s look x) -> Forall is_scalar (after following y)) ->
  seg_goal (Seg sels look desc strict following) x.
Proof.
  intros sels look desc strict following x KO OF HD HF HN RV sb' SC. set (seg := Seg sels look desc strict following) in *.
  set (sb := existsb sel_reverses sels || sb').
  assert (SS : forall s y, In s sels -> In y (picked s look x) -> sb = true -> Forall is_scalar (after following y)).
  { intros s y J K E. unfold sb in E. apply orb_true_iff in E as [E|E]; [eauto|]. destruct (scalars_of is_scalar sels look desc strict following x OF (SC E)) as [A _]. eauto. }
  assert (SD : desc = true -> forall y, In y (map snd (items x)) -> sb' = true -> Forall is_scalar (sem_seg seg y)).
  { intros D y J E. exact (proj2 (scalars_of is_scalar sels look desc strict following x OF (SC E)) D y J). }
  assert (F1 : exists N, forall n, N <= n -> forall s, In s sels -> forall y, In y (picked s look x) -> forall ctx, good_step ctx sb (fprog (tv ctx n) following) y (afollow sem_sel following y)).
  { apply fuel_list. intros s J. apply fuel_list. intros y K. apply follow_ok; [intro E; eapply SS; eassumption|intros fs E; eapply HN; eassumption]. }
  assert (F2 : exists N, forall n, N <= n -> forall s, In s sels -> forall y, In y (map snd (items x)) -> forall e, s = SFilter e -> forall ctx, peek ctx (ev ctx n e) y (sem_sel (SFilter e) y)).
  { apply fuel_list. intros s J. apply fuel_list. intros y K. destruct s as [name| |p|c]; try (exists 0; intros n _ e E; discriminate).
    destruct (HF c y J K) as [N H]. exists N. intros n L e E. injection E as <-. exact (H n L). }
  assert (F3 : exists N, forall n, N <= n -> forall y, In y (map snd (items x)) -> desc = true -> forall ctx, good_step ctx sb' (tv ctx n seg) y (atrans sem_sel seg y)).
  { apply fuel_list. intros y K. apply fuel_if; [destruct desc; [now left|right; discriminate]|]. intro D. apply HD; auto. }
  destruct F1 as [N1 F1], F2 as [N2 F2], F3 as [N3 F3]. exists (S (S (breadth x) + N1 + N2 + N3)). intros n L ctx. destruct n as [|m]; [lia|].
  change (tv ctx (S m) seg) with (transform_body (tv ctx m) (ev ctx m) m seg). unfold seg at 2. rewrite atrans_eq. fold seg.
  apply (body_ok ctx sing inner (tv ctx m) (ev ctx m) sem_sel (afollow sem_sel following)); [lia|exact KO|].
  apply good_tail_intro.
  - intros i J. split; [exact (annot_sound _ _ _ _ _ J)|]. split; [intro Q; apply follow_keeps|]. intro D.
    rewrite (proj1 (annot_res _ _ _ _ _ J)). apply F3; [lia| |exact D]. rewrite <- (annot_vals _ look x (atrans sem_sel seg)). now apply in_map.
  - intros e y J K. rewrite annot_vals in K. apply (F2 m ltac:(lia) _ J y K e eq_refl).
  - intros s y J K. fold sb. apply (F1 m ltac:(lia) s J y). unfold picked. erewrite picks_annot. exact K.
Qed.

Lemma main : (forall seg x, fine_seg seg x -> seg_goal seg x) /\ (forall c x, fine_cond c x -> cond_goal c x) /\
  (forall c x, fine_comp c x -> comp_goal c x) /\ (forall q x, fine_query q x -> query_goal q x).
Proof.
  apply fine_ind.
  - intros. apply seg_ok; assumption.
  - intros l x _ IH. destruct (fuel_list _ l (fun n c => forall ctx, peek ctx (ev ctx n c) x (sem_cond c x)) IH) as [N H].
    exists (S N). intros [|n] L ctx; [lia|]. apply (any_ok ctx (ev ctx n)). intros c J. apply H; [lia|exact J].
  - intros l x _ IH. destruct (fuel_list _ l (fun n c => forall ctx, peek ctx (ev ctx n c) x (sem_cond c x)) IH) as [N H].
    exists (S N). intros [|n] L ctx; [lia|]. apply (all_ok ctx (ev ctx n)). intros c J. apply H; [lia|exact J].
  - intros c x _ [N H]. exists (S N). intros [|n] L ctx; [lia|]. intros t it v ids idsC F CR. destruct (H n ltac:(lia) ctx t it v ids idsC F CR) as [t1 [it1 [E [C1 I1]]]].
    exists t1, it1. split; [|auto]. rewrite ev_not, spec_bind, E. reflexivity.
  - intros a eq lt neg b x _ [N1 H1] _ [N2 H2] EF LF. exists (S (N1 + N2 + S (osize (sem_comp a x) + osize (sem_comp b x)))). intros [|n] L ctx; [lia|].
    apply (compare_ok ctx sing inner (ec ctx n) n a b (own a) (own b) (sem_comp a x) (sem_comp b x)); [apply H1; lia|apply H2; lia|exact EF|exact LF|lia].
  - intros q x _ [N H] PQ. exists (S N). intros [|n] L ctx; [lia|].
    change (sem_cond (CQuery q) x) with (match sem_query q x with [] => false | _ => true end).
    assert (E : (match sem_query q x with [] => false | _ => true end) = negb (snd (aquery inner sem_sel q x PHalt))).
    { rewrite query_plain by exact PQ. rewrite feed_halt. destruct (sem_query q x); reflexivity. }
    rewrite E. apply (query_ok ctx sing inner sem_sel (tv ctx n) n). apply H. lia.
  - intros f a b x l FF _ [N1 H1] _ [N2 H2] ML. exists (S (N1 + N2)). intros [|n] L ctx; [lia|].
    assert (exists res, input_types f = [TyValue; TyValue] /\ (forall a b, run_function find ctx (tv ctx n) n f [a; b] = ilet l <- of_res (match_index find a b) ; IRet (FBool (res l))) /\
      sem_cond (CFun f [AVal a; AVal b]) x = res l) as [res [IT [RF SE]]].
    { destruct FF as [-> | ->]; eexists; (split; [reflexivity|]; split; [intros; reflexivity|]).
      - change (match located find (sem_comp a x) (sem_comp b x) with Some (i, j) => (i =? 0)%nat && (j =? 0)%Z | None => false end =
                (fun l => match l with Some (i, j) => (i =? 0)%nat && (j =? 0)%Z | None => false end) l). unfold located. now rewrite ML.
      - change (match located find (sem_comp a x) (sem_comp b x) with Some _ => true | None => false end =
                (fun l : option (nat * Z) => match l with Some _ => true | None => false end) l). unfold located. now rewrite ML. }
    intros t it v ids idsC F CR.
    destruct (two_args_ok find ctx sing inner (tv ctx n) (ec ctx n) (ev ctx n) n f res IT RF (own a) (own b) a b x _ _ (H1 n ltac:(lia) ctx) (H2 n ltac:(lia) ctx) l ML t it v ids idsC F CR) as [t1 [it1 [R [C1 I1]]]].
    exists t1, it1. split; [|auto]. rewrite ev_fun, spec_bind, R, SE. reflexivity.
  - intros s x. exists 1. intros [|n] L ctx; [lia|]. apply answers_flat; [exact Logic.I|]. intros t it v ids idsC F CR SC. exists t, it, ids.
    split; [reflexivity|]. split; [apply change_refl|]. split; [apply newer_refl|]. split; [apply iext_refl|eapply fresh_chain; exact F].
  - intros l x SO. destruct (singular_ok l x SO) as [N H]. exists (S N). intros [|n] L ctx; [lia|]. intros t it v ids idsC F CR SC.
    destruct (H n ltac:(lia) t it v ids F) as [t1 [r [ids1 [R [C1 [A NW]]]]]]. exists t1, it, r, ids1. split; [exact R|]. split; [exact C1|]. split; [exact NW|].
    split; [apply iext_refl|]. now left.
  - intros i x LT. exists 1. intros [|n] L ctx; [lia|]. intros t it v ids idsC F CR SC. cbn [eval_comp PathAbs.sem_comp].
    destruct CR as [CS [CQ CB]].
    assert (exists r o, nth_error (cx_singular ctx) i = Some r /\ nth_error sing i = Some o /\ outer t r o idsC) as [r [o [E1 [E2 E3]]]].
    { clear L CQ. revert i LT. induction CS as [|a vs l l' HA CS IHC]; intros i H; [cbn in H; lia|]. destruct i as [|i]; [exists a, vs; auto|].
      cbn [nth_error length] in *. apply IHC. lia. }
    rewrite E1, E2. exists t, it, r, ids. split; [reflexivity|]. split; [apply change_refl|]. split; [apply newer_refl|]. split; [apply iext_refl|]. right.
    split; [reflexivity|]. split; [eapply fresh_chain; exact F|exact E3].
  - intros c x _ [N H] OW TF. exists (S (N + S (obreadth (sem_comp c x)))). intros [|n] L ctx; [lia|]. 
    change (answers ctx false (ec ctx (S n) (MFun FLength [AVal c])) x (length_of (sem_comp c x))). apply answers_flat.
    { destruct (sem_comp c x) as [[s|l e|l e]|]; cbn; try exact Logic.I. destruct (sc_type s); try exact Logic.I. destruct (to_string s); exact Logic.I. }
    intros t it v ids idsC F CR SC.
    destruct (length_ok find ctx sing inner (tv ctx n) (ec ctx n) (ev ctx n) n (own c) c x _ (H n ltac:(lia) ctx) OW TF ltac:(lia) t it v ids idsC F CR) as [t1 [it1 [R [C1 I1]]]].
    exists t1, it1, ids. split; [rewrite ec_fun, spec_bind, R; reflexivity|]. split; [eapply change_weaken; [exact C1|intros j []]|].
    split; [apply newer_refl|]. split; [exact I1|]. assert (B : forall j, In j ids -> j < length t) by (intros j J; exact (fresh_lt _ _ _ _ _ F J)).
    eapply chain_frame; [eapply fresh_chain; exact F|same C1].
  - intros q x _ [N H] SQ. exists (S N). intros [|n] L ctx; [lia|]. change (answers ctx false (ec ctx (S n) (MFun FCount [ANodes q])) x (Some (count_of (sem_query q x)))).
    apply answers_flat; [exact Logic.I|]. intros t it v ids idsC F CR SC.
    destruct (nodes_ok find ctx sing inner (tv ctx n) (ec ctx n) (ev ctx n) n q x _ (PCount 0%N) (PCount 0%N) FCount (H n ltac:(lia) ctx) eq_refl (pr_count _ _ _)
      (fun P => match P with PCount k => IRet (FVal (Some (VScalar (int_scalar k)))) | _ => IPanic end) (sval_of (Some (count_of (sem_query q x))))
      (fun v => eq_refl)) with (t := t) (it := it) (v := v) (ids := ids) (idsC := idsC) as [t1 [it1 [ids1 [R [C1 [NW [CH I1]]]]]]]; auto.
    + intros t0 P' ids0 PR. rewrite query_total in PR by (auto; exact Logic.I). rewrite feed_count in PR. inversion PR; subst. reflexivity.
    + constructor.
    + exists t1, it1, ids1. split; [rewrite ec_fun, spec_bind, R; reflexivity|auto].
  - intros q x _ [N H] PQ SV. exists (S N). intros [|n] L ctx; [lia|].
    change (answers ctx false (ec ctx (S n) (MFun FValue [ANodes q])) x (match sem_function find FValue [SNodes (sem_query q x)] with SVal o => o | _ => None end)).
    set (o := match sem_query q x with [y] => Some y | _ => None end).
    assert (EO : (match sem_function find FValue [SNodes (sem_query q x)] with SVal o => o | _ => None end) = o).
    { unfold o. cbn. destruct (sem_query q x) as [|y [|z l]]; reflexivity. }
    rewrite EO. assert (FO : flat o).
    { unfold o. destruct (sem_query q x) as [|y [|z l]] eqn:E; try exact Logic.I. specialize (SV y eq_refl). now destruct y. }
    apply answers_flat; [exact FO|]. intros t it v ids idsC F CR SC.
    destruct (nodes_ok find ctx sing inner (tv ctx n) (ec ctx n) (ev ctx n) n q x _ (PValue None) (PValue None) FValue (H n ltac:(lia) ctx) eq_refl (pr_none _ _)
      (fun P => match P with PValue o => IRet (FVal o) | _ => IPanic end) (sval_of o)
      (fun v => eq_refl)) with (t := t) (it := it) (v := v) (ids := ids) (idsC := idsC) as [t1 [it1 [ids1 [R [C1 [NW [CH I1]]]]]]]; auto.
    + intros t0 P' ids0 PR. rewrite query_plain in PR by exact PQ. rewrite feed_value in PR. fold o in PR. destruct o as [[s|l e|l e]|]; try contradiction; inversion PR as [| | | |? ? ? VS|]; subst; [|reflexivity].
      rewrite (VS s eq_refl). reflexivity.
    + constructor.
    + exists t1, it1, ids1. split; [rewrite ec_fun, spec_bind, R; reflexivity|auto].
  - intros x. exists 1. intros n L ctx. apply map_value_ok; [cbn; lia|exact Logic.I].
  - intros s x _ H. destruct (H false ltac:(discriminate)) as [N K]. exists (S N). intros n L ctx. apply map_value_ok; [cbn; lia|]. apply K. lia.
  - intros i x LT. exists (S (inner_size inner (QInner i))). intros n L ctx. apply map_value_ok; [lia|exact LT].
Qed.
End Main.

(** A query whose descendant segments may have several selectors. *)
From Coq Require Import List ZArith NArith Arith Bool Lia Permutation.
From Verif Require Import Base Tokens JsonSpec EncSpec ScalarModel CursorModel IterModel IterSpec IterCore IterThr IterRel IterSound
  ScriptSpec ScriptProofs IterLib EqualSpec EqualModel EqualProofs SplitModel P_Scalar P_Equal UseLib SelectModel PathModel PathAbs PathFacts PathPure PathSim PathDisp PathLoop PathBody PathSing PathComp PathFun PathMain PathTop PathBag.
Open Scope iprog_scope.

Section Main.
Variable find : bytes -> bytes -> option (nat * nat).
Variable sing : list (option jval).
Variable inner : list (list jval).
Notation sem_sel := (sem_sel find sing inner).
Notation bag_seg := (bag_seg find sing inner).
Notation bag_after := (bag_after find sing inner).
Notation emit := (emit find sing inner).
Notation picked := (picked find sing inner).
Notation fine_cond := (fine_cond find sing inner).

Inductive fine_bag : segment -> jval -> Prop :=
| fine_Bag : forall sels look desc strict following x,
    keys_ok x ->
    (desc = true -> forall y, In y (map snd (items x)) -> fine_bag (Seg sels look desc strict following) y) ->
    (forall c y, In (SFilter c) sels -> In y (map snd (items x)) -> fine_cond c y) ->
    (forall fs, following = Some fs -> forall s y, In s sels -> In y (picked s look x) -> fine_bag fs y) ->
    (existsb sel_reverses sels = true -> forall s y, In s sels -> In y (picked s look x) -> Forall is_scalar (bag_after following y)) ->
    fine_bag (Seg sels look desc strict following) x.

Lemma bag_scalars : forall (P : jval -> Prop) sels look desc strict following x, let seg := Seg sels look desc strict following in
  Forall P (bag_seg seg x) ->
  (forall s y, In s sels -> In y (picked s look x) -> Forall P (bag_after following y)) /\
  (desc = true -> forall y, In y (map snd (items x)) -> Forall P (bag_seg seg y)).
Proof.
  intros P sels look desc strict following x seg H. unfold seg in H. rewrite bag_seg_eq in H. fold seg in H. cbv zeta in H.
  set (its := annot look x (bag_seg seg)) in *. apply Forall_app in H as [H1 H2]. split.
  - intros s y J K. unfold PathMain.picked in K. rewrite (picks_annot _ _ _ _ _ _ _ (bag_seg seg)) in K. fold its in K.
    pose proof (forall_flat _ _ _ _ _ H1 s J) as H3. unfold ordered in H3. cbv beta in H3.
    destruct (sel_reverses s); [apply Forall_rev in H3; rewrite rev_involutive in H3|]; eapply forall_flat; eassumption.
  - intros -> y J. rewrite <- (annot_vals _ look x (bag_seg seg)) in J. apply in_map_iff in J as [i [<- J]].
    rewrite <- (proj1 (annot_res _ _ _ _ _ J)). exact (forall_flat _ _ _ _ _ H2 i J).
Qed.

Notation good_step ctx := (PathSim.good_step ctx sing inner).
Notation peek ctx := (PathDisp.peek ctx sing inner).
Notation tv ctx := (transform_value find ctx).
Notation ev ctx := (eval_cond find ctx).
Definition bag_goal (seg : segment) (x : jval) : Prop :=
  forall sb, (sb = true -> Forall is_scalar (bag_seg seg x)) -> exists N, forall n, N <= n -> forall ctx, good_step ctx sb (tv ctx n seg) x (atrans sem_sel seg x).

Lemma follow_bag : forall sb following y, (sb = true -> Forall is_scalar (bag_after following y)) ->
  (forall fs, following = Some fs -> bag_goal fs y) ->
  exists N, forall n, N <= n -> forall ctx, good_step ctx sb (fprog (tv ctx n) following) y (afollow sem_sel following y).
Proof.
  intros sb [fs|] y SC H; cbn [fprog afollow PathBag.bag_after] in *; [now apply (H fs)|]. exists 0. intros n _ ctx L t it v ids P Q idsP idsC F PR S1 CR S2 S3.
  apply (process_ok P sb y); auto. intro E. specialize (SC E). inversion SC as [|? ? A _]; subst. destruct y as [s| |]; try contradiction. eauto.
Qed.

Lemma bag_ok : forall seg x, fine_bag seg x -> bag_goal seg x.
Proof.
  induction 1 as [sels look desc strict following x KO _ HD HF' _ HN RV]. intros sb' SC. set (seg := Seg sels look desc strict following) in *.
  assert (HF : forall c y, In (SFilter c) sels -> In y (map snd (items x)) -> cond_goal find sing inner c y) by (intros c y J K; apply (main find sing inner); auto).
  set (sb := existsb sel_reverses sels || sb').
  assert (SS : forall s y, In s sels -> In y (picked s look x) -> sb = true -> Forall is_scalar (bag_after following y)).
  { intros s y J K E. unfold sb in E. apply orb_true_iff in E as [E|E]; [eauto|]. destruct (bag_scalars is_scalar sels look desc strict following x (SC E)) as [A _]. eauto. }
  assert (SD : desc = true -> forall y, In y (map snd (items x)) -> sb' = true -> Forall is_scalar (bag_seg seg y)).
  { intros D y J E. exact (proj2 (bag_scalars is_scalar sels look desc strict following x (SC E)) D y J). }
  assert (F1 : exists N, forall n, N <= n -> forall s, In s sels -> forall y, In y (picked s look x) -> forall ctx, good_step ctx sb (fprog (tv ctx n) following) y (afollow sem_sel following y)).
  { apply fuel_list. intros s J. apply fuel_list. intros y K. apply follow_bag; [intro E; eapply SS; eassumption|intros fs E; eapply HN; eassumption]. }
  assert (F2 : exists N, forall n, N <= n -> forall s, In s sels -> forall y, In y (map snd (items x)) -> forall e, s = SFilter e -> forall ctx, peek ctx (ev ctx n e) y (sem_sel (SFilter e) y)).
  { apply fuel_list. intros s J. apply fuel_list. intros y K. destruct s as [name| |p|c]; try (exists 0; intros n _ e E; discriminate).
    destruct (HF c y J K) as [N H]. exists N. intros n L e E. injection E as <-. exact (H n L). }
  assert (F3 : exists N, forall n, N <= n -> forall y, In y (map snd (items x)) -> desc = true -> forall ctx, good_step ctx sb' (tv ctx n seg) y (atrans sem_sel seg y)).
  { apply fuel_list. intros y K. apply fuel_if; [destruct desc; [now left|right; discriminate]|]. intro D. apply HD; auto. }
  destruct F1 as [N1 F1], F2 as [N2 F2], F3 as [N3 F3]. exists (S (S (breadth x) + N1 + N2 + N3)). intros n L ctx. destruct n as [|m]; [lia|].
  change (tv ctx (S m) seg) with (transform_body (tv ctx m) (ev ctx m) m seg). unfold seg at 2. rewrite atrans_eq. fold seg.
  apply (body_ok ctx sing inner (tv ctx m) (ev ctx m) sem_sel (afollow sem_sel following)); [lia|exact KO|].
  apply good_tail_intro.
  - intros i J. split; [exact (annot_sound _ _ _ _ _ J)|]. split; [intro Q; apply follow_keeps|]. intro D.
    rewrite (proj1 (annot_res _ _ _ _ _ J)). apply F3; [lia| |exact D]. rewrite <- (annot_vals _ look x (atrans sem_sel seg)). now apply in_map.
  - intros e y J K. rewrite annot_vals in K. apply (F2 m ltac:(lia) _ J y K e eq_refl).
  - intros s y J K. fold sb. apply (F1 m ltac:(lia) s J y). unfold PathMain.picked. erewrite picks_annot. exact K.
Qed.

(** A query that writes its results. *)
Definition fine_main (q : query) (x : jval) : Prop :=
  match q with QFirst (Some seg) => fine_bag seg x | QFirst None => True | QInner _ => False end.
Definition main_nodes (q : query) (x : jval) : list jval :=
  match q with QFirst (Some seg) => emit seg x | QFirst None => [x] | QInner _ => [] end.
Lemma write_main : forall q x, fine_main q x ->
  exists N, forall n, N <= n -> forall ctx t it v ids idsC, fresh t v x ids -> ctx_rel ctx sing inner t it idsC -> sep idsC ids ->
  exists t' it' ids' r, spec_run (map_value ctx (tv ctx n) n q v (PWrite [])) (mkSt t it) =
      Some (mkSt t' it', (PWrite (stream (main_nodes q x)), r)) /\
    change t t' ids /\ newer t None ids ids' /\ chain t' v ids' /\ iext it it'.
Proof.
  intros q x FQ.
  assert (M : query_goal find sing inner q x).
  { destruct q as [[s|]|i]; cbn [fine_main] in FQ; [| |destruct FQ].
    - destruct (bag_ok s x FQ false ltac:(discriminate)) as [N K]. exists (S N). intros n L ctx. apply map_value_ok; [cbn; lia|]. apply K. lia.
    - exists 1. intros n L ctx. apply map_value_ok; [cbn; lia|exact Logic.I]. }
  assert (E : aquery inner sem_sel q x (PWrite []) = (PWrite (stream (main_nodes q x)), true)).
  { destruct q as [[s|]|i]; cbn [fine_main main_nodes aquery] in *; [| |destruct FQ].
    - rewrite (proj2 (emits find sing inner s x)) by exact Logic.I. apply feed_write.
    - cbn [aprocess stream flat_map app]. now rewrite app_nil_r. }
  destruct M as [N H]. exists N. intros n L ctx t it v ids idsC F CR SC.
  destruct (H n L ctx [] t it v ids (PWrite []) (PWrite []) [] idsC F ltac:(constructor) ltac:(intros j J []) CR SC ltac:(intros j J [])) as [t' [it' [P' [ids' [idsP' [R [C [NW [CH [PR [_ [_ IE]]]]]]]]]]]].
  rewrite E in R, PR. cbn [fst snd app] in *. inversion PR; subst.
  exists t', it', ids', true. split; [exact R|]. split; [eapply change_weaken; [exact C|rewrite app_nil_r; intros j J; exact J]|]. auto.
Qed.
End Main.

Section Context.
Variable find : bytes -> bytes -> option (nat * nat).
(** What a query gives, in order. *)
Definition main_values (r : runner) (x : jval) : list jval :=
  let sing := singular_values (rn_singular r) x in
  main_nodes find sing (inner_values find sing [] (rn_queries r) x) (rn_main r) x.
Definition fine_program (r : runner) (x : jval) : Prop :=
  Forall (fun q => fine_singular q x) (rn_singular r) /\
  fine_queries find (singular_values (rn_singular r) x) [] (rn_queries r) x /\
  fine_main find (singular_values (rn_singular r) x) (inner_values find (singular_values (rn_singular r) x) [] (rn_queries r) x) (rn_main r) x.

Lemma run_program_ok : forall r x, fine_program r x ->
  exists N, forall n, N <= n -> uses_ext (run_query find n r) x (stream (main_values r x)).
Proof.
  intros r x [FS [FQ FM]]. destruct (run_singular_ok x _ FS) as [N1 H1]. destruct (run_queries_ok find x _ _ _ FQ) as [N2 H2]. destruct (write_main _ _ _ _ _ FM) as [N3 H3].
  exists (N1 + N2 + N3). intros n L t it v ids F. assert (B : forall j, In j ids -> j < length t) by (intros j J; exact (fresh_lt _ _ _ _ _ F J)).
  unfold run_query, compute_context. rewrite !spec_bind.
  destruct (H1 n ltac:(lia) t it v ids F) as [t1 [it1 [rs [idsC [-> [C1 [IE1 [SV [AC BC]]]]]]]]]. cbn [obind]. rewrite spec_bind. assert (LE1 := cg_len _ _ _ C1).
  assert (F1 : fresh t1 v x ids) by (eapply fresh_frame; [exact F|same C1]).
  assert (CR1 : ctx_rel (mkCtx rs []) (singular_values (rn_singular r) x) [] t1 it1 idsC) by (split; [exact SV|split; [constructor|exact BC]]).
  assert (SC : sep idsC ids) by (intros j J K; apply AC in J; apply B in K; lia).
  destruct (H2 n ltac:(lia) rs [] t1 it1 v ids idsC F1 CR1 SC) as [t2 [it2 [qs [-> [C2 [IE2 CR2]]]]]]. cbn [obind spec_run]. assert (LE2 := cg_len _ _ _ C2).
  assert (F2 : fresh t2 v x ids) by (eapply fresh_frame; [exact F1|same C2]). rewrite spec_bind.
  destruct (H3 n ltac:(lia) (mkCtx rs qs) t2 it2 v ids idsC F2 CR2 SC) as [t3 [it3 [ids3 [b [-> [C3 [N3' [CC3 IE3]]]]]]]]. cbn [obind spec_run].
  exists t3, it3, ids3. split; [reflexivity|].
  assert (X1 : change t t2 []) by (eapply change_then; [exact C1|exact C2|ids]).
  split; [eapply change_then; [eapply change_weaken; [exact X1|intros j []]|exact C3|intros j J; now left]|]. split; [ids|]. split; [exact CC3|].
  eapply iext_trans; [eapply iext_trans; eassumption|exact IE3].
Qed.

Theorem run_program_stream : forall grow r vs, Forall (fine_program r) vs -> (Z.of_nat (length (stream vs)) < maxint)%Z ->
  exists N, forall n, N <= n -> exists n0 h', forall m, n0 <= m ->
    irun grow m (run_stream find n r) (start (stream vs)) = Ok (h', flat_map (fun x => stream (main_values r x)) vs).
Proof.
  intros grow r vs FV L. rewrite Forall_forall in FV.
  destruct (fuel_list _ vs (fun n x => uses_ext (run_query find n r) x (stream (main_values r x))) (fun x J => run_program_ok r x (FV x J))) as [N H].
  exists (N + S (length vs)). intros n LN.
  destruct (transform_values_ext (run_query find n r) (fun x => stream (main_values r x)) vs (H n ltac:(lia)) n ltac:(lia)) as [st' R].
  exact (iterators_follow_spec grow _ _ vs st' _ L R).
Qed.
End Context.

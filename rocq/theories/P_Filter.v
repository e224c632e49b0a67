(** C69: a filter keeps no more of the input than the item it is looking at. *)
From Coq Require Import List ZArith NArith Arith Bool Lia.
From Verif Require Import Base Tokens JsonSpec EncSpec CursorModel P_Scalar P_Equal IterModel IterSpec IterCore IterThr IterRel IterSound SelectModel SelectSpec P_Select PathModel PathMain PathTop
  PathAst PathSpec PathTame PathInd CompileModel PathRun P_Path P_PathRefuted P_Ordinary StreamModel StreamSpec StreamCausal StreamCompile PlainSpec Plain PlainQuery P_Plain
  WindowStore WindowPos WindowWorld WindowQuery WindowSpec P_Window WindowSmall WindowFilter FilterSpec.
Import ListNotations.

Lemma small_deep : forall B d x, small_below d B x -> deep B d x.
Proof.
  intros B d. induction d as [|d IH]; intros x H; cbn [deep]; [apply H; constructor|]. intros k y IN. apply IH. intros z L. apply H.
  destruct x as [s|l e|l e]; cbn in IN; [destruct IN| |].
  - apply in_map_iff in IN as [y0 [E IN]]. injection E as <- <-. eapply lv_arr; eauto.
  - apply in_map_iff in IN as [[k0 y0] [E IN]]. injection E as <- <-. eapply lv_obj; eauto.
Qed.

(** What such queries are compiled to. *)
Lemma onward_list : forall strict sels t l t', Forall onward sels -> compile_list (compile_selector strict) sels t = Some (l, t') -> Forall (fun s => (sel_lookahead s <= 0)%Z) l.
Proof.
  intros strict sels. induction sels as [|s sels IH]; intros t l t' F E; cbn [compile_list] in E; [injection E as <- _; constructor|]. inversion F as [|? ? F1 F2]; subst.
  destruct (compile_selector strict s t) as [[s' t1]|] eqn:E1; [|discriminate]. destruct (compile_list (compile_selector strict) sels t1) as [[r t2]|] eqn:E2; [|discriminate]. injection E as <- _.
  constructor; [exact (proj2 (onward_compiled _ _ _ _ _ F1 E1))|eapply IH; eauto].
Qed.
Lemma direct_list : forall strict sels t l t' c, Forall direct_selector sels -> compile_list (compile_selector strict) sels t = Some (l, t') -> ~ In (SFilter c) l.
Proof.
  intros strict sels. induction sels as [|s sels IH]; intros t l t' c F E; cbn [compile_list] in E; [injection E as <- _; intros []|]. inversion F as [|? ? [F0 F1] F2]; subst.
  destruct (compile_selector strict s t) as [[s' t1]|] eqn:E1; [|discriminate]. destruct (compile_list (compile_selector strict) sels t1) as [[r t2]|] eqn:E2; [|discriminate]. injection E as <- _.
  intros [->|IN]; [|eapply IH; eauto]. destruct s; try discriminate. destruct F1.
Qed.
Lemma max_none : forall l, Forall (fun s => (sel_lookahead s <= 0)%Z) l -> (max_lookahead l <= 0)%Z.
Proof.
  intros l F. unfold max_lookahead. assert (G : forall z, (z <= 0)%Z -> (fold_left (fun l s => if (l <? sel_lookahead s)%Z then sel_lookahead s else l) l z <= 0)%Z); [|apply G; lia].
  induction F as [|s l H F IH]; intros z Z0; cbn [fold_left]; [exact Z0|]. apply IH. destruct (z <? sel_lookahead s)%Z; assumption.
Qed.
Lemma compile_reaching : forall strict sels segs, Forall onward sels -> forall pre t o t', Forall passing_segment pre ->
  compile_segments (compile_segment strict) (pre ++ JSegment false sels :: segs) t = Some (o, t') -> exists seg, o = Some seg /\ reaching (length pre) seg.
Proof.
  assert (ONE : forall strict d s fo t, compile_segment strict (JSegment d s) fo t = let? (l, t1) := compile_list (compile_selector strict) s t in Some (Seg l (max_lookahead l) d strict fo, t1)) by reflexivity.
  intros strict sels segs ON. induction pre as [|seg pre IH]; intros t o t' D E; cbn [app compile_segments] in E.
  - destruct (compile_segments (compile_segment strict) segs t) as [[fo t1]|]; [|discriminate]. rewrite ONE in E. destruct (compile_list (compile_selector strict) sels t1) as [[l t2]|] eqn:E2; [|discriminate]. injection E as <- _.
    eexists. split; [reflexivity|]. cbn. split; [reflexivity|]. eapply max_none, onward_list; eauto.
  - inversion D as [|? ? D1 D2]; subst. destruct seg as [desc s0]. destruct D1 as [-> D1].
    destruct (compile_segments (compile_segment strict) (pre ++ JSegment false sels :: segs) t) as [[fo t1]|] eqn:E1; [|discriminate]. destruct (IH _ _ _ D2 E1) as [g [-> R]]. rewrite ONE in E.
    destruct (compile_list (compile_selector strict) s0 t1) as [[l t2]|] eqn:E2; [|discriminate]. injection E as <- _. eexists. split; [reflexivity|]. cbn [length reaching]. split; [reflexivity|]. split.
    + eapply max_none, onward_list; [|exact E2]. eapply Forall_impl; [|exact D1]. intros s [H _]. exact H.
    + split; [intro c; eapply direct_list; eauto|]. eauto.
Qed.
Lemma reaching_compiled : forall strict root pre sels post r, compile strict (JQuery root (pre ++ JSegment false sels :: post)) = Some r ->
  Forall passing_segment pre -> Forall onward sels -> lone_query (JQuery root (pre ++ JSegment false sels :: post)) -> reaching_runner (length pre) r.
Proof.
  intros strict root pre sels post r E D O L. unfold compile in E. destruct (compile_query strict _ _) as [[m t]|] eqn:C; [|discriminate]. injection E as <-. set (segs := pre ++ JSegment false sels :: post) in *.
  pose proof (proj1 (compile_keeps strict) _ L _ _ _ C) as KE. subst t. split; [reflexivity|]. split; [reflexivity|]. cbn [rn_main].
  change (compile_query strict (JQuery root segs) (mkTables [] [])) with (let? (first, t1) := compile_segments (compile_segment strict) segs (mkTables [] []) in Some (QFirst first, t1)) in C.
  destruct (compile_segments _ _ _) as [[fo t1]|] eqn:E1; [|discriminate]. injection C as <- _. unfold segs in E1. destruct (compile_reaching _ _ _ O _ _ _ _ D E1) as [seg [-> R]]. exact R.
Qed.

(** For every query of the class of C34 ([tame]) whose inner queries start at the
    current node. *)
Theorem C69_tame_queries : forall matches find strict grow pre sels post r B vs,
  let q := JQuery true (pre ++ JSegment false sels :: post) in
  compile strict q = Some r -> lone_query q ->
  Forall passing_segment pre -> Forall onward sels ->
  Forall clean vs -> Forall (tame matches find strict q) vs -> (Z.of_nat (length (stream vs)) < maxint)%Z ->
  Forall (small_below (length pre + 1) B) vs ->
  exists outs,
    Forall2 (fun x l => forall l', nodes matches strict x q x l' <-> l' = l) vs outs /\
    exists N0, forall n, N0 <= n -> exists n0, forall m, n0 <= m ->
      let program := run_stream find n r in
      (exists h', irun grow m program (start (stream vs)) = Ok (h', flat_map stream outs)) /\
      Forall (windows_at_most B) (heaps grow m program (start (stream vs))).
Proof.
  intros matches find strict grow pre sels post r B vs q CO LO DP ON CL TA L SB. rewrite Forall_forall in CL, TA, SB.
  assert (RU : forall y, In y vs -> fine_runner find r y /\ forall l', nodes matches strict y q y l' <-> l' = query_values find r y).
  { intros y J. split; apply (runner_ok matches find strict y (CL y J) _ r CO (TA y J)). }
  exists (map (query_values find r) vs). split.
  { clear - RU. induction vs as [|y l IH]; constructor; [apply RU; now left|apply IH; intros; apply RU; now right]. }
  destruct (fuel_list _ vs (fun n y => uses_ext (run_query find n r) y (stream (query_values find r y))) (fun y J => run_query_ok find r y (proj1 (RU y J)))) as [N0 H].
  exists (N0 + S (length vs)). intros n LN.
  destruct (transform_values_ext (run_query find n r) (fun y => stream (query_values find r y)) vs (H n ltac:(lia)) n ltac:(lia)) as [st' SR].
  destruct (rel_start vs L) as [g [roots RE]].
  set (w := mkW g (start (stream vs)) (spec_start vs) roots).
  assert (OK : ok (fun _ => True) w).
  { split; [exact RE|]. split.
    - constructor; intros [|j] hd E; discriminate.
    - intros [|[|i]] x rest cur E S0; cbn in E; try discriminate. injection E as <-. apply Forall_forall. auto. }
  assert (ID : idle B w) by (intros q0 x i E; destruct q0; discriminate).
  assert (FE : feeds B (S (length pre)) (w_st w)).
  { intros [|[|i]] x rest cur E S0; cbn in E; try discriminate. injection E as <-. cbn in S0. injection S0 as <- <-. split; [|discriminate]. apply Forall_forall. intros y J. apply small_deep. rewrite <- Nat.add_1_r. now apply SB. }
  destruct (sparing_runs grow B (S (length pre)) _ (run_stream find n r) w st' _ yes_ OK ID FE SR) as [w' [_ [[_ [n0 RN]] _]]].
  { eapply sp_stream; [intros k s; exact I|reflexivity|]. eapply reaching_compiled; eauto. }
  exists n0. intros m Lm. destruct (RN m Lm) as [R1 R2]. split; [|exact R2]. exists (w_h w'). rewrite flat_map_concat_map, map_map, <- flat_map_concat_map. exact R1.
Qed.
Print Assumptions C69_tame_queries.

(** Ordinary queries: the selectors before the filter pass items on, the items
    that the filter sees have at most [B] tokens; what comes after the filter,
    and what is in its condition, is free. *)
Theorem C69_filter_keeps_one_item : forall matches find strict grow pre sels post r B vs,
  let q := JQuery true (pre ++ JSegment false sels :: post) in
  compile strict q = Some r -> ordinary q -> lone_query q ->
  Forall passing_segment pre -> Forall onward sels ->
  Forall clean vs -> (Z.of_nat (length (stream vs)) < maxint)%Z ->
  Forall (small_below (length pre + 1) B) vs ->
  exists outs,
    Forall2 (fun x l => forall l', nodes matches strict x q x l' <-> l' = l) vs outs /\
    exists N0, forall n, N0 <= n -> exists n0, forall m, n0 <= m ->
      let program := run_stream find n r in
      (* what the query selects is written, *)
      (exists h', irun grow m program (start (stream vs)) = Ok (h', flat_map stream outs)) /\
      (* and at no time does a window hold more than one item *)
      Forall (windows_at_most B) (heaps grow m program (start (stream vs))).
Proof.
  intros matches find strict grow pre sels post r B vs q CO OR LO DP ON CL L SB. apply (C69_tame_queries matches find strict grow pre sels post r B vs CO LO DP ON CL); [|exact L|exact SB].
  eapply Forall_impl; [|exact CL]. intros x C. now apply ordinary_is_tame.
Qed.
Print Assumptions C69_filter_keeps_one_item.

(* ------------------------------------------------------------------ *)
(** Not so for a filter that refers to the root of the document: with
    [$[?@ == $[0]]] all of an array of 40 numbers is kept. *)
Definition equals_first : jlogical := JCompare (JSing (JSingular false [])) OpEq (JSing (JSingular true [JStepIndex 0])).
Lemma ones_below : forall n, small_below 1 1 (ones n).
Proof. intros n y L. inversion L as [|d l e x y0 IN L0|]; subst. apply repeat_spec in IN. subst x. inversion L0; subst. cbn. lia. Qed.
Lemma last_in : forall A (l : list A) d, l <> [] -> In (last l d) l.
Proof. intros A l d N. rewrite (app_removelast_last d N) at 2. apply in_or_app. right. left. reflexivity. Qed.
Theorem C69_absolute_query_refuted : forall find, exists r h,
  compile false (JQuery true [JSegment false [JFilter equals_first]]) = Some r /\
  small_below 1 1 (ones 40) /\
  In h (heaps (fun _ _ => 1%Z) 60 (run_stream find 60 r) (start (stream [ones 40]))) /\
  Exists (fun x => length (p_win (snd x)) = 41) (h_pool h).
Proof.
  intro find. eexists. eexists (last (heaps _ _ _ _) (start [])). split; [reflexivity|]. split; [|split].
  - apply ones_below.
  - apply last_in. vm_compute. discriminate.
  - apply Exists_exists. eexists. split; [vm_compute; left; reflexivity|vm_compute; reflexivity].
Qed.
Print Assumptions C69_absolute_query_refuted.

(* ------------------------------------------------------------------ *)
(** Non-vacuity: [$.a[?@.b > 3].b], whose items have 6 tokens; windows of 5 tokens
    are used. *)
Definition b_above_3 : jlogical := JCompare (JSing (JSingular false [JStepName [98%N]])) OpGt (JLit (new_scalar TNum [51%N])).
Definition exf_pre : list jsegment := [JSegment false [JName [97%N]]].
Definition exf_post : list jsegment := [JSegment false [JName [98%N]]].
Definition exf_query : jquery := JQuery true (exf_pre ++ JSegment false [JFilter b_above_3] :: exf_post).
Example exf_hypotheses : forall strict, exists r, compile strict exf_query = Some r /\ ordinary exf_query /\ lone_query exf_query /\
  Forall passing_segment exf_pre /\ Forall onward [JFilter b_above_3] /\ Forall clean [exp_value] /\ (Z.of_nat (length (stream [exp_value])) < maxint)%Z /\
  Forall (small_below (length exf_pre + 1) 6) [exp_value].
Proof.
  intro strict. eexists. split; [reflexivity|]. split; [|split; [|split; [|split; [|split; [|split]]]]].
  - pose proof (num_decent 3 ltac:(lia)) as D3. split; [split; [discriminate|split; exact I]|]. split; [split; [discriminate|]|split; [split; [discriminate|split; exact I]|exact I]].
    split; [|exact I]. split; [split; [reflexivity|repeat constructor]|exact D3].
  - cbn. repeat split.
  - repeat constructor.
  - repeat constructor.
  - constructor; [exact exp_clean|constructor].
  - unfold maxint; cbn; lia.
  - constructor; [|constructor]. intros y L. cbn in L. inversion L as [| |d l e k x y0 IN L0]; subst. destruct IN as [IN|[]]. injection IN as <- <-.
    inversion L0 as [|d l e x y0 IN L1|]; subst. inversion L1; subst. destruct IN as [<-|[<-|[<-|[]]]]; cbn; lia.
Qed.
Example exf_run : forall find, exists r, compile false exf_query = Some r /\
  widest (heaps (fun _ _ => 1%Z) 310 (run_stream find 310 r) (start (stream [exp_value]))) = 5.
Proof. intro find. eexists. split; [reflexivity|]. vm_compute. reflexivity. Qed.

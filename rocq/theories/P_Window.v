(** C68: counting from the end of an array takes no more memory than the items
    counted. *)
From Coq Require Import List ZArith NArith Arith Bool Lia.
From Verif Require Import Base Tokens JsonSpec EncSpec CursorModel P_Scalar P_Equal IterModel IterSpec IterCore IterThr IterRel IterSound SelectModel SelectSpec P_Select PathModel PathMain PathTop
  PathAst PathSpec PathTame PathInd CompileModel PathRun P_Path P_PathRefuted P_Ordinary StreamModel StreamSpec StreamCausal StreamCompile PlainSpec Plain PlainQuery P_Plain
  WindowStore WindowPos WindowWorld WindowQuery WindowSpec.
Import ListNotations.

Lemma part_trans : forall u v w, part u v -> part v w -> part u w.
Proof. intros u v w P Q. induction Q; auto; [eapply pt_arr|eapply pt_obj]; eauto. Qed.
Lemma part_item : forall v k x, In (k, x) (items v) -> part x v.
Proof.
  intros [s|l e|l e] k x I0; cbn in I0; [destruct I0|apply in_map_iff in I0 as [y [E I0]]; injection E as <- <-; eapply pt_arr; [exact I0|constructor]|].
  apply in_map_iff in I0 as [[k0 y] [E I0]]. injection E as <- <-. eapply pt_obj; [exact I0|constructor].
Qed.
Lemma part_length : forall u v, part u v -> length (toks u) <= length (toks v).
Proof.
  assert (FL : forall A (f : A -> list token) l x, In x l -> length (f x) <= length (flat_map f l)).
  { intros A f l x I0. apply in_split in I0 as [a [b ->]]. rewrite flat_map_app, app_length. cbn. rewrite app_length. lia. }
  induction 1 as [|l e x I0 P IH|l e k x I0 P IH]; [lia| |]; cbn [toks length]; rewrite !app_length.
  - pose proof (FL _ toks l x I0). lia.
  - pose proof (FL _ (fun m => TScalar (fst m) :: toks (snd m)) l (k, x) I0) as Q. cbn [fst snd length] in Q. lia.
Qed.
Lemma small_narrow : forall n T v, small_items T v -> narrow n (n * T) v.
Proof.
  intros n T v SM l e P a b c E L. specialize (SM l e P). rewrite E in SM. apply Forall_app in SM as [_ SM]. apply Forall_app in SM as [SM _].
  assert (LB : length (flat_map toks b) <= length b * T) by (clear E L; induction SM as [|x b H SM IH]; [cbn; lia|cbn [flat_map length]; rewrite app_length; cbn; lia]). nia.
Qed.

(** The arrays that PathModel.v meets. *)
Section Good.
Variables K M : nat.
Definition good (v : jval) : Prop := narrow (K + 2) M v /\ (Z.of_nat (length (toks v)) < maxint)%Z.
Lemma good_item : forall v k x, good v -> In (k, x) (items v) -> good x.
Proof.
  intros v k x [A1 A2] I0. pose proof (part_item _ _ _ I0) as P. split; [|pose proof (part_length _ _ P); lia]. intros l e Q. apply (A1 l e). eapply part_trans; eauto.
Qed.
Lemma good_narrow : forall J, good J -> is_array J = true -> forall k n, n <= K + 2 -> left_toks (firstn n (skipn k (items J))) <= M.
Proof.
  intros [s|l e|l e] [A1 A2] AR k n L; try discriminate. cbn [items]. rewrite skipn_map, firstn_map. unfold left_toks.
  rewrite (flat_map_concat_map item_toks), map_map, <- flat_map_concat_map. unfold item_toks. cbn [fst snd app].
  apply (A1 l e (pt_here _) (firstn k l) _ (skipn n (skipn k l))); [|rewrite firstn_length; lia]. now rewrite firstn_skipn, firstn_skipn.
Qed.
Lemma good_short : forall J, good J -> (Z.of_nat (length (items J)) < max64)%Z.
Proof.
  intros J [_ A2]. assert (L : length (items J) <= length (toks J)).
  { destruct J as [s|l e|l e]; cbn [items toks length]; [lia| |]; rewrite map_length, !app_length.
    - assert (length l <= length (flat_map toks l)); [|lia]. clear A2. induction l as [|x l IH]; [cbn; lia|]. cbn [flat_map length]. rewrite app_length. assert (1 <= length (toks x)) by (destruct x; cbn; lia). lia.
    - assert (length l <= length (flat_map (fun m => TScalar (fst m) :: toks (snd m)) l)); [|lia]. clear A2. induction l as [|x l IH]; [cbn; lia|]. cbn [flat_map length]. rewrite app_length. cbn [length]. lia. }
  unfold maxint, max64 in *. lia.
Qed.
End Good.

(** The selector, compiled. *)
Lemma from_end_position : forall strict s N t s' t', from_end s N -> compile_selector strict s t = Some (s', t') -> t' = t /\ exists p, s' = SPos p /\ lookahead p = Z.of_nat N /\ win_pos N p.
Proof.
  intros strict s N t s' t' [P0 [SA FE]] E. unfold safe in SA.
  assert (PI : forall i, i = (- Z.of_nat N)%Z -> lookahead (PIndex i) = Z.of_nat N /\ win_pos N (PIndex i)).
  { intros i ->. split.
    - cbn [lookahead]. rewrite (proj2 (Z.ltb_lt _ _)) by lia. rewrite i64_id by lia. lia.
    - split; [reflexivity|]. intros index RG. unfold selects_from_index, offset. rewrite (proj2 (Z.ltb_lt (- Z.of_nat N) 0)) by lia. rewrite i64_id by lia. replace (- Z.of_nat N - 1 - - Z.of_nat N)%Z with (-1)%Z by lia. reflexivity. }
  assert (PS : forall a b st, (a = (- Z.of_nat N)%Z /\ (a < b < 0 \/ b = max64) \/ (0 <= a < 2 ^ 53 /\ b = - Z.of_nat N))%Z -> lookahead (PSlice a b st) = Z.of_nat N /\ win_pos N (PSlice a b st)).
  { intros a b st C. split.
    - cbn [lookahead]. rewrite !i64_id by (unfold max64 in C; lia). destruct (Z.ltb_spec (- a) (- b)); (destruct (Z.ltb_spec 0 (- b)); try destruct (Z.ltb_spec 0 (- a))); unfold max64 in *; lia.
    - split; [reflexivity|]. intros index RG. unfold selects_from_index. assert (EO : (offset b index (- Z.of_nat N - 1) < 0)%Z).
      { unfold offset. destruct (Z.ltb_spec b 0); rewrite i64_id by (unfold max64 in *; lia); unfold max64 in *; lia. }
      rewrite (proj2 (Z.leb_gt 0 _) EO). destruct ((_ <=? _)%Z && _); reflexivity. }
  destruct s as [n| |i|a b st|c]; try (exfalso; exact FE).
  - subst i. cbn in E. injection E as <- <-. split; [reflexivity|]. eexists. split; [reflexivity|]. apply PI. reflexivity.
  - change (Some (SPos (compile_slice a b st), t) = Some (s', t')) in E. injection E as <- <-. split; [reflexivity|]. eexists. split; [reflexivity|].
    assert (CS : forall a0 b0, or_else a 0 = a0 -> or_else b max64 = b0 -> (0 < st)%Z -> ((0 <= b0)%Z -> (a0 < b0)%Z) -> ((a0 < 0)%Z -> (a0 < b0)%Z) -> compile_slice a b st = PSlice a0 b0 st).
    { intros a0 b0 E1 E2 ST C1 C2. unfold compile_slice. destruct (Z.eqb_spec st 0); [lia|]. destruct (Z.ltb_spec st 0); [lia|]. rewrite E1, E2.
      destruct (Z.leb_spec 0 b0), (Z.leb_spec b0 a0), (Z.ltb_spec a0 0); cbn; try reflexivity; lia. }
    destruct a as [a|], b as [b|]; try (exfalso; exact FE).
    + destruct FE as [[-> [B1 ->]]|[A0 [A1 [-> S1]]]]; (erewrite CS; [|reflexivity|reflexivity|lia|cbn; lia|cbn; lia]); apply PS; cbn; unfold safe in *; lia.
    + destruct FE as [-> ->]. erewrite CS; [|reflexivity|reflexivity|lia|cbn; unfold max64; lia|cbn; unfold max64; lia]. apply PS. cbn. lia.
    + destruct FE as [-> S1]. erewrite CS; [|reflexivity|reflexivity|lia|cbn; lia|cbn; lia]. apply PS. cbn. lia.
Qed.
Lemma window_compiled : forall strict pre s post N t o t', Forall direct_segment pre -> Forall direct_segment post -> from_end s N ->
  compile_segments (compile_segment strict) (pre ++ JSegment false [s] :: post) t = Some (o, t') -> windowed_opt N o /\ t' = t.
Proof.
  intros strict pre s post N t o t' DP DQ FE. revert o t'. induction DP as [|seg segs [s0 [-> [ON NF]]] D IH]; intros o t' E; cbn [app compile_segments] in E.
  - destruct (compile_segments (compile_segment strict) post t) as [[fo t1]|] eqn:E1; [|discriminate]. destruct (direct_compiled _ _ _ _ _ DQ E1) as [SO ->].
    change (compile_segment strict (JSegment false [s]) fo t) with (let? (l, t1) := compile_list (compile_selector strict) [s] t in Some (Seg l (max_lookahead l) false strict fo, t1)) in E.
    cbn [compile_list] in E. destruct (compile_selector strict s t) as [[s' t2]|] eqn:E2; [|discriminate]. injection E as <- <-.
    destruct (from_end_position _ _ _ _ _ _ FE E2) as [-> [p [-> [LA WP]]]]. split; [|reflexivity]. cbn [windowed_opt windowed]. split; [reflexivity|]. right. split.
    + unfold max_lookahead. cbn [fold_left sel_lookahead]. rewrite LA. destruct FE as [P0 _]. destruct (Z.ltb_spec 0 (Z.of_nat N)); lia.
    + split; [eauto|exact SO].
  - destruct (compile_segments (compile_segment strict) (segs ++ JSegment false [s] :: post) t) as [[fo t1]|] eqn:E1; [|discriminate]. destruct (IH _ _ eq_refl) as [SO ->].
    change (compile_segment strict (JSegment false [s0]) fo t) with (let? (l, t1) := compile_list (compile_selector strict) [s0] t in Some (Seg l (max_lookahead l) false strict fo, t1)) in E.
    cbn [compile_list] in E. destruct (compile_selector strict s0 t) as [[s' t2]|] eqn:E2; [|discriminate]. injection E as <- <-.
    destruct (onward_compiled _ _ _ _ _ ON E2) as [R1 R2].
    assert (T2 : t2 = t /\ match s' with SFilter _ => False | _ => True end).
    { destruct s0 as [n| |i|a b st|c]; try (cbn in E2; injection E2 as <- <-; split; [reflexivity|exact I]). destruct NF. }
    destruct T2 as [-> T2]. split; [|reflexivity]. cbn [windowed_opt windowed]. split; [reflexivity|]. left. split.
    + unfold max_lookahead. cbn [fold_left]. destruct (0 <? sel_lookahead s')%Z; lia.
    + split; [exists s'; split; [reflexivity|split; assumption]|exact SO].
Qed.
Lemma window_runner : forall strict pre s post N r, Forall direct_segment pre -> Forall direct_segment post -> from_end s N ->
  compile strict (JQuery true (pre ++ JSegment false [s] :: post)) = Some r -> windowed_runner N r.
Proof.
  intros strict pre s post N r DP DQ FE E. unfold compile in E. destruct (compile_query strict _ _) as [[m t]|] eqn:C; [|discriminate]. injection E as <-. set (segs := pre ++ JSegment false [s] :: post) in *.
  change (compile_query strict (JQuery true segs) (mkTables [] [])) with (let? (first, t1) := compile_segments (compile_segment strict) segs (mkTables [] []) in Some (QFirst first, t1)) in C.
  destruct (compile_segments (compile_segment strict) segs (mkTables [] [])) as [[fo t1]|] eqn:E1; [|discriminate]. injection C as <- <-.
  destruct (window_compiled _ _ _ _ _ _ _ _ DP DQ FE E1) as [S0 ->]. split; [reflexivity|]. split; [reflexivity|exact S0].
Qed.
Lemma window_ordinary : forall pre s post N, Forall direct_segment pre -> Forall direct_segment post -> from_end s N -> ordinary (JQuery true (pre ++ JSegment false [s] :: post)).
Proof.
  intros pre s post N DP DQ [P0 [SA FE]]. pose proof (direct_ordinary pre DP) as O1. pose proof (direct_ordinary post DQ) as O2. cbn [ordinary] in *.
  induction pre as [|g pre IH].
  - split; [|exact O2]. change ((false = true -> length [s] = 1) /\ ordinary_selector s /\ True). split; [discriminate|]. split; [|exact I].
    destruct s as [n| |i|a b st|c]; try (exfalso; exact FE); cbn; [subst i; exact SA|]. destruct a as [a|], b as [b|]; try (exfalso; exact FE); cbn.
    + destruct FE as [[-> [B1 ->]]|[A0 [A1 [-> S1]]]]; unfold safe in *; repeat split; try lia; auto.
    + destruct FE as [-> ->]. unfold safe in *. repeat split; try lia; auto.
    + destruct FE as [-> S1]. unfold safe in *. repeat split; try lia; auto.
  - inversion DP; subst. destruct O1 as [O1 O1']. split; [exact O1|]. apply IH; assumption.
Qed.

(** The tokens kept in the pools of a heap: in [IterModel.v], all pools made since
    the start of the run, of which Go frees those of arrays left behind. *)
Definition windows_at_most (b : nat) (h : heap) : Prop := Forall (fun x => length (p_win (snd x)) <= b) (h_pool h).

Theorem C68_sliding_window : forall matches find strict grow pre s post r N M vs,
  let q := JQuery true (pre ++ JSegment false [s] :: post) in
  compile strict q = Some r ->
  Forall direct_segment pre -> from_end s N -> Forall direct_segment post ->
  Forall clean vs -> (Z.of_nat (length (stream vs)) < maxint)%Z ->
  (* no [N + 2] consecutive items of an array have more than [M] tokens *)
  Forall (narrow (N + 2) M) vs ->
  exists outs,
    Forall2 (fun x l => forall l', nodes matches strict x q x l' <-> l' = l) vs outs /\
    exists N0, forall n, N0 <= n -> exists n0, forall m, n0 <= m ->
      let program := run_stream find n r in
      (* what the query selects is written, *)
      (exists h', irun grow m program (start (stream vs)) = Ok (h', flat_map stream outs)) /\
      (* and at no time are more tokens kept than that and a hundred *)
      Forall (windows_at_most (M + 102)) (heaps grow m program (start (stream vs))).
Proof.
  intros matches find strict grow pre s post r N M vs q CO DP FE DQ CL L NA. rewrite Forall_forall in CL, NA.
  assert (TA : forall x, In x vs -> tame matches find strict q x) by (intros x J; apply ordinary_is_tame; [eapply window_ordinary; eauto|auto]).
  assert (RU : forall y, In y vs -> fine_runner find r y /\ forall l', nodes matches strict y q y l' <-> l' = query_values find r y).
  { intros y J. split; apply (runner_ok matches find strict y (CL y J) _ r CO (TA y J)). }
  exists (map (query_values find r) vs). split.
  { clear - RU. induction vs as [|y l IH]; constructor; [apply RU; now left|apply IH; intros; apply RU; now right]. }
  destruct (fuel_list _ vs (fun n y => uses_ext (run_query find n r) y (stream (query_values find r y))) (fun y J => run_query_ok find r y (proj1 (RU y J)))) as [N0 H].
  exists (N0 + S (length vs)). intros n LN.
  destruct (transform_values_ext (run_query find n r) (fun y => stream (query_values find r y)) vs (H n ltac:(lia)) n ltac:(lia)) as [st' SR].
  destruct (rel_start vs L) as [g [roots RE]].
  set (w := mkW g (start (stream vs)) (spec_start vs) roots).
  assert (GV : Forall (good N M) vs).
  { apply Forall_forall. intros x J. split; [now apply NA|]. assert (length (toks x) <= length (stream vs)); [|lia]. unfold stream. apply in_split in J as [a [b ->]]. rewrite flat_map_app, app_length. cbn [flat_map]. rewrite app_length. lia. }
  assert (OK : ok (good N M) w).
  { split; [exact RE|]. split.
    - constructor; intros [|j] hd E; discriminate.
    - intros [|[|i]] x rest cur E S0; cbn in E; try discriminate. injection E as <-. cbn in S0. injection S0 as <- _. exact GV. }
  assert (ID : idle (M + 102) w) by (intros q0 x i E; destruct q0; discriminate).
  assert (KB : (0 < Z.of_nat N < 2 ^ 62)%Z) by (destruct FE as [P0 [SA _]]; unfold safe in SA; lia).
  destruct (w_stream grow (good N M) (good_item N M) N M (good_narrow N M) (good_short N M) KB find n r n (window_runner _ _ _ _ _ _ DP DQ FE CO) w st' _ OK ID SR) as [w' [_ [[_ [n0 RN]] _]]].
  exists n0. intros m Lm. destruct (RN m Lm) as [R1 R2]. split; [|exact R2]. exists (w_h w'). rewrite flat_map_concat_map, map_map, <- flat_map_concat_map. exact R1.
Qed.
Print Assumptions C68_sliding_window.

(** If the items of arrays have at most [T] tokens, the bound is the one of the
    documentation: so many items, however long the arrays are. *)
Theorem C68_items_in_memory : forall find strict grow pre s post r N T vs,
  compile strict (JQuery true (pre ++ JSegment false [s] :: post)) = Some r ->
  Forall direct_segment pre -> from_end s N -> Forall direct_segment post ->
  Forall clean vs -> (Z.of_nat (length (stream vs)) < maxint)%Z ->
  Forall (small_items T) vs ->
  exists N0, forall n, N0 <= n -> exists n0, forall m, n0 <= m ->
    Forall (windows_at_most ((N + 2) * T + 102)) (heaps grow m (run_stream find n r) (start (stream vs))).
Proof.
  intros find strict grow pre s post r N T vs CO DP FE DQ CL L SM.
  destruct (C68_sliding_window (fun _ _ => False) find strict grow pre s post r N ((N + 2) * T) vs CO DP FE DQ CL L) as [outs [_ [N0 H]]].
  { eapply Forall_impl; [|exact SM]. intros x. apply small_narrow. }
  exists N0. intros n LN. destruct (H n LN) as [n0 K]. exists n0. intros m LM. apply K. exact LM.
Qed.
Print Assumptions C68_items_in_memory.

(* ------------------------------------------------------------------ *)
(** Not so for a slice that starts from the end and stops at a position from the
    start: [[-3:2]] can select nothing from an array of 300 items, but all of
    them are kept. *)
Definition ones (n : nat) : jval := JArr (repeat (num 1) n) false.
Lemma part_scalar : forall u s, part u (JScalar s) -> u = JScalar s.
Proof. intros u s P. inversion P. reflexivity. Qed.
Lemma ones_small : forall n, small_items 1 (ones n).
Proof.
  intros n l e P. assert (Q : forall x, In x (repeat (num 1) n) -> x = num 1) by apply repeat_spec. unfold ones in P. inversion P as [|l0 e0 x I0 P0|]; subst.
  - apply Forall_forall. intros x J. rewrite (Q x J). cbn. lia.
  - rewrite (Q x I0) in P0. apply part_scalar in P0. discriminate.
Qed.
Theorem C68_mixed_slice_refuted : forall find, exists r h,
  compile false (JQuery true [JSegment false [JSlice (Some (-3)%Z) (Some 2%Z) 1]]) = Some r /\
  small_items 1 (ones 300) /\
  In h (heaps (fun _ _ => 1%Z) 310 (run_stream find 20 r) (start (stream [ones 300]))) /\
  (* more than (3 + 2) * 1 + 102 tokens: all the items and the end of the array *)
  Exists (fun x => length (p_win (snd x)) = 301) (h_pool h).
Proof.
  intro find. eexists. eexists (nth 17 (heaps _ _ _ _) (start [])). split; [reflexivity|]. split; [apply ones_small|]. split; [apply nth_In; vm_compute; lia|].
  apply Exists_exists. eexists. split; [vm_compute; left; reflexivity|vm_compute; reflexivity].
Qed.
Print Assumptions C68_mixed_slice_refuted.

(* ------------------------------------------------------------------ *)
(** Non-vacuity: [$.a[-2:].b]. *)
Example exw_from_end : from_end (JSlice (Some (-2)%Z) None 1) 2 /\ from_end (JIndex (-1)) 1 /\ from_end (JSlice (Some 1%Z) (Some (-3)%Z) 2) 3 /\ from_end (JSlice (Some (-5)%Z) (Some (-2)%Z) 1) 5.
Proof. unfold from_end, safe. cbn. lia. Qed.
Example exw_direct : Forall direct_segment [JSegment false [JName [97%N]]] /\ Forall direct_segment [JSegment false [JName [98%N]]].
Proof. split; repeat constructor; eexists; (split; [reflexivity|]); split; exact I. Qed.
Example exw_small : small_items 6 exp_value.
Proof.
  assert (IT : forall a b l e, part (JArr l e) (ex_item a b) -> False).
  { intros a b l e P. unfold ex_item in P. inversion P as [| |l0 e0 k x I0 P0]; subst. cbn in I0. destruct I0 as [I0|[I0|[]]]; injection I0 as <- <-; apply part_scalar in P0; discriminate. }
  intros l e P. unfold exp_value in P. inversion P as [| |l0 e0 k x I0 P0]; subst. destruct I0 as [I0|[]]. injection I0 as <- <-. inversion P0 as [|l1 e1 y I1 P1|]; subst.
  - repeat constructor; cbn; lia.
  - cbn in I1. destruct I1 as [<-|[<-|[<-|[]]]]; destruct (IT _ _ _ _ P1).
Qed.
Example exw_all : forall strict, exists r, compile strict (JQuery true ([JSegment false [JName [97%N]]] ++ JSegment false [JSlice (Some (-2)%Z) None 1] :: [JSegment false [JName [98%N]]])) = Some r /\
  Forall clean [exp_value] /\ (Z.of_nat (length (stream [exp_value])) < maxint)%Z /\ Forall (narrow 4 24) [exp_value].
Proof.
  intro strict. eexists. split; [reflexivity|]. split; [constructor; [exact exp_clean|constructor]|]. split; [unfold maxint; cbn; lia|]. constructor; [|constructor]. exact (small_narrow 4 6 _ exw_small).
Qed.
(** The last two of 300 items: never more than 103 tokens are kept, out of 300. *)
Definition widest (l : list heap) : nat := fold_left Nat.max (flat_map (fun h => map (fun x => length (p_win (snd x))) (h_pool h)) l) 0.
Example exw_run : forall find, exists r, compile false (JQuery true [JSegment false [JSlice (Some (-2)%Z) None 1]]) = Some r /\
  widest (heaps (fun _ _ => 1%Z) 310 (run_stream find 310 r) (start (stream [ones 300]))) = 103.
Proof. intro find. eexists. split; [reflexivity|]. vm_compute. reflexivity. Qed.

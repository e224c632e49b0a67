(** C25, C26: pipelines. *)
From Coq Require Import List Arith ZArith Lia.
From Verif Require Import Base Tokens ScannerModel ProgModel TransformModel PipelineModel PipelineStages PipelineSpec.
Import ListNotations.

Ltac parts := repeat match goal with |- _ /\ _ => split end.
Section Pipeline.
Context {R : Type}.
Implicit Types (c : list (goroutine R)).

(** Two steps of different goroutines can be made in either order. *)
Lemma diamond : forall c o1 c1, step c o1 c1 -> forall o2 c2, step c o2 c2 ->
  (o1 = o2 /\ c1 = c2) \/ exists c3, step c1 o2 c3 /\ step c2 o1 c3 /\ (o1 = [] \/ o2 = []).
Proof.
  induction 1 as [p c|r c|t p k c|r k c|t p|g c o1 c1 H IH]; intros o2 c2 K; inversion K; subst; auto;
    try match goal with H : step [] _ _ |- _ => now inversion H end;
    try match goal with H : step (Running (Receive _) :: _) _ _ |- _ => inversion H; subst; clear H end;
    try match goal with H : step c o1 c1, H' : step c o2 _ |- _ => destruct (IH _ _ H') as [[-> ->]|[c3 (A & B & C)]]; [auto|right; exists (g :: c3)] end;
    try (right; eexists; repeat split; [eauto using @step|eauto using @step|now auto]); eauto using @step.
Qed.

(** A step and a schedule. *)
Lemma strip : forall m c o2 c2, steps m c o2 c2 -> forall o1 c1, step c o1 c1 ->
  exists i j p q c3, steps i c1 p c3 /\ steps j c2 q c3 /\ 1 + i = m + j /\ j <= 1 /\ o1 ++ p = o2 ++ q.
Proof.
  induction 1 as [c|m c o c' os c'' H HS IH]; intros o1 c1 K.
  - exists 0, 1, [], (o1 ++ []), c1. parts; [constructor|exact (steps_more _ _ _ _ _ _ K (steps_none _))|lia|lia|reflexivity].
  - destruct (diamond _ _ _ K _ _ H) as [[-> ->]|[c3 (A & B & C)]].
    + exists m, 0, os, [], c''. parts; [exact HS|exact (steps_none _)|lia|lia|now rewrite app_nil_r].
    + destruct (IH _ _ B) as (i & j & p & q & c4 & S1 & S2 & E & L & O). exists (S i), j, (o ++ p), q, c4. parts; [econstructor; eauto|exact S2|lia|exact L|].
      rewrite <- app_assoc, <- O, !app_assoc. f_equal. destruct C as [-> | ->]; now rewrite app_nil_r.
Qed.
Lemma confluent : forall n c o1 c1, steps n c o1 c1 -> forall m o2 c2, steps m c o2 c2 ->
  exists i j p q c3, steps i c1 p c3 /\ steps j c2 q c3 /\ n + i = m + j /\ o1 ++ p = o2 ++ q.
Proof.
  induction 1 as [c|n c o c' os c'' H HS IH]; intros m o2 c2 K.
  - exists m, 0, o2, [], c2. parts; [exact K|constructor|lia|now rewrite app_nil_r].
  - destruct (strip _ _ _ _ K _ _ H) as (i & j & p & q & c3 & S1 & S2 & E & L & O).
    destruct (IH _ _ _ S1) as (i1 & j1 & p1 & q1 & c4 & T1 & T2 & E1 & O1). exists i1, (j + j1), p1, (q ++ q1), c4.
    split; [exact T1|]. split; [|split; [lia|rewrite <- app_assoc, O1, !app_assoc; now rewrite O]].
    clear - S2 T2. revert T2. induction S2; intro T2; [exact T2|]. cbn [plus]. rewrite <- app_assoc. econstructor; eauto.
Qed.

(** Once the sink has returned it is over. *)
Lemma sink_cons : forall g g' c, sink (g :: g' :: c) = sink (g' :: c).
Proof. reflexivity. Qed.
Lemma step_length : forall c o c', step c o c' -> length c = length c'.
Proof. induction 1; cbn; auto. Qed.
Lemma sink_step : forall c o c', step c o c' -> forall r, sink c = Some r -> o = [] /\ sink c' = Some r.
Proof.
  induction 1 as [p [|g c]|r0 [|g c]|t p k c|r0 k c|t p|g c o c' H IH]; intros r E; try discriminate; auto.
  - split; [reflexivity|]. destruct c; [discriminate|exact E].
  - split; [reflexivity|]. destruct c; [discriminate|exact E].
  - destruct c as [|g1 c]; [inversion H|]. destruct c' as [|g2 c']; [apply step_length in H; discriminate|]. rewrite sink_cons in E. exact (IH r E).
Qed.
Lemma sink_steps : forall n c o c', steps n c o c' -> forall r, sink c = Some r -> o = [] /\ sink c' = Some r.
Proof.
  induction 1 as [|n c o c' os c'' H HS IH]; intros r E; [auto|]. destruct (sink_step _ _ _ H _ E) as [-> E']. exact (IH r E').
Qed.

(** C25: whenever the sink returns, it has written the same tokens and returns
    the same result, whatever the schedule. *)
Theorem C25_result_unique : forall c n1 o1 c1 r1 n2 o2 c2 r2,
  steps n1 c o1 c1 -> sink c1 = Some r1 -> steps n2 c o2 c2 -> sink c2 = Some r2 -> o1 = o2 /\ r1 = r2.
Proof.
  intros c n1 o1 c1 r1 n2 o2 c2 r2 H1 E1 H2 E2. destruct (confluent _ _ _ _ H1 _ _ _ H2) as (i & j & p & q & c3 & S1 & S2 & _ & O).
  destruct (sink_steps _ _ _ _ S1 _ E1) as [-> F1]. destruct (sink_steps _ _ _ _ S2 _ E2) as [-> F2]. rewrite !app_nil_r in O. split; congruence.
Qed.
(** At any time what one schedule has written and what another has written agree,
    and both can go on to the same state: the sink is never prevented from
    returning what it returns in another schedule. *)
Theorem C25_schedules_agree : forall c n1 o1 c1 n2 o2 c2, steps n1 c o1 c1 -> steps n2 c o2 c2 ->
  exists m1 m2 p1 p2 c3, steps m1 c1 p1 c3 /\ steps m2 c2 p2 c3 /\ o1 ++ p1 = o2 ++ p2.
Proof.
  intros c n1 o1 c1 n2 o2 c2 H1 H2. destruct (confluent _ _ _ _ H1 _ _ _ H2) as (i & j & p & q & c3 & S1 & S2 & _ & O). now exists i, j, p, q, c3.
Qed.
(** If one schedule comes to an end, so do all, in the same state, after the same
    number of steps. *)
Theorem C25_ends_alike : forall c n o c', steps n c o c' -> stopped c' ->
  forall m o1 c1, steps m c o1 c1 -> m <= n /\ (stopped c1 -> m = n /\ o1 = o /\ c1 = c') /\ exists o2, steps (n - m) c1 o2 c' /\ o = o1 ++ o2.
Proof.
  intros c n o c' H E m o1 c1 K. destruct (confluent _ _ _ _ H _ _ _ K) as (i & j & p & q & c3 & S1 & S2 & N & O).
  inversion S1; subst; [|now exfalso; eapply E; eauto]. rewrite app_nil_r in O. split; [lia|]. split.
  - intro E1. inversion S2; subst; [|now exfalso; eapply E1; eauto]. rewrite app_nil_r. parts; [lia|reflexivity|reflexivity].
  - exists q. split; [|exact O]. now replace (n - m) with j by lia.
Qed.

(* ------------------------------------------------------------------ *)
(** C26: some goroutine can go on, as long as the sink has not returned. *)
Lemma progress : forall c g, (exists r, g = Closed r) \/ (exists t p, g = Running (Send t p)) -> c <> [] -> sink (g :: c) = None ->
  exists o c', step (g :: c) o c'.
Proof.
  induction c as [|g1 c IH]; intros g G N E; [congruence|]. rewrite sink_cons in E. destruct g1 as [[k|t p|p|r]|r].
  - destruct G as [[r ->]|[t [p ->]]]; eauto using @step.
  - destruct c as [|g2 c]; [eauto using @step|]. destruct (IH (Running (Send t p))) as (o & c' & S1); [eauto|discriminate|exact E|]. eauto using @step.
  - eauto using @step.
  - eauto using @step.
  - destruct c as [|g2 c]; [discriminate|]. destruct (IH (Closed r)) as (o & c' & S1); [eauto|discriminate|exact E|]. eauto using @step.
Qed.
Lemma head_closed : forall n c o c', steps n c o c' -> forall r c0, c = Closed r :: c0 -> exists c1, c' = Closed r :: c1 /\ length c1 = length c0.
Proof.
  induction 1 as [c|n c o c' os c'' H HS IH]; intros r c0 E; subst; [eauto|]. inversion H; subst.
  - destruct (IH _ _ eq_refl) as [c1 [-> L]]. eauto.
  - destruct (IH _ _ eq_refl) as [c1 [-> L]]. exists c1. split; [reflexivity|]. rewrite L. symmetry. eauto using step_length.
Qed.
Theorem C26_no_deadlock : forall r0 ps n o c, ps <> [] -> steps n (pipeline r0 ps) o c -> sink c = None -> exists o' c', step c o' c'.
Proof.
  intros r0 ps n o c N H E. destruct (head_closed _ _ _ _ H _ _ eq_refl) as [c1 [-> L]]. apply progress; eauto.
  intros ->. rewrite map_length in L. destruct ps; [congruence|discriminate].
Qed.

(** No goroutine is left behind, if the stages after the source read their input
    to its end before they return. *)
Fixpoint settled (c : list (goroutine R)) : Prop :=
  match c with
  | a :: ((b :: _) as c') => ((exists p, b = Running p /\ reads_all p) \/ finished a) /\ settled c'
  | _ => True
  end.
Lemma settled_step : forall c o c', step c o c' -> settled c -> settled c'.
Proof.
  assert (HD : forall a a' c, (finished a -> finished a') -> settled (a :: c) -> settled (a' :: c)).
  { intros a a' [|b c] H; [auto|]. intros [[K|K] T]; split; auto. }
  assert (RT : forall p : proc R, reads_all (Compute p) -> reads_all p) by (intros p H; now inversion H).
  induction 1 as [p c|r c|t p k c|r k c|t p|g c o c' H IH]; intro I.
  - eapply HD; [|exact I]. intros [r E]; discriminate.
  - eapply HD; [|exact I]. intros _. now exists r.
  - destruct I as [[[q [E Q]]|[r E]] I]; [|discriminate]. injection E as <-. split.
    + left. eexists. split; [reflexivity|]. inversion Q; subst. auto.
    + eapply HD; [|exact I]. intros [r E]; discriminate.
  - destruct I as [_ I]. split; [right; now exists r|]. eapply HD; [|exact I]. intros [r' E]; discriminate.
  - exact I.
  - destruct c as [|b c]; [inversion H|]. destruct I as [A I]. specialize (IH I). destruct c' as [|b' c']; [exact Logic.I|]. split; [|exact IH].
    destruct A as [[p [-> P]]|A]; [|now right]. left. inversion H; subst; inversion P; subst; eauto.
Qed.
Lemma settled_steps : forall n c o c', steps n c o c' -> settled c -> settled c'.
Proof. induction 1; eauto using settled_step. Qed.
Lemma settled_end : forall c r, sink c = Some r -> settled c -> Forall finished c.
Proof.
  induction c as [|g [|g1 c] IH]; intros r E I; [constructor|constructor; [destruct g; [discriminate|now exists r0]|constructor]|].
  destruct I as [A I]. specialize (IH r E I). constructor; [|exact IH]. destruct A as [[p [-> P]]|A]; [|exact A]. inversion IH as [|? ? [r1 K] _]. discriminate.
Qed.
Theorem C26_no_goroutine_left : forall r0 src ps n o c r, Forall reads_all ps ->
  steps n (pipeline r0 (src :: ps)) o c -> sink c = Some r -> Forall finished c.
Proof.
  intros r0 src ps n o c r F H E. eapply settled_end; [exact E|]. eapply settled_steps; [exact H|]. split; [right; now exists r0|]. clear - F.
  revert src. induction F as [|p ps P F IH]; intro src; [exact I|]. split; [|apply IH]. left. eauto.
Qed.

(* ------------------------------------------------------------------ *)
(** C25: what a pipeline computes is what its stages compute one after the
    other. *)
Inductive rest : nat -> goroutine R -> list token -> list token -> R -> Prop :=
| rest_running : forall n p l o r, alone n p l o r -> rest n (Running p) l o r
| rest_closed : forall r l, rest 0 (Closed r) l [] r.
Inductive remaining : nat -> list (goroutine R) -> list token -> list token -> list R -> Prop :=
| remaining_nil : forall l, remaining 0 [] l l []
| remaining_cons : forall n m g c l l1 o r rs, rest n g l l1 r -> remaining m c l1 o rs -> remaining (n + m) (g :: c) l o (r :: rs).
Ltac unrest := repeat match goal with
  | H : remaining _ (_ :: _) _ _ _ |- _ => inversion H; subst; clear H
  | H : remaining _ [] _ _ _ |- _ => inversion H; subst; clear H
  | H : rest _ (Running _) _ _ _ |- _ => inversion H; subst; clear H
  | H : rest _ (Closed _) _ _ _ |- _ => inversion H; subst; clear H
  | H : alone _ (Receive _) _ _ _ |- _ => inversion H; subst; clear H
  | H : alone _ (Compute _) _ _ _ |- _ => inversion H; subst; clear H
  | H : alone _ (Return _) _ _ _ |- _ => inversion H; subst; clear H
  | H : alone _ (Send _ _) _ _ _ |- _ => inversion H; subst; clear H
  end.
Lemma remaining_step : forall c o1 c', step c o1 c' -> forall n l o rs, remaining n c l o rs ->
  exists n' o2, remaining n' c' l o2 rs /\ n' < n /\ o = o1 ++ o2.
Proof.
  induction 1 as [p c|r c|t p k c|r k c|t p|g c o1 c' H IH]; intros n l o rs K; unrest.
  - do 2 eexists. parts; [econstructor; [constructor; eassumption|eassumption]|lia|reflexivity].
  - do 2 eexists. parts; [econstructor; [constructor; eassumption|eassumption]|lia|reflexivity].
  - do 2 eexists. parts; [econstructor; [constructor; eassumption|econstructor; [constructor; eassumption|eassumption]]|lia|reflexivity].
  - do 2 eexists. parts; [econstructor; [constructor; eassumption|econstructor; [constructor; eassumption|eassumption]]|lia|reflexivity].
  - do 2 eexists. parts; [econstructor; [constructor; eassumption|econstructor]|lia|reflexivity].
  - match goal with H : remaining _ c _ _ _ |- _ => destruct (IH _ _ _ _ H) as (n' & o2 & A & B & C) end.
    exists (n0 + n'), o2. parts; [econstructor; eassumption|lia|exact C].
Qed.
Lemma remaining_steps : forall m c o1 c', steps m c o1 c' -> forall n l o rs, remaining n c l o rs ->
  exists n' o2, remaining n' c' l o2 rs /\ n' + m <= n /\ o = o1 ++ o2.
Proof.
  induction 1 as [c|m c o1 c' os c'' H HS IH]; intros n l o rs K; [exists n, o; parts; [exact K|lia|reflexivity]|].
  destruct (remaining_step _ _ _ H _ _ _ _ K) as (n1 & o2 & A & B & ->). destruct (IH _ _ _ _ A) as (n2 & o3 & C & D & ->).
  exists n2, o3. parts; [exact C|lia|now rewrite app_assoc].
Qed.
Lemma remaining_start : forall n (ps : list (proc R)) l o rs, sequence n ps l o rs -> remaining n (map Running ps) l o rs.
Proof. induction 1; cbn [map]; econstructor; eauto. now constructor. Qed.
(** The goroutines that have returned have returned these results. *)
Definition returned (g : goroutine R) (r : R) : Prop := match g with Closed r' => r' = r | Running _ => True end.
Lemma remaining_returned : forall n c l o rs, remaining n c l o rs -> Forall2 returned c rs.
Proof. induction 1 as [|n m g c l l1 o r rs A B IH]; constructor; [|exact IH]. inversion A; subst; cbn; auto. Qed.
Lemma remaining_sink : forall n c l o rs, remaining n c l o rs -> forall r, sink c = Some r -> o = [] /\ exists rs', rs = rs' ++ [r].
Proof.
  induction 1 as [|n m g c l l1 o r rs A B IH]; intros r1 E; [discriminate|]. destruct c as [|g' c].
  - inversion B; subst. inversion A; subst; [discriminate|]. injection E as <-. split; [reflexivity|]. now exists [].
  - destruct (IH r1 E) as [-> [rs' ->]]. split; [reflexivity|]. now exists (r :: rs').
Qed.
Theorem C25_sequential : forall r0 n (ps : list (proc R)) o rs r, sequence n ps [] o (rs ++ [r]) ->
  forall m o1 c, steps m (pipeline r0 ps) o1 c ->
    (* every schedule comes to an end, *)
    m <= n /\
    (* what has been written is the beginning of the result, *)
    (exists o2, o = o1 ++ o2) /\
    (* so are the errors, *)
    Forall2 returned c (r0 :: rs ++ [r]) /\
    (* and at the end the sink has returned, the result being complete. *)
    (stopped c -> sink c = Some r) /\ (sink c <> None -> sink c = Some r /\ o1 = o).
Proof.
  intros r0 n ps o rs r H m o1 c S1. apply remaining_start in H.
  assert (H0 : remaining n (pipeline r0 ps) [] o (r0 :: rs ++ [r])) by (apply (remaining_cons 0 n _ _ [] []); [constructor|exact H]).
  destruct (remaining_steps _ _ _ _ S1 _ _ _ _ H0) as (n' & o2 & A & B & E).
  assert (SK : forall r', sink c = Some r' -> r' = r /\ o1 = o).
  { intros r' K. destruct (remaining_sink _ _ _ _ _ A _ K) as [-> [rs' E']]. rewrite app_nil_r in E. split; [|congruence].
    change (r0 :: rs ++ [r]) with ((r0 :: rs) ++ [r]) in E'. now apply app_inj_tail in E' as [_ ->]. }
  parts.
  - lia.
  - eauto.
  - eauto using remaining_returned.
  - intro T. destruct (sink c) as [r'|] eqn:K; [f_equal; now apply SK|]. exfalso.
    assert (N : ps <> []) by (intros ->; inversion H; now destruct rs).
    destruct (C26_no_deadlock _ _ _ _ _ N S1 K) as (o' & c' & T'). exact (T _ _ T').
  - intro K. destruct (sink c) as [r'|]; [|congruence]. destruct (SK r' eq_refl) as [-> ->]. auto.
Qed.
End Pipeline.

(* ------------------------------------------------------------------ *)
(** The stages compute what their models on token lists say. *)
Definition frob {R} (p : proc R) : proc R :=
  match p with Receive k => Receive k | Send t p => Send t p | Compute p => Compute p | Return r => Return r end.
Lemma frob_eq : forall R (p : proc R), p = frob p.
Proof. intros R [| | |]; reflexivity. Qed.
(** What a loop sends. *)
Fixpoint body_out {S} (body : S -> token -> S * list token) (s : S) (l : list token) : list token :=
  match l with [] => [] | t :: l' => let (s1, out) := body s t in out ++ body_out body s1 l' end.
Lemma range_alone : forall R S body (rest : proc R) m o r, alone m rest [] o r ->
  forall l (s : S) out, exists n, alone n (range_loop body rest s out) l (out ++ body_out body s l ++ o) r.
Proof.
  intros R S body rest m o r H. induction l as [|t l IHl]; intros s out.
  - induction out as [|u out [n IH]]; [exists (1 + m)|exists (1 + n)]; rewrite (frob_eq _ (range_loop _ _ _ _)); cbn [frob range_loop].
    + constructor. exact H.
    + constructor. exact IH.
  - induction out as [|u out [n IH]].
    + cbn [body_out app]. destruct (body s t) as [s1 out1] eqn:B. destruct (IHl s1 out1) as [n A]. exists (1 + n).
      rewrite (frob_eq _ (range_loop _ _ _ _)); cbn [frob range_loop]. constructor. rewrite B. now rewrite <- app_assoc.
    + exists (1 + n). rewrite (frob_eq _ (range_loop _ _ _ _)); cbn [frob range_loop]. constructor. exact IH.
Qed.
Lemma range_reads : forall R S body (rest : proc R) (s : S) out, reads_all (range_loop body rest s out).
Proof.
  intros R S body rest. cofix CH. intros s [|t out]; rewrite (frob_eq _ (range_loop _ _ _ _)); cbn [frob range_loop]; constructor.
  - intro t. destruct (body s t) as [s1 out1]. apply CH.
  - apply CH.
Qed.
Lemma copied : forall l, body_out (fun (_ : unit) t => (tt, [t])) tt l = l.
Proof. induction l as [|t l IH]; [reflexivity|]. cbn. now rewrite IH. Qed.
Theorem join_stage_ok : forall R (r : R) l, exists n, alone n (join_stage r) l (join_stream l) r.
Proof.
  intros R r l. destruct (range_alone R unit (fun _ t => (tt, [t])) (Send TEndArr (Return r)) 2 [TEndArr] r) with (l := l) (s := tt) (out := @nil token) as [n H].
  { repeat constructor. }
  exists (S n). constructor. rewrite copied in H. exact H.
Qed.
Theorem copy_stage_ok : forall R (r : R) l, exists n, alone n (copy_stage r) l l r.
Proof.
  intros R r l. destruct (range_alone R unit (fun _ t => (tt, [t])) (Return r) 1 [] r) with (l := l) (s := tt) (out := @nil token) as [n H]; [constructor|].
  exists n. rewrite copied, app_nil_r in H. exact H.
Qed.
Theorem trace_stage_ok : forall R (r : R) l, exists n, alone n (trace_stage r) l (trace_stream l) r.
Proof.
  intros R r l. destruct (range_alone R unit (fun _ _ => (tt, [])) (Return r) 1 [] r) with (l := l) (s := tt) (out := @nil token) as [n H]; [constructor|].
  exists n. replace (body_out _ tt l) with (@nil token) in H; [exact H|]. clear. induction l; [reflexivity|assumption].
Qed.
Theorem depth_stage_ok : forall R (r : R) max l, exists n, alone n (depth_stage r max) l (max_depth_filter max l) r.
Proof.
  intros R r max l. destruct (range_alone R Z (depth_body max) (Return r) 1 [] r) with (l := l) (s := 0%Z) (out := @nil token) as [n H]; [constructor|].
  exists n. rewrite app_nil_r in H. replace (max_depth_filter max l) with (body_out (depth_body max) 0%Z l); [exact H|].
  clear. unfold max_depth_filter. generalize 0%Z. induction l as [|t l IH]; intro d; [reflexivity|]. cbn [body_out max_depth_loop depth_body]. rewrite IH, <- app_assoc. reflexivity.
Qed.
Theorem source_stage_ok : forall S (scan : S -> sop -> res (S * sobs)) A (p : prog A) s s' ts a,
  prun scan s p = Ok (s', ts, a) -> exists n, alone n (source_stage scan s p) [] ts a.
Proof.
  induction p as [a0|o k IH|t k IH|]; intros s s' ts a E; cbn [prun source_stage] in *.
  - injection E as <- <- <-. exists 1. constructor.
  - destruct (scan s o) as [[s1 x]| |]; try discriminate. destruct (IH x _ _ _ _ E) as [n H]. exists (1 + n). now constructor.
  - destruct (prun scan s k) as [[[s1 ts1] a1]| |] eqn:E1; try discriminate. injection E as <- <- <-. destruct (IH _ _ _ _ E1) as [n H]. exists (1 + n). now constructor.
  - discriminate.
Qed.

(** A decoder, the transformers join and depth, and a sink: the tokens are those
    of the models of the four, one after the other, for every schedule. *)
Theorem C25_decode_join_depth : forall S (scan : S -> sop -> res (S * sobs)) A (p : prog A) s s' ts (a ok : A) max,
  prun scan s p = Ok (s', ts, a) ->
  exists n, forall m o c, steps m (pipeline ok [source_stage scan s p; join_stage ok; depth_stage ok max; copy_stage ok]) o c ->
    m <= n /\ (stopped c -> sink c <> None) /\ (sink c <> None -> o = max_depth_filter max (join_stream ts) /\ c = [Closed ok; Closed a; Closed ok; Closed ok; Closed ok]).
Proof.
  intros S scan A p s s' ts a ok max E. destruct (source_stage_ok _ _ _ _ _ _ _ _ E) as [n1 H1]. destruct (join_stage_ok _ ok ts) as [n2 H2].
  destruct (depth_stage_ok _ ok max (join_stream ts)) as [n3 H3]. destruct (copy_stage_ok _ ok (max_depth_filter max (join_stream ts))) as [n4 H4].
  exists (n1 + (n2 + (n3 + (n4 + 0)))). intros m o c H.
  destruct (C25_sequential ok _ _ (max_depth_filter max (join_stream ts)) [a; ok; ok] ok (sequence_cons _ _ _ _ _ _ _ _ _ H1 (sequence_cons _ _ _ _ _ _ _ _ _ H2 (sequence_cons _ _ _ _ _ _ _ _ _ H3 (sequence_cons _ _ _ _ _ _ _ _ _ H4 (sequence_nil _))))) m o c H) as (L & _ & F & T & K).
  split; [exact L|]. split; [intro Q; rewrite (T Q); discriminate|]. intro Q. destruct (K Q) as [Q1 ->]. split; [reflexivity|].
  assert (G : Forall finished c).
  { eapply C26_no_goroutine_left; [|exact H|exact Q1]. repeat constructor; apply range_reads. }
  clear - F G. cbn [app] in F. repeat match goal with H : Forall2 _ _ (_ :: _) |- _ => inversion H; subst; clear H | H : Forall2 _ _ [] |- _ => inversion H; subst; clear H end.
  repeat match goal with H : Forall finished (_ :: _) |- _ => inversion H; subst; clear H end.
  repeat match goal with H : finished ?g |- _ => destruct H as [? ->] end. cbn [returned] in *. congruence.
Qed.
Print Assumptions C25_result_unique.
Print Assumptions C25_schedules_agree.
Print Assumptions C25_ends_alike.
Print Assumptions C25_sequential.
Print Assumptions C26_no_deadlock.
Print Assumptions C26_no_goroutine_left.
Print Assumptions C25_decode_join_depth.
Print Assumptions depth_stage_ok.
Print Assumptions trace_stage_ok.

(** A source that sends the array [[]], one of the transformers, and a sink. *)
Definition ex_source : proc nat := Send TStartArr (Compute (Send TEndArr (Return 7))).
Definition ex_pipeline : list (goroutine nat) := pipeline 0 [ex_source; join_stage 0; copy_stage 0].
Example ex_sequence : exists n, sequence n [ex_source; join_stage 0; copy_stage 0] [] [TStartArr; TStartArr; TEndArr; TEndArr] ([7; 0] ++ [0]).
Proof.
  destruct (join_stage_ok nat 0 [TStartArr; TEndArr]) as [n2 H2]. destruct (copy_stage_ok nat 0 (join_stream [TStartArr; TEndArr])) as [n3 H3].
  eexists. econstructor; [repeat constructor|]. econstructor; [exact H2|]. econstructor; [exact H3|constructor].
Qed.
Ltac unloop := rewrite (frob_eq _ (range_loop _ _ _ _)); cbn [frob range_loop].
(** At the start the transformer and the sink exchange a token; or, if the sink
    has received it, the sink sends it before or after the source has sent its
    first token. *)
Example ex_choice : exists c c1 c2, steps 1 ex_pipeline [] c /\ step c [TStartArr] c1 /\ step c [] c2 /\ c1 <> c2.
Proof.
  assert (S1 : step ex_pipeline [] (pipeline 0 [ex_source; range (fun (_ : unit) t => (tt, [t])) tt (Send TEndArr (Return 0)); range_loop (fun (_ : unit) t => (tt, [t])) (Return 0) tt [TStartArr]])).
  { unfold ex_pipeline, pipeline, copy_stage, range. cbn [map]. do 2 apply step_next. rewrite (frob_eq _ (range_loop _ (Return 0) _ [])). exact (step_send _ _ _ _). }
  do 3 eexists. split; [exact (steps_more _ _ _ _ _ _ S1 (steps_none _))|]. unfold pipeline, range. cbn [map].
  rewrite (frob_eq _ (range_loop _ (Return 0) _ [TStartArr])), (frob_eq _ (range_loop _ (Send _ _) _ _)). cbn [frob range_loop]. split; [|split].
  - do 3 apply step_next. apply step_output.
  - apply step_next. apply step_send.
  - intro E. injection E as E _. discriminate.
Qed.
(** A sink that returns before the end of its input leaves the source behind. *)
Example ex_left_behind : exists n o c, steps n (pipeline 0 [ex_source; Return 0]) o c /\ sink c = Some 0 /\ stopped c /\ ~ Forall finished c.
Proof.
  exists 1, [], [Closed 0; Running ex_source; Closed 0]. split; [|split; [reflexivity|split]].
  - apply (steps_more 0 _ [] [Closed 0; Running ex_source; Closed 0] [] _); [|constructor]. do 2 apply step_next. constructor.
  - intros o c' H. inversion H; subst. inversion H4; subst. inversion H5; subst. inversion H6.
  - intro F. inversion F; subst. inversion H2; subst. destruct H3. discriminate.
Qed.

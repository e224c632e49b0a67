(** C62: the goroutines of the command jp.  Whatever the schedule, the encoder is
    given the same tokens, the outcome is the one that P_Cli.v speaks about, and no
    goroutine waits for ever before the encoder is done. *)
From Coq Require Import String List ZArith NArith Arith Bool Lia.
From Verif Require Import Base Tokens ScannerModel ProgModel JsonDecModel P_JsonDec JpvDecModel P_Jpv JpvTotal CsvModel MainModel P_Main
  PathModel PathTop P_Split P_JpQuery PipelineModel PipelineSpec PipelineStages P_Pipeline CliModel P_Cli NetModel NetProofs.
Import ListNotations.
Open Scope string_scope.
Open Scope list_scope.
Open Scope nat_scope.

Section Jp.
Variable csv_records : bytes -> rerr -> list (list bytes) * bool.
Variable find : bytes -> bytes -> option (nat * nat).
Variable grow : Z -> Z -> Z.

Lemma send_all_ok : forall R ts (r : R), alone (length ts + 1) (send_all ts (Return r)) [] ts r.
Proof. induction ts as [|t ts IH]; intro r; cbn; constructor. apply IH. Qed.

Lemma source_ok : forall src input ts, source_sends csv_records src input ts ->
  exists F, forall f, F <= f -> exists n r, alone n (source_goroutine csv_records f src input) [] ts r.
Proof.
  intros [| |objects header named] input ts; cbn [source_sends source_goroutine].
  - intros (x & F & H). exists F. intros f Hf. specialize (H f Hf). unfold decode_json in H.
    destruct (prun cstep (new_scanner input jp_scanner) (produce f)) as [[[s ts'] x']| |] eqn:E; try discriminate. injection H as -> ->.
    destruct (source_stage_ok _ _ _ _ _ _ _ _ E) as [n N]. eauto.
  - intros (x & F & H). exists F. intros f Hf. specialize (H f Hf). unfold decode_jpv in H.
    destruct (prun cstep (new_scanner input jp_scanner) (jproduce f [])) as [[[s ts'] x']| |] eqn:E; try discriminate.
    set (fin := fun x : jres unit => match x with JOk _ => Ret (DOk tt) | JErr e => Ret (DErr e) | JPanic => Stuck end).
    assert (E' : prun cstep (new_scanner input jp_scanner) (pbind (jproduce f []) fin) = Ok (s, ts, x)).
    { rewrite prun_bind_any, E. destruct x'; try discriminate; injection H as <- <-; cbn; now rewrite app_nil_r. }
    destruct (source_stage_ok _ _ _ _ _ _ _ _ E') as [n N]. eauto.
  - intros (x & H). exists 0. intros f _. rewrite H. eauto using send_all_ok.
Qed.

Lemma stage_ok : forall s ts out, stage_turns find grow s ts out ->
  exists N, forall n, N <= n -> exists F, forall f, F <= f -> exists m r, alone m (stage_goroutine find grow n f s) ts out r.
Proof.
  intros [| | |z|q] ts out; cbn [stage_turns stage_goroutine].
  - intros (N & H). exists N. intros n Hn. destruct (H n Hn) as (F & h' & R). exists F. intros f Hf. destruct (split_stage_ok grow n f ts h' out (DOk tt) (R f Hf)) as [m M]. eauto.
  - intros ->. exists 0. intros n _. exists 0. intros f _. destruct (join_stage_ok _ (DOk tt : dres unit) ts) as [m M]. eauto.
  - intros ->. exists 0. intros n _. exists 0. intros f _. destruct (trace_stage_ok _ (DOk tt : dres unit) ts) as [m M]. eauto.
  - intros ->. exists 0. intros n _. exists 0. intros f _. destruct (depth_stage_ok _ (DOk tt : dres unit) z ts) as [m M]. eauto.
  - intros (N & H). exists N. intros n Hn. destruct (H n Hn) as (F & h' & R). exists F. intros f Hf. destruct (query_stage_ok grow find q n f ts h' out (DOk tt) (R f Hf)) as [m M]. eauto.
Qed.
Lemma sequence_app : forall R n m (ps qs : list (proc R)) l l1 o rs ss, sequence n ps l l1 rs -> sequence m qs l1 o ss -> sequence (n + m) (ps ++ qs) l o (rs ++ ss).
Proof.
  intros R n m ps qs l l1 o rs ss H K. induction H; [exact K|]. cbn [app]. rewrite <- Nat.add_assoc. econstructor; eauto.
Qed.
Lemma stages_ok : forall l ts out, stages_turn find grow l ts out ->
  exists N, forall n, N <= n -> exists F, forall f, F <= f -> exists m rs, sequence m (map (stage_goroutine find grow n f) l) ts out rs.
Proof.
  intros l ts out H. induction H as [ts|s l ts mid out H _ (N2 & IH)].
  - exists 0. intros n _. exists 0. intros f _. exists 0, []. constructor.
  - destruct (stage_ok _ _ _ H) as (N1 & K). exists (Nat.max N1 N2). intros n Hn. destruct (K n ltac:(lia)) as (F1 & K1). destruct (IH n ltac:(lia)) as (F2 & K2).
    exists (Nat.max F1 F2). intros f Hf. destruct (K1 f ltac:(lia)) as (m1 & r & A). destruct (K2 f ltac:(lia)) as (m2 & rs & B).
    exists (m1 + m2), (r :: rs). econstructor; eauto.
Qed.

(** C62, for the tokens: [ts] are those of the decoder, [out] those that the
    transformers make of them one after the other.  [n] and [f] bound the loops of
    the model only: any bounds that are large enough will do. *)
Theorem C62_tokens : forall p ts out, source_sends csv_records (pl_source p) (pl_input p) ts -> stages_turn find grow (pl_stages p) ts out ->
  exists N, forall n, N <= n -> exists F, forall f, F <= f -> exists bound, forall m o g, steps m (network csv_records find grow n f p) o g ->
    (* every schedule comes to an end, *)
    m <= bound /\
    (* not before the encoder is done, *)
    (sink g = None -> exists o' g', step g o' g') /\
    (* and what the encoder has been given is the beginning of [out], all of it at the end. *)
    (exists rest, out = o ++ rest) /\ (sink g <> None -> o = out).
Proof.
  intros p ts out S1 S2. destruct (source_ok _ _ _ S1) as (F1 & H1). destruct (stages_ok _ _ _ S2) as (N & H2).
  exists N. intros n Hn. destruct (H2 n Hn) as (F2 & K2). exists (Nat.max F1 F2). intros f Hf.
  destruct (H1 f ltac:(lia)) as (m1 & r1 & A). destruct (K2 f ltac:(lia)) as (m2 & rs & B).
  destruct (copy_stage_ok _ (DOk tt : dres unit) out) as [m3 C].
  assert (SQ : sequence (m1 + (m2 + (m3 + 0))) (source_goroutine csv_records f (pl_source p) (pl_input p) :: map (stage_goroutine find grow n f) (pl_stages p) ++ [copy_stage (DOk tt)]) [] out ((r1 :: rs) ++ [DOk tt])).
  { cbn [app]. econstructor; [exact A|]. eapply sequence_app; [exact B|]. econstructor; [exact C|constructor]. }
  exists (m1 + (m2 + (m3 + 0))). intros m o g H. destruct (C25_sequential (DOk tt) _ _ _ _ _ SQ _ _ _ H) as (L & P & _ & _ & E).
  split; [exact L|]. split; [|split; [exact P|intro Q; exact (proj2 (E Q))]].
  intro Q. eapply C26_no_deadlock; [|exact H|exact Q]. discriminate.
Qed.

(** C62, for the process. *)
Theorem C62_every_schedule : forall float_text tty epipe room c input oc p,
  jp float_text csv_records find grow tty epipe room c input oc -> prepare float_text tty c input = Some p ->
  exists N, forall n, N <= n -> exists F, forall f, F <= f -> exists bound, forall m o g, steps m (network csv_records find grow n f p) o g ->
    m <= bound /\ (sink g = None -> exists o' g', step g o' g') /\ (sink g <> None -> leaves_behind (pl_options p) epipe room o oc).
Proof.
  intros ft tty epipe room c input oc p J P. unfold jp in J. rewrite P in J. destruct J as (ts & out & S1 & S2 & LB).
  destruct (C62_tokens p ts out S1 S2) as (N & H). exists N. intros n Hn. destruct (H n Hn) as (F & K). exists F. intros f Hf. destruct (K f Hf) as (b & B).
  exists b. intros m o g G. destruct (B m o g G) as (L & D & _ & E). split; [exact L|]. split; [exact D|]. intro Q. rewrite (E Q). exact LB.
Qed.
End Jp.
Print Assumptions C62_tokens.
Print Assumptions C62_every_schedule.

(** [jp -json-compact split '$[1:]' join] on the text [[[1,2,3],[4]]]: five
    goroutines; whatever the schedule [[2, 3]] is written. *)
Example C62_example : forall float_text csv_records find grow, exists p,
  prepare float_text false ex60 ex60_input = Some p /\ length (pl_stages p) = 3 /\
  exists N, forall n, N <= n -> exists F, forall f, F <= f -> exists bound, forall m o g, steps m (network csv_records find grow n f p) o g ->
    m <= bound /\ (sink g = None -> exists o' g', step g o' g') /\
    (sink g <> None -> leaves_behind (pl_options p) false None o (mkOutcome (text "[2, 3]" ++ [10%N]) 0)).
Proof.
  intros ft csv find grow. destruct (C60_example ft csv (fun _ _ => True) find grow) as (_ & _ & J).
  destruct (prepare ft false ex60 ex60_input) as [p|] eqn:P; [|exfalso; vm_compute in P; discriminate].
  exists p. split; [reflexivity|]. split; [vm_compute in P; injection P as <-; reflexivity|]. exact (C62_every_schedule csv find grow ft false false None ex60 ex60_input _ p J P).
Qed.

(** C67: jp reads its input to the end before it ends. *)
From Coq Require Import String List ZArith NArith Arith Bool Lia.
From Verif Require Import Base Tokens ScannerModel ScannerSpec ProgModel JsonDecModel JsonSpec CursorModel IterModel PathModel PathTop CliModel P_Cli
  PipelineModel PipelineSpec PipelineStages P_Pipeline NetModel NetProofs DrainProofs MainModel WaitModel WaitSpec WaitProofs P_Wait WaitNetModel.
Import ListNotations.
Open Scope string_scope.
Open Scope list_scope.
Open Scope nat_scope.

Section Jp.
Variable csv_records : bytes -> rerr -> list (list bytes) * bool.
Variable find : bytes -> bytes -> option (nat * nat).
Variable grow : Z -> Z -> Z.

Lemma stage_reads : forall n f s, reads_all (stage_goroutine find grow n f s).
Proof.
  intros n f [| | |z|q]; cbn [stage_goroutine].
  - apply values_reads. exists None. reflexivity.
  - constructor. apply range_reads.
  - apply range_reads.
  - apply range_reads.
  - apply values_reads. exists None. reflexivity.
Qed.
Lemma stages_read : forall n f l, Forall reads_all (map (stage_goroutine find grow n f) l ++ [copy_stage (DOk tt)]).
Proof.
  intros n f l. apply Forall_app. split; [|constructor; [apply range_reads|constructor]]. apply Forall_forall. intros p P. apply in_map_iff in P as (s & <- & _). apply stage_reads.
Qed.

(** C67.  For any arguments and any input, JSON or not: when the encoder has come to
    the end, so have the decoder and all the transformers, whatever the schedule. *)
Theorem C67_reads_all : forall p n f m o g, steps m (network csv_records find grow n f p) o g -> sink g <> None -> Forall finished g.
Proof.
  intros p n f m o g H Q. destruct (sink g) as [r|] eqn:E; [|congruence]. exact (C26_no_goroutine_left _ _ _ _ _ _ _ (stages_read n f (pl_stages p)) H E).
Qed.

(** A goroutine that never returns. *)
CoInductive endless {R} : proc R -> Prop :=
| endless_receive : forall k, (forall o, endless (k o)) -> endless (Receive k)
| endless_send : forall t p, endless p -> endless (Send t p)
| endless_compute : forall p, endless p -> endless (Compute p).
Lemma endless_forever : forall R, endless (@forever R).
Proof. intro R. cofix CH. rewrite (frob_eq _ forever). cbn [frob forever]. constructor. exact CH. Qed.
Lemma endless_waiting : forall A (p : prog A) s ts, wait_run s p = (ts, Ok None) -> endless (waiting_stage s p).
Proof.
  intros A p. induction p as [a|o k IH|t k IH|]; intros s ts E; cbn [wait_run waiting_stage] in *.
  - discriminate.
  - destruct (cstep s o) as [[s1 x]| |]; try discriminate. destruct (asked s1); [apply endless_forever|]. constructor. exact (IH x s1 ts E).
  - destruct (wait_run s k) as [ts1 r1] eqn:E1. injection E as <- ->. constructor. exact (IH s ts1 E1).
  - discriminate.
Qed.
Lemma endless_step : forall R (r0 : R) p c o g, endless p -> step (Closed r0 :: Running p :: c) o g -> exists p' c', g = Closed r0 :: Running p' :: c' /\ endless p'.
Proof.
  intros R r0 p c o g E H. inversion H; subst.
  - inversion E; subst. eauto.
  - match goal with X : step _ _ _ |- _ => inversion X; subst end; inversion E; subst; eauto.
Qed.
Lemma endless_steps : forall R m c0 o g, steps m c0 o g -> forall (r0 : R) p c, c0 = Closed r0 :: Running p :: c -> endless p -> exists p' c', g = Closed r0 :: Running p' :: c'.
Proof.
  intros R m c0 o g H. induction H as [c0|m c0 o c1 os g H1 H IH]; intros r0 p c E EP; subst c0; [eauto|].
  destruct (endless_step _ _ _ _ _ _ EP H1) as (p' & c' & -> & EP'). exact (IH r0 p' c' eq_refl EP').
Qed.

(** While jp waits for input it does not end, whatever its arguments have made of
    what it has received. *)
Theorem C67_waits : forall p ts chunks n f m o g, received ts (concat chunks) -> ok_runs 99 chunks = true -> 2 * length (concat chunks) + 2 <= f ->
  steps m (waiting_network find grow n f p chunks) o g -> sink g = None.
Proof.
  intros p ts chunks n f m o g RC K L H. destruct (sink g) as [r|] eqn:E; [exfalso|reflexivity].
  assert (W : decode_waiting f chunks jp_scanner = (ts, true)) by (apply (decode_waits ts (concat chunks)); auto; unfold jp_scanner; lia).
  unfold decode_waiting in W. destruct (wait_run (new_scanner (delivering chunks) jp_scanner) (produce f)) as [ts' x] eqn:WR.
  assert (x = Ok None) by (destruct x as [[x|]| |]; (reflexivity || discriminate)). subst x.
  pose proof (C26_no_goroutine_left _ _ _ _ _ _ _ (stages_read n f (pl_stages p)) H E) as F.
  destruct (endless_steps _ _ _ _ _ H _ _ _ eq_refl (endless_waiting _ _ _ _ WR)) as (p' & c' & ->).
  inversion F as [|? ? _ F']; subst. inversion F' as [|? ? [r' X] _]; subst. discriminate.
Qed.
End Jp.
Print Assumptions C67_reads_all.
Print Assumptions C67_waits.

(* ------------------------------------------------------------------ *)
(** A schedule that prefers the goroutines near the end. *)
Fixpoint first_step {R} (c : list (goroutine R)) : option (list token * list (goroutine R)) :=
  match c with
  | [] => None
  | g :: c' =>
      match first_step c' with
      | Some (o, c'') => Some (o, g :: c'')
      | None =>
          match g, c' with
          | Running (Compute p), _ => Some ([], Running p :: c')
          | Running (Return r), _ => Some ([], Closed r :: c')
          | Running (Send t p), [] => Some ([t], [Running p])
          | Running (Send t p), Running (Receive k) :: c'' => Some ([], Running p :: Running (k (Some t)) :: c'')
          | Closed r, Running (Receive k) :: c'' => Some ([], Closed r :: Running (k None) :: c'')
          | _, _ => None
          end
      end
  end.
Lemma first_step_ok : forall R (c : list (goroutine R)) o c', first_step c = Some (o, c') -> step c o c'.
Proof.
  intros R. induction c as [|g c IH]; intros o c' E; [discriminate|]. cbn [first_step] in E. destruct (first_step c) as [[o1 c1]|]; [injection E as <- <-; constructor; auto|].
  destruct g as [[k|t p|p|r]|r]; [discriminate| | | |].
  - destruct c as [|[[k|t2 p2|p2|r2]|r2] c2]; try discriminate; injection E as <- <-; constructor.
  - injection E as <- <-. constructor.
  - injection E as <- <-. constructor.
  - destruct c as [|[[k|t2 p2|p2|r2]|r2] c2]; try discriminate. injection E as <- <-. constructor.
Qed.
Fixpoint first_steps {R} (m : nat) (c : list (goroutine R)) : list token * list (goroutine R) :=
  match m with
  | O => ([], c)
  | S m' => match first_step c with
            | None => ([], c)
            | Some (o, c') => let '(os, c'') := first_steps m' c' in (o ++ os, c'')
            end
  end.
Lemma first_steps_ok : forall R m (c : list (goroutine R)), exists n, steps n c (fst (first_steps m c)) (snd (first_steps m c)).
Proof.
  intros R. induction m as [|m IH]; intro c; [exists 0; constructor|]. cbn [first_steps]. destruct (first_step c) as [[o c']|] eqn:E; [|exists 0; constructor].
  destruct (IH c') as [n H]. destruct (first_steps m c') as [os c'']. exists (S n). econstructor; [exact (first_step_ok _ _ _ _ E)|exact H].
Qed.

(** "Stops reading after N items" (help text), "stops reading after 10" (README),
    for [jp '$.items[:2]']: the two items have been received and the encoder has got
    them, but jp goes on reading. *)
Definition slice_command : command := plain_command [text "$.items[:2]"].
Definition slice_chunks : list bytes := [text "{""items"": [1, "; text "2, "].
Definition slice_tokens : list token := [TStartObj; TScalar (key_scalar (text "items")); TStartArr; TScalar (new_scalar TNum (text "1")); TScalar (new_scalar TNum (text "2"))].
Lemma digit_text : forall d, (49 <= d <= 57)%N -> vtext true (JScalar (new_scalar TNum [d])) [d].
Proof.
  intros d D. apply vt_num. exists [], [d], [], []. split; [reflexivity|]. split; [auto|]. split; [right; exists d, []; split; [reflexivity|]; split; [exact D|constructor]|]. split; [left; reflexivity|left; reflexivity].
Qed.
Lemma slice_received : received slice_tokens (concat slice_chunks).
Proof.
  apply re_opened. apply (op_object [] [] [] (TScalar (key_scalar (text "items")) :: TStartArr :: flat_map toks [JScalar (new_scalar TNum (text "1")); JScalar (new_scalar TNum (text "2"))] ++ [])
    (text """items"": [1, 2, ")); [constructor|constructor|].
  apply (bm_value [] (text "items") [] _ (text " [1, 2, ")); [apply Forall_nil| |apply Forall_nil|].
  - change (chars true [105; 116; 101; 109; 115]%N). repeat (apply ch_plain; [unfold plain_byte; lia|]). apply ch_nil.
  - apply be_opened. apply (op_array (text " ") _ (text "1, 2,") [] (text " ")); [exact blank| |apply be_none; exact blank].
    apply (it_cons [] _ (text "1") [] _ (text " 2,")); [apply Forall_nil|exact (digit_text 49%N ltac:(lia))|apply Forall_nil|].
    apply (it_cons (text " ") _ (text "2") [] [] []); [exact blank|exact (digit_text 50%N ltac:(lia))|apply Forall_nil|apply it_nil].
Qed.
Theorem C67_slice_refuted : forall float_text find grow, exists p n f,
  prepare float_text false slice_command (stdin (concat slice_chunks)) = Some p /\
  received slice_tokens (concat slice_chunks) /\
  (exists m g, steps m (waiting_network find grow n f p slice_chunks) [TScalar (new_scalar TNum (text "1")); TScalar (new_scalar TNum (text "2"))] g) /\
  (forall m o g, steps m (waiting_network find grow n f p slice_chunks) o g -> sink g = None).
Proof.
  intros ft find grow. destruct (prepare ft false slice_command (stdin (concat slice_chunks))) as [p|] eqn:P; [|exfalso; vm_compute in P; discriminate].
  exists p, 40, 100. split; [reflexivity|]. split; [exact slice_received|]. split.
  - destruct (first_steps_ok _ 300 (waiting_network find grow 40 100 p slice_chunks)) as [m H]. exists m, (snd (first_steps 300 (waiting_network find grow 40 100 p slice_chunks))).
    match type of H with steps _ _ ?o _ => replace o with [TScalar (new_scalar TNum (text "1")); TScalar (new_scalar TNum (text "2"))] in H end; [exact H|].
    clear H. vm_compute in P. injection P as <-. vm_compute. reflexivity.
  - intros m o g H. eapply C67_waits; [exact slice_received|reflexivity| |exact H]. vm_compute. lia.
Qed.
Print Assumptions C67_slice_refuted.

(** [jp split '$[1:]' join] on [[[1,2,3],[4]]]: the encoder comes to the end. *)
Example C67_example : forall float_text csv_records find grow, exists p, prepare float_text false ex60 ex60_input = Some p /\ length (pl_stages p) = 3 /\
  exists m o g, steps m (network csv_records find grow 60 200 p) o g /\ sink g <> None /\ Forall finished g.
Proof.
  intros ft csv find grow. destruct (prepare ft false ex60 ex60_input) as [p|] eqn:P; [|exfalso; vm_compute in P; discriminate].
  exists p. split; [reflexivity|]. split; [vm_compute in P; injection P as <-; reflexivity|].
  destruct (first_steps_ok _ 1000 (network csv find grow 60 200 p)) as [m H]. eexists m, _, _. split; [exact H|].
  assert (Q : sink (snd (first_steps 1000 (network csv find grow 60 200 p))) <> None) by (clear H; vm_compute in P; injection P as <-; vm_compute; discriminate).
  split; [exact Q|]. exact (C67_reads_all csv find grow p 60 200 _ _ _ H Q).
Qed.

(** Properties C01, C02, C03: cursors over one stream (token/cursor.go). *)
From Coq Require Import List ZArith Lia.
From Verif Require Import Base Tokens CursorModel CursorSpec CursorProofs CursorBound.

(** C01.  Whatever the operations, the pool (with any slice growth policy)
    does not panic and every observation is that of independent readers of the
    immutable stream [src].  [maxint] is 2^63-1. *)
Theorem C01_cursors_are_independent_readers :
  forall (grow : Z -> Z -> Z) (src : list token) (ops : list op),
    (Z.of_nat (length src) < maxint)%Z ->
    exists p', run grow (new_pool src) ops
               = Ok (p', snd (spec_run src (mkReaders 0 []) ops)).
Proof.
  intros grow src ops M.
  destruct (run_ok grow src ops _ _ M (inv_new src)) as [p' [R _]]. eauto.
Qed.
Print Assumptions C01_cursors_are_independent_readers.

(** C01, for a cursor made from a slice of tokens (NewCursorFromData). *)
Theorem C01_cursor_from_data :
  forall (grow : Z -> Z -> Z) (data : list token) (cap : Z) (ops : list op),
    (Z.of_nat (length data) < maxint)%Z ->
    exists p', run grow (new_pool_from_data data cap) ops
               = Ok (p', snd (spec_run data (mkReaders (length data) [Some 0]) ops)).
Proof.
  intros grow data cap ops M.
  destruct (run_ok grow data ops _ _ M (inv_from_data data cap)) as [p' [R _]]. eauto.
Qed.
Print Assumptions C01_cursor_from_data.

(** C02.  After any history the pool has taken from the stream exactly the
    first [sp_read] tokens, [sp_read] being the furthest position reached, and
    its window is the segment of the stream ending there. *)
Theorem C02_pool_reads_lazily_and_once :
  forall (grow : Z -> Z -> Z) (src : list token) (ops : list op) (p' : pool) (o : list obs),
    (Z.of_nat (length src) < maxint)%Z ->
    run grow (new_pool src) ops = Ok (p', o) ->
    let n := sp_read (fst (spec_run src (mkReaders 0 []) ops)) in
    src = firstn n src ++ p_src p' /\
    exists before, firstn n src = before ++ p_win p' /\ p_wpos p' = Z.of_nat (length before).
Proof.
  intros grow src ops p' o M R n.
  destruct (run_ok grow src ops _ _ M (inv_new src)) as [p'' [R' [w I]]].
  rewrite R' in R. injection R as -> _. destruct I. fold n in i_read, i_len, i_src.
  split.
  - rewrite i_src. symmetry. apply firstn_skipn.
  - exists (firstn w src). split.
    + rewrite i_win, <- i_read. apply firstn_plus.
    + rewrite i_wpos, firstn_length. lia.
Qed.
Print Assumptions C02_pool_reads_lazily_and_once.

(** Non-vacuity: two cursors, more than 100 buffered reads, hence a trim. *)
Example C01_example :
  let src := repeat TStartArr 150 in
  let ops := ONew :: OClone 0 :: repeat (ONext 0) 140 ++ repeat (ONext 1) 130 ++ [ODetach 0] in
  exists p' o, run (fun _ n => (2 * n + 1)%Z) (new_pool src) ops = Ok (p', o) /\
    length o = 273 /\ p_wpos p' = 101%Z /\ length (p_win p') = 39 /\ length (p_src p') = 10.
Proof. cbv zeta. eexists. eexists. split; [vm_compute; reflexivity|]. vm_compute. auto. Qed.

(** C03 is violated: a single cursor over a stream of any length [n], never
    cloned, leaves all [n] tokens in the window although it has passed them
    all.  So no bound exists. *)
Theorem C03_passed_tokens_are_bounded_refuted :
  forall (grow : Z -> Z -> Z) (bound : nat), exists src ops p' o,
    run grow (new_pool src) (ONew :: ops) = Ok (p', o) /\
    (forall c cu, nth_error (p_tab p') c = Some cu ->
       cu_pos cu = (p_wpos p' + Z.of_nat (length (p_win p')))%Z) /\
    bound < length (p_win p').
Proof.
  intros grow bound.
  set (src := repeat TStartArr (S bound)).
  assert (Ls : length src = S bound) by apply repeat_length.
  clearbody src.
  destruct (lone_reader_keeps_all grow src [] 0%Z) as [p' [R [W [P T]]]].
  exists src, (repeat (ONext 0) (length src)), p'. eexists. split.
  - change (run grow (new_pool src) (ONew :: repeat (ONext 0) (length src)))
      with (bind (run grow (mkPool src [] 0 0 0 [0] [mkCursor true (Z.of_nat (length (@nil token)))])
                    (repeat (ONext 0) (length src)))
                 (fun q => Ok (fst q, ObsCursor 0 :: snd q))).
    rewrite R. reflexivity.
  - assert (L : length (p_win p') = S bound) by (rewrite W; exact Ls).
    split; [|lia].
    intros [|[|c]] cu E; rewrite T in E; try discriminate.
    injection E as <-. simpl. rewrite P, W. simpl. lia.
Qed.
Print Assumptions C03_passed_tokens_are_bounded_refuted.

(** What is left of C03.  Two cursors are created and from then on any cursors
    are created, cloned and read, in any order, without one being detached or
    running into the end of the stream.  Then the pool always holds at most
    100 tokens that all live cursors have passed: some live cursor's position
    [n] is within 100 of the first token kept. *)
Theorem C03_two_cursors_partial :
  forall (grow : Z -> Z -> Z) (src : list token) (ops : list op),
    (Z.of_nat (length src) < maxint)%Z ->
    let s2 := fst (spec_run src (mkReaders 0 []) [ONew; ONew]) in
    keeps_all src s2 ops ->
    exists p' o c n,
      run grow (new_pool src) (ONew :: ONew :: ops) = Ok (p', o) /\
      nth_error (sp_cur (fst (spec_run src s2 ops))) c = Some (Some n) /\
      (p_wpos p' <= Z.of_nat n <= p_wpos p' + 100)%Z.
Proof.
  intros grow src ops M s2 K.
  destruct (run_ok grow src [ONew; ONew] _ _ M (inv_new src)) as [p2 [R2 I2]].
  fold s2 in I2.
  assert (C2 : catch_ok p2 /\ near p2).
  { simpl in R2. injection R2 as <-. split.
    - unfold catch_ok; simpl. unfold catchupCountThreshold. lia.
    - exists 0. simpl. unfold cpos; simpl. split; [now left|lia]. }
  destruct C2 as [C2 N2].
  assert (TL : two_live s2).
  { exists 0, 1, 0, 0. repeat split; auto. }
  destruct (run_ok grow src ops _ _ M I2) as [p' [R I']].
  destruct (run_near grow src ops _ _ _ _ M I2 C2 TL K R) as [A [_ _]].
  destruct (run_catch grow src ops _ _ _ _ M I2 C2 R) as [C' _].
  destruct (A N2) as [c [Hc Hn]].
  destruct (inv_registered _ _ _ I' _ Hc) as [n [H1 [H2 H3]]].
  pose proof (inv_bounds _ _ _ I' _ Hc) as Bc.
  exists p'. eexists. exists c, n. split; [|split; [exact H2|]].
  - simpl in R2. injection R2 as <-. cbn [run step bind fst snd]. simpl. simpl in R.
    rewrite R. reflexivity.
  - unfold cpos in *. rewrite H1 in *. simpl in *.
    unfold catch_ok, catchupCountThreshold in C'. lia.
Qed.
Print Assumptions C03_two_cursors_partial.

(** And from any history whatsoever, detaching included, as long as two
    cursors are live: once more than 100 tokens have been read again with no
    cursor lost, the pool holds at most 100 tokens passed by all. *)
Theorem C03_recovery_partial :
  forall (grow : Z -> Z -> Z) (src : list token) (before ops : list op),
    (Z.of_nat (length src) < maxint)%Z ->
    let s := fst (spec_run src (mkReaders 0 []) before) in
    two_live s -> keeps_all src s ops -> 100 < rereads src s ops ->
    exists p o p' o' c n,
      run grow (new_pool src) before = Ok (p, o) /\ run grow p ops = Ok (p', o') /\
      nth_error (sp_cur (fst (spec_run src s ops))) c = Some (Some n) /\
      (p_wpos p' <= Z.of_nat n <= p_wpos p' + 100)%Z.
Proof.
  intros grow src before ops M s TL K RR.
  destruct (run_ok grow src before _ _ M (inv_new src)) as [p [Rp Ip]]. fold s in Ip.
  assert (C0 : catch_ok (new_pool src)).
  { unfold catch_ok, catchupCountThreshold; simpl. lia. }
  destruct (run_catch grow src before _ _ _ _ M (inv_new src) C0 Rp) as [Cp _].
  destruct (run_ok grow src ops _ _ M Ip) as [p' [R I']].
  destruct (run_near grow src ops _ _ _ _ M Ip Cp TL K R) as [_ [A _]].
  destruct (run_catch grow src ops _ _ _ _ M Ip Cp R) as [C' _].
  unfold catch_ok, catchupCountThreshold in *.
  destruct A as [[c [Hc Hn]]|A]; [|lia].
  destruct (inv_registered _ _ _ I' _ Hc) as [n [H1 [H2 H3]]].
  pose proof (inv_bounds _ _ _ I' _ Hc) as Bc.
  exists p. eexists. exists p'. eexists. exists c, n.
  split; [exact Rp|]. split; [exact R|]. split; [exact H2|].
  unfold cpos in *. rewrite H1 in *. simpl in *. lia.
Qed.
Print Assumptions C03_recovery_partial.

(** Non-vacuity: a leader reads 149 tokens and a second cursor follows; the
    second history detaches a third cursor on the way. *)
Example C03_two_cursors_ex :
  let src := repeat TStartArr 150 in
  let ops := repeat (ONext 0) 149 ++ repeat (ONext 1) 120 in
  let s2 := fst (spec_run src (mkReaders 0 []) [ONew; ONew]) in
  keeps_all src s2 ops /\
  exists p' o, run (fun c _ => c) (new_pool src) (ONew :: ONew :: ops) = Ok (p', o) /\
    p_wpos p' = 101%Z /\ length (p_win p') = 48.
Proof.
  cbv zeta. split.
  - vm_compute. repeat split; discriminate.
  - eexists. eexists. split; [vm_compute; reflexivity|]. vm_compute. auto.
Qed.

Example C03_recovery_ex :
  let src := repeat TStartArr 150 in
  let before := [ONew; ONew; ONew] ++ repeat (ONext 0) 140 ++ repeat (ONext 1) 20 ++ [ODetach 2] in
  let ops := repeat (ONext 1) 110 in
  let s := fst (spec_run src (mkReaders 0 []) before) in
  two_live s /\ keeps_all src s ops /\ 100 < rereads src s ops.
Proof.
  cbv zeta. split; [|split].
  - exists 0, 1, 140, 20. split; [discriminate|]. vm_compute. auto.
  - vm_compute. repeat split; discriminate.
  - vm_compute. lia.
Qed.

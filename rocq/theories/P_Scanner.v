(** Properties C04, C05, C06: the buffered scanner (internal/scanner). *)
From Coq Require Import List Arith NArith Bool Lia.
From Verif Require Import Base ScannerModel ScannerSpec ScannerProofs ScannerPos.

(** C04.  [arun] runs a sequence of scanner calls on the plain byte sequence;
    it is [Ok] for the legal sequences (Back only right after consuming a byte
    that can be given back, StartToken/EndToken alternate).  On every reader
    [r], however it chunks its data and with whatever final error, and for
    every buffer size from 2 on, the buffered scanner makes the same
    observations and does not panic. *)
Theorem C04_chunking_is_invisible :
  forall (r : reader) (size : nat) (ops : list sop) (a : ast) (xs : list sobs),
    2 <= size ->
    ok_runs 99 (rd_chunks r) = true ->
    arun (a_init (concat (rd_chunks r)) (rd_fin r)) ops = Ok (a, xs) ->
    exists c, crun (new_scanner r size) ops = Ok (c, xs).
Proof.
  intros r size ops a xs S K H.
  destruct (run_sim ops _ _ _ _ (init_sim r size S K) H) as [c [C _]]. eauto.
Qed.
Print Assumptions C04_chunking_is_invisible.

(** In particular two readers of the same bytes with the same end give the
    same results, whatever the buffer sizes. *)
Theorem C04_two_chunkings_agree :
  forall (r1 r2 : reader) (size1 size2 : nat) (ops : list sop) (a : ast) (xs : list sobs),
    2 <= size1 -> 2 <= size2 ->
    ok_runs 99 (rd_chunks r1) = true -> ok_runs 99 (rd_chunks r2) = true ->
    concat (rd_chunks r1) = concat (rd_chunks r2) -> rd_fin r1 = rd_fin r2 ->
    arun (a_init (concat (rd_chunks r1)) (rd_fin r1)) ops = Ok (a, xs) ->
    exists c1 c2, crun (new_scanner r1 size1) ops = Ok (c1, xs) /\
                  crun (new_scanner r2 size2) ops = Ok (c2, xs).
Proof.
  intros r1 r2 z1 z2 ops a xs S1 S2 K1 K2 E F H.
  destruct (C04_chunking_is_invisible r1 z1 ops a xs S1 K1 H) as [c1 C1].
  rewrite E, F in H.
  destruct (C04_chunking_is_invisible r2 z2 ops a xs S2 K2 H) as [c2 C2]. eauto.
Qed.
Print Assumptions C04_two_chunkings_agree.

(** Without the size condition the property fails: with a buffer of one byte
    the second byte is never delivered. *)
Theorem C04_one_byte_buffer_refuted :
  exists (r : reader) (ops : list sop) (a : ast) (xs : list sobs),
    arun (a_init (concat (rd_chunks r)) (rd_fin r)) ops = Ok (a, xs) /\
    ok_runs 99 (rd_chunks r) = true /\
    forall c, crun (new_scanner r 1) ops <> Ok (c, xs).
Proof.
  exists (mkReader [[97%N; 98%N]] RdEOF false), [SRead; SRead].
  do 2 eexists. split; [reflexivity|]. split; [reflexivity|].
  intro c. vm_compute. discriminate.
Qed.
Print Assumptions C04_one_byte_buffer_refuted.

(** End of input is reported as the byte 0xFF, so an input containing that
    byte cannot be told from one that ends there. *)
Theorem C04_eof_is_distinguishable_refuted :
  exists a1 a2 x, arun (a_init [255%N; 97%N] RdEOF) [SPeek] = Ok (a1, [x]) /\
                  arun (a_init [] RdEOF) [SPeek] = Ok (a2, [x]).
Proof. do 3 eexists. split; reflexivity. Qed.
Print Assumptions C04_eof_is_distinguishable_refuted.

(** C05.  Run any legal calls [pre], then StartToken, then any legal calls
    [mid] that do not record tokens, then EndToken: it returns exactly the
    bytes consumed by [mid]. *)
Theorem C05_token_is_what_was_read :
  forall (r : reader) (size : nat) (pre mid : list sop) (a1 a2 : ast) x0 x1 x2,
    2 <= size ->
    ok_runs 99 (rd_chunks r) = true ->
    forallb no_token_op mid = true ->
    arun (a_init (concat (rd_chunks r)) (rd_fin r)) pre = Ok (a1, x0) ->
    arun a1 (SStart :: mid) = Ok (a2, x1 :: x2) ->
    exists c t, crun (new_scanner r size) (pre ++ SStart :: mid ++ [SEnd])
                = Ok (c, x0 ++ x1 :: x2 ++ [OTok t]) /\
      a_in a1 = t ++ a_in a2.
Proof.
  intros r size pre mid a1 a2 x0 x1 x2 S K NT H1 H2.
  assert (T : tinv (a_in a1) a2).
  { simpl arun in H2. destruct (a_tok a1) eqn:AT; simpl in H2; [discriminate|].
    destruct (arun _ mid) as [[a3 ys]| |] eqn:R; simpl in H2; try discriminate.
    injection H2 as <- <- <-.
    refine (run_tinv mid (a_in a1) _ _ _ _ NT R).
    exists []. simpl. repeat split; discriminate. }
  destruct T as [t [T1 [T2 _]]].
  assert (E : exists a4, arun (a_init (concat (rd_chunks r)) (rd_fin r)) (pre ++ SStart :: mid ++ [SEnd])
      = Ok (a4, x0 ++ x1 :: x2 ++ [OTok t])).
  { rewrite (arun_app pre _ _ _ _ H1).
    change (SStart :: mid ++ [SEnd]) with ((SStart :: mid) ++ [SEnd]).
    rewrite (arun_app (SStart :: mid) _ _ _ _ H2).
    simpl. rewrite T1. simpl. eexists. reflexivity. }
  destruct E as [a4 E].
  destruct (C04_chunking_is_invisible r size _ _ _ S K E) as [c C]. eauto.
Qed.
Print Assumptions C05_token_is_what_was_read.

(** Non-vacuity of C04 and C05: a token of 7 bytes through a buffer of 2,
    chunked irregularly with empty reads, followed by a Back. *)
Example C05_example :
  let r := mkReader [[32]; []; [97; 98; 99]; []; []; [100; 101; 102; 103; 104]]%N RdEOF true in
  let pre := [SSkipPeek] in
  let mid := repeat SRead 8 ++ [SBack] in
  exists a1 a2 x0 x1 x2,
    ok_runs 99 (rd_chunks r) = true /\ forallb no_token_op mid = true /\
    arun (a_init (concat (rd_chunks r)) (rd_fin r)) pre = Ok (a1, x0) /\
    arun a1 (SStart :: mid) = Ok (a2, x1 :: x2) /\ a_in a2 = [104%N].
Proof.
  cbv zeta. do 5 eexists. split; [reflexivity|]. split; [reflexivity|].
  split; [vm_compute; reflexivity|]. split; [vm_compute; reflexivity|]. reflexivity.
Qed.

(** C06.  After any legal calls in which every Back undoes a Read, the position
    reported is that of the bytes consumed: number of newlines, and number of
    bytes below 0xC0 since the last newline. *)
Theorem C06_position_of_consumed_bytes :
  forall (r : reader) (size : nat) (ops : list sop) (a : ast) (xs : list sobs),
    2 <= size ->
    ok_runs 99 (rd_chunks r) = true ->
    arun (a_init (concat (rd_chunks r)) (rd_fin r)) ops = Ok (a, xs) ->
    backs_follow_reads false ops xs = true ->
    exists c consumed,
      concat (rd_chunks r) = consumed ++ a_in a /\
      crun (new_scanner r size) (ops ++ [SPos]) = Ok (c, xs ++ [OPos (pos_of consumed)]).
Proof.
  intros r size ops a xs S K H B.
  destruct (run_pinv _ _ _ _ _ _ _ (init_pinv _ _) H B) as [rd [d [P1 P2 _]]].
  assert (E : arun (a_init (concat (rd_chunks r)) (rd_fin r)) (ops ++ [SPos])
              = Ok (a, xs ++ [OPos (pos_of d)])).
  { rewrite (arun_app ops _ _ _ _ H). simpl. now rewrite P2. }
  destruct (C04_chunking_is_invisible r size _ _ _ S K E) as [c C]. eauto.
Qed.
Print Assumptions C06_position_of_consumed_bytes.

(** So the column is the number of characters since the last newline provided
    all characters have one or two bytes.  Missing for the full property:
    characters of three and four bytes, see below. *)
Theorem C06_columns_count_characters_partial :
  forall (consumed : bytes), narrow_text consumed ->
    col (pos_of consumed) = utf8_chars (after_last_newline consumed).
Proof.
  intros l H. simpl. apply narrow_count. now apply narrow_after_newline.
Qed.
Print Assumptions C06_columns_count_characters_partial.

(** U+20AC (three bytes) advances the column by two. *)
Theorem C06_columns_count_characters_refuted :
  exists a xs, arun (a_init [226; 130; 172]%N RdEOF) [SRead; SRead; SRead; SPos] = Ok (a, xs) /\
    utf8_chars [226; 130; 172]%N = 1 /\ last xs OErr = OPos (mkPos 0 2).
Proof. do 2 eexists. split; [reflexivity|]. split; reflexivity. Qed.
Print Assumptions C06_columns_count_characters_refuted.

(** Back after SkipSpaceAndRead restores a stale position: here position 0:0
    is reported although one byte is consumed. *)
Theorem C06_back_after_skip_read_refuted :
  exists c xs,
    crun (new_scanner (mkReader [[97; 98]]%N RdEOF true) 16) [SRead; SSkipRead; SBack; SPos; SRead]
    = Ok (c, xs) /\ xs = [OB 97; OB 98; OUnit; OPos (mkPos 0 0); OB 98].
Proof. do 2 eexists. split; vm_compute; reflexivity. Qed.
Print Assumptions C06_back_after_skip_read_refuted.

Example C06_example :
  exists a xs, arun (a_init [97; 10; 32; 195; 169; 98]%N RdEOF)
      [SRead; SSkipPeek; SRead; SRead; SRead; SBack] = Ok (a, xs) /\
    backs_follow_reads false [SRead; SSkipPeek; SRead; SRead; SRead; SBack] xs = true /\
    narrow_text [97; 10; 32; 195; 169]%N /\ a_pos a = mkPos 1 2.
Proof.
  do 2 eexists. split; [vm_compute; reflexivity|]. split; [vm_compute; reflexivity|].
  split; [|vm_compute; reflexivity].
  do 3 (apply nt_one; [lia|]). apply nt_two; [lia|lia|constructor].
Qed.

(** The buffered scanner refines the plain one. *)
From Coq Require Import List Arith NArith Bool Lia.
From Verif Require Import Base ScannerModel ScannerSpec.

(* ------------------------------------------------------------------ *)
(** List lemmas about slices. *)

Lemma slice_nil : forall A (l : list A) i j, j <= i -> slice l i j = [].
Proof. intros. unfold slice. replace (j - i) with 0 by lia. reflexivity. Qed.

Lemma slice_length : forall A (l : list A) i j, i <= j -> j <= length l ->
  length (slice l i j) = j - i.
Proof. intros. unfold slice. rewrite firstn_length, skipn_length. lia. Qed.

Lemma slice_cons : forall A (l : list A) i j a, i < j -> nth_error l i = Some a ->
  slice l i j = a :: slice l (S i) j.
Proof.
  intros. unfold slice. rewrite (skipn_cons_nth _ _ _ _ H0).
  replace (j - i) with (S (j - S i)) by lia. reflexivity.
Qed.

Lemma slice_split : forall A (l : list A) i j k, i <= j -> j <= k ->
  slice l i k = slice l i j ++ slice l j k.
Proof.
  intros. unfold slice. replace (k - i) with ((j - i) + (k - j)) by lia.
  rewrite firstn_plus. f_equal. rewrite skipn_skipn. do 2 f_equal. lia.
Qed.

Lemma slice_snoc : forall A (l : list A) i j a, i <= j -> nth_error l j = Some a ->
  slice l i (S j) = slice l i j ++ [a].
Proof.
  intros. rewrite (slice_split _ l i j (S j)) by lia. f_equal.
  erewrite slice_cons by (eauto; lia). now rewrite slice_nil by lia.
Qed.

Lemma slice_0 : forall A (l : list A) j, slice l 0 j = firstn j l.
Proof. intros. unfold slice. now rewrite Nat.sub_0_r. Qed.

Lemma slice_nth : forall A (l : list A) i j k, k < j - i ->
  nth_error (slice l i j) k = nth_error l (i + k).
Proof.
  intros. unfold slice. rewrite nth_error_firstn by lia. apply nth_error_skipn.
Qed.

Lemma list_eq_nth : forall A (l1 l2 : list A), length l1 = length l2 ->
  (forall n, n < length l1 -> nth_error l1 n = nth_error l2 n) -> l1 = l2.
Proof.
  induction l1 as [|x l1 IH]; destruct l2 as [|y l2]; simpl; intros L H; try lia; auto.
  pose proof (H 0 ltac:(lia)) as H0. simpl in H0. injection H0 as ->. f_equal.
  apply IH; [lia|]. intros n Hn. apply (H (S n)). lia.
Qed.

Lemma slice_eq : forall A (l1 l2 : list A) i1 j1 i2 j2,
  i1 <= j1 -> j1 <= length l1 -> i2 <= j2 -> j2 <= length l2 -> j1 - i1 = j2 - i2 ->
  (forall n, n < j1 - i1 -> nth_error l1 (i1 + n) = nth_error l2 (i2 + n)) ->
  slice l1 i1 j1 = slice l2 i2 j2.
Proof.
  intros. apply list_eq_nth.
  - rewrite !slice_length by lia. lia.
  - intros n Hn. rewrite slice_length in Hn by lia.
    rewrite !slice_nth by lia. auto.
Qed.

(* ------------------------------------------------------------------ *)
(** The simulation relation. *)

Record sim (a : ast) (c : cst) : Prop := mkSim {
  s_size : 2 <= length (c_buf c);
  s_cur : c_cur c <= c_fill c;
  s_fill : c_fill c <= length (c_buf c);
  s_in : a_in a = slice (c_buf c) (c_cur c) (c_fill c) ++ concat (rd_chunks (c_rd c));
  s_fin : a_fin a = rd_fin (c_rd c);
  s_runs : ok_runs 99 (rd_chunks (c_rd c)) = true;
  s_err : forall e, c_err c = Some e -> rd_chunks (c_rd c) = [] /\ e = Some (rd_fin (c_rd c));
  s_pos : c_pos c = a_pos a;
  s_prev : c_prev c = a_prev a;
  s_eof : c_eof c = a_eof a;
  s_last : forall b, a_last a = Some b ->
             0 < c_cur c /\ nth_error (c_buf c) (c_cur c - 1) = Some b /\
             (forall t, c_ts c = Some t -> t < c_cur c);
  s_tok : match a_tok a with
          | None => c_ts c = None /\ c_parts c = []
          | Some tk => exists t, c_ts c = Some t /\ t <= c_cur c /\
                         tk = concat (c_parts c) ++ slice (c_buf c) t (c_cur c) /\
                         (c_parts c <> [] -> t = 0)
          end
}.

Lemma ok_runs_le : forall cs k k', k <= k' -> ok_runs k cs = true -> ok_runs k' cs = true.
Proof.
  induction cs as [|c cs IH]; simpl; intros; auto.
  destruct c; auto. destruct k; [discriminate|]. destruct k'; [lia|]. apply IH with (k := k); auto; lia.
Qed.

Lemma go_copy_nth : forall A (d s : list A) n, length s <= length d -> n < length s ->
  nth_error (go_copy d s) n = nth_error s n.
Proof.
  intros. unfold go_copy. rewrite firstn_all2 by lia. now apply nth_error_app1.
Qed.

Lemma go_copy_length : forall A (d s : list A), length s <= length d ->
  length (go_copy d s) = length d.
Proof.
  intros. unfold go_copy. rewrite app_length, firstn_length, skipn_length. lia.
Qed.

(** Shifting preserves the relation and makes room. *)
Lemma shift_sim : forall a c, sim a c -> c_cur c = c_fill c ->
  sim a (shift_buf c) /\ c_cur (shift_buf c) = c_fill (shift_buf c) /\
  c_fill (shift_buf c) < length (c_buf (shift_buf c)) /\
  c_rd (shift_buf c) = c_rd c.
Proof.
  intros a c HS E. unfold shift_buf.
  destruct (Nat.eqb_spec (c_fill c) (length (c_buf c))) as [F|F];
    [|split; [exact HS|]; destruct HS; repeat split; lia].
  destruct HS.
  assert (SH : forall base ts parts, 0 < base -> base <= c_cur c ->
    (a_last a <> None -> base < c_cur c) ->
    match a_tok a with
    | None => ts = None /\ parts = []
    | Some tk => ts = Some 0 /\ tk = concat parts ++ slice (c_buf c) base (c_cur c)
    end ->
    let c' := mkCst (c_rd c) (go_copy (c_buf c) (slice (c_buf c) base (c_fill c)))
            (c_fill c - base) (c_cur c - base) (c_pos c) (c_prev c) ts parts
            (c_err c) (c_eof c) in
    sim a c' /\ c_cur c' = c_fill c' /\ c_fill c' < length (c_buf c') /\ c_rd c' = c_rd c).
  { intros base ts parts B0 B1 BL BT c'.
    assert (LS : length (slice (c_buf c) base (c_fill c)) = c_fill c - base)
      by (apply slice_length; lia).
    assert (LC : length (c_buf c') = length (c_buf c))
      by (simpl; apply go_copy_length; lia).
    split; [|simpl in *; repeat split; auto; lia].
    constructor; auto; try rewrite LC; simpl; auto; try lia.
    - rewrite s_in0. f_equal.
      rewrite E. rewrite !slice_nil by lia. reflexivity.
    - intros b Hb. destruct (s_last0 b Hb) as [L1 [L2 L3]].
      specialize (BL ltac:(congruence)).
      split; [lia|]. split.
      + rewrite go_copy_nth by lia. rewrite slice_nth by lia.
        rewrite <- L2. f_equal. lia.
      + intros t Ht. subst ts. destruct (a_tok a); destruct BT as [BT _]; [|discriminate].
        injection BT as ->. lia.
    - destruct (a_tok a) as [tk|]; [|exact BT]. destruct BT as [-> ->].
      exists 0. repeat split; auto; try lia. f_equal.
      apply slice_eq; simpl; try lia.
      + rewrite go_copy_length by lia. lia.
      + intros n Hn. rewrite go_copy_nth by lia. now rewrite slice_nth by lia. }
  destruct (a_tok a) as [tk|] eqn:AT.
  - destruct s_tok0 as [t [T1 [T2 [T3 T4]]]]. rewrite T1.
    destruct t as [|t].
    + unfold lookBackSize. destruct (Nat.leb_spec 1 (c_cur c)); [|lia].
      destruct (Nat.eqb_spec (c_cur c - 1) 0); [lia|].
      apply SH; try lia. split; auto.
      rewrite concat_app. simpl. rewrite app_nil_r, T3, <- app_assoc. f_equal.
      rewrite (slice_split _ (c_buf c) 0 (c_cur c - 1) (c_cur c)) by lia.
      now rewrite slice_0.
    + change (Nat.eqb (S t) 0) with false. cbv beta iota.
      apply SH; try lia.
      * intros HL. destruct (a_last a) as [b|] eqn:AL; [|congruence].
        destruct (s_last0 b eq_refl) as [_ [_ L3]]. apply L3. exact T1.
      * split; auto.
  - destruct s_tok0 as [T1 T2]. rewrite T1.
    unfold lookBackSize. destruct (Nat.leb_spec 1 (c_cur c)); [|lia].
    destruct (Nat.eqb_spec (c_cur c - 1) 0); [lia|].
    apply SH; try lia. auto.
Qed.

(** The buffer after the reader delivered [d]. *)
Definition new_buf (c : cst) (d : bytes) : bytes :=
  firstn (c_fill c) (c_buf c) ++ d ++ skipn (c_fill c + length d) (c_buf c).

Lemma after_read_nth : forall c d n, c_fill c + length d <= length (c_buf c) ->
  n < c_fill c -> nth_error (new_buf c d) n = nth_error (c_buf c) n.
Proof.
  intros. unfold new_buf. rewrite nth_error_app1 by (rewrite firstn_length; lia).
  apply nth_error_firstn. lia.
Qed.

Lemma after_read_length : forall c d, c_fill c + length d <= length (c_buf c) ->
  length (new_buf c d) = length (c_buf c).
Proof. intros. unfold new_buf. rewrite !app_length, firstn_length, skipn_length. lia. Qed.

Lemma after_read_slice : forall c d i j, c_fill c + length d <= length (c_buf c) ->
  i <= j -> j <= c_fill c -> slice (new_buf c d) i j = slice (c_buf c) i j.
Proof.
  intros. apply slice_eq; try lia.
  - rewrite after_read_length; lia.
  - intros n Hn. apply after_read_nth; lia.
Qed.

Lemma after_read_new : forall c d, c_fill c + length d <= length (c_buf c) ->
  slice (new_buf c d) (c_fill c) (c_fill c + length d) = d.
Proof.
  intros. unfold slice, new_buf.
  replace (c_fill c + length d - c_fill c) with (length d) by lia.
  rewrite skipn_app, skipn_all2 by (rewrite firstn_length; lia).
  rewrite firstn_length. replace (c_fill c - Nat.min (c_fill c) (length (c_buf c))) with 0 by lia.
  simpl. rewrite firstn_app, Nat.sub_diag, firstn_all. simpl. apply app_nil_r.
Qed.

Lemma after_read_sim : forall a c d r e,
  sim a c -> c_cur c = c_fill c -> c_fill c + length d <= length (c_buf c) ->
  concat (rd_chunks (c_rd c)) = d ++ concat (rd_chunks r) ->
  rd_fin r = rd_fin (c_rd c) -> ok_runs 99 (rd_chunks r) = true ->
  (forall x, e = Some x -> rd_chunks r = [] /\ x = Some (rd_fin r)) ->
  sim a (mkCst r (new_buf c d) (c_fill c + length d) (c_cur c) (c_pos c)
               (c_prev c) (c_ts c) (c_parts c) e (c_eof c)).
Proof.
  intros a c d r e HS E L C F K X. destruct HS.
  pose proof (after_read_length c d L) as LL.
  constructor; try rewrite LL; cbn [c_rd c_buf c_fill c_cur c_pos c_prev c_ts c_parts c_err c_eof];
    auto; try lia.
  - rewrite s_in0, C, E. rewrite (slice_nil _ (c_buf c)) by lia. simpl.
    rewrite after_read_new by lia. reflexivity.
  - congruence.
  - intros b Hb. destruct (s_last0 b Hb) as [L1 [L2 L3]]. repeat split; auto.
    rewrite after_read_nth by lia. exact L2.
  - destruct (a_tok a) as [tk|]; [|exact s_tok0].
    destruct s_tok0 as [t [T1 [T2 [T3 T4]]]]. exists t. repeat split; auto.
    rewrite after_read_slice by lia. exact T3.
Qed.

Lemma fill_loop_sim : forall i a c, sim a c -> c_cur c = c_fill c ->
  c_fill c < length (c_buf c) -> 0 < i -> ok_runs (i - 1) (rd_chunks (c_rd c)) = true ->
  let c' := fill_loop i c in
  sim a c' /\ c_cur c' = c_cur c /\ c_fill c <= c_fill c' /\
  (c_fill c' = c_cur c' -> rd_chunks (c_rd c') = [] /\ c_err c' = Some (Some (a_fin a))) /\
  length (concat (rd_chunks (c_rd c'))) + (c_fill c' - c_fill c)
    = length (concat (rd_chunks (c_rd c))).
Proof.
  induction i as [|i IH]; intros a c HS E R I0 OK; [lia|].
  simpl fill_loop. unfold reader_read.
  destruct (rd_chunks (c_rd c)) as [|d cs] eqn:RC.
  - (* end of data *)
    cbv zeta. cbv beta iota.
    pose proof (after_read_sim a c [] (c_rd c) (Some (Some (rd_fin (c_rd c)))) HS E) as A.
    simpl length in A. rewrite Nat.add_0_r in A.
    specialize (A ltac:(lia)). rewrite RC in A. simpl in A.
    specialize (A eq_refl eq_refl eq_refl).
    assert (A' := A ltac:(intros x Hx; injection Hx as <-; auto)).
    unfold new_buf in A'; simpl in A'; rewrite ?Nat.add_0_r in A'.
    unfold set_err; simpl. rewrite !Nat.add_0_r.
    split; [exact A'|]. destruct HS. simpl. rewrite ?s_fin0, ?RC; simpl. repeat split; auto; lia.
  - destruct (Nat.leb_spec (length d) (length (c_buf c) - c_fill c)) as [Ld|Ld].
    + set (r := mkReader cs (rd_fin (c_rd c)) (rd_with (c_rd c))).
      assert (Hcs : ok_runs 99 cs = true).
      { destruct HS. rewrite RC in s_runs0. simpl in s_runs0.
        destruct d; auto. eapply ok_runs_le; [|exact s_runs0]. lia. }
      destruct d as [|d0 d'].
      * (* empty chunk *)
        simpl in OK.
        destruct cs as [|c2 cs'].
        -- destruct (rd_with (c_rd c)) eqn:W; cbv zeta; cbv beta iota.
           ++ pose proof (after_read_sim a c [] r (Some (Some (rd_fin (c_rd c)))) HS E) as A.
              simpl length in A. rewrite Nat.add_0_r in A. specialize (A ltac:(lia)).
              rewrite RC in A. specialize (A eq_refl eq_refl Hcs).
              assert (A' := A ltac:(intros x Hx; injection Hx as <-; auto)).
              unfold new_buf in A'; simpl in A'; rewrite ?Nat.add_0_r in A'.
    unfold set_err; simpl. rewrite !Nat.add_0_r.
              unfold r in A'. try rewrite W in A'.
              split; [exact A'|]. destruct HS. simpl; rewrite ?s_fin0; repeat split; auto; lia.
           ++ change (0 <? length (@nil N)) with false. cbv iota.
              pose proof (after_read_sim a c [] r (c_err c) HS E) as A.
              simpl length in A. rewrite Nat.add_0_r in A. specialize (A ltac:(lia)).
              rewrite RC in A. specialize (A eq_refl eq_refl Hcs).
              assert (A' := A ltac:(intros x Hx; destruct (s_err _ _ HS x Hx); congruence)).
              unfold r in A'. try rewrite W in A'. unfold new_buf in A'; simpl in A'; rewrite ?Nat.add_0_r in A'. simpl. rewrite !Nat.add_0_r.
              destruct i as [|i']; [simpl in OK; discriminate|].
              pose proof (after_read_length c [] ltac:(simpl; lia)) as LL. unfold new_buf in LL; simpl in LL.
              rewrite Nat.add_0_r in LL.
              refine (IH a (mkCst _ _ _ _ _ _ _ _ _ _) A' E _ _ _); simpl; try lia; try reflexivity; rewrite LL; lia.
        -- cbv zeta; cbv beta iota.
           change (0 <? length (@nil N)) with false. cbv iota.
           pose proof (after_read_sim a c [] r (c_err c) HS E) as A.
           simpl length in A. rewrite Nat.add_0_r in A. specialize (A ltac:(lia)).
           rewrite RC in A. specialize (A eq_refl eq_refl Hcs).
           assert (A' := A ltac:(intros x Hx; destruct (s_err _ _ HS x Hx); congruence)).
           unfold r in A'. unfold new_buf in A'; simpl in A'; rewrite ?Nat.add_0_r in A'. simpl. rewrite !Nat.add_0_r.
           destruct i as [|i']; [simpl in OK; discriminate|].
           pose proof (after_read_length c [] ltac:(simpl; lia)) as LL. unfold new_buf in LL; simpl in LL.
           rewrite Nat.add_0_r in LL.
           refine (IH a (mkCst _ _ _ _ _ _ _ _ _ _) A' E _ _ _); simpl; try lia; try (rewrite LL; lia).
           simpl in OK. rewrite Nat.sub_0_r in *. exact OK.
      * (* non-empty chunk *)
        assert (NE : length (d0 :: d') = S (length d')) by reflexivity.
        set (d := d0 :: d') in *.
        assert (A : forall e, (forall x, e = Some x -> cs = [] /\ x = Some (rd_fin (c_rd c))) ->
          let c' := mkCst r (new_buf c d) (c_fill c + length d) (c_cur c) (c_pos c)
                   (c_prev c) (c_ts c) (c_parts c) e (c_eof c) in
          sim a c' /\ c_cur c' = c_cur c /\ c_fill c <= c_fill c' /\
          (c_fill c' = c_cur c' -> rd_chunks (c_rd c') = [] /\ c_err c' = Some (Some (a_fin a))) /\
          length (concat (rd_chunks (c_rd c'))) + (c_fill c' - c_fill c)
            = length (concat (d :: cs))).
        { intros e He c'. split.
          - unfold c'. apply after_read_sim; auto; try lia.
            rewrite RC. reflexivity.
          - unfold c'; cbn [c_rd c_buf c_fill c_cur c_err].
            repeat split; try (simpl; lia).
            cbn [concat]. rewrite app_length. unfold r; cbn [rd_chunks]. lia. }
        destruct cs as [|c2 cs'].
        -- destruct (rd_with (c_rd c)) eqn:W; cbv zeta; cbv beta iota.
           ++ specialize (A (Some (Some (rd_fin (c_rd c))))
                ltac:(intros x Hx; injection Hx as <-; auto)).
              unfold r in A. try rewrite W in A. exact A.
           ++ rewrite NE. change (0 <? S (length d')) with true. cbv iota.
              specialize (A (c_err c) ltac:(intros x Hx; destruct (s_err _ _ HS x Hx); congruence)).
              unfold r in A. try rewrite W in A. rewrite NE in A. exact A.
        -- cbv zeta; cbv beta iota.
           rewrite NE. change (0 <? S (length d')) with true. cbv iota.
           specialize (A (c_err c) ltac:(intros x Hx; destruct (s_err _ _ HS x Hx); congruence)).
           rewrite NE in A. exact A.
    + (* chunk larger than the room *)
      set (k := length (c_buf c) - c_fill c) in *.
      assert (LK : length (firstn k d) = k) by (rewrite firstn_length; lia).
      cbv zeta; cbv beta iota. rewrite LK.
      destruct (Nat.ltb_spec 0 k); [|lia].
      set (r := mkReader (skipn k d :: cs) (rd_fin (c_rd c)) (rd_with (c_rd c))).
      pose proof (after_read_sim a c (firstn k d) r (c_err c) HS E) as A.
      rewrite LK in A. specialize (A ltac:(lia)).
      assert (A1 : concat (rd_chunks (c_rd c)) = firstn k d ++ concat (rd_chunks r)).
      { rewrite RC. simpl. rewrite app_assoc, firstn_skipn. reflexivity. }
      specialize (A A1 eq_refl).
      assert (A2 : ok_runs 99 (rd_chunks r) = true).
      { destruct HS. rewrite RC in s_runs0. simpl. simpl in s_runs0.
        destruct (skipn k d) eqn:SK.
        - assert (length (skipn k d) = 0) by now rewrite SK.
          rewrite skipn_length in *. lia.
        - destruct d; [simpl in *; lia|]. exact s_runs0. }
      specialize (A A2).
      assert (A' := A ltac:(intros x Hx; destruct (s_err _ _ HS x Hx); congruence)).
      unfold new_buf in A'; simpl in A'. rewrite LK in A'.
      split; [exact A'|]. cbn [c_rd c_buf c_fill c_cur c_err rd_chunks concat].
      unfold r; cbn [rd_chunks concat]. rewrite !app_length, skipn_length. repeat split; lia.
Qed.

Lemma fill_buf_sim : forall a c, sim a c -> c_cur c = c_fill c ->
  let c' := fill_buf c in
  sim a c' /\ 
  (c_fill c' = c_cur c' -> rd_chunks (c_rd c') = [] /\ c_err c' = Some (Some (a_fin a))) /\
  (length (concat (rd_chunks (c_rd c'))) + (c_fill c' - c_cur c')
     = length (concat (rd_chunks (c_rd c)))).
Proof.
  intros a c HS E. unfold fill_buf.
  destruct (shift_sim a c HS E) as [S1 [E1 [R1 D1]]].
  destruct (fill_loop_sim maxConsecutiveEmptyReads a (shift_buf c) S1 E1 R1)
    as [A [B [C [D F]]]].
  - unfold maxConsecutiveEmptyReads; lia.
  - destruct S1. exact s_runs0.
  - cbv zeta. split; [exact A|]. split; [exact D|]. rewrite D1 in F. rewrite B, E1. exact F.
Qed.

(** The state from which Read and Peek look at the buffer. *)
Definition ensure (s0 : cst) : cst := if c_fill s0 <=? c_cur s0 then fill_buf s0 else s0.

Lemma ensure_sim : forall a c, sim a c ->
  sim a (ensure c) /\
  (c_fill (ensure c) <= c_cur (ensure c) -> c_err (ensure c) = Some (Some (a_fin a)) /\ a_in a = []) /\
  (c_cur (ensure c) < c_fill (ensure c) -> exists b r, a_in a = b :: r /\
     nth_error (c_buf (ensure c)) (c_cur (ensure c)) = Some b).
Proof.
  intros a c HS. unfold ensure.
  assert (X : forall c', sim a c' -> c_cur c' < c_fill c' -> exists b r, a_in a = b :: r /\
     nth_error (c_buf c') (c_cur c') = Some b).
  { intros c' S' L. destruct S'.
    destruct (nth_error (c_buf c') (c_cur c')) as [b|] eqn:N;
      [|apply nth_error_ge in N; lia].
    rewrite s_in0. erewrite slice_cons by eauto. simpl. eauto. }
  destruct (Nat.leb_spec (c_fill c) (c_cur c)) as [L|L].
  - assert (E : c_cur c = c_fill c) by (destruct HS; lia).
    destruct (fill_buf_sim a c HS E) as [S' [H1 H2]].
    split; [exact S'|]. split.
    + intro L'. assert (E' : c_fill (fill_buf c) = c_cur (fill_buf c)) by (destruct S'; lia).
      destruct (H1 E') as [H3 H4]. split; [exact H4|].
      destruct S'. rewrite s_in0, H3, E', slice_nil by lia. reflexivity.
    + intro L'. now apply X.
  - split; [exact HS|]. split; [intro; lia|]. now apply X.
Qed.

Lemma sim_consume : forall a c b r, sim a c -> c_cur c < c_fill c ->
  nth_error (c_buf c) (c_cur c) = Some b -> a_in a = b :: r ->
  forall p prev,
  sim (mkAst r (a_fin a) p prev (Some b) (tok_app (a_tok a) [b]) (a_eof a))
      (mkCst (c_rd c) (c_buf c) (c_fill c) (S (c_cur c)) p prev (c_ts c) (c_parts c)
             (c_err c) (c_eof c)).
Proof.
  intros a c b r HS L N E p prev. destruct HS. constructor; simpl; auto; try lia.
  - rewrite E in s_in0. erewrite slice_cons in s_in0 by eauto. simpl in s_in0. congruence.
  - intros b' Hb. injection Hb as <-. rewrite Nat.sub_0_r. repeat split; auto; try lia.
    intros t Ht. destruct (a_tok a); [|destruct s_tok0; congruence].
    destruct s_tok0 as [t' [T1 [T2 _]]]. rewrite T1 in Ht. injection Ht as <-. lia.
  - destruct (a_tok a) as [tk|]; simpl; [|exact s_tok0].
    destruct s_tok0 as [t [T1 [T2 [T3 T4]]]]. exists t. repeat split; auto.
    rewrite (slice_snoc _ _ _ _ b) by auto. now rewrite T3, app_assoc.
Qed.

Lemma read_sim : forall a c a' o, sim a c -> astep a SRead = Ok (a', o) ->
  exists c', c_read c = Ok (c', o) /\ sim a' c'.
Proof.
  intros a c a' o HS H. destruct (ensure_sim a c HS) as [S' [H1 H2]].
  unfold c_read. fold (ensure c).
  destruct (Nat.ltb_spec (c_cur (ensure c)) (c_fill (ensure c))) as [L|L].
  - destruct (H2 L) as [b [r [E N]]]. rewrite N. simpl in H. rewrite E in H.
    injection H as <- <-. eexists. split; [reflexivity|].
    rewrite <- (s_pos _ _ S'). now apply sim_consume.
  - destruct (H1 L) as [E1 E2]. rewrite E1. simpl in H. rewrite E2 in H.
    destruct (a_fin a) eqn:F; injection H as <- <-.
    + eexists. split; [reflexivity|]. destruct S'. constructor; simpl; auto; try congruence. intros e He. apply s_err0. congruence.
    + eexists. split; [reflexivity|]. exact S'.
Qed.

Lemma peek_sim : forall a c a' o, sim a c -> astep a SPeek = Ok (a', o) ->
  exists c', c_peek c = Ok (c', o) /\ sim a' c'.
Proof.
  intros a c a' o HS H. destruct (ensure_sim a c HS) as [S' [H1 H2]].
  unfold c_peek. fold (ensure c).
  destruct (Nat.ltb_spec (c_cur (ensure c)) (c_fill (ensure c))) as [L|L].
  - destruct (H2 L) as [b [r [E N]]]. rewrite N. simpl in H. rewrite E in H.
    injection H as <- <-. eexists. split; [reflexivity|]. exact S'.
  - destruct (H1 L) as [E1 E2]. simpl in H. rewrite E2 in H. injection H as <- <-.
    unfold err_or_eof, a_end_obs. rewrite E1.
    destruct (a_fin a); eexists; (split; [reflexivity|exact S']).
Qed.

Lemma skip_scan_spec : forall l n p,
  skip_scan l n p =
    (n + ws_len l,
     nth_error l (ws_len l),
     fold_left bump_pos (firstn (ws_len l) l) p).
Proof.
  induction l as [|b l IH]; intros n p; simpl.
  - now rewrite Nat.add_0_r.
  - destruct (N.eqb_spec b 10) as [->|N10]; simpl.
    + rewrite IH. simpl. f_equal. f_equal. lia.
    + destruct (is_blank b) eqn:B; simpl.
      * rewrite IH. f_equal; [f_equal; lia|].
        f_equal. unfold bump_pos. destruct (N.eqb_spec b 10); [contradiction|].
        unfold is_blank in B. destruct (N.ltb_spec b 192); [reflexivity|].
        destruct (N.eqb_spec b 32), (N.eqb_spec b 9), (N.eqb_spec b 13); simpl in B; try discriminate; lia.
      * now rewrite Nat.add_0_r.
Qed.

Lemma ws_len_le : forall l, ws_len l <= length l.
Proof. induction l as [|b l IH]; simpl; [lia|]. destruct (N.eqb b 10 || is_blank b); lia. Qed.

Lemma ws_len_all : forall l r, ws_len l = length l -> ws_len (l ++ r) = length l + ws_len r.
Proof.
  induction l as [|b l IH]; simpl; intros r H; [reflexivity|].
  destruct (N.eqb b 10 || is_blank b); [|discriminate].
  rewrite IH; lia.
Qed.

Lemma ws_len_stop : forall l r, ws_len l < length l -> ws_len (l ++ r) = ws_len l.
Proof.
  induction l as [|b l IH]; simpl; intros r H; [lia|].
  destruct (N.eqb b 10 || is_blank b); [|reflexivity].
  rewrite IH; lia.
Qed.

(** Moving over [n] buffered bytes. *)
Lemma sim_advance : forall a c n, sim a c -> c_cur c + n <= c_fill c ->
  forall p,
  sim (mkAst (skipn n (a_in a)) (a_fin a) p (a_prev a)
             (match n with O => a_last a | _ => None end)
             (tok_app (a_tok a) (firstn n (a_in a))) (a_eof a))
      (mkCst (c_rd c) (c_buf c) (c_fill c) (c_cur c + n) p (c_prev c) (c_ts c) (c_parts c)
             (c_err c) (c_eof c)).
Proof.
  intros a c n HS L p. destruct HS.
  assert (LS : length (slice (c_buf c) (c_cur c) (c_cur c + n)) = n)
    by (rewrite slice_length; lia).
  assert (SP : slice (c_buf c) (c_cur c) (c_fill c) =
     slice (c_buf c) (c_cur c) (c_cur c + n) ++ slice (c_buf c) (c_cur c + n) (c_fill c))
    by (apply slice_split; lia).
  constructor; simpl; auto; try lia.
  - rewrite s_in0, SP, <- app_assoc. rewrite skipn_app, LS, Nat.sub_diag.
    rewrite skipn_all2 by lia. reflexivity.
  - intros b Hb. destruct n; [|discriminate]. rewrite Nat.add_0_r. auto.
  - destruct (a_tok a) as [tk|]; simpl; [|exact s_tok0].
    destruct s_tok0 as [t [T1 [T2 [T3 T4]]]]. exists t. repeat split; auto; try lia.
    rewrite (slice_split _ _ t (c_cur c) (c_cur c + n)) by lia.
    rewrite app_assoc, <- T3. f_equal.
    rewrite s_in0, SP, <- app_assoc. rewrite firstn_app, LS, Nat.sub_diag. simpl.
    rewrite app_nil_r. rewrite firstn_all2 by lia. reflexivity.
Qed.

(** Skipping in two steps is skipping once. *)
Lemma a_skip_split : forall a n, n <= ws_len (a_in a) -> 
  a_skip a =
  a_skip (mkAst (skipn n (a_in a)) (a_fin a) (fold_left bump_pos (firstn n (a_in a)) (a_pos a))
                (a_prev a) (match n with O => a_last a | _ => None end)
                (tok_app (a_tok a) (firstn n (a_in a))) (a_eof a)).
Proof.
  intros a n H. unfold a_skip; simpl.
  assert (W : ws_len (a_in a) = n + ws_len (skipn n (a_in a))).
  { revert H. generalize (a_in a). clear. intro l. revert n.
    induction l as [|b l IH]; intros n H; simpl in *.
    - destruct n; simpl; lia.
    - destruct n; simpl; [reflexivity|].
      destruct (N.eqb b 10 || is_blank b); [|lia]. rewrite (IH n) by lia. lia. }
  rewrite W. set (m := ws_len (skipn n (a_in a))) in *.
  rewrite firstn_plus, fold_left_app, skipn_skipn.
  f_equal.
  - pose proof (ws_len_le (a_in a)) as LE.
    destruct n.
    + simpl. destruct (firstn m (a_in a)); reflexivity.
    + destruct (firstn (S n) (a_in a)) eqn:F.
      * assert (length (firstn (S n) (a_in a)) = 0) by now rewrite F.
        rewrite firstn_length in *. lia.
      * cbn [app]. destruct (firstn m (skipn (S n) (a_in a))); reflexivity.
  - destruct (a_tok a); simpl; [|reflexivity]. now rewrite app_assoc.
Qed.

Lemma skip_sim : forall fuel (rd : bool) a c, sim a c ->
  length (concat (rd_chunks (c_rd c))) < fuel ->
  forall a' o, astep a (if rd then SSkipRead else SSkipPeek) = Ok (a', o) ->
  exists c', skip_loop fuel rd c = Ok (c', o) /\ sim a' c'.
Proof.
  induction fuel as [|f IH]; intros rd a c HS FU a' o H; [lia|].
  simpl skip_loop. rewrite skip_scan_spec. rewrite Nat.add_0_l.
  set (l := slice (c_buf c) (c_cur c) (c_fill c)) in *.
  assert (LL : length l = c_fill c - c_cur c) by (destruct HS; unfold l; apply slice_length; lia).
  assert (IN : a_in a = l ++ concat (rd_chunks (c_rd c))) by (destruct HS; auto).
  destruct (nth_error l (ws_len l)) as [b|] eqn:NB.
  - (* a byte that is not white space is in the buffer *)
    assert (WL : ws_len l < length l) by (eapply nth_error_lt; eauto).
    assert (WA : ws_len (a_in a) = ws_len l) by (rewrite IN; now apply ws_len_stop).
    assert (BND : c_cur c + ws_len l <= c_fill c) by lia.
    pose proof (sim_advance a c (ws_len l) HS BND
       (fold_left bump_pos (firstn (ws_len l) l) (c_pos c))) as SA.
    assert (FE : firstn (ws_len l) (a_in a) = firstn (ws_len l) l).
    { rewrite IN, firstn_app. replace (ws_len l - length l) with 0 by lia.
      simpl. now rewrite app_nil_r. }
    set (p := fold_left bump_pos (firstn (ws_len l) l) (c_pos c)) in *.
    assert (AS : a_skip a = mkAst (skipn (ws_len l) (a_in a)) (a_fin a) p (a_prev a)
             (match ws_len l with O => a_last a | _ => None end)
             (tok_app (a_tok a) (firstn (ws_len l) (a_in a))) (a_eof a)).
    { unfold a_skip. rewrite WA. rewrite <- (s_pos _ _ HS). fold p. rewrite FE. fold p. f_equal.
      destruct (ws_len l) eqn:W0.
      - reflexivity.
      - destruct l; [simpl in WL; lia|]. reflexivity. }
    assert (HD : exists r, skipn (ws_len l) (a_in a) = b :: r).
    { exists (skipn (S (ws_len l)) (a_in a)). apply skipn_cons_nth. rewrite IN.
      rewrite nth_error_app1 by auto. exact NB. }
    destruct HD as [r HR].
    assert (BN : b <> 10%N /\ is_blank b = false).
    { clear - NB. revert b NB. induction l as [|x l IH]; simpl; intros b NB; [discriminate|].
      destruct (N.eqb_spec x 10); simpl in *; [now apply IH|].
      destruct (is_blank x) eqn:BX; simpl in *; [now apply IH|]. injection NB as <-. auto. }
    destruct rd; cbn [astep] in H; rewrite AS in H;
      cbn [a_in a_fin a_pos a_prev a_last a_tok a_eof] in H; rewrite HR in H;
      injection H as <- <-.
    + eexists. split; [reflexivity|]. rewrite HR in SA.
      replace (bump_pos p b) with (if (b <? 192)%N then mkPos (line p) (S (col p)) else p).
      2:{ unfold bump_pos. destruct (N.eqb_spec b 10); [tauto|reflexivity]. }
      pose proof (sim_consume _ _ b r SA) as SC. simpl in SC.
      replace (c_cur c + ws_len l + 1) with (S (c_cur c + ws_len l)) by lia.
      rewrite <- (s_prev _ _ HS). apply SC; auto; try lia.
      unfold l in NB at 1. rewrite slice_nth in NB by lia. exact NB.
    + eexists. split; [reflexivity|]. rewrite HR in SA. exact SA.
  - (* only white space in the buffer *)
    assert (WL : ws_len l = length l).
    { apply nth_error_ge in NB. pose proof (ws_len_le l). lia. }
    assert (WA : ws_len (a_in a) = length l + ws_len (concat (rd_chunks (c_rd c))))
      by (rewrite IN; now apply ws_len_all).
    pose proof (sim_advance a c (length l) HS ltac:(destruct HS; lia)
       (fold_left bump_pos (firstn (length l) l) (c_pos c))) as SA.
    assert (FE : firstn (length l) (a_in a) = firstn (length l) l).
    { rewrite IN, firstn_app. rewrite Nat.sub_diag. simpl. now rewrite app_nil_r. }
    rewrite WL.
    set (p := fold_left bump_pos (firstn (length l) l) (c_pos c)) in *.
    assert (EC : c_cur c + length l = c_fill c) by (destruct HS; lia).
    rewrite EC in SA.
    set (a1 := mkAst _ _ _ _ _ _ _) in SA.
    set (c1 := mkCst _ _ _ _ _ _ _ _ _ _) in SA.
    fold c1.
    assert (AS : a_skip a = a_skip a1).
    { unfold a1, p. rewrite (s_pos _ _ HS), <- FE. apply a_skip_split. lia. }
    destruct (fill_buf_sim a1 c1 SA eq_refl) as [S2 [E2 L2]].
    assert (IN1 : a_in a1 = concat (rd_chunks (c_rd c))).
    { unfold a1; simpl. rewrite IN, skipn_app, Nat.sub_diag, skipn_all2 by lia. reflexivity. }
    destruct (Nat.leb_spec (c_fill (fill_buf c1)) (c_cur (fill_buf c1))) as [LE|LE].
    + assert (EQ : c_fill (fill_buf c1) = c_cur (fill_buf c1)) by (destruct S2; lia).
      destruct (E2 EQ) as [E3 E4].
      assert (N1 : a_in a1 = []).
      { destruct S2. rewrite s_in0, E3, EQ, slice_nil by lia. reflexivity. }
      assert (AS1 : a_skip a1 = a1).
      { clearbody a1. destruct a1 as [i fi q pr la tk ef]. simpl in N1. subst i.
        unfold a_skip; simpl. f_equal. destruct tk; simpl; [now rewrite app_nil_r|reflexivity]. }
      assert (HO : a' = a1 /\ o = a_end_obs a1).
      { destruct rd; cbn [astep] in H; rewrite AS, AS1, N1 in H; injection H as <- <-; auto. }
      destruct HO as [-> ->].
      eexists. split; [|exact S2]. f_equal. f_equal.
      unfold err_or_eof, a_end_obs. rewrite E4. destruct (a_fin a1); reflexivity.
    + apply IH with (a := a1); auto.
      * change (c_rd c1) with (c_rd c) in L2. lia.
      * destruct rd; cbn [astep] in *; rewrite <- AS; exact H.
Qed.

Lemma step_sim : forall a c o a' x, sim a c -> astep a o = Ok (a', x) ->
  exists c', cstep c o = Ok (c', x) /\ sim a' c'.
Proof.
  intros a c o a' x HS H. destruct o.
  - now apply read_sim with (a := a).
  - now apply peek_sim with (a := a).
  - cbn [cstep]. apply (skip_sim _ false a); auto. unfold skip_fuel. lia.
  - cbn [cstep]. apply (skip_sim _ true a); auto. unfold skip_fuel. lia.
  - (* Back *)
    simpl in H. destruct (a_last a) as [b|] eqn:L; [|discriminate].
    destruct (a_prev a) as [pr|] eqn:P; [|discriminate].
    destruct HS. destruct (s_last0 b L) as [L1 [L2 L3]].
    simpl. unfold c_back.
    destruct (Nat.leb_spec (c_cur c) 0); [lia|]. simpl orb.
    assert (TS : (match c_ts c with Some t => c_cur c <=? t | None => false end) = false).
    { destruct (c_ts c) as [t|] eqn:T; [|reflexivity]. apply Nat.leb_gt. now apply L3. }
    rewrite TS, s_prev0, P, s_eof0.
    destruct (a_eof a) as [|e] eqn:AE; injection H as <- <-.
    + eexists. split; [reflexivity|]. constructor; simpl; auto; try lia.
      * rewrite s_in0. change (b :: slice (c_buf c) (c_cur c) (c_fill c) ++ concat (rd_chunks (c_rd c)))
          with ((b :: slice (c_buf c) (c_cur c) (c_fill c)) ++ concat (rd_chunks (c_rd c))).
        f_equal. rewrite (slice_cons _ (c_buf c) (c_cur c - 1) (c_fill c) b) by (auto; lia).
        f_equal. f_equal. lia.
      * intros; discriminate.
      * destruct (a_tok a) as [tk|]; [|exact s_tok0].
        destruct s_tok0 as [t [T1 [T2 [T3 T4]]]]. exists t.
        pose proof (L3 _ T1) as L4.
        repeat split; auto; try lia.
        rewrite T3. replace (c_cur c) with (S (c_cur c - 1)) at 1 by lia.
        rewrite (slice_snoc _ _ _ _ b) by (auto; lia).
        rewrite app_assoc. apply removelast_last.
    + eexists. split; [reflexivity|]. constructor; simpl; auto; try congruence. intros b0 Hb0. injection Hb0 as <-. auto.
  - (* Start *)
    simpl in *. destruct (a_tok a) as [tk|] eqn:T; [discriminate|]. injection H as <- <-.
    destruct HS. rewrite T in s_tok0. destruct s_tok0 as [T1 T2].
    unfold c_start. rewrite T1. rewrite s_pos0. eexists. split; [reflexivity|].
    constructor; simpl; auto.
    + intros; discriminate.
    + exists (c_cur c). rewrite T2. repeat split; auto; try contradiction; simpl; now rewrite slice_nil by lia.
  - (* End *)
    simpl in *. destruct (a_tok a) as [tk|] eqn:T; [|discriminate]. injection H as <- <-.
    destruct HS. rewrite T in s_tok0. destruct s_tok0 as [t [T1 [T2 [T3 T4]]]].
    unfold c_end. rewrite T1.
    replace ((t <=? c_cur c) && (c_cur c <=? length (c_buf c))) with true
      by (symmetry; apply andb_true_intro; split; apply Nat.leb_le; lia).
    rewrite <- T3. eexists. split; [reflexivity|].
    constructor; simpl; auto.
    intros b Hb. destruct (s_last0 b Hb) as [L1 [L2 L3]]. repeat split; auto. intros; discriminate.
  - simpl in *. injection H as <- <-. exists c. rewrite (s_pos _ _ HS). auto.
Qed.

Lemma run_sim : forall ops a c a' xs, sim a c -> arun a ops = Ok (a', xs) ->
  exists c', crun c ops = Ok (c', xs) /\ sim a' c'.
Proof.
  induction ops as [|o ops IH]; simpl; intros a c a' xs HS H.
  - injection H as <- <-. eauto.
  - destruct (astep a o) as [[a1 x]| |] eqn:E; simpl in H; try discriminate.
    destruct (arun a1 ops) as [[a2 ys]| |] eqn:R; simpl in H; try discriminate.
    injection H as <- <-.
    destruct (step_sim a c o a1 x HS E) as [c1 [C1 S1]]. rewrite C1. simpl.
    destruct (IH a1 c1 a2 ys S1 R) as [c2 [C2 S2]]. rewrite C2. simpl. eauto.
Qed.

Lemma init_sim : forall r size, 2 <= size -> ok_runs 99 (rd_chunks r) = true ->
  sim (a_init (concat (rd_chunks r)) (rd_fin r)) (new_scanner r size).
Proof.
  intros r size HS K. constructor; simpl; auto; try lia.
  - rewrite repeat_length. lia.
  - intros; discriminate.
  - intros; discriminate.
Qed.

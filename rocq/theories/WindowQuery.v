(** Queries with one selector that counts from the end of an array, run as in
    WindowActive.v. *)
From Coq Require Import List ZArith Arith Bool Lia.
From Verif Require Import Base Tokens JsonSpec EncSpec CursorModel CursorSpec CursorProofs CursorBound IterModel IterSpec IterCore IterThr IterRel IterOps IterOps2 IterOps3 PlainSpec Plain
  EqualModel SplitModel SelectModel P_Select PathModel PathTop StreamModel PlainQuery WindowPool WindowHeap WindowStore WindowPos WindowWorld WindowActive.

(** Processors that only write. *)
Fixpoint quiet (P : proc value) : Prop :=
  match P with
  | PWrite _ => True
  | PDisp cl ss next => quiet next /\ (ss = [] \/ exists s, ss = [s] /\ calm cl s)
  | _ => False
  end.
Fixpoint frame (P P' : proc value) : Prop :=
  match P, P' with
  | PWrite _, PWrite _ => True
  | PDisp cl ss next, PDisp cl' ss' next' => cl' = cl /\ ss' = ss /\ frame next next'
  | _, _ => False
  end.
Lemma frame_refl : forall P, quiet P -> frame P P.
Proof. induction P as [out| | | |cl ss next IH]; cbn; intro T; try contradiction; auto. destruct T. auto. Qed.
Lemma frame_quiet : forall P P', frame P P' -> quiet P -> quiet P'.
Proof. induction P as [out| | | |cl ss next IH]; intros [out'| | | |cl' ss' next'] F T; cbn in *; try contradiction; auto. destruct F as [-> [-> F]], T as [T1 T2]. eauto. Qed.
Lemma frame_trans : forall P P' P'', frame P P' -> frame P' P'' -> frame P P''.
Proof. induction P as [out| | | |cl ss next IH]; intros [out'| | | |cl' ss' next'] [out2| | | |cl2 ss2 next2] F G; cbn in *; try contradiction; auto. destruct F as [-> [-> F]], G as [-> [-> G]]. eauto. Qed.
(** A dispatcher after an item. *)
Definition after (decide : selector -> decision) (D D1 : proc value) : Prop :=
  match D, D1 with
  | PDisp cl ss next, PDisp cl1 ss1 next1 => frame next next1 /\
      (ss = [] /\ ss1 = [] \/ exists s, ss = [s] /\
         (ss1 = [] /\ (st_done s = true \/ d_nomore (decide (st_sel s)) = true) \/
          exists s1, ss1 = [s1] /\ st_sel s1 = st_sel s /\ calm cl1 s1 /\ (st_done s1 = true -> d_nomore (decide (st_sel s)) = true)))
  | _, _ => False
  end.
Definition within (next D : proc value) : Prop := match D with PDisp _ _ next' => frame next next' | _ => False end.
Lemma after_quiet : forall d D D1, after d D D1 -> quiet D -> quiet D1.
Proof.
  intros d [| | | |cl ss next] [| | | |cl1 ss1 next1] A Q; try contradiction. destruct A as [F A], Q as [Q _]. split; [eapply frame_quiet; eauto|].
  destruct A as [[_ ->]|[s [_ [[-> _]|[s1 [-> [_ [C _]]]]]]]]; eauto.
Qed.
Lemma after_within : forall d D D1 next, after d D D1 -> within next D -> within next D1.
Proof. intros d [| | | |cl ss nx] [| | | |cl1 ss1 next1] next A Q; try contradiction. destruct A as [F _]. eapply frame_trans; eauto. Qed.

Section Query.
Variable grow : Z -> Z -> Z.
Variable Good : jval -> Prop.
Hypothesis GI : forall v k x, Good v -> In (k, x) (items v) -> Good x.
Variables K M : nat.
Hypothesis GN : forall J, Good J -> is_array J = true -> forall k n, n <= K + 2 -> left_toks (firstn n (skipn k (items J))) <= M.
Hypothesis GL : forall J, Good J -> (Z.of_nat (length (items J)) < max64)%Z.
Hypothesis KB : (0 < Z.of_nat K < 2 ^ 62)%Z.
Notation B := (M + 102).
Notation ok := (ok Good).
Notation idle := (idle B).
Notation tri := (tri grow Good B).
Notation active := (active K M).
Notation post W P := (fun w r => W w /\ snd r = true /\ frame P (fst r)).

Lemma tri_need : forall A C (o : option A) (k : A -> iprog C) W Q, (forall x, o = Some x -> tri W (k x) Q) -> tri W (ilet x <- need o ; k x) Q.
Proof. intros A C [x|] k W Q H; cbn; [auto|apply tri_panic]. Qed.
Lemma tri_of_res : forall A C (o : res A) (k : A -> iprog C) W Q, (forall x, tri W (k x) Q) -> tri W (ilet x <- of_res o ; k x) Q.
Proof. intros A C [x| |] k W Q H; cbn; [auto|apply tri_panic|apply tri_fuel]. Qed.

Section Engine.
Variable a0 : nat.
Variable W : world -> Prop.
Hypothesis SW : steady Good B a0 W.

Lemma w_process : forall P v, above a0 v -> quiet P -> tri W (process P v) (post W P).
Proof.
  induction P as [out| | | |cl ss next IH]; intros v AB T; cbn [quiet] in T; try contradiction; cbn [process].
  - eapply tri_copy; [exact SW|exact AB|]. intro ts. apply tri_ret. intros w OK WW. cbn; auto 10 using frame_refl.
  - destruct T as [TN [->|[s [-> [SL [PE CL]]]]]]; [apply tri_ret; intros w OK WW; cbn; auto 10 using frame_refl|]. destruct (st_selected s) eqn:SE.
    + rewrite (CL eq_refl). cbn [clone_if detach_if]. rewrite (proj1 SL). eapply tri_bind; [apply IH; [exact AB|exact TN]|].
      intros [next' b]. apply tri_weaken with (W := fun w => b = true /\ frame next next' /\ W w) (Q := post W (PDisp false [s] next)); [|cbn; tauto|auto].
      intros w st a OK [-> [F WW]]. revert w st a OK WW. apply (tri_ret grow Good B _ W). intros w OK WW. cbn; auto 10 using frame_refl.
    + apply tri_ret. intros w OK WW. cbn; auto 10 using frame_refl.
Qed.

Variable tv : segment -> value -> proc value -> iprog (proc value * bool).
Variable ev : cond -> value -> iprog bool.
Variable following : option segment.
Hypothesis TV : forall g v P, following = Some g -> above a0 v -> quiet P -> tri W (tv g v P) (post W P).

Lemma w_dispatch : forall cl ss next v decide, above a0 v -> quiet (PDisp cl ss next) -> (forall s, ss = [s] -> slim_sel (st_sel s)) ->
  tri W (dispatch tv ev (PDisp cl ss next) v decide following) (fun w r => W w /\ snd r = true /\ after decide (PDisp cl ss next) (fst r)).
Proof.
  intros cl ss next v decide AB T SLS. unfold dispatch, dispatch_item. cbn [disp_parts].
  destruct T as [TN [->|[s [-> [SL [PE CL]]]]]]; [apply tri_ret; intros w OK WW; cbn; auto 10 using frame_refl|].
  cbn [decide_all]. destruct (st_done s) eqn:DO; cbn [ibind].
  - cbn -[after]. rewrite PE. unfold PathModel.in_order. cbn -[after]. rewrite (proj1 SL). cbn -[after]. apply tri_ret. intros w OK WW. cbn. split; [exact WW|]. split; [reflexivity|]. split; [now apply frame_refl|]. right. exists s. split; [reflexivity|]. left. auto.
  - assert (E : forall b : bool, tri W
        (ilet (ss1, first, count) <- IRet ([mkState (st_sel s) b (st_pending s) (d_nomore (decide (st_sel s)))],
             (if d_nomore (decide (st_sel s)) && negb b && (0 =? 0) then 1 else 0), (if b then 1 else 0)) ;
         ilet (next1, r1) <- (if 0 <? first then flush_states (firstn first ss1) true next else IRet (next, true)) ;
         match skipn first ss1 with
         | [] => IRet (PDisp cl [] next1, r1)
         | s :: r =>
          if negb r1 then IRet (PDisp cl (s :: r) next1, false)
          else
            ilet (s', next2, r2) <-
              (if negb (sel_reverses (st_sel s)) && negb (match st_pending s with [] => true | _ => false end)
               then ilet (next2, r2) <- flush_values (PathModel.in_order s) true next1 ; IRet (clear s, next2, r2)
               else IRet (s, next1, true)) ;
            if negb r2 then IRet (PDisp cl (s' :: r) next2, false)
            else if (0 <? count)%nat then
              let cl' := (1 <? count)%nat || negb (st_selected s') in
              match following with
              | None => process (PDisp cl' (s' :: r) next2) v
              | Some seg => tv seg v (PDisp cl' (s' :: r) next2)
              end
            else IRet (PDisp cl (s' :: r) next2, true)
         end) (fun w r => W w /\ snd r = true /\ after decide (PDisp cl [s] next) (fst r))).
    { intro b. cbn [ibind]. rewrite PE. destruct b.
      - cbn [negb andb]. rewrite andb_false_r. cbn [andb Nat.ltb Nat.leb ibind skipn st_sel st_pending st_selected negb]. rewrite andb_false_r. cbn [ibind negb Nat.ltb Nat.leb orb st_selected].
        set (s1 := mkState (st_sel s) true [] (d_nomore (decide (st_sel s)))).
        assert (C : calm false s1) by (split; [exact SL|split; auto]).
        assert (QC : quiet (PDisp false [s1] next)) by (split; [exact TN|right; eauto]).
        assert (FIN : forall w r, ok w -> W w /\ snd r = true /\ frame (PDisp false [s1] next) (fst r) -> W w /\ snd r = true /\ after decide (PDisp cl [s] next) (fst r)).
        { intros w [D1 r] OK [WW [RR F]]. cbn [fst snd] in *. split; [exact WW|]. split; [exact RR|]. destruct D1 as [| | | |cl1 ss1 next1]; try contradiction. destruct F as [-> [-> F]]. split; [exact F|]. right. exists s. split; [reflexivity|]. right. exists s1. cbn. auto. }
        destruct following as [g|]; (eapply tri_weaken; [|intros w OK WW; exact WW|exact FIN]); [apply TV; auto|apply w_process; assumption].
      - cbn [negb]. cbn [Nat.eqb]. rewrite ?andb_true_r. destruct (d_nomore _) eqn:NM.
        + cbn [Nat.ltb Nat.leb firstn flush_states]. unfold PathModel.in_order. cbn [st_sel st_pending]. rewrite (proj1 SL). cbn -[after]. apply tri_ret. intros w OK WW. cbn. split; [exact WW|]. split; [reflexivity|]. split; [now apply frame_refl|]. right. exists s. split; [reflexivity|]. left. auto.
        + cbn [Nat.ltb Nat.leb ibind skipn negb st_sel st_pending]. rewrite andb_false_r. cbn [ibind negb Nat.ltb Nat.leb]. apply tri_ret. intros w OK WW. cbn. split; [exact WW|]. split; [reflexivity|]. split; [now apply frame_refl|]. right. exists s. split; [reflexivity|]. right. eexists. split; [reflexivity|]. split; [reflexivity|]. split; [|discriminate].
          split; [exact SL|split; [reflexivity|discriminate]]. }
    destruct (d_yes (decide (st_sel s))); [exact (E true)|]. destruct (d_no (decide (st_sel s))); [exact (E false)|].
    pose proof (SLS s eq_refl) as SL2. destruct (st_sel s) as [nm| |p|c] eqn:SS; try exact (E false). destruct SL2 as [_ []].
Qed.

Notation lpost next := (fun w r => W w /\ snd r = true /\ within next (fst r) /\ quiet (fst r)).
Lemma quiet_slim : forall cl ss next s, quiet (PDisp cl ss next) -> ss = [s] -> slim_sel (st_sel s).
Proof. intros cl ss next s [_ [->|[s' [-> C]]]] E; [discriminate|]. injection E as ->. apply C. Qed.
Lemma tri_pure : forall A (p : iprog A) (C : Prop) (W1 : world -> Prop) Q, (C -> tri W1 p Q) -> tri (fun w => C /\ W1 w) p Q.
Proof. intros A p C W1 Q H w st a OK [CC WW] E. exact (H CC w st a OK WW E). Qed.
Lemma w_dispatched : forall A D v decide next (k : proc value * bool -> iprog A) Q, above a0 v -> quiet D -> within next D ->
  (forall D1, quiet D1 -> within next D1 -> tri W (k (D1, true)) Q) -> tri W (ilet x <- dispatch tv ev D v decide following ; k x) Q.
Proof.
  intros A D v decide next k Q AB QD WD H. destruct D as [| | | |cl ss nx]; try contradiction. eapply tri_bind; [apply w_dispatch; [exact AB|exact QD|intros s; eapply quiet_slim; exact QD]|].
  intros [D1 r]. cbn [fst snd]. apply tri_weaken with (W := fun w => (r = true /\ after decide (PDisp cl ss nx) D1) /\ W w) (Q := Q); [|tauto|auto].
  apply tri_pure. intros [-> AF]. apply H; [eapply after_quiet; eauto|eapply after_within; eauto].
Qed.
Lemma w_object : forall n seg v D next, above a0 v -> quiet D -> within next D -> tri W (object_relaxed tv ev n seg false following v D) (lpost next).
Proof.
  induction n as [|n IH]; intros seg v D next AB QD WD; cbn [object_relaxed]; [apply tri_fuel|]. eapply tri_advance; [exact GI|exact SW|exact AB|]. intros [|]; [|apply tri_ret; intros w OK WW; cbn; auto].
  eapply tri_keyval; [exact SW|exact AB|]. intros key o AO. cbn [fst snd]. apply tri_need. intros k _. apply tri_need. intros x ->. cbn [clone_if detach_if]. apply tri_of_res. intro kb.
  eapply w_dispatched; [apply AO; reflexivity|exact QD|exact WD|]. intros D1 Q1 W1. cbn [negb]. destruct (no_states D1); [apply tri_ret; intros w OK WW; cbn; auto|]. now apply IH.
Qed.
Lemma w_object_strict : forall n v D next, above a0 v -> quiet D -> within next D -> tri W (object_strict tv ev n following v D) (lpost next).
Proof.
  induction n as [|n IH]; intros v D next AB QD WD; cbn [object_strict]; [apply tri_fuel|]. eapply tri_advance; [exact GI|exact SW|exact AB|]. intros [|]; [|apply tri_ret; intros w OK WW; cbn; auto].
  eapply tri_keyval; [exact SW|exact AB|]. intros key o AO. cbn [fst snd]. apply tri_need. intros k _. apply tri_need. intros x ->. apply tri_of_res. intro kb.
  eapply w_dispatched; [apply AO; reflexivity|exact QD|exact WD|]. intros D1 Q1 W1. cbn [negb]. destruct (no_states D1); [apply tri_ret; intros w OK WW; cbn; auto|]. now apply IH.
Qed.
Lemma w_step_ahead : forall A ahead neg (k : Z -> iprog A) Q, (forall x, ahead = Some x -> above a0 x) -> (forall neg', tri W (k neg') Q) -> tri W (step_ahead ahead neg k) Q.
Proof. intros A [x|] neg k Q AB H; cbn; [|apply H]. eapply tri_advance; [exact GI|exact SW|auto|]. intro b. apply H. Qed.
Lemma w_array : forall n seg v ahead index neg D next, above a0 v -> (forall x, ahead = Some x -> above a0 x) -> quiet D -> within next D ->
  tri W (array_relaxed tv ev n seg false following v ahead index neg D) (lpost next).
Proof.
  induction n as [|n IH]; intros seg v ahead index neg D next AB AH QD WD; cbn [array_relaxed]; [apply tri_fuel|]. eapply tri_advance; [exact GI|exact SW|exact AB|]. intros [|]; [|apply tri_ret; intros w OK WW; cbn; auto].
  eapply tri_current; [exact SW|exact AB|]. intros o AO. apply tri_need. intros x ->. cbn [clone_if detach_if].
  eapply w_dispatched; [apply AO; reflexivity|exact QD|exact WD|]. intros D1 Q1 W1. cbn [negb]. apply w_step_ahead; [exact AH|]. intro neg'. destruct (no_states D1); [apply tri_ret; intros w OK WW; cbn; auto|]. now apply IH.
Qed.
Lemma w_array_strict : forall n v ahead index neg D next, above a0 v -> (forall x, ahead = Some x -> above a0 x) -> quiet D -> within next D ->
  tri W (array_strict tv ev n following v ahead index neg D) (lpost next).
Proof.
  induction n as [|n IH]; intros v ahead index neg D next AB AH QD WD; cbn [array_strict]; [apply tri_fuel|]. eapply tri_advance; [exact GI|exact SW|exact AB|]. intros [|]; [|apply tri_ret; intros w OK WW; cbn; auto].
  eapply tri_current; [exact SW|exact AB|]. intros o AO. apply tri_need. intros x ->.
  eapply w_dispatched; [apply AO; reflexivity|exact QD|exact WD|]. intros D1 Q1 W1. cbn [negb]. apply w_step_ahead; [exact AH|]. intro neg'. destruct (no_states D1); [apply tri_ret; intros w OK WW; cbn; auto|]. now apply IH.
Qed.
Lemma w_finish : forall D next, quiet D -> within next D -> tri W (finish D true) (post W next).
Proof.
  intros D next QD WD. unfold finish. destruct D as [| | | |cl ss nx]; try contradiction. cbn [disp_parts].
  destruct QD as [TN [->|[s [-> [SL [PE CL]]]]]]; [apply tri_ret; intros w OK WW; cbn; auto|]. cbn [flush_states]. unfold PathModel.in_order. rewrite (proj1 SL), PE. apply tri_ret. intros w OK WW. cbn. auto.
Qed.
Lemma w_looped : forall A (p : iprog (proc value * bool)) (k : proc value * bool -> iprog A) next Q, tri W p (lpost next) -> (forall D1, quiet D1 -> within next D1 -> tri W (k (D1, true)) Q) -> tri W (ibind p k) Q.
Proof.
  intros A p k next Q T H. eapply tri_bind; [exact T|]. intros [D1 r]. cbn [fst snd]. apply tri_weaken with (W := fun w => (r = true /\ within next D1 /\ quiet D1) /\ W w) (Q := Q); [|tauto|auto].
  apply tri_pure. intros [-> [A1 A2]]. auto.
Qed.
Lemma w_body : forall n s look strict v P, (look <= 0)%Z -> slim_sel s -> above a0 v -> quiet P -> tri W (transform_body tv ev n (Seg [s] look false strict following) v P) (post W P).
Proof.
  intros n s look strict v P LK SL AB T. cbn [transform_body].
  assert (N : quiet (PDisp false (new_states [s]) P)) by (split; [exact T|right; eexists; split; [reflexivity|]; split; [exact SL|split; auto]]).
  assert (WN : within P (PDisp false (new_states [s]) P)) by now apply frame_refl.
  destruct v as [sc|c|c].
  - eapply tri_discard; [exact SW|exact AB|]. apply tri_ret. intros w OK WW. cbn. auto using frame_refl.
  - unfold start_ahead. rewrite (proj2 (Z.ltb_ge 0 look) LK). destruct strict.
    + eapply w_looped; [apply w_array_strict; [exact AB|discriminate|exact N|exact WN]|]. intros D1 Q1 W1. cbn [end_ahead]. now apply w_finish.
    + eapply w_looped; [apply w_array; [exact AB|discriminate|exact N|exact WN]|]. intros D1 Q1 W1. cbn [end_ahead]. now apply w_finish.
  - destruct strict.
    + eapply w_looped; [apply w_object_strict; [exact AB|exact N|exact WN]|]. intros D1 Q1 W1. now apply w_finish.
    + eapply w_looped; [apply w_object; [exact AB|exact N|exact WN]|]. intros D1 Q1 W1. now apply w_finish.
Qed.
End Engine.

Lemma w_slim : forall a0 W find ctx, steady Good B a0 W -> forall n seg v P, slim seg -> above a0 v -> quiet P -> tri W (transform_value find ctx n seg v P) (post W P).
Proof.
  intros a0 W find ctx SW n. induction n as [|n IH]; intros seg v P S0 AB T; cbn [transform_value]; [apply tri_fuel|]. destruct seg as [sels look desc strict following]. destruct S0 as [LK [-> [[s [-> SL]] SF]]].
  apply (w_body a0 W SW); auto. intros g v' P' E AB' T'. subst following. apply IH; assumption.
Qed.
Lemma above_0 : forall v, above 0 v.
Proof. intros [s|c|c]; cbn; auto; lia. Qed.

(** The selector that counts from the end. *)
Definition win_pos (p : position) : Prop :=
  reverses p = false /\ forall index, (0 <= index < max64)%Z -> d_nomore (selects_from_index p index (- Z.of_nat K - 1)) = false.
Fixpoint windowed (seg : segment) : Prop :=
  match seg with
  | Seg sels look desc strict following =>
      desc = false /\
      ((look <= 0)%Z /\ (exists s, sels = [s] /\ slim_sel s) /\ match following with Some g => windowed g | None => True end \/
       look = Z.of_nat K /\ (exists p, sels = [SPos p] /\ win_pos p) /\ slim_opt following)
  end.

Section Window.
Variable find : bytes -> bytes -> option (nat * nat).
Variable tv : segment -> value -> proc value -> iprog (proc value * bool).
Variable ev : cond -> value -> iprog bool.
Variable following : option segment.
Hypothesis TV : forall g v P a0 W, steady Good B a0 W -> following = Some g -> above a0 v -> quiet P -> tri W (tv g v P) (post W P).
Variable pos : position.
Hypothesis WP : win_pos pos.
Notation look := (Z.of_nat K).

Lemma w_look_idle : forall n look ahead neg, tri idle (look_ahead n look ahead neg) (fun w _ => idle w).
Proof.
  induction n as [|n IH]; intros look0 ahead neg; cbn [look_ahead]; [apply tri_fuel|]. destruct (0 <=? _)%Z; [|apply tri_ret; auto].
  eapply tri_advance; [exact GI|apply idle_steady|apply above_0|]. intros [|]; [apply IH|apply tri_ret; auto].
Qed.
Lemma look_cond : forall n, n <= K + 1 -> (0 <=? i64 (- Z.of_nat n + look))%Z = (n <=? K).
Proof.
  intros n L. rewrite i64_id by (unfold min64, max64; lia). destruct (Nat.leb_spec n K); [apply Z.leb_le|apply Z.leb_gt]; lia.
Qed.
Lemma w_look : forall f p c a J E n, n <= K + 1 -> tri (active p c a J E 0 n) (look_ahead f look (VArr a) (- Z.of_nat n))
  (fun w neg => exists n', neg = (- Z.of_nat n')%Z /\ (n' = length (items J) \/ n' = K + 1) /\ active p c a J E 0 n' w).
Proof.
  induction f as [|f IH]; intros p c a J E n L; cbn [look_ahead]; [apply tri_fuel|]. rewrite (look_cond n L). destruct (Nat.leb_spec n K) as [L1|L1].
  - apply (tri_advance_ahead grow Good GI K M GN); [lia| |].
    + intros _. rewrite i64_id by (unfold min64, max64; lia). replace (- Z.of_nat n - 1)%Z with (- Z.of_nat (S n))%Z by lia. apply IH. lia.
    + intros EQ. apply tri_ret. intros w OK AC. exists n. auto.
  - apply tri_ret. intros w OK AC. exists n. split; [reflexivity|]. split; [right; lia|exact AC].
Qed.

(** The states of the dispatcher while the array is read: spent only when the
    reader ahead is at the end. *)
Definition going (L n : nat) (D : proc value) : Prop :=
  match D with PDisp _ ss _ => (exists s, ss = [s] /\ st_sel s = SPos pos /\ (st_done s = true -> n = L)) | _ => False end.
Lemma going_after : forall L m n D D1, (0 <= Z.of_nat m < max64)%Z -> (n = L \/ n = m + K + 1) -> going L n D -> after (selects_index (Z.of_nat m) (Z.of_nat m - Z.of_nat n)) D D1 ->
  going L n D1 \/ (no_states D1 = true /\ n = L).
Proof.
  intros L m n [| | | |cl ss next] [| | | |cl1 ss1 next1] RG NL G A; try contradiction. destruct G as [s [-> [SS SD]]], A as [_ A].
  assert (NM : d_nomore (selects_index (Z.of_nat m) (Z.of_nat m - Z.of_nat n) (st_sel s)) = true -> n = L).
  { intro Q. destruct NL as [NL|NL]; [exact NL|]. rewrite SS in Q. cbn [selects_index] in Q. replace (Z.of_nat m - Z.of_nat n)%Z with (- Z.of_nat K - 1)%Z in Q by lia. destruct WP as [_ NW]. rewrite (NW _ RG) in Q. discriminate. }
  destruct A as [[Q _]|[s' [Q A]]]; [discriminate|]. injection Q as <-. destruct A as [[-> [Q|Q]]|[s1 [-> [S1 [C D1]]]]].
  - right. auto.
  - right. auto.
  - left. exists s1. split; [reflexivity|]. split; [congruence|auto].
Qed.
Lemma going_not_spent : forall L n D, going L n D -> no_states D = false.
Proof. intros L n [| | | |cl ss next] G; try reflexivity. destruct G as [s [-> _]]. reflexivity. Qed.

Notation iposts next := (fun w r => idle w /\ snd r = true /\ within next (fst r) /\ quiet (fst r)).
Definition short (J : jval) : Prop := (Z.of_nat (length (items J)) < max64)%Z.
Definition at_mn (J : jval) (m n : nat) : Prop := n <= m + K + 1 /\ (n = length (items J) \/ n = m + K + 1).

Lemma w_item : forall A p c a J E m n D next x (k : proc value * bool -> iprog A) Q, short J -> m < length (items J) -> at_mn J m n -> quiet D -> within next D -> going (length (items J)) n D -> above (S a) x ->
  (forall D1, quiet D1 -> within next D1 -> going (length (items J)) n D1 \/ (no_states D1 = true /\ n = length (items J)) -> tri (active p c a J E (S m) n) (k (D1, true)) Q) ->
  tri (active p c a J E (S m) n) (ilet y <- dispatch tv ev D x (selects_index (Z.of_nat m) (Z.of_nat m - Z.of_nat n)) following ; k y) Q.
Proof.
  intros A p c a J E m n D next x k Q GJ Lm NL QD WD GD AX H. destruct D as [| | | |cl ss nx]; try contradiction.
  pose proof (active_steady Good K M GN p c a J E (S m) n) as SW.
  eapply tri_bind; [eapply w_dispatch; [exact SW| |exact AX|exact QD|intros s; eapply quiet_slim; exact QD]|]; [intros; eapply TV; eauto|].
  intros [D1 r]. cbn [fst snd]. apply tri_weaken with (W := fun w => (r = true /\ after (selects_index (Z.of_nat m) (Z.of_nat m - Z.of_nat n)) (PDisp cl ss nx) D1) /\ active p c a J E (S m) n w) (Q := Q); [|tauto|auto].
  apply tri_pure. intros [-> AF]. apply H; [eapply after_quiet; eauto|eapply after_within; eauto|]. eapply going_after; [|apply NL|exact GD|exact AF]. unfold short in GJ. lia.
Qed.
Lemma w_move : forall A p c a J E m n (k : Z -> iprog A) Q, short J -> at_mn J m n -> m < length (items J) ->
  (forall n', (n = length (items J) -> n' = length (items J)) -> (n' = n \/ n <> length (items J)) -> at_mn J (S m) n' -> tri (active p c a J E (S m) n') (k (Z.of_nat (S m) - Z.of_nat n')%Z) Q) ->
  tri (active p c a J E (S m) n) (step_ahead (Some (VArr a)) (Z.of_nat m - Z.of_nat n) k) Q.
Proof.
  intros A p c a J E m n k Q GJ [NL1 NL2] Lm H. unfold short in *. cbn [step_ahead]. apply (tri_advance_ahead grow Good GI K M GN); [lia| |].
  - intro Ln'. specialize (H (S n)). replace (Z.of_nat (S m) - Z.of_nat (S n))%Z with (Z.of_nat m - Z.of_nat n)%Z in H by lia. apply H; [lia|right; lia|]. unfold at_mn. lia.
  - intro EQ. rewrite i64_id by (unfold max64 in *; lia). replace (Z.of_nat m - Z.of_nat n + 1)%Z with (Z.of_nat (S m) - Z.of_nat n)%Z by lia. apply (H n); auto. unfold at_mn. lia.
Qed.
Lemma going_le : forall L n n' D, going L n D -> (n = L -> n' = L) -> going L n' D.
Proof. intros L n n' [| | | |cl ss next] G H; auto. destruct G as [s [A1 [A2 A3]]]. exists s. auto. Qed.
Lemma at_main : forall J m n, at_mn J m n -> m < n \/ n = length (items J).
Proof. intros J m n [A1 A2]. lia. Qed.
Lemma exit_main : forall p c a J E n w, ok w -> at_mn J (length (items J)) n -> active p c a J E (length (items J)) n w -> n = length (items J).
Proof.
  intros p c a J E n w OK _ AC. pose proof (ac_mn _ _ _ _ _ _ _ _ _ _ AC). destruct (ac_ha _ _ _ _ _ _ _ _ _ _ AC) as [s [_ P]]. destruct s as [|k ch rest| |]; cbn in P; [lia| |lia|destruct P]. lia.
Qed.
Lemma w_window : forall f seg p c a J E m n D next, short J -> at_mn J m n -> quiet D -> within next D -> going (length (items J)) n D ->
  tri (active p c a J E m n) (array_relaxed tv ev f seg false following (VArr c) (Some (VArr a)) (Z.of_nat m) (Z.of_nat m - Z.of_nat n) D) (iposts next).
Proof.
  induction f as [|f IH]; intros seg p c a J E m n D next GJ NL QD WD GD; cbn [array_relaxed]; [apply tri_fuel|]. apply (tri_advance_main grow Good GI K M GN); [now apply at_main| |].
  - intro Lm. apply (tri_current_main grow Good K M GN). intros o AO. apply tri_need. intros x ->. cbn [clone_if detach_if].
    eapply w_item; eauto. intros D1 Q1 W1 G1. cbn [negb]. apply w_move; auto. intros n' I1 I2 NL'. destruct G1 as [G1|[G1 EN]].
    + rewrite (going_not_spent _ _ _ G1). unfold short in GJ. rewrite i64_id by (unfold max64 in *; lia). replace (Z.of_nat m + 1)%Z with (Z.of_nat (S m)) by lia. apply IH; auto. eapply going_le; eauto.
    + rewrite G1. apply tri_ret. intros w OK AC. cbn. rewrite (I1 EN) in AC. split; [eapply active_exit; eauto|auto].
  - intros ->. apply tri_ret. intros w OK AC. cbn. split; [|auto]. pose proof (exit_main _ _ _ _ _ _ _ OK NL AC) as ->. eapply active_exit; eauto.
Qed.
Lemma w_window_strict : forall f p c a J E m n D next, short J -> at_mn J m n -> quiet D -> within next D -> going (length (items J)) n D ->
  tri (active p c a J E m n) (array_strict tv ev f following (VArr c) (Some (VArr a)) (Z.of_nat m) (Z.of_nat m - Z.of_nat n) D) (iposts next).
Proof.
  induction f as [|f IH]; intros p c a J E m n D next GJ NL QD WD GD; cbn [array_strict]; [apply tri_fuel|]. apply (tri_advance_main grow Good GI K M GN); [now apply at_main| |].
  - intro Lm. apply (tri_current_main grow Good K M GN). intros o AO. apply tri_need. intros x ->.
    eapply w_item; eauto. intros D1 Q1 W1 G1. cbn [negb]. apply w_move; auto. intros n' I1 I2 NL'. destruct G1 as [G1|[G1 EN]].
    + rewrite (going_not_spent _ _ _ G1). unfold short in GJ. rewrite i64_id by (unfold max64 in *; lia). replace (Z.of_nat m + 1)%Z with (Z.of_nat (S m)) by lia. apply IH; auto. eapply going_le; eauto.
    + rewrite G1. apply tri_ret. intros w OK AC. cbn. rewrite (I1 EN) in AC. split; [eapply active_exit; eauto|auto].
  - intros ->. apply tri_ret. intros w OK AC. cbn. split; [|auto]. pose proof (exit_main _ _ _ _ _ _ _ OK NL AC) as ->. eapply active_exit; eauto.
Qed.
Lemma i_looped : forall A W (p : iprog (proc value * bool)) (k : proc value * bool -> iprog A) next Q, tri W p (iposts next) -> (forall D1, quiet D1 -> within next D1 -> tri idle (k (D1, true)) Q) -> tri W (ibind p k) Q.
Proof.
  intros A W p k next Q T H. eapply tri_bind; [exact T|]. intros [D1 r]. cbn [fst snd]. apply tri_weaken with (W := fun w => (r = true /\ within next D1 /\ quiet D1) /\ idle w) (Q := Q); [|tauto|auto].
  apply tri_pure. intros [-> [A1 A2]]. auto.
Qed.
Lemma w_window_body : forall f strict v P, quiet P -> tri idle (transform_body tv ev f (Seg [SPos pos] look false strict following) v P) (post idle P).
Proof.
  intros f strict v P T. pose proof (idle_steady Good B) as SI. pose proof (above_0 v) as AB.
  assert (SL : slim_sel (SPos pos)) by (split; [apply WP|exact I]).
  set (D := PDisp false (new_states [SPos pos]) P).
  assert (N : quiet D) by (split; [exact T|right; eexists; split; [reflexivity|]; split; [exact SL|split; auto]]).
  assert (WN : within P D) by now apply frame_refl.
  assert (TI : forall g v P, following = Some g -> above 0 v -> quiet P -> tri idle (tv g v P) (post idle P)) by (intros; eapply TV; eauto).
  cbn [transform_body]. fold D. destruct v as [sc|c|c].
  - eapply tri_discard; [exact SI|exact AB|]. apply tri_ret. intros w OK WW. cbn. auto 10 using frame_refl.
  - unfold start_ahead. rewrite (proj2 (Z.ltb_lt 0 look)) by lia.
    apply (tri_clone grow Good K M GN).
    + intro x. eapply tri_bind; [apply w_look_idle|]. intro neg.
      destruct strict.
      * eapply w_looped; [eapply w_array_strict; [exact SI|exact TI|exact AB|intros; apply above_0|exact N|exact WN]|]. intros D1 Q1 W1. cbn [end_ahead]. apply tri_idle_detach. eapply w_finish; eauto.
      * eapply w_looped; [eapply w_array; [exact SI|exact TI|exact AB|intros; apply above_0|exact N|exact WN]|]. intros D1 Q1 W1. cbn [end_ahead]. apply tri_idle_detach. eapply w_finish; eauto.
    + intros p a J E. apply tri_weaken with (W := fun w => short J /\ active p c a J E 0 0 w) (Q := post idle P); [|intros w OK AC; split; [apply GL; eapply active_good; eauto|exact AC]|auto].
      apply tri_pure. intro GJ. eapply tri_bind; [apply (w_look f p c a J E 0); lia|]. intro neg.
      intros w st r OK [n [-> [NL AC]]]. revert w st r OK AC. change (tri (active p c a J E 0 n) ((fun neg => if strict then ilet (D1, r) <- array_strict tv ev f following (VArr c) (Some (VArr a)) 0 neg D ; end_ahead (Some (VArr a)) (finish D1 r)
          else ilet (D1, r) <- array_relaxed tv ev f (Seg [SPos pos] look false strict following) false following (VArr c) (Some (VArr a)) 0 neg D ; end_ahead (Some (VArr a)) (finish D1 r)) (- Z.of_nat n)%Z) (post idle P)).
      apply tri_weaken with (W := fun w => (n <= K + 1) /\ active p c a J E 0 n w) (Q := post idle P); [|intros w OK AC; split; [pose proof (ac_mn _ _ _ _ _ _ _ _ _ _ AC); lia|exact AC]|auto].
      apply tri_pure. intro NK. assert (AT : at_mn J 0 n) by (unfold at_mn; lia). assert (GD : going (length (items J)) n D) by (eexists; split; [reflexivity|]; split; [reflexivity|discriminate]).
      replace (- Z.of_nat n)%Z with (Z.of_nat 0 - Z.of_nat n)%Z by lia. destruct strict.
      * eapply i_looped; [apply (w_window_strict f p c a J E 0 n D P); auto|]. intros D1 Q1 W1. cbn [end_ahead]. apply tri_idle_detach. eapply w_finish; eauto.
      * eapply i_looped; [apply (w_window f _ p c a J E 0 n D P); auto|]. intros D1 Q1 W1. cbn [end_ahead]. apply tri_idle_detach. eapply w_finish; eauto.
  - destruct strict.
    + eapply w_looped; [eapply w_object_strict; [exact SI|exact TI|exact AB|exact N|exact WN]|]. intros D1 Q1 W1. eapply w_finish; eauto.
    + eapply w_looped; [eapply w_object; [exact SI|exact TI|exact AB|exact N|exact WN]|]. intros D1 Q1 W1. eapply w_finish; eauto.
Qed.
End Window.

Lemma w_windowed : forall find ctx n seg v P, windowed seg -> quiet P -> tri idle (transform_value find ctx n seg v P) (post idle P).
Proof.
  intros find ctx n. induction n as [|n IH]; intros seg v P S0 T; cbn [transform_value]; [apply tri_fuel|]. destruct seg as [sels look desc strict following]. destruct S0 as [-> [[LK [[s [-> SL]] SF]]|[-> [[p [-> WP]] SF]]]].
  - apply (w_body 0 idle (idle_steady Good B)); auto using above_0. intros g v' P' E AB' T'. subst following. apply IH; assumption.
  - apply w_window_body; auto. intros g v' P' a0 W SW E AB' T'. subst following. eapply w_slim; eauto.
Qed.
Definition windowed_opt (o : option segment) : Prop := match o with Some g => windowed g | None => True end.
Definition windowed_runner (r : runner) : Prop := rn_singular r = [] /\ rn_queries r = [] /\ match rn_main r with QFirst o => windowed_opt o | QInner _ => False end.
Lemma w_query : forall find n r v, windowed_runner r -> tri idle (run_query find n r v) (fun w _ => idle w).
Proof.
  intros find n r v [R1 [R2 R3]]. unfold run_query, compute_context. rewrite R1, R2. cbn [run_singular run_queries ibind].
  destruct (rn_main r) as [o|i]; [|contradiction]. eapply tri_bind with (P := fun w _ => idle w).
  - unfold map_value. destruct o as [g|].
    + eapply tri_weaken; [apply w_windowed; [exact R3|exact I]|auto|]. cbn. tauto.
    + eapply tri_weaken; [eapply w_process; [apply (idle_steady Good B)|apply above_0|exact I]|auto|]. cbn. tauto.
  - intros [P b]. destruct P; try apply tri_panic. apply tri_ret. auto.
Qed.
Theorem w_stream : forall find n r m, windowed_runner r -> tri idle (transform_values (run_query find n r) m 0) (fun w _ => idle w).
Proof.
  intros find n r m SR. induction m as [|m IH]; cbn [transform_values]; [apply tri_fuel|]. apply (tri_idle_iter_advance grow Good). intros [|]; [|apply tri_ret; auto].
  apply tri_idle_iter_current. intro o. apply tri_need. intros v ->. eapply tri_bind; [now apply w_query|]. intro ts. eapply tri_bind; [apply IH|]. intro ts'. apply tri_ret. auto.
Qed.
End Query.

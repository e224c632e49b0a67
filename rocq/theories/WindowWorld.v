(** Runs of programs during which the windows of the pools stay small. *)
From Coq Require Import List ZArith Arith Bool Lia.
From Verif Require Import Base Tokens JsonSpec EncSpec CursorModel CursorSpec CursorProofs CursorBound IterModel IterSpec IterCore IterThr IterRel IterOps IterOps2 IterOps3 PlainSpec Plain WindowPool WindowHeap WindowStore WindowPos.

Section Grow.
Variable grow : Z -> Z -> Z.
Variable Good : jval -> Prop.
Hypothesis GI : forall v k x, Good v -> In (k, x) (items v) -> Good x.
Variable B : nat.

Definition fits (h : heap) : Prop := Forall (fun x => length (p_win (snd x)) <= B) (h_pool h).
(** A heap, with what IterRel.v says of it. *)
Record world := mkW { w_g : ghost; w_h : heap; w_st : sstore; w_roots : list root }.
Definition ok (w : world) : Prop := rel (w_g w) (w_h w) (w_st w) (w_roots w) /\ wfst Good (w_st w).

(** The program [p] takes [w] to [w']. *)
Definition runs {A} (p : iprog A) (w w' : world) (a : A) : Prop :=
  ok w' /\ exists n0, forall n, n0 <= n -> irun grow n p (w_h w) = Ok (w_h w', a) /\ Forall fits (heaps grow n p (w_h w)).
Definition tri {A} (W : world -> Prop) (p : iprog A) (Q : world -> A -> Prop) : Prop :=
  forall w st a, ok w -> W w -> spec_run p (w_st w) = Some (st, a) -> exists w', w_st w' = st /\ runs p w w' a /\ Q w' a.

Lemma tri_ret : forall A (W : world -> Prop) (a : A) (Q : world -> A -> Prop), (forall w, ok w -> W w -> Q w a) -> tri W (IRet a) Q.
Proof. intros A W a Q H w st a' OK WW E. injection E as <- <-. exists w. split; [reflexivity|]. split; [|auto]. split; [exact OK|]. exists 0. intros n _. split; [reflexivity|constructor]. Qed.
Lemma tri_panic : forall A (W : world -> Prop) (Q : world -> A -> Prop), tri W IPanic Q.
Proof. intros A W Q w st a OK WW E. discriminate. Qed.
Lemma tri_fuel : forall A (W : world -> Prop) (Q : world -> A -> Prop), tri W IFuel Q.
Proof. intros A W Q w st a OK WW E. discriminate. Qed.
Lemma tri_weaken : forall A (W W' : world -> Prop) (p : iprog A) (Q Q' : world -> A -> Prop), tri W p Q -> (forall w, ok w -> W' w -> W w) -> (forall w a, ok w -> Q w a -> Q' w a) -> tri W' p Q'.
Proof. intros A W W' p Q Q' T I1 I2 w st a OK WW E. destruct (T w st a OK (I1 w OK WW) E) as [w' [S0 [R Q0]]]. exists w'. split; [exact S0|]. split; [exact R|]. apply I2; [apply R|exact Q0]. Qed.

Lemma spec_bind : forall A C (p : iprog A) (k : A -> iprog C) st, spec_run (ibind p k) st = match spec_run p st with Some (st', a) => spec_run (k a) st' | None => None end.
Proof.
  intros A C p k. induction p as [a| | |v j IH|v j IH|v j IH|v j IH|v j IH|v j IH|v j IH|d j IH|i j IH|i j IH|i j IH|i j IH]; intro st; cbn [ibind spec_run]; auto.
  - destruct (s_advance _ _) as [[t b]|]; cbn; auto.
  - destruct (s_current _ _) as [[t b]|]; cbn; auto.
  - destruct (s_current _ _) as [x|]; cbn; auto.
  - destruct (s_clone _ _) as [[t b]|]; cbn; auto.
  - destruct (s_detach _ _) as [t|]; cbn; auto.
  - destruct (s_copy _ _) as [[t b]|]; cbn; auto.
  - destruct (s_discard _ _) as [t|]; cbn; auto.
  - destruct (si_new _ _) as [[t b]|]; cbn; auto.
  - destruct (si_advance _ _) as [[t b]|]; cbn; auto.
  - destruct (si_current _ _) as [t|]; cbn; auto.
  - destruct (si_clone _ _) as [[t b]|]; cbn; auto.
  - destruct (si_detach _ _) as [t|]; cbn; auto.
Qed.
Lemma heaps_bind : forall A C (p : iprog A) (k : A -> iprog C) n h h' a, irun grow n p h = Ok (h', a) ->
  heaps grow n (ibind p k) h = heaps grow n p h ++ heaps grow n (k a) h' /\ irun grow n (ibind p k) h = irun grow n (k a) h'.
Proof.
  intros A C p k n. induction p as [a0| | |v j IH|v j IH|v j IH|v j IH|v j IH|v j IH|v j IH|d j IH|i j IH|i j IH|i j IH|i j IH]; intros h h' a R; cbn [irun ibind heaps] in *; try discriminate.
  1: injection R as <- <-; split; reflexivity.
  all: unfold next, hbind in *.
  1: destruct (coll_of v h) as [[h0 c]| |]; try discriminate; destruct (advance grow n c h0) as [[h1 b]| |]; try discriminate; destruct (IH _ _ _ _ R) as [H1 H2]; rewrite H1, H2; auto.
  all: match type of R with match ?m with _ => _ end = _ => destruct m as [[h1 b]| |]; try discriminate end.
  all: match goal with H : irun grow ?nn (?j ?b) ?h1 = _ |- _ => destruct (IH b _ _ _ H) as [H1 H2] | H : irun grow ?nn ?j ?h1 = _ |- _ => destruct (IH _ _ _ H) as [H1 H2] end; rewrite H1, H2; auto.
Qed.
Lemma tri_bind : forall A C (W : world -> Prop) (p : iprog A) (k : A -> iprog C) P Q, tri W p P -> (forall a, tri (fun w => P w a) (k a) Q) -> tri W (ibind p k) Q.
Proof.
  intros A C W p k P Q T K w st b OK WW E. rewrite spec_bind in E. destruct (spec_run p (w_st w)) as [[st1 a]|] eqn:E1; [|discriminate].
  destruct (T w st1 a OK WW E1) as [w1 [S1 [[OK1 [n1 R1]] P1]]]. rewrite <- S1 in E. destruct (K a w1 st b OK1 P1 E) as [w2 [S2 [[OK2 [n2 R2]] Q2]]].
  exists w2. split; [exact S2|]. split; [|exact Q2]. split; [exact OK2|]. exists (Nat.max n1 n2). intros n L. destruct (R1 n ltac:(lia)) as [A1 B1]. destruct (R2 n ltac:(lia)) as [A2 B2].
  destruct (heaps_bind _ _ p k n _ _ _ A1) as [H1 H2]. rewrite H1, H2. split; [exact A2|]. apply Forall_app. auto.
Qed.
(** One call. *)
Lemma runs_step : forall A X (p : iprog A) (m : nat -> hm X) (k : X -> iprog A) w w1 w' x a n0,
  (forall n h, irun grow n p h = hbind (m n) (fun x => irun grow n (k x)) h) -> (forall n h, heaps grow n p h = next (m n) h (fun x => heaps grow n (k x))) ->
  (forall n, n0 <= n -> m n (w_h w) = Ok (w_h w1, x)) -> fits (w_h w1) -> runs (k x) w1 w' a -> runs p w w' a.
Proof.
  intros A X p m k w w1 w' x a n0 I1 I2 M F [OK [n1 R]]. split; [exact OK|]. exists (Nat.max n0 n1). intros n L. destruct (R n ltac:(lia)) as [R1 R2]. rewrite I1, I2. unfold hbind, next. rewrite (M n ltac:(lia)). split; [exact R1|]. constructor; assumption.
Qed.
Lemma irun_advance : forall A v (k : bool -> iprog A) n h, irun grow n (IAdvance v k) h = hbind (ldo c <- coll_of v ; advance grow n c) (fun x => irun grow n (k x)) h.
Proof. intros A v k n h. cbn [irun]. unfold hbind. destruct (coll_of v h) as [[h0 c]| |]; reflexivity. Qed.

(** ------------------------------------------------------------------ *)
(** Calls on values above [a]. *)
Record goes (a : nat) (w w' : world) : Prop := mkGoes {
  go_ev : evolve (w_h w) (w_h w');
  go_gle : gle (w_g w) (w_g w');
  go_kept : kept (w_roots w) (w_roots w');
  go_coll : beyond a (st_coll (w_st w)) (st_coll (w_st w'));
  go_iter : st_iter (w_st w') = st_iter (w_st w)
}.
Record steady (a : nat) (W : world -> Prop) : Prop := mkSteady {
  sd_fits : forall w, ok w -> W w -> fits (w_h w);
  sd_goes : forall w w', ok w -> ok w' -> goes a w w' -> W w -> W w'
}.
Lemma op_advance_w : forall w v t' b, ok w -> s_advance (st_coll (w_st w)) v = Some (t', b) ->
  exists n0 w1, (forall n, n0 <= n -> (ldo c <- coll_of v ; advance grow n c) (w_h w) = Ok (w_h w1, b)) /\ ok w1 /\ w_st w1 = mkSt t' (st_iter (w_st w)) /\
    evolve (w_h w) (w_h w1) /\ gle (w_g w) (w_g w1) /\ kept (w_roots w) (w_roots w1).
Proof.
  intros w v t' b [RE [WT WI]] E. destruct (op_advance_x grow _ _ _ _ _ _ _ RE E) as [n0 [h1 [g1 [r1 [R [[RE1 GL] KE]]]]]].
  exists n0, (mkW g1 h1 (mkSt t' (st_iter (w_st w))) r1). split; [exact R|]. split; [|split; [reflexivity|split; [|split; [exact GL|exact KE]]]].
  - split; [exact RE1|]. split; [eapply advance_beyond; [exact GI|exact WT| |exact E]|exact WI]. instantiate (1 := 0). destruct v; cbn; auto; lia.
  - specialize (R n0 (le_n _)). assert (V : evo (w_h w) (ldo c <- coll_of v ; advance grow n0 c) any).
    { eapply evo_bind with (P := any); [|intros; apply evo_advance]. destruct v; cbn [coll_of]; [apply evo_panic|apply evo_ret; exact I..]. }
    apply (V _ _ R).
Qed.

Section Steady.
Variable a0 : nat.
Variable W : world -> Prop.
Hypothesis SW : steady a0 W.

Lemma tri_advance : forall A v (k : bool -> iprog A) Q, above a0 v -> (forall b, tri W (k b) Q) -> tri W (IAdvance v k) Q.
Proof.
  intros A v k Q AB K w st a OK WW E. cbn [spec_run] in E. destruct (s_advance _ v) as [[t' b]|] eqn:SA; [|discriminate]. cbn [on_coll obind] in E.
  destruct (op_advance_w w v t' b OK SA) as [n0 [w1 [R [OK1 [S1 [EV [GL KE]]]]]]].
  assert (W1 : W w1). { eapply (sd_goes _ _ SW); [exact OK|exact OK1| |exact WW]. constructor; auto; rewrite S1; cbn; [|reflexivity]. destruct OK as [_ [WT _]]. eapply advance_beyond; eauto. }
  rewrite <- S1 in E. destruct (K b w1 st a OK1 W1 E) as [w' [S' [RU Q']]]. exists w'. split; [exact S'|]. split; [|exact Q'].
  eapply runs_step with (m := fun n => ldo c <- coll_of v ; advance grow n c); [intros; apply irun_advance|reflexivity|exact R|apply (sd_fits _ _ SW); assumption|exact RU].
Qed.
Lemma tri_keyval : forall A v (k : option scalar * option value -> iprog A) Q, above a0 v -> (forall key o, (forall x, o = Some x -> above a0 x) -> tri W (k (key, o)) Q) -> tri W (IKeyVal v k) Q.
Proof.
  intros A v k Q AB K w st a OK WW E. cbn [spec_run] in E. destruct (s_current _ v) as [[key o]|] eqn:SC; [|discriminate].
  destruct OK as [RE [WT WI]]. pose proof (op_keyval _ _ _ _ _ _ RE SC) as R. assert (OK : ok w) by (split; [exact RE|split; assumption]).
  destruct (K key o (current_above _ _ _ _ _ _ WT AB SC) w st a OK WW E) as [w' [S' [RU Q']]]. exists w'. split; [exact S'|]. split; [|exact Q'].
  eapply runs_step with (m := fun n => current_key_val v) (n0 := 0); [reflexivity|reflexivity|intros; exact R|apply (sd_fits _ _ SW); assumption|exact RU].
Qed.
Lemma tri_current : forall A v (k : option value -> iprog A) Q, above a0 v -> (forall o, (forall x, o = Some x -> above a0 x) -> tri W (k o) Q) -> tri W (ICurrent v k) Q.
Proof.
  intros A v k Q AB K w st a OK WW E. cbn [spec_run] in E. destruct (s_current _ v) as [[key o]|] eqn:SC; [|discriminate].
  destruct OK as [RE [WT WI]]. pose proof (op_current _ _ _ _ _ _ RE SC) as R. cbn [snd] in R. assert (OK : ok w) by (split; [exact RE|split; assumption]).
  destruct (K o (current_above _ _ _ _ _ _ WT AB SC) w st a OK WW E) as [w' [S' [RU Q']]]. exists w'. split; [exact S'|]. split; [|exact Q'].
  eapply runs_step with (m := fun n => current_value v) (n0 := 0); [reflexivity|reflexivity|intros; exact R|apply (sd_fits _ _ SW); assumption|exact RU].
Qed.
Lemma tri_copy : forall A v (k : list token -> iprog A) Q, above a0 v -> (forall ts, tri W (k ts) Q) -> tri W (ICopy v k) Q.
Proof.
  intros A v k Q AB K w st a OK WW E. cbn [spec_run] in E. destruct (s_copy _ v) as [[t' ts]|] eqn:SC; [|discriminate]. cbn [on_coll obind] in E.
  destruct OK as [RE [WT WI]]. destruct (op_copy_x grow _ _ _ _ _ _ _ RE SC) as [n0 [h1 [g1 [r1 [R [[RE1 GL] KE]]]]]].
  destruct (copy_beyond _ _ _ _ _ _ WT AB SC) as [WT1 BY]. set (w1 := mkW g1 h1 (mkSt t' (st_iter (w_st w))) r1).
  assert (OK : ok w) by (split; [exact RE|split; assumption]). assert (OK1 : ok w1) by (split; [exact RE1|split; assumption]).
  assert (W1 : W w1). { eapply (sd_goes _ _ SW); [exact OK|exact OK1| |exact WW]. constructor; auto. apply (evo_copy grow n0 v (w_h w) _ _ (R n0 (le_n _))). }
  destruct (K ts w1 st a OK1 W1 E) as [w' [S' [RU Q']]]. exists w'. split; [exact S'|]. split; [|exact Q'].
  eapply runs_step with (m := fun n => copy grow n v) (w1 := w1); [reflexivity|reflexivity|exact R|apply (sd_fits _ _ SW); assumption|exact RU].
Qed.
Lemma tri_discard : forall A v (k : iprog A) Q, above a0 v -> tri W k Q -> tri W (IDiscard v k) Q.
Proof.
  intros A v k Q AB K w st a OK WW E. cbn [spec_run] in E. destruct (s_discard _ v) as [t'|] eqn:SC; [|discriminate]. cbn [on_coll_ obind] in E.
  destruct OK as [RE [WT WI]]. destruct (op_discard_x grow _ _ _ _ _ _ RE SC) as [n0 [h1 [g1 [r1 [R [[RE1 GL] KE]]]]]].
  destruct (discard_beyond _ _ _ _ _ WT AB SC) as [WT1 BY]. set (w1 := mkW g1 h1 (mkSt t' (st_iter (w_st w))) r1).
  assert (OK : ok w) by (split; [exact RE|split; assumption]). assert (OK1 : ok w1) by (split; [exact RE1|split; assumption]).
  assert (W1 : W w1). { eapply (sd_goes _ _ SW); [exact OK|exact OK1| |exact WW]. constructor; auto. apply (evo_discard grow n0 v (w_h w) _ _ (R n0 (le_n _))). }
  destruct (K w1 st a OK1 W1 E) as [w' [S' [RU Q']]]. exists w'. split; [exact S'|]. split; [|exact Q'].
  eapply runs_step with (m := fun n => discard grow n v) (k := fun _ => k) (w1 := w1); [reflexivity|reflexivity|exact R|apply (sd_fits _ _ SW); assumption|exact RU].
Qed.
End Steady.

(** ------------------------------------------------------------------ *)
(** Nothing much is left to be read through a pool: its window will stay small. *)
Definition idle_at (q : nat) (w : world) : Prop :=
  forall x i, nth_error (h_pool (w_h w)) q = Some x -> nth_error (g_P (w_g w)) q = Some i -> (Z.of_nat (pi_e i) <= Z.of_nat (pi_b i) + p_wpos (snd x) + Z.of_nat B)%Z.
Definition idle (w : world) : Prop := forall q, idle_at q w.

Lemma idle_fits : forall q w x, ok w -> idle_at q w -> nth_error (h_pool (w_h w)) q = Some x -> length (p_win (snd x)) <= B.
Proof.
  intros q w x [RE _] ID E. pose proof (re_core _ _ _ _ RE) as CO. destruct (nth_error (g_P (w_g w)) q) as [i|] eqn:P; [|apply nth_error_ge in P; apply nth_error_lt in E; rewrite (co_lenP _ _ CO) in E; lia].
  pose proof (co_pool _ _ CO _ _ _ E P) as PO. specialize (ID _ _ E P). destruct (po_inv _ _ _ _ PO) as [w0 IV]. pose proof (i_read _ _ _ _ IV) as RD. pose proof (i_wpos _ _ _ _ IV) as WP. cbn in RD, WP. pose proof (po_read _ _ _ _ PO). lia.
Qed.
Lemma idle_forward : forall q w w', ok w -> ok w' -> forward (w_h w) (w_h w') -> gle (w_g w) (w_g w') -> q < length (h_pool (w_h w)) -> idle_at q w -> idle_at q w'.
Proof.
  intros q w w' [RE _] [RE' _] FW GL Lq ID x' i' E' P'.
  destruct (nth_error (h_pool (w_h w)) q) as [x|] eqn:E; [|apply nth_error_ge in E; lia]. destruct x as [s pl]. destruct (FW _ _ _ E) as [pl' [E1 WP]]. rewrite E1 in E'. injection E' as <-.
  destruct (nth_error (g_P (w_g w)) q) as [i|] eqn:P; [|apply nth_error_ge in P; rewrite <- (co_lenP _ _ (re_core _ _ _ _ RE)) in P; lia].
  destruct (gl_P _ _ GL _ _ P) as [i1 [P1 [_ [X [Y _]]]]]. rewrite P1 in P'. injection P' as <-. specialize (ID _ _ E P). cbn [snd] in *. lia.
Qed.
Lemma idle_evolve : forall q w w', ok w -> ok w' -> evolve (w_h w) (w_h w') -> gle (w_g w) (w_g w') -> idle_at q w -> idle_at q w'.
Proof.
  intros q w w' OK OK' EV GL ID x i E P. refine (idle_forward q w w' OK OK' (ev_fwd _ _ EV) GL _ ID x i E P). rewrite <- (ev_pools _ _ EV). eapply nth_error_lt; exact E.
Qed.
Lemma idle_steady : steady 0 idle.
Proof.
  constructor.
  - intros w OK ID. apply Forall_forall. intros x IN. apply In_nth_error in IN as [q E]. exact (idle_fits q w x OK (ID q) E).
  - intros w w' OK OK' [EV GL _ _ _] ID q. exact (idle_evolve q w w' OK OK' EV GL (ID q)).
Qed.
Lemma tri_idle_detach : forall A v (k : iprog A) Q, tri idle k Q -> tri idle (IDetach v k) Q.
Proof.
  intros A v k Q K w st a OK WW E. cbn [spec_run] in E. destruct (s_detach _ v) as [t'|] eqn:SC; [|discriminate]. cbn [on_coll_ obind] in E.
  destruct OK as [RE [WT WI]]. destruct (op_detach_x grow _ _ _ _ _ _ RE SC) as [h1 [g1 [r1 [R [RE1 GL]]]]]. set (w1 := mkW g1 h1 (mkSt t' (st_iter (w_st w))) r1).
  assert (OK : ok w) by (split; [exact RE|split; assumption]). assert (OK1 : ok w1) by (split; [exact RE1|split; [eapply detach_store; eauto|assumption]]).
  assert (W1 : idle w1). { intro q. eapply idle_evolve; [exact OK|exact OK1| |exact GL|apply WW]. apply (evo_detach grow v (w_h w) _ _ R). }
  destruct (K w1 st a OK1 W1 E) as [w' [S' [RU Q']]]. exists w'. split; [exact S'|]. split; [|exact Q'].
  eapply runs_step with (m := fun n => detach grow v) (k := fun _ => k) (n0 := 0) (w1 := w1); [reflexivity|reflexivity|intros; exact R|apply (sd_fits _ _ idle_steady); assumption|exact RU].
Qed.
Lemma tri_idle_iter_advance : forall A i (k : bool -> iprog A) Q, (forall b, tri idle (k b) Q) -> tri idle (IIterAdvance i k) Q.
Proof.
  intros A i k Q K w st a OK WW E. cbn [spec_run] in E. destruct (si_advance _ i) as [[st1 b]|] eqn:SC; [|discriminate]. cbn [obind] in E.
  destruct OK as [RE WT]. destruct (op_iter_advance_x grow _ _ _ _ _ _ _ RE SC) as [n0 [h1 [g1 [r1 [R [RE1 GL]]]]]]. set (w1 := mkW g1 h1 st1 r1).
  assert (OK : ok w) by (split; assumption). assert (OK1 : ok w1) by (split; [exact RE1|eapply iter_advance_store; eauto]).
  assert (W1 : idle w1). { intro q. eapply idle_evolve; [exact OK|exact OK1| |exact GL|apply WW]. apply (evo_iter_advance grow n0 i (w_h w) _ _ (R n0 (le_n _))). }
  destruct (K b w1 st a OK1 W1 E) as [w' [S' [RU Q']]]. exists w'. split; [exact S'|]. split; [|exact Q'].
  eapply runs_step with (m := fun n => iter_advance grow n i) (w1 := w1); [reflexivity|reflexivity|exact R|apply (sd_fits _ _ idle_steady); assumption|exact RU].
Qed.
Lemma tri_idle_iter_current : forall A i (k : option value -> iprog A) Q, (forall o, tri idle (k o) Q) -> tri idle (IIterCurrent i k) Q.
Proof.
  intros A i k Q K w st a OK WW E. cbn [spec_run] in E. destruct (si_current _ i) as [x|] eqn:SC; [|discriminate].
  pose proof (op_iter_current _ _ _ _ _ _ (proj1 OK) SC) as R. destruct (K x w st a OK WW E) as [w' [S' [RU Q']]]. exists w'. split; [exact S'|]. split; [|exact Q'].
  eapply runs_step with (m := fun n => iter_current i) (n0 := 0); [reflexivity|reflexivity|intros; exact R|apply (sd_fits _ _ idle_steady); assumption|exact RU].
Qed.
End Grow.

(** The streams of the iterator heap: each is a reader with a position in the
    full contents of its source. *)
From Coq Require Import List ZArith Arith Bool Lia.
From Verif Require Import Base Tokens CursorModel CursorSpec CursorProofs IterModel.

(** [p_src] only matters to a read at the frontier. *)
Definition rmap {A B} (f : A -> B) (r : res A) : res B :=
  match r with Ok a => Ok (f a) | Panic => Panic | OutOfFuel => OutOfFuel end.

Lemma aw_src : forall p l, advance_window (with_src p l) = rmap (fun p => with_src p l) (advance_window p).
Proof.
  intros p l. unfold advance_window. cbn [with_src p_tab p_curs p_wpos p_win p_cap].
  destruct (_ =? maxint)%Z; [reflexivity|].
  destruct (_ <? 0)%Z; [reflexivity|].
  destruct (_ =? 0)%Z; [reflexivity|].
  destruct (slice_from _ _) as [tl| |]; try reflexivity. cbn [bind].
  destruct (_ || _); [|reflexivity].
  destruct (slice_to _ _); reflexivity.
Qed.

Lemma uc_src : forall p n l, update_catchup (with_src p l) n = rmap (fun p => with_src p l) (update_catchup p n).
Proof.
  intros p n l. unfold update_catchup. cbn [with_src set_catch p_catch].
  destruct (_ <? _)%Z; [|reflexivity].
  change (set_catch (set_catch (with_src p l) (p_catch p + n)) 0)
    with (with_src (set_catch (set_catch p (p_catch p + n)) 0) l).
  apply aw_src.
Qed.

Lemma dl_src : forall k i c pos p l,
  detach_loop k i c pos (with_src p l) = rmap (fun p => with_src p l) (detach_loop k i c pos p).
Proof.
  induction k as [|k IH]; intros i c pos p l; [reflexivity|].
  cbn [detach_loop]. cbn [with_src p_curs p_wpos].
  destruct (nth_error (p_curs p) i) as [c1|]; [|apply IH].
  destruct (c1 =? c); [|apply IH].
  rewrite uc_src. destruct (update_catchup p _) as [p1| |]; try reflexivity.
  cbn [rmap bind]. exact (IH _ _ _ (set_curs p1 (firstn i (p_curs p1) ++ skipn (S i) (p_curs p1))) l).
Qed.

Lemma dc_src : forall p c l, detach_cursor (with_src p l) c = rmap (fun p => with_src p l) (detach_cursor p c).
Proof.
  intros p c l. unfold detach_cursor. cbn [with_src p_tab p_curs].
  rewrite dl_src. destruct (detach_loop _ _ _ _ p) as [p1| |]; reflexivity.
Qed.

Section Grow.
Variable grow : Z -> Z -> Z.

(** A step that does not read at the frontier. *)
Definition inside (p : pool) (o : op) : Prop :=
  match o with
  | ONext c => match nth_error (p_tab p) c with
               | Some cu => cu_att cu = true -> (cu_pos cu - p_wpos p < Z.of_nat (length (p_win p)))%Z
               | None => True
               end
  | _ => True
  end.

Lemma step_src : forall p o l, inside p o ->
  step grow (with_src p l) o = rmap (fun r => (with_src (fst r) l, snd r)) (step grow p o).
Proof.
  intros p o l I. destruct o as [|c|c|c]; cbn [step].
  - reflexivity.
  - unfold clone_cursor. cbn [with_src p_tab]. destruct (nth_error (p_tab p) c) as [cu|]; [|reflexivity].
    destruct (cu_att cu); reflexivity.
  - cbn [with_src p_tab]. destruct (nth_error (p_tab p) c) as [cu|]; [|reflexivity].
    destruct (cu_att cu); [|reflexivity].
    change (mkPool l (p_win p) (p_cap p) (p_wpos p) (p_catch p) (p_curs p) (p_tab p)) with (with_src p l).
    rewrite dc_src. destruct (detach_cursor p c); reflexivity.
  - cbn [with_src p_tab]. cbn [inside] in I.
    change (mkPool l (p_win p) (p_cap p) (p_wpos p) (p_catch p) (p_curs p) (p_tab p)) with (with_src p l).
    destruct (nth_error (p_tab p) c) as [cu|] eqn:E; [|reflexivity].
    destruct (cu_att cu) eqn:A; [|reflexivity]. specialize (I eq_refl).
    unfold advance_cursor. cbn [with_src p_tab p_wpos p_win].
    unfold cpos. rewrite E.
    replace (cu_pos cu - p_wpos p <? Z.of_nat (length (p_win p)))%Z with true
      by (symmetry; apply Z.ltb_lt; lia).
    destruct (slice_idx _ _) as [tok| |]; try reflexivity. cbn [bind].
    change (set_tab (with_src p l) (upd (p_tab p) c (mkCursor true (cu_pos cu + 1))))
      with (with_src (set_tab p (upd (p_tab p) c (mkCursor true (cu_pos cu + 1)))) l).
    change (mkPool l (p_win p) (p_cap p) (p_wpos p) (p_catch p) (p_curs p) (p_tab p)) with (with_src p l).
    rewrite uc_src. destruct (update_catchup _ 1); reflexivity.
Qed.

(* ------------------------------------------------------------------ *)
(** Ghost state: the full contents of the sources, how much of each has been
    received, and for each pool its source, the range [b, e) of positions it
    serves, and its readers; and for each source the pool, if any, that is the
    only one to read it. *)
Record pinfo := mkPi { pi_src : nat; pi_b : nat; pi_e : nat; pi_rd : readers }.
Record ghost := mkGh {
  g_F : list (list token);
  g_R : list nat;
  g_P : list pinfo;
  g_act : list (option nat)
}.
Definition full (g : ghost) (s : nat) : list token := nth s (g_F g) [].
Definition rpos (g : ghost) (s : nat) : nat := nth s (g_R g) 0.
Definition act (g : ghost) (s : nat) : option nat := nth s (g_act g) None.

Record pool_ok (g : ghost) (p : nat) (x : nat * pool) (i : pinfo) : Prop := mkPok {
  po_src : fst x = pi_src i;
  po_range : pi_b i <= pi_e i <= length (full g (pi_src i));
  po_srcok : pi_src i < length (g_F g);
  po_read : pi_b i + sp_read (pi_rd i) <= pi_e i;
  po_inv : inv (skipn (pi_b i) (full g (pi_src i)))
               (with_src (snd x) (skipn (pi_b i + sp_read (pi_rd i)) (full g (pi_src i))))
               (pi_rd i);
  po_act : act g (pi_src i) = Some p -> rpos g (pi_src i) = pi_b i + sp_read (pi_rd i);
  po_fin : act g (pi_src i) <> Some p ->
           pi_b i + sp_read (pi_rd i) = pi_e i /\ pi_e i <= rpos g (pi_src i)
}.

Record core (g : ghost) (h : heap) : Prop := mkCore {
  co_lenF : length (h_src h) = length (g_F g);
  co_lenR : length (g_R g) = length (g_F g);
  co_lenA : length (g_act g) = length (g_F g);
  co_lenP : length (h_pool h) = length (g_P g);
  co_src : forall s l, nth_error (h_src h) s = Some l ->
             l = skipn (rpos g s) (full g s) /\ rpos g s <= length (full g s);
  co_max : forall s, (Z.of_nat (length (full g s)) < maxint)%Z;
  co_pool : forall p x i, nth_error (h_pool h) p = Some x -> nth_error (g_P g) p = Some i ->
              pool_ok g p x i;
  co_actok : forall s p, act g s = Some p -> exists i, nth_error (g_P g) p = Some i /\ pi_src i = s
}.

(** Position of a stream: source and offset. *)
Definition gpos (g : ghost) (r : rstream) : option (nat * nat) :=
  match r with
  | RSrc s => if s <? length (g_F g) then
                match act g s with None => Some (s, rpos g s) | Some _ => None end
              else None
  | RCur p c =>
      match nth_error (g_P g) p with
      | Some i => match nth_error (sp_cur (pi_rd i)) c with
                  | Some (Some n) => Some (pi_src i, pi_b i + n)
                  | _ => None
                  end
      | None => None
      end
  end.

(** Up to where a stream may be read. *)
Definition lim (g : ghost) (r : rstream) : nat :=
  match r with
  | RSrc s => length (full g s)
  | RCur p c => match nth_error (g_P g) p with Some i => pi_e i | None => 0 end
  end.

(** What never changes, and what only grows. *)
Record gle (g g' : ghost) : Prop := mkGle {
  gl_len : length (g_F g) <= length (g_F g');
  gl_full : forall s, s < length (g_F g) -> full g' s = full g s;
  gl_R : forall s, s < length (g_F g) -> rpos g s <= rpos g' s;
  gl_P : forall p i, nth_error (g_P g) p = Some i -> exists i', nth_error (g_P g') p = Some i' /\
    pi_src i' = pi_src i /\ pi_b i' = pi_b i /\ pi_e i' = pi_e i /\
    (forall c, nth_error (sp_cur (pi_rd i)) c = Some None -> nth_error (sp_cur (pi_rd i')) c = Some None)
}.

Lemma gle_refl : forall g, gle g g.
Proof. intro g. constructor; auto. intros p i H. exists i. auto. Qed.

Lemma gle_trans : forall g g' g'', gle g g' -> gle g' g'' -> gle g g''.
Proof.
  intros g g' g'' [A B C D] [A' B' C' D']. constructor; try lia.
  - intros s H. rewrite B' by lia. now apply B.
  - intros s H. specialize (C s H). specialize (C' s). lia.
  - intros p i H. destruct (D p i H) as [i' [H' [X [Y [Z W]]]]].
    destruct (D' p i' H') as [i'' [H'' [X' [Y' [Z' W']]]]]. exists i''.
    repeat split; try congruence. auto.
Qed.

(** The stream belongs to the source. *)
Definition on_src (g : ghost) (r : rstream) (s : nat) : Prop :=
  s < length (g_F g) /\
  match r with
  | RSrc s' => s' = s
  | RCur p c => exists i, nth_error (g_P g) p = Some i /\ pi_src i = s
  end.

Lemma on_src_gle : forall g g' r s, gle g g' -> on_src g r s -> on_src g' r s.
Proof.
  intros g g' r s L [A B]. split; [destruct L; lia|]. destruct r as [s'|p c]; [exact B|].
  destruct B as [i [E S]]. destruct (gl_P _ _ L p i E) as [i' [E' [X _]]]. exists i'. split; congruence.
Qed.

Lemma lim_gle : forall g g' r s, gle g g' -> on_src g r s -> lim g' r = lim g r.
Proof.
  intros g g' r s L [A B]. destruct r as [s'|p c]; cbn [lim].
  - subst s'. now rewrite (gl_full _ _ L s A).
  - destruct B as [i [E S]]. destruct (gl_P _ _ L p i E) as [i' [E' [_ [_ [X _]]]]]. now rewrite E, E'.
Qed.

(** A stream at its end. *)
Definition ended (g : ghost) (r : rstream) : Prop :=
  match r with
  | RSrc s => s < length (g_F g) /\ rpos g s = length (full g s)
  | RCur p c => exists i, nth_error (g_P g) p = Some i /\ nth_error (sp_cur (pi_rd i)) c = Some None
  end.

Lemma ended_gle : forall g g' r h, core g' h -> gle g g' -> ended g r -> ended g' r.
Proof.
  intros g g' r h C L E. destruct r as [s|p c]; cbn [ended] in *.
  - destruct E as [A B]. pose proof (gl_R _ _ L s A) as R. pose proof (gl_full _ _ L s A) as F.
    pose proof (gl_len _ _ L). split; [lia|]. rewrite F in *.
    destruct (nth_error (h_src h) s) as [l|] eqn:E; [|apply nth_error_ge in E; rewrite (co_lenF _ _ C) in E; lia].
    destruct (co_src _ _ C s l E) as [_ X]. rewrite F in X. lia.
  - destruct E as [i [A B]]. destruct (gl_P _ _ L p i A) as [i' [A' [_ [_ [_ X]]]]]. exists i'. auto.
Qed.

Lemma nth_upd : forall A (l : list A) n m a d, n < length l ->
  nth m (upd l n a) d = if Nat.eqb n m then a else nth m l d.
Proof.
  intros A l n m a d H. destruct (Nat.eqb_spec n m) as [->|N].
  - apply nth_error_nth. now apply nth_error_upd_same.
  - destruct (nth_error l m) as [x|] eqn:E.
    + rewrite (nth_error_nth _ _ d E). apply nth_error_nth. now rewrite nth_error_upd_other.
    + rewrite !nth_overflow; auto; apply nth_error_ge; auto. now rewrite nth_error_upd_other.
Qed.

Lemma nth_error_nth' : forall A (l : list A) n d x, nth_error l n = Some x -> nth n l d = x.
Proof. intros. now apply nth_error_nth. Qed.

(** The heap outside the sources and the pools. *)
Definition same_objs (h h' : heap) : Prop := h_coll h' = h_coll h /\ h_iter h' = h_iter h.

Lemma act_dec : forall (o : option nat) p, o = Some p \/ o <> Some p.
Proof.
  intros [q|] p; [|right; discriminate].
  destruct (Nat.eq_dec q p) as [->|N]; [now left|right; congruence].
Qed.

(** The general step of a pool. *)
Lemma pool_step : forall g h p i o,
  core g h -> nth_error (g_P g) p = Some i ->
  let full_p := skipn (pi_b i) (full g (pi_src i)) in
  let rd' := fst (spec_step full_p (pi_rd i) o) in
  let x := snd (spec_step full_p (pi_rd i) o) in
  (forall c n, o = ONext c -> nth_error (sp_cur (pi_rd i)) c = Some (Some n) ->
     n < sp_read (pi_rd i) \/ pi_b i + n < pi_e i \/ pi_e i = length (full g (pi_src i))) ->
  exists h',
    pool_op grow p o h = Ok (h', x) /\ same_objs h h' /\
    let g' := mkGh (g_F g)
                   (upd (g_R g) (pi_src i) (rpos g (pi_src i) + (sp_read rd' - sp_read (pi_rd i))))
                   (upd (g_P g) p (mkPi (pi_src i) (pi_b i) (pi_e i) rd')) (g_act g) in
    core g' h'.
Proof.
  intros g h p i o C Ei full_p rd' x OK.
  pose proof (co_lenP _ _ C) as LP.
  destruct (nth_error (h_pool h) p) as [[s pl]|] eqn:Ep;
    [|apply nth_error_ge in Ep; apply nth_error_lt in Ei; lia].
  pose proof (co_pool _ _ C _ _ _ Ep Ei) as PO. destruct PO as [S1 RG SO RD IV AC FI].
  cbn [fst snd] in *. subst s.
  destruct (nth_error (h_src h) (pi_src i)) as [l|] eqn:El;
    [|apply nth_error_ge in El; rewrite (co_lenF _ _ C) in El; lia].
  destruct (co_src _ _ C _ _ El) as [EL RL].
  set (s := pi_src i) in *. set (F := full g s) in *.
  assert (LF : length (skipn (pi_b i) F) = length F - pi_b i) by apply skipn_length.
  assert (MX : (Z.of_nat (length (skipn (pi_b i) F)) < maxint)%Z).
  { pose proof (co_max _ _ C s). fold F in H. lia. }
  destruct (step_ok grow _ _ _ o MX IV) as [p1 [ST I1]].
  fold full_p in ST, I1. fold rd' in I1. fold x in ST.
  (* facts about the readers *)
  assert (MONO : sp_read (pi_rd i) <= sp_read rd').
  { unfold rd', spec_step. destruct o; cbn [fst sp_read]; try lia;
    repeat match goal with |- context [match ?e with _ => _ end] => destruct e end; cbn [fst sp_read]; lia. }
  assert (SRC1 : p_src p1 = skipn (pi_b i + sp_read rd') F).
  { destruct I1 as [w I1]. rewrite (i_src _ _ _ _ I1). unfold full_p. rewrite skipn_skipn. reflexivity. }
  (* either the read is at the frontier of an active pool, or p_src does not matter *)
  assert (CASE : l = skipn (pi_b i + sp_read (pi_rd i)) F \/
                 (inside pl o /\ sp_read rd' = sp_read (pi_rd i))).
  { destruct (act_dec (act g s) p) as [A|A].
    - left. rewrite EL. now rewrite (AC A).
    - destruct (FI A) as [F1 F2].
      destruct o as [|c|c|c]; try (right; split; [exact I|]).
      + reflexivity.
      + unfold rd', spec_step. destruct (nth_error (sp_cur (pi_rd i)) c) as [[n|]|]; reflexivity.
      + unfold rd', spec_step. destruct (nth_error (sp_cur (pi_rd i)) c) as [[n|]|]; reflexivity.
      + destruct (nth_error (sp_cur (pi_rd i)) c) as [[n|]|] eqn:Ec.
        * assert (OK' : n < sp_read (pi_rd i) \/ pi_e i = length F)
            by (destruct (OK c n eq_refl Ec) as [L|[L|L]]; [left; lia|left; lia|right; exact L]).
          destruct OK' as [L|L].
          -- right. split.
             ++ cbn [inside]. destruct IV as [w IV]. 
                pose proof (i_tab _ _ _ _ IV) as LT. cbn [with_src p_tab] in LT.
                destruct (nth_error (p_tab pl) c) as [cu|] eqn:Eu; [|exact I]. intro AT.
                pose proof (i_cur _ _ _ _ IV c cu (Some n) Eu Ec) as CU. cbn [cur_ok] in CU.
                destruct CU as [_ [CP [W _]]].
                pose proof (i_wpos _ _ _ _ IV) as WP. pose proof (i_read _ _ _ _ IV) as RR.
                cbn [with_src p_wpos p_win] in WP, RR. lia.
             ++ unfold rd', spec_step. rewrite Ec.
                destruct (nth_error full_p n); cbn [fst sp_read]; lia.
          -- left. rewrite EL. rewrite !skipn_nil_ge; auto; lia.
        * right. split; [|unfold rd', spec_step; now rewrite Ec].
          cbn [inside]. destruct IV as [w IV].
          destruct (nth_error (p_tab pl) c) as [cu|] eqn:Eu; [|exact I]. intro AT.
          pose proof (i_cur _ _ _ _ IV c cu None Eu Ec) as CU. cbn [cur_ok] in CU.
          destruct CU as [CU _]. congruence.
        * right. split; [|unfold rd', spec_step; now rewrite Ec].
          cbn [inside]. destruct IV as [w IV]. pose proof (i_tab _ _ _ _ IV) as LT. cbn [with_src p_tab] in LT.
          destruct (nth_error (p_tab pl) c) as [cu|] eqn:Eu; [|exact I].
          apply nth_error_ge in Ec. apply nth_error_lt in Eu. lia. }
  (* the new pool *)
  assert (exists p2, step grow (with_src pl l) o = Ok (p2, x) /\
            with_src p2 (skipn (pi_b i + sp_read rd') F) = p1 /\
            p_src p2 = skipn (sp_read rd' - sp_read (pi_rd i)) l) as [p2 [ST2 [P2 SRC2]]].
  { destruct CASE as [->|[IN EQ]].
    - exists p1. split; [exact ST|]. split.
      + rewrite <- SRC1. now destruct p1.
      + rewrite SRC1, skipn_skipn. f_equal. lia.
    - assert (IN' : inside (with_src pl (skipn (pi_b i + sp_read (pi_rd i)) F)) o) by exact IN.
      pose proof (step_src _ o l IN') as Q. rewrite ST in Q. cbn [rmap fst snd] in Q.
      change (with_src (with_src pl (skipn (pi_b i + sp_read (pi_rd i)) F)) l) with (with_src pl l) in Q.
      exists (with_src p1 l). split; [exact Q|]. split.
      + rewrite <- SRC1. now destruct p1.
      + cbn [with_src p_src]. rewrite EQ, Nat.sub_diag. reflexivity. }
  assert (READ : pi_b i + sp_read rd' <= pi_e i).
  { unfold rd', spec_step. destruct o as [|c|c|c]; cbn [fst sp_read]; try lia;
      destruct (nth_error (sp_cur (pi_rd i)) c) as [[n|]|] eqn:Ec; cbn [fst sp_read]; try lia.
    destruct (nth_error full_p n) as [t|] eqn:En; cbn [fst sp_read]; try lia.
    assert (n < length F - pi_b i) by (rewrite <- LF; eapply nth_error_lt; exact En).
    destruct (OK c n eq_refl Ec) as [L|[L|L]]; lia. }
  assert (DELTA : act g s <> Some p -> sp_read rd' = sp_read (pi_rd i)).
  { intro A. destruct (FI A). lia. }
  assert (RNEW : rpos g s + (sp_read rd' - sp_read (pi_rd i)) <= length F).
  { destruct (act_dec (act g s) p) as [A|A].
    - rewrite (AC A). lia.
    - rewrite (DELTA A). lia. }
  assert (LR : s < length (g_R g)) by (rewrite (co_lenR _ _ C); exact SO).
  assert (RP : forall s', rpos (mkGh (g_F g) (upd (g_R g) s (rpos g s + (sp_read rd' - sp_read (pi_rd i))))
                   (upd (g_P g) p (mkPi s (pi_b i) (pi_e i) rd')) (g_act g)) s'
               = if Nat.eqb s s' then rpos g s + (sp_read rd' - sp_read (pi_rd i)) else rpos g s').
  { intro s'. unfold rpos at 1. cbn [g_R]. now rewrite nth_upd. }
  assert (LPl : p < length (h_pool h)) by (eapply nth_error_lt; exact Ep).
  assert (LSl : s < length (h_src h)) by (eapply nth_error_lt; exact El).
  eexists. split; [|split].
  - unfold pool_op. rewrite Ep, El, ST2. reflexivity.
  - split; reflexivity.
  - cbv zeta. unfold set_pool, set_src. constructor; cbn [g_F g_R g_P g_act h_src h_pool].
    + rewrite upd_length. apply (co_lenF _ _ C).
    + rewrite upd_length. apply (co_lenR _ _ C).
    + apply (co_lenA _ _ C).
    + rewrite !upd_length. exact LP.
    + intros s' l' E'. unfold full. cbn [g_F]. fold (full g s'). rewrite RP.
      destruct (Nat.eqb_spec s s') as [<-|N].
      * rewrite nth_error_upd_same in E' by exact LSl. injection E' as <-.
        split; [|exact RNEW]. rewrite SRC2, EL, skipn_skipn. reflexivity.
      * rewrite nth_error_upd_other in E' by exact N. apply (co_src _ _ C _ _ E').
    + intro s'. apply (co_max _ _ C s').
    + intros q x' i' Ex' Ei'. destruct (Nat.eq_dec p q) as [<-|N].
      * rewrite nth_error_upd_same in Ex' by exact LPl. injection Ex' as <-.
        rewrite nth_error_upd_same in Ei' by lia. injection Ei' as <-.
        constructor; cbn [fst snd pi_src pi_b pi_e pi_rd]; auto.
        -- change (full _ s) with F. rewrite P2. exact I1.
        -- intro A. rewrite RP, Nat.eqb_refl. rewrite (AC A). lia.
        -- intro A. rewrite RP, Nat.eqb_refl. destruct (FI A). rewrite (DELTA A). lia.
      * rewrite nth_error_upd_other in Ex', Ei' by exact N.
        pose proof (co_pool _ _ C _ _ _ Ex' Ei') as Q. destruct Q as [Q1 Q2 Q3 Q4 Q5 Q6 Q7].
        constructor; auto.
        -- intro A. rewrite RP. destruct (Nat.eqb_spec s (pi_src i')) as [E|E]; [|apply Q6; exact A].
           change (act g (pi_src i') = Some q) in A. rewrite <- (Q6 A). rewrite <- E in A |- *.
           rewrite DELTA; [lia|]. rewrite A. congruence.
        -- intro A. rewrite RP. change (act g (pi_src i') <> Some q) in A. destruct (Q7 A) as [X Y].
           split; [exact X|]. destruct (Nat.eqb_spec s (pi_src i')) as [E|E]; [|exact Y]. rewrite <- E in Y. lia.
    + intros s' q A. destruct (co_actok _ _ C s' q A) as [i' [E1 E2]].
      destruct (Nat.eq_dec p q) as [<-|N].
      * rewrite nth_error_upd_same by lia. eexists. split; [reflexivity|].
        cbn [pi_src]. rewrite Ei in E1. injection E1 as <-. exact E2.
      * rewrite nth_error_upd_other by exact N. eauto.
Qed.

(** The ghost state after a step of a pool. *)
Definition gstep (g : ghost) (p : nat) (i : pinfo) (rd : readers) : ghost :=
  mkGh (g_F g)
       (upd (g_R g) (pi_src i) (rpos g (pi_src i) + (sp_read rd - sp_read (pi_rd i))))
       (upd (g_P g) p (mkPi (pi_src i) (pi_b i) (pi_e i) rd)) (g_act g).

Lemma gstep_gle : forall g h p i o, core g h -> nth_error (g_P g) p = Some i ->
  gle g (gstep g p i (fst (spec_step (skipn (pi_b i) (full g (pi_src i))) (pi_rd i) o))).
Proof.
  intros g h p i o C E. constructor; cbn [gstep g_F g_P].
  - lia.
  - reflexivity.
  - intros s L.
    destruct (Nat.lt_ge_cases (pi_src i) (length (g_R g))) as [L'|L'].
    + change (rpos g s <= nth s (upd (g_R g) (pi_src i) (rpos g (pi_src i) + (sp_read (fst (spec_step (skipn (pi_b i) (full g (pi_src i))) (pi_rd i) o)) - sp_read (pi_rd i)))) 0).
      rewrite nth_upd by exact L'. destruct (Nat.eqb_spec (pi_src i) s) as [<-|N]; [lia|unfold rpos; lia].
    + assert (U : forall (l : list nat) n a, length l <= n -> upd l n a = l).
      { induction l; destruct n; simpl; intros; auto; try lia. f_equal. apply IHl. lia. }
      unfold rpos at 2, gstep. cbn [g_R]. rewrite U by exact L'. unfold rpos. lia.
  - intros q j Ej. destruct (Nat.eq_dec p q) as [<-|N].
    + rewrite nth_error_upd_same by (eapply nth_error_lt; exact E). rewrite E in Ej. injection Ej as <-.
      eexists. split; [reflexivity|]. cbn [pi_src pi_b pi_e pi_rd]. repeat split.
      intros c Hc. unfold spec_step. destruct o as [|d|d|d]; cbn [fst sp_cur].
      * rewrite nth_error_app_l by (eapply nth_error_lt; exact Hc). exact Hc.
      * destruct (nth_error (sp_cur (pi_rd i)) d) as [[n|]|]; cbn [fst sp_cur]; auto.
        rewrite nth_error_app_l by (eapply nth_error_lt; exact Hc). exact Hc.
      * destruct (nth_error (sp_cur (pi_rd i)) d) as [n|] eqn:Ed; cbn [fst sp_cur]; auto.
        destruct (Nat.eq_dec d c) as [->|M].
        -- rewrite nth_error_upd_same; auto. eapply nth_error_lt; exact Hc.
        -- now rewrite nth_error_upd_other.
      * destruct (nth_error (sp_cur (pi_rd i)) d) as [[n|]|] eqn:Ed; cbn [fst sp_cur]; auto.
        assert (M : d <> c) by congruence.
        destruct (nth_error _ n); cbn [fst sp_cur]; now rewrite nth_error_upd_other.
    + rewrite nth_error_upd_other by exact N. exists j. auto.
Qed.

Lemma gstep_rpos : forall g h p i rd s, core g h -> nth_error (g_P g) p = Some i -> pi_src i < length (g_F g) ->
  rpos (gstep g p i rd) s = if Nat.eqb (pi_src i) s
    then rpos g (pi_src i) + (sp_read rd - sp_read (pi_rd i)) else rpos g s.
Proof.
  intros. unfold gstep. unfold rpos at 1. cbn [g_R]. rewrite nth_upd; [reflexivity|].
  now rewrite (co_lenR _ _ H).
Qed.

Lemma pinfo_ok : forall g h p i, core g h -> nth_error (g_P g) p = Some i ->
  exists x, nth_error (h_pool h) p = Some x /\ pool_ok g p x i.
Proof.
  intros g h p i C E. pose proof (co_lenP _ _ C).
  destruct (nth_error (h_pool h) p) as [x|] eqn:Ex;
    [|apply nth_error_ge in Ex; apply nth_error_lt in E; lia].
  exists x. split; [reflexivity|]. eapply co_pool; eauto.
Qed.

Lemma cursor_le : forall g h p i c n, core g h -> nth_error (g_P g) p = Some i ->
  nth_error (sp_cur (pi_rd i)) c = Some (Some n) -> n <= sp_read (pi_rd i).
Proof.
  intros g h p i c n C E Ec. destruct (pinfo_ok _ _ _ _ C E) as [x [_ PO]].
  destruct (po_inv _ _ _ _ PO) as [w IV].
  pose proof (i_tab _ _ _ _ IV) as LT.
  destruct (nth_error (p_tab (with_src (snd x) (skipn (pi_b i + sp_read (pi_rd i)) (full g (pi_src i))))) c) as [cu|] eqn:Eu;
    [|apply nth_error_ge in Eu; apply nth_error_lt in Ec; lia].
  pose proof (i_cur _ _ _ _ IV c cu (Some n) Eu Ec) as CU. cbn [cur_ok] in CU. lia.
Qed.

(** Which positions a pool step leaves alone. *)
Lemma gstep_gpos : forall g h h' p i rd r, core g h -> nth_error (g_P g) p = Some i ->
  core (gstep g p i rd) h' ->
  sp_read (pi_rd i) <= sp_read rd ->
  (forall c, r = RCur p c -> nth_error (sp_cur rd) c = nth_error (sp_cur (pi_rd i)) c) ->
  gpos (gstep g p i rd) r = gpos g r.
Proof.
  intros g h h' p i rd r C E C' M K.
  destruct (pinfo_ok _ _ _ _ C E) as [x [_ PO]].
  destruct r as [s|q c]; cbn [gpos].
  - cbn [gstep g_F]. destruct (s <? length (g_F g)) eqn:L; [|reflexivity].
    change (act (gstep g p i rd) s) with (act g s).
    destruct (act g s) eqn:A; [reflexivity|].
    rewrite (gstep_rpos g h) by (auto; apply (po_srcok _ _ _ _ PO)).
    destruct (Nat.eqb_spec (pi_src i) s) as [<-|N]; [|reflexivity].
    assert (A' : act g (pi_src i) <> Some p) by congruence.
    pose proof (po_fin _ _ _ _ PO A').
    assert (E' : nth_error (g_P (gstep g p i rd)) p = Some (mkPi (pi_src i) (pi_b i) (pi_e i) rd))
      by (cbn [gstep g_P]; apply nth_error_upd_same; eapply nth_error_lt; exact E).
    destruct (pinfo_ok _ _ _ _ C' E') as [x' [_ PO']].
    pose proof (po_read _ _ _ _ PO') as R. cbn [pi_b pi_rd pi_e] in R.
    do 2 f_equal. lia.
  - cbn [gstep g_P]. destruct (Nat.eq_dec p q) as [<-|N].
    + rewrite nth_error_upd_same by (eapply nth_error_lt; exact E). rewrite E. cbn [pi_rd pi_src pi_b].
      now rewrite (K c eq_refl).
    + now rewrite nth_error_upd_other by exact N.
Qed.

Lemma spec_read_mono : forall F rd o, sp_read rd <= sp_read (fst (spec_step F rd o)).
Proof.
  intros F rd o. unfold spec_step. destruct o; cbn [fst sp_read]; try lia;
  repeat match goal with |- context [match ?e with _ => _ end] => destruct e end; cbn [fst sp_read]; lia.
Qed.

(** Reading a token. *)
Lemma snext_ok : forall g h r s k t,
  core g h -> gpos g r = Some (s, k) -> nth_error (full g s) k = Some t -> k < lim g r ->
  exists h' g', snext grow r h = Ok (h', Some t) /\ same_objs h h' /\ core g' h' /\ gle g g' /\
    g_act g' = g_act g /\ gpos g' r = Some (s, S k) /\
    (forall r', r' <> r -> gpos g r' <> None -> gpos g' r' = gpos g r').
Proof.
  intros g h r s k t C G T L. destruct r as [s'|p c]; cbn [gpos] in G.
  - destruct (Nat.ltb_spec s' (length (g_F g))) as [LF|LF]; [|discriminate].
    destruct (act g s') eqn:A; [discriminate|]. injection G as -> <-.
    destruct (nth_error (h_src h) s) as [l|] eqn:El;
      [|apply nth_error_ge in El; rewrite (co_lenF _ _ C) in El; lia].
    destruct (co_src _ _ C _ _ El) as [EL RL].
    rewrite (skipn_cons_nth _ _ _ _ T) in EL. subst l.
    assert (RP : forall s', rpos (mkGh (g_F g) (upd (g_R g) s (S (rpos g s))) (g_P g) (g_act g)) s'
                 = if Nat.eqb s s' then S (rpos g s) else rpos g s').
    { intro s'. unfold rpos at 1. cbn [g_R]. rewrite nth_upd; [reflexivity|]. now rewrite (co_lenR _ _ C). }
    exists (set_src h s (skipn (S (rpos g s)) (full g s))).
    exists (mkGh (g_F g) (upd (g_R g) s (S (rpos g s))) (g_P g) (g_act g)).
    split; [unfold snext; now rewrite El|]. split; [split; reflexivity|]. split; [|split; [|split; [reflexivity|split]]].
    + constructor; cbn [set_src h_src h_pool g_F g_R g_P g_act].
      * rewrite upd_length. apply (co_lenF _ _ C).
      * rewrite upd_length. apply (co_lenR _ _ C).
      * apply (co_lenA _ _ C).
      * apply (co_lenP _ _ C).
      * intros s' l' E'. rewrite RP. unfold full. cbn [g_F]. fold (full g s').
        destruct (Nat.eqb_spec s s') as [<-|N].
        -- rewrite nth_error_upd_same in E' by (eapply nth_error_lt; exact El). injection E' as <-.
           split; [reflexivity|]. apply nth_error_lt in T. lia.
        -- rewrite nth_error_upd_other in E' by exact N. apply (co_src _ _ C _ _ E').
      * apply (co_max _ _ C).
      * intros p x i E1 E2. destruct (co_pool _ _ C _ _ _ E1 E2) as [Q1 Q2 Q3 Q4 Q5 Q6 Q7].
        constructor; auto.
        -- intro AA. change (act g (pi_src i) = Some p) in AA. rewrite RP.
           destruct (Nat.eqb_spec s (pi_src i)) as [E|E]; [congruence|auto].
        -- intro AA. change (act g (pi_src i) <> Some p) in AA. rewrite RP. destruct (Q7 AA) as [X Y].
           split; [exact X|]. destruct (Nat.eqb_spec s (pi_src i)) as [E|E]; [subst s; lia|exact Y].
      * apply (co_actok _ _ C).
    + constructor; cbn [g_F g_P]; auto.
      * intros s' _. rewrite RP. destruct (Nat.eqb_spec s s') as [<-|N]; lia.
      * intros p i E. exists i. auto.
    + cbn [gpos g_F]. replace (s <? length (g_F g)) with true by (symmetry; now apply Nat.ltb_lt).
      change (act _ s) with (act g s). rewrite A, RP, Nat.eqb_refl. reflexivity.
    + intros [s'|p c] N _; cbn [gpos g_F g_P]; [|reflexivity].
      change (act _ s') with (act g s'). rewrite RP.
      destruct (Nat.eqb_spec s s') as [<-|_]; [congruence|reflexivity].
  - destruct (nth_error (g_P g) p) as [i|] eqn:Ei; [|discriminate].
    destruct (nth_error (sp_cur (pi_rd i)) c) as [[n|]|] eqn:Ec; try discriminate.
    injection G as <- <-. cbn [lim] in L. rewrite Ei in L.
    destruct (pool_step g h p i (ONext c) C Ei) as [h' [ST [SO C']]].
    { intros c' n' Q Ec'. injection Q as <-. rewrite Ec in Ec'. injection Ec' as <-. right; left. exact L. }
    assert (SP : spec_step (skipn (pi_b i) (full g (pi_src i))) (pi_rd i) (ONext c)
                 = (mkReaders (Nat.max (sp_read (pi_rd i)) (S n)) (upd (sp_cur (pi_rd i)) c (Some (S n))),
                    ObsToken (Some t))).
    { unfold spec_step. rewrite Ec, nth_error_skipn, T. reflexivity. }
    pose proof (gstep_gle g h p i (ONext c) C Ei) as GL.
    rewrite SP in *. cbn [fst snd] in *. fold (gstep g p i (mkReaders (Nat.max (sp_read (pi_rd i)) (S n))
                       (upd (sp_cur (pi_rd i)) c (Some (S n))))) in C'.
    exists h'. eexists. split; [|split; [exact SO|split; [exact C'|split; [exact GL|split; [reflexivity|split]]]]].
    + unfold snext, hbind. rewrite ST. reflexivity.
    + cbn [gpos gstep g_P]. rewrite nth_error_upd_same by (eapply nth_error_lt; exact Ei).
      cbn [pi_rd sp_cur pi_src pi_b]. rewrite nth_error_upd_same by (eapply nth_error_lt; exact Ec).
      do 2 f_equal. lia.
    + intros r' N G'. eapply gstep_gpos; eauto.
      * cbn [sp_read]. lia.
      * intros c' ->. cbn [sp_cur]. apply nth_error_upd_other. congruence.
Qed.

(** Reading at the end. *)
Lemma snext_end : forall g h r s,
  core g h -> gpos g r = Some (s, length (full g s)) -> lim g r = length (full g s) ->
  exists h' g', snext grow r h = Ok (h', None) /\ same_objs h h' /\ core g' h' /\ gle g g' /\
    g_act g' = g_act g /\ ended g' r /\
    (forall r', r' <> r -> gpos g r' <> None -> gpos g' r' = gpos g r').
Proof.
  intros g h r s C G L. destruct r as [s'|p c]; cbn [gpos] in G.
  - destruct (Nat.ltb_spec s' (length (g_F g))) as [LF|LF]; [|discriminate].
    destruct (act g s') eqn:A; [discriminate|]. injection G as -> EK.
    destruct (nth_error (h_src h) s) as [l|] eqn:El;
      [|apply nth_error_ge in El; rewrite (co_lenF _ _ C) in El; lia].
    destruct (co_src _ _ C _ _ El) as [EL RL]. rewrite EK, skipn_all in EL. subst l.
    exists h, g. split; [unfold snext; now rewrite El|]. split; [split; reflexivity|].
    split; [exact C|]. split; [apply gle_refl|]. split; [reflexivity|]. split; [|auto].
    cbn [ended]. auto.
  - destruct (nth_error (g_P g) p) as [i|] eqn:Ei; [|discriminate].
    destruct (nth_error (sp_cur (pi_rd i)) c) as [[n|]|] eqn:Ec; try discriminate.
    injection G as <- EN. cbn [lim] in L. rewrite Ei in L.
    destruct (pool_step g h p i (ONext c) C Ei) as [h' [ST [SO C']]].
    { intros c' n' Q Ec'. right; right. exact L. }
    assert (SP : spec_step (skipn (pi_b i) (full g (pi_src i))) (pi_rd i) (ONext c)
                 = (mkReaders (sp_read (pi_rd i)) (upd (sp_cur (pi_rd i)) c None), ObsToken None)).
    { unfold spec_step. rewrite Ec, nth_error_skipn, EN.
      destruct (nth_error (full g (pi_src i)) (length (full g (pi_src i)))) eqn:X; [|reflexivity].
      apply nth_error_lt in X. lia. }
    pose proof (gstep_gle g h p i (ONext c) C Ei) as GL.
    rewrite SP in *. cbn [fst snd] in *. fold (gstep g p i (mkReaders (sp_read (pi_rd i))
                       (upd (sp_cur (pi_rd i)) c None))) in C'.
    exists h'. eexists. split; [|split; [exact SO|split; [exact C'|split; [exact GL|split; [reflexivity|split]]]]].
    + unfold snext, hbind. rewrite ST. reflexivity.
    + cbn [ended gstep g_P]. rewrite nth_error_upd_same by (eapply nth_error_lt; exact Ei).
      eexists. split; [reflexivity|]. cbn [pi_rd sp_cur].
      apply nth_error_upd_same. eapply nth_error_lt; exact Ec.
    + intros r' N G'. eapply gstep_gpos; eauto.
      intros c' ->. cbn [sp_cur]. apply nth_error_upd_other. congruence.
Qed.

(** Reading again after the end. *)
Lemma snext_ended : forall g h r,
  core g h -> ended g r ->
  exists h' g', snext grow r h = Ok (h', None) /\ same_objs h h' /\ core g' h' /\ gle g g' /\
    g_act g' = g_act g /\ (forall r', gpos g r' <> None -> gpos g' r' = gpos g r').
Proof.
  intros g h r C E. destruct r as [s|p c]; cbn [ended] in E.
  - destruct E as [LF EK].
    destruct (nth_error (h_src h) s) as [l|] eqn:El;
      [|apply nth_error_ge in El; rewrite (co_lenF _ _ C) in El; lia].
    destruct (co_src _ _ C _ _ El) as [EL RL]. rewrite EK, skipn_all in EL. subst l.
    exists h, g. split; [unfold snext; now rewrite El|]. split; [split; reflexivity|].
    split; [exact C|]. split; [apply gle_refl|]. split; [reflexivity|auto].
  - destruct E as [i [Ei Ec]].
    destruct (pool_step g h p i (ONext c) C Ei) as [h' [ST [SO C']]].
    { intros c' n' Q Ec'. injection Q as <-. congruence. }
    assert (SP : spec_step (skipn (pi_b i) (full g (pi_src i))) (pi_rd i) (ONext c)
                 = (pi_rd i, ObsToken None)).
    { unfold spec_step. now rewrite Ec. }
    pose proof (gstep_gle g h p i (ONext c) C Ei) as GL.
    rewrite SP in *. cbn [fst snd] in *. fold (gstep g p i (pi_rd i)) in C'.
    exists h'. eexists. split; [|split; [exact SO|split; [exact C'|split; [exact GL|split; [reflexivity|]]]]].
    + unfold snext, hbind. rewrite ST. reflexivity.
    + intros r' G'. eapply gstep_gpos; eauto.
Qed.

(** Detaching a cursor. *)
Lemma detach_ok : forall g h p c x,
  core g h -> gpos g (RCur p c) = Some x ->
  exists h' g', detach_stream grow (RCur p c) h = Ok (h', tt) /\ same_objs h h' /\ core g' h' /\ gle g g' /\
    g_act g' = g_act g /\
    (forall r', r' <> RCur p c -> gpos g r' <> None -> gpos g' r' = gpos g r').
Proof.
  intros g h p c x C G. cbn [gpos] in G.
  destruct (nth_error (g_P g) p) as [i|] eqn:Ei; [|discriminate].
  destruct (nth_error (sp_cur (pi_rd i)) c) as [[n|]|] eqn:Ec; try discriminate.
  destruct (pool_step g h p i (ODetach c) C Ei) as [h' [ST [SO C']]]; [discriminate|].
  assert (SP : spec_step (skipn (pi_b i) (full g (pi_src i))) (pi_rd i) (ODetach c)
               = (mkReaders (sp_read (pi_rd i)) (upd (sp_cur (pi_rd i)) c None), ObsUnit)).
  { unfold spec_step. now rewrite Ec. }
  pose proof (gstep_gle g h p i (ODetach c) C Ei) as GL.
  rewrite SP in *. cbn [fst snd] in *. fold (gstep g p i (mkReaders (sp_read (pi_rd i))
                     (upd (sp_cur (pi_rd i)) c None))) in C'.
  exists h'. eexists. split; [|split; [exact SO|split; [exact C'|split; [exact GL|split; [reflexivity|]]]]].
  - unfold detach_stream, hbind. rewrite ST. reflexivity.
  - intros r' N G'. eapply gstep_gpos; eauto.
    intros c' ->. cbn [sp_cur]. apply nth_error_upd_other. congruence.
Qed.

(** Detaching a cursor that is detached already. *)
Lemma detach_ended : forall g h p c,
  core g h -> ended g (RCur p c) ->
  exists h' g', detach_stream grow (RCur p c) h = Ok (h', tt) /\ same_objs h h' /\ core g' h' /\ gle g g' /\
    g_act g' = g_act g /\ (forall r', gpos g r' <> None -> gpos g' r' = gpos g r').
Proof.
  intros g h p c C E. destruct E as [i [Ei Ec]].
  destruct (pool_step g h p i (ODetach c) C Ei) as [h' [ST [SO C']]]; [discriminate|].
  assert (SP : spec_step (skipn (pi_b i) (full g (pi_src i))) (pi_rd i) (ODetach c)
               = (mkReaders (sp_read (pi_rd i)) (upd (sp_cur (pi_rd i)) c None), ObsUnit)).
  { unfold spec_step. now rewrite Ec. }
  pose proof (gstep_gle g h p i (ODetach c) C Ei) as GL.
  rewrite SP in *. cbn [fst snd] in *. fold (gstep g p i (mkReaders (sp_read (pi_rd i))
                     (upd (sp_cur (pi_rd i)) c None))) in C'.
  exists h'. eexists. split; [|split; [exact SO|split; [exact C'|split; [exact GL|split; [reflexivity|]]]]].
  - unfold detach_stream, hbind. rewrite ST. reflexivity.
  - intros r' G'. eapply gstep_gpos; eauto.
    intros c' ->. cbn [sp_cur]. apply nth_error_upd_other. intros ->.
    apply G'. cbn [gpos]. now rewrite Ei, Ec.
Qed.

(** Cloning a cursor. *)
Lemma clone_cursor_ok : forall g h p c s k,
  core g h -> gpos g (RCur p c) = Some (s, k) ->
  exists h' g' c', clone_stream grow (RCur p c) h = Ok (h', (RCur p c, RCur p c')) /\
    same_objs h h' /\ core g' h' /\ gle g g' /\ g_act g' = g_act g /\
    gpos g (RCur p c') = None /\ gpos g' (RCur p c') = Some (s, k) /\
    (forall r', gpos g r' <> None -> gpos g' r' = gpos g r').
Proof.
  intros g h p c s k C G. cbn [gpos] in G.
  destruct (nth_error (g_P g) p) as [i|] eqn:Ei; [|discriminate].
  destruct (nth_error (sp_cur (pi_rd i)) c) as [[n|]|] eqn:Ec; try discriminate. injection G as <- <-.
  destruct (pool_step g h p i (OClone c) C Ei) as [h' [ST [SO C']]]; [discriminate|].
  assert (SP : spec_step (skipn (pi_b i) (full g (pi_src i))) (pi_rd i) (OClone c)
               = (mkReaders (sp_read (pi_rd i)) (sp_cur (pi_rd i) ++ [Some n]),
                  ObsCursor (length (sp_cur (pi_rd i))))).
  { unfold spec_step. now rewrite Ec. }
  pose proof (gstep_gle g h p i (OClone c) C Ei) as GL.
  rewrite SP in *. cbn [fst snd] in *. fold (gstep g p i (mkReaders (sp_read (pi_rd i))
                     (sp_cur (pi_rd i) ++ [Some n]))) in C'.
  exists h'. eexists. exists (length (sp_cur (pi_rd i))).
  split; [|split; [exact SO|split; [exact C'|split; [exact GL|split; [reflexivity|split; [|split]]]]]].
  - unfold clone_stream, hbind. rewrite ST. reflexivity.
  - cbn [gpos]. rewrite Ei.
    destruct (nth_error (sp_cur (pi_rd i)) (length (sp_cur (pi_rd i)))) eqn:X; [|reflexivity].
    apply nth_error_lt in X. lia.
  - cbn [gpos gstep g_P]. rewrite nth_error_upd_same by (eapply nth_error_lt; exact Ei).
    cbn [pi_rd sp_cur pi_src pi_b]. now rewrite nth_error_app_last.
  - intros r' G'. eapply gstep_gpos; eauto.
    intros c' ->. cbn [sp_cur]. apply nth_error_app_l.
    cbn [gpos] in G'. rewrite Ei in G'.
    destruct (nth_error (sp_cur (pi_rd i)) c') eqn:X; [|now destruct G']. eapply nth_error_lt; exact X.
Qed.

(** A new pool on a source that nothing else reads, for the positions up to [e]. *)
Definition gopen (g : ghost) (s e : nat) : ghost :=
  mkGh (g_F g) (g_R g) (g_P g ++ [mkPi s (rpos g s) e (mkReaders 0 [])])
       (upd (g_act g) s (Some (length (g_P g)))).

Lemma act_open : forall g h s e s', core g h -> s < length (g_F g) ->
  act (gopen g s e) s' = if Nat.eqb s s' then Some (length (g_P g)) else act g s'.
Proof.
  intros g h s e s' C L. unfold act at 1, gopen. cbn [g_act]. rewrite nth_upd; [reflexivity|].
  now rewrite (co_lenA _ _ C).
Qed.

Lemma nth_error_snoc : forall A (l : list A) a n x, nth_error (l ++ [a]) n = Some x ->
  nth_error l n = Some x \/ (n = length l /\ x = a).
Proof.
  intros A l a n x H. destruct (Nat.lt_ge_cases n (length l)) as [L|L].
  - left. now rewrite nth_error_app1 in H.
  - rewrite nth_error_app2 in H by exact L. right.
    destruct (n - length l) as [|[|m]] eqn:E; try discriminate. injection H as <-. split; [lia|auto].
Qed.

Lemma open_ok : forall g h s e,
  core g h -> s < length (g_F g) -> act g s = None -> rpos g s <= e <= length (full g s) ->
  core (gopen g s e) (mkHeap (h_src h) (h_pool h ++ [(s, new_pool [])]) (h_coll h) (h_iter h)).
Proof.
  intros g h s e C L A R.
  assert (AA := fun s' => act_open g h s e s' C L).
  constructor; cbn [h_src h_pool].
  - apply (co_lenF _ _ C).
  - apply (co_lenR _ _ C).
  - cbn [gopen g_act]. rewrite upd_length. apply (co_lenA _ _ C).
  - cbn [gopen g_P]. rewrite !app_length, (co_lenP _ _ C). reflexivity.
  - apply (co_src _ _ C).
  - apply (co_max _ _ C).
  - intros p x i E1 E2. cbn [gopen g_P] in E2.
    apply nth_error_snoc in E1. apply nth_error_snoc in E2. rewrite (co_lenP _ _ C) in E1.
    destruct E1 as [E1|[-> ->]].
    + destruct E2 as [E2|[-> _]]; [|apply nth_error_lt in E1; rewrite (co_lenP _ _ C) in E1; lia].
      destruct (co_pool _ _ C _ _ _ E1 E2) as [Q1 Q2 Q3 Q4 Q5 Q6 Q7].
      constructor; auto; rewrite AA; destruct (Nat.eqb_spec s (pi_src i)) as [->|N]; auto.
      * intro X. injection X as X. apply nth_error_lt in E2. lia.
      * intros _. apply Q7. congruence.
    + destruct E2 as [E2|[_ ->]]; [apply nth_error_lt in E2; lia|].
      constructor; cbn [pi_src pi_b pi_e pi_rd sp_read fst snd]; auto; try lia.
      * rewrite Nat.add_0_r. apply inv_new.
      * intros X. exfalso. apply X. rewrite AA, Nat.eqb_refl. reflexivity.
  - intros s' p E. rewrite AA in E. destruct (Nat.eqb_spec s s') as [->|N].
    + injection E as <-. eexists. cbn [gopen g_P]. split; [apply nth_error_app_last|reflexivity].
    + destruct (co_actok _ _ C _ _ E) as [i [Ei Es]]. exists i. split; [|exact Es].
      cbn [gopen g_P]. rewrite nth_error_app_l; [exact Ei|]. eapply nth_error_lt; exact Ei.
Qed.

Lemma gopen_gle : forall g s e, gle g (gopen g s e).
Proof.
  intros g s e. constructor; cbn [gopen g_F g_P]; auto.
  intros p i E. exists i. split; [|auto]. rewrite nth_error_app_l; [exact E|]. eapply nth_error_lt; exact E.
Qed.

Lemma gopen_gpos : forall g h s e r, core g h -> s < length (g_F g) -> r <> RSrc s -> gpos g r <> None ->
  gpos (gopen g s e) r = gpos g r.
Proof.
  intros g h s e [s'|p c] C L N G; cbn [gpos] in *.
  - rewrite (act_open g h) by auto. destruct (Nat.eqb_spec s s') as [->|M]; [congruence|]. reflexivity.
  - cbn [gopen g_P]. destruct (nth_error (g_P g) p) as [i|] eqn:E; [|now destruct G].
    rewrite nth_error_app_l by (eapply nth_error_lt; exact E). now rewrite E.
Qed.

(** Cloning a stream that reads the source itself. *)
Lemma clone_source_ok : forall g h s k e,
  core g h -> gpos g (RSrc s) = Some (s, k) -> k <= e <= length (full g s) ->
  exists h' g' p, clone_stream grow (RSrc s) h = Ok (h', (RCur p 0, RCur p 1)) /\
    same_objs h h' /\ core g' h' /\ gle g g' /\
    (forall s', act g' s' = if Nat.eqb s s' then Some p else act g s') /\
    p = length (g_P g) /\
    (exists i, nth_error (g_P g') p = Some i /\ pi_src i = s /\ pi_e i = e) /\
    gpos g' (RCur p 0) = Some (s, k) /\ gpos g' (RCur p 1) = Some (s, k) /\
    (forall r', r' <> RSrc s -> gpos g r' <> None -> gpos g' r' = gpos g r').
Proof.
  intros g h s k e C G R. pose proof G as G0. cbn [gpos] in G.
  destruct (Nat.ltb_spec s (length (g_F g))) as [L|L]; [|discriminate].
  destruct (act g s) eqn:A; [discriminate|]. injection G as <-.
  pose proof (open_ok g h s e C L A R) as C1.
  set (g1 := gopen g s e) in *. set (p := length (g_P g)).
  set (h1 := mkHeap (h_src h) (h_pool h ++ [(s, new_pool [])]) (h_coll h) (h_iter h)) in *.
  set (i1 := mkPi s (rpos g s) e (mkReaders 0 [])).
  assert (E1 : nth_error (g_P g1) p = Some i1) by (subst g1 p; cbn [gopen g_P]; apply nth_error_app_last).
  destruct (pool_step g1 h1 p i1 ONew C1 E1) as [h2 [S2 [O2 C2]]]; [discriminate|].
  pose proof (gstep_gle g1 h1 p i1 ONew C1 E1) as L2.
  cbn [spec_step fst snd] in S2, C2, L2. cbn [i1 pi_rd sp_read sp_cur length app] in S2, C2, L2.
  fold (gstep g1 p i1 (mkReaders 0 [Some 0])) in C2.
  set (g2 := gstep g1 p i1 (mkReaders 0 [Some 0])) in *.
  set (i2 := mkPi s (rpos g s) e (mkReaders 0 [Some 0])).
  assert (E2 : nth_error (g_P g2) p = Some i2).
  { subst g2. cbn [gstep g_P]. rewrite nth_error_upd_same by (eapply nth_error_lt; exact E1). reflexivity. }
  destruct (pool_step g2 h2 p i2 (OClone 0) C2 E2) as [h3 [S3 [O3 C3]]]; [discriminate|].
  pose proof (gstep_gle g2 h2 p i2 (OClone 0) C2 E2) as L3.
  cbn [spec_step fst snd] in S3, C3, L3. cbn [i2 pi_rd sp_read sp_cur length app nth_error fst snd] in S3, C3, L3.
  fold (gstep g2 p i2 (mkReaders 0 [Some 0; Some 0])) in C3.
  set (g3 := gstep g2 p i2 (mkReaders 0 [Some 0; Some 0])) in *.
  assert (E3 : nth_error (g_P g3) p = Some (mkPi s (rpos g s) e (mkReaders 0 [Some 0; Some 0]))).
  { subst g3. cbn [gstep g_P]. rewrite nth_error_upd_same by (eapply nth_error_lt; exact E2). reflexivity. }
  exists h3, g3, p.
  split; [|split; [|split; [exact C3|split; [|split; [|split; [reflexivity|split; [|split; [|split]]]]]]]].
  - unfold clone_stream, hbind. cbn beta iota zeta. fold h1. rewrite (co_lenP _ _ C). fold p.
    rewrite S2. rewrite S3. reflexivity.
  - destruct O2 as [O2 O2'], O3 as [O3 O3']. unfold h1 in O2, O2'. cbn [h_coll h_iter] in *. split; congruence.
  - eapply gle_trans; [apply gopen_gle|]. eapply gle_trans; [exact L2|exact L3].
  - intro s'. change (act g3 s') with (act g1 s'). apply (act_open g h); auto.
  - eexists. split; [exact E3|]. auto.
  - cbn [gpos]. rewrite E3. cbn [pi_rd sp_cur nth_error pi_b pi_src]. now rewrite Nat.add_0_r.
  - cbn [gpos]. rewrite E3. cbn [pi_rd sp_cur nth_error pi_b pi_src]. now rewrite Nat.add_0_r.
  - intros r' N G'. assert (NP : forall c, r' <> RCur p c).
    { intros c ->. cbn [gpos] in G'. unfold p in G'.
      destruct (nth_error (g_P g) (length (g_P g))) eqn:X; [apply nth_error_lt in X; lia|now destruct G']. }
    assert (Q1 : gpos g1 r' = gpos g r') by (apply (gopen_gpos g h); auto).
    assert (Q2 : gpos g2 r' = gpos g1 r').
    { eapply gstep_gpos; eauto. intros c X. now destruct (NP c). }
    assert (Q3 : gpos g3 r' = gpos g2 r').
    { eapply gstep_gpos; eauto. intros c X. now destruct (NP c). }
    congruence.
Qed.

(** The pool of a source is finished: the source can be read again. *)
Definition gclose (g : ghost) (s : nat) : ghost :=
  mkGh (g_F g) (g_R g) (g_P g) (upd (g_act g) s None).

Lemma act_close : forall g h s s', core g h -> s < length (g_F g) ->
  act (gclose g s) s' = if Nat.eqb s s' then None else act g s'.
Proof.
  intros g h s s' C L. unfold act at 1, gclose. cbn [g_act]. rewrite nth_upd; [reflexivity|].
  now rewrite (co_lenA _ _ C).
Qed.

Lemma close_ok : forall g h s p c i e,
  core g h -> act g s = Some p -> nth_error (g_P g) p = Some i -> pi_e i = e ->
  gpos g (RCur p c) = Some (s, e) ->
  core (gclose g s) h /\ gle g (gclose g s) /\ gpos (gclose g s) (RSrc s) = Some (s, e) /\
  (forall r, r <> RSrc s -> gpos (gclose g s) r = gpos g r) /\
  (forall s', act (gclose g s) s' = if Nat.eqb s s' then None else act g s').
Proof.
  intros g h s p c i e C A Ei <- G.
  destruct (pinfo_ok _ _ _ _ C Ei) as [x [Ex PO]].
  assert (Es : pi_src i = s).
  { destruct (co_actok _ _ C _ _ A) as [i' [Ei' Es]]. congruence. }
  assert (L : s < length (g_F g)) by (rewrite <- Es; apply (po_srcok _ _ _ _ PO)).
  assert (AA := fun s' => act_close g h s s' C L).
  assert (FIN : pi_b i + sp_read (pi_rd i) = pi_e i).
  { cbn [gpos] in G. rewrite Ei in G.
    destruct (nth_error (sp_cur (pi_rd i)) c) as [[n|]|] eqn:Ec; try discriminate.
    injection G as _ Q. pose proof (cursor_le _ _ _ _ _ _ C Ei Ec). pose proof (po_read _ _ _ _ PO). lia. }
  assert (RS : rpos g s = pi_e i).
  { rewrite <- FIN, <- Es. apply (po_act _ _ _ _ PO). congruence. }
  split; [|split; [|split; [|split]]].
  - constructor; cbn [gclose g_F g_R g_P g_act].
    + apply (co_lenF _ _ C).
    + apply (co_lenR _ _ C).
    + rewrite upd_length. apply (co_lenA _ _ C).
    + apply (co_lenP _ _ C).
    + apply (co_src _ _ C).
    + apply (co_max _ _ C).
    + intros q y j E1 E2. destruct (co_pool _ _ C _ _ _ E1 E2) as [Q1 Q2 Q3 Q4 Q5 Q6 Q7].
      constructor; auto; rewrite AA; destruct (Nat.eqb_spec s (pi_src j)) as [E|N]; auto; [discriminate|].
      intros _. destruct (Nat.eq_dec q p) as [->|M].
      * rewrite Ei in E2. injection E2 as <-. split; [exact FIN|].
        change (pi_e i <= rpos g (pi_src i)). rewrite <- E, RS. lia.
      * apply Q7. rewrite <- E, A. congruence.
    + intros s' q E. rewrite AA in E. destruct (Nat.eqb s s'); [discriminate|]. apply (co_actok _ _ C _ _ E).
  - constructor; cbn [gclose g_F g_P]; auto. intros q j E. exists j. auto.
  - cbn [gpos gclose g_F]. replace (s <? length (g_F g)) with true by (symmetry; now apply Nat.ltb_lt).
    fold (gclose g s). rewrite AA, Nat.eqb_refl. change (rpos (gclose g s) s) with (rpos g s). now rewrite RS.
  - intros [s'|q d] N; [|reflexivity]. cbn [gpos].
    rewrite AA. destruct (Nat.eqb_spec s s') as [->|M]; [congruence|reflexivity].
  - exact AA.
Qed.

(** A new source, given as a slice, with its pool and a cursor. *)
Definition gdata (g : ghost) (data : list token) : ghost :=
  mkGh (g_F g ++ [data]) (g_R g ++ [length data])
       (g_P g ++ [mkPi (length (g_F g)) 0 (length data) (mkReaders (length data) [Some 0])])
       (g_act g ++ [None]).

Lemma full_data : forall g data s, full (gdata g data) s =
  if s <? length (g_F g) then full g s else if s =? length (g_F g) then data else [].
Proof.
  intros. unfold full, gdata. cbn [g_F]. destruct (Nat.ltb_spec s (length (g_F g))) as [L|L].
  - now rewrite app_nth1.
  - rewrite app_nth2 by exact L. destruct (Nat.eqb_spec s (length (g_F g))) as [->|N].
    + now rewrite Nat.sub_diag.
    + apply nth_overflow. simpl. lia.
Qed.

Lemma data_ok : forall g h data,
  core g h -> (Z.of_nat (length data) < maxint)%Z ->
  let h' := mkHeap (h_src h ++ [[]])
              (h_pool h ++ [(length (h_src h), new_pool_from_data data (Z.of_nat (length data)))])
              (h_coll h) (h_iter h) in
  let g' := gdata g data in
  let s := length (g_F g) in
  let p := length (g_P g) in
  core g' h' /\ gle g g' /\ full g' s = data /\ (forall c, gpos g (RCur p c) = None) /\
  gpos g' (RCur p 0) = Some (s, 0) /\ lim g' (RCur p 0) = length data /\ on_src g' (RCur p 0) s /\
  (forall r, gpos g r <> None -> gpos g' r = gpos g r) /\
  (forall s', s' < length (g_F g) -> act g' s' = act g s').
Proof.
  intros g h data C M h' g' s p.
  assert (FD := full_data g data). fold g' in FD.
  assert (RD : forall s', rpos g' s' = if s' <? length (g_F g) then rpos g s' else if s' =? length (g_F g) then length data else 0).
  { intro s'. unfold rpos, g', gdata. cbn [g_R]. rewrite <- (co_lenR _ _ C).
    destruct (Nat.ltb_spec s' (length (g_R g))) as [L|L].
    - now rewrite app_nth1.
    - rewrite app_nth2 by exact L. destruct (Nat.eqb_spec s' (length (g_R g))) as [->|N].
      + now rewrite Nat.sub_diag.
      + apply nth_overflow. simpl. lia. }
  assert (AD : forall s', act g' s' = if s' <? length (g_F g) then act g s' else None).
  { intro s'. unfold act, g', gdata. cbn [g_act]. rewrite <- (co_lenA _ _ C).
    destruct (Nat.ltb_spec s' (length (g_act g))) as [L|L].
    - now rewrite app_nth1.
    - rewrite app_nth2 by exact L. destruct (s' - length (g_act g)) as [|[|]]; reflexivity. }
  assert (LT : forall s', s' < length (g_F g) -> (s' <? length (g_F g)) = true) by (intros; now apply Nat.ltb_lt).
  assert (EP : nth_error (g_P g') p = Some (mkPi s 0 (length data) (mkReaders (length data) [Some 0])))
    by (unfold g', p; cbn [gdata g_P]; apply nth_error_app_last).
  assert (FS : full g' s = data).
  { rewrite FD. unfold s. now rewrite Nat.ltb_irrefl, Nat.eqb_refl. }
  split; [|split; [|split; [exact FS|split; [|split; [|split; [|split; [|split]]]]]]].
  - constructor; unfold h'; cbn [h_src h_pool].
    + unfold g'. cbn [gdata g_F]. rewrite !app_length, (co_lenF _ _ C). reflexivity.
    + unfold g'. cbn [gdata g_F g_R]. rewrite !app_length, (co_lenR _ _ C). reflexivity.
    + unfold g'. cbn [gdata g_F g_act]. rewrite !app_length, (co_lenA _ _ C). reflexivity.
    + unfold g'. cbn [gdata g_P]. rewrite !app_length, (co_lenP _ _ C). reflexivity.
    + intros s' l E. apply nth_error_snoc in E. rewrite (co_lenF _ _ C) in E. rewrite FD, RD.
      destruct E as [E|[-> ->]].
      * assert (X : s' < length (g_F g)) by (rewrite <- (co_lenF _ _ C); eapply nth_error_lt; exact E).
        rewrite LT by exact X.
        apply (co_src _ _ C _ _ E).
      * rewrite Nat.ltb_irrefl, Nat.eqb_refl. now rewrite skipn_all.
    + intro s'. rewrite FD. destruct (s' <? _); [apply (co_max _ _ C)|]. destruct (s' =? _); [exact M|].
      simpl. unfold maxint in *. lia.
    + intros q x i E1 E2. unfold g' in E2. cbn [gdata g_P] in E2.
      apply nth_error_snoc in E1. apply nth_error_snoc in E2. rewrite (co_lenP _ _ C), (co_lenF _ _ C) in E1.
      destruct E1 as [E1|[-> ->]].
      * destruct E2 as [E2|[-> _]]; [|apply nth_error_lt in E1; rewrite (co_lenP _ _ C) in E1; lia].
        destruct (co_pool _ _ C _ _ _ E1 E2) as [Q1 Q2 Q3 Q4 Q5 Q6 Q7].
        constructor; rewrite ?FD, ?RD, ?AD, ?LT by exact Q3; auto.
        unfold g'. cbn [gdata g_F]. rewrite app_length. lia.
      * destruct E2 as [E2|[_ ->]]; [apply nth_error_lt in E2; lia|].
        constructor; cbn [pi_src pi_b pi_e pi_rd sp_read fst snd]; rewrite ?FD, ?RD, ?AD, ?Nat.ltb_irrefl, ?Nat.eqb_refl; auto; try lia.
        -- unfold g'. cbn [gdata g_F]. rewrite app_length. simpl. lia.
        -- cbn [skipn Nat.add]. rewrite skipn_all.
           change (with_src (new_pool_from_data data (Z.of_nat (length data))) [])
             with (new_pool_from_data data (Z.of_nat (length data))). apply inv_from_data.
    + intros s' q E. rewrite AD in E. destruct (s' <? _); [|discriminate].
      destruct (co_actok _ _ C _ _ E) as [i [Ei Es]]. exists i. split; [|exact Es].
      unfold g'. cbn [gdata g_P]. rewrite nth_error_app_l; [exact Ei|]. eapply nth_error_lt; exact Ei.
  - constructor.
    + unfold g'. cbn [gdata g_F]. rewrite app_length. lia.
    + intros s' L. now rewrite FD, LT.
    + intros s' L. now rewrite RD, LT.
    + intros q i E. exists i. split; [|auto]. unfold g'. cbn [gdata g_P].
      rewrite nth_error_app_l; [exact E|]. eapply nth_error_lt; exact E.
  - intro c. cbn [gpos]. destruct (nth_error (g_P g) p) eqn:X; [apply nth_error_lt in X; unfold p in X; lia|reflexivity].
  - cbn [gpos]. rewrite EP. reflexivity.
  - cbn [lim]. rewrite EP. reflexivity.
  - split.
    + unfold s, g'. cbn [gdata g_F]. rewrite app_length. simpl. lia.
    + eexists. split; [exact EP|reflexivity].
  - intros [s'|q c] G; cbn [gpos] in *.
    + destruct (s' <? length (g_F g)) eqn:L; [|now destruct G].
      rewrite AD, RD, L. unfold g'. cbn [gdata g_F]. rewrite app_length.
      replace (s' <? _) with true; [reflexivity|]. symmetry. apply Nat.ltb_lt. apply Nat.ltb_lt in L. lia.
    + destruct (nth_error (g_P g) q) as [i|] eqn:E; [|now destruct G].
      unfold g'. cbn [gdata g_P]. rewrite nth_error_app_l by (eapply nth_error_lt; exact E). now rewrite E.
  - intros s' L. now rewrite AD, LT.
Qed.
End Grow.

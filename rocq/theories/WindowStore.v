(** The table of handles of IterSpec.v: what the handles stand for, and which
    handles a call changes. *)
From Coq Require Import List ZArith Arith Bool Lia.
From Verif Require Import Base Tokens JsonSpec EncSpec CursorModel CursorProofs IterModel IterSpec IterCore IterThr.

(** The index of a value that is a collection is at least [n]. *)
Definition above (n : nat) (v : value) : Prop := match v with VScalar _ => True | VArr c | VObj c => n <= c end.
Lemma above_le : forall m n v, m <= n -> above n v -> above m v.
Proof. intros m n [s|c|c] L A; cbn in *; auto; lia. Qed.

(** The handle of the value [v] stands for [x]. *)
Definition linked (t : list shandle) (v : value) (x : jval) : Prop :=
  match v with VScalar _ => True | VArr c | VObj c => exists hd, nth_error t c = Some hd /\ s_val hd = x end.
Definition wfh (t : list shandle) (j : nat) (hd : shandle) : Prop :=
  match s_state hd with
  | SAt k ch rest => above (S j) ch /\ exists pre x, items (s_val hd) = pre ++ (k, x) :: rest /\ linked t ch x
  | _ => True
  end.

(** Handles keep their values and their states, or are finished. *)
Record weak (t t' : list shandle) : Prop := mkWeak {
  wk_len : length t' = length t;
  wk_at : forall j hd, nth_error t j = Some hd -> exists hd', nth_error t' j = Some hd' /\ s_val hd' = s_val hd /\ s_root hd' = s_root hd /\
            (s_state hd' = s_state hd \/ s_state hd' = SDead \/ s_state hd' = SDone)
}.
Lemma weak_refl : forall t, weak t t.
Proof. intro t. constructor; [reflexivity|]. intros j hd E. exists hd. auto. Qed.
Lemma weak_trans : forall t t1 t2, weak t t1 -> weak t1 t2 -> weak t t2.
Proof.
  intros t t1 t2 [A1 A2] [B1 B2]. constructor; [congruence|]. intros j hd E. destruct (A2 _ _ E) as [h1 [E1 [V1 [R1 S1]]]]. destruct (B2 _ _ E1) as [h2 [E2 [V2 [R2 S2]]]].
  exists h2. split; [exact E2|]. split; [congruence|]. split; [congruence|]. destruct S2 as [-> |S2]; auto.
Qed.
Lemma weak_put : forall t c s, s = SDead \/ s = SDone -> weak t (put_state t c s).
Proof.
  intros t c s S0. unfold put_state. destruct (nth_error t c) as [x|] eqn:E; [|apply weak_refl]. constructor; [apply upd_length|].
  intros j hd N. destruct (Nat.eq_dec c j) as [<-|D].
  - rewrite E in N. injection N as <-. rewrite nth_error_upd_same by (eapply nth_error_lt; exact E). eexists. split; [reflexivity|]. cbn. auto.
  - rewrite nth_error_upd_other by exact D. exists hd. auto.
Qed.
Lemma put_frame : forall t c s j, j <> c -> nth_error (put_state t c s) j = nth_error t j.
Proof. intros t c s j D. unfold put_state. destruct (nth_error t c); [|reflexivity]. now rewrite nth_error_upd_other by congruence. Qed.
Lemma put_at : forall t c s hd, nth_error t c = Some hd -> nth_error (put_state t c s) c = Some (mkSh (s_val hd) (s_root hd) s).
Proof. intros t c s hd E. unfold put_state. rewrite E. apply nth_error_upd_same. eapply nth_error_lt; exact E. Qed.
Lemma kill_weak : forall n lo t v, weak t (kill n lo t v).
Proof.
  induction n as [|n IH]; intros lo t v; [apply weak_refl|]. assert (D : forall c, weak t (put_state t c SDead)) by (intro; apply weak_put; auto).
  destruct v as [s|c|c]; cbn [kill]; [apply weak_refl| |]; (destruct (nth_error t c) as [h|]; [|apply weak_refl]); (destruct (_ || _); [apply weak_refl|]);
    (destruct (s_state h) as [|k ch rest| |]; auto); (eapply weak_trans; [apply D|apply IH]).
Qed.
Lemma kill_low : forall n lo t v j, j < lo -> nth_error (kill n lo t v) j = nth_error t j.
Proof.
  induction n as [|n IH]; intros lo t v j L; [reflexivity|].
  destruct v as [s|c|c]; cbn [kill]; [reflexivity| |]; (destruct (nth_error t c) as [h|]; [|reflexivity]); (destruct (s_root h || (c <? lo)) eqn:E; [reflexivity|]);
    apply orb_false_iff in E as [_ E]; apply Nat.ltb_ge in E;
    (destruct (s_state h) as [|k ch rest| |]; try (apply put_frame; lia)); (rewrite IH by lia; apply put_frame; lia).
Qed.
Lemma kill_above : forall n lo t v a j, above a v -> j < a -> nth_error (kill n lo t v) j = nth_error t j.
Proof.
  intros [|n] lo t v a j A L; [reflexivity|].
  destruct v as [s|c|c]; cbn [kill]; cbn in A; [reflexivity| |]; (destruct (nth_error t c) as [h|]; [|reflexivity]); (destruct (_ || _); [reflexivity|]);
    (destruct (s_state h) as [|k ch rest| |]; try (apply put_frame; lia)); (rewrite kill_low by lia; apply put_frame; lia).
Qed.

(** Values keep their handles. *)
Definition vals (t t' : list shandle) : Prop := forall j hd, nth_error t j = Some hd -> exists hd', nth_error t' j = Some hd' /\ s_val hd' = s_val hd.
Lemma weak_vals : forall t t', weak t t' -> vals t t'.
Proof. intros t t' [A B] j hd E. destruct (B _ _ E) as [hd' [E' [V _]]]. eauto. Qed.
Lemma linked_vals : forall t t' v x, vals t t' -> linked t v x -> linked t' v x.
Proof. intros t t' [s|c|c] x V L; cbn in *; auto; destruct L as [hd [E X]]; destruct (V _ _ E) as [hd' [E' V']]; exists hd'; split; congruence. Qed.
Lemma wfh_vals : forall t t' j hd, vals t t' -> wfh t j hd -> wfh t' j hd.
Proof. intros t t' j hd V W. unfold wfh in *. destruct (s_state hd); auto. destruct W as [A [pre [x [E L]]]]. split; [exact A|]. exists pre, x. split; [exact E|]. eapply linked_vals; eauto. Qed.

Section Good.
Variable Good : jval -> Prop.
Hypothesis GI : forall v k x, Good v -> In (k, x) (items v) -> Good x.
Record wft (t : list shandle) : Prop := mkWft {
  wt_good : forall j hd, nth_error t j = Some hd -> Good (s_val hd);
  wt_at : forall j hd, nth_error t j = Some hd -> wfh t j hd
}.
Definition wfi (l : list siter) : Prop := forall i x rest cur, nth_error l i = Some x -> si_state x = SIAt rest cur -> Forall Good rest.
Definition wfst (st : sstore) : Prop := wft (st_coll st) /\ wfi (st_iter st).

Lemma wft_weak : forall t t', weak t t' -> wft t -> wft t'.
Proof.
  intros t t' W [A B]. assert (BK : forall j hd', nth_error t' j = Some hd' -> exists hd, nth_error t j = Some hd /\ s_val hd' = s_val hd /\ (s_state hd' = s_state hd \/ s_state hd' = SDead \/ s_state hd' = SDone)).
  { intros j hd' E. destruct (nth_error t j) as [hd|] eqn:E1.
    - destruct (wk_at _ _ W _ _ E1) as [h2 [E2 [V [_ S0]]]]. exists hd. rewrite E2 in E. injection E as <-. auto.
    - apply nth_error_ge in E1. apply nth_error_lt in E. rewrite (wk_len _ _ W) in E. lia. }
  constructor; intros j hd' E; destruct (BK _ _ E) as [hd [E1 [V S0]]].
  - rewrite V. eapply A; exact E1.
  - pose proof (B _ _ E1) as WH. unfold wfh in *. destruct S0 as [-> |[-> | ->]]; auto. destruct (s_state hd); auto. rewrite V.
    destruct WH as [W1 [pre [x [E2 L]]]]. split; [exact W1|]. exists pre, x. split; [exact E2|]. eapply linked_vals; [apply weak_vals; exact W|exact L].
Qed.
Lemma alloc_cases : forall t b x t' v, alloc t b x = (t', v) ->
  (t' = t /\ exists s, v = VScalar s) \/ (t' = t ++ [mkSh x b SFresh] /\ (v = VArr (length t) \/ v = VObj (length t))).
Proof. intros t b [s|l e|l e] t' v E; injection E as <- <-; [left; eauto|right; auto|right; auto]. Qed.
Lemma alloc_ok : forall t b x t' v, alloc t b x = (t', v) -> Good x -> wft t -> wft t' /\ linked t' v x /\ above (length t) v /\ length t <= length t' /\ (forall j, j < length t -> nth_error t' j = nth_error t j).
Proof.
  intros t b x t' v E G [A B]. destruct (alloc_cases _ _ _ _ _ E) as [[-> [s ->]]|[-> V]].
  - split; [constructor; auto|]. cbn. auto.
  - assert (FR : forall j, j < length t -> nth_error (t ++ [mkSh x b SFresh]) j = nth_error t j) by (intros; now apply nth_error_app_l).
    assert (NEW : nth_error (t ++ [mkSh x b SFresh]) (length t) = Some (mkSh x b SFresh)) by (rewrite nth_error_app2 by lia; now rewrite Nat.sub_diag).
    assert (VL : vals t (t ++ [mkSh x b SFresh])) by (intros j hd N; exists hd; split; [rewrite FR; [exact N|eapply nth_error_lt; exact N]|reflexivity]).
    split; [|split; [|split; [|split; [rewrite app_length; cbn; lia|exact FR]]]].
    + assert (CS : forall j hd, nth_error (t ++ [mkSh x b SFresh]) j = Some hd -> nth_error t j = Some hd \/ hd = mkSh x b SFresh).
      { intros j hd N. destruct (Nat.lt_ge_cases j (length t)) as [L|L]; [left; now rewrite <- FR|]. right. rewrite nth_error_app2 in N by lia. destruct (j - length t) as [|[|k]]; cbn in N; congruence. }
      constructor; intros j hd N; destruct (CS _ _ N) as [N1| ->]; eauto.
      * eapply wfh_vals; eauto.
      * exact I.
    + destruct V as [-> | ->]; cbn; eauto.
    + destruct V as [-> | ->]; cbn; lia.
Qed.

(** Moving to the next item. *)
Definition to_come (hd : shandle) : list (option scalar * jval) :=
  match s_state hd with SFresh => items (s_val hd) | SAt _ _ rest => rest | _ => [] end.
Record moved (t t' : list shandle) (c : nat) (hd : shandle) (b : bool) : Prop := mkMoved {
  mv_wf : wft t';
  mv_len : length t <= length t';
  mv_frame : forall lo, lo <= length t -> (forall ch, child_of (s_state hd) = Some ch -> above lo ch) -> forall j, j < lo -> j <> c -> nth_error t' j = nth_error t j;
  mv_at : match to_come hd with
          | [] => b = false /\ nth_error t' c = Some (mkSh (s_val hd) (s_root hd) SDone)
          | (k, x) :: rest => b = true /\ exists ch, nth_error t' c = Some (mkSh (s_val hd) (s_root hd) (SAt k ch rest)) /\ above (length t) ch
          end
}.
Lemma suffix_items : forall t j hd, wfh t j hd -> s_state hd <> SDone -> s_state hd <> SDead -> exists pre, items (s_val hd) = pre ++ to_come hd.
Proof.
  intros t j hd W N1 N2. unfold wfh, to_come in *. destruct (s_state hd) as [|k ch rest| |]; try congruence; [exists []; reflexivity|].
  destruct W as [_ [pre [x [E _]]]]. exists (pre ++ [(k, x)]). now rewrite <- app_assoc.
Qed.
Lemma move_store : forall t1 c hd b t' l pre, wft t1 -> (exists hd1, nth_error t1 c = Some hd1 /\ s_val hd1 = s_val hd /\ s_root hd1 = s_root hd) -> items (s_val hd) = pre ++ l -> s_move t1 c l = (t', b) ->
  wft t' /\ length t1 <= length t' /\ (forall j, j < length t1 -> j <> c -> nth_error t' j = nth_error t1 j) /\
  match l with
  | [] => b = false /\ nth_error t' c = Some (mkSh (s_val hd) (s_root hd) SDone)
  | (k, x) :: rest => b = true /\ exists ch, nth_error t' c = Some (mkSh (s_val hd) (s_root hd) (SAt k ch rest)) /\ above (length t1) ch
  end.
Proof.
  intros t1 c hd b t' l pre W [hd1 [E1 [V1 R1]]] IT M. destruct l as [|[k x] rest]; cbn [s_move] in M.
  - injection M as <- <-. pose proof (weak_put t1 c SDone (or_intror eq_refl)) as WK. split; [eapply wft_weak; eauto|]. split; [rewrite (wk_len _ _ WK); lia|]. split; [intros; now apply put_frame|].
    split; [reflexivity|]. rewrite (put_at _ _ _ _ E1). now rewrite V1, R1.
  - destruct (alloc t1 false x) as [t2 ch] eqn:AL. injection M as <- <-.
    assert (GX : Good x). { apply (GI (s_val hd) k x); [rewrite <- V1; eapply wt_good; [exact W|exact E1]|]. rewrite IT. apply in_or_app. right. left. reflexivity. }
    destruct (alloc_ok _ _ _ _ _ AL GX W) as [W2 [LK [AB [LN FR]]]]. assert (Lc : c < length t1) by (eapply nth_error_lt; exact E1). assert (E2 : nth_error t2 c = Some hd1) by (rewrite FR; auto).
    assert (PA := put_at t2 c (SAt k ch rest) hd1 E2).
    assert (VL : vals t2 (put_state t2 c (SAt k ch rest))).
    { intros j h N. destruct (Nat.eq_dec j c) as [-> |D]; [rewrite E2 in N; injection N as <-; eexists; split; [exact PA|reflexivity]|]. exists h. rewrite put_frame by exact D. auto. }
    assert (LE : length (put_state t2 c (SAt k ch rest)) = length t2) by (unfold put_state; rewrite E2; apply upd_length).
    split; [|split; [lia|split; [|split; [reflexivity|]]]].
    + constructor; intros j h N; (destruct (Nat.eq_dec j c) as [-> |D]; [rewrite PA in N; injection N as <-|rewrite put_frame in N by exact D]).
      * cbn. eapply wt_good; [exact W2|exact E2].
      * eapply wt_good; eauto.
      * unfold wfh. cbn. split; [eapply above_le; [|exact AB]; lia|]. exists pre, x. split; [congruence|]. eapply linked_vals; eauto.
      * eapply wfh_vals; [exact VL|]. eapply wt_at; eauto.
    + intros j Lj D. rewrite put_frame by exact D. apply FR. exact Lj.
    + exists ch. split; [rewrite PA, V1, R1; reflexivity|exact AB].
Qed.
Lemma advance_store : forall t v t' b c hd, wft t -> s_advance t v = Some (t', b) -> s_get t v = Some (c, hd) -> nth_error t c = Some hd ->
  (s_state hd = SDone /\ t' = t /\ b = false) \/ (s_state hd <> SDone /\ s_state hd <> SDead /\ moved t t' c hd b).
Proof.
  intros t v t' b c hd W A G E. unfold s_advance in A. rewrite G in A. pose proof (wt_at _ W _ _ E) as WH. destruct (s_state hd) as [|k ch rest| |] eqn:ST; [| |left; injection A as <- <-; auto|discriminate]; right; (split; [discriminate|]); (split; [discriminate|]).
  - injection A as A. destruct (move_store t c hd b t' (items (s_val hd)) [] W) as [W' [L [FR M]]]; [eauto|reflexivity|exact A|].
    constructor; auto; [intros lo LL _ j Lj D; apply FR; [lia|exact D]|]. unfold to_come. rewrite ST. exact M.
  - injection A as A. unfold kill_opt in A. set (t1 := kill (length t) (S c) t ch) in A. assert (K : weak t t1) by apply kill_weak.
    unfold wfh in WH. rewrite ST in WH. destruct WH as [AB [pre [x [IT LK]]]].
    destruct (wk_at _ _ K _ _ E) as [hd1 [E1 [V1 [R1 _]]]].
    destruct (move_store t1 c hd b t' rest (pre ++ [(k, x)])) as [W' [L [FR M]]]; [eapply wft_weak; eauto|eauto|now rewrite <- app_assoc|exact A|].
    rewrite (wk_len _ _ K) in *. constructor; auto.
    + intros lo LL CH j Lj D. rewrite FR; [|lia|exact D]. unfold t1. eapply kill_above; [apply CH; rewrite ST; reflexivity|exact Lj].
    + unfold to_come. rewrite ST. exact M.
Qed.
Lemma get_id : forall t v c hd, s_get t v = Some (c, hd) -> nth_error t c = Some hd /\ (v = VArr c \/ v = VObj c).
Proof.
  intros t v c hd G. unfold s_get in G. destruct v as [s|j|j]; [discriminate| |]; (destruct (nth_error t j) as [h|] eqn:E; [|discriminate]); [destruct (is_array (s_val h))|destruct (is_object (s_val h))]; try discriminate; injection G as <- <-; auto.
Qed.
(** What calls on a value with a great index change. *)
Definition beyond (a : nat) (t t' : list shandle) : Prop := length t <= length t' /\ forall j, j < a -> nth_error t' j = nth_error t j.
Lemma advance_beyond : forall a t v t' b, wft t -> above a v -> s_advance t v = Some (t', b) -> wft t' /\ beyond a t t'.
Proof.
  intros a t v t' b W A E. destruct (s_get t v) as [[c hd]|] eqn:G; [|unfold s_advance in E; rewrite G in E; discriminate].
  destruct (get_id _ _ _ _ G) as [N V]. assert (AC : a <= c) by (destruct V as [-> | ->]; exact A). pose proof (nth_error_lt _ _ _ _ N) as Lc.
  destruct (advance_store _ _ _ _ _ _ W E G N) as [[_ [-> _]]|[_ [_ [M1 M2 M3 _]]]]; [split; [exact W|split; auto]|].
  split; [exact M1|]. split; [exact M2|]. intros j Lj. apply (M3 a); [lia| |exact Lj|lia].
  intros ch CH. pose proof (wt_at _ W _ _ N) as WH. unfold wfh in WH. destruct (s_state hd); try discriminate. injection CH as ->. eapply above_le; [|apply WH]. lia.
Qed.
Lemma kill_opt_weak : forall lo t o, weak t (kill_opt lo t o).
Proof. intros lo t [v|]; [apply kill_weak|apply weak_refl]. Qed.
Lemma kill_opt_low : forall lo t o j, j < lo -> nth_error (kill_opt lo t o) j = nth_error t j.
Proof. intros lo t [v|] j L; [now apply kill_low|reflexivity]. Qed.
Lemma put_beyond : forall a t c s, a <= c -> s = SDead \/ s = SDone -> wft t -> wft (put_state t c s) /\ beyond a t (put_state t c s).
Proof. intros a t c s L S0 W. pose proof (weak_put t c s S0) as K. split; [eapply wft_weak; eauto|]. split; [rewrite (wk_len _ _ K); lia|]. intros j Lj. apply put_frame. lia. Qed.
Lemma kill_put_beyond : forall a t c s o, a <= c -> s = SDead \/ s = SDone -> wft t -> wft (put_state (kill_opt (S c) t o) c s) /\ beyond a t (put_state (kill_opt (S c) t o) c s).
Proof.
  intros a t c s o L S0 W. pose proof (kill_opt_weak (S c) t o) as K. destruct (put_beyond a (kill_opt (S c) t o) c s L S0 (wft_weak _ _ K W)) as [A [B C]]. split; [exact A|]. split; [rewrite (wk_len _ _ K) in B; exact B|].
  intros j Lj. rewrite C by exact Lj. apply kill_opt_low. lia.
Qed.
Lemma beyond_refl : forall a t, beyond a t t.
Proof. split; auto. Qed.
Lemma copy_beyond : forall a t v t' ts, wft t -> above a v -> s_copy t v = Some (t', ts) -> wft t' /\ beyond a t t'.
Proof.
  intros a t v t' ts W A E. destruct v as [s|c|c]; unfold s_copy in E; [injection E as <- _; split; [exact W|apply beyond_refl]| |].
  all: destruct (s_get t _) as [[c' hd]|] eqn:G; [|discriminate]; destruct (get_id _ _ _ _ G) as [N [V|V]]; try discriminate; injection V as <-;
    destruct (s_state hd); try discriminate; injection E as <- _; apply put_beyond; auto.
Qed.
Lemma discard_beyond : forall a t v t', wft t -> above a v -> s_discard t v = Some t' -> wft t' /\ beyond a t t'.
Proof.
  intros a t v t' W A E. destruct v as [s|c|c]; unfold s_discard in E; [injection E as <-; split; [exact W|apply beyond_refl]| |].
  all: destruct (s_get t _) as [[c' hd]|] eqn:G; [|discriminate]; destruct (get_id _ _ _ _ G) as [N [V|V]]; try discriminate; injection V as <-;
    destruct (s_state hd); try discriminate; injection E as <-; try (split; [exact W|apply beyond_refl]); first [apply (kill_put_beyond a t c SDone None); solve [auto]|eapply (kill_put_beyond a t c SDone (Some _)); solve [auto]].
Qed.
Lemma detach_store : forall t v t', wft t -> s_detach t v = Some t' -> wft t'.
Proof.
  intros t v t' W E. destruct v as [s|c|c]; unfold s_detach in E; [injection E as <-; exact W| |].
  all: destruct (s_get t _) as [[c' hd]|] eqn:G; [|discriminate]; destruct (s_root hd); [|discriminate]; destruct (s_state hd); try discriminate; injection E as <-;
    first [apply (kill_put_beyond 0 t c' SDead None); [lia|auto|exact W]|eapply (kill_put_beyond 0 t c' SDead (Some _)); [lia|auto|exact W]].
Qed.
Lemma clone_store : forall t v t' w, wft t -> s_clone t v = Some (t', w) -> wft t'.
Proof.
  intros t v t' w W E. destruct v as [s|c|c]; unfold s_clone in E; [injection E as <- _; exact W| |].
  all: destruct (s_get t _) as [[c' hd]|] eqn:G; [|discriminate]; destruct (get_id _ _ _ _ G) as [N _]; destruct (s_state hd); try discriminate; injection E as E;
    (eapply alloc_ok; [exact E|eapply wt_good; eauto|exact W]).
Qed.
Lemma iter_advance_store : forall st i st' b, wfst st -> si_advance st i = Some (st', b) -> wfst st'.
Proof.
  intros st i st' b [W WI] E. unfold si_advance in E. destruct (nth_error (st_iter st) i) as [x|] eqn:N; [|discriminate].
  assert (Li := nth_error_lt _ _ _ _ N).
  assert (UP : forall y, (forall rest cur, si_state y = SIAt rest cur -> Forall Good rest) -> wfi (upd (st_iter st) i y)).
  { intros y Y j z rest cur Z ZS. destruct (Nat.eq_dec i j) as [<-|D].
    - rewrite nth_error_upd_same in Z by exact Li. injection Z as <-. eapply Y; eauto.
    - rewrite nth_error_upd_other in Z by exact D. eapply WI; eauto. }
  destruct (si_state x) as [rest cur| |] eqn:SX; [| |discriminate].
  - pose proof (wft_weak _ _ (kill_opt_weak 0 (st_coll st) cur) W) as W1. pose proof (WI _ _ _ _ N SX) as FG. destruct rest as [|v rest].
    + injection E as <- <-. split; [exact W1|]. apply UP. discriminate.
    + inversion FG as [|? ? G1 G2]; subst. destruct (alloc _ false v) as [t' ch] eqn:AL. injection E as <- <-. split; [eapply alloc_ok; [exact AL|exact G1|exact W1]|]. apply UP. cbn. intros r c [= -> _]. exact G2.
  - injection E as <- <-. split; assumption.
Qed.
Lemma current_above : forall a t v k o, wft t -> above a v -> s_current t v = Some (k, o) -> forall x, o = Some x -> above a x.
Proof.
  intros a t v k o W A E x ->. unfold s_current in E. destruct (s_get t v) as [[c hd]|] eqn:G; [|discriminate]. destruct (get_id _ _ _ _ G) as [N V]. pose proof (wt_at _ W _ _ N) as WH. unfold wfh in WH.
  destruct (s_state hd) as [|k' ch rest| |]; try discriminate. injection E as _ <-. eapply above_le; [|apply WH]. destruct V as [-> | ->]; cbn in A; lia.
Qed.
End Good.

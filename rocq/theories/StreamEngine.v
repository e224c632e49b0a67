(** The JSONPath runner uses the values that it is given and what it finds in
    them, and no other (StreamW.v). *)
From Coq Require Import List ZArith NArith Arith Bool Lia.
From Verif Require Import Base Tokens ScalarModel IterModel EqualModel SelectModel PathModel StreamModel StreamRead StreamW.

Section Tracked.
Variable T : list nat.
Variable it : bool.

Notation quiet P := (Q T it (fun _ a => P a) None).
Notation any := (fun _ => True).

Lemma q_ret : forall A (P : A -> Prop) a, P a -> quiet P (IRet a).
Proof. intros A P a H. exact H. Qed.
Lemma q_bind : forall A B (p : iprog A) (f : A -> iprog B) (P : A -> Prop) (P' : B -> Prop),
  quiet P p -> (forall a, P a -> quiet P' (f a)) -> quiet P' (ibind p f).
Proof.
  intros A B p f P P' H F. apply Q_lift with (o := None) in H. eapply Q_bind; [exact H|]. intros o' a [-> K]. auto.
Qed.
Lemma q_any : forall A (p : iprog A) (P : A -> Prop), quiet P p -> quiet any p.
Proof. intros A p P H. eapply Q_mono; [exact H|]. auto. Qed.
(** With something to be kept. *)
Lemma Q_keep : forall A (p : iprog A) (P : A -> Prop) (R : option (list token) -> A -> Prop) o,
  quiet P p -> (forall a, P a -> R o a) -> Q T it R o p.
Proof. intros A p P R o H F. apply Q_lift with (o := o) in H. eapply Q_mono; [exact H|]. intros o' a [-> K]. auto. Qed.
Lemma Q_after : forall A B (p : iprog A) (f : A -> iprog B) (P : A -> Prop) R o,
  quiet P p -> (forall a, P a -> Q T it R o (f a)) -> Q T it R o (ibind p f).
Proof. intros A B p f P R o H F. apply Q_lift with (o := o) in H. eapply Q_bind; [exact H|]. intros o' a [-> K]. auto. Qed.

Lemma q_of_res : forall A (r : res A), quiet any (of_res r).
Proof. intros A [a| |]; exact Logic.I. Qed.
Lemma q_need : forall A (o : option A) (P : A -> Prop), (forall a, o = Some a -> P a) -> quiet P (need o).
Proof. intros A [a|] P H; [apply q_ret; auto|exact Logic.I]. Qed.

(* ------------------------------------------------------------------ *)
(** Comparison. *)
Notation av := (avoid T).

Section Equal.
  Variable eq : value -> value -> iprog bool.
  Hypothesis EQ : forall a b, av a -> av b -> quiet any (eq a b).
  Lemma q_safe : forall a b, av a -> av b -> quiet any (safe_equal eq a b).
  Proof.
    intros a b A B. unfold safe_equal. split; [exact A|]. intros c1 C1. split; [exact B|]. intros c2 C2.
    eapply q_bind; [apply EQ; assumption|]. intros b0 _. cbn. auto.
  Qed.
  Lemma q_arrays : forall n a b, av a -> av b -> quiet any (arrays_equal eq n a b).
  Proof.
    induction n as [|n IH]; intros a b A B; [exact Logic.I|]. cbn [arrays_equal]. split; [exact A|]. intros [|]; (split; [exact B|]); intros [|]; try exact Logic.I.
    split; [assumption|]. intros x X. eapply q_bind; [apply (q_need _ x av); intros y ->; exact X|]. intros y1 Y1.
    split; [assumption|]. intros z Z. eapply q_bind; [apply (q_need _ z av); intros y ->; exact Z|]. intros y2 Y2.
    eapply q_bind; [apply EQ; assumption|]. intros [|] _; [apply IH; assumption|exact Logic.I].
  Qed.
  Definition pend_av (p : pending) : Prop := Forall (fun x => av (snd x)) p.
  Lemma q_find_right : forall n key val v2 p, av val -> av v2 -> pend_av p -> quiet (fun r => pend_av (snd r)) (find_right eq n key val v2 p).
  Proof.
    induction n as [|n IH]; intros key val v2 p A B C; [exact Logic.I|]. cbn [find_right]. split; [exact B|]. intros [|]; [|exact C].
    split; [assumption|]. intros kv X. eapply q_bind; [apply (q_need _ (snd kv) av); intros y E; rewrite E in X; exact X|]. intros val2 V2.
    eapply q_bind; [apply q_of_res|]. intros [|] _.
    - eapply q_bind; [apply q_safe; assumption|]. intros b _. exact C.
    - split; [exact V2|]. intros c Cv. apply IH; auto. apply Forall_app. split; [exact C|]. constructor; [exact Cv|constructor].
  Qed.
  Lemma find_pending_av : forall key p w q, find_pending key p = Ok (Some (w, q)) -> pend_av p -> av w /\ pend_av q.
  Proof.
    intros key. induction p as [|[k v] p IH]; intros w q E C; cbn [find_pending] in E; [discriminate|]. inversion C as [|? ? C1 C2]; subst. cbn [snd] in C1.
    destruct (key_equal key k) as [b| |]; try discriminate. cbn [bind] in E. destruct b; [injection E as <- <-; auto|].
    destruct (find_pending key p) as [[[w' q']|]| |] eqn:F; try discriminate. injection E as <- <-. destruct (IH _ _ eq_refl C2). split; [assumption|]. constructor; assumption.
  Qed.
  Lemma q_objects : forall n a b p, av a -> av b -> pend_av p -> quiet (fun r => pend_av (snd r)) (objects_loop eq n a b p).
  Proof.
    induction n as [|n IH]; intros a b p A B C; [exact Logic.I|]. cbn [objects_loop]. split; [exact A|]. intros [|].
    - split; [assumption|]. intros kv X. eapply q_bind; [apply (q_need _ (snd kv) av); intros y E; rewrite E in X; exact X|]. intros val V.
      eapply q_bind with (P := fun f => match f with Some (w, q) => av w /\ pend_av q | None => True end).
      { destruct (find_pending (fst kv) p) as [[[w q]|]| |] eqn:E; try exact Logic.I. exact (find_pending_av _ _ _ _ E C). }
      intros [[w q]|] F.
      + destruct F as [F1 F2]. eapply q_bind; [apply q_safe; assumption|]. intros [|] _; [|exact C]. split; [exact F1|]. apply IH; assumption.
      + eapply q_bind; [apply q_find_right; assumption|]. intros [b0 q] C'. cbn [snd] in C'. destruct b0; [apply IH; assumption|exact C'].
    - destruct p; [|exact C]. split; [exact B|]. intro b2. exact C.
  Qed.
End Equal.
Lemma q_detach_all : forall p A (k : iprog A) P, pend_av p -> quiet P k -> quiet P (detach_all p k).
Proof. induction p as [|[k v] p IH]; intros A q P C H; [exact H|]. inversion C as [|? ? C1 C2]; subst. cbn [detach_all]. split; [exact C1|]. now apply IH. Qed.
Lemma q_equal : forall n a b, av a -> av b -> quiet any (equal n a b).
Proof.
  induction n as [|n IH]; intros a b A B; [exact Logic.I|]. cbn [equal]. destruct a as [s|c|c], b as [s'|c'|c']; try exact Logic.I.
  - apply q_of_res.
  - apply q_arrays; auto.
  - eapply q_bind; [apply q_objects; auto; constructor|]. intros [b p] C. apply q_detach_all; [exact C|exact Logic.I].
Qed.
Lemma q_values_equal : forall n a b, avoid_opt T a -> avoid_opt T b -> quiet any (values_equal n a b).
Proof. intros n [a|] [b|] A B; try exact Logic.I. now apply q_equal. Qed.

(* ------------------------------------------------------------------ *)
(** Singular queries, functions. *)
Notation avo := (avoid_opt T).
Lemma q_look : forall n look a neg, av a -> quiet any (look_ahead n look a neg).
Proof.
  induction n as [|n IH]; intros look a neg A; [exact Logic.I|]. cbn [look_ahead]. destruct (_ <=? _)%Z; [|exact Logic.I].
  split; [exact A|]. intros [|]; [now apply IH|exact Logic.I].
Qed.
Lemma Q_step : forall A (ahead : option value) neg (k : Z -> iprog A) R o, avo ahead -> (forall z, Q T it R o (k z)) -> Q T it R o (step_ahead ahead neg k).
Proof. intros A [a|] neg k R o H K; cbn [step_ahead]; [|apply K]. split; [exact H|]. intro b. apply K. Qed.
Lemma q_object : forall n name v, av v -> quiet avo (select_from_object n name v).
Proof.
  induction n as [|n IH]; intros name v A; [exact Logic.I|]. cbn [select_from_object]. split; [exact A|]. intros [|]; [|exact Logic.I].
  split; [assumption|]. intros kv X. eapply q_bind; [apply (q_need _ _ any); auto|]. intros key _. eapply q_bind; [apply q_of_res|]. intros k _.
  destruct (bytes_eqb k name); [exact X|now apply IH].
Qed.
Lemma q_index : forall n i v ahead index neg, av v -> avo ahead -> quiet avo (select_index n i v ahead index neg).
Proof.
  induction n as [|n IH]; intros i v ahead index neg A H; [exact Logic.I|]. cbn [select_index]. split; [exact A|]. intros [|]; [|exact Logic.I].
  split; [assumption|]. intros x X. destruct (d_yes _); [exact X|]. apply Q_step; [exact H|]. intro z. now apply IH.
Qed.
Lemma q_array : forall n i v, av v -> quiet avo (select_from_array n i v).
Proof.
  intros n i v A. unfold select_from_array. destruct (0 <? _)%Z; [|apply q_index; [exact A|exact Logic.I]].
  split; [exact A|]. intros a H. eapply q_bind; [apply q_look; exact H|]. intros neg _. eapply q_bind; [apply (q_index _ _ _ (Some a)); assumption|].
  intros r R. split; [exact H|exact R].
Qed.
Lemma q_singular : forall n l v, av v -> quiet avo (eval_singular n l v).
Proof.
  intros n. induction l as [|s r IH]; intros v A; [exact A|]. cbn [eval_singular].
  eapply q_bind with (P := avo).
  - destruct v, s; try exact Logic.I; [now apply q_array|now apply q_object].
  - intros [x|] X; [now apply IH|exact Logic.I].
Qed.
Lemma q_count : forall n v c, av v -> quiet any (count_items n v c).
Proof. induction n as [|n IH]; intros v c A; [exact Logic.I|]. cbn [count_items]. split; [exact A|]. intros [|]; [now apply IH|exact Logic.I]. Qed.
Lemma av_scalar : forall s, av (VScalar s).
Proof. intro s. reflexivity. Qed.
Lemma q_length : forall n o, avo o -> quiet avo (run_length n o).
Proof.
  intros n [[s|c|c]|] A; cbn [run_length]; try exact Logic.I.
  - destruct (sc_type s); try exact Logic.I. eapply q_bind; [apply q_of_res|]. intros x _. apply av_scalar.
  - eapply q_bind; [apply q_count; exact A|]. intros k _. apply av_scalar.
  - eapply q_bind; [apply q_count; exact A|]. intros k _. apply av_scalar.
Qed.

(* ------------------------------------------------------------------ *)
(** Processors. *)
Definition base := option (list token) -> proc value -> Prop.
Definition closed (B : base) : Prop := forall o P v, B o P -> av v -> Q T it (fun o' r => B o' (fst r)) o (process P v).
Definition state_av (s : state value) : Prop := Forall (fun x => av (fst x)) (st_pending s).
Definition disp (B : base) : base := fun o P => exists cl ss next, P = PDisp cl ss next /\ Forall state_av ss /\ B o next.

Lemma Q_clone_if : forall A cl v (k : value -> iprog A) R o, av v -> (forall c, av c -> Q T it R o (k c)) -> Q T it R o (clone_if cl v k).
Proof. intros A [|] v k R o H K; cbn [clone_if]; [split; auto|auto]. Qed.
Lemma Q_detach_if : forall A cl v (k : iprog A) R o, av v -> Q T it R o k -> Q T it R o (detach_if cl v k).
Proof. intros A [|] v k R o H K; cbn [detach_if]; [split; auto|auto]. Qed.
Lemma push_av : forall s v cl, state_av s -> av v -> state_av (push s v cl).
Proof. intros s v cl H V. unfold state_av, push. cbn [st_pending]. apply Forall_app. split; [exact H|]. constructor; [exact V|constructor]. Qed.
Lemma q_push_all : forall cl v ss, av v -> Forall state_av ss -> quiet (Forall state_av) (push_all cl v ss).
Proof.
  intros cl v. induction ss as [|s r IH]; intros V H; cbn [push_all]; [constructor|]. inversion H as [|? ? H1 H2]; subst. destruct (st_selected s).
  - apply Q_clone_if; [exact V|]. intros c C. eapply q_bind; [apply IH; assumption|]. intros r' R'. constructor; [now apply push_av|exact R'].
  - eapply q_bind; [apply IH; assumption|]. intros r' R'. constructor; assumption.
Qed.

Section Base.
  Variable B : base.
  Hypothesis CB : closed B.

  Lemma Q_process_disp : closed (disp B).
  Proof.
    intros o P v [cl [ss [next [-> [H N]]]]] V. cbn [process]. destruct ss as [|s r]; [exists cl, [], next; auto|]. inversion H as [|? ? H1 H2]; subst.
    assert (PA : forall o1 next1 s1, state_av s1 -> B o1 next1 -> Q T it (fun o' r0 => disp B o' (fst r0)) o1 (ilet r' <- push_all cl v r; IRet (PDisp cl (s1 :: r') next1, true))).
    { intros o1 next1 s1 S1 N1. eapply Q_after; [apply q_push_all; assumption|]. intros r' R'. exists cl, (s1 :: r'), next1. auto. }
    destruct (st_selected s); [|now apply PA]. apply Q_clone_if; [exact V|]. intros c C. destruct (sel_reverses (st_sel s)).
    - apply PA; [now apply push_av|exact N].
    - eapply Q_bind; [apply CB; [exact N|exact C]|]. intros o' [next' b] N'. cbn [fst] in N'. apply Q_detach_if; [exact C|]. destruct b; [now apply PA|].
      exists cl, (s :: r), next'. auto.
  Qed.
  Lemma Q_flush_values : forall l result o next, Forall (fun x => av (fst x)) l -> B o next -> Q T it (fun o' r => B o' (fst r)) o (flush_values l result next).
  Proof.
    induction l as [|[v cl] l IH]; intros result o next H N; cbn [flush_values]; [exact N|]. inversion H as [|? ? H1 H2]; subst. cbn [fst] in H1.
    eapply Q_bind with (R := fun o' r => B o' (fst r)); [destruct result; [now apply CB|exact N]|]. intros o' [next' r] N'. cbn [fst] in N'. apply Q_detach_if; [exact H1|]. now apply IH.
  Qed.
  Lemma in_order_av : forall s, state_av s -> Forall (fun x => av (fst x)) (in_order s).
  Proof. intros s H. unfold in_order. destruct (sel_reverses _); [now apply Forall_rev|exact H]. Qed.
  Lemma Q_flush_states : forall ss result o next, Forall state_av ss -> B o next -> Q T it (fun o' r => B o' (fst r)) o (flush_states ss result next).
  Proof.
    induction ss as [|s r IH]; intros result o next H N; cbn [flush_states]; [exact N|]. inversion H as [|? ? H1 H2]; subst.
    eapply Q_bind; [apply Q_flush_values; [now apply in_order_av|exact N]|]. intros o' [next' b] N'. now apply IH.
  Qed.
End Base.

Lemma new_states_av : forall sels, Forall state_av (new_states sels).
Proof. intro sels. apply Forall_forall. intros s J. unfold new_states in J. apply in_map_iff in J as [x [<- _]]. constructor. Qed.
Lemma q_decide : forall decide (ev : cond -> iprog bool), (forall c, quiet any (ev c)) ->
  forall ss i first count, Forall state_av ss -> quiet (fun r => Forall state_av (fst (fst r))) (decide_all decide ev i first count ss).
Proof.
  intros decide ev EV. induction ss as [|s r IH]; intros i first count H; cbn [decide_all]; [constructor|]. inversion H as [|? ? H1 H2]; subst. destruct (st_done s).
  - eapply q_bind; [apply IH; exact H2|]. intros [[r' f] c] R'. constructor; [exact H1|exact R'].
  - eapply q_bind with (P := any).
    + destruct (d_yes _); [exact Logic.I|]. destruct (d_no _); [exact Logic.I|]. destruct (st_sel s); try exact Logic.I. apply EV.
    + intros sel _. eapply q_bind; [apply IH; exact H2|]. intros [[r' f] c] R'. constructor; [exact H1|exact R'].
Qed.

(* ------------------------------------------------------------------ *)
(** The segments. *)
Section Loops.
  Variable tv : segment -> value -> proc value -> iprog (proc value * bool).
  Variable ev : cond -> value -> iprog bool.
  Hypothesis TV : forall B, closed B -> forall seg v o P, B o P -> av v -> Q T it (fun o' r => B o' (fst r)) o (tv seg v P).
  Hypothesis EV : forall c v, av v -> quiet any (ev c v).
  Variable B : base.
  Hypothesis CB : closed B.
  Notation post := (fun o' r => B o' (fst r)).
  Notation dpost := (fun o' r => disp B o' (fst r)).

  Lemma Forall_firstn : forall A (P : A -> Prop) l n, Forall P l -> Forall P (firstn n l).
  Proof. intros A P l n H. rewrite <- (firstn_skipn n l) in H. now apply Forall_app in H. Qed.
  Lemma Forall_skipn : forall A (P : A -> Prop) l n, Forall P l -> Forall P (skipn n l).
  Proof. intros A P l n H. rewrite <- (firstn_skipn n l) in H. now apply Forall_app in H. Qed.

  Lemma Q_dispatch_item : forall cl ss next v decide following o, Forall state_av ss -> B o next -> av v ->
    Q T it dpost o (dispatch_item tv ev cl ss next v decide following).
  Proof.
    intros cl ss next v decide following o H N V. unfold dispatch_item. destruct ss as [|s0 ss0]; [exists cl, [], next; auto|]. revert H. generalize (s0 :: ss0). clear s0 ss0. intros ss H.
    eapply Q_after; [apply (q_decide decide (fun c => ev c v)); auto|]. intros [[ss1 first] count] H1. cbn [fst] in H1.
    eapply Q_bind with (R := post); [destruct (0 <? first); [apply Q_flush_states; auto; now apply Forall_firstn|exact N]|].
    intros o1 [next1 r1] N1. cbn [fst] in N1. assert (HS := Forall_skipn _ _ _ first H1). destruct (skipn first ss1) as [|s r]; [exists cl, [], next1; auto|].
    inversion HS as [|? ? S1 S2]; subst. destruct (negb r1); [exists cl, (s :: r), next1; auto|].
    eapply Q_bind with (R := fun o' x => state_av (fst (fst x)) /\ B o' (snd (fst x))).
    - destruct (_ && _); [|split; assumption]. eapply Q_bind; [apply Q_flush_values; [exact CB|now apply in_order_av|exact N1]|]. intros o2 [next2 r2] N2. split; [constructor|exact N2].
    - intros o2 [[s' next2] r2] [S' N2]. cbn [fst snd] in S', N2. destruct (negb r2); [exists cl, (s' :: r), next2; auto|]. destruct (0 <? count); [|exists cl, (s' :: r), next2; auto].
      destruct following as [seg|].
      + apply (TV (disp B) (Q_process_disp B CB)); [|exact V]. eexists _, _, _. split; [reflexivity|]. auto.
      + apply (Q_process_disp B CB); [|exact V]. eexists _, _, _. split; [reflexivity|]. auto.
  Qed.
  Lemma Q_dispatch : forall D v decide following o, disp B o D -> av v -> Q T it dpost o (dispatch tv ev D v decide following).
  Proof. intros D v decide following o [cl [ss [next [-> [H N]]]]] V. apply Q_dispatch_item; assumption. Qed.
  Lemma Q_finish : forall D result o, disp B o D -> Q T it post o (finish D result).
  Proof.
    intros D result o [cl [ss [next [-> [H N]]]]]. unfold finish. cbn [disp_parts]. eapply Q_bind; [apply (Q_flush_states B CB); assumption|]. intros o' [next' b] N'. exact N'.
  Qed.
  Lemma disp_next : forall o D, disp B o D -> B o (snd (disp_parts D)).
  Proof. intros o D [cl [ss [next [-> [H N]]]]]. exact N. Qed.
  Lemma disp_with : forall o o' D next, disp B o D -> B o' next -> disp B o' (with_next D next).
  Proof. intros o o' D next' [cl [ss [next [-> [H N]]]]] N'. exists cl, ss, next'. auto. Qed.

  Lemma Q_item : forall A (x : option value) (f : value -> iprog A) R o, avo x -> (forall y, av y -> Q T it R o (f y)) -> Q T it R o (ilet y <- need x; f y).
  Proof. intros A [y|] f R o X F; [apply F; exact X|exact Logic.I]. Qed.

  Lemma Q_object_relaxed : forall n seg desc following v D o, disp B o D -> av v -> Q T it dpost o (object_relaxed tv ev n seg desc following v D).
  Proof.
    induction n as [|n IH]; intros seg desc following v D o HD V; [exact Logic.I|]. cbn [object_relaxed]. split; [exact V|]. intros [|]; [|exact HD].
    split; [assumption|]. intros kv X. eapply Q_after; [apply (q_need _ _ any); auto|]. intros key _. apply Q_item; [exact X|]. intros x AX. apply Q_clone_if; [exact AX|]. intros x2 A2.
    eapply Q_after; [apply q_of_res|]. intros k _. eapply Q_bind; [apply Q_dispatch; [exact HD|assumption]|]. intros o1 [D1 r] HD1. cbn [fst] in HD1.
    destruct (negb r); [apply Q_detach_if; [exact A2|exact HD1]|]. destruct desc.
    - eapply Q_bind; [apply (TV B CB); [apply disp_next; exact HD1|exact A2]|]. intros o2 [next' r2] N'. cbn [fst] in N'. split; [exact A2|].
      assert (HD2 := disp_with _ _ _ _ HD1 N'). destruct r2; [now apply IH|exact HD2].
    - destruct (no_states D1); [exact HD1|now apply IH].
  Qed.
  Lemma Q_array_relaxed : forall n seg desc following v ahead index neg D o, disp B o D -> av v -> avo ahead ->
    Q T it dpost o (array_relaxed tv ev n seg desc following v ahead index neg D).
  Proof.
    induction n as [|n IH]; intros seg desc following v ahead index neg D o HD V AH; [exact Logic.I|]. cbn [array_relaxed]. split; [exact V|]. intros [|]; [|exact HD].
    split; [assumption|]. intros x0 X. apply Q_item; [exact X|]. intros x AX. apply Q_clone_if; [exact AX|]. intros x2 A2.
    eapply Q_bind; [apply Q_dispatch; [exact HD|assumption]|]. intros o1 [D1 r] HD1. cbn [fst] in HD1.
    destruct (negb r); [apply Q_detach_if; [exact A2|exact HD1]|]. apply Q_step; [exact AH|]. intro z. destruct desc.
    - eapply Q_bind; [apply (TV B CB); [apply disp_next; exact HD1|exact A2]|]. intros o2 [next' r2] N'. cbn [fst] in N'. split; [exact A2|].
      assert (HD2 := disp_with _ _ _ _ HD1 N'). destruct r2; [now apply IH|exact HD2].
    - destruct (no_states D1); [exact HD1|now apply IH].
  Qed.
  Lemma Q_object_strict : forall n following v D o, disp B o D -> av v -> Q T it dpost o (object_strict tv ev n following v D).
  Proof.
    induction n as [|n IH]; intros following v D o HD V; [exact Logic.I|]. cbn [object_strict]. split; [exact V|]. intros [|]; [|exact HD].
    split; [assumption|]. intros kv X. eapply Q_after; [apply (q_need _ _ any); auto|]. intros key _. apply Q_item; [exact X|]. intros x AX.
    eapply Q_after; [apply q_of_res|]. intros k _. eapply Q_bind; [apply Q_dispatch; [exact HD|assumption]|]. intros o1 [D1 r] HD1. cbn [fst] in HD1.
    destruct (negb r); [exact HD1|]. destruct (no_states D1); [exact HD1|now apply IH].
  Qed.
  Lemma Q_array_strict : forall n following v ahead index neg D o, disp B o D -> av v -> avo ahead -> Q T it dpost o (array_strict tv ev n following v ahead index neg D).
  Proof.
    induction n as [|n IH]; intros following v ahead index neg D o HD V AH; [exact Logic.I|]. cbn [array_strict]. split; [exact V|]. intros [|]; [|exact HD].
    split; [assumption|]. intros x0 X. apply Q_item; [exact X|]. intros x AX.
    eapply Q_bind; [apply Q_dispatch; [exact HD|assumption]|]. intros o1 [D1 r] HD1. cbn [fst] in HD1.
    destruct (negb r); [exact HD1|]. apply Q_step; [exact AH|]. intro z. destruct (no_states D1); [exact HD1|now apply IH].
  Qed.
  Lemma Q_descend : forall n seg v next o, B o next -> av v -> Q T it post o (descend tv n seg v next).
  Proof.
    induction n as [|n IH]; intros seg v next o N V; [exact Logic.I|]. cbn [descend]. split; [exact V|]. intros [|]; [|exact N].
    split; [assumption|]. intros x0 X. apply Q_item; [exact X|]. intros x AX. eapply Q_bind; [apply (TV B CB); eassumption|]. intros o1 [next' r] N'. cbn [fst] in N'. destruct r; [now apply IH|exact N'].
  Qed.
  Lemma Q_end : forall A (ahead : option value) (k : iprog A) R o, avo ahead -> Q T it R o k -> Q T it R o (end_ahead ahead k).
  Proof. intros A [a|] k R o H K; [split; assumption|exact K]. Qed.
  Lemma Q_start : forall A n look v (k : option value -> Z -> iprog A) R o, av v -> (forall a z, avo a -> Q T it R o (k a z)) -> Q T it R o (start_ahead n look v k).
  Proof.
    intros A n look v k R o V K. unfold start_ahead. destruct (0 <? look)%Z; [|apply K; exact Logic.I]. split; [exact V|]. intros a AV.
    eapply Q_after; [apply q_look; exact AV|]. intros z _. apply K. exact AV.
  Qed.

  Lemma Q_body : forall n seg v next o, B o next -> av v -> Q T it post o (transform_body tv ev n seg v next).
  Proof.
    intros n [sels look desc strict following] v next o N V. unfold transform_body.
    assert (HD : disp B o (PDisp false (new_states sels) next)) by (eexists _, _, _; split; [reflexivity|]; split; [apply new_states_av|exact N]).
    destruct v as [s|c|c].
    - split; [exact V|exact N].
    - apply Q_start; [exact V|]. intros ahead neg AH. destruct strict; [destruct desc|].
      + split; [exact V|]. intros v2 V2. eapply Q_bind; [apply Q_array_strict; eassumption|]. intros o1 [D1 r] H1. cbn [fst] in H1. destruct r.
        * eapply Q_bind; [apply Q_descend; [apply disp_next; exact H1|exact V2]|]. intros o2 [next' r2] N'. cbn [fst] in N'. split; [exact V2|]. apply Q_end; [exact AH|]. apply Q_finish. eapply disp_with; eauto.
        * split; [exact V2|]. apply Q_end; [exact AH|]. now apply Q_finish.
      + eapply Q_bind; [apply Q_array_strict; eassumption|]. intros o1 [D1 r] H1. apply Q_end; [exact AH|]. now apply Q_finish.
      + eapply Q_bind; [apply Q_array_relaxed; eassumption|]. intros o1 [D1 r] H1. apply Q_end; [exact AH|]. now apply Q_finish.
    - destruct strict; [destruct desc|].
      + split; [exact V|]. intros v2 V2. eapply Q_bind; [apply Q_object_strict; eassumption|]. intros o1 [D1 r] H1. cbn [fst] in H1. destruct r.
        * eapply Q_bind; [apply Q_descend; [apply disp_next; exact H1|exact V2]|]. intros o2 [next' r2] N'. cbn [fst] in N'. split; [exact V2|]. apply Q_finish. eapply disp_with; eauto.
        * split; [exact V2|]. now apply Q_finish.
      + eapply Q_bind; [apply Q_object_strict; eassumption|]. intros o1 [D1 r] H1. now apply Q_finish.
      + eapply Q_bind; [apply Q_object_relaxed; eassumption|]. intros o1 [D1 r] H1. now apply Q_finish.
  Qed.
End Loops.

(* ------------------------------------------------------------------ *)
(** The conditions. *)
Definition at_halt : base := fun o P => o = None /\ P = PHalt.
Definition at_count : base := fun o P => o = None /\ exists n, P = PCount n.
Definition at_value : base := fun o P => o = None /\ exists x, P = PValue x /\ avo x.
Definition at_write : base := fun o P => exists out, o = Some out /\ P = PWrite out.
Lemma closed_halt : closed at_halt.
Proof. intros o P v [-> ->] V. cbn. split; reflexivity. Qed.
Lemma closed_count : closed at_count.
Proof. intros o P v [-> [n ->]] V. cbn. split; [reflexivity|eauto]. Qed.
Lemma closed_value : closed at_value.
Proof.
  intros o P v [-> [x [-> X]]] V. cbn [process]. destruct x as [y|]; (split; [reflexivity|]); eexists; (split; [reflexivity|]); [exact Logic.I|exact V].
Qed.
Lemma closed_write : closed at_write.
Proof. intros o P v [out [-> ->]] V. cbn. split; [exact V|]. intro ts. eexists. split; reflexivity. Qed.

Section Eval.
  Variable find : bytes -> bytes -> option (nat * nat).
  Variable ctx : context.
  Hypothesis CTX : it = false /\ ctx = mkCtx [] [] \/ it = true /\ T = [].

  Definition arg_av (a : argval) : Prop := match a with RVal o => avo o | RBool _ => True | RNodes _ v => av v end.
  Definition res_av (r : fresult) : Prop := match r with FVal o => avo o | FBool _ => True end.

  Lemma yes : forall P : Prop, it = true -> P -> if it then P else False.
  Proof. intros P -> H. exact H. Qed.
  Lemma Q_map_value : forall tv, (forall B, closed B -> forall seg v o P, B o P -> av v -> Q T it (fun o' r => B o' (fst r)) o (tv seg v P)) ->
    forall B, closed B -> forall n q v o P, B o P -> av v -> Q T it (fun o' r => B o' (fst r)) o (map_value ctx tv n q v P).
  Proof.
    intros tv TV B CB n q v o P H V. unfold map_value. destruct q as [[seg|]|i]; [apply (TV B CB); assumption|now apply CB|].
    destruct CTX as [[_ C]|[I1 I2]].
    - rewrite C. cbn [cx_queries]. replace (nth_error (@nil nat) i) with (@None nat) by (now destruct i). exact Logic.I.
    - assert (AV : forall x, av x) by (intro x; rewrite I2; unfold avoid, tracked; destruct (idof x); reflexivity).
      assert (EA : forall m j o P, B o P -> Q T it (fun o' r => B o' (fst r)) o (each_inner m j P)).
      { induction m as [|m IH]; intros j o1 P1 H1; [exact Logic.I|]. cbn [each_inner Q]. apply (yes _ I1). intros [|]; [|exact H1]. cbn [Q]. apply (yes _ I1).
        intros [x|]; [|exact Logic.I]. cbn [need ibind]. eapply Q_bind; [apply CB; [exact H1|apply AV]|]. intros o2 [P2 [|]] H2; [now apply IH|exact H2]. }
      destruct (nth_error (cx_queries ctx) i) as [i0|]; [|exact Logic.I]. cbn [need ibind Q]. apply (yes _ I1). intro j. eapply Q_bind; [apply EA; exact H|].
      intros o' [P' r] H'. cbn [Q]. apply (yes _ I1). exact H'.
  Qed.

  Section Fun.
    Variable tv : segment -> value -> proc value -> iprog (proc value * bool).
    Variable ev : cond -> value -> iprog bool.
    Variable ec : operand -> value -> iprog (option value).
    Hypothesis TV : forall B, closed B -> forall seg v o P, B o P -> av v -> Q T it (fun o' r => B o' (fst r)) o (tv seg v P).
    Hypothesis EV : forall c v, av v -> quiet any (ev c v).
    Hypothesis EC : forall c v, av v -> quiet avo (ec c v).

    Lemma q_function : forall n f args, Forall arg_av args -> quiet res_av (run_function find ctx tv n f args).
    Proof.
      intros n f args H. unfold run_function.
      destruct f; (destruct args as [|a1 [|a2 [|a3 args]]]; try exact Logic.I; try (destruct a1; exact Logic.I)).
      - destruct a1 as [o| |]; try exact Logic.I. inversion H as [|? ? H1 _]; subst. eapply q_bind; [apply q_length; exact H1|]. intros r R. exact R.
      - destruct a1 as [| |q v]; try exact Logic.I. inversion H as [|? ? H1 _]; subst.
        eapply Q_bind; [apply (Q_map_value tv TV at_count closed_count); [split; [reflexivity|eauto]|exact H1]|]. intros o' [P b] [-> [k E]]. cbn [fst] in E. subst P. apply av_scalar.
      - eapply q_bind; [apply q_of_res|]. intros l _. exact Logic.I.
      - eapply q_bind; [apply q_of_res|]. intros l _. exact Logic.I.
      - destruct a1 as [| |q v]; try exact Logic.I. inversion H as [|? ? H1 _]; subst.
        eapply Q_bind; [apply (Q_map_value tv TV at_value closed_value); [split; [reflexivity|]; exists None; split; [reflexivity|exact Logic.I]|exact H1]|]. intros o' [P b] [-> [x [E X]]]. cbn [fst] in E. subst P. exact X.
    Qed.
    Lemma q_args : forall tys args v acc k, av v -> Forall arg_av acc -> (forall l, Forall arg_av l -> quiet res_av (k l)) ->
      quiet res_av (run_args ec ev tys args v acc k).
    Proof.
      induction tys as [|ty tys IH]; intros args v acc k V A K.
      - destruct args; cbn [run_args]; [apply K; now apply Forall_rev|exact Logic.I].
      - destruct args as [|a args]; cbn [run_args]; [apply K; now apply Forall_rev|]. destruct ty, a; try exact Logic.I.
        + split; [exact V|]. intros x X. eapply q_bind; [apply EC; exact X|]. intros o O. eapply q_bind; [apply IH; auto; constructor; assumption|]. intros r R. split; [exact X|exact R].
        + eapply q_bind; [apply EV; exact V|]. intros b _. apply IH; auto. constructor; [exact Logic.I|exact A].
        + eapply q_bind; [apply EV; exact V|]. intros b _. apply IH; auto. constructor; [exact Logic.I|exact A].
        + apply IH; auto.
    Qed.
    Lemma q_fun : forall n f args v, av v -> quiet res_av (run_fun find ctx tv ec ev n f args v).
    Proof. intros n f args v V. unfold run_fun. apply q_args; [exact V|constructor|]. intros l L. now apply q_function. Qed.
    Lemma Q_clone_opt : forall A (o : option value) (k : option value -> iprog A) R o1, avo o -> (forall x, avo x -> Q T it R o1 (k x)) -> Q T it R o1 (clone_opt o k).
    Proof. intros A [x|] k R o1 H K; cbn [clone_opt]; [split; [exact H|]; intros y Y; now apply K|apply K; exact Logic.I]. Qed.
    Lemma Q_detach_opt : forall A (o : option value) (k : iprog A) R o1, avo o -> Q T it R o1 k -> Q T it R o1 (detach_opt o k).
    Proof. intros A [x|] k R o1 H K; [split; assumption|exact K]. Qed.
    Lemma q_compare : forall n x eq lt neg y v, av v -> quiet any (compare_values ec n x eq lt neg y v).
    Proof.
      intros n x eq lt neg y v V. unfold compare_values. split; [exact V|]. intros v1 V1. split; [exact V|]. intros v2 V2.
      eapply q_bind; [apply EC; exact V1|]. intros l L. apply Q_clone_opt; [exact L|]. intros l' L'. eapply q_bind; [apply EC; exact V2|]. intros r R0.
      apply Q_clone_opt; [exact R0|]. intros r' R'. eapply q_bind with (P := any); [destruct eq; [apply q_values_equal; assumption|exact Logic.I]|]. intros b _.
      eapply q_bind with (P := any); [destruct (_ && _); [destruct l' as [[| |]|], r' as [[| |]|]; try exact Logic.I; apply q_of_res|exact Logic.I]|]. intros b' _.
      apply Q_detach_opt; [exact R'|]. apply Q_detach_opt; [exact L'|]. cbn. auto.
    Qed.
    Lemma q_any_true : forall l v, av v -> quiet any (any_true ev l v).
    Proof. induction l as [|c r IH]; intros v V; [exact Logic.I|]. cbn [any_true]. eapply q_bind; [apply EV; exact V|]. intros [|] _; [exact Logic.I|now apply IH]. Qed.
    Lemma q_all_true : forall l v, av v -> quiet any (all_true ev l v).
    Proof. induction l as [|c r IH]; intros v V; [exact Logic.I|]. cbn [all_true]. eapply q_bind; [apply EV; exact V|]. intros [|] _; [now apply IH|exact Logic.I]. Qed.
  End Fun.

  Theorem engine : forall n,
    (forall B, closed B -> forall seg v o P, B o P -> av v -> Q T it (fun o' r => B o' (fst r)) o (transform_value find ctx n seg v P)) /\
    (forall c v, av v -> quiet any (eval_cond find ctx n c v)) /\
    (forall c v, av v -> quiet avo (eval_comp find ctx n c v)).
  Proof.
    induction n as [|n [TV [EV EC]]]; [split; [|split]; intros; exact Logic.I|]. split; [|split].
    - intros B CB seg v o P H V. change (transform_value find ctx (S n) seg v P) with (transform_body (transform_value find ctx n) (eval_cond find ctx n) n seg v P). now apply Q_body.
    - intros c v V. destruct c as [l|l|c|x eq lt neg y|q|f args].
      + change (eval_cond find ctx (S n) (COr l) v) with (any_true (eval_cond find ctx n) l v). now apply q_any_true.
      + change (eval_cond find ctx (S n) (CAnd l) v) with (all_true (eval_cond find ctx n) l v). now apply q_all_true.
      + change (eval_cond find ctx (S n) (CNot c) v) with (ilet b <- eval_cond find ctx n c v ; IRet (negb b)). eapply q_bind; [apply EV; exact V|]. intros b _. exact Logic.I.
      + change (eval_cond find ctx (S n) (CComp x eq lt neg y) v) with (compare_values (eval_comp find ctx n) n x eq lt neg y v). now apply q_compare.
      + change (eval_cond find ctx (S n) (CQuery q) v) with (IClone v (fun x => ilet (_, r) <- map_value ctx (transform_value find ctx n) n q x PHalt ; IDetach x (IRet (negb r)))).
        split; [exact V|]. intros x X. eapply Q_bind; [apply (Q_map_value _ TV at_halt closed_halt); [split; reflexivity|exact X]|]. intros o' [P b] [-> _]. split; [exact X|exact Logic.I].
      + change (eval_cond find ctx (S n) (CFun f args) v) with (ilet r <- run_fun find ctx (transform_value find ctx n) (eval_comp find ctx n) (eval_cond find ctx n) n f args v ; match r with FBool b => IRet b | FVal _ => IPanic end).
        eapply q_bind; [apply q_fun; assumption|]. intros [o|b] _; exact Logic.I.
    - intros c v V. destruct c as [s|l|i|f args].
      + apply av_scalar.
      + change (eval_comp find ctx (S n) (MSing l) v) with (eval_singular n l v). now apply q_singular.
      + change (eval_comp find ctx (S n) (MInner i) v) with (need (nth_error (cx_singular ctx) i)). destruct CTX as [[_ E]|[_ E]].
        * rewrite E. cbn [cx_singular]. replace (nth_error (@nil (option value)) i) with (@None (option value)) by (now destruct i). exact Logic.I.
        * destruct (nth_error (cx_singular ctx) i) as [[x|]|]; try exact Logic.I. clear - E. rewrite E. cbn. unfold avoid, tracked; destruct (idof x); reflexivity.
      + change (eval_comp find ctx (S n) (MFun f args) v) with (ilet r <- run_fun find ctx (transform_value find ctx n) (eval_comp find ctx n) (eval_cond find ctx n) n f args v ; match r with FVal o => IRet o | FBool _ => IPanic end).
        eapply q_bind; [apply q_fun; assumption|]. intros [o|b] R; [exact R|exact Logic.I].
  Qed.
End Eval.
End Tracked.

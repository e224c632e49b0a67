(** The engine of queries clones small values only. *)
From Coq Require Import List ZArith NArith Arith Bool Lia.
From Verif Require Import Base Tokens JsonSpec IterModel EqualModel SelectModel PathModel SplitModel WindowSmall.
Import ListNotations.

Section Engine.
Variable S : nat -> value -> Prop.
Variable top : nat.
Hypothesis SS : forall n s, S n (VScalar s).
Notation sparing := (sparing S top).
Notation item_of := (item_of S).
Local Notation Sc := Datatypes.S.
Definition osmall (o : option value) : Prop := forall x, o = Some x -> S 0 x.
Definition yes_ {A} (_ : A) : Prop := True.

Lemma sp_need : forall A (o : option A), sparing (need o) (fun x => o = Some x).
Proof. intros A [a|]; cbn; auto. Qed.
Lemma sp_res : forall A (r : res A), sparing (of_res r) (fun x => r = Ok x).
Proof. intros A [a| |]; cbn; auto. Qed.
Lemma sp_clone : forall A v (k : value -> iprog A) Q, S 0 v -> (forall x, S 0 x -> sparing (k x) Q) -> sparing (IClone v k) Q.
Proof. intros. split; auto. Qed.

(** ------------------------------------------------------------------ *)
(** Comparisons. *)
Lemma sp_safe : forall eq v1 v2, (forall a b, S 0 a -> S 0 b -> sparing (eq a b) yes_) -> S 0 v1 -> S 0 v2 -> sparing (safe_equal eq v1 v2) yes_.
Proof.
  intros eq v1 v2 E A B. unfold safe_equal. apply sp_clone; [exact A|]. intros c1 C1. apply sp_clone; [exact B|]. intros c2 C2. eapply sparing_bind; [apply E; assumption|]. intros b _. exact I.
Qed.
Section Equal.
Variable eq : value -> value -> iprog bool.
Hypothesis E : forall a b, S 0 a -> S 0 b -> sparing (eq a b) yes_.
Lemma sp_arrays : forall n v1 v2, S 0 v1 -> S 0 v2 -> sparing (arrays_equal eq n v1 v2) yes_.
Proof.
  intros n v1 v2 A B. induction n as [|n IH]; [exact I|]. cbn [arrays_equal WindowSmall.sparing]. intros [|]; [|cbn; intros; exact I]. intros [|]; [|exact I].
  intros o1 O1. eapply sparing_bind; [apply sp_need|]. intros y1 Y1. cbn [WindowSmall.sparing]. intros o2 O2. eapply sparing_bind; [apply sp_need|]. intros y2 Y2.
  eapply sparing_bind; [apply E; [apply (O1 _ Y1); exact A|apply (O2 _ Y2); exact B]|]. intros [|] _; [exact IH|exact I].
Qed.
Definition pend_ (p : pending) : Prop := Forall (fun x => S 0 (snd x)) p.
Lemma find_small : forall key p w q, pend_ p -> find_pending key p = Ok (Some (w, q)) -> S 0 w /\ pend_ q.
Proof.
  intros key p. induction p as [|[k v] p IH]; intros w q P F; cbn in F; [discriminate|]. inversion P as [|? ? P1 P2]; subst. destruct (key_equal key k) as [b| |]; try discriminate. cbn in F. destruct b; [injection F as <- <-; auto|].
  destruct (find_pending key p) as [[[w' q']|]| |]; try discriminate. cbn in F. injection F as <- <-. destruct (IH w' q' P2 eq_refl) as [H1 H2]. split; [exact H1|]. constructor; assumption.
Qed.
Lemma sp_right : forall n key val v2 p, S 0 val -> S 0 v2 -> pend_ p -> sparing (find_right eq n key val v2 p) (fun r => pend_ (snd r)).
Proof.
  intros n key val v2 p A B. revert p. induction n as [|n IH]; intros p P; [exact I|]. cbn [find_right WindowSmall.sparing]. intros [|]; [|exact P].
  intros kv KV. eapply sparing_bind; [apply sp_need|]. intros y Y. pose proof (proj2 (KV _ Y) B) as SY. eapply sparing_bind; [apply sp_res|]. intros [|] _.
  - eapply sparing_bind; [apply sp_safe; [exact E|exact A|exact SY]|]. intros b _. exact P.
  - apply sp_clone; [exact SY|]. intros c C. apply IH. apply Forall_app. split; [exact P|]. constructor; [exact C|constructor].
Qed.
Lemma sp_objects : forall n v1 v2 p, S 0 v1 -> S 0 v2 -> pend_ p -> sparing (objects_loop eq n v1 v2 p) (fun r => pend_ (snd r)).
Proof.
  intros n v1 v2 p A B. revert p. induction n as [|n IH]; intros p P; [exact I|]. cbn [objects_loop WindowSmall.sparing]. intros [|].
  - intros kv KV. eapply sparing_bind; [apply sp_need|]. intros y Y. pose proof (proj2 (KV _ Y) A) as SY. eapply sparing_bind; [apply sp_res|]. intros [[w q]|] F.
    + destruct (find_small _ _ _ _ P F) as [W Q]. eapply sparing_bind; [apply sp_safe; [exact E|exact SY|exact W]|]. intros [|] _; [cbn; apply IH; exact Q|exact P].
    + eapply sparing_bind; [apply sp_right; assumption|]. intros [b q] Q. destruct b; [apply IH; exact Q|exact Q].
  - destruct p; [cbn; intros; constructor|exact P].
Qed.
Lemma sp_detach_all : forall A p (k : iprog A) Q, sparing k Q -> sparing (detach_all p k) Q.
Proof. intros A p k Q K. induction p as [|[c v] p IH]; cbn; auto. Qed.
End Equal.
Lemma sp_equal : forall n a b, S 0 a -> S 0 b -> sparing (equal n a b) yes_.
Proof.
  induction n as [|n IH]; intros a b A B; [exact I|]. cbn [equal]. destruct a as [s|c|c], b as [s'|c'|c']; try exact I.
  - eapply sparing_weaken; [apply sp_res|exact (fun _ _ => I)].
  - apply sp_arrays; auto.
  - eapply sparing_bind; [apply sp_objects; auto; constructor|]. intros [b p] _. apply sp_detach_all. exact I.
Qed.
Lemma sp_values_equal : forall n l r, osmall l -> osmall r -> sparing (values_equal n l r) yes_.
Proof. intros n [a|] [b|] L R; try exact I. apply sp_equal; auto. Qed.

(** ------------------------------------------------------------------ *)
(** Processors. *)
Definition spend (s : state value) : Prop := Forall (fun x => S 0 (fst x)) (st_pending s).
Fixpoint psmall (P : proc value) : Prop :=
  match P with PValue (Some v) => S 0 v | PDisp _ ss next => Forall spend ss /\ psmall next | _ => True end.
Fixpoint sels_of (P : proc value) : list (list selector) := match P with PDisp _ ss next => map st_sel ss :: sels_of next | _ => [] end.
Definition post (P : proc value) (r : proc value * bool) : Prop := psmall (fst r) /\ sels_of (fst r) = sels_of P.

Lemma spend_push : forall s v b, S 0 v -> spend s -> spend (push s v b).
Proof. intros s v b A P. unfold spend, push. cbn. apply Forall_app. split; [exact P|]. constructor; [exact A|constructor]. Qed.
Lemma sp_clone_if : forall A cl v (k : value -> iprog A) Q, S 0 v -> (forall x, S 0 x -> sparing (k x) Q) -> sparing (clone_if cl v k) Q.
Proof. intros A [|] v k Q V K; cbn [clone_if]; [apply sp_clone; auto|auto]. Qed.
Lemma sp_detach_if : forall A cl v (k : iprog A) Q, sparing k Q -> sparing (detach_if cl v k) Q.
Proof. intros A [|] v k Q K; exact K. Qed.
Definition same (ss ss' : list (state value)) : Prop := Forall spend ss' /\ map st_sel ss' = map st_sel ss.
Lemma sp_push_all : forall cl v ss, S 0 v -> Forall spend ss -> sparing (push_all cl v ss) (same ss).
Proof.
  intros cl v ss V. induction ss as [|s r IH]; intro F; [split; [constructor|reflexivity]|]. inversion F as [|? ? F1 F2]; subst. cbn [push_all]. destruct (st_selected s).
  - apply sp_clone_if; [exact V|]. intros x X. eapply sparing_bind; [apply IH; exact F2|]. intros r' [R1 R2]. split; [constructor; [apply spend_push; assumption|exact R1]|cbn; now rewrite R2].
  - eapply sparing_bind; [apply IH; exact F2|]. intros r' [R1 R2]. split; [constructor; assumption|cbn; now rewrite R2].
Qed.
Lemma sp_process : forall P v, S 0 v -> psmall P -> sparing (process P v) (post P).
Proof.
  induction P as [out| |k|o|cl ss next IH]; intros v V H.
  - cbn. intro ts. split; [exact I|reflexivity].
  - split; [exact I|reflexivity].
  - split; [exact I|reflexivity].
  - destruct o; (split; [first [exact I|exact V]|reflexivity]).
  - destruct H as [H1 H2]. cbn [process]. destruct ss as [|s r]; [split; [split; assumption|reflexivity]|]. inversion H1 as [|? ? F1 F2]; subst. destruct (st_selected s).
    + apply sp_clone_if; [exact V|]. intros c C. destruct (sel_reverses (st_sel s)).
      * eapply sparing_bind; [apply sp_push_all; assumption|]. intros r' [R1 R2]. split; cbn; [split; [constructor; [apply spend_push; assumption|exact R1]|exact H2]|now rewrite R2].
      * eapply sparing_bind; [apply IH; assumption|]. intros [next' b] [N1 N2]. cbn [fst] in N1, N2. apply sp_detach_if. destruct b.
        -- eapply sparing_bind; [apply sp_push_all; assumption|]. intros r' [R1 R2]. split; cbn; [split; [constructor; assumption|exact N1]|now rewrite R2, N2].
        -- split; cbn; [split; [constructor; assumption|exact N1]|now rewrite N2].
    + eapply sparing_bind; [apply sp_push_all; assumption|]. intros r' [R1 R2]. split; cbn; [split; [constructor; assumption|exact H2]|now rewrite R2].
Qed.
Lemma sp_flush_values : forall l res next, Forall (fun x => S 0 (fst x)) l -> psmall next -> sparing (flush_values l res next) (post next).
Proof.
  induction l as [|[v cl] l IH]; intros res next F H; cbn [flush_values]; [split; [exact H|reflexivity]|]. inversion F as [|? ? F1 F2]; subst.
  eapply sparing_bind with (P := post next); [destruct res; [apply sp_process; assumption|split; [exact H|reflexivity]]|]. intros [next' b] [N1 N2]. cbn [fst] in N1, N2. apply sp_detach_if.
  eapply sparing_weaken; [apply IH; assumption|]. intros [P b'] [A1 A2]. split; [exact A1|congruence].
Qed.
Lemma in_order_small : forall s, spend s -> Forall (fun x => S 0 (fst x)) (in_order s).
Proof. intros s H. unfold in_order. destruct (sel_reverses (st_sel s)); [|exact H]. apply Forall_forall. intros x IN. apply in_rev in IN. unfold spend in H. rewrite Forall_forall in H. auto. Qed.
Lemma sp_flush_states : forall ss res next, Forall spend ss -> psmall next -> sparing (flush_states ss res next) (post next).
Proof.
  induction ss as [|s r IH]; intros res next F H; cbn [flush_states]; [split; [exact H|reflexivity]|]. inversion F as [|? ? F1 F2]; subst.
  eapply sparing_bind; [apply sp_flush_values; [apply in_order_small; exact F1|exact H]|]. intros [next' b] [N1 N2]. cbn [fst] in N1, N2.
  eapply sparing_weaken; [apply IH; assumption|]. intros [P b'] [A1 A2]. split; [exact A1|congruence].
Qed.
Lemma sp_decide : forall decide ev i first count ss, Forall spend ss -> (forall c, In (SFilter c) (map st_sel ss) -> sparing (ev c) yes_) ->
  sparing (decide_all decide ev i first count ss) (fun r => same ss (fst (fst r))).
Proof.
  intros decide ev i first count ss. revert i first count. induction ss as [|s r IH]; intros i first count F EV; cbn [decide_all]; [split; [constructor|reflexivity]|]. inversion F as [|? ? F1 F2]; subst. destruct (st_done s).
  - eapply sparing_bind; [apply IH; [exact F2|intros c C; apply EV; right; exact C]|]. intros [[r' f] c] [R1 R2]. split; cbn in *; [constructor; [exact F1|exact R1]|now rewrite R2].
  - eapply sparing_bind with (P := yes_).
    { destruct (d_yes _); [exact I|]. destruct (d_no _); [exact I|]. destruct (st_sel s) eqn:ES; try exact I. apply EV. left. exact ES. }
    intros sel _. eapply sparing_bind; [apply IH; [exact F2|intros c C; apply EV; right; exact C]|]. intros [[r' f] c] [R1 R2]. split; cbn in *; [constructor; [exact F1|exact R1]|now rewrite R2].
Qed.

(** ------------------------------------------------------------------ *)
(** The loops over the items of a collection. *)
Section Loops.
Variable tv : segment -> value -> proc value -> iprog (proc value * bool).
Variable ev : cond -> value -> iprog bool.
Variable sels : list selector.
Variable next0 : proc value.
Variable following : option segment.
Variable item : value -> Prop.
Hypothesis EV : forall c x, In (SFilter c) sels -> item x -> sparing (ev c x) yes_.
Hypothesis TF : forall g x P, following = Some g -> item x -> psmall P -> sparing (tv g x P) (post P).
Hypothesis NF : following = None -> forall x, item x -> S 0 x.

Definition dok (D : proc value) : Prop := exists cl ss next, D = PDisp cl ss next /\ incl (map st_sel ss) sels /\ Forall spend ss /\ psmall next /\ sels_of next = sels_of next0.
Definition loop_post (r : proc value * bool) : Prop := dok (fst r).
Lemma dok_post : forall cl ss next P, incl (map st_sel ss) sels -> sels_of next = sels_of next0 -> psmall P -> sels_of P = sels_of (PDisp cl ss next) -> dok P.
Proof.
  intros cl ss next P IN N PS E. destruct P as [| | | |cl' ss' next']; try discriminate. cbn in E. injection E as E1 E2. destruct PS as [P1 P2]. exists cl', ss', next'. split; [reflexivity|]. rewrite E1, E2. auto.
Qed.
Lemma sp_dispatch : forall D x decide, dok D -> item x -> sparing (dispatch tv ev D x decide following) loop_post.
Proof.
  intros D x decide [cl [ss [next [-> [IN [F [PN SN]]]]]]] IX. unfold dispatch. cbn [disp_parts]. unfold dispatch_item. destruct ss as [|s0 r0] eqn:ESS; [exists cl, [], next; auto|]. rewrite <- ESS in *. clear ESS.
  eapply sparing_bind; [apply sp_decide; [exact F|intros c C; apply EV; [apply IN; exact C|exact IX]]|]. intros [[ss1 first] count] [A1 A2]. cbn [fst] in A1, A2.
  assert (A3 : forall l1 l2, ss1 = l1 ++ l2 -> Forall spend l2 /\ incl (map st_sel l2) sels).
  { intros l1 l2 E. rewrite E in A1, A2. apply Forall_app in A1 as [_ A1]. split; [exact A1|]. intros y Y. apply IN. rewrite <- A2, map_app. apply in_or_app. now right. }
  eapply sparing_bind with (P := post next).
  { destruct (0 <? first)%nat; [|split; [exact PN|reflexivity]]. apply sp_flush_states; [|exact PN]. rewrite <- (firstn_skipn first ss1) in A1. apply Forall_app in A1. apply A1. }
  intros [next1 r1] [N1 N2]. cbn [fst] in N1, N2. pose proof (A3 _ _ (eq_sym (firstn_skipn first ss1))) as [B1 B2].
  destruct (skipn first ss1) as [|s r]; [exists cl, [], next1; split; [reflexivity|]; split; [intros y []|]; split; [constructor|]; split; [exact N1|congruence]|].
  assert (N3 : sels_of next1 = sels_of next0) by congruence. inversion B1 as [|? ? B3 B4]; subst.
  destruct (negb r1); [exists cl, (s :: r), next1; cbn; auto 10|].
  eapply sparing_bind with (P := fun z => spend (fst (fst z)) /\ st_sel (fst (fst z)) = st_sel s /\ psmall (snd (fst z)) /\ sels_of (snd (fst z)) = sels_of next0).
  { destruct (negb (sel_reverses (st_sel s)) && _); [|cbn; auto]. eapply sparing_bind; [apply sp_flush_values; [apply in_order_small; exact B3|exact N1]|]. intros [next2 r2] [M1 M2]. cbn in M1, M2. cbn. split; [constructor|]. split; [reflexivity|]. split; [exact M1|congruence]. }
  intros [[s' next2] r2] [M1 [M2 [M3 M4]]]. cbn [fst snd] in M1, M2, M3, M4.
  assert (G : forall cl0, psmall (PDisp cl0 (s' :: r) next2) /\ incl (map st_sel (s' :: r)) sels).
  { intro cl0. split; [split; [constructor; assumption|exact M3]|]. cbn [map]. rewrite M2. exact B2. }
  assert (G' : forall cl0, dok (PDisp cl0 (s' :: r) next2)) by (intro cl0; exists cl0, (s' :: r), next2; destruct (G cl0) as [[G1 G2] G3]; auto).
  destruct (negb r2); [apply G'|]. destruct (0 <? count)%nat; [|apply G'].
  assert (K : forall p cl0, sparing p (post (PDisp cl0 (s' :: r) next2)) -> sparing p loop_post).
  { intros p cl0 H. eapply sparing_weaken; [exact H|]. intros [P b] [P1 P2]. eapply dok_post; [apply (G cl0)|exact M4|exact P1|exact P2]. }
  set (cl' := (1 <? count)%nat || negb (st_selected s')). destruct following as [g|] eqn:FO; (eapply K with (cl0 := cl')).
  - apply TF; [reflexivity|exact IX|apply G].
  - apply sp_process; [apply NF; [reflexivity|exact IX]|apply G].
Qed.
Lemma sp_finish : forall D r, dok D -> sparing (finish D r) (post next0).
Proof.
  intros D r [cl [ss [next [-> [IN [F [PN SN]]]]]]]. unfold finish. cbn [disp_parts]. eapply sparing_bind; [apply sp_flush_states; assumption|]. intros [next' b] [N1 N2]. cbn in N1, N2. split; [exact N1|cbn; congruence].
Qed.
Lemma dok_next : forall D next, dok D -> psmall next -> sels_of next = sels_of next0 -> dok (with_next D next).
Proof. intros D next [cl [ss [n1 [-> [IN [F [PN SN]]]]]]] H1 H2. exists cl, ss, next. cbn. auto. Qed.
Lemma dok_snd : forall D, dok D -> psmall (snd (disp_parts D)) /\ sels_of (snd (disp_parts D)) = sels_of next0.
Proof. intros D [cl [ss [n1 [-> [IN [F [PN SN]]]]]]]. cbn. auto. Qed.

Variable v : value.
Hypothesis IT : forall x, item_of v x -> item x.
Section Desc.
Variable seg : segment.
Variable desc : bool.
Hypothesis DE : desc = true -> (forall x, item x -> S 0 x) /\ forall x P, S 0 x -> psmall P -> sparing (tv seg x P) (post P).
Lemma sp_clone_desc : forall A x (k : value -> iprog A) Q, item x -> (forall y, (desc = true -> S 0 y) -> sparing (k y) Q) -> sparing (clone_if desc x k) Q.
Proof. intros A x k Q IX K. destruct desc; cbn [clone_if]; [apply sp_clone; [apply DE; auto|intros y Y; apply K; auto]|apply K; discriminate]. Qed.
Lemma sp_object_relaxed : forall n D, dok D -> sparing (object_relaxed tv ev n seg desc following v D) loop_post.
Proof.
  induction n as [|n IH]; intros D OD; [exact I|]. cbn [object_relaxed WindowSmall.sparing]. intros [|]; [|exact OD]. intros kv KV.
  eapply sparing_bind; [apply sp_need|]. intros key _. eapply sparing_bind; [apply sp_need|]. intros x X. pose proof (IT _ (KV _ X)) as IX.
  apply sp_clone_desc; [exact IX|]. intros x2 X2. eapply sparing_bind; [apply sp_res|]. intros k _. eapply sparing_bind; [apply sp_dispatch; assumption|]. intros [D1 r] OD1. unfold loop_post in OD1. cbn [fst] in OD1.
  destruct (negb r); [apply sp_detach_if; exact OD1|]. destruct desc.
  - destruct (dok_snd D1 OD1) as [Q1 Q2]. eapply sparing_bind; [apply (proj2 (DE eq_refl)); [apply X2; reflexivity|exact Q1]|]. intros [next' r2] [R1 R2]. cbn [fst] in R1, R2. assert (OD2 : dok (with_next D1 next')) by (apply dok_next; [exact OD1|exact R1|congruence]).
    cbn [WindowSmall.sparing]. destruct r2; [apply IH; exact OD2|exact OD2].
  - destruct (no_states D1); [exact OD1|apply IH; exact OD1].
Qed.
Lemma sp_step : forall A ahead neg (k : Z -> iprog A) Q, (forall z, sparing (k z) Q) -> sparing (step_ahead ahead neg k) Q.
Proof. intros A [a|] neg k Q K; cbn; auto. Qed.
Lemma sp_array_relaxed : forall n ahead index neg D, dok D -> sparing (array_relaxed tv ev n seg desc following v ahead index neg D) loop_post.
Proof.
  induction n as [|n IH]; intros ahead index neg D OD; [exact I|]. cbn [array_relaxed WindowSmall.sparing]. intros [|]; [|exact OD]. intros o O1.
  eapply sparing_bind; [apply sp_need|]. intros x X. pose proof (IT _ (O1 _ X)) as IX.
  apply sp_clone_desc; [exact IX|]. intros x2 X2. eapply sparing_bind; [apply sp_dispatch; assumption|]. intros [D1 r] OD1. unfold loop_post in OD1. cbn [fst] in OD1.
  destruct (negb r); [apply sp_detach_if; exact OD1|]. apply sp_step. intro neg'. destruct desc.
  - destruct (dok_snd D1 OD1) as [Q1 Q2]. eapply sparing_bind; [apply (proj2 (DE eq_refl)); [apply X2; reflexivity|exact Q1]|]. intros [next' r2] [R1 R2]. cbn [fst] in R1, R2. assert (OD2 : dok (with_next D1 next')) by (apply dok_next; [exact OD1|exact R1|congruence]).
    cbn [WindowSmall.sparing]. destruct r2; [apply IH; exact OD2|exact OD2].
  - destruct (no_states D1); [exact OD1|apply IH; exact OD1].
Qed.
End Desc.
Lemma sp_object_strict : forall n D, dok D -> sparing (object_strict tv ev n following v D) loop_post.
Proof.
  induction n as [|n IH]; intros D OD; [exact I|]. cbn [object_strict WindowSmall.sparing]. intros [|]; [|exact OD]. intros kv KV.
  eapply sparing_bind; [apply sp_need|]. intros key _. eapply sparing_bind; [apply sp_need|]. intros x X. pose proof (IT _ (KV _ X)) as IX.
  eapply sparing_bind; [apply sp_res|]. intros k _. eapply sparing_bind; [apply sp_dispatch; assumption|]. intros [D1 r] OD1. unfold loop_post in OD1. cbn [fst] in OD1.
  destruct (negb r); [exact OD1|]. destruct (no_states D1); [exact OD1|apply IH; exact OD1].
Qed.
Lemma sp_array_strict : forall n ahead index neg D, dok D -> sparing (array_strict tv ev n following v ahead index neg D) loop_post.
Proof.
  induction n as [|n IH]; intros ahead index neg D OD; [exact I|]. cbn [array_strict WindowSmall.sparing]. intros [|]; [|exact OD]. intros o O1.
  eapply sparing_bind; [apply sp_need|]. intros x X. pose proof (IT _ (O1 _ X)) as IX.
  eapply sparing_bind; [apply sp_dispatch; assumption|]. intros [D1 r] OD1. unfold loop_post in OD1. cbn [fst] in OD1.
  destruct (negb r); [exact OD1|]. apply sp_step. intro neg'. destruct (no_states D1); [exact OD1|apply IH; exact OD1].
Qed.
End Loops.
Lemma sp_descend : forall tv seg, (forall x P, S 0 x -> psmall P -> sparing (tv seg x P) (post P)) -> forall n v P, S 0 v -> psmall P -> sparing (descend tv n seg v P) (post P).
Proof.
  intros tv seg T n v P V. revert P. induction n as [|n IH]; intros P H; [exact I|]. cbn [descend WindowSmall.sparing]. intros [|]; [|split; [exact H|reflexivity]]. intros o O1.
  eapply sparing_bind; [apply sp_need|]. intros x X. eapply sparing_bind; [apply T; [apply (O1 _ X); exact V|exact H]|]. intros [next' r] [R1 R2]. cbn [fst] in R1, R2. destruct r; [|split; [exact R1|exact R2]].
  eapply sparing_weaken; [apply IH; exact R1|]. intros [Q b] [A1 A2]. split; [exact A1|congruence].
Qed.
Lemma sp_look : forall n look a neg, sparing (look_ahead n look a neg) yes_.
Proof. induction n as [|n IH]; intros look a neg; [exact I|]. cbn [look_ahead]. destruct (0 <=? _)%Z; [|exact I]. cbn [WindowSmall.sparing]. intros [|]; [apply IH|exact I]. Qed.
Lemma sp_start : forall A n look v (k : option value -> Z -> iprog A) Q, (0 < look)%Z -> S 0 v -> (forall a z, sparing (k a z) Q) -> sparing (start_ahead n look v k) Q.
Proof. intros A n look v k Q L V K. unfold start_ahead. rewrite (proj2 (Z.ltb_lt _ _) L). apply sp_clone; [exact V|]. intros x X. eapply sparing_bind; [apply sp_look|]. intros z _. apply K. Qed.
Lemma sp_end : forall A a (k : iprog A) Q, sparing k Q -> sparing (end_ahead a k) Q.
Proof. intros A [a|] k Q K; exact K. Qed.

Lemma sp_body : forall tv ev n sels look desc strict following v next (item : value -> Prop),
  (forall c x, In (SFilter c) sels -> item x -> sparing (ev c x) yes_) ->
  (forall g x P, following = Some g -> item x -> psmall P -> sparing (tv g x P) (post P)) ->
  (following = None -> forall x, item x -> S 0 x) ->
  (forall x, item_of v x -> item x) ->
  (desc = false /\ (look <= 0)%Z) \/ (S 0 v /\ (forall x, item x -> S 0 x) /\ forall x P, S 0 x -> psmall P -> sparing (tv (Seg sels look desc strict following) x P) (post P)) ->
  psmall next -> sparing (transform_body tv ev n (Seg sels look desc strict following) v next) (post next).
Proof.
  intros tv ev n sels look desc strict following v next item EV TF NF IT CASE PN. set (seg := Seg sels look desc strict following) in *.
  assert (OD : dok sels next (PDisp false (new_states sels) next)).
  { exists false, (new_states sels), next. split; [reflexivity|]. unfold new_states. rewrite map_map. cbn [st_sel]. rewrite map_id. split; [apply incl_refl|]. split; [|auto]. apply Forall_forall. intros s IN. apply in_map_iff in IN as [y [<- _]]. constructor. }
  assert (DE : desc = true -> S 0 v /\ (forall x, item x -> S 0 x) /\ forall x P, S 0 x -> psmall P -> sparing (tv seg x P) (post P)) by (destruct CASE as [[-> _]|C]; [discriminate|auto]).
  assert (DE2 : desc = true -> (forall x, item x -> S 0 x) /\ forall x P, S 0 x -> psmall P -> sparing (tv seg x P) (post P)) by (intro E; split; apply (DE E)).
  assert (FIN : forall D r, dok sels next D -> sparing (finish D r) (post next)) by (intros; eapply sp_finish; eauto).
  assert (DS : forall D v2, desc = true -> dok sels next D -> S 0 v2 -> forall (k : iprog (proc value * bool) -> iprog (proc value * bool)), (forall p, sparing p (post next) -> sparing (k p) (post next)) ->
    sparing (ilet (next', r2) <- descend tv n seg v2 (snd (disp_parts D)) ; IDetach v2 (k (finish (with_next D next') r2))) (post next)).
  { intros D v2 E OD1 V2 k K. destruct (dok_snd _ _ _ OD1) as [Q1 Q2]. eapply sparing_bind; [apply sp_descend; [apply (DE E)|exact V2|exact Q1]|]. intros [next' r2] [R1 R2]. cbn [fst] in R1, R2. cbn [WindowSmall.sparing]. apply K, FIN. apply dok_next; [exact OD1|exact R1|congruence]. }
  unfold transform_body, seg. fold seg. destruct v as [s|c|c].
  - cbn. split; [exact PN|reflexivity].
  - assert (BODY : forall ahead neg, sparing (if strict then if desc then IClone (VArr c) (fun v2 =>
            ilet (D1, r) <- array_strict tv ev n following (VArr c) ahead 0 neg (PDisp false (new_states sels) next) ;
            if r then ilet (next', r2) <- descend tv n seg v2 (snd (disp_parts D1)) ; IDetach v2 (end_ahead ahead (finish (with_next D1 next') r2))
            else IDetach v2 (end_ahead ahead (finish D1 false)))
          else ilet (D1, r) <- array_strict tv ev n following (VArr c) ahead 0 neg (PDisp false (new_states sels) next) ; end_ahead ahead (finish D1 r)
        else ilet (D1, r) <- array_relaxed tv ev n seg desc following (VArr c) ahead 0 neg (PDisp false (new_states sels) next) ; end_ahead ahead (finish D1 r)) (post next)).
    { intros ahead neg. destruct strict.
      - destruct desc eqn:ED.
        + apply sp_clone; [exact (proj1 (DE eq_refl))|]. intros v2 V2. eapply sparing_bind; [eapply sp_array_strict; eauto|]. intros [D1 r] OD1. destruct r; [|cbn [WindowSmall.sparing]; apply sp_end, FIN; exact OD1].
          apply DS with (k := end_ahead ahead); auto. intros p. apply sp_end.
        + eapply sparing_bind; [eapply sp_array_strict; eauto|]. intros [D1 r] OD1. apply sp_end, FIN. exact OD1.
      - eapply sparing_bind; [eapply sp_array_relaxed; eauto|]. intros [D1 r] OD1. apply sp_end, FIN. exact OD1. }
    destruct (Z.ltb_spec 0 look) as [L|L].
    + apply sp_start; [exact L| |exact BODY]. destruct CASE as [[_ C]|C]; [lia|exact (proj1 C)].
    + unfold start_ahead. assert (LF : (0 <? look)%Z = false) by (apply Z.ltb_ge; exact L). rewrite LF. apply BODY.
  - destruct strict.
    + destruct desc eqn:ED.
      * apply sp_clone; [exact (proj1 (DE eq_refl))|]. intros v2 V2. eapply sparing_bind; [eapply sp_object_strict; eauto|]. intros [D1 r] OD1. destruct r; [|cbn [WindowSmall.sparing]; apply FIN; exact OD1].
        apply DS with (k := fun p => p); auto.
      * eapply sparing_bind; [eapply sp_object_strict; eauto|]. intros [D1 r] OD1. apply FIN. exact OD1.
    + eapply sparing_bind; [eapply sp_object_relaxed; eauto|]. intros [D1 r] OD1. apply FIN. exact OD1.
Qed.

(** ------------------------------------------------------------------ *)
(** Singular queries, functions, conditions. *)
Lemma sp_select_object : forall n name v, S 0 v -> sparing (select_from_object n name v) osmall.
Proof.
  intros n name v V. induction n as [|n IH]; [exact I|]. cbn [select_from_object WindowSmall.sparing]. intros [|]; [|intros x E; discriminate]. intros kv KV.
  eapply sparing_bind; [apply sp_need|]. intros key _. eapply sparing_bind; [apply sp_res|]. intros k _. destruct (bytes_eqb k name); [|exact IH]. intros x X. apply (KV x X). exact V.
Qed.
Lemma sp_select_index : forall n i v ahead index neg, S 0 v -> sparing (select_index n i v ahead index neg) osmall.
Proof.
  intros n i v ahead index neg V. revert index neg. induction n as [|n IH]; intros index neg; [exact I|]. cbn [select_index WindowSmall.sparing]. intros [|]; [|intros x E; discriminate]. intros o O1.
  destruct (d_yes _); [intros x X; apply (O1 x X); exact V|]. apply sp_step. intro z. apply IH.
Qed.
Lemma sp_select_array : forall n i v, S 0 v -> sparing (select_from_array n i v) osmall.
Proof.
  intros n i v V. unfold select_from_array. destruct (0 <? _)%Z; [|apply sp_select_index; exact V]. apply sp_clone; [exact V|]. intros a _. eapply sparing_bind; [apply sp_look|]. intros z _.
  eapply sparing_bind; [apply sp_select_index; exact V|]. intros r R. exact R.
Qed.
Lemma sp_singular : forall n l v, S 0 v -> sparing (eval_singular n l v) osmall.
Proof.
  intros n l. induction l as [|s r IH]; intros v V; cbn [eval_singular]; [intros x X; injection X as <-; exact V|].
  assert (NO : sparing (IRet (@None value)) osmall) by (intros x E; discriminate).
  eapply sparing_bind with (P := osmall); [destruct v as [sc|c|c], s as [nm|i]; try exact NO; [apply sp_select_array; exact V|apply sp_select_object; exact V]|].
  intros [x|] O1; [apply IH, O1; reflexivity|exact NO].
Qed.
Lemma sp_count_items : forall n v c, sparing (count_items n v c) yes_.
Proof. induction n as [|n IH]; intros v c; [exact I|]. cbn [count_items WindowSmall.sparing]. intros [|]; [apply IH|exact I]. Qed.
Lemma osmall_scalar : forall s, osmall (Some (VScalar s)).
Proof. intros s x E. injection E as <-. apply SS. Qed.
Lemma sp_length : forall n o, sparing (run_length n o) osmall.
Proof.
  intros n [[s|c|c]|]; cbn [run_length]; [|eapply sparing_bind; [apply sp_count_items|]; intros; apply osmall_scalar..|intros x E; discriminate].
  destruct (sc_type s); try (intros x E; discriminate). eapply sparing_bind; [apply sp_res|]. intros x _. apply osmall_scalar.
Qed.

Definition argsmall (a : argval) : Prop := match a with RVal o => osmall o | RBool _ => True | RNodes _ v => S 0 v end.
Definition fsmall (r : fresult) : Prop := match r with FVal o => osmall o | FBool _ => True end.
Section Eval.
Variable find : bytes -> bytes -> option (nat * nat).
Notation ctx := (mkCtx [] []).
Section Given.
Variable n : nat.
Variable tv : segment -> value -> proc value -> iprog (proc value * bool).
Variable ec : operand -> value -> iprog (option value).
Variable ev : cond -> value -> iprog bool.
Hypothesis TV : forall seg v P, S 0 v -> psmall P -> sparing (tv seg v P) (post P).
Hypothesis EC : forall c v, S 0 v -> sparing (ec c v) osmall.
Hypothesis EV : forall c v, S 0 v -> sparing (ev c v) yes_.
Lemma sp_map : forall q v P, S 0 v -> psmall P -> sparing (map_value ctx tv n q v P) (post P).
Proof. intros [[seg|]|i] v P V H; cbn [map_value]; [apply TV|apply sp_process|destruct i; exact I]; assumption. Qed.
Lemma sp_function : forall f args, Forall argsmall args -> sparing (run_function find ctx tv n f args) fsmall.
Proof.
  intros f args F. destruct f; destruct args as [|a [|b [|c r]]]; try exact I; inversion F as [|? ? F1 F2]; subst; try (destruct a; exact I); cbn [run_function].
  - destruct a; try exact I. eapply sparing_bind; [apply sp_length|]. intros r R. exact R.
  - destruct a as [| |q v]; try exact I. eapply sparing_bind; [apply sp_map; [exact F1|exact I]|]. intros [P b] _. destruct P; try exact I. apply osmall_scalar.
  - eapply sparing_bind; [apply sp_res|]. intros l _. exact I.
  - eapply sparing_bind; [apply sp_res|]. intros l _. exact I.
  - destruct a as [| |q v]; try exact I. eapply sparing_bind; [apply sp_map; [exact F1|exact I]|]. intros [P b] [H _]. destruct P as [| | |o|]; try exact I. cbn in H. intros x E. subst o. exact H.
Qed.
Lemma sp_args : forall tys args v acc k, S 0 v -> Forall argsmall acc -> (forall l, Forall argsmall l -> sparing (k l) fsmall) -> sparing (run_args ec ev tys args v acc k) fsmall.
Proof.
  induction tys as [|ty tys IH]; intros args v acc k V F K; (destruct args as [|a args]; [cbn; apply K; now apply Forall_rev|]); [exact I|].
  destruct ty, a as [c|c|q]; try exact I; cbn [run_args].
  - apply sp_clone; [exact V|]. intros x X. eapply sparing_bind; [apply EC; exact X|]. intros o O1. eapply sparing_bind; [apply IH; [exact V|constructor; [exact O1|exact F]|exact K]|]. intros r R. exact R.
  - eapply sparing_bind; [apply EV; exact V|]. intros b _. apply IH; [exact V|constructor; [exact I|exact F]|exact K].
  - eapply sparing_bind; [apply EV; exact V|]. intros b _. apply IH; [exact V|constructor; [exact I|exact F]|exact K].
  - apply IH; [exact V|constructor; [exact V|exact F]|exact K].
Qed.
Lemma sp_run_fun : forall f args v, S 0 v -> sparing (run_fun find ctx tv ec ev n f args v) fsmall.
Proof. intros f args v V. unfold run_fun. apply sp_args; [exact V|constructor|]. intros l L. apply sp_function. exact L. Qed.
Lemma sp_any : forall l v, S 0 v -> sparing (any_true ev l v) yes_.
Proof. intros l v V. induction l as [|c r IH]; [exact I|]. cbn [any_true]. eapply sparing_bind; [apply EV; exact V|]. intros [|] _; [exact I|exact IH]. Qed.
Lemma sp_all : forall l v, S 0 v -> sparing (all_true ev l v) yes_.
Proof. intros l v V. induction l as [|c r IH]; [exact I|]. cbn [all_true]. eapply sparing_bind; [apply EV; exact V|]. intros [|] _; [exact IH|exact I]. Qed.
Lemma sp_clone_opt : forall A o (k : option value -> iprog A) Q, osmall o -> (forall x, osmall x -> sparing (k x) Q) -> sparing (clone_opt o k) Q.
Proof. intros A [x|] k Q O1 K; cbn [clone_opt]; [apply sp_clone; [apply O1; reflexivity|intros y Y; apply K; intros z E; injection E as <-; exact Y]|apply K; exact O1]. Qed.
Lemma sp_detach_opt : forall A o (k : iprog A) Q, sparing k Q -> sparing (detach_opt o k) Q.
Proof. intros A [x|] k Q K; exact K. Qed.
Lemma sp_compare : forall x eq lt neg y v, S 0 v -> sparing (compare_values ec n x eq lt neg y v) yes_.
Proof.
  intros x eq lt neg y v V. unfold compare_values. apply sp_clone; [exact V|]. intros v1 V1. apply sp_clone; [exact V|]. intros v2 V2. eapply sparing_bind; [apply EC; exact V1|]. intros l L. apply sp_clone_opt; [exact L|]. intros l' L'.
  eapply sparing_bind; [apply EC; exact V2|]. intros r R. apply sp_clone_opt; [exact R|]. intros r' R'.
  eapply sparing_bind with (P := yes_); [destruct eq; [apply sp_values_equal; assumption|exact I]|]. intros b _.
  eapply sparing_bind with (P := yes_).
  { destruct (negb b && lt); [|exact I]. unfold check_less. destruct l' as [[s|c|c]|], r' as [[t|c'|c']|]; try exact I. eapply sparing_weaken; [apply sp_res|exact (fun _ _ => I)]. }
  intros b' _. apply sp_detach_opt, sp_detach_opt. exact I.
Qed.
End Given.

Lemma sp_eval : forall n,
  (forall seg v P, S 0 v -> psmall P -> sparing (transform_value find ctx n seg v P) (post P)) /\
  (forall c v, S 0 v -> sparing (eval_cond find ctx n c v) yes_) /\
  (forall c v, S 0 v -> sparing (eval_comp find ctx n c v) osmall).
Proof.
  induction n as [|n [IT [IV IC]]]; [split; [|split]; intros; exact I|]. split; [|split].
  - intros [sels look desc strict following] v P V H. cbn [transform_value]. apply sp_body with (item := S 0); auto. intros x X. apply X. exact V.
  - intros c v V. cbn [eval_cond]. destruct c as [l|l|c'|x eq lt neg y|q|f args].
    + apply sp_any; assumption.
    + apply sp_all; assumption.
    + eapply sparing_bind; [apply IV; exact V|]. intros b _. exact I.
    + apply sp_compare; assumption.
    + apply sp_clone; [exact V|]. intros x X. eapply sparing_bind; [apply sp_map; [exact IT|exact X|exact I]|]. intros [P r] _. exact I.
    + eapply sparing_bind; [apply sp_run_fun; assumption|]. intros [o|b] R; exact I.
  - intros c v V. cbn [eval_comp]. destruct c as [s|l|i|f args].
    + apply osmall_scalar.
    + apply sp_singular. exact V.
    + destruct i; exact I.
    + eapply sparing_bind; [apply sp_run_fun; assumption|]. intros [o|b] R; [exact R|exact I].
Qed.

(** ------------------------------------------------------------------ *)
(** [d] segments that keep nothing, then one whose items are small. *)
Fixpoint reaching (d : nat) (seg : segment) : Prop :=
  match d with
  | O => match seg with Seg sels look desc _ _ => desc = false /\ (look <= 0)%Z end
  | Sc d' => match seg with Seg sels look desc _ following => desc = false /\ (look <= 0)%Z /\ (forall c, ~ In (SFilter c) sels) /\ exists g, following = Some g /\ reaching d' g end
  end.
Lemma sp_reaching : forall n d seg v P, reaching d seg -> S (Sc d) v -> psmall P -> sparing (transform_value find ctx n seg v P) (post P).
Proof.
  induction n as [|n IH]; intros d [sels look desc strict following] v P R V H; [exact I|]. cbn [transform_value]. destruct (sp_eval n) as [IT [IV IC]]. destruct d as [|d].
  - destruct R as [-> L]. apply sp_body with (item := S 0); auto. intros x [X _]. apply X. exact V.
  - destruct R as [-> [L [NF [g [-> R]]]]]. apply sp_body with (item := S (Sc d)); auto.
    + intros c x C. destruct (NF c C).
    + intros g' x P' E X HP. injection E as <-. eapply IH; eauto.
    + discriminate.
    + intros x [X _]. apply X. exact V.
Qed.
Definition reaching_runner (d : nat) (r : runner) : Prop := rn_singular r = [] /\ rn_queries r = [] /\ match rn_main r with QFirst (Some seg) => reaching d seg | _ => False end.
Lemma sp_query : forall n d r v, reaching_runner d r -> S (Sc d) v -> sparing (run_query find n r v) yes_.
Proof.
  intros n d r v [R1 [R2 R3]] V. unfold run_query, compute_context. rewrite R1, R2. cbn [run_singular run_queries ibind]. destruct (rn_main r) as [[seg|]|i]; try contradiction.
  cbn [map_value]. eapply sparing_bind; [eapply sp_reaching; [exact R3|exact V|exact I]|]. intros [P b] _. destruct P; exact I.
Qed.
Theorem sp_stream : forall n d r m i, top = Sc d -> reaching_runner d r -> sparing (transform_values (run_query find n r) m i) yes_.
Proof.
  intros n d r m i T R. induction m as [|m IH]; [exact I|]. cbn [transform_values WindowSmall.sparing]. intros [|]; [|exact I]. intros o O1. eapply sparing_bind; [apply sp_need|]. intros v ->.
  eapply sparing_bind; [eapply sp_query; [exact R|rewrite <- T; apply O1; reflexivity]|]. intros ts _. eapply sparing_bind; [exact IH|]. intros r' _. exact I.
Qed.
End Eval.
End Engine.

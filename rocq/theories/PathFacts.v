(** Facts about the runner on values: the dispatchers behind a processor stay. *)
From Coq Require Import List ZArith NArith Arith Bool Lia.
From Verif Require Import Base Tokens JsonSpec EncSpec SelectModel PathModel PathAbs.

(** A dispatcher without its pending values. *)
Definition bare (s : state jval) : selector * bool * bool := (st_sel s, st_selected s, st_done s).
Fixpoint skel (Q : proc jval) : list (bool * list (selector * bool * bool)) :=
  match Q with PDisp cl ss next => (cl, map bare ss) :: skel next | _ => [] end.

Lemma bare_push : forall cl x ss, map bare (map (apush cl x) ss) = map bare ss.
Proof.
  intros cl x ss. rewrite map_map. apply map_ext. intros [sel b p d]. unfold apush, bare. now destruct b.
Qed.
Lemma skel_process : forall Q x, skel (fst (aprocess Q x)) = skel Q.
Proof.
  induction Q as [out| |n|[y|]|cl ss next IH]; intro x; try reflexivity. cbn [aprocess]. destruct ss as [|s r]; [reflexivity|].
  destruct (st_selected s && negb (sel_reverses (st_sel s))).
  - specialize (IH x). destruct (aprocess next x) as [n' b]. destruct b; cbn [fst skel map] in *; rewrite IH; [now rewrite bare_push|reflexivity].
  - cbn [fst skel]. now rewrite bare_push.
Qed.
Lemma skel_feed : forall l Q, skel (fst (feed Q l)) = skel Q.
Proof.
  induction l as [|x l IH]; intro Q; [reflexivity|]. cbn [feed]. pose proof (skel_process Q x) as H. destruct (aprocess Q x) as [Q' b].
  cbn [fst] in *. destruct b; [rewrite IH|]; exact H.
Qed.
Lemma skel_flush : forall ss r Q, skel (fst (aflush_states ss r Q)) = skel Q.
Proof.
  induction ss as [|s ss IH]; intros r Q; [reflexivity|]. cbn [aflush_states]. unfold aflush_values.
  assert (H : skel (fst (if r then feed Q (map fst (in_order s)) else (Q, false))) = skel Q) by (destruct r; [apply skel_feed|reflexivity]).
  destruct (if r then _ else _) as [Q' b]. cbn [fst] in *. now rewrite IH.
Qed.

(** Deciding: only the flags change. *)
Lemma adecide_spec : forall taken dec ss i f c, exists f' , adecide taken dec i f c ss =
  (map (fun s => if st_done s then mkState (st_sel s) false (st_pending s) true
                 else mkState (st_sel s) (taken (st_sel s)) (st_pending s) (d_nomore (dec (st_sel s)))) ss, f',
   c + length (filter (fun s => negb (st_done s) && taken (st_sel s)) ss)).
Proof.
  intros taken dec. induction ss as [|s ss IH]; intros i f c; cbn [adecide map filter length].
  - exists f. now rewrite Nat.add_0_r.
  - destruct (st_done s) eqn:E; cbn [negb andb].
    + destruct (IH (S i) (if f =? i then S f else f) c) as [f' ->]. eauto.
    + destruct (IH (S i) (if d_nomore (dec (st_sel s)) && negb (taken (st_sel s)) && (f =? i) then S f else f)
                   (if taken (st_sel s) then S c else c)) as [f' ->]. exists f'. f_equal. destruct (taken (st_sel s)); cbn [length]; lia.
Qed.

(** The states of a dispatcher come from earlier ones that were not done. *)
Definition comes (dec : selector -> decision) (ss ss2 : list (state jval)) : Prop :=
  forall s, In s ss2 -> st_done s = false ->
  d_nomore (dec (st_sel s)) = false /\ exists s0, In s0 ss /\ st_sel s0 = st_sel s /\ st_done s0 = false.
Lemma comes_bare : forall dec ss a b, comes dec ss a -> map bare b = map bare a -> comes dec ss b.
Proof.
  intros dec ss a b C E s I D. assert (J : In (bare s) (map bare a)) by (rewrite <- E; now apply in_map).
  apply in_map_iff in J as [s' [B J]]. unfold bare in B. injection B as B1 B2 B3. rewrite <- B1. apply C; [exact J|congruence].
Qed.
Lemma comes_decide : forall taken dec ss i f c ss1 f' c', adecide taken dec i f c ss = (ss1, f', c') -> comes dec ss ss1.
Proof.
  intros taken dec ss i f c ss1 f' c' E. destruct (adecide_spec taken dec ss i f c) as [g H]. rewrite H in E. injection E as <- _ _.
  intros s I D. apply in_map_iff in I as [s0 [<- I]]. destruct (st_done s0) eqn:E; [discriminate|]. cbn [st_sel st_done] in *.
  split; [exact D|]. exists s0. auto.
Qed.
Lemma in_skipn : forall A (x : A) n l, In x (skipn n l) -> In x l.
Proof. intros A x n. induction n as [|n IH]; intros [|y l] I; cbn [skipn] in I; auto. right. auto. Qed.
Lemma comes_sub : forall dec ss a b, comes dec ss a -> incl b a -> comes dec ss b.
Proof. intros dec ss a b C I s J. apply C. auto. Qed.

Definition states_of {V} (D : proc V) : list (state V) := snd (fst (disp_parts D)).
Definition next_of {V} (D : proc V) : proc V := snd (disp_parts D).
Definition is_disp {V} (D : proc V) : Prop := match D with PDisp _ _ _ => True | _ => False end.

Lemma skel_disp : forall D D', is_disp D -> skel D' = skel D ->
  is_disp D' /\ map bare (states_of D') = map bare (states_of D) /\ skel (next_of D') = skel (next_of D).
Proof.
  intros D D' I E. destruct D as [| | | |cl ss Q]; try contradiction. destruct D' as [| | | |cl' ss' Q']; try discriminate.
  cbn in E |- *. injection E as E1 E2. auto.
Qed.

Lemma dispatch_keeps : forall f taken dec D y, is_disp D -> (forall Q, skel (fst (f y Q)) = skel Q) ->
  let D1 := fst (adispatch f taken dec D y) in
  is_disp D1 /\ skel (next_of D1) = skel (next_of D) /\ comes dec (states_of D) (states_of D1) /\
  (states_of D = [] -> states_of D1 = []).
Proof.
  intros f taken dec D y ID K. destruct D as [| | | |cl ss Q]; try contradiction. unfold adispatch. cbn [disp_parts]. unfold states_of, next_of.
  destruct ss as [|s0 ss0]; [cbn; split; [exact I|split; [reflexivity|split; [intros s []|auto]]]|].
  set (ss := s0 :: ss0) in *. cbn [disp_parts fst snd]. destruct (adecide taken dec 0 0 0 ss) as [[ss1 first] count] eqn:ED.
  pose proof (comes_decide _ _ _ _ _ _ _ _ _ ED) as CM.
  assert (SF : skel (fst (if (0 <? first)%nat then aflush_states (firstn first ss1) true Q else (Q, true))) = skel Q)
    by (destruct (0 <? first)%nat; [apply skel_flush|reflexivity]).
  destruct (if (0 <? first)%nat then _ else _) as [Q1 r1]. cbn [fst] in SF.
  destruct (skipn first ss1) as [|s r] eqn:SK; [cbn; split; [exact I|split; [exact SF|split; [intros s []|auto]]]|].
  assert (CM' : comes dec ss (s :: r)) by (eapply comes_sub; [exact CM|]; rewrite <- SK; intros z; apply in_skipn).
  assert (NE : forall P : Prop, (ss = [] -> P)) by (intros P H; discriminate H).
  destruct r1; cbn [negb]; [|cbn [fst snd disp_parts is_disp]; split; [exact I|split; [assumption|split; [assumption|apply NE]]]].
  match goal with |- context [if ?c then let '(_, _) := aflush_values (in_order s) true Q1 in _ else _] =>
    assert (E2 : exists s' Q2 r2, (if c then let '(next2, r2) := aflush_values (in_order s) true Q1 in (clear s, next2, r2) else (s, Q1, true)) = (s', Q2, r2)
      /\ bare s' = bare s /\ skel Q2 = skel Q) end.
  { destruct (negb (sel_reverses (st_sel s)) && _).
    - unfold aflush_values. pose proof (skel_feed (map fst (in_order s)) Q1) as H. destruct (feed _ _) as [Q2 r2]. cbn [fst] in H.
      exists (clear s), Q2, r2. split; [reflexivity|]. split; [reflexivity|congruence].
    - exists s, Q1, true. auto. }
  destruct E2 as [s' [Q2 [r2 [-> [BS SK2]]]]].
  assert (CM2 : comes dec ss (s' :: r)) by (eapply comes_bare; [exact CM'|cbn [map]; now rewrite BS]).
  destruct r2; cbn [negb]; [|cbn [fst snd disp_parts is_disp]; split; [exact I|split; [assumption|split; [assumption|apply NE]]]].
  destruct (0 <? count)%nat; [|cbn [fst snd disp_parts is_disp]; split; [exact I|split; [assumption|split; [assumption|apply NE]]]].
  match goal with |- context [f y ?D] => set (D0 := D) end. specialize (K D0). destruct (skel_disp D0 (fst (f y D0)) I K) as [I1 [B1 N1]].
  split; [exact I1|]. split; [unfold next_of in N1; rewrite N1; exact SK2|]. split; [|apply NE]. eapply comes_bare; [exact CM2|exact B1].
Qed.

Lemma with_next_disp : forall (D : proc jval) Q, is_disp D -> is_disp (with_next D Q) /\ states_of (with_next D Q) = states_of D /\ next_of (with_next D Q) = Q.
Proof. intros [| | | |cl ss R] Q I; try contradiction. cbn. auto. Qed.

Lemma relaxed_keeps : forall f holds desc its D, is_disp D -> (forall i, In i its -> forall Q, skel (fst (f (it_val i) Q)) = skel Q) ->
  (desc = true -> forall i, In i its -> forall Q, skel (fst (it_res i Q)) = skel Q) ->
  let D1 := fst (arelaxed f holds desc its D) in is_disp D1 /\ skel (next_of D1) = skel (next_of D).
Proof.
  intros f holds desc. induction its as [|i its IH]; intros D ID K KR; [cbn; auto|]. cbn [arelaxed].
  destruct (dispatch_keeps f (fun s => takes_item (holds s) s i) (it_dec i) D (it_val i) ID (K i (or_introl eq_refl))) as [I1 [N1 _]].
  destruct (adispatch _ _ _ _ _) as [D1 r]. cbn [fst] in *. destruct r; cbn [negb]; [|auto]. destruct desc.
  - specialize (KR eq_refl). pose proof (KR i (or_introl eq_refl) (next_of D1)) as H. fold (next_of D1). destruct (it_res i (next_of D1)) as [Q' r2]. cbn [fst] in H.
    destruct (with_next_disp D1 Q' I1) as [W1 [W2 W3]].
    destruct r2; [|cbn [fst]; rewrite W3; split; [exact W1|congruence]].
    destruct (IH (with_next D1 Q') W1 (fun j J => K j (or_intror J)) (fun _ j J => KR j (or_intror J))) as [A B]. split; [exact A|congruence].
  - destruct (no_states D1); [cbn [fst]; auto|]. destruct (IH D1 I1 (fun j J => K j (or_intror J)) (fun E => ltac:(discriminate))) as [A B]. split; [exact A|congruence].
Qed.
Lemma strict_keeps : forall f holds its D, is_disp D -> (forall i, In i its -> forall Q, skel (fst (f (it_val i) Q)) = skel Q) ->
  let D1 := fst (astrict f holds its D) in is_disp D1 /\ skel (next_of D1) = skel (next_of D).
Proof.
  intros f holds. induction its as [|i its IH]; intros D ID K; [cbn; auto|]. cbn [astrict].
  destruct (dispatch_keeps f (fun s => takes_item (holds s) s i) (it_dec i) D (it_val i) ID (K i (or_introl eq_refl))) as [I1 [N1 _]].
  destruct (adispatch _ _ _ _ _) as [D1 r]. cbn [fst] in *. destruct r; cbn [negb]; [|auto].
  destruct (no_states D1); [cbn [fst]; auto|]. destruct (IH D1 I1 (fun j J => K j (or_intror J))) as [A B]. split; [exact A|congruence].
Qed.
Lemma descend_keeps : forall its Q, (forall i, In i its -> forall Q, skel (fst (it_res i Q)) = skel Q) -> skel (fst (adescend its Q)) = skel Q.
Proof.
  induction its as [|i its IH]; intros Q K; [reflexivity|]. cbn [adescend]. pose proof (K i (or_introl eq_refl) Q) as H.
  destruct (it_res i Q) as [Q' r]. cbn [fst] in H. destruct r; [|exact H]. rewrite IH; [exact H|]. intros j J. apply K. now right.
Qed.
Lemma finish_keeps : forall D r, is_disp D -> skel (fst (afinish D r)) = skel (next_of D).
Proof. intros [| | | |cl ss Q] r I; try contradiction. cbn. apply skel_flush. Qed.

Lemma run_keeps : forall f holds sels desc strict its Q, (forall i, In i its -> forall Q, skel (fst (f (it_val i) Q)) = skel Q) ->
  (desc = true -> forall i, In i its -> forall Q, skel (fst (it_res i Q)) = skel Q) ->
  skel (fst (arun f holds sels desc strict its Q)) = skel Q.
Proof.
  intros f holds sels desc strict its Q K KR. unfold arun. destruct strict.
  - destruct (strict_keeps f holds its (PDisp false (new_states sels) Q) I K) as [A B]. destruct (astrict _ _ _ _) as [D1 r]. cbn [fst] in *.
    destruct desc.
    + destruct r; [|now rewrite finish_keeps].
      pose proof (descend_keeps its (next_of D1) (KR eq_refl)) as H. fold (next_of D1). destruct (adescend its (next_of D1)) as [Q' r2]. cbn [fst] in H.
      destruct (with_next_disp D1 Q' A) as [W1 [W2 W3]]. rewrite finish_keeps by exact W1. rewrite W3. etransitivity; [exact H|exact B].
    + now rewrite finish_keeps.
  - destruct (relaxed_keeps f holds desc its (PDisp false (new_states sels) Q) I K KR) as [A B]. destruct (arelaxed _ _ _ _ _) as [D1 r]. cbn [fst] in *.
    now rewrite finish_keeps.
Qed.

(** The items of a collection. *)
Lemma in_annot_arr : forall R look (l : list (jval * R)) s index i, In i (annot_arr look s index l) -> In (it_val i, it_res i) l.
Proof.
  intros R look. induction l as [|y l IH]; intros s index i I; [destruct I|]. destruct I as [<-|I]; [left; now destruct y|right; eauto].
Qed.
Lemma in_annot : forall R look x (go : jval -> R) i, In i (annot look x go) ->
  it_res i = go (it_val i) /\ match x with JScalar _ => False | JArr l _ => In (it_val i) l | JObj l _ => exists k, In (k, it_val i) l end.
Proof.
  intros R look [s|l e|l e] go i I; cbn [annot] in I.
  - destruct I.
  - apply in_annot_arr in I. apply in_map_iff in I as [y [E I]]. injection E as <- <-. auto.
  - unfold annot_obj in I. apply in_map_iff in I as [m [<- I]]. apply in_map_iff in I as [[k y] [<- I]]. cbn. split; [reflexivity|]. eauto.
Qed.

Lemma trans_keeps : forall holds seg x Q, skel (fst (atrans holds seg x Q)) = skel Q.
Proof.
  intros holds. fix IH 1. intros [sels look desc strict following].
  assert (K : forall y Q, skel (fst (afollow holds following y Q)) = skel Q).
  { intros y Q. destruct following as [s|]; [apply IH|apply skel_process]. }
  clear IH. induction x as [s|l e IHx|l e IHx] using jval_induction; intro Q; rewrite atrans_eq; [reflexivity| |].
  - apply run_keeps; [auto|]. intros _ i I. apply in_annot in I as [-> I]. now apply (proj1 (Forall_forall _ _) IHx).
  - apply run_keeps; [auto|]. intros _ i I. apply in_annot in I as [-> [k I]]. exact (proj1 (Forall_forall _ _) IHx (k, it_val i) I).
Qed.
Lemma follow_keeps : forall holds following y Q, skel (fst (afollow holds following y Q)) = skel Q.
Proof. intros holds [s|] y Q; [apply trans_keeps|apply skel_process]. Qed.

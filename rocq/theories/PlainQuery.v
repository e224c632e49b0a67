(** Queries of which each segment has one selector, which neither is a filter
    nor counts from the end, run as in Plain.v. *)
From Coq Require Import List ZArith Arith Bool Lia.
From Verif Require Import Base Tokens CursorModel IterModel EqualModel SplitModel SelectModel PathModel PathTop StreamModel Plain.

Definition slim_sel (s : selector) : Prop := sel_reverses s = false /\ match s with SFilter _ => False | _ => True end.
Fixpoint slim (seg : segment) : Prop :=
  match seg with
  | Seg sels look desc _ following =>
      (look <= 0)%Z /\ desc = false /\ (exists s, sels = [s] /\ slim_sel s) /\
      match following with Some g => slim g | None => True end
  end.
Definition calm (cl : bool) (s : state value) : Prop := slim_sel (st_sel s) /\ st_pending s = [] /\ (st_selected s = true -> cl = false).
Fixpoint thin (acc : list token) (P : proc value) : Prop :=
  match P with
  | PWrite out => out = acc
  | PDisp cl ss next => thin acc next /\ (ss = [] \/ exists s, ss = [s] /\ calm cl s)
  | _ => False
  end.
Notation post := (fun _ acc' r => thin acc' (fst r)).

Lemma track_process : forall P v acc, thin acc P -> track post (FVal v) acc (process P v).
Proof.
  induction P as [out| | | |cl ss next IH]; intros v acc T; cbn [thin] in T; try contradiction; cbn [process].
  - split; [reflexivity|]. intro ts. cbn. now rewrite T.
  - destruct T as [TN [->|[s [-> [SL [PE CL]]]]]]; [cbn; auto|]. destruct (st_selected s) eqn:SE.
    + rewrite (CL eq_refl). cbn [clone_if detach_if]. rewrite (proj1 SL). eapply track_bind; [apply IH; exact TN|].
      intros f' acc' [next' b] T'. cbn [fst] in T'. assert (K : thin acc' (PDisp false [s] next')) by (split; [exact T'|right; exists s; split; [reflexivity|split; [exact SL|split; auto]]]).
      destruct b; exact K.
    + cbn. split; [exact TN|]. right. exists s. split; [reflexivity|]. split; [exact SL|]. split; [exact PE|congruence].
Qed.

Section Loops.
Variable tv : segment -> value -> proc value -> iprog (proc value * bool).
Variable ev : cond -> value -> iprog bool.
Hypothesis TV : forall seg v P f acc, slim seg -> thin acc P -> track post f acc (tv seg v P).
Definition slim_opt (o : option segment) : Prop := match o with Some g => slim g | None => True end.

Lemma track_dispatch : forall D v decide following acc, thin acc D -> slim_opt following ->
  track post (FVal v) acc (dispatch tv ev D v decide following).
Proof.
  intros D v decide following acc T SF. unfold dispatch, dispatch_item. destruct D as [out| | | |cl ss next]; cbn [disp_parts]; try contradiction; [split; [exact T|now left]|].
  destruct T as [TN [->|[s [-> [SL [PE CL]]]]]]; [cbn; auto|].
  assert (K : forall c s1, calm c s1 -> thin acc (PDisp c [s1] next)) by (intros c s1 C; split; [exact TN|eauto]).
  cbn [decide_all]. destruct (st_done s) eqn:DO; cbn [ibind].
  - cbn -[thin]. rewrite PE. unfold PathModel.in_order. cbn. rewrite (proj1 SL). cbn. auto.
  - assert (E : forall b : bool, track post (FVal v) acc
        (ilet (ss1, first, count) <- IRet ([mkState (st_sel s) b (st_pending s) (d_nomore (decide (st_sel s)))],
             (if d_nomore (decide (st_sel s)) && negb b && (0 =? 0) then 1 else 0), (if b then 1 else 0)) ;
         ilet (next1, r1) <- (if 0 <? first then flush_states (firstn first ss1) true next else IRet (next, true)) ;
         match skipn first ss1 with
         | [] => IRet (PDisp cl [] next1, r1)
         | s :: r =>
          if negb r1 then IRet (PDisp cl (s :: r) next1, false)
          else
            ilet (s', next2, r2) <-
              (if negb (sel_reverses (st_sel s)) && negb (match st_pending s with [] => true | _ => false end)
               then ilet (next2, r2) <- flush_values (PathModel.in_order s) true next1 ; IRet (clear s, next2, r2)
               else IRet (s, next1, true)) ;
            if negb r2 then IRet (PDisp cl (s' :: r) next2, false)
            else if (0 <? count)%nat then
              let cl' := (1 <? count)%nat || negb (st_selected s') in
              match following with
              | None => process (PDisp cl' (s' :: r) next2) v
              | Some seg => tv seg v (PDisp cl' (s' :: r) next2)
              end
            else IRet (PDisp cl (s' :: r) next2, true)
         end)).
    { intro b. cbn [ibind]. rewrite PE. destruct b.
      - cbn [negb andb]. rewrite andb_false_r. cbn [andb Nat.ltb Nat.leb ibind skipn st_sel st_pending st_selected negb]. rewrite andb_false_r. cbn [ibind negb Nat.ltb Nat.leb orb st_selected].
        assert (C : thin acc (PDisp false [mkState (st_sel s) true [] (d_nomore (decide (st_sel s)))] next)) by (apply K; split; [exact SL|split; auto]).
        destruct following as [g|]; [apply TV; [exact SF|exact C]|apply track_process; exact C].
      - cbn [negb]. cbn [Nat.eqb]. rewrite ?andb_true_r. destruct (d_nomore _).
        + cbn [Nat.ltb Nat.leb firstn flush_states]. unfold PathModel.in_order. cbn [st_sel st_pending]. rewrite (proj1 SL). cbn. auto.
        + cbn [Nat.ltb Nat.leb ibind skipn negb st_sel st_pending]. rewrite andb_false_r. cbn [ibind negb Nat.ltb Nat.leb]. apply K. split; [exact SL|split; [reflexivity|discriminate]]. }
    destruct (d_yes (decide (st_sel s))); [exact (E true)|]. destruct (d_no (decide (st_sel s))); [exact (E false)|].
    destruct (st_sel s) as [nm| |p|c] eqn:SS; try exact (E false). destruct SL as [_ []].
Qed.

Lemma track_need : forall A B (o : option A) (k : A -> iprog B) Q f acc, (forall x, o = Some x -> track Q f acc (k x)) -> track Q f acc (ilet x <- need o ; k x).
Proof. intros A B [x|] k Q f acc H; cbn; auto. Qed.
Lemma track_of_res : forall A B (o : res A) (k : A -> iprog B) Q f acc, (forall x, track Q f acc (k x)) -> track Q f acc (ilet x <- of_res o ; k x).
Proof. intros A B [x| |] k Q f acc H; cbn; auto. Qed.
Lemma coll_refl : forall v, (exists s, v = VScalar s) \/ coll_eqb v v = true.
Proof. intros [s|c|c]; [left; eauto|right; cbn; apply Nat.eqb_refl..]. Qed.

Lemma track_object : forall n seg following v D f acc, coll_eqb v v = true -> thin acc D -> slim_opt following -> track post f acc (object_relaxed tv ev n seg false following v D).
Proof.
  induction n as [|n IH]; intros seg following v D f acc V T S0; cbn [object_relaxed]; [exact I|]. split; [|exact T].
  intros key o. cbn [recent_of]. cbn [fst snd]. apply track_need. intros k _. apply track_need. intros x ->. rewrite V. cbn [clone_if detach_if].
  apply track_of_res. intro kb. eapply track_bind; [apply track_dispatch; [exact T|exact S0]|].
  intros f' acc' [D1 r] T1. cbn [fst] in T1. destruct r; cbn [negb]; [|exact T1]. destruct (no_states D1); [exact T1|]. now apply IH.
Qed.
Lemma track_object_strict : forall n following v D f acc, coll_eqb v v = true -> thin acc D -> slim_opt following -> track post f acc (object_strict tv ev n following v D).
Proof.
  induction n as [|n IH]; intros following v D f acc V T S0; cbn [object_strict]; [exact I|]. split; [|exact T].
  intros key o. cbn [recent_of]. cbn [fst snd]. apply track_need. intros k _. apply track_need. intros x ->. rewrite V.
  apply track_of_res. intro kb. eapply track_bind; [apply track_dispatch; [exact T|exact S0]|].
  intros f' acc' [D1 r] T1. cbn [fst] in T1. destruct r; cbn [negb]; [|exact T1]. destruct (no_states D1); [exact T1|]. now apply IH.
Qed.
Lemma track_array : forall n seg following v index neg D f acc, coll_eqb v v = true -> thin acc D -> slim_opt following -> track post f acc (array_relaxed tv ev n seg false following v None index neg D).
Proof.
  induction n as [|n IH]; intros seg following v index neg D f acc V T S0; cbn [array_relaxed]; [exact I|]. split; [|exact T].
  intro o. cbn [recent_of]. apply track_need. intros x ->. rewrite V. cbn [clone_if detach_if].
  eapply track_bind; [apply track_dispatch; [exact T|exact S0]|].
  intros f' acc' [D1 r] T1. cbn [fst] in T1. destruct r; cbn [negb]; [|exact T1]. cbn [step_ahead]. destruct (no_states D1); [exact T1|]. now apply IH.
Qed.
Lemma track_array_strict : forall n following v index neg D f acc, coll_eqb v v = true -> thin acc D -> slim_opt following -> track post f acc (array_strict tv ev n following v None index neg D).
Proof.
  induction n as [|n IH]; intros following v index neg D f acc V T S0; cbn [array_strict]; [exact I|]. split; [|exact T].
  intro o. cbn [recent_of]. apply track_need. intros x ->. rewrite V.
  eapply track_bind; [apply track_dispatch; [exact T|exact S0]|].
  intros f' acc' [D1 r] T1. cbn [fst] in T1. destruct r; cbn [negb]; [|exact T1]. cbn [step_ahead]. destruct (no_states D1); [exact T1|]. now apply IH.
Qed.
Lemma track_finish : forall D r f acc, thin acc D -> track post f acc (finish D r).
Proof.
  intros D r f acc T. unfold finish. destruct D as [out| | | |cl ss next]; cbn [disp_parts]; try contradiction; [exact T|].
  destruct T as [TN [->|[s [-> [SL [PE CL]]]]]]; [exact TN|]. cbn [flush_states]. unfold PathModel.in_order. rewrite (proj1 SL), PE. exact TN.
Qed.
Lemma track_body : forall n seg v P f acc, slim seg -> thin acc P -> track post f acc (transform_body tv ev n seg v P).
Proof.
  intros n [sels look desc strict following] v P f acc [LK [-> [[s [-> SL]] SF]]] T. cbn [transform_body].
  assert (N : thin acc (PDisp false (new_states [s]) P)) by (split; [exact T|right; eexists; split; [reflexivity|]; split; [exact SL|split; auto]]).
  destruct v as [sc|c|c].
  - exact T.
  - unfold start_ahead. rewrite (proj2 (Z.ltb_ge 0 look) LK). destruct strict.
    + eapply track_bind; [apply track_array_strict; [cbn; apply Nat.eqb_refl|exact N|exact SF]|]. intros f' acc' [D1 r] T1. cbn [end_ahead]. now apply track_finish.
    + eapply track_bind; [apply track_array; [cbn; apply Nat.eqb_refl|exact N|exact SF]|]. intros f' acc' [D1 r] T1. cbn [end_ahead]. now apply track_finish.
  - destruct strict.
    + eapply track_bind; [apply track_object_strict; [cbn; apply Nat.eqb_refl|exact N|exact SF]|]. intros f' acc' [D1 r] T1. now apply track_finish.
    + eapply track_bind; [apply track_object; [cbn; apply Nat.eqb_refl|exact N|exact SF]|]. intros f' acc' [D1 r] T1. now apply track_finish.
Qed.
End Loops.

Lemma track_transform : forall find ctx n seg v P f acc, slim seg -> thin acc P -> track post f acc (transform_value find ctx n seg v P).
Proof.
  intros find ctx n. induction n as [|n IH]; intros seg v P f acc S0 T; cbn [transform_value]; [exact I|]. apply track_body; auto.
Qed.

Definition slim_runner (r : runner) : Prop := rn_singular r = [] /\ rn_queries r = [] /\ match rn_main r with QFirst o => slim_opt o | QInner _ => False end.
Lemma track_query : forall find n r v, slim_runner r -> track (fun _ acc' ts => acc' = ts) (FVal v) [] (run_query find n r v).
Proof.
  intros find n r v [R1 [R2 R3]]. unfold run_query, compute_context. rewrite R1, R2. cbn [run_singular run_queries ibind].
  destruct (rn_main r) as [o|i]; [|contradiction]. eapply track_bind with (R := post).
  - unfold map_value. destruct o as [g|]; [apply track_transform; [exact R3|reflexivity]|apply track_process; reflexivity].
  - intros f' acc' [P b] T. cbn [fst] in T. destruct P; try exact I. exact (eq_sym T).
Qed.
Lemma track_shift : forall A (p : iprog A) Q f acc pre, track Q f acc p -> track (fun f' acc' a => exists rest, acc' = pre ++ rest /\ Q f' rest a) f (pre ++ acc) p.
Proof.
  intros A p Q. induction p as [a| | |v j IH|v j IH|v j IH|v j IH|v j IH|v j IH|v j IH|d j IH|i j IH|i j IH|i j IH|i j IH]; intros f acc pre T; cbn [track] in *;
    eauto; try tauto; try (destruct T; split; solve [eauto]); try (intros; apply IH; auto).
  destruct T as [-> T]. split; [reflexivity|]. intro ts. rewrite <- app_assoc. apply IH. apply T.
Qed.
Theorem track_stream : forall find n r m acc f, slim_runner r -> track (fun _ acc' ts => acc' = acc ++ ts) f acc (transform_values (run_query find n r) m 0).
Proof.
  intros find n r m acc f SR. revert acc f. induction m as [|m IH]; intros acc f; cbn [transform_values]; [exact I|]. split; [|cbn; now rewrite app_nil_r].
  intro o. cbn [recent_iter]. apply track_need. intros v ->. cbn [Nat.eqb].
  pose proof (track_shift _ _ _ _ _ acc (track_query find n r v SR)) as TQ. rewrite app_nil_r in TQ. eapply track_bind; [exact TQ|].
  intros f' acc' ts [rest [-> ->]]. eapply track_bind; [apply IH|]. intros f2 acc2 r2 ->. cbn. now rewrite app_assoc.
Qed.

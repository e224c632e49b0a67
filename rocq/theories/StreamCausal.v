(** A program cannot depend on the input that it has not read: two inputs that
    begin in the same way give the same copies as long as nothing after that
    beginning has been read. *)
From Coq Require Import List ZArith Arith Bool Lia.
From Verif Require Import Base Tokens CursorModel IterModel IterCore StreamModel.

Section Growth.
Variable grow : Z -> Z -> Z.

Definition psim (x y : nat * pool) : Prop := fst x = fst y /\ forall l, with_src (snd x) l = with_src (snd y) l.
(** The same heap but for the rest of the input: [u] in one, [u2] in the other. *)
Record hsim (u u2 a : list token) (h1 h2 : heap) : Prop := mkHsim {
  hs_src : exists r, h_src h1 = (a ++ u) :: r /\ h_src h2 = (a ++ u2) :: r;
  hs_pool : Forall2 psim (h_pool h1) (h_pool h2);
  hs_coll : h_coll h2 = h_coll h1;
  hs_iter : h_iter h2 = h_iter h1
}.

Definition causal {A} (m : hm A) : Prop := forall u u2 a h1 h2 h1' x, u <> [] \/ u = u2 -> hsim u u2 a h1 h2 -> m h1 = Ok (h1', x) ->
  (exists a' h2', m h2 = Ok (h2', x) /\ hsim u u2 a' h1' h2') \/ length (unread h1') < length u.
Definition shrinks {A} (m : hm A) : Prop := forall h h' x, m h = Ok (h', x) -> length (unread h') <= length (unread h).
Definition local {A} (m : hm A) : Prop := causal m /\ shrinks m.

Lemma local_ret : forall A (x : A), local (hret x).
Proof.
  intros A x. split.
  - intros u u2 a h1 h2 h1' y U H E. injection E as <- <-. left. exists a, h2. auto.
  - intros h h' y E. injection E as <- <-. auto.
Qed.
Lemma local_panic : forall A, local (@hpanic A).
Proof. intro A. split; [intros u u2 a h1 h2 h1' x U H E|intros h h' x E]; discriminate. Qed.
Lemma local_fuel : forall A, local (@hfuel A).
Proof. intro A. split; [intros u u2 a h1 h2 h1' x U H E|intros h h' x E]; discriminate. Qed.
Lemma local_bind : forall A B (m : hm A) (f : A -> hm B), local m -> (forall x, local (f x)) -> local (hbind m f).
Proof.
  intros A B m f [M1 M2] F. split.
  - intros u u2 a h1 h2 h1' y U H E. unfold hbind in *. destruct (m h1) as [[h3 x]| |] eqn:E1; try discriminate.
    destruct (M1 u u2 a h1 h2 h3 x U H E1) as [[a' [h4 [-> H']]]|L].
    + destruct (proj1 (F x) u u2 a' h3 h4 h1' y U H' E) as [[a2 [h5 [-> H2]]]|L]; eauto.
    + right. pose proof (proj2 (F x) _ _ _ E). lia.
  - intros h h' y E. unfold hbind in E. destruct (m h) as [[h3 x]| |] eqn:E1; try discriminate.
    pose proof (M2 _ _ _ E1). pose proof (proj2 (F x) _ _ _ E). lia.
Qed.

Lemma local_get_coll : forall c, local (get_coll c).
Proof.
  intro c. split.
  - intros u u2 a h1 h2 h1' x U H E. unfold get_coll in *. rewrite (hs_coll _ _ _ _ _ H). destruct (nth_error (h_coll h1) c) as [y|]; [|discriminate].
    injection E as <- <-. eauto.
  - intros h h' x E. unfold get_coll in E. destruct (nth_error _ _); [|discriminate]. injection E as <- <-. auto.
Qed.
Lemma local_get_iter : forall c, local (get_iter c).
Proof.
  intro c. split.
  - intros u u2 a h1 h2 h1' x U H E. unfold get_iter in *. rewrite (hs_iter _ _ _ _ _ H). destruct (nth_error (h_iter h1) c) as [y|]; [|discriminate].
    injection E as <- <-. eauto.
  - intros h h' x E. unfold get_iter in E. destruct (nth_error _ _); [|discriminate]. injection E as <- <-. auto.
Qed.
Lemma local_put_coll : forall c y, local (put_coll c y).
Proof.
  intros c y. split.
  - intros u u2 a h1 h2 h1' x U [S P C I] E. injection E as <- <-. left. exists a. eexists. split; [reflexivity|]. constructor; cbn; auto. now rewrite C.
  - intros h h' x E. injection E as <- <-. auto.
Qed.
Lemma local_put_iter : forall c y, local (put_iter c y).
Proof.
  intros c y. split.
  - intros u u2 a h1 h2 h1' x U [S P C I] E. injection E as <- <-. left. exists a. eexists. split; [reflexivity|]. constructor; cbn; auto. now rewrite I.
  - intros h h' x E. injection E as <- <-. auto.
Qed.
Lemma local_new_coll : forall y, local (new_coll y).
Proof.
  intros y. split.
  - intros u u2 a h1 h2 h1' x U [S P C I] E. injection E as <- <-. left. exists a. eexists. unfold new_coll. rewrite C. split; [reflexivity|]. constructor; cbn; auto.
  - intros h h' x E. injection E as <- <-. auto.
Qed.
Lemma local_new_iter : forall y, local (new_iter y).
Proof.
  intros y. split.
  - intros u u2 a h1 h2 h1' x U [S P C I] E. injection E as <- <-. left. exists a. eexists. unfold new_iter. rewrite I. split; [reflexivity|]. constructor; cbn; auto.
  - intros h h' x E. injection E as <- <-. auto.
Qed.

(** One step of a pool. *)
Lemma with_same : forall p, with_src p (p_src p) = p.
Proof. now intros []. Qed.
Lemma with_with : forall p l l', with_src (with_src p l) l' = with_src p l'.
Proof. reflexivity. Qed.
Lemma step_read : forall p o p' x, step grow p o = Ok (p', x) ->
  (p_src p' = p_src p /\ (p_src p <> [] -> forall l, step grow (with_src p l) o = Ok (with_src p' l, x))) \/
  (exists t, p_src p = t :: p_src p' /\ forall l, step grow (with_src p (t :: l)) o = Ok (with_src p' l, x)).
Proof.
  intros p o p' x E.
  assert (IN : inside p o -> p_src p' = p_src p /\ (p_src p <> [] -> forall l, step grow (with_src p l) o = Ok (with_src p' l, x))).
  { intro I. split.
    - pose proof (step_src grow p o (p_src p) I) as K. rewrite with_same, E in K. cbn [rmap fst snd] in K. injection K as K. now rewrite K.
    - intros _ l. rewrite step_src, E by exact I. reflexivity. }
  destruct o as [|c|c|c]; [left; apply IN; exact I|left; apply IN; exact I|left; apply IN; exact I|].
  cbn [inside] in IN. destruct (nth_error (p_tab p) c) as [cu|] eqn:EC; [|left; apply IN; exact I].
  destruct (cu_att cu) eqn:EA; [|left; apply IN; discriminate].
  destruct (Z_lt_dec (cu_pos cu - p_wpos p) (Z.of_nat (length (p_win p)))) as [L|L]; [left; apply IN; auto|clear IN].
  cbn [step] in *. rewrite EC, EA in E. unfold advance_cursor in E. unfold cpos in E. rewrite EC in E.
  replace (cu_pos cu - p_wpos p <? Z.of_nat (length (p_win p)))%Z with false in E by (symmetry; apply Z.ltb_ge; lia).
  destruct (_ <? _)%Z eqn:E1; [discriminate|]. destruct (p_src p) as [|t r] eqn:ES.
  - left. split; [|congruence]. destruct (detach_cursor p c) as [p1| |] eqn:ED; try discriminate. cbn [bind] in E. injection E as <- <-.
    pose proof (dc_src p c (p_src p)) as K. rewrite with_same, ED in K. cbn [rmap fst] in *. injection K as K. rewrite K. exact ES.
  - right. cbn [bind fst snd] in E. injection E as <- <-. exists t. split; [reflexivity|]. intro l. cbn [with_src p_tab]. rewrite EC, EA.
    unfold advance_cursor, cpos. cbn [with_src p_tab p_wpos p_win p_src]. rewrite EC.
    replace (cu_pos cu - p_wpos p <? Z.of_nat (length (p_win p)))%Z with false by (symmetry; apply Z.ltb_ge; lia).
    rewrite E1. reflexivity.
Qed.

Lemma forall2_nth : forall A B (R : A -> B -> Prop) l l', Forall2 R l l' -> forall n x, nth_error l n = Some x -> exists y, nth_error l' n = Some y /\ R x y.
Proof. induction 1 as [|x y l l' H F IH]; intros [|n] z E; try discriminate; [injection E as <-; exists y; auto|]. apply IH. exact E. Qed.
Lemma forall2_upd : forall A B (R : A -> B -> Prop) l l', Forall2 R l l' -> forall n x y, R x y -> Forall2 R (upd l n x) (upd l' n y).
Proof. induction 1 as [|x y l l' H F IH]; intros [|n] a b K; cbn [upd]; constructor; auto. Qed.

Lemma f2_len : forall A B (R : A -> B -> Prop) l l', Forall2 R l l' -> length l = length l'.
Proof. induction 1; cbn; auto. Qed.

Lemma unread_cons : forall s p c i l, unread (mkHeap (l :: s) p c i) = l.
Proof. reflexivity. Qed.

Lemma local_pool_op : forall p o, local (pool_op grow p o).
Proof.
  intros p o. split.
  - intros u u2 a h1 h2 h1' x U [[r [S1 S2]] P C I] E. unfold pool_op in *.
    destruct (nth_error (h_pool h1) p) as [[s pl]|] eqn:EP; [|discriminate].
    destruct (forall2_nth _ _ _ _ _ P _ _ EP) as [[s' pl2] [EP2 [EQ1 EQ2]]]. cbn [fst snd] in *. subst s'. rewrite EP2.
    destruct (nth_error (h_src h1) s) as [l|] eqn:EL; [|discriminate].
    destruct (step grow (with_src pl l) o) as [[pl' y]| |] eqn:EST; try discriminate. injection E as <- <-.
    destruct s as [|s].
    + rewrite S1 in EL. injection EL as <-. rewrite S2. cbn [nth_error].
      destruct (step_read _ _ _ _ EST) as [[K1 K2]|[t [K1 K2]]]; cbn [with_src p_src] in K1.
      * left. exists a. assert (K3 : step grow (with_src pl (a ++ u2)) o = Ok (with_src pl' (a ++ u2), y)).
        { destruct U as [U|<-].
          - specialize (K2 ltac:(cbn; destruct a; [exact U|discriminate]) (a ++ u2)). now rewrite with_with in K2.
          - rewrite EST. do 2 f_equal. rewrite <- K1. symmetry. apply with_same. }
        rewrite <- EQ2, K3. eexists. split; [reflexivity|].
        constructor; cbn [set_pool set_src h_src h_pool h_coll h_iter with_src p_src]; auto.
        -- exists r. rewrite S1, S2. cbn [upd]. now rewrite K1.
        -- apply forall2_upd; [exact P|]. split; [reflexivity|]. intro. reflexivity.
      * destruct a as [|t' a].
        -- right. cbn [app] in K1. cbn [set_pool set_src h_src]. unfold unread. cbn [h_src set_pool set_src]. rewrite S1. cbn [upd nth]. rewrite K1. cbn [length]. lia.
        -- cbn [app] in K1. injection K1 as <- K1. left. exists a. specialize (K2 (a ++ u2)). rewrite with_with in K2. rewrite <- EQ2. cbn [app]. rewrite K2.
           eexists. split; [reflexivity|]. constructor; cbn [set_pool set_src h_src h_pool h_coll h_iter with_src p_src]; auto.
           ++ exists r. rewrite S1, S2. cbn [upd]. now rewrite <- K1.
           ++ apply forall2_upd; [exact P|]. split; [reflexivity|]. intro. reflexivity.
    + left. exists a. rewrite S1 in EL. rewrite S2. cbn [nth_error] in *. rewrite EL. rewrite <- EQ2, EST. eexists. split; [reflexivity|].
      constructor; cbn [set_pool set_src h_src h_pool h_coll h_iter]; auto.
      * eexists. rewrite S1, S2. cbn [upd]. split; reflexivity.
      * apply forall2_upd; [exact P|]. split; reflexivity.
  - intros h h' x E. unfold pool_op in E.
    destruct (nth_error (h_pool h) p) as [[s pl]|] eqn:EP; [|discriminate].
    destruct (nth_error (h_src h) s) as [l|] eqn:EL; [|discriminate].
    destruct (step grow (with_src pl l) o) as [[pl' y]| |] eqn:EST; try discriminate. injection E as <- <-.
    unfold unread. cbn [set_pool set_src h_src]. destruct s as [|s]; [|now destruct (h_src h)].
    destruct (h_src h) as [|l0 r]; [discriminate|]. injection EL as ->. cbn [upd nth].
    destruct (step_read _ _ _ _ EST) as [[K1 _]|[t [K1 _]]]; cbn [with_src p_src] in K1; rewrite K1; cbn [length]; lia.
Qed.

Ltac loc := repeat first
  [ apply local_bind; [|intro] | apply local_ret | apply local_panic | apply local_fuel | apply local_pool_op
  | apply local_get_coll | apply local_put_coll | apply local_get_iter | apply local_put_iter | apply local_new_coll | apply local_new_iter | assumption ].

Lemma local_snext : forall r, local (snext grow r).
Proof.
  intros [s|p c]; cbn [snext].
  - split.
    + intros u u2 a h1 h2 h1' x U [[r [S1 S2]] P C I] E. rewrite S1 in E. rewrite S2. destruct s as [|s]; cbn [nth_error] in *.
      * destruct a as [|t a]; cbn [app] in *.
        -- destruct u as [|t u].
           { destruct U as [U|<-]; [congruence|]. injection E as <- <-. left. exists []. eexists. split; [reflexivity|]. constructor; eauto. }
           right. injection E as <- <-. unfold unread. cbn [set_src h_src]. rewrite S1. cbn. lia.
        -- injection E as <- <-. left. exists a. eexists. split; [reflexivity|]. constructor; cbn [set_src h_src h_pool h_coll h_iter]; auto.
           exists r. rewrite S1, S2. split; reflexivity.
      * left. exists a. destruct (nth_error r s) as [[|t l]|] eqn:EL; try discriminate; injection E as <- <-; (eexists; split; [reflexivity|]).
        -- constructor; eauto.
        -- constructor; cbn [set_src h_src h_pool h_coll h_iter]; auto. eexists. rewrite S1, S2. split; reflexivity.
    + intros h h' x E. destruct (nth_error (h_src h) s) as [[|t l]|] eqn:EL; try discriminate; injection E as <- <-; [auto|].
      unfold unread. cbn [set_src h_src]. destruct s as [|s]; [|now destruct (h_src h)]. destruct (h_src h) as [|l0 r]; [discriminate|]. injection EL as ->. cbn. lia.
  - loc. destruct x as [| |t|]; loc.
Qed.

Lemma local_new_pool : forall s, local (fun h => Ok (mkHeap (h_src h) (h_pool h ++ [(s, new_pool [])]) (h_coll h) (h_iter h), length (h_pool h))).
Proof.
  intro s. split.
  - intros u u2 a h1 h2 h1' x U [S P C I] E. injection E as <- <-. left. exists a. eexists. rewrite (f2_len _ _ _ _ _ P). split; [reflexivity|].
    constructor; cbn; auto. apply Forall2_app; [exact P|]. constructor; [split; reflexivity|constructor].
  - intros h h' x E. injection E as <- <-. auto.
Qed.
Lemma local_clone_stream : forall r, local (clone_stream grow r).
Proof.
  intros [s|p c]; cbn [clone_stream].
  - apply local_bind; [apply local_new_pool|intro p]. loc. destruct x as [|c|t|]; loc. destruct x as [|c'|t|]; loc.
  - loc. destruct x as [|c'|t|]; loc.
Qed.
Lemma local_detach_stream : forall r, local (detach_stream grow r).
Proof. intros [s|p c]; cbn [detach_stream]; loc. Qed.
Lemma local_next_value : forall t r, local (next_value t r).
Proof. intros [| | | | |s] r; cbn [next_value]; loc. Qed.
Lemma local_drain : forall n r d, local (drain grow n r d).
Proof.
  induction n as [|n IH]; intros r d; cbn [drain]; [loc|]. apply local_bind; [apply local_snext|intros [t|]]; [|loc].
  destruct (_ <? 0)%Z; [loc|]. apply local_bind; [apply IH|intro; loc].
Qed.
Lemma local_discard : forall n v, local (discard grow n v).
Proof.
  induction n as [|n IH]; intro v; cbn [discard]; [loc|]. destruct v as [s|c|c]; [loc| |];
  (apply local_bind; [loc|intro x]; destruct (c_done x); [loc|]; apply local_bind; [destruct (c_started x); [destruct (c_val x); [apply IH|loc]|loc]|intros _];
   apply local_bind; [loc|intros _]; apply local_bind; [apply local_drain|intro; loc]).
Qed.
Lemma local_copy : forall n v, local (copy grow n v).
Proof.
  intros n v. destruct v as [s|c|c]; cbn [copy]; [loc| |];
  (apply local_bind; [loc|intro x]; destruct (c_started x); [loc|]; apply local_bind; [loc|intros _]; apply local_bind; [apply local_drain|intro; loc]).
Qed.
Lemma local_discard_current : forall n x, local (discard_current grow n x).
Proof. intros n x. unfold discard_current. destruct (c_started x); [destruct (c_val x); [apply local_discard|loc]|loc]. Qed.
Lemma local_advance : forall n c, local (advance grow n c).
Proof.
  induction n as [|n IH]; intro c; cbn [advance]; [loc|]. apply local_bind; [loc|intro x]. destruct (c_done x); [loc|].
  apply local_bind; [apply local_discard_current|intros _]. apply local_bind; [apply local_snext|intros [t|]]; [|loc].
  assert (NV : forall t k, local (ldo v <- next_value t (c_stream x) ; put_coll c (set_current x k v) ;; hret true)).
  { intros t' k. apply local_bind; [apply local_next_value|intro; loc]. }
  assert (EL : local (put_coll c (set_elided x) ;; advance grow n c)) by (apply local_bind; [loc|intros _; apply IH]).
  assert (DN : local (put_coll c (set_done x) ;; hret false)) by loc.
  destruct (c_obj x).
  - destruct t; try apply local_panic; auto. apply local_bind; [apply local_snext|intros [t|]]; [|loc]. apply NV.
  - destruct t; auto.
Qed.
Lemma local_coll_of : forall v, local (coll_of v).
Proof. intros [s|c|c]; cbn; loc. Qed.
Lemma local_current : forall v, local (current_value v).
Proof. intro v. unfold current_value. apply local_bind; [apply local_coll_of|intro]. loc. destruct (c_done x0); loc. Qed.
Lemma local_keyval : forall v, local (current_key_val v).
Proof. intro v. unfold current_key_val. apply local_bind; [apply local_coll_of|intro]. loc. destruct (c_done x0); loc. Qed.
Lemma local_clone : forall v, local (clone grow v).
Proof.
  intros [s|c|c]; cbn [clone]; [loc| |];
  (apply local_bind; [loc|intro x]; destruct (c_started x); [loc|]; apply local_bind; [apply local_clone_stream|intro rs]; loc).
Qed.
Lemma local_detach : forall v, local (detach grow v).
Proof. intros [s|c|c]; cbn [detach]; [loc| |]; (apply local_bind; [loc|intro x]; apply local_detach_stream). Qed.
Lemma local_iter_advance : forall n i, local (iter_advance grow n i).
Proof.
  intros n i. unfold iter_advance. apply local_bind; [loc|intro x]. apply local_bind; [destruct (i_val x); [apply local_discard|loc]|intros _].
  apply local_bind; [apply local_snext|intros [t|]]; [|loc]. apply local_bind; [apply local_next_value|intro]. loc.
Qed.
Lemma local_iter_current : forall i, local (iter_current i).
Proof. intro i. unfold iter_current. loc. Qed.
Lemma local_iter_clone : forall i, local (iter_clone grow i).
Proof. intro i. unfold iter_clone. loc. destruct (i_val x); [loc|]. apply local_bind; [apply local_clone_stream|intro]. loc. Qed.
Lemma local_iter_detach : forall i, local (iter_detach grow i).
Proof. intro i. unfold iter_detach. apply local_bind; [loc|intro]. apply local_detach_stream. Qed.
Lemma local_iter_new : forall d, local (iter_from_data d).
Proof.
  intro d. split.
  - intros u u2 a h1 h2 h1' x U [[r [S1 S2]] P C I] E. injection E as <- <-. left. exists a. eexists. unfold iter_from_data, new_iter. cbn [h_src h_pool h_coll h_iter].
    rewrite (f2_len _ _ _ _ _ P), I, S1, S2. cbn [length]. split; [reflexivity|]. constructor; cbn [h_src h_pool h_coll h_iter]; auto.
    + exists (r ++ [[]]). split; reflexivity.
    + apply Forall2_app; [exact P|]. constructor; [split; reflexivity|constructor].
  - intros h h' x E. injection E as <- <-. unfold unread. cbn [h_src]. destruct (h_src h); cbn; lia.
Qed.

(* ------------------------------------------------------------------ *)
(** The log. *)
Lemma emits_short : forall A (p : iprog A) n h, Forall (fun e => length (snd e) <= length (unread h)) (emits grow n p h).
Proof.
  assert (X : forall A B (m : hm B) (k : B -> iprog A) n h, local m -> (forall b h, Forall (fun e => length (snd e) <= length (unread h)) (emits grow n (k b) h)) ->
    Forall (fun e => length (snd e) <= length (unread h)) (after m h (fun b => emits grow n (k b)))).
  { intros A B m k n h L IH. unfold after. destruct (m h) as [[h' b]| |] eqn:E; auto. eapply Forall_impl; [|apply IH]. cbn. intros e H.
    pose proof (proj2 L _ _ _ E). lia. }
  intros A p n. induction p as [a| | |v k IH|v k IH|v k IH|v k IH|v k IH|v k IH|v k IH|d k IH|i k IH|i k IH|i k IH|i k IH]; intro h; cbn [emits]; auto.
  - apply X; auto. apply local_bind; [apply local_coll_of|intro; apply local_advance].
  - apply X; auto. apply local_current.
  - apply X; auto. apply local_keyval.
  - apply X; auto. apply local_clone.
  - apply (X A unit _ (fun _ => k)); auto. apply local_detach.
  - unfold after. destruct (copy grow n v h) as [[h' ts]| |] eqn:E; auto. pose proof (proj2 (local_copy n v) _ _ _ E). constructor; [exact H|].
    eapply Forall_impl; [|apply IH]. cbn. intros e J. lia.
  - apply (X A unit _ (fun _ => k)); auto. apply local_discard.
  - apply X; auto. apply local_iter_new.
  - apply X; auto. apply local_iter_advance.
  - apply X; auto. apply local_iter_current.
  - apply X; auto. apply local_iter_clone.
  - apply (X A unit _ (fun _ => k)); auto. apply local_iter_detach.
Qed.

(** The same event, the rest of the input being [u2] instead of [u]. *)
Definition esim (u u2 : list token) (e e2 : list token * list token) : Prop :=
  fst e2 = fst e /\ exists a, snd e = a ++ u /\ snd e2 = a ++ u2.

Lemma forall_none : forall A (P : A -> Prop) l, Forall P l -> (forall x, In x l -> ~ P x) -> l = [].
Proof. intros A P [|x l] H N; [reflexivity|]. inversion H; subst. exfalso. apply (N x); [now left|assumption]. Qed.

Lemma emits_causal : forall A (p : iprog A) n u u2 a h1 h2, u <> [] -> hsim u u2 a h1 h2 ->
  Forall (fun e => length u <= length (snd e)) (emits grow n p h1) ->
  exists E1 E2, emits grow n p h2 = E1 ++ E2 /\ Forall2 (esim u u2) (emits grow n p h1) E1.
Proof.
  assert (X : forall A B (m : hm B) (k : B -> iprog A) n u u2 a h1 h2, u <> [] -> hsim u u2 a h1 h2 -> local m ->
    (forall b a h1 h2, hsim u u2 a h1 h2 -> Forall (fun e => length u <= length (snd e)) (emits grow n (k b) h1) ->
       exists E1 E2, emits grow n (k b) h2 = E1 ++ E2 /\ Forall2 (esim u u2) (emits grow n (k b) h1) E1) ->
    Forall (fun e => length u <= length (snd e)) (after m h1 (fun b => emits grow n (k b))) ->
    exists E1 E2, after m h2 (fun b => emits grow n (k b)) = E1 ++ E2 /\ Forall2 (esim u u2) (after m h1 (fun b => emits grow n (k b))) E1).
  { intros A B m k n u u2 a h1 h2 U H L IH F. unfold after in *. destruct (m h1) as [[h1' b]| |] eqn:E.
    - destruct (proj1 L _ _ _ _ _ _ _ (or_introl U) H E) as [[a' [h2' [-> H']]]|SH]; [eapply IH; eassumption|].
      assert (EM : emits grow n (k b) h1' = []).
      { eapply forall_none; [exact F|]. intros e J K. pose proof (emits_short _ (k b) n h1') as Q. rewrite Forall_forall in Q. specialize (Q e J). cbn in *. lia. }
      rewrite EM. exists []. eexists. split; [reflexivity|constructor].
    - exists []. eexists. split; [reflexivity|constructor].
    - exists []. eexists. split; [reflexivity|constructor]. }
  intros A p n u u2. induction p as [x| | |v k IH|v k IH|v k IH|v k IH|v k IH|v k IH|v k IH|d k IH|i k IH|i k IH|i k IH|i k IH]; intros a h1 h2 U H F; cbn [emits] in *;
    try (exists [], []; split; [reflexivity|constructor]; fail).
  - apply (X _ _ _ k) with (a := a); auto; [apply local_bind; [apply local_coll_of|intro; apply local_advance]|intros; eapply IH; eauto].
  - apply (X _ _ _ k) with (a := a); auto; [apply local_current|intros; eapply IH; eauto].
  - apply (X _ _ _ k) with (a := a); auto; [apply local_keyval|intros; eapply IH; eauto].
  - apply (X _ _ _ k) with (a := a); auto; [apply local_clone|intros; eapply IH; eauto].
  - apply (X A unit _ (fun _ => k)) with (a := a); auto; [apply local_detach|intros; eapply IH; eauto].
  - unfold after in *. destruct (copy grow n v h1) as [[h1' ts]| |] eqn:E; try (exists []; eexists; split; [reflexivity|constructor]).
    inversion F as [|? ? F1 F2]; subst. cbn [snd] in F1.
    destruct (proj1 (local_copy n v) _ _ _ _ _ _ _ (or_introl U) H E) as [[a' [h2' [-> H']]]|SH]; [|lia].
    destruct (IH ts a' h1' h2' U H' F2) as [E1 [E2 [Q1 Q2]]]. exists ((ts, unread h2') :: E1), E2. rewrite Q1. split; [reflexivity|].
    constructor; [|exact Q2]. split; [reflexivity|]. destruct (hs_src _ _ _ _ _ H') as [r [S1 S2]]. exists a'. unfold unread. cbn [snd]. rewrite S1, S2. auto.
  - apply (X A unit _ (fun _ => k)) with (a := a); auto; [apply local_discard|intros; eapply IH; eauto].
  - apply (X _ _ _ k) with (a := a); auto; [apply local_iter_new|intros; eapply IH; eauto].
  - apply (X _ _ _ k) with (a := a); auto; [apply local_iter_advance|intros; eapply IH; eauto].
  - apply (X _ _ _ k) with (a := a); auto; [apply local_iter_current|intros; eapply IH; eauto].
  - apply (X _ _ _ k) with (a := a); auto; [apply local_iter_clone|intros; eapply IH; eauto].
  - apply (X A unit _ (fun _ => k)) with (a := a); auto; [apply local_iter_detach|intros; eapply IH; eauto].
Qed.

(** From the start. *)
Theorem emits_prefix : forall A (p : iprog A) n w u u2, u <> [] ->
  Forall (fun e => length u <= length (snd e)) (emits grow n p (start (w ++ u))) ->
  exists E1 E2, emits grow n p (start (w ++ u2)) = E1 ++ E2 /\ Forall2 (esim u u2) (emits grow n p (start (w ++ u))) E1.
Proof.
  intros A p n w u u2 U F. apply emits_causal with (a := w); auto. constructor; cbn; auto. exists []. auto.
Qed.

(** The same for the first part of the log. *)
Lemma emits_part : forall A (p : iprog A) n u u2 a h1 h2 E1 E2, u <> [] -> hsim u u2 a h1 h2 ->
  emits grow n p h1 = E1 ++ E2 -> Forall (fun e => length u <= length (snd e)) E1 ->
  exists E1' E2', emits grow n p h2 = E1' ++ E2' /\ Forall2 (esim u u2) E1 E1'.
Proof.
  assert (X : forall A B (m : hm B) (k : B -> iprog A) n u u2 a h1 h2 E1 E2, u <> [] -> hsim u u2 a h1 h2 -> local m ->
    (forall b a h1 h2 E1 E2, hsim u u2 a h1 h2 -> emits grow n (k b) h1 = E1 ++ E2 -> Forall (fun e => length u <= length (snd e)) E1 ->
       exists E1' E2', emits grow n (k b) h2 = E1' ++ E2' /\ Forall2 (esim u u2) E1 E1') ->
    after m h1 (fun b => emits grow n (k b)) = E1 ++ E2 -> Forall (fun e => length u <= length (snd e)) E1 ->
    exists E1' E2', after m h2 (fun b => emits grow n (k b)) = E1' ++ E2' /\ Forall2 (esim u u2) E1 E1').
  { intros A B m k n u u2 a h1 h2 E1 E2 U H L IH EE F. unfold after in *. destruct (m h1) as [[h1' b]| |] eqn:E.
    - destruct (proj1 L _ _ _ _ _ _ _ (or_introl U) H E) as [[a' [h2' [-> H']]]|SH]; [eapply IH; eassumption|].
      assert (EM : E1 = []).
      { eapply forall_none; [exact F|]. intros e J K. pose proof (emits_short _ (k b) n h1') as Q. rewrite Forall_forall in Q.
        assert (J' : In e (emits grow n (k b) h1')) by (rewrite EE; apply in_or_app; now left). specialize (Q e J'). cbn in *. lia. }
      subst E1. exists []. eexists. split; [reflexivity|constructor].
    - symmetry in EE. apply app_eq_nil in EE. destruct EE as [-> _]. exists []. eexists. split; [reflexivity|constructor].
    - symmetry in EE. apply app_eq_nil in EE. destruct EE as [-> _]. exists []. eexists. split; [reflexivity|constructor]. }
  intros A p n u u2. induction p as [x| | |v k IH|v k IH|v k IH|v k IH|v k IH|v k IH|v k IH|d k IH|i k IH|i k IH|i k IH|i k IH]; intros a h1 h2 E1 E2 U H EE F; cbn [emits] in *;
    try (symmetry in EE; apply app_eq_nil in EE; destruct EE as [-> _]; exists [], []; split; [reflexivity|constructor]; fail).
  - eapply (X _ _ _ k) with (a := a); eauto; [apply local_bind; [apply local_coll_of|intro; apply local_advance]].
  - eapply (X _ _ _ k) with (a := a); eauto; apply local_current.
  - eapply (X _ _ _ k) with (a := a); eauto; apply local_keyval.
  - eapply (X _ _ _ k) with (a := a); eauto; apply local_clone.
  - eapply (X A unit _ (fun _ => k)) with (a := a); eauto; apply local_detach.
  - unfold after in *. destruct (copy grow n v h1) as [[h1' ts]| |] eqn:E; try (symmetry in EE; apply app_eq_nil in EE; destruct EE as [-> _]; exists []; eexists; split; [reflexivity|constructor]).
    destruct E1 as [|e E1]; [exists []; eexists; split; [reflexivity|constructor]|]. cbn [app] in EE. injection EE as <- EE. inversion F as [|? ? F1 F2]; subst. cbn [snd] in F1.
    destruct (proj1 (local_copy n v) _ _ _ _ _ _ _ (or_introl U) H E) as [[a' [h2' [-> H']]]|SH]; [|lia].
    destruct (IH ts a' h1' h2' _ _ U H' EE F2) as [E1' [E2' [Q1 Q2]]]. exists ((ts, unread h2') :: E1'), E2'. rewrite Q1. split; [reflexivity|].
    constructor; [|exact Q2]. split; [reflexivity|]. destruct (hs_src _ _ _ _ _ H') as [r [S1 S2]]. exists a'. unfold unread. cbn [snd]. rewrite S1, S2. auto.
  - eapply (X A unit _ (fun _ => k)) with (a := a); eauto; apply local_discard.
  - eapply (X _ _ _ k) with (a := a); eauto; apply local_iter_new.
  - eapply (X _ _ _ k) with (a := a); eauto; apply local_iter_advance.
  - eapply (X _ _ _ k) with (a := a); eauto; apply local_iter_current.
  - eapply (X _ _ _ k) with (a := a); eauto; apply local_iter_clone.
  - eapply (X A unit _ (fun _ => k)) with (a := a); eauto; apply local_iter_detach.
Qed.
Theorem emits_prefix_part : forall A (p : iprog A) n w u u2 E1 E2, u <> [] ->
  emits grow n p (start (w ++ u)) = E1 ++ E2 -> Forall (fun e => length u <= length (snd e)) E1 ->
  exists E1' E2', emits grow n p (start (w ++ u2)) = E1' ++ E2' /\ Forall2 (esim u u2) E1 E1'.
Proof.
  intros A p n w u u2 E1 E2 U EE F. eapply emits_part with (a := w); eauto. constructor; cbn; auto. exists []. auto.
Qed.
End Growth.

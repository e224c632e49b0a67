(** What the processes of NetModel.v do on their own. *)
From Coq Require Import List ZArith NArith Arith Bool Lia.
From Verif Require Import Base Tokens CursorModel IterModel EqualModel SplitModel P_Split PathModel PathTop StreamModel StreamCausal StreamW StreamEngine
  PipelineModel PipelineSpec PipelineStages P_Pipeline NetModel.
Import ListNotations.

Section Proc.
Context {R : Type}.
Variable grow : Z -> Z -> Z.

(** The heap [hs] of a process that has received all but [l] and the heap [h] of
    the run on the whole input. *)
Definition lazy (closed : bool) (a l : list token) (hs h : heap) : Prop := hsim [] l a hs h /\ (closed = true -> l = []).

Lemma psim_sym : forall x y, psim x y -> psim y x.
Proof. intros x y [E F]. split; [congruence|]. intro l. symmetry. apply F. Qed.
Lemma hsim_sym : forall u u2 a h1 h2, hsim u u2 a h1 h2 -> hsim u2 u a h2 h1.
Proof.
  intros u u2 a h1 h2 [[r [E1 E2]] P C J]. split; [exists r; auto| |congruence|congruence].
  clear - P. induction P; constructor; auto using psim_sym.
Qed.
Lemma hsim_unread : forall u u2 a h1 h2, hsim u u2 a h1 h2 -> unread h1 = a ++ u.
Proof. intros u u2 a h1 h2 [[r [E1 E2]] _ _ _]. unfold unread. now rewrite E1. Qed.
Lemma hsim_set : forall u u2 a h1 h2 u' a' u2', hsim u u2 a h1 h2 -> a ++ u2 = a' ++ u2' -> hsim u' u2' a' (set_src h1 0 (a' ++ u')) h2.
Proof.
  intros u u2 a h1 h2 u' a' u2' [[r [E1 E2]] P C J] E. split; auto. exists r. unfold set_src. cbn [h_src]. rewrite E1. cbn [upd]. split; [reflexivity|]. congruence.
Qed.

Definition continues {A} (k : bool -> heap -> A -> proc R) (h : heap) (x : A) (o : list token) (r : R) : Prop :=
  forall closed a l hs, lazy closed a l hs h -> exists n, alone n (k closed hs x) l o r.
Definition goes (p : bool -> heap -> proc R) (h : heap) (o : list token) (r : R) : Prop :=
  forall closed a l hs, lazy closed a l hs h -> exists n, alone n (p closed hs) l o r.

Definition try {A} (m : hm A) (h : heap) : option (heap * A) :=
  match m (set_src h 0 (unread h ++ [probe])) with
  | Ok (h', a) => match unread h' with [] => None | u => Some (set_src h' 0 (removelast u), a) end
  | _ => None
  end.
Lemma await_closed : forall A (m : hm A) h (k : bool -> heap -> A -> proc R), await m true h k = match m h with Ok (h', a) => Compute (k true h' a) | _ => Compute forever end.
Proof. intros A m h k. rewrite (frob_eq _ (await _ _ _ _)). cbv beta iota delta [frob await]. destruct (m h) as [[h' a]| |]; reflexivity. Qed.
Lemma await_open : forall A (m : hm A) h (k : bool -> heap -> A -> proc R), await m false h k =
  match try m h with
  | Some (h', a) => Compute (k false h' a)
  | None => Receive (fun o => match o with None => await m true h k | Some t => await m false (set_src h 0 (unread h ++ [t])) k end)
  end.
Proof.
  intros A m h k. rewrite (frob_eq _ (await _ _ _ _)). unfold try. cbv beta iota delta [frob await]. destruct (m (set_src h 0 (unread h ++ [probe]))) as [[h' a]| |]; [|reflexivity|reflexivity].
  destruct (unread h'); reflexivity.
Qed.

Lemma await_ok : forall A (m : hm A), local m -> forall k h h' x o r, m h = Ok (h', x) -> continues k h' x o r ->
  goes (fun closed hs => await m closed hs k) h o r.
Proof.
  intros A m [CA _] k h h' x o r E K.
  assert (PN : [probe] <> []) by discriminate.
  assert (END : forall a hs, lazy true a [] hs h -> exists n, alone n (await m true hs k) [] o r).
  { intros a hs [H _]. destruct (CA [] [] a h hs h' x (or_intror eq_refl) (hsim_sym _ _ _ _ _ H) E) as [(a' & hs' & E' & H')|L]; [|cbn in L; lia].
    destruct (K true a' [] hs') as [n N]; [split; [now apply hsim_sym|auto]|]. exists (S n). rewrite await_closed, E'. now constructor. }
  intros closed a l. revert closed a. induction l as [|t l IH]; intros closed a hs H.
  - destruct closed; [now apply (END a)|]. destruct H as [H _].
    pose proof (hsim_set _ _ _ _ _ [probe] a [] H eq_refl) as HP. pose proof (hsim_unread _ _ _ _ _ H) as U. rewrite app_nil_r in U.
    rewrite await_open, U.
    destruct (try m hs) as [[h1 y]|] eqn:M; [unfold try in M; rewrite U in M|].
    + destruct (m (set_src hs 0 (a ++ [probe]))) as [[hp y']| |] eqn:MP; try discriminate.
      destruct (CA [probe] [] a _ _ hp y' (or_introl PN) HP MP) as [(a' & h2 & E' & H')|L].
      * rewrite E in E'. injection E' as <- <-. rewrite (hsim_unread _ _ _ _ _ H') in M.
        assert (M' : Some (set_src hp 0 (removelast (a' ++ [probe])), x) = Some (h1, y)) by (destruct a'; exact M). injection M' as <- <-. rewrite removelast_last.
        destruct (K false a' [] (set_src hp 0 a')) as [n N].
        { split; [|discriminate]. pose proof (hsim_set _ _ _ _ _ [] a' [] H' eq_refl) as Q. now rewrite app_nil_r in Q. }
        exists (S n). now constructor.
      * destruct (unread hp); [discriminate|cbn in L; lia].
    + destruct (END a hs (conj H (fun _ => eq_refl))) as [n N]. exists (S n). now constructor.
  - destruct closed; [destruct H as [_ H]; discriminate (H eq_refl)|]. destruct H as [H _].
    pose proof (hsim_set _ _ _ _ _ [probe] a (t :: l) H eq_refl) as HP. pose proof (hsim_unread _ _ _ _ _ H) as U. rewrite app_nil_r in U.
    rewrite await_open, U.
    destruct (try m hs) as [[h1 y]|] eqn:M; [unfold try in M; rewrite U in M|].
    + destruct (m (set_src hs 0 (a ++ [probe]))) as [[hp y']| |] eqn:MP; try discriminate.
      destruct (CA [probe] (t :: l) a _ _ hp y' (or_introl PN) HP MP) as [(a' & h2 & E' & H')|L].
      * rewrite E in E'. injection E' as <- <-. rewrite (hsim_unread _ _ _ _ _ H') in M.
        assert (M' : Some (set_src hp 0 (removelast (a' ++ [probe])), x) = Some (h1, y)) by (destruct a'; exact M). injection M' as <- <-. rewrite removelast_last.
        destruct (K false a' (t :: l) (set_src hp 0 a')) as [n N].
        { split; [|discriminate]. pose proof (hsim_set _ _ _ _ _ [] a' (t :: l) H' eq_refl) as Q. now rewrite app_nil_r in Q. }
        exists (S n). now constructor.
      * destruct (unread hp); [discriminate|cbn in L; lia].
    + destruct (IH false (a ++ [t]) (set_src hs 0 (a ++ [t]))) as [n N].
      { split; [|discriminate]. pose proof (hsim_set _ _ _ _ _ [] (a ++ [t]) l H) as Q. rewrite app_nil_r in Q. apply Q. now rewrite <- app_assoc. }
      exists (S n). now constructor.
Qed.

Lemma put_ok : forall loud t (p : proc R) l o r, (exists n, alone n p l o r) -> exists n, alone n (put loud t p) l ((if loud then [t] else []) ++ o) r.
Proof. intros [|] t p l o r [n N]; exists (S n); now constructor. Qed.
Definition said (loud : bool) (ts : list token) : list token := if loud then ts else [].

Lemma copy_loop_ok : forall loud f r d h h' ts k o x, drain grow f r d h = Ok (h', ts) -> continues k h' ts o x ->
  goes (fun closed hs => copy_loop grow loud f r d closed hs k) h (said loud ts ++ o) x.
Proof.
  intro loud. induction f as [|f IH]; intros r d h h' ts k o x E K; [discriminate|]. cbn [drain copy_loop] in *. unfold hbind in E.
  destruct (snext grow r h) as [[h1 y]| |] eqn:S1; try discriminate.
  eapply await_ok; [apply local_snext|exact S1|]. intros closed a l hs L. destruct y as [item|].
  - replace (said loud ts ++ o) with ((if loud then [item] else []) ++ said loud (tl ts) ++ o).
    2:{ destruct (_ <? 0)%Z; [injection E as <- <-; destruct loud; reflexivity|]. destruct (drain grow f r _ h1) as [[h2 ts']| |]; try discriminate. injection E as <- <-. destruct loud; reflexivity. }
    apply put_ok. destruct (_ <? 0)%Z.
    + injection E as <- <-. replace (said loud (tl [item])) with (@nil token) by (destruct loud; reflexivity). exact (K _ _ _ _ L).
    + destruct (drain grow f r _ h1) as [[h2 ts']| |] eqn:D; try discriminate. injection E as <- <-. cbn [tl].
      exact (IH _ _ _ _ _ (fun closed hs ts => k closed hs (item :: ts)) o x D K _ _ _ _ L).
  - injection E as <- <-. replace (said loud [] ++ o) with o by (destruct loud; reflexivity). exact (K _ _ _ _ L).
Qed.
Lemma copy_value_ok : forall loud f v h h' ts k o x, copy grow f v h = Ok (h', ts) -> continues k h' ts o x ->
  goes (fun closed hs => copy_value grow loud f v closed hs k) h (said loud ts ++ o) x.
Proof.
  intros loud f v h h' ts k o x E K.
  assert (COLL : forall c, (ldo x0 <- get_coll c ; if c_started x0 then hpanic else put_coll c (set_done x0) ;; ldo ts0 <- drain grow f (c_stream x0) 0 ; hret ((if c_obj x0 then TStartObj else TStartArr) :: ts0)) h = Ok (h', ts) ->
    goes (fun closed hs => await (ldo y <- get_coll c ; if c_started y then hpanic else put_coll c (set_done y) ;; hret y) closed hs (fun closed hs y =>
        put loud (if c_obj y then TStartObj else TStartArr) (copy_loop grow loud f (c_stream y) 0 closed hs (fun closed hs ts => k closed hs ((if c_obj y then TStartObj else TStartArr) :: ts))))) h (said loud ts ++ o) x).
  { intros c E'. unfold hbind in E'. destruct (get_coll c h) as [[h1 y]| |] eqn:G; try discriminate. destruct (c_started y) eqn:ST; [discriminate|].
    destruct (put_coll c (set_done y) h1) as [[h2 []]| |] eqn:P; try discriminate. destruct (drain grow f (c_stream y) 0 h2) as [[h3 ts0]| |] eqn:D; try discriminate.
    injection E' as <- <-.
    eapply await_ok with (h' := h2) (x := y).
    - apply local_bind; [apply local_get_coll|]. intro y0. destruct (c_started y0); [apply local_panic|]. apply local_bind; [apply local_put_coll|]. intros _. apply local_ret.
    - unfold hbind. rewrite G, ST, P. reflexivity.
    - intros closed a l hs L. replace (said loud (_ :: ts0) ++ o) with ((if loud then [if c_obj y then TStartObj else TStartArr] else []) ++ said loud ts0 ++ o) by (destruct loud; reflexivity).
      apply put_ok. exact (copy_loop_ok loud f _ _ _ _ _ (fun closed hs ts => k closed hs ((if c_obj y then TStartObj else TStartArr) :: ts)) o x D K _ _ _ _ L). }
  destruct v as [s|c|c]; [|exact (COLL c E)|exact (COLL c E)].
  injection E as <- <-. intros closed a l hs L. cbn [copy_value]. replace (said loud [TScalar s]) with (if loud then [TScalar s] else []) by reflexivity. apply put_ok. exact (K _ _ _ _ L).
Qed.

Lemma perform_ok : forall A loud f (p : iprog A) h h' x k o r, irun grow f p h = Ok (h', x) -> continues k h' x o r ->
  goes (fun closed hs => perform grow loud f p closed hs k) h (said loud (written (emits grow f p h)) ++ o) r.
Proof.
  intros A loud f. induction p as [a0| | |v c IH|v c IH|v c IH|v c IH|v c IH|v c IH|v c IH|d c IH|i c IH|i c IH|i c IH|i c IH];
    intros h h' x k o r E K; try discriminate; cbn [irun emits perform] in *.
  1:{ injection E as <- <-. replace (said loud (written [])) with (@nil token) by (destruct loud; reflexivity). exact K. }
  6:{ unfold hbind in E. destruct (copy grow f v h) as [[h1 ts]| |] eqn:C; try discriminate.
      replace (said loud _ ++ o) with (said loud ts ++ said loud (written (emits grow f (c ts) h1)) ++ o).
      - eapply copy_value_ok; [exact C|]. intros closed a l hs L. exact (IH _ _ _ _ _ _ _ E K _ _ _ _ L).
      - unfold after. rewrite C. destruct loud; [|reflexivity]. cbn [said]. rewrite app_assoc. reflexivity. }
  1:{ unfold after. change (ldo x0 <- coll_of v ; ldo b <- advance grow f x0 ; irun grow f (c b)) with (ldo x0 <- coll_of v ; hbind (advance grow f x0) (fun b => irun grow f (c b))) in E.
      assert (E' : hbind (ldo x0 <- coll_of v ; advance grow f x0) (fun b => irun grow f (c b)) h = Ok (h', x)).
      { unfold hbind in *. destruct (coll_of v h) as [[h0 c0]| |]; try discriminate. exact E. }
      unfold hbind at 1 in E'. destruct ((ldo x0 <- coll_of v ; advance grow f x0) h) as [[h1 b]| |] eqn:M; try discriminate.
      eapply await_ok; [apply local_bind; [apply local_coll_of|intro; apply local_advance]|exact M|]. intros closed a l hs L. exact (IH _ _ _ _ _ _ _ E' K _ _ _ _ L). }
  all: unfold after; unfold hbind in E; match type of E with match ?m with _ => _ end = _ => destruct m as [[h1 y]| |] eqn:M; try discriminate end;
    eapply await_ok; [|exact M|]; [auto using local_current, local_keyval, local_clone, local_detach, local_discard, local_iter_new, local_iter_advance, local_iter_current, local_iter_clone, local_iter_detach|];
    intros closed a l hs L; exact (IH _ _ _ _ _ _ E K _ _ _ _ L) || exact (IH _ _ _ _ _ _ _ E K _ _ _ _ L).
Qed.

Lemma irun_bind_inv : forall A B (p : iprog A) (f : A -> iprog B) n h h' b, irun grow n (ibind p f) h = Ok (h', b) ->
  exists h1 a, irun grow n p h = Ok (h1, a) /\ irun grow n (f a) h1 = Ok (h', b).
Proof.
  intros A B p f n. induction p as [a0| | |v c IH|v c IH|v c IH|v c IH|v c IH|v c IH|v c IH|d c IH|i c IH|i c IH|i c IH|i c IH];
    intros h h' b E; try discriminate; cbn [ibind irun] in *; [exists h, a0; auto|..].
  1:{ unfold hbind in *. destruct (coll_of v h) as [[h0 c0]| |]; try discriminate. destruct (advance grow n c0 h0) as [[h1 y]| |]; try discriminate. now apply IH. }
  all: unfold hbind in *; match type of E with match ?m with _ => _ end = _ => destruct m as [[h1 y]| |]; try discriminate end; now apply IH.
Qed.

(** A program that returns what it has copied. *)
Lemma Q_written : forall A (p : iprog A) (P : option (list token) -> A -> Prop) o n h h' a, Q [] true P o p -> irun grow n p h = Ok (h', a) ->
  exists o', P o' a /\ more o (emits grow n p h) o'.
Proof.
  intros A p P. induction p as [a0| | |v c IH|v c IH|v c IH|v c IH|v c IH|v c IH|v c IH|d c IH|i c IH|i c IH|i c IH|i c IH];
    intros o n h h' a H E; try discriminate; cbn [irun Q emits] in *.
  1:{ injection E as <- <-. exists o. split; [exact H|apply more_nil]. }
  1:{ destruct H as [_ H]. unfold after. unfold hbind in *. destruct (coll_of v h) as [[h0 c0]| |]; try discriminate. destruct (advance grow n c0 h0) as [[h1 y]| |]; try discriminate. now apply IH with (h' := h'). }
  all: unfold after; unfold hbind in E; match type of E with match ?m with _ => _ end = _ => destruct m as [[h1 y]| |] eqn:M; try discriminate end.
  5:{ destruct H as [_ H]. destruct o as [out|]; [|contradiction]. destruct (IH y (Some (out ++ y)) _ _ _ _ (H y) E) as [o' [P1 M1]]. exists o'. split; [exact P1|].
      cbn [more] in *. rewrite M1. unfold written. cbn [map concat fst]. now rewrite <- app_assoc. }
  - apply IH with (h' := h'); [|exact E]. apply H. destruct y; [apply avoid_nil|exact Logic.I].
  - apply IH with (h' := h'); [|exact E]. apply H. unfold avoid_opt. destruct (snd y); [apply avoid_nil|exact Logic.I].
  - apply IH with (h' := h'); [|exact E]. apply H. apply avoid_nil.
  - now apply IH with (h' := h').
  - now apply IH with (h' := h').
  - now apply IH with (h' := h').
  - now apply IH with (h' := h').
  - now apply IH with (h' := h').
  - now apply IH with (h' := h').
  - now apply IH with (h' := h').
Qed.
Definition faithful (p : iprog (list token)) : Prop := forall n h h' ts, irun grow n p h = Ok (h', ts) -> written (emits grow n p h) = ts.
Lemma Q_faithful : forall p, Q [] true (fun o ts => o = Some ts) (Some []) p -> faithful p.
Proof. intros p H n h h' ts E. destruct (Q_written _ _ _ _ _ _ _ _ H E) as [o' [-> M]]. cbn [more] in M. now injection M as ->. Qed.

Lemma values_ok : forall C (first : value -> iprog C) second f (r : R), (forall c v, faithful (second c v)) ->
  forall n h h' out, irun grow f (transform_values (fun v => ibind (first v) (fun c => second c v)) n 0) h = Ok (h', out) ->
  goes (fun closed hs => values_stage grow first second f n closed hs r) h out r.
Proof.
  intros C first second f r F. induction n as [|n IH]; intros h h' out E; [discriminate|]. cbn [transform_values irun values_stage] in *. unfold hbind at 1 in E.
  destruct (iter_advance grow f 0 h) as [[h1 b]| |] eqn:A1; try discriminate.
  eapply await_ok; [apply local_iter_advance|exact A1|]. intros closed a l hs L. destruct b.
  - cbn [irun] in E. unfold hbind at 1 in E. destruct (iter_current 0 h1) as [[h2 o]| |] eqn:C1; try discriminate.
    eapply (await_ok _ _ (local_iter_current 0) _ _ _ _ _ _ C1); [|exact L]. clear closed a l hs L. intros closed a l hs L.
    destruct o as [v|]; [|discriminate]. cbn [need ibind] in E. apply irun_bind_inv in E as (h3 & ts & E1 & E). apply irun_bind_inv in E1 as (h4 & c & E1 & E2).
    apply irun_bind_inv in E as (h5 & rs & E3 & E). injection E as <- <-.
    assert (K2 : continues (fun closed h (_ : list token) => values_stage grow first second f n closed h r) h3 ts rs r) by (intros cl a' l' hs' L'; exact (IH _ _ _ E3 _ _ _ _ L')).
    pose proof (perform_ok _ true f _ _ _ _ _ _ _ E2 K2) as K1. cbn [said] in K1. rewrite (F _ _ _ _ _ _ E2) in K1.
    refine (perform_ok _ false f _ _ _ _ (fun closed h c => perform grow true f (second c v) closed h (fun closed h _ => values_stage grow first second f n closed h r)) _ _ E1 _ _ _ _ _ L).
    exact K1.
  - injection E as <- <-. exists 1. constructor.
Qed.

Lemma start_lazy : forall ts, lazy false [] ts (IterModel.start []) (IterModel.start ts).
Proof. intro ts. split; [|discriminate]. split; try reflexivity; [exists []; auto|constructor]. Qed.

Lemma explode_faithful : forall n v, faithful (explode n v).
Proof.
  intros n v. apply Q_faithful.
  assert (IT : forall m out, Q [] true (fun o ts => o = Some (out ++ ts)) (Some out) (explode_items m v)).
  { induction m as [|m IH]; intro out; [exact Logic.I|]. cbn [explode_items Q]. split; [apply avoid_nil|]. intros [|]; [|cbn; now rewrite app_nil_r].
    split; [apply avoid_nil|]. intros [x|] _; [|exact Logic.I]. cbn [need ibind Q]. split; [apply avoid_nil|]. intro ts. eapply Q_bind; [apply IH|]. intros o' rs ->. cbn. now rewrite app_assoc. }
  destruct v as [s|c|c]; [cbn; split; reflexivity|exact (IT n [])|cbn; split; reflexivity].
Qed.
Theorem split_stage_ok : forall n f ts h' out (r : R), irun grow f (split n) (IterModel.start ts) = Ok (h', out) -> exists m, alone m (split_stage grow n f r) ts out r.
Proof.
  intros n f ts h' out r E. unfold split_stage.
  exact (values_ok unit (fun _ => IRet tt) (fun _ => explode n) f r (fun _ v => explode_faithful n v) n _ _ _ E _ _ _ _ (start_lazy ts)).
Qed.
Theorem query_stage_ok : forall find q n f ts h' out (r : R), irun grow f (run_stream find n q) (IterModel.start ts) = Ok (h', out) ->
  exists m, alone m (query_stage grow find q n f r) ts out r.
Proof.
  intros find q n f ts h' out r E. unfold query_stage. unfold run_stream in E.
  refine (values_ok _ _ _ f r _ n _ _ _ E _ _ _ _ (start_lazy ts)). intros ctx v. apply Q_faithful.
  pose (CT := or_intror (conj eq_refl eq_refl) : true = false /\ ctx = mkCtx [] [] \/ true = true /\ @nil nat = []).
  destruct (engine [] true find ctx CT n) as [TV _].
  eapply Q_bind; [apply (Q_map_value [] true ctx CT _ TV at_write (closed_write [] true)); [exists []; auto|apply avoid_nil]|].
  intros o [P b] [out1 [-> EP]]. cbn [fst] in *. subst P. reflexivity.
Qed.
End Proc.

(** Running programs on scanners: simulation and weakest preconditions. *)
From Coq Require Import List Arith NArith Bool Lia.
From Verif Require Import Base Tokens ScannerModel ScannerSpec ScannerProofs ProgModel.

(** What a program does on the plain scanner it also does on the buffered
    one, for every chunking. *)
Lemma prun_sim : forall A (p : prog A) a c a' ts r, sim a c ->
  prun astep a p = Ok (a', ts, r) ->
  exists c', prun cstep c p = Ok (c', ts, r) /\ sim a' c'.
Proof.
  intros A p. induction p as [x|o k IH|t k IH|]; intros a c a' ts r HS H; simpl in *.
  - injection H as <- <- <-. eauto.
  - destruct (astep a o) as [[a1 x]| |] eqn:E; try discriminate.
    destruct (step_sim a c o a1 x HS E) as [c1 [C1 S1]]. rewrite C1. eapply IH; eauto.
  - destruct (prun astep a k) as [[[a1 ts1] r1]| |] eqn:E; try discriminate.
    injection H as <- <- <-. destruct (IH _ _ _ _ _ HS E) as [c1 [C1 S1]]. rewrite C1. eauto.
  - discriminate.
Qed.

(** [runs a p Q]: on the plain scanner [a] the program ends normally, and its
    final state, tokens and result satisfy [Q]. *)
Definition runs {A} (a : ast) (p : prog A) (Q : ast -> list token -> A -> Prop) : Prop :=
  exists a' ts r, prun astep a p = Ok (a', ts, r) /\ Q a' ts r.

Lemma prun_bind : forall A B (p : prog A) (f : A -> prog B) a,
  prun astep a (pbind p f) =
  match prun astep a p with
  | Ok (a1, t1, x) => match prun astep a1 (f x) with
                      | Ok (a2, t2, y) => Ok (a2, t1 ++ t2, y)
                      | Panic => Panic
                      | OutOfFuel => OutOfFuel
                      end
  | Panic => Panic
  | OutOfFuel => OutOfFuel
  end.
Proof.
  intros A B p f. induction p as [x|o k IH|t k IH|]; intros a; simpl.
  - destruct (prun astep a (f x)) as [[[? ?] ?]| |]; reflexivity.
  - destruct (astep a o) as [[a1 x]| |]; auto.
  - rewrite IH. destruct (prun astep a k) as [[[a1 t1] x]| |]; auto.
    destruct (prun astep a1 (f x)) as [[[? ?] ?]| |]; reflexivity.
  - reflexivity.
Qed.

Lemma runs_ret : forall A a (x : A) (Q : ast -> list token -> A -> Prop),
  Q a [] x -> runs a (Ret x) Q.
Proof. intros. do 3 eexists. split; [reflexivity|assumption]. Qed.

Lemma runs_bind : forall A B (p : prog A) (f : A -> prog B) a Q,
  runs a p (fun a1 t1 x => runs a1 (f x) (fun a2 t2 y => Q a2 (t1 ++ t2) y)) ->
  runs a (pbind p f) Q.
Proof.
  intros A B p f a Q [a1 [t1 [x [H1 [a2 [t2 [y [H2 H3]]]]]]]].
  exists a2, (t1 ++ t2), y. split; [|exact H3]. rewrite prun_bind, H1, H2. reflexivity.
Qed.

Lemma runs_ebind : forall A B (p : prog (dres A)) (f : A -> prog (dres B)) a Q,
  runs a p (fun a1 t1 r => match r with
     | DOk x => runs a1 (f x) (fun a2 t2 y => Q a2 (t1 ++ t2) y)
     | DErr e => Q a1 t1 (DErr e) end) ->
  runs a (ebind p f) Q.
Proof.
  intros A B p f a Q H. unfold ebind. apply runs_bind.
  destruct H as [a1 [t1 [r [H1 H2]]]]. exists a1, t1, r. split; [exact H1|].
  destruct r as [x|e]; [exact H2|]. apply runs_ret. now rewrite app_nil_r.
Qed.

Lemma runs_emit : forall A t (p : prog A) a Q,
  runs a p (fun a1 ts x => Q a1 (t :: ts) x) -> runs a (Emit t p) Q.
Proof.
  intros A t p a Q [a1 [ts [x [H1 H2]]]]. exists a1, (t :: ts), x. simpl. rewrite H1. auto.
Qed.

Lemma runs_conseq : forall A (p : prog A) a (Q Q' : ast -> list token -> A -> Prop),
  runs a p Q -> (forall a1 t x, Q a1 t x -> Q' a1 t x) -> runs a p Q'.
Proof. intros A p a Q Q' [a1 [t [x [H1 H2]]]] HQ. exists a1, t, x. auto. Qed.

Lemma runs_op : forall A o (k : sobs -> prog A) a Q a1 x,
  astep a o = Ok (a1, x) -> runs a1 (k x) Q -> runs a (Op o k) Q.
Proof.
  intros A o k a Q a1 x H [a2 [t [y [H1 H2]]]]. exists a2, t, y. simpl. rewrite H. auto.
Qed.

(** [ple p q]: [q] is [p], except that it may go on where [p] is stuck. *)
Inductive ple {A} : prog A -> prog A -> Prop :=
| ple_stuck : forall q, ple Stuck q
| ple_ret : forall a, ple (Ret a) (Ret a)
| ple_op : forall o k k', (forall x, ple (k x) (k' x)) -> ple (Op o k) (Op o k')
| ple_emit : forall t p q, ple p q -> ple (Emit t p) (Emit t q).

Lemma ple_refl : forall A (p : prog A), ple p p.
Proof. induction p; constructor; auto. Qed.

Lemma ple_bind : forall A B (p q : prog A) (f g : A -> prog B),
  ple p q -> (forall a, ple (f a) (g a)) -> ple (pbind p f) (pbind q g).
Proof. intros A B p q f g H. induction H; intro F; cbn [pbind]; auto; constructor; auto. Qed.

Lemma ple_ebind : forall A B (p q : prog (dres A)) (f g : A -> prog (dres B)),
  ple p q -> (forall a, ple (f a) (g a)) -> ple (ebind p f) (ebind q g).
Proof.
  intros A B p q f g H F. unfold ebind. apply ple_bind; auto.
  intros [a|e]; auto. constructor.
Qed.

Lemma ple_run : forall A S (step : S -> sop -> res (S * sobs)) (p q : prog A), ple p q ->
  forall s r, prun step s p = Ok r -> prun step s q = Ok r.
Proof.
  intros A S step p q H. induction H; intros s r E; cbn [prun] in *; try discriminate; auto.
  - destruct (step s o) as [[s1 x]| |]; try discriminate. eauto.
  - destruct (prun step s p) as [[[s1 ts] a]| |] eqn:E1; try discriminate.
    now rewrite (IHple _ _ E1).
Qed.

(** Queries as sequences of segments; singular queries. *)
From Coq Require Import List ZArith NArith Arith Bool Lia.
From Verif Require Import Base Tokens JsonSpec GoLiteral ScalarModel IterModel IterSpec P_Scalar P_Equal SelectModel SelectSpec P_Select SelectMore
  ScalarSpec EqualSpec ScalarProofs PathModel PathAbs PathPure PathBody PathSing PathMain PathAst PathSpec PathTame PathMarks PathSel PathVal CompileModel.

(** Lists. *)
Lemma forall2_iff : forall A B (R : A -> B -> Prop) g xs ls, (forall x, In x xs -> forall l, R x l <-> l = g x) -> (Forall2 R xs ls <-> ls = map g xs).
Proof.
  intros A B R g. induction xs as [|x xs IH]; intros ls H.
  - split; [intro F; inversion F; reflexivity|intros ->; constructor].
  - assert (IH' := fun ls => IH ls (fun y Y => H y (or_intror Y))). specialize (H x (or_introl eq_refl)). cbn [map]. split.
    + intro F. inversion F; subst. f_equal; [now apply H|now apply IH'].
    + intros ->. constructor; [now apply H|now apply IH'].
Qed.
Lemma each_iff : forall A B (R : A -> B -> Prop) xs ys ls g, Forall2 (fun x (y : A) => True) xs xs -> (forall x, In x xs -> forall l, R x l <-> l = g x) -> ys = map g xs -> (each R xs ls <-> ls = ys).
Proof.
  intros A B R xs ys ls g _ H ->. revert ls. induction xs as [|x xs IH]; intros ls.
  - cbn. destruct ls; split; try tauto; try discriminate; reflexivity.
  - assert (IH' := fun ls => IH (fun y Y => H y (or_intror Y)) ls). specialize (H x (or_introl eq_refl)). cbn [map each]. destruct ls as [|l ls]; [split; [tauto|discriminate]|].
    rewrite (H l), (IH' ls). split; [intros [-> ->]; reflexivity|]. intros [= -> ->]. auto.
Qed.

(** The relation of a list of segments. *)
Section Path.
  Variable matches : bytes -> bytes -> Prop.
  Variable strict : bool.
  Variable root : jval.
  Notation segment_nodes := (segment_nodes matches strict root).
  Fixpoint path (segs : list jsegment) (xs l : list jval) : Prop :=
    match segs with
    | [] => l = xs
    | seg :: rest => exists ls, Forall2 (segment_nodes seg) xs ls /\ path rest (concat ls) l
    end.
  Lemma nodes_path : forall r segs x l, nodes matches strict root (JQuery r segs) x l = path segs [if r then root else x] l.
  Proof. reflexivity. Qed.

  Lemma path_app : forall segs xs ys l, path segs (xs ++ ys) l <-> exists l1 l2, path segs xs l1 /\ path segs ys l2 /\ l = l1 ++ l2.
  Proof.
    induction segs as [|seg segs IH]; intros xs ys l; cbn [path].
    - split; [intros ->; exists xs, ys; auto|intros (l1 & l2 & -> & -> & ->); reflexivity].
    - split.
      + intros [ls [F H]]. apply Forall2_app_inv_l in F as (ls1 & ls2 & F1 & F2 & ->). rewrite concat_app in H. apply IH in H as (l1 & l2 & H1 & H2 & ->). exists l1, l2. split; [eauto|]. split; eauto.
      + intros (l1 & l2 & [ls1 [F1 H1]] & [ls2 [F2 H2]] & ->). exists (ls1 ++ ls2). split; [now apply Forall2_app|]. rewrite concat_app. apply IH. eauto.
  Qed.
  Lemma path_nil : forall segs l, path segs [] l <-> l = [].
  Proof.
    induction segs as [|seg segs IH]; intro l; cbn [path]; [reflexivity|]. split.
    - intros [ls [F H]]. inversion F; subst. now apply IH.
    - intros ->. exists []. split; [constructor|now apply IH].
  Qed.
  Lemma path_list : forall segs f xs, (forall x, In x xs -> forall l, path segs [x] l <-> l = f x) -> forall l, path segs xs l <-> l = flat_map f xs.
  Proof.
    intros segs f. induction xs as [|x xs IH]; intros H l; [apply path_nil|]. cbn [flat_map]. change (x :: xs) with ([x] ++ xs). rewrite path_app.
    assert (IH' := IH (fun y Y => H y (or_intror Y))). specialize (H x (or_introl eq_refl)). split.
    - intros (l1 & l2 & H1 & H2 & ->). apply H in H1. apply IH' in H2. now subst.
    - intros ->. exists (f x), (flat_map f xs). split; [now apply H|]. split; [now apply IH'|reflexivity].
  Qed.
  Lemma path_cons : forall seg segs x g, (forall l, segment_nodes seg x l <-> l = g) -> forall l, path (seg :: segs) [x] l <-> path segs g l.
  Proof.
    intros seg segs x g H l. cbn [path]. split.
    - intros [ls [F P]]. inversion F as [|? l1 ? ls' H1 F']; subst. inversion F'; subst. apply H in H1. subst. cbn [concat] in P. now rewrite app_nil_r in P.
    - intro P. exists [g]. split; [constructor; [now apply H|constructor]|]. cbn [concat]. now rewrite app_nil_r.
  Qed.
End Path.

(** Steps of singular queries. *)
Lemma pick_filter : forall (d : scalar * jval -> bool) l pre, pick (pre ++ map snd l) (positions (length pre) (map d l)) = map snd (filter d l).
Proof.
  intros d. induction l as [|m l IH]; intro pre; [reflexivity|]. cbn [map positions filter]. rewrite pick_app. specialize (IH (pre ++ [snd m])).
  rewrite <- app_assoc, app_length in IH. cbn [app length] in IH. rewrite Nat.add_1_r in IH. rewrite IH.
  destruct (d m); [|reflexivity]. unfold pick. cbn [flat_map map]. rewrite nth_error_app2, Nat.sub_diag by lia. reflexivity.
Qed.
Lemma find_key_filter : forall name l, find_key name l = nth_error (map snd (filter (fun m => bytes_eqb (key_string (fst m)) name) l)) 0.
Proof.
  intros name. induction l as [|[k y] l IH]; [reflexivity|]. cbn [find_key filter fst]. destruct (bytes_eqb _ _); [reflexivity|exact IH].
Qed.
(** At most one. *)
Lemma one_key : forall name l e, clean (JObj l e) -> length (filter (fun m => bytes_eqb (key_string (fst m)) name) l) <= 1.
Proof.
  intros name l e C. assert (K := fun m => clean_keys l e m C). destruct C as [C _]. inversion C as [| |? ? _ D]; subst. clear C.
  induction D as [|m l F D IH]; [cbn; lia|]. cbn [filter]. destruct (bytes_eqb _ _) eqn:E; [|apply IH; intros; apply K; now right]. cbn [length].
  replace (filter _ l) with (@nil (scalar * jval)); [cbn; lia|]. symmetry. apply bytes_eqb_eq in E.
  rewrite Forall_forall in F. assert (N : forall m', In m' l -> bytes_eqb (key_string (fst m')) name = false).
  { intros m' J. specialize (F m' J). destruct (bytes_eqb (key_string (fst m')) name) eqn:E'; [|reflexivity]. exfalso. apply F. apply bytes_eqb_eq in E'.
    destruct (K m (or_introl eq_refl)), (K m' (or_intror J)). apply same_keys; auto. congruence. }
  clear - N. induction l as [|m l IH]; [reflexivity|]. cbn [filter]. rewrite (N m (or_introl eq_refl)). apply IH. intros. apply N. now right.
Qed.

Lemma index_yes : forall i len j neg, safe i -> (Z.of_nat len < 2 ^ 62)%Z -> (0 <= j < Z.of_nat len)%Z ->
  (i < 0 -> neg = neg_of (lookahead (PIndex i)) (Z.of_nat len) j)%Z ->
  d_yes (selects_from_index (PIndex i) j neg) = (j =? normalize i (Z.of_nat len))%Z.
Proof.
  intros i len j neg S L J H. pose proof (index_look i S) as LA. unfold safe in S. cbn [selects_from_index]. unfold offset. destruct (Z.ltb_spec i 0) as [N|N].
  - rewrite (H N). unfold neg_of. rewrite LA. destruct (Z.ltb_spec 0 (Z.max 0 (- i))); [|lia]. rewrite i64_id by lia. unfold normalize. destruct (Z.leb_spec 0 i); [lia|].
    repeat match goal with |- context [(?x <? ?y)%Z] => destruct (Z.ltb_spec x y) | |- context [(?x =? ?y)%Z] => destruct (Z.eqb_spec x y) end; try reflexivity; lia.
  - rewrite i64_id by lia. unfold normalize. destruct (Z.leb_spec 0 i); [|lia].
    repeat match goal with |- context [(?x <? ?y)%Z] => destruct (Z.ltb_spec x y) | |- context [(?x =? ?y)%Z] => destruct (Z.eqb_spec x y) end; try reflexivity; lia.
Qed.
Lemma find_index_at : forall i len, safe i -> (Z.of_nat len < 2 ^ 62)%Z -> forall l k s, (k + length l = len)%nat ->
  (i < 0 -> look_at (lookahead (PIndex i)) len (Z.of_nat k) s)%Z ->
  find_index i (lookahead (PIndex i)) s (Z.of_nat k) l =
  if ((Z.of_nat k <=? normalize i (Z.of_nat len)) && (normalize i (Z.of_nat len) <? Z.of_nat len))%Z then nth_error l (Z.to_nat (normalize i (Z.of_nat len)) - k) else None.
Proof.
  intros i len S L. induction l as [|y l IH]; intros k s K H; cbn [find_index].
  - destruct (_ && _)%bool eqn:E; [|reflexivity]. apply andb_prop in E as [E1 E2]. apply Z.leb_le in E1. apply Z.ltb_lt in E2. cbn [length] in K. lia.
  - cbn [length] in K. rewrite (index_yes i len) by (auto; try lia; intro N; apply (H N)).
    set (n := normalize i (Z.of_nat len)) in *. destruct (Z.eqb_spec (Z.of_nat k) n) as [<-|NE].
    + rewrite Z.leb_refl. destruct (Z.ltb_spec (Z.of_nat k) (Z.of_nat len)); [|lia]. cbn [andb]. now rewrite Nat2Z.id, Nat.sub_diag.
    + rewrite i64_id by lia. replace (Z.of_nat k + 1)%Z with (Z.of_nat (Datatypes.S k)) by lia. rewrite IH.
      * destruct (Z.leb_spec (Z.of_nat (Datatypes.S k)) n), (Z.leb_spec (Z.of_nat k) n); try lia; cbn [andb]; try reflexivity.
        destruct (n <? Z.of_nat len)%Z; [|reflexivity]. replace (Z.to_nat n - k) with (Datatypes.S (Z.to_nat n - Datatypes.S k)) by lia. reflexivity.
      * lia.
      * intro N. replace (Z.of_nat (Datatypes.S k)) with (Z.of_nat k + 1)%Z by lia. apply look_step; auto; [apply look_range; exact S|lia].
Qed.
Lemma find_index_ok : forall i l, safe i -> (Z.of_nat (length l) < 2 ^ 62)%Z ->
  let look := lookahead (PIndex i) in
  find_index i look (start_look look (length l) min64) 0 l = nth_error (pick l (map Z.to_nat (rfc_index i (Z.of_nat (length l))))) 0.
Proof.
  intros i l S L look. subst look. change 0%Z with (Z.of_nat 0). rewrite (find_index_at i (length l) S L l 0); [|reflexivity|].
  - unfold rfc_index. change (Z.of_nat 0) with 0%Z. set (n := normalize i _). destruct ((0 <=? n) && (n <? Z.of_nat (length l)))%Z eqn:E; [|reflexivity].
    unfold pick. cbn [map flat_map]. rewrite Nat.sub_0_r. destruct (nth_error l (Z.to_nat n)); reflexivity.
  - intro N. pose proof (index_look i S) as LA. pose proof (look_start (lookahead (PIndex i)) (length l) (look_range (PIndex i) S)) as H. unfold start_look in *.
    destruct (Z.ltb_spec 0 (lookahead (PIndex i))); [exact H|]. unfold safe in S. lia.
Qed.
Lemma index_one : forall i l, length (pick l (map Z.to_nat (rfc_index i (Z.of_nat (length l)))) : list jval) <= 1.
Proof. intros i l. unfold rfc_index. destruct (_ && _)%bool; [|cbn; lia]. unfold pick. cbn [map flat_map]. destruct (nth_error _ _); cbn; lia. Qed.

Definition olist {A} (o : option A) : list A := match o with Some a => [a] | None => [] end.
Lemma olist_nth : forall A (l : list A), length l <= 1 -> olist (nth_error l 0) = l.
Proof. intros A [|a [|b l]] H; cbn in *; try reflexivity. lia. Qed.

Lemma step_iff : forall s x o, clean x -> safe_step s -> (step s x o <-> o = sing_step (compile_step s) x).
Proof.
  intros [name|i] [sc|l e|l e] o C S; cbn [step compile_step sing_step]; try reflexivity.
  - rewrite find_key_filter. assert (K := fun is => kept_iff _ (fun m => spells (fst m) name) (fun m => bytes_eqb (key_string (fst m)) name) l 0 is
      (fun m J => let (D, T) := clean_keys l e m C J in spells_string (fst m) name D T)). rewrite <- (pick_filter _ l []). cbn [app length]. split.
    + intros [is [H ->]]. apply K in H. now subst.
    + intros ->. eexists. split; [now apply K|reflexivity].
  - pose proof (clean_length _ C) as L. cbn [children] in L. rewrite find_index_ok by (auto; lia). reflexivity.
Qed.
Lemma step_good : forall s x y, clean x -> sing_step s x = Some y -> clean y.
Proof.
  intros s x y C E. eapply clean_child; [exact C|]. destruct x as [sc|l e|l e], s as [name|i]; cbn [sing_step children] in *; try discriminate.
  - cbv zeta in E. revert E. generalize (start_look (lookahead (PIndex i)) (length l) min64), 0%Z. clear C. induction l as [|z l IH]; intros s k; cbn [find_index]; [discriminate|].
    destruct (d_yes _); [intros [= ->]; now left|]. intro E. right. eapply IH. exact E.
  - clear C. induction l as [|[k z] l IH]; cbn [find_key] in E; [discriminate|]. destruct (bytes_eqb _ _); [injection E as ->; now left|]. right. auto.
Qed.
Lemma steps_iff : forall l x, clean x -> Forall safe_step l ->
  (forall o, steps l x o <-> o = singular (map compile_step l) x) /\ sing_ok (map compile_step l) x /\ good_value (singular (map compile_step l) x).
Proof.
  induction l as [|s l IH]; intros x C S; [split; [reflexivity|split; [exact Logic.I|exact C]]|]. inversion S as [|? ? SS SL]; subst. cbn [map]. rewrite singular_eq. cbn [steps sing_ok].
  pose proof (clean_keys_ok x C) as K. destruct (sing_step (compile_step s) x) as [y|] eqn:E.
  - destruct (IH y (step_good _ _ _ C E) SL) as [A [B D]]. split; [|auto]. intro o. rewrite <- A. split.
    + intros [o' [H1 H2]]. apply (step_iff s x o' C SS) in H1. rewrite E in H1. now subst.
    + intro H. exists (Some y). split; [now apply step_iff|exact H].
  - split; [|cbn; auto]. intro o. split.
    + intros [o' [H1 H2]]. apply (step_iff s x o' C SS) in H1. rewrite E in H1. now subst.
    + intros ->. exists None. split; [now apply step_iff|reflexivity].
Qed.

(** Singular queries as queries. *)
Section Singular.
  Variable matches : bytes -> bytes -> Prop.
  Variable find : bytes -> bytes -> option (nat * nat).
  Variable strict : bool.
  Variable root : jval.
  Lemma single_nodes : forall s sel x, clean x -> safe_step s -> sel = (match s with JStepName n => JName n | JStepIndex i => JIndex i end) ->
    forall l, segment_nodes matches strict root (JSegment false [sel]) x l <-> l = olist (sing_step (compile_step s) x).
  Proof.
    intros s sel x C S -> l. cbn [segment_nodes]. 
    assert (E : forall is, (exists iss, each (fun s0 => selects matches strict root s0 x) [match s with JStepName n => JName n | JStepIndex i => JIndex i end] iss /\ is = concat iss) <->
                selects matches strict root (match s with JStepName n => JName n | JStepIndex i => JIndex i end) x is).
    { intro is. split.
      - intros [iss [H ->]]. destruct iss as [|is [|]]; cbn [each] in H; try tauto. destruct H as [H _]. cbn [concat]. now rewrite app_nil_r.
      - intro H. exists [is]. split; [split; [exact H|exact Logic.I]|]. cbn [concat]. now rewrite app_nil_r. }
    assert (F : (exists is, selects matches strict root (match s with JStepName n => JName n | JStepIndex i => JIndex i end) x is /\ l = pick (children x) is) <-> l = olist (sing_step (compile_step s) x)).
    { destruct s as [name|i], x as [sc|l' e|l' e]; cbn [selects compile_step sing_step children];
      try (split; [intros [is [-> ->]]; reflexivity|intros ->; exists []; split; reflexivity]).
      - rewrite find_key_filter, olist_nth by (rewrite map_length; eapply one_key; exact C).
        assert (K := fun is => kept_iff _ (fun m => spells (fst m) name) (fun m => bytes_eqb (key_string (fst m)) name) l' 0 is
          (fun m J => let (D, T) := clean_keys l' e m C J in spells_string (fst m) name D T)). rewrite <- (pick_filter _ l' []). cbn [app length]. split.
        + intros [is [H ->]]. apply K in H. now subst.
        + intros ->. eexists. split; [now apply K|reflexivity].
      - pose proof (clean_length _ C) as L. cbn [children] in L. rewrite find_index_ok by (auto; lia). rewrite olist_nth by apply index_one. split.
        + intros [is [-> ->]]. reflexivity.
        + intros ->. eexists. split; reflexivity. }
    rewrite <- F. split; intros [is [H1 H2]]; exists is; (split; [|exact H2]); now apply E.
  Qed.

  Lemma singular_path : forall segs l x, as_steps segs = Some l -> clean x -> Forall safe_step l ->
    forall r, path matches strict root segs [x] r <-> r = olist (singular (map compile_step l) x).
  Proof.
    induction segs as [|[desc sels] segs IH]; intros l x A C S r; cbn [as_steps] in A.
    - injection A as <-. reflexivity.
    - assert (HS : exists s l', l = s :: l' /\ as_steps segs = Some l' /\ desc = false /\ sels = [match s with JStepName n => JName n | JStepIndex i => JIndex i end]).
      { destruct desc; [discriminate|]. destruct sels as [|[n| |i|? ? ?|?] [|]]; try discriminate; destruct (as_steps segs) as [l'|]; try discriminate; injection A as <-.
        - exists (JStepName n), l'. auto.
        - exists (JStepIndex i), l'. auto. }
      destruct HS as (s & l' & -> & A' & -> & ->). inversion S as [|? ? SS SL]; subst. cbn [map]. rewrite singular_eq.
      rewrite (path_cons _ _ _ _ _ _ _ (single_nodes s _ x C SS eq_refl)). destruct (sing_step (compile_step s) x) as [y|] eqn:E; cbn [olist].
      + apply IH; auto. eapply step_good; eauto.
      + apply path_nil.
  Qed.

End Singular.

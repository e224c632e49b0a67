(** From lines back to values. *)
From Coq Require Import List Arith ZArith NArith Bool Lia.
From Verif Require Import Base Tokens JsonDecModel JsonSpec EncSpec P_JsonEnc
  GoLiteral ScalarModel ScalarSpec ScalarProofs P_Scalar JpvEncModel JpvDecModel JpvSpec JpvProofs.

(** A value seen as a tree of steps: the steps of an array can have gaps. *)
Inductive ptree :=
| PLeaf (v : jval)
| PNode (arr : bool) (kids : list (jstep * ptree)).

Lemma ptree_induction : forall P : ptree -> Prop,
  (forall v, P (PLeaf v)) ->
  (forall arr kids, Forall (fun k => P (snd k)) kids -> P (PNode arr kids)) ->
  forall t, P t.
Proof.
  intros P HL HN. fix IH 1. intros [v|arr kids].
  - apply HL.
  - apply HN. induction kids as [|[s t] kids IHk]; constructor; [apply IH|apply IHk].
Qed.

Definition open_step (s : jstep) (in_coll : bool) : list token :=
  match s with
  | SIndex _ => if in_coll then [] else [TStartArr]
  | _ => (if in_coll then [] else [TStartObj]) ++ [TScalar (step_key s)]
  end.
Definition close_step (s : jstep) : list token :=
  match s with SIndex _ => [TEndArr] | _ => [TEndObj] end.
Definition is_index (s : jstep) : bool := match s with SIndex _ => true | _ => false end.

Fixpoint ptoks (t : ptree) : list token :=
  match t with
  | PLeaf v => toks v
  | PNode arr kids =>
      (if arr then TStartArr else TStartObj) ::
      flat_map (fun k => open_step (fst k) true ++ ptoks (snd k)) kids ++
      [if arr then TEndArr else TEndObj]
  end.

Fixpoint plines (t : ptree) : list line :=
  match t with
  | PLeaf v => [([], v)]
  | PNode _ kids => flat_map (fun k => map (below (fst k)) (plines (snd k))) kids
  end.

(** Steps that compare as they should once parsed. *)
Definition self (s : jstep) : Prop :=
  forall k k', parsed s k -> parsed s k' -> scalar_equal k k' = Ok true.
Definition distinct (s s' : jstep) : Prop :=
  forall k k', parsed s k -> parsed s' k' -> scalar_equal k k' = Ok false.
Fixpoint chain (l : list jstep) : Prop :=
  match l with
  | s :: ((s' :: _) as r) => distinct s s' /\ chain r
  | _ => True
  end.
Inductive wf : ptree -> Prop :=
| wf_leaf : forall v, wf (PLeaf v)
| wf_node : forall arr kids, kids <> [] ->
    Forall (fun k => is_index (fst k) = arr /\ self (fst k) /\ wf (snd k)) kids ->
    chain (map fst kids) -> wf (PNode arr kids).

Lemma parsed_open : forall s k c, parsed s k -> open_tokens k c = open_step s c.
Proof.
  intros [c|c|n] k b H; cbn [parsed] in H; [subst; reflexivity|subst; reflexivity|].
  destruct H as [ds [_ [_ ->]]]. reflexivity.
Qed.
Lemma parsed_close : forall s k, parsed s k -> close_token k = close_step s.
Proof.
  intros [c|c|n] k H; cbn [parsed] in H; [subst; reflexivity|subst; reflexivity|].
  destruct H as [ds [_ [_ ->]]]. reflexivity.
Qed.
Lemma parsed_type : forall s k, parsed s k -> sc_type k = if is_index s then TNum else TStr.
Proof.
  intros [c|c|n] k H; cbn [parsed] in H; [subst; reflexivity|subst; reflexivity|].
  destruct H as [ds [_ [_ ->]]]. reflexivity.
Qed.

Lemma divergence_at : forall p p' k l k' n i,
  Forall2 (fun a b => scalar_equal a b = Ok true) p p' ->
  scalar_equal k k' = Ok false -> sc_type k = sc_type k' ->
  divergence (p ++ k :: l) (p' ++ k' :: n) i = JOk (Some (i + length p)).
Proof.
  intros p p' k l k' n i F. revert i. induction F as [|a b p p' E F IH]; intros i D T; cbn [app divergence].
  - rewrite D, T. destruct (sc_type k'); cbn [stype_eqb length]; rewrite Nat.add_0_r; reflexivity.
  - rewrite E, IH by auto. cbn [length]. do 2 f_equal. lia.
Qed.

Lemma Forall2_length' : forall A B (R : A -> B -> Prop) l l', Forall2 R l l' -> length l = length l'.
Proof. induction 1; simpl; auto. Qed.

Lemma update_at : forall p p' k l k' n,
  Forall2 (fun a b => scalar_equal a b = Ok true) p p' ->
  scalar_equal k k' = Ok false -> sc_type k = sc_type k' ->
  update_path (p ++ k :: l) (p' ++ k' :: n) =
  JOk (unwind_path l false ++ open_tokens k' true ++ follow_path n false).
Proof.
  intros p p' k l k' n F D T. unfold update_path.
  pose proof (divergence_at p p' k l k' n 0 F D T) as DV.
  destruct (p ++ k :: l) as [|x y] eqn:E; [destruct p; discriminate|]. rewrite DV. rewrite <- E.
  cbn [Nat.add]. rewrite skipn_app, skipn_all, Nat.sub_diag.
  rewrite (Forall2_length' _ _ _ _ _ F) at 1. rewrite skipn_app, skipn_all, Nat.sub_diag.
  cbn [app skipn]. unfold unwind_path at 1. cbn [tl]. f_equal. f_equal. cbn [follow_path]. f_equal.
  destruct n; reflexivity.
Qed.

(** Lines of [ls] parsed below the path [pre]. *)
Definition pline := (list scalar * list scalar * jval)%type.
Definition pl_ok (pre : list jstep) (l : line) (pl : pline) : Prop :=
  Forall2 parsed pre (fst (fst pl)) /\ Forall2 parsed (fst l) (snd (fst pl)) /\ snd l = snd pl.
Definition join (pl : pline) : list scalar * jval := (fst (fst pl) ++ snd (fst pl), snd pl).

Lemma walk_app : forall l1 l2 last ts q, walk last l1 = JOk (ts, q) ->
  walk last (l1 ++ l2) = match walk q l2 with
                         | JOk (ts', q') => JOk (ts ++ ts', q')
                         | JErr e => JErr e
                         | JPanic => JPanic
                         end.
Proof.
  induction l1 as [|[p v] l1 IH]; intros l2 last ts q W; cbn [walk app] in *.
  - injection W as <- <-. destruct (walk last l2) as [[ts' q']| |]; reflexivity.
  - destruct (update_path last p) as [t1| |]; try discriminate.
    destruct (walk p l1) as [[t2 q2]| |] eqn:E; try discriminate. injection W as <- <-.
    rewrite (IH l2 p t2 q2 E). destruct (walk q2 l2) as [[t3 q3]| |]; auto.
    rewrite <- !app_assoc. reflexivity.
Qed.

Lemma self_all : forall pre p p', Forall self pre -> Forall2 parsed pre p -> Forall2 parsed pre p' ->
  Forall2 (fun a b => scalar_equal a b = Ok true) p p'.
Proof.
  intros pre p p' S F. revert p'. induction F as [|s k pre p K F IH]; intros p' F';
    inversion F'; subst; constructor.
  - inversion S; subst. auto.
  - inversion S; subst. auto.
Qed.

Lemma unwind_cons : forall k l, unwind_path (k :: l) false = unwind_path l false ++ close_token k.
Proof.
  intros k l. unfold unwind_path. cbn [rev]. rewrite flat_map_app. cbn [flat_map].
  now rewrite app_nil_r.
Qed.
Lemma follow_cons : forall k l c, follow_path (k :: l) c = open_tokens k c ++ follow_path l false.
Proof. intros k [|k' l] c; reflexivity. Qed.

(** The walk over the lines of a tree. *)
Definition tree_walk (t : ptree) : Prop :=
  forall pre pls, Forall self pre -> Forall2 (pl_ok pre) (plines t) pls ->
  exists p1 q1 v1 rest ts pn qn,
    pls = (p1, q1, v1) :: rest /\
    walk (p1 ++ q1) (map join rest) = JOk (ts, pn ++ qn) /\
    Forall2 parsed pre p1 /\ Forall2 parsed pre pn /\
    follow_path q1 false ++ toks v1 ++ ts ++ unwind_path qn false = ptoks t.

(** Moving one step from the line to the prefix. *)
Lemma shift_lines : forall pre s ls pls,
  Forall2 (pl_ok pre) (map (below s) ls) pls ->
  exists pls', Forall2 (pl_ok (pre ++ [s])) ls pls' /\
    map join pls' = map join pls /\
    Forall2 (fun x y => exists k, parsed s k /\ fst (fst y) = fst (fst x) ++ [k] /\
               snd (fst x) = k :: snd (fst y) /\ snd x = snd y) pls pls'.
Proof.
  intros pre s ls. induction ls as [|l ls IH]; intros pls F; cbn [map] in F; inversion F as [|? ? ? ? H F']; subst.
  - exists []. repeat split; constructor.
  - destruct (IH _ F') as [pls' [F1 [E1 F2]]].
    destruct y as [[p q] v]. destruct H as [H1 [H2 H3]]. cbn [fst snd below] in *.
    inversion H2 as [|? k ? q' K Q]; subst.
    exists ((p ++ [k], q', snd l) :: pls'). split; [|split].
    + constructor; [|exact F1]. split; [|split]; cbn [fst snd]; auto. apply Forall2_app; auto.
    + cbn [map]. rewrite E1. unfold join at 1 3. cbn [fst snd]. rewrite <- app_assoc. reflexivity.
    + constructor; [|exact F2]. cbn [fst snd]. exists k. auto.
Qed.

Lemma Forall2_app_inv : forall A B (R : A -> B -> Prop) l1 l2 l, Forall2 R (l1 ++ l2) l ->
  exists l1' l2', Forall2 R l1 l1' /\ Forall2 R l2 l2' /\ l = l1' ++ l2'.
Proof.
  induction l1 as [|x l1 IH]; intros l2 l F; cbn [app] in F.
  - exists [], l. repeat split; auto.
  - inversion F as [|? y ? l' H F']; subst. destruct (IH _ _ F') as [a [b [F1 [F2 ->]]]].
    exists (y :: a), b. repeat split; auto.
Qed.

Lemma snoc_inv : forall (pre : list jstep) s (p : list scalar), Forall2 parsed (pre ++ [s]) p ->
  exists p' k, p = p' ++ [k] /\ Forall2 parsed pre p' /\ parsed s k.
Proof.
  intros pre s p F. apply Forall2_app_inv in F. destruct F as [a [b [F1 [F2 ->]]]].
  inversion F2 as [|? k ? ? K N]; subst. inversion N; subst. eauto.
Qed.

(** The first line of a child, and the walk over the others. *)
Lemma kid_walk : forall s t pre pls, tree_walk t -> Forall self pre -> self s ->
  Forall2 (pl_ok pre) (map (below s) (plines t)) pls ->
  exists p1 k1 q1 v1 rest ts pn kn qn,
    pls = (p1, k1 :: q1, v1) :: rest /\
    walk (p1 ++ k1 :: q1) (map join rest) = JOk (ts, pn ++ kn :: qn) /\
    Forall2 parsed pre p1 /\ Forall2 parsed pre pn /\ parsed s k1 /\ parsed s kn /\
    follow_path q1 false ++ toks v1 ++ ts ++ unwind_path qn false = ptoks t.
Proof.
  intros s t pre pls TW SP SS F. destruct (shift_lines pre s _ _ F) as [pls' [F1 [EJ F2]]].
  assert (SP' : Forall self (pre ++ [s])) by (apply Forall_app; auto).
  destruct (TW (pre ++ [s]) pls' SP' F1) as [p1 [q1 [v1 [rest [ts [pn [qn [E [W [P1 [PN T]]]]]]]]]]].
  subst pls'. inversion F2 as [|x ? pls0 ? H F2' EQ1 EQ2]; subst.
  destruct x as [[p0 q0] v0]. destruct H as [k [K [H1 [H2 H3]]]]. cbn [fst snd] in *. subst.
  cbn [map] in EJ. injection EJ as _ EJ.
  destruct (snoc_inv _ _ _ P1) as [p1' [k1 [E1 [P1' K1]]]].
  apply app_inj_tail in E1. destruct E1 as [-> ->].
  destruct (snoc_inv _ _ _ PN) as [pn' [kn [-> [PN' KN]]]].
  exists p1', k1, q1, v1, pls0, ts, pn', kn, qn. split; [reflexivity|].
  rewrite <- !app_assoc in W. cbn [app] in W. rewrite EJ in W. repeat (split; [assumption|]). exact T.
Qed.

Definition kids_toks (kids : list (jstep * ptree)) : list token :=
  flat_map (fun k => open_step (fst k) true ++ ptoks (snd k)) kids.
Definition kids_lines (kids : list (jstep * ptree)) : list line :=
  flat_map (fun k => map (below (fst k)) (plines (snd k))) kids.

Lemma kids_walk : forall kids arr pre s0,
  Forall (fun k => tree_walk (snd k) /\ is_index (fst k) = arr /\ self (fst k)) kids ->
  is_index s0 = arr -> chain (s0 :: map fst kids) -> Forall self pre ->
  forall pls p0 k0 q0, Forall2 parsed pre p0 -> parsed s0 k0 ->
  Forall2 (pl_ok pre) (kids_lines kids) pls ->
  exists ts sn pn kn qn,
    walk (p0 ++ k0 :: q0) (map join pls) = JOk (ts, pn ++ kn :: qn) /\
    Forall2 parsed pre pn /\ parsed sn kn /\ is_index sn = arr /\
    unwind_path q0 false ++ kids_toks kids = ts ++ unwind_path qn false.
Proof.
  induction kids as [|[s t] kids IH]; intros arr pre s0 F I0 C SP pls p0 k0 q0 P0 K0 L.
  - cbn [kids_lines flat_map] in L. inversion L; subst. cbn [map walk].
    exists [], s0, p0, k0, q0. repeat (split; [first [assumption|reflexivity]|]).
    cbn [kids_toks flat_map app]. now rewrite app_nil_r.
  - inversion F as [|? ? [TW [I S]] F']; subst. cbn [fst snd] in *.
    cbn [kids_lines flat_map fst snd] in L. apply Forall2_app_inv in L.
    destruct L as [pl1 [pl2 [L1 [L2 ->]]]].
    destruct (kid_walk s t pre pl1 TW SP S L1)
      as [p1 [k1 [q1 [v1 [rest [ts1 [pn [kn [qn [-> [W [P1 [PN [K1 [KN T]]]]]]]]]]]]]]].
    destruct C as [D C]. cbn [map fst] in D, C.
    destruct (IH (is_index s0) pre s F' I C SP pl2 pn kn qn PN KN L2)
      as [ts2 [sn [pn2 [kn2 [qn2 [W2 [PN2 [KN2 [I2 T2]]]]]]]]].
    exists (unwind_path q0 false ++ open_tokens k1 true ++ follow_path q1 false ++ toks v1 ++ ts1 ++ ts2),
      sn, pn2, kn2, qn2.
    split; [|split; [exact PN2|split; [exact KN2|split; [exact I2|]]]].
    + cbn [app map]. unfold join at 1. cbn [fst snd walk].
      rewrite (update_at p0 p1 k0 q0 k1 q1).
      * rewrite map_app. rewrite (walk_app _ (map join pl2) _ _ _ W). rewrite W2. rewrite <- !app_assoc. reflexivity.
      * eapply self_all; eauto.
      * apply D; auto.
      * rewrite (parsed_type _ _ K0), (parsed_type _ _ K1), I. reflexivity.
    + cbn [kids_toks flat_map fst snd]. fold (kids_toks kids). rewrite <- T.
      rewrite (parsed_open _ _ true K1). rewrite <- !app_assoc. rewrite <- T2. reflexivity.
Qed.

Lemma walk_tree : forall t, wf t -> tree_walk t.
Proof.
  apply (ptree_induction (fun t => wf t -> tree_walk t)).
  - intros v _ pre pls SP F. cbn [plines] in F. inversion F as [|? pl ? ? H F']; subst. inversion F'; subst.
    destruct pl as [[p q] v']. destruct H as [H1 [H2 H3]]. cbn [fst snd] in *. inversion H2; subst.
    exists p, [], v', [], [], p, []. repeat (split; [first [assumption|reflexivity]|]).
    cbn. now rewrite app_nil_r.
  - intros arr kids IH W pre pls SP F. inversion W as [|? ? NE WK CH]; subst.
    cbn [plines] in F. destruct kids as [|[s t] kids]; [congruence|].
    inversion IH as [|? ? IH1 IH2]; subst. inversion WK as [|? ? [I [S W1]] WK']; subst. cbn [fst snd] in *.
    cbn [flat_map fst snd] in F. apply Forall2_app_inv in F. destruct F as [pl1 [pl2 [L1 [L2 ->]]]].
    destruct (kid_walk s t pre pl1 (IH1 W1) SP S L1)
      as [p1 [k1 [q1 [v1 [rest [ts1 [pn [kn [qn [-> [WA [P1 [PN [K1 [KN T]]]]]]]]]]]]]]].
    assert (FK : Forall (fun k => tree_walk (snd k) /\ is_index (fst k) = is_index s /\ self (fst k)) kids).
    { clear - IH2 WK'. rewrite Forall_forall in *. intros k I. destruct (WK' k I) as [A [B C]]. auto. }
    destruct (kids_walk kids (is_index s) pre s FK eq_refl CH SP pl2 pn kn qn PN KN L2)
      as [ts2 [sn [pn2 [kn2 [qn2 [W2 [PN2 [KN2 [I2 T2]]]]]]]]].
    exists p1, (k1 :: q1), v1, (rest ++ pl2), (ts1 ++ ts2), pn2, (kn2 :: qn2).
    split; [reflexivity|]. split; [|split; [exact P1|split; [exact PN2|]]].
    + rewrite map_app. etransitivity; [apply walk_app; exact WA|]. unfold pline in *. rewrite W2. reflexivity.
    + rewrite follow_cons, unwind_cons. rewrite (parsed_open _ _ false K1), (parsed_close _ _ KN2).
      cbn [ptoks flat_map fst snd]. fold (kids_toks kids). rewrite <- T.
      assert (OP : open_step s false = (if is_index s then TStartArr else TStartObj) :: open_step s true)
        by (destruct s; reflexivity).
      assert (CL : close_step sn = [if is_index s then TEndArr else TEndObj])
        by (rewrite <- I2; destruct sn; reflexivity).
      rewrite OP, CL. cbn [app]. f_equal. rewrite <- !app_assoc. do 4 f_equal.
      rewrite app_assoc. rewrite <- T2. rewrite <- app_assoc. reflexivity.
Qed.

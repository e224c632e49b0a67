(** Comparisons and functions of filters. *)
From Coq Require Import List ZArith NArith Arith Bool Lia.
From Verif Require Import Base Tokens JsonSpec EncSpec ScalarModel CursorModel IterModel IterSpec IterCore IterThr IterRel IterSound
  ScriptSpec ScriptProofs IterLib EqualSpec EqualModel EqualProofs P_Scalar P_Equal UseLib SelectModel PathModel PathAbs PathFacts PathSim PathDisp PathLoop PathBody PathSing.
Open Scope iprog_scope.

Section Context.
Variable ctx : context.
Variable sing : list (option jval).
Variable inner : list (list jval).
Notation ctx_rel := (ctx_rel ctx sing inner).
Notation good_step := (good_step ctx sing inner).
Notation peek := (peek ctx sing inner).

(** A program that answers with a value: one that is below the argument, or one
    of the values of the inner queries (when [own] is [false]). *)
Definition outer (t : list shandle) (r : option value) (o : option jval) (idsC : list nat) : Prop :=
  match r, o with
  | None, None => True
  | Some w, Some y => exists idw, fresh t w y idw /\ incl idw idsC
  | _, _ => False
  end.
Definition answers (own : bool) (p : value -> iprog (option value)) (x : jval) (o : option jval) : Prop :=
  forall t it v ids idsC, fresh t v x ids -> ctx_rel t it idsC -> sep idsC ids ->
  exists t' it' r ids', spec_run (p v) (mkSt t it) = Some (mkSt t' it', r) /\ change t t' ids /\ newer t None ids ids' /\ iext it it' /\
    (ans t' v r o ids' \/ own = false /\ chain t' v ids' /\ outer t' r o idsC).

Lemma answers_scalar : forall p x s, (forall t it v ids idsC, fresh t v x ids -> ctx_rel t it idsC -> sep idsC ids ->
    exists t' it' ids', spec_run (p v) (mkSt t it) = Some (mkSt t' it', Some (VScalar s)) /\ change t t' ids /\ newer t None ids ids' /\ iext it it' /\ chain t' v ids') ->
  answers false p x (Some (JScalar s)).
Proof.
  intros p x s H t it v ids idsC F CR SC. destruct (H t it v ids idsC F CR SC) as [t' [it' [ids' [R [C [N [IE CH]]]]]]].
  exists t', it', (Some (VScalar s)), ids'. split; [exact R|]. split; [exact C|]. split; [exact N|]. split; [exact IE|]. right.
  split; [reflexivity|]. split; [exact CH|]. exists []. split; [now split|intros j []].
Qed.

Ltac cloned H CL FC RC t1 := cbn [spec_run st_coll st_iter]; destruct (clone_fresh _ _ _ _ H) as [CL [FC RC]]; rewrite CL; cbn [on_coll obind st_iter].

(** An operand, and a clone of it. *)
Definition kept (t0 : list shandle) (t : list shandle) (r : option value) (o : option jval) (idl : list nat) : Prop :=
  above (length t0) idl /\
  match r, o with
  | None, None => idl = []
  | Some w, Some y => fresh t w y idl /\ rooted t w
  | _, _ => False
  end.
Lemma kept_lt : forall t0 t r o idl, kept t0 t r o idl -> forall j, In j idl -> j < length t.
Proof.
  intros t0 t [w|] [y|] idl [_ H] j J; try contradiction; [exact (fresh_lt _ _ _ _ _ (proj1 H) J)|]. subst. destruct J.
Qed.
Lemma kept_frame : forall t0 t r o idl F t', kept t0 t r o idl -> change t t' F -> agree t t' idl -> kept t0 t' r o idl.
Proof.
  intros t0 t [w|] [y|] idl F t' [A H] C AG; (split; [exact A|]); try contradiction; [|exact H]. destruct H as [H R].
  split; [eapply fresh_frame; eassumption|eapply rooted_change; eassumption].
Qed.

Lemma answers_fresh : forall own (t t' : list shandle) v ids' r o idsC, (forall j, In j idsC -> j < length t) -> length t <= length t' ->
  (ans t' v r o ids' \/ own = false /\ chain t' v ids' /\ outer t' r o idsC) -> chain t' v ids' /\
  match r, o with None, None => True | Some w, Some y => exists idw, fresh t' w y idw | _, _ => False end.
Proof.
  intros own t t' v ids' r o idsC B LE [A|[_ [C A]]].
  - split; [eapply ans_chain; exact A|]. destruct r as [w|], o as [y|]; cbn [ans] in A; auto. destruct (leads_fresh _ _ _ _ _ A) as [idw [F _]]. eauto.
  - split; [exact C|]. destruct r as [w|], o as [y|]; cbn [outer] in A; auto. destruct A as [idw [F _]]. eauto.
Qed.

Ltac lts := repeat match goal with
  | H : PathSim.ctx_rel _ _ _ _ _ _ |- _ => add (ctx_lt _ _ _ _ _ _ H)
  | H : kept _ _ _ _ _ |- _ => add (kept_lt _ _ _ _ _ H)
  | H : drel _ _ _ _ _ _ _ |- _ => add (drel_lt _ _ _ _ _ _ _ H)
  end.
Ltac ids ::= lts; gather; unfold agree in *;
  lazymatch goal with
  | |- sep _ _ => intros ?j ?J ?K; sat; lia
  | |- newer _ _ _ _ => intros ?j ?J; sat; first [left; inapp|right; split; [lia|reflexivity]]
  | |- incl _ _ => intros ?j ?J; sat; inapp
  | |- above _ _ => intros ?j ?J; sat; lia
  | |- _ => intros; sat; first [lia|inapp|left; inapp|right; lia]
  end.

Lemma operand_ok : forall A own p x o, answers own p x o -> forall t it v ids idsC (k : option value -> iprog A), fresh t v x ids -> ctx_rel t it idsC -> sep idsC ids ->
  exists t' it' r ids' idl, spec_run (ilet l <- p v ; clone_opt l k) (mkSt t it) = spec_run (k r) (mkSt t' it') /\ change t t' ids /\ newer t None ids ids' /\ iext it it' /\
    chain t' v ids' /\ kept t t' r o idl /\ sep ids' idl.
Proof.
  intros A own p x o AN t it v ids idsC k F CR SC. rewrite spec_bind.
  destruct (AN t it v ids idsC F CR SC) as [t1 [it1 [r [ids1 [-> [C1 [N1 [IE AR]]]]]]]]. cbn [obind].
  destruct (answers_fresh own t t1 v ids1 r o idsC (ctx_lt _ _ _ _ _ _ CR) (cg_len _ _ _ C1) AR) as [CH FR].
  destruct r as [w|], o as [y|]; try contradiction; cbn [clone_opt].
  - destruct FR as [idw FW]. cloned FW CL FC RC t2. set (t2 := t1 ++ hof y true) in *.
    assert (C2 : change t1 t2 []) by apply change_app.
    exists t2, it1, (Some (vof (length t1) y)), ids1, (iof (length t1) y). split; [reflexivity|].
    split; [eapply change_then; [exact C1|exact C2|intros j []]|]. split; [exact N1|]. split; [exact IE|].
    split; [eapply chain_frame; [exact CH|same C2]|]. split; [|ids]. split; [ids|]. split; [exact FC|]. eapply rooted_fresh; eassumption.
  - exists t1, it1, None, ids1, []. split; [reflexivity|]. split; [exact C1|]. split; [exact N1|]. split; [exact IE|]. split; [exact CH|].
    split; [|intros j _ []]. split; [intros j []|reflexivity].
Qed.

(** The two tests. *)
Definition eq_fine (a b : option jval) : Prop := match a, b with Some x, Some y => comparable x /\ comparable y | _, _ => True end.
Definition less_fine (a b : option jval) : Prop :=
  match a, b with Some (JScalar s), Some (JScalar t) => exists b, scalar_less s t = Ok b | _, _ => True end.
Definition osize (o : option jval) : nat := match o with Some x => size x | None => 0 end.
Definition ochain (t : list shandle) (r : option value) (idl : list nat) : Prop :=
  match r with Some w => chain t w idl /\ rooted t w | None => idl = [] end.

Lemma peq_any : forall n x y, size x < n -> comparable x -> comparable y -> peq n x y = Some (jeq x y).
Proof.
  intros n x y L CX CY. unfold jeq. destruct (peq_says n x y L CX CY) as [b [-> B]].
  destruct (peq_says (Datatypes.S (size x)) x y ltac:(lia) CX CY) as [b' [-> B']]. f_equal. destruct b, b'; auto; [symmetry|]; tauto.
Qed.

Lemma equality_ok : forall n (eq : bool) a b, (eq = true -> eq_fine a b) -> osize a + osize b < n -> forall t0 t1 t it r1 r2 id1 id2, kept t0 t r1 a id1 -> kept t1 t r2 b id2 -> sep id1 id2 ->
  exists t' id1' id2', spec_run (if eq then check_equal n r1 r2 else IRet false) (mkSt t it) = Some (mkSt t' it, if eq then oeq a b else false) /\
    change t t' (id1 ++ id2) /\ newer t None id1 id1' /\ newer t None id2 id2' /\ ochain t' r1 id1' /\ ochain t' r2 id2' /\ sep id1' id2'.
Proof.
  intros n eq a b EF SZ t0 t1 t it r1 r2 id1 id2 [_ K1] [_ K2] SP.
  assert (NO : forall b0 : bool, exists t' id1' id2', Some (mkSt t it, b0) = Some (mkSt t' it, b0) /\ 
    change t t' (id1 ++ id2) /\ newer t None id1 id1' /\ newer t None id2 id2' /\ ochain t' r1 id1' /\ ochain t' r2 id2' /\ sep id1' id2').
  { intro b0. exists t, id1, id2. split; [reflexivity|]. split; [apply change_refl|]. split; [apply newer_refl|]. split; [apply newer_refl|].
    split; [|split; [|exact SP]].
    - destruct r1 as [w|], a as [y|]; try contradiction; [|exact K1]. split; [eapply fresh_chain; exact (proj1 K1)|exact (proj2 K1)].
    - destruct r2 as [w|], b as [y|]; try contradiction; [|exact K2]. split; [eapply fresh_chain; exact (proj1 K2)|exact (proj2 K2)]. }
  destruct eq; [|exact (NO false)]. unfold check_equal, values_equal.
  destruct r1 as [w1|], a as [y1|], r2 as [w2|], b as [y2|]; try contradiction; try (apply NO).
  destruct (EF eq_refl) as [CX CY]. destruct K1 as [F1 R1], K2 as [F2 R2]. cbn [osize] in SZ. cbn [oeq].
  destruct (equal_ok n y1 y2 (jeq y1 y2) (peq_any n y1 y2 ltac:(lia) CX CY) SZ t it w1 w2 id1 id2 F1 F2 SP) as [t' [i1 [i2 [RUN [C [N1 [N2 [C1 [C2 S]]]]]]]]].
  exists t', i1, i2. split; [exact RUN|]. split; [exact C|]. split; [exact N1|]. split; [exact N2|].
  split; [split; [exact C1|eapply rooted_change; eassumption]|]. split; [split; [exact C2|eapply rooted_change; eassumption]|exact S].
Qed.

Lemma less_ok : forall a b, less_fine a b -> forall t0 t1 t r1 r2 id1 id2, kept t0 t r1 a id1 -> kept t1 t r2 b id2 -> forall st,
  spec_run (check_less r1 r2) st = Some (st, oless a b).
Proof.
  intros a b LF t0 t1 t r1 r2 id1 id2 [_ K1] [_ K2] st.
  destruct r1 as [w1|], a as [y1|], r2 as [w2|], b as [y2|]; try contradiction; try reflexivity; cbn [less_fine oless check_less] in *.
  - destruct K1 as [F1 _], K2 as [F2 _]. assert (SH1 := shape_fresh _ _ _ _ F1). assert (SH2 := shape_fresh _ _ _ _ F2).
    destruct y1 as [s1|l1 e1|l1 e1], y2 as [s2|l2 e2|l2 e2]; cbn in SH1, SH2; destruct w1, w2; try discriminate; try reflexivity.
    all: cbn in F1, F2; destruct F1 as [E1 _], F2 as [E2 _]; injection E1 as ->; injection E2 as ->.
    destruct LF as [b ->]. reflexivity.
  - destruct w1, y1; reflexivity.
Qed.

Lemma detach_opt_ok : forall A r t it idl (k : iprog A), ochain t r idl ->
  exists t', spec_run (detach_opt r k) (mkSt t it) = spec_run k (mkSt t' it) /\ change t t' idl.
Proof.
  intros A [w|] t it idl k H; cbn [detach_opt ochain] in *; [|exists t; split; [reflexivity|apply change_refl]].
  destruct H as [C R]. destruct (detach_rooted t w idl C R) as [t' [D CH]]. exists t'. split; [|exact CH].
  cbn [spec_run st_coll st_iter]. rewrite D. reflexivity.
Qed.

Lemma ochain_frame : forall t t' F r idl, ochain t r idl -> change t t' F -> agree t t' idl -> ochain t' r idl.
Proof.
  intros t t' F [w|] idl H C A; cbn [ochain] in *; [|exact H]. destruct H as [H R].
  split; [eapply chain_frame; eassumption|eapply rooted_change; eassumption].
Qed.
Lemma ochain_lt : forall t r idl, ochain t r idl -> forall j, In j idl -> j < length t.
Proof. intros t [w|] idl H j J; cbn [ochain] in H; [exact (chain_lt _ _ _ _ (proj1 H) J)|]. subst. destruct J. Qed.

Ltac lts ::= repeat match goal with
  | H : PathSim.ctx_rel _ _ _ _ _ _ |- _ => add (ctx_lt _ _ _ _ _ _ H)
  | H : kept _ _ _ _ _ |- _ => add (kept_lt _ _ _ _ _ H)
  | H : ochain _ _ _ |- _ => add (ochain_lt _ _ _ H)
  end.

Lemma compare_ok : forall ec n x y o1 o2 ox oy eq lt neg z, answers o1 (ec x) z ox -> answers o2 (ec y) z oy ->
  (eq = true -> eq_fine ox oy) -> (lt = true -> less_fine ox oy) -> osize ox + osize oy < n ->
  peek (compare_values ec n x eq lt neg y) z (xorb ((if eq then oeq ox oy else false) || (if lt then oless ox oy else false)) neg).
Proof.
  intros ec n x y o1 o2 ox oy eq lt neg z AX AY EF LF SZ t it v ids idsC F CR. unfold compare_values.
  cloned F CL1 FC1 RC1 t1. set (t1 := t ++ hof z true) in *. set (v1 := vof (length t) z) in *. set (id1 := iof (length t) z) in *.
  assert (C1 : change t t1 []) by apply change_app. assert (LE1 := cg_len _ _ _ C1).
  assert (F1 : fresh t1 v z ids) by (eapply fresh_frame; [exact F|same C1]).
  cloned F1 CL2 FC2 RC2 t2. set (t2 := t1 ++ hof z true) in *. set (v2 := vof (length t1) z) in *. set (id2 := iof (length t1) z) in *.
  assert (C2 : change t1 t2 []) by apply change_app. assert (LE2 := cg_len _ _ _ C2).
  assert (A1 : above (length t) id1) by (intros j J; apply iof_in in J; lia).
  assert (A2 : above (length t1) id2) by (intros j J; apply iof_in in J; lia).
  assert (R1 : rooted t1 v1) by (eapply rooted_fresh; eassumption).
  assert (R2 : rooted t2 v2) by (eapply rooted_fresh; eassumption).
  clearbody v1 v2 id1 id2. clear CL1 CL2 RC1 RC2. clearbody t1 t2.
  assert (B1 : forall j, In j id1 -> j < length t1) by (intros j J; exact (fresh_lt _ _ _ _ _ FC1 J)).
  assert (B2 : forall j, In j id2 -> j < length t2) by (intros j J; exact (fresh_lt _ _ _ _ _ FC2 J)).
  assert (F2 : fresh t2 v1 z id1) by (eapply fresh_frame; [exact FC1|same C2]).
  assert (CR2 : ctx_rel t2 it idsC).
  { eapply ctx_frame; [exact CR| |apply iext_refl|lia]. assert (C02 : change t t2 []) by (eapply change_trans; eassumption). same C02. }
  assert (BC := ctx_lt _ _ _ _ _ _ CR).
  match goal with |- context [ilet l <- ec x v1 ; clone_opt l ?k] =>
    destruct (operand_ok _ o1 (ec x) z ox AX t2 it v1 id1 idsC k F2 CR2 ltac:(ids)) as [t3 [it3 [r1 [id1' [idl [-> [C3 [N3 [IE3 [CH1 [K1 S1]]]]]]]]]]] end.
  assert (LE3 := cg_len _ _ _ C3). assert (BL := kept_lt _ _ _ _ _ K1). assert (AL := proj1 K1). assert (BI1 : forall j, In j id1' -> j < length t3) by (intros j J; exact (chain_lt _ _ _ _ CH1 J)).
  assert (F3 : fresh t3 v2 z id2) by (eapply fresh_frame; [exact FC2|same C3]).
  assert (CR3 : ctx_rel t3 it3 idsC) by (eapply ctx_frame; [exact CR2|same C3|exact IE3|lia]).
  match goal with |- context [ilet r <- ec y v2 ; clone_opt r ?k] =>
    destruct (operand_ok _ o2 (ec y) z oy AY t3 it3 v2 id2 idsC k F3 CR3 ltac:(ids)) as [t4 [it4 [r2 [id2' [idr [-> [C4 [N4 [IE4 [CH2 [K2 S2]]]]]]]]]]] end.
  assert (LE4 := cg_len _ _ _ C4). assert (BR := kept_lt _ _ _ _ _ K2). assert (AR := proj1 K2). assert (BI2 : forall j, In j id2' -> j < length t4) by (intros j J; exact (chain_lt _ _ _ _ CH2 J)).
  assert (K1' : kept t2 t4 r1 ox idl) by (eapply kept_frame; [exact K1|exact C4|same C4]).
  rewrite spec_bind.
  destruct (equality_ok n eq ox oy EF SZ t2 t3 t4 it4 r1 r2 idl idr K1' K2 ltac:(ids)) as [t5 [idl' [idr' [-> [C5 [M1 [M2 [OC1 [OC2 S5]]]]]]]]]. cbn [obind].
  assert (LE5 := cg_len _ _ _ C5). assert (BL' := ochain_lt _ _ _ OC1). assert (BR' := ochain_lt _ _ _ OC2).
  set (b := if eq then oeq ox oy else false) in *.
  assert (LS : spec_run (if negb b && lt then check_less r1 r2 else IRet b) (mkSt t5 it4) = Some (mkSt t5 it4, b || (if lt then oless ox oy else false))).
  { destruct b; cbn [negb andb orb]; [reflexivity|]. destruct lt; [|reflexivity]. eapply less_ok; [auto|exact K1'|exact K2]. }
  rewrite spec_bind, LS. cbn [obind].
  assert (S12 : sep id1' id2') by ids. assert (S1r : sep id1' idr) by ids. assert (S2l : sep id2' idl) by ids.
  assert (S1r' : sep id1' idr') by ids. assert (S2l' : sep id2' idl') by ids. assert (S1l' : sep id1' idl') by ids. assert (S2r' : sep id2' idr') by ids.
  match goal with |- context [detach_opt r2 ?k] => destruct (detach_opt_ok _ r2 t5 it4 idr' k OC2) as [t6 [-> C6]] end.
  assert (LE6 := cg_len _ _ _ C6).
  assert (OC1' : ochain t6 r1 idl') by (eapply ochain_frame; [exact OC1|exact C6|same C6]).
  match goal with |- context [detach_opt r1 ?k] => destruct (detach_opt_ok _ r1 t6 it4 idl' k OC1') as [t7 [-> C7]] end.
  assert (LE7 := cg_len _ _ _ C7).
  assert (H2 : chain t7 v2 id2').
  { eapply chain_frame; [eapply chain_frame; [eapply chain_frame; [exact CH2|same C5]|same C6]|same C7]. }
  assert (H1 : chain t7 v1 id1').
  { eapply chain_frame; [eapply chain_frame; [eapply chain_frame; [eapply chain_frame; [exact CH1|same C4]|same C5]|same C6]|same C7]. }
  assert (Q2 : rooted t7 v2) by (do 5 (eapply rooted_change; [eassumption|]); exact R2).
  destruct (detach_rooted t7 v2 id2' H2 Q2) as [t8 [D8 C8]]. cbn [spec_run st_coll st_iter]. rewrite D8. cbn [on_coll_ obind spec_run st_iter st_coll].
  assert (LE8 := cg_len _ _ _ C8).
  assert (H1' : chain t8 v1 id1') by (eapply chain_frame; [exact H1|same C8]).
  assert (Q1 : rooted t8 v1) by (do 7 (eapply rooted_change; [eassumption|]); exact R1).
  destruct (detach_rooted t8 v1 id1' H1' Q1) as [t9 [D9 C9]]. rewrite D9. cbn [on_coll_ obind spec_run st_iter st_coll].
  exists t9, it4. split; [reflexivity|]. split; [|eapply iext_trans; eassumption].
  assert (X3 : change t t3 []) by (eapply change_then; [eapply change_then; [exact C1|exact C2|ids]|exact C3|ids]).
  assert (X4 : change t t4 []) by (eapply change_then; [exact X3|exact C4|ids]).
  assert (X5 : change t t5 []) by (eapply change_then; [exact X4|exact C5|ids]).
  assert (X6 : change t t6 []) by (eapply change_then; [exact X5|exact C6|ids]).
  assert (X7 : change t t7 []) by (eapply change_then; [exact X6|exact C7|ids]).
  assert (X8 : change t t8 []) by (eapply change_then; [exact X7|exact C8|ids]).
  eapply change_then; [exact X8|exact C9|ids].
Qed.
End Context.

(** Queries that use [$] only at their start have no inner queries to be run
    first. *)
From Coq Require Import List ZArith NArith Bool Lia.
From Verif Require Import Base Tokens SelectModel PathModel PathAst PathSpec CompileModel PathInd StreamSpec.

Lemma list_keeps : forall A B (f : A -> tables -> option (B * tables)) (ok : A -> Prop) l,
  Forall (fun a => ok a -> forall t b t', f a t = Some (b, t') -> t' = t) l -> all ok l ->
  forall t bs t', compile_list f l t = Some (bs, t') -> t' = t.
Proof.
  intros A B f ok l F. induction F as [|a l HA F IH]; intros O t bs t' E; cbn [compile_list] in E; [now injection E|].
  cbn [all] in O. destruct O as [O1 O2]. destruct (f a t) as [[b t1]|] eqn:E1; [|discriminate]. destruct (compile_list f l t1) as [[bs' t2]|] eqn:E2; [|discriminate].
  injection E as _ <-. rewrite (IH O2 _ _ _ E2). eapply HA; eauto.
Qed.
Lemma args_keeps : forall A B (f : A -> ftype -> tables -> option (B * tables)) (ok : A -> Prop) l,
  Forall (fun a => ok a -> forall ty t b t', f a ty t = Some (b, t') -> t' = t) l -> all ok l ->
  forall tys t bs t', compile_args f l tys t = Some (bs, t') -> t' = t.
Proof.
  intros A B f ok l F. induction F as [|a l HA F IH]; intros O tys t bs t' E; destruct tys as [|ty tys]; cbn [compile_args] in E; try discriminate; [now injection E|].
  cbn [all] in O. destruct O as [O1 O2]. destruct (f a ty t) as [[b t1]|] eqn:E1; [|discriminate]. destruct (compile_args f l tys t1) as [[bs' t2]|] eqn:E2; [|discriminate].
  injection E as _ <-. rewrite (IH O2 _ _ _ _ E2). eapply HA; eauto.
Qed.
Lemma segments_keeps : forall A B (f : A -> option B -> tables -> option (B * tables)) (ok : A -> Prop) l,
  Forall (fun a => ok a -> forall n t b t', f a n t = Some (b, t') -> t' = t) l -> all ok l ->
  forall t bs t', compile_segments f l t = Some (bs, t') -> t' = t.
Proof.
  intros A B f ok l F. induction F as [|a l HA F IH]; intros O t bs t' E; cbn [compile_segments] in E; [now injection E|].
  cbn [all] in O. destruct O as [O1 O2]. destruct (compile_segments f l t) as [[fo t1]|] eqn:E1; [|discriminate]. destruct (f a fo t1) as [[b t2]|] eqn:E2; [|discriminate].
  injection E as _ <-. rewrite (HA O1 _ _ _ _ E2). eapply IH; eauto.
Qed.
Lemma singular_keeps : forall r l t m t', r = false -> compile_singular (JSingular r l) t = (m, t') -> t' = t.
Proof. intros r l t m t' -> E. cbn in E. now injection E. Qed.

Section Keeps.
Variable strict : bool.
Ltac run E := repeat match type of E with
  | context [match ?c with Some _ => _ | None => _ end] => let F := fresh "F" in destruct c as [[? ?]|] eqn:F; [|discriminate E]
  end.
Theorem compile_keeps :
  (forall q, lone_query q -> forall t b t', compile_query strict q t = Some (b, t') -> t' = t) /\
  (forall g, lone_segment g -> forall n t b t', compile_segment strict g n t = Some (b, t') -> t' = t) /\
  (forall s, lone_selector s -> forall t b t', compile_selector strict s t = Some (b, t') -> t' = t) /\
  (forall c, lone_logical c -> forall t b t', compile_cond strict c t = Some (b, t') -> t' = t) /\
  (forall v, lone_value v -> forall t b t', compile_comparable strict v t = Some (b, t') -> t' = t) /\
  (forall f, lone_call f -> forall ty t b t', compile_call strict f ty t = Some (b, t') -> t' = t) /\
  (forall a, lone_arg a -> forall ty t b t', compile_arg strict a ty t = Some (b, t') -> t' = t).
Proof.
  apply path_ind.
  - intros r segs F O t b t' E. change (compile_query strict (JQuery r segs) t) with (let? (first, t1) := compile_segments (compile_segment strict) segs t in Some (QFirst first, t1)) in E.
    run E. injection E as _ <-. eapply segments_keeps; [exact F|exact O|eassumption].
  - intros d sels F O n t b t' E. change (compile_segment strict (JSegment d sels) n t) with (let? (l, t1) := compile_list (compile_selector strict) sels t in Some (Seg l (max_lookahead l) d strict n, t1)) in E.
    run E. injection E as _ <-. eapply list_keeps; [exact F|exact O|eassumption].
  - intros n O t b t' E. now injection E.
  - intros O t b t' E. now injection E.
  - intros i O t b t' E. now injection E.
  - intros a b0 s O t b t' E. now injection E.
  - intros c IH O t b t' E. change (compile_selector strict (JFilter c) t) with (let? (c', t1) := compile_cond strict c t in Some (SFilter c', t1)) in E. run E. injection E as _ <-. eapply IH; eauto.
  - intros l F O t b t' E. change (compile_cond strict (JOr l) t) with (let? (l', t1) := compile_list (compile_cond strict) l t in Some (COr l', t1)) in E. run E. injection E as _ <-. eapply list_keeps; [exact F|exact O|eassumption].
  - intros l F O t b t' E. change (compile_cond strict (JAnd l) t) with (let? (l', t1) := compile_list (compile_cond strict) l t in Some (CAnd l', t1)) in E. run E. injection E as _ <-. eapply list_keeps; [exact F|exact O|eassumption].
  - intros c IH O t b t' E. change (compile_cond strict (JNot c) t) with (let? (d, t1) := compile_cond strict c t in Some (CNot d, t1)) in E. run E. injection E as _ <-. eapply IH; eauto.
  - intros a op b0 IH1 IH2 [O1 O2] t b t' E.
    change (compile_cond strict (JCompare a op b0) t) with (let? (a', t1) := compile_comparable strict a t in let? (b', t2) := compile_comparable strict b0 t1 in
        let '(eq, lt, neg, swap) := op_flags op in Some (if swap then CComp b' eq lt neg a' else CComp a' eq lt neg b', t2)) in E.
    run E. destruct (op_flags op) as [[[eq lt] neg] swap]. injection E as _ <-. rewrite (IH2 O2 _ _ _ F0). eapply IH1; eauto.
  - intros q IH [O1 O2] t b t' E. change (compile_cond strict (JTest q) t) with (let? (r, t1) := compile_inner q (compile_query strict q) t in Some (CQuery r, t1)) in E. run E. injection E as _ <-.
    destruct q as [root segs]. subst root. cbn [compile_inner] in F. eapply IH; eauto.
  - intros f IH O t b t' E. change (compile_cond strict (JTestCall f) t) with (let? ((g, args), t1) := compile_call strict f TyLogical t in Some (CFun g args, t1)) in E.
    destruct (compile_call strict f TyLogical t) as [[[g args] t1]|] eqn:F; [|discriminate]. injection E as _ <-. eapply IH; eauto.
  - intros s O t b t' E. now injection E.
  - intros [r l] O t b t' E. change (compile_comparable strict (JSing (JSingular r l)) t) with (Some (compile_singular (JSingular r l) t)) in E.
    destruct (compile_singular (JSingular r l) t) as [m t1] eqn:F. injection E as _ <-. eapply singular_keeps; [|exact F]. exact O.
  - intros f IH O t b t' E. change (compile_comparable strict (JValueCall f) t) with (let? ((g, args), t1) := compile_call strict f TyValue t in Some (MFun g args, t1)) in E.
    destruct (compile_call strict f TyValue t) as [[[g args] t1]|] eqn:F; [|discriminate]. injection E as _ <-. eapply IH; eauto.
  - intros n args F O ty t b t' E. change (compile_call strict (JCall n args) ty t) with (match lookup n with None => None | Some g =>
            if negb (converts_to (output_type g) ty) then None else if negb (length args =? length (input_types g))%nat then None
            else let? (l, t1) := compile_args (compile_arg strict) args (input_types g) t in Some ((g, l), t1) end) in E.
    destruct (lookup n) as [g|]; [|discriminate]. destruct (negb _); [discriminate|]. destruct (negb _); [discriminate|].
    destruct (compile_args _ _ _ _) as [[l t1]|] eqn:G; [|discriminate]. injection E as _ <-. eapply args_keeps; [exact F|exact O|exact G].
  - intros s O ty t b t' E. destruct ty; cbn in E; try discriminate. now injection E.
  - intros q IH [O1 O2] ty t b t' E.
    change (compile_arg strict (JArgQuery q) ty t) with (match ty with
        | TyValue => match as_singular q with Some sq => let '(m, t1) := compile_singular sq t in Some (AVal m, t1) | None => None end
        | _ => let? (r, t1) := compile_inner q (compile_query strict q) t in Some (ANodes r, t1) end) in E.
    destruct q as [root segs]. subst root. destruct ty.
    + cbn [as_singular] in E. destruct (as_steps segs) as [l|]; [|discriminate]. cbn in E. now injection E.
    + run E. injection E as _ <-. eapply IH; eauto.
    + run E. injection E as _ <-. eapply IH; eauto.
  - intros c IH O ty t b t' E. destruct ty; try discriminate.
    change (compile_arg strict (JArgLogical c) TyLogical t) with (let? (c', t1) := compile_cond strict c t in Some (ALog c', t1)) in E. run E. injection E as _ <-. eapply IH; eauto.
  - intros f IH O ty t b t' E. change (compile_arg strict (JArgCall f) ty t) with (let? ((g, args), t1) := compile_call strict f ty t in
        match ty with TyValue => Some (AVal (MFun g args), t1) | TyLogical => Some (ALog (CFun g args), t1) | TyNodes => None end) in E.
    destruct (compile_call strict f ty t) as [[[g args] t1]|] eqn:F; [|discriminate]. destruct ty; try discriminate; injection E as _ <-; eapply IH; eauto.
Qed.

Lemma onward_compiled : forall s t s' t', onward s -> compile_selector strict s t = Some (s', t') -> sel_reverses s' = false /\ (sel_lookahead s' <= 0)%Z.
Proof.
  assert (I : forall z, (- 2 ^ 63 <= z < 2 ^ 63)%Z -> i64 z = z) by (intros z H; unfold i64; rewrite Z.mod_small; lia).
  intros [n| |i|a b s|c] t s' t' O E.
  - injection E as <- _. cbn. split; [reflexivity|lia].
  - injection E as <- _. cbn. split; [reflexivity|lia].
  - injection E as <- _. cbn in *. split; [reflexivity|]. unfold from_start in O. rewrite (proj2 (Z.ltb_ge i 0)); lia.
  - cbn [compile_selector] in E. injection E as <- _. destruct O as [A [B S0]]. unfold compile_slice. destruct (s =? 0)%Z; [cbn; split; [reflexivity|lia]|].
    rewrite (proj2 (Z.ltb_ge s 0)) by lia. destruct (_ || _); [cbn; split; [reflexivity|lia]|]. cbn [sel_reverses sel_lookahead reverses lookahead]. split; [reflexivity|].
    assert (RA : (0 <= or_else a 0 < 2 ^ 63)%Z) by (destruct a as [z|]; cbn [or_else]; [cbn in A; unfold from_start in A; lia|lia]).
    assert (RB : (0 <= or_else b max64 < 2 ^ 63)%Z) by (destruct b as [z|]; cbn [or_else]; [cbn in B; unfold from_start in B; lia|unfold max64; lia]).
    rewrite !I by lia. destruct (_ <? - _)%Z; destruct (0 <? _)%Z eqn:Q; try lia; apply Z.ltb_lt in Q; lia.
  - change (compile_selector strict (JFilter c) t) with (let? (c', t1) := compile_cond strict c t in Some (SFilter c', t1)) in E. run E. injection E as <- _. cbn. split; [reflexivity|lia].
Qed.

(** Child segments that select without filtering, and one with an onward
    selector after them. *)
Fixpoint leads (d : nat) (desc : bool) (seg : segment) : Prop :=
  match seg with
  | Seg sels look desc' strict' following => exists s, sels = [s] /\ sel_reverses s = false /\ (look <= 0)%Z /\ strict' = strict /\
      match d with
      | O => desc' = desc
      | S d' => desc' = false /\ match s with SFilter _ => False | _ => True end /\ match following with Some seg' => leads d' desc seg' | None => False end
      end
  end.
Lemma max_lookahead_one : forall s, (sel_lookahead s <= 0)%Z -> (max_lookahead [s] <= 0)%Z.
Proof. intros s H. unfold max_lookahead. cbn [fold_left]. destruct (0 <? sel_lookahead s)%Z; lia. Qed.
Lemma compile_leads : forall desc sel segs, onward sel -> forall prefix t o t', Forall direct_segment prefix ->
  compile_segments (compile_segment strict) (prefix ++ JSegment desc [sel] :: segs) t = Some (o, t') -> exists seg, o = Some seg /\ leads (length prefix) desc seg.
Proof.
  assert (ONE : forall d s fo t, compile_segment strict (JSegment d [s]) fo t = let? (l, t1) := compile_list (compile_selector strict) [s] t in Some (Seg l (max_lookahead l) d strict fo, t1)) by reflexivity.
  intros desc sel segs O. induction prefix as [|seg prefix IH]; intros t o t' D E.
  - cbn [app compile_segments] in E. destruct (compile_segments (compile_segment strict) segs t) as [[fo t1]|]; [|discriminate]. rewrite ONE in E.
    cbn [compile_list] in E. destruct (compile_selector strict sel t1) as [[s t2]|] eqn:S; [|discriminate]. injection E as <- _. eexists. split; [reflexivity|].
    destruct (onward_compiled _ _ _ _ O S) as [S1 S2]. cbn [length leads]. exists s. split; [reflexivity|]. split; [exact S1|]. split; [now apply max_lookahead_one|]. split; reflexivity.
  - inversion D as [|seg0 l0 [s0 [-> [O0 NF]]] D']; subst. cbn [app compile_segments] in E.
    destruct (compile_segments (compile_segment strict) (prefix ++ JSegment desc [sel] :: segs) t) as [[fo t1]|] eqn:E1; [|discriminate]. destruct (IH _ _ _ D' E1) as [seg' [-> LE]]. rewrite ONE in E.
    cbn [compile_list] in E. destruct (compile_selector strict s0 t1) as [[s t2]|] eqn:S; [|discriminate]. injection E as <- _. eexists. split; [reflexivity|].
    destruct (onward_compiled _ _ _ _ O0 S) as [S1 S2]. cbn [length leads]. exists s. split; [reflexivity|]. split; [exact S1|]. split; [now apply max_lookahead_one|]. split; [reflexivity|].
    split; [reflexivity|]. split; [|exact LE]. destruct s0; try (injection S as <- _; exact Logic.I). destruct NF.
Qed.

(** What a query with such segments in front is compiled to. *)
Theorem compile_onward : forall root prefix desc sel segs r, compile strict (JQuery root (prefix ++ JSegment desc [sel] :: segs)) = Some r ->
  Forall direct_segment prefix -> onward sel -> lone_query (JQuery root (prefix ++ JSegment desc [sel] :: segs)) ->
  rn_singular r = [] /\ rn_queries r = [] /\ exists seg, rn_main r = QFirst (Some seg) /\ leads (length prefix) desc seg.
Proof.
  intros root prefix desc sel segs r E D O L. unfold compile in E. destruct (compile_query strict _ _) as [[m t]|] eqn:C; [|discriminate]. injection E as <-.
  rewrite (proj1 compile_keeps _ L _ _ _ C). cbn [rn_singular rn_queries rn_main map tb_sing tb_inner]. split; [reflexivity|]. split; [reflexivity|].
  change (compile_query strict (JQuery root (prefix ++ JSegment desc [sel] :: segs)) (mkTables [] [])) with
    (let? (first, t1) := compile_segments (compile_segment strict) (prefix ++ JSegment desc [sel] :: segs) (mkTables [] []) in Some (QFirst first, t1)) in C.
  destruct (compile_segments _ _ _) as [[fo t1]|] eqn:E1; [|discriminate]. injection C as <- _. destruct (compile_leads desc sel segs O _ _ _ _ D E1) as [seg [-> LE]]. eauto.
Qed.
End Keeps.

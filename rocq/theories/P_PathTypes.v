(** C40: a query compiles exactly when its function expressions are well typed. *)
From Coq Require Import List ZArith NArith Bool Arith.
From Verif Require Import Base Tokens SelectModel PathModel PathAst PathSpec PathTypes CompileModel PathInd.

(** The queries in the tables are well typed. *)
Definition okt (t : tables) : Prop := Forall (fun e => typed_query (fst e)) (tb_inner t).
Definition decides {A} (f : tables -> option (A * tables)) (P : Prop) : Prop :=
  forall t, okt t -> match f t with Some (_, t') => P /\ okt t' | None => ~ P end.
Lemma decides_eq : forall A (f g : tables -> option (A * tables)) P Q, decides f P -> (forall t, g t = f t) -> (P <-> Q) -> decides g Q.
Proof. intros A f g P Q D E I t T. rewrite E. specialize (D t T). destruct (f t) as [[a t']|]; tauto. Qed.
Lemma decides_bind : forall A B (f : tables -> option (A * tables)) (g : A -> tables -> option (B * tables)) P Q,
  decides f P -> (forall a, decides (g a) Q) -> decides (fun t => match f t with Some (a, t1) => g a t1 | None => None end) (P /\ Q).
Proof.
  intros A B f g P Q D K t T. specialize (D t T). destruct (f t) as [[a t1]|]; [|tauto]. destruct D as [D1 D2]. specialize (K a t1 D2). destruct (g a t1) as [[b t2]|]; tauto.
Qed.
Lemma decides_some : forall A B (f : tables -> option (A * tables)) (h : A -> B) P, decides f P ->
  decides (fun t => match f t with Some (a, t1) => Some (h a, t1) | None => None end) P.
Proof. intros A B f h P D t T. specialize (D t T). destruct (f t) as [[a t1]|]; tauto. Qed.
Lemma decides_pair : forall A B C (f : tables -> option ((A * B) * tables)) (h : A -> B -> C) P, decides f P ->
  decides (fun t => match f t with Some ((a, b), t1) => Some (h a b, t1) | None => None end) P.
Proof. intros A B C f h P D t T. specialize (D t T). destruct (f t) as [[[a b] t1]|]; tauto. Qed.
Lemma decides_ret : forall A (a : A) (P : Prop), P -> decides (fun t => Some (a, t)) P.
Proof. intros A a P H t T. auto. Qed.
Lemma decides_none : forall A (P : Prop), ~ P -> decides (fun t => @None (A * tables)) P.
Proof. intros A P H t T. exact H. Qed.

Lemma list_decides : forall A B (f : A -> tables -> option (B * tables)) (P : A -> Prop) l, Forall (fun a => decides (f a) (P a)) l -> decides (compile_list f l) (all P l).
Proof.
  intros A B f P l F. induction F as [|a l D F IH]; [apply (decides_ret _ []); exact I|].
  exact (decides_bind _ _ (f a) (fun b t1 => match compile_list f l t1 with Some (r, t2) => Some (b :: r, t2) | None => None end) (P a) (all P l) D (fun b => decides_some _ _ (compile_list f l) (cons b) _ IH)).
Qed.

Definition ty (t : type) : ftype := match t with ValueType => TyValue | LogicalType => TyLogical | NodesType => TyNodes end.

Section Types.
Variable strict : bool.
Lemma segs_decides : forall segs, Forall (fun seg => forall following, decides (compile_segment strict seg following) (typed_segment seg)) segs ->
  decides (compile_segments (compile_segment strict) segs) (all typed_segment segs).
Proof.
  intros segs F. induction F as [|seg segs D F IH]; [apply (decides_ret _ None); exact I|].
  eapply decides_eq; [|intro t; reflexivity|].
  - exact (decides_bind _ _ (compile_segments (compile_segment strict) segs) (fun following t1 => match compile_segment strict seg following t1 with Some (b, t2) => Some (Some b, t2) | None => None end) _ _ IH
      (fun following => decides_some _ _ (compile_segment strict seg following) Some _ (D following))).
  - cbn [all]. tauto.
Qed.
Lemma inner_decides : forall q, decides (compile_query strict q) (typed_query q) -> decides (compile_inner q (compile_query strict q)) (typed_query q).
Proof.
  intros [[|] segs] D; [|exact D]. intros t T. unfold compile_inner. destruct (find_entry _ _ _) as [i|] eqn:E.
  - apply find_entry_ok in E as (a & b & _ & N & EQ). apply query_eqb_eq in EQ. subst a. split; [|exact T].
    apply nth_error_In in N. unfold okt in T. rewrite Forall_forall in T. exact (T _ N).
  - specialize (D t T). destruct (compile_query strict (JQuery true segs) t) as [[r t1]|]; [|exact D]. destruct D as [D1 D2]. split; [exact D1|].
    unfold okt. cbn [tb_inner]. apply Forall_app. split; [exact D2|]. constructor; [exact D1|constructor].
Qed.
Lemma singular_decides : forall sq (P : Prop), P -> decides (fun t => Some (compile_singular sq t)) P.
Proof.
  intros [[|] l] P H t T; cbn [compile_singular]; [|auto]. destruct (find_entry _ _ _); auto.
Qed.
Lemma as_steps_iff : forall segs, as_steps segs <> None <-> singular_query (JQuery true segs).
Proof.
  induction segs as [|[desc sels] segs IH]; cbn [as_steps singular_query]; [split; [constructor|discriminate]|]. change (singular_query (JQuery true segs)) with (Forall (fun seg => match seg with
                                        | JSegment false [JName _] | JSegment false [JIndex _] => True
                                        | _ => False
                                        end) segs) in IH. rewrite Forall_cons_iff, <- IH.
  destruct desc; [split; [congruence|tauto]|]. destruct sels as [|[n| |i|? ? ?|?] [|]]; try (split; [congruence|tauto]); (destruct (as_steps segs); split; [intros _; split; [exact I|discriminate]|discriminate|congruence|intros [_ K]; congruence]).
Qed.

Definition result_ok (f : jcall) : Prop := forall r,
  decides (compile_call strict f (ty r)) (match r with LogicalType => typed_call f LogicalType \/ typed_call f NodesType | _ => typed_call f r end).

Definition back (t : ftype) : type := match t with TyValue => ValueType | TyLogical => LogicalType | TyNodes => NodesType end.
Lemma ty_back : forall t, ty (back t) = t.
Proof. now intros []. Qed.
Lemma declared_iff : forall name params result, declared name params result <->
  exists g, lookup name = Some g /\ params = map back (input_types g) /\ result = back (output_type g).
Proof.
  intros name params result. unfold declared. split.
  - intros [(-> & -> & ->)|[(-> & -> & ->)|[(-> & -> & ->)|[(-> & -> & ->)|(-> & -> & ->)]]]];
      [exists FLength|exists FCount|exists FMatch|exists FSearch|exists FValue]; repeat split.
  - intros (g & L & -> & ->). unfold lookup in L.
    destruct (bytes_eqb name n_length) eqn:E1; [apply bytes_eqb_eq in E1; injection L as <-; auto 10|]. destruct (bytes_eqb name n_count) eqn:E2; [apply bytes_eqb_eq in E2; injection L as <-; auto 10|].
    destruct (bytes_eqb name n_match) eqn:E3; [apply bytes_eqb_eq in E3; injection L as <-; auto 10|]. destruct (bytes_eqb name n_search) eqn:E4; [apply bytes_eqb_eq in E4; injection L as <-; auto 10|].
    destruct (bytes_eqb name n_value) eqn:E5; [apply bytes_eqb_eq in E5; injection L as <-; auto 10|discriminate].
Qed.
Lemma no_nodes : forall f, ~ typed_call f NodesType.
Proof.
  intros [name args] (params & D & _). apply declared_iff in D as (g & _ & _ & E). destruct g; discriminate.
Qed.

Definition arg_ok (a : jarg) : Prop := forall t, decides (compile_arg strict a (ty t)) (typed_arg a t).
Lemma args_decides : forall args, Forall arg_ok args -> forall tys, decides (compile_args (compile_arg strict) args tys) (each typed_arg args (map back tys)).
Proof.
  intros args F. induction F as [|a args D F IH]; intros [|t tys]; cbn [map each].
  - apply (decides_ret _ []). exact I.
  - apply decides_none. tauto.
  - apply decides_none. tauto.
  - specialize (D (back t)). rewrite ty_back in D.
    exact (decides_bind _ _ (compile_arg strict a t) (fun b t1 => match compile_args (compile_arg strict) args tys t1 with Some (r, t2) => Some (b :: r, t2) | None => None end) _ _ D
      (fun b => decides_some _ _ (compile_args (compile_arg strict) args tys) (cons b) _ (IH tys))).
Qed.
Lemma each_length : forall A B (R : A -> B -> Prop) l l', each R l l' -> length l = length l'.
Proof. induction l as [|a l IH]; intros [|b l'] H; cbn [each] in H; try tauto; cbn; f_equal. apply IH. tauto. Qed.
Lemma call_decides : forall name args, Forall arg_ok args -> result_ok (JCall name args).
Proof.
  intros name args F r.
  assert (TY : (match r with LogicalType => typed_call (JCall name args) LogicalType \/ typed_call (JCall name args) NodesType | _ => typed_call (JCall name args) r end) <->
               exists g, lookup name = Some g /\ back (output_type g) = r /\ each typed_arg args (map back (input_types g))).
  { transitivity (typed_call (JCall name args) r).
    - destruct r; try reflexivity. split; [intros [H|H]; [exact H|elim (no_nodes _ H)]|auto].
    - change (typed_call (JCall name args) r) with (exists params, declared name params r /\ each typed_arg args params). split.
      + intros (params & D & E). apply declared_iff in D as (g & L & -> & ->). eauto.
      + intros (g & L & <- & E). eexists. split; [|exact E]. apply declared_iff. eauto. }
  eapply decides_eq with (f := fun t => match lookup name with
     | None => None
     | Some g => if negb (converts_to (output_type g) (ty r)) then None else if negb (length args =? length (input_types g))%nat then None
                 else let? (l, t1) := compile_args (compile_arg strict) args (input_types g) t in Some ((g, l), t1)
     end); [|intro t; reflexivity|symmetry; exact TY]. clear TY.
  destruct (lookup name) as [g|]; [|apply decides_none; intros (g & L & _); discriminate].
  destruct (converts_to (output_type g) (ty r)) eqn:C; cbn [negb].
  2:{ apply decides_none. intros (g' & [= <-] & E & _). subst r. rewrite ty_back in C. destruct g; discriminate. }
  assert (ER : back (output_type g) = r) by (destruct g, r; try discriminate; reflexivity).
  destruct (length args =? length (input_types g))%nat eqn:LN; cbn [negb].
  2:{ apply decides_none. intros (g' & [= <-] & _ & E). apply each_length in E. rewrite map_length in E. apply Nat.eqb_neq in LN. contradiction. }
  eapply decides_eq; [exact (decides_some _ _ _ (fun l => (g, l)) _ (args_decides args F (input_types g)))|intro t; reflexivity|].
  split; [eauto|]. intros (g' & [= <-] & _ & E). exact E.
Qed.
Lemma arg_call_ok : forall f, result_ok f -> arg_ok (JArgCall f).
Proof.
  intros f D t. specialize (D t). destruct t; cbn [ty] in *.
  - exact (decides_pair _ _ _ _ (fun g args => AVal (MFun g args)) _ D).
  - exact (decides_pair _ _ _ _ (fun g args => ALog (CFun g args)) _ D).
  - intros t0 T. change (compile_arg strict (JArgCall f) TyNodes t0) with (let? ((g, args), t1) := compile_call strict f TyNodes t0 in @None (arg * tables)).
    destruct (compile_call strict f TyNodes t0) as [[[g args] t1]|]; exact (no_nodes f).
Qed.

Lemma all_decide : (forall q, decides (compile_query strict q) (typed_query q)) /\
  (forall g following, decides (compile_segment strict g following) (typed_segment g)) /\
  (forall s, decides (compile_selector strict s) (typed_selector s)) /\
  (forall c, decides (compile_cond strict c) (typed_logical c)) /\
  (forall v, decides (compile_comparable strict v) (typed_comparable v)) /\
  (forall f, result_ok f) /\ (forall a, arg_ok a).
Proof.
  apply path_ind.
  - intros r segs F. exact (decides_some _ _ _ QFirst _ (segs_decides segs F)).
  - intros d sels F following. exact (decides_some _ _ _ (fun l => Seg l (max_lookahead l) d strict following) _ (list_decides _ _ _ _ sels F)).
  - intro n. apply (decides_ret _ (SName n)). exact I.
  - apply (decides_ret _ SWild). exact I.
  - intro i. apply (decides_ret _ (SPos (PIndex i))). exact I.
  - intros a b st. apply (decides_ret _ (SPos (compile_slice a b st))). exact I.
  - intros c D. exact (decides_some _ _ _ SFilter _ D).
  - intros l F. exact (decides_some _ _ _ COr _ (list_decides _ _ _ _ l F)).
  - intros l F. exact (decides_some _ _ _ CAnd _ (list_decides _ _ _ _ l F)).
  - intros c D. exact (decides_some _ _ _ CNot _ D).
  - intros a op b DA DB.
    apply (decides_bind _ _ (compile_comparable strict a) (fun a' t1 => let? (b', t2) := compile_comparable strict b t1 in
        let '(eq, lt, neg, swap) := op_flags op in Some (if swap then CComp b' eq lt neg a' else CComp a' eq lt neg b', t2)) _ _ DA).
    intro a'. eapply decides_eq; [exact (decides_some _ _ _ (fun b' => let '(eq, lt, neg, swap) := op_flags op in if swap then CComp b' eq lt neg a' else CComp a' eq lt neg b') _ DB)|intro t; now destruct op|reflexivity].
  - intros q D. exact (decides_some _ _ _ CQuery _ (inner_decides q D)).
  - intros f D. exact (decides_pair _ _ _ _ CFun _ (D LogicalType)).
  - intro s. apply (decides_ret _ (MLit s)). exact I.
  - intro q. apply (singular_decides q). exact I.
  - intros f D. exact (decides_pair _ _ _ _ MFun _ (D ValueType)).
  - exact call_decides.
  - intros s [| |]; [apply (decides_ret _ (AVal (MLit s))); exact I|apply decides_none; tauto|apply decides_none; tauto].
  - intros q D [| |]; [|exact (decides_some _ _ _ ANodes _ (inner_decides q D))|exact (decides_some _ _ _ ANodes _ (inner_decides q D))].
    intros t T. change (compile_arg strict (JArgQuery q) (ty ValueType) t) with (match as_singular q with Some sq => let '(m, t1) := compile_singular sq t in Some (AVal m, t1) | None => None end).
    change (typed_arg (JArgQuery q) ValueType) with (singular_query q). destruct q as [r segs]. cbn [as_singular]. change (singular_query (JQuery r segs)) with (singular_query (JQuery true segs)). pose proof (as_steps_iff segs) as AS.
    destruct (as_steps segs) as [l|]; [|intro K; apply AS in K; congruence]. pose proof (singular_decides (JSingular r l) True I t T) as K. cbv beta iota in K. destruct (compile_singular (JSingular r l) t) as [m t1]. split; [apply AS; discriminate|apply K].
  - intros c D [| |]; [apply decides_none; tauto|exact (decides_some _ _ _ ALog _ D)|apply decides_none; tauto].
  - exact arg_call_ok.
Qed.
End Types.

(** Exactly the queries whose function expressions are well typed compile. *)
Theorem C40_compiles_iff_well_typed : forall strict q, (exists r, compile strict q = Some r) <-> typed_query q.
Proof.
  intros strict q. pose proof (proj1 (all_decide strict) q (mkTables [] []) (Forall_nil _)) as H. unfold compile.
  destruct (compile_query strict q (mkTables [] [])) as [[r t]|].
  - split; [intros _; apply H|eauto].
  - split; [intros [r K]; discriminate|contradiction].
Qed.
Print Assumptions C40_compiles_iff_well_typed.

(** An unknown function, a missing argument, a nodelist as a value, a value as a
    test, in a filter. *)
Definition filter (c : jlogical) : jquery := JQuery true [JSegment false [JFilter c]].
Definition current : jarg := JArgQuery (JQuery false []).
Definition children_of : jarg := JArgQuery (JQuery false [JSegment false [JWild]]).
Definition one : jcomparable := JLit (new_scalar TNum [49%N]).
Example ex_typed : compile false (filter (JCompare (JValueCall (JCall n_length [current])) OpEq one)) <> None /\
  compile false (filter (JCompare (JValueCall (JCall n_count [children_of])) OpEq one)) <> None /\
  compile true (filter (JTestCall (JCall n_match [current; JArgLit (new_scalar TStr [34; 97; 34]%N)]))) <> None.
Proof. repeat split; discriminate. Qed.
Example ex_ill_typed :
  compile false (filter (JCompare (JValueCall (JCall [102%N] [current])) OpEq one)) = None /\
  compile false (filter (JCompare (JValueCall (JCall n_length [])) OpEq one)) = None /\
  compile false (filter (JCompare (JValueCall (JCall n_length [children_of])) OpEq one)) = None /\
  compile false (filter (JCompare (JValueCall (JCall n_count [JArgLit (new_scalar TNum [49%N])])) OpEq one)) = None /\
  compile false (filter (JTestCall (JCall n_count [current]))) = None /\
  compile false (filter (JCompare (JValueCall (JCall n_match [current; current])) OpEq one)) = None.
Proof. repeat split. Qed.

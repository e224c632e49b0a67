(** The iterators of the model do what the specification says. *)
From Coq Require Import List ZArith Arith Bool Lia.
From Verif Require Import Base Tokens JsonSpec EncSpec CursorModel CursorSpec CursorProofs IterModel IterSpec IterCore IterThr.

Section Grow.
Variable grow : Z -> Z -> Z.

(** A root: an iterator with its current value, or a clone. *)
Record root := mkRoot {
  ro_it : option nat;
  ro_v : option value;
  ro_base : rstream;
  ro_src : nat;
  ro_end : nat;
  ro_ids : list nat;
  ro_leaf : rstream
}.

Definition is_cur (r : rstream) : Prop := exists p c, r = RCur p c.

Record iter_ok (g : ghost) (h : heap) (st : sstore) (ro : root) (i : nat) : Prop := mkIok {
  io_h : nth_error (h_iter h) i = Some (mkIter (ro_base ro) (ro_v ro));
  io_s : exists b rest, nth_error (st_iter st) i = Some (mkSi b (SIAt rest (ro_v ro))) /\
           (b = true -> is_cur (ro_base ro)) /\
           span (full g (ro_src ro)) (ro_end ro) (stream rest) (length (full g (ro_src ro)));
  io_lim : lim g (ro_base ro) = length (full g (ro_src ro));
  io_on : on_src g (ro_base ro) (ro_src ro);
  io_nr : forall j, In j (ro_ids ro) -> nonroot (st_coll st) j;
  io_thr : match ro_v ro with
           | None => gpos g (ro_base ro) = Some (ro_src ro, ro_end ro) /\ ro_ids ro = [] /\ ro_leaf ro = ro_base ro
           | Some v => thr g h (st_coll st) v (ro_base ro) (ro_src ro) (ro_end ro) (ro_ids ro) (ro_leaf ro)
           end
}.

Record clone_ok (g : ghost) (h : heap) (st : sstore) (ro : root) : Prop := mkClo {
  cl_ex : exists v id tl hd, ro_v ro = Some v /\ ro_ids ro = id :: tl /\
            nth_error (st_coll st) id = Some hd /\ s_root hd = true /\
            (forall j, In j tl -> nonroot (st_coll st) j) /\
            thr g h (st_coll st) v (ro_base ro) (ro_src ro) (ro_end ro) (ro_ids ro) (ro_leaf ro);
  cl_cur : is_cur (ro_base ro)
}.

Definition root_ok (g : ghost) (h : heap) (st : sstore) (ro : root) : Prop :=
  match ro_it ro with Some i => iter_ok g h st ro i | None => clone_ok g h st ro end.

Lemma root_leaf : forall g h st ro, root_ok g h st ro ->
  gpos g (ro_leaf ro) <> None /\ (forall p c, ro_base ro = RCur p c -> ro_leaf ro = ro_base ro) /\
  (forall s', ro_leaf ro = RSrc s' -> ro_base ro = ro_leaf ro).
Proof.
  intros g h st ro RO. unfold root_ok in RO. destruct (ro_it ro) as [i|].
  - pose proof (io_thr _ _ _ _ _ RO) as T. destruct (ro_v ro) as [v|].
    + eapply thr_leaf; exact T.
    + destruct T as [G [_ ->]]. split; [congruence|]. auto.
  - destruct (cl_ex _ _ _ _ RO) as [v [id [tl [hd [_ [_ [_ [_ [_ T]]]]]]]]]. eapply thr_leaf; exact T.
Qed.

Lemma root_ids : forall g h st ro, root_ok g h st ro ->
  NoDup (ro_ids ro) /\ forall j, In j (ro_ids ro) -> j < length (st_coll st).
Proof.
  intros g h st ro RO. unfold root_ok in RO. destruct (ro_it ro) as [i|].
  - pose proof (io_thr _ _ _ _ _ RO) as T. destruct (ro_v ro) as [v|].
    + eapply thr_ids; exact T.
    + destruct T as [_ [-> _]]. split; [constructor|intros j []].
  - destruct (cl_ex _ _ _ _ RO) as [v [id [tl [hd [_ [_ [_ [_ [_ T]]]]]]]]]. eapply thr_ids; exact T.
Qed.

Lemma root_frame : forall g h st ro g' h' st', root_ok g h st ro ->
  gle g g' -> gpos g' (ro_leaf ro) = gpos g (ro_leaf ro) ->
  (forall s, ro_base ro = RSrc s -> act g' s = act g s) ->
  (forall j, In j (ro_ids ro) -> nth_error (h_coll h') j = nth_error (h_coll h) j /\
                                 nth_error (st_coll st') j = nth_error (st_coll st) j) ->
  (forall i, ro_it ro = Some i -> nth_error (h_iter h') i = nth_error (h_iter h) i /\
                                  nth_error (st_iter st') i = nth_error (st_iter st) i) ->
  root_ok g' h' st' ro.
Proof.
  intros g h st ro g' h' st' RO L GL AC FR FI. unfold root_ok in *. destruct (ro_it ro) as [i|].
  - destruct RO as [A B C D E F]. destruct (FI i eq_refl) as [FI1 FI2]. constructor.
    + congruence.
    + destruct B as [b [rest [B1 [B2 B3]]]]. exists b, rest. split; [congruence|]. split; [exact B2|].
      now rewrite (full_on _ _ _ _ L D).
    + rewrite (lim_gle _ _ _ _ L D), (full_on _ _ _ _ L D). exact C.
    + eapply on_src_gle; eauto.
    + intros j J. destruct (E j J) as [hd [E1 E2]]. exists hd. split; [|exact E2].
      destruct (FR j J) as [_ ->]. exact E1.
    + destruct (ro_v ro) as [v|].
      * eapply thr_frame; eauto.
      * destruct F as [F1 [F2 F3]]. split; [|auto]. rewrite F3 in GL. congruence.
  - destruct RO as [A B]. constructor; [|exact B].
    destruct A as [v [id [tl [hd [A1 [A2 [A3 [A4 [A5 A6]]]]]]]]].
    exists v, id, tl, hd. split; [exact A1|]. split; [exact A2|]. split; [|split; [exact A4|split]].
    + destruct (FR id) as [_ ->]; [rewrite A2; now left|exact A3].
    + intros j J. destruct (A5 j J) as [hd' [E1 E2]]. exists hd'. split; [|exact E2].
      destruct (FR j) as [_ ->]; [rewrite A2; now right|exact E1].
    + eapply thr_frame; eauto.
Qed.

Definition iter_cov (g : ghost) (h : heap) (roots : list root) (i : nat) (x : siter) : Prop :=
  match si_state x with
  | SIAt _ _ => exists ro, In ro roots /\ ro_it ro = Some i
  | SIEnd => exists y, nth_error (h_iter h) i = Some y /\ i_val y = None /\ ended g (i_stream y) /\
               (si_root x = true -> is_cur (i_stream y))
  | SIDead => True
  end.

Record rel (g : ghost) (h : heap) (st : sstore) (roots : list root) : Prop := mkRel {
  re_core : core g h;
  re_lenc : length (st_coll st) = length (h_coll h);
  re_leni : length (st_iter st) = length (h_iter h);
  re_ok : forall ro, In ro roots -> root_ok g h st ro;
  re_base : NoDup (map ro_base roots);
  re_leaf : NoDup (map ro_leaf roots);
  re_ids : NoDup (flat_map ro_ids roots);
  re_cov : forall j hd, nth_error (st_coll st) j = Some hd -> s_state hd <> SDead ->
             exists ro, In ro roots /\ In j (ro_ids ro);
  re_icov : forall i x, nth_error (st_iter st) i = Some x -> iter_cov g h roots i x
}.

Lemma NoDup_app : forall A (l1 l2 : list A), NoDup (l1 ++ l2) <->
  NoDup l1 /\ NoDup l2 /\ forall x, In x l1 -> ~ In x l2.
Proof.
  induction l1 as [|a l1 IH]; intro l2; simpl.
  - split; [intro H; repeat split; auto; constructor|tauto].
  - split.
    + intro H. inversion H as [|? ? N D]; subst. apply IH in D as [D1 [D2 D3]].
      split; [constructor; [|exact D1]|split; [exact D2|]].
      * intro I. apply N, in_or_app. now left.
      * intros x [<-|I] J; [|now apply (D3 x)]. apply N, in_or_app. now right.
    + intros [D1 [D2 D3]]. inversion D1 as [|? ? N D]; subst. constructor.
      * intro I. apply in_app_or in I as [I|I]; [auto|]. apply (D3 a); auto.
      * apply IH. split; [exact D|]. split; [exact D2|]. intros x I. apply D3. now right.
Qed.

(** Replacing the middle of a list without duplicates. *)
Lemma NoDup_mid : forall A (l1 o n l2 : list A), NoDup (l1 ++ o ++ l2) -> NoDup n ->
  (forall x, In x n -> In x l1 \/ In x l2 -> False) -> NoDup (l1 ++ n ++ l2).
Proof.
  intros A l1 o n l2 D DN H. apply NoDup_app in D as [D1 [D2 D3]]. apply NoDup_app in D2 as [_ [D2 D4]].
  apply NoDup_app. split; [exact D1|]. split.
  - apply NoDup_app. split; [exact DN|]. split; [exact D2|]. intros x I J. apply (H x); auto.
  - intros x I J. apply in_app_or in J as [J|J].
    + apply (H x); auto.
    + apply (D3 x I). apply in_or_app. now right.
Qed.

Lemma rel_update : forall g h st R1 O R2 g' h' st' N,
  rel g h st (R1 ++ O ++ R2) ->
  core g' h' -> gle g g' ->
  length (st_coll st') = length (h_coll h') -> length (st_iter st') = length (h_iter h') ->
  (forall n, In n N -> root_ok g' h' st' n) ->
  (forall r, (forall ro, In ro O -> r <> ro_base ro /\ r <> ro_leaf ro) -> gpos g r <> None -> gpos g' r = gpos g r) ->
  (forall s, act g' s = act g s \/ (exists ro, In ro O /\ (ro_base ro = RSrc s \/ ro_leaf ro = RSrc s)) \/ length (g_F g) <= s) ->
  (forall j, j < length (st_coll st) -> (forall ro, In ro O -> ~ In j (ro_ids ro)) ->
     nth_error (h_coll h') j = nth_error (h_coll h) j /\ nth_error (st_coll st') j = nth_error (st_coll st) j) ->
  (forall i, i < length (st_iter st) -> (forall ro, In ro O -> ro_it ro <> Some i) ->
     nth_error (h_iter h') i = nth_error (h_iter h) i /\ nth_error (st_iter st') i = nth_error (st_iter st) i) ->
  NoDup (map ro_base N) -> NoDup (map ro_leaf N) -> NoDup (flat_map ro_ids N) ->
  (forall n, In n N -> In (ro_base n) (map ro_base O) \/ (is_cur (ro_base n) /\ gpos g (ro_base n) = None)) ->
  (forall n, In n N -> In (ro_leaf n) (map ro_base O) \/ In (ro_leaf n) (map ro_leaf O) \/ gpos g (ro_leaf n) = None) ->
  (forall n j, In n N -> In j (ro_ids n) -> In j (flat_map ro_ids O) \/ length (st_coll st) <= j) ->
  (forall j hd, nth_error (st_coll st') j = Some hd -> s_state hd <> SDead ->
     (j < length (st_coll st) /\ (forall ro, In ro O -> ~ In j (ro_ids ro))) \/ In j (flat_map ro_ids N)) ->
  (forall i x, nth_error (st_iter st') i = Some x ->
     (i < length (st_iter st) /\ (forall ro, In ro O -> ro_it ro <> Some i)) \/ iter_cov g' h' N i x) ->
  rel g' h' st' (R1 ++ N ++ R2).
Proof.
  intros g h st R1 O R2 g' h' st' N RE C' L LC LI OKN POS ACT FC FI NB NL NI HB HL HI COV ICOV.
  assert (OTH : forall ro, In ro R1 \/ In ro R2 ->
            root_ok g h st ro /\
            (forall o, In o O -> ro_base ro <> ro_base o /\ ro_leaf ro <> ro_leaf o /\
                        (forall j, In j (ro_ids ro) -> ~ In j (ro_ids o)) /\ ro_it ro <> ro_it o \/ ro_it ro = None /\ ro_base ro <> ro_base o /\ ro_leaf ro <> ro_leaf o /\
                        (forall j, In j (ro_ids ro) -> ~ In j (ro_ids o)))).
  { intros ro I.
    assert (OK : root_ok g h st ro).
    { apply (re_ok _ _ _ _ RE). destruct I; apply in_or_app; [now left|]. right. apply in_or_app. now right. }
    split; [exact OK|]. intros o IO.
    assert (OKo : root_ok g h st o).
    { apply (re_ok _ _ _ _ RE). apply in_or_app. right. apply in_or_app. now left. }
    assert (DIST : forall B (f : root -> B), NoDup (map f (R1 ++ O ++ R2)) -> f ro <> f o).
    { intros B f D E. rewrite !map_app in D. apply NoDup_app in D as [_ [D D1]]. apply NoDup_app in D as [_ [_ D2]].
      destruct I as [I|I].
      - apply (D1 (f ro)); [now apply in_map|]. apply in_or_app. left. rewrite E. now apply in_map.
      - apply (D2 (f o)); [now apply in_map|]. rewrite <- E. now apply in_map. }
    assert (B1 := DIST _ _ (re_base _ _ _ _ RE)). assert (B2 := DIST _ _ (re_leaf _ _ _ _ RE)).
    assert (B3 : forall j, In j (ro_ids ro) -> ~ In j (ro_ids o)).
    { intros j J K. pose proof (re_ids _ _ _ _ RE) as D. rewrite !flat_map_app in D.
      apply NoDup_app in D as [_ [D D1]]. apply NoDup_app in D as [_ [_ D2]].
      destruct I as [I|I].
      - apply (D1 j); [apply in_flat_map; eauto|]. apply in_or_app. left. apply in_flat_map; eauto.
      - apply (D2 j); apply in_flat_map; eauto. }
    destruct (ro_it ro) as [i|] eqn:EI; [left|now right].
    split; [exact B1|]. split; [exact B2|]. split; [exact B3|].
    intro Q. unfold root_ok in OK, OKo. rewrite EI in OK. rewrite <- Q in OKo.
    pose proof (io_h _ _ _ _ _ OK) as Q1. pose proof (io_h _ _ _ _ _ OKo) as Q2.
    rewrite Q1 in Q2. injection Q2 as Q2 _. congruence. }
  assert (OTH' : forall ro, In ro R1 \/ In ro R2 -> root_ok g h st ro /\
            forall o, In o O -> ro_base ro <> ro_base o /\ ro_leaf ro <> ro_leaf o /\ ro_leaf ro <> ro_base o /\
                                (forall s, ro_base ro = RSrc s -> ro_leaf o <> RSrc s) /\
                        (forall j, In j (ro_ids ro) -> ~ In j (ro_ids o)) /\ (forall i, ro_it ro = Some i -> ro_it o <> Some i)).
  { intros ro I. destruct (OTH ro I) as [OK Q]. split; [exact OK|]. intros o IO.
    assert (OKo : root_ok g h st o).
    { apply (re_ok _ _ _ _ RE). apply in_or_app. right. apply in_or_app. now left. }
    assert (Q' : ro_base ro <> ro_base o /\ ro_leaf ro <> ro_leaf o /\
              (forall j, In j (ro_ids ro) -> ~ In j (ro_ids o)) /\ (forall i, ro_it ro = Some i -> ro_it o <> Some i)).
    { destruct (Q o IO) as [[Q1 [Q2 [Q3 Q4]]]|[Q4 [Q1 [Q2 Q3]]]]; repeat split; auto; congruence. }
    destruct Q' as [Q1 [Q2 [Q3 Q4]]]. split; [exact Q1|]. split; [exact Q2|]. split; [|split; [|auto]].
    - destruct (root_leaf _ _ _ _ OKo) as [_ [LB _]]. destruct (root_leaf _ _ _ _ OK) as [_ [_ LR]].
      intro E. destruct (ro_base o) as [s|p c] eqn:EB.
      + apply Q1. rewrite (LR s E). exact E.
      + apply Q2. rewrite (LB p c eq_refl). exact E.
    - intros s E1 E2. destruct (root_leaf _ _ _ _ OKo) as [_ [_ LR]]. apply Q1. rewrite (LR s E2). congruence. }
  assert (OKR : forall ro, In ro R1 \/ In ro R2 -> root_ok g' h' st' ro).
  { intros ro I. destruct (OTH' ro I) as [OK Q].
    eapply root_frame; [exact OK|exact L| | | |].
    - apply POS; [|apply (root_leaf _ _ _ _ OK)]. intros o IO. destruct (Q o IO) as [_ [Q2 [Q3 _]]]. auto.
    - intros s E. destruct (ACT s) as [A|[[o [IO [E'|E']]]|A]]; [exact A| | |].
      + destruct (Q o IO) as [Q1 _]. congruence.
      + destruct (Q o IO) as [_ [_ [_ [Q1 _]]]]. now destruct (Q1 s E).
      + exfalso. assert (ON : on_src g (ro_base ro) (ro_src ro)).
        { unfold root_ok in OK. destruct (ro_it ro) as [i|].
          - apply (io_on _ _ _ _ _ OK).
          - destruct (cl_cur _ _ _ _ OK) as [p [c EB]]. congruence. }
        rewrite E in ON. destruct ON as [ON1 ON2]. lia.
    - intros j J. apply FC.
      + apply (root_ids _ _ _ _ OK). exact J.
      + intros o IO. destruct (Q o IO) as [_ [_ [_ [_ [Q3 _]]]]]. auto.
    - intros i E. apply FI.
      + unfold root_ok in OK. rewrite E in OK. destruct (io_s _ _ _ _ _ OK) as [b [rest [B _]]].
        eapply nth_error_lt; exact B.
      + intros o IO. destruct (Q o IO) as [_ [_ [_ [_ [_ Q4]]]]]. auto. }
  constructor; auto.
  - intros ro I. apply in_app_or in I as [I|I]; [auto|]. apply in_app_or in I as [I|I]; auto.
  - rewrite !map_app. eapply NoDup_mid; [rewrite <- !map_app; apply (re_base _ _ _ _ RE)|exact NB|].
    intros b I J. apply in_map_iff in I as [n [<- I]].
    assert (J' : exists ro, (In ro R1 \/ In ro R2) /\ ro_base ro = ro_base n).
    { destruct J as [J|J]; apply in_map_iff in J as [ro [E J]]; eauto. }
    destruct J' as [ro [J' E]]. destruct (OTH' ro J') as [OK Q].
    destruct (HB n I) as [K|[[p [c K1]] K2]].
    + apply in_map_iff in K as [o [E' IO]]. destruct (Q o IO) as [Q1 _]. congruence.
    + destruct (root_leaf _ _ _ _ OK) as [G [LB _]]. rewrite K1 in E. rewrite (LB p c E) in G. congruence.
  - rewrite !map_app. eapply NoDup_mid; [rewrite <- !map_app; apply (re_leaf _ _ _ _ RE)|exact NL|].
    intros b I J. apply in_map_iff in I as [n [<- I]].
    assert (J' : exists ro, (In ro R1 \/ In ro R2) /\ ro_leaf ro = ro_leaf n).
    { destruct J as [J|J]; apply in_map_iff in J as [ro [E J]]; eauto. }
    destruct J' as [ro [J' E]]. destruct (OTH' ro J') as [OK Q].
    destruct (HL n I) as [K|[K|K]].
    + apply in_map_iff in K as [o [E' IO]]. destruct (Q o IO) as [_ [_ [Q1 _]]]. congruence.
    + apply in_map_iff in K as [o [E' IO]]. destruct (Q o IO) as [_ [Q1 _]]. congruence.
    + destruct (root_leaf _ _ _ _ OK) as [G _]. congruence.
  - rewrite !flat_map_app. eapply NoDup_mid; [rewrite <- !flat_map_app; apply (re_ids _ _ _ _ RE)|exact NI|].
    intros j I J. apply in_flat_map in I as [n [I I']].
    assert (J' : exists ro, (In ro R1 \/ In ro R2) /\ In j (ro_ids ro)).
    { destruct J as [J|J]; apply in_flat_map in J as [ro [E J]]; eauto. }
    destruct J' as [ro [J' E]]. destruct (OTH' ro J') as [OK Q].
    destruct (HI n j I I') as [K|K].
    + apply in_flat_map in K as [o [IO E']]. destruct (Q o IO) as [_ [_ [_ [_ [Q3 _]]]]]. now apply (Q3 j).
    + destruct (root_ids _ _ _ _ OK) as [_ LT]. specialize (LT j E). lia.
  - intros j hd E ND. destruct (COV j hd E ND) as [[Lj NO]|I].
    + destruct (FC j Lj NO) as [_ F2]. rewrite F2 in E.
      destruct (re_cov _ _ _ _ RE j hd E ND) as [ro [I J]]. exists ro. split; [|exact J].
      apply in_app_or in I as [I|I]; [apply in_or_app; now left|].
      apply in_app_or in I as [I|I]; [now destruct (NO ro I)|].
      apply in_or_app. right. apply in_or_app. now right.
    + apply in_flat_map in I as [n [I J]]. exists n. split; [|exact J].
      apply in_or_app. right. apply in_or_app. now left.
  - intros i x E. destruct (ICOV i x E) as [[Li NO]|I].
    + destruct (FI i Li NO) as [F1 F2]. rewrite F2 in E.
      pose proof (re_icov _ _ _ _ RE i x E) as CV. unfold iter_cov in *. destruct (si_state x).
      * destruct CV as [ro [I J]]. exists ro. split; [|exact J].
        apply in_app_or in I as [I|I]; [apply in_or_app; now left|].
        apply in_app_or in I as [I|I]; [now destruct (NO ro I)|].
        apply in_or_app. right. apply in_or_app. now right.
      * destruct CV as [y [Y1 [Y2 [Y3 Y4]]]]. exists y. rewrite F1. repeat split; auto.
        eapply ended_gle; eauto.
      * exact I.
    + unfold iter_cov in *. destruct (si_state x); auto.
      destruct I as [ro [I J]]. exists ro. split; [|exact J].
      apply in_or_app. right. apply in_or_app. now left.
Qed.

(* ------------------------------------------------------------------ *)
(** Operations on a collection. *)

(** The thread that a live collection belongs to. *)
Record place (g : ghost) (h : heap) (st : sstore) (roots R1 : list root) (ro : root) (R2 : list root)
             (V : value) (id : nat) (v : value) (r : rstream) (e : nat) (ids1 ids2 : list nat) : Prop := mkPlace {
  pl_roots : roots = R1 ++ [ro] ++ R2;
  pl_V : ro_v ro = Some V;
  pl_thr : thr g h (st_coll st) V (ro_base ro) (ro_src ro) (ro_end ro) (ro_ids ro) (ro_leaf ro);
  pl_ids : ro_ids ro = ids1 ++ id :: ids2;
  pl_sub : thr g h (st_coll st) v r (ro_src ro) e (id :: ids2) (ro_leaf ro);
  pl_r : r = ro_base ro \/ r = ro_leaf ro;
  pl_lt : forall j, In j ids1 -> j < id;
  pl_nr : forall j, In j ids2 -> nonroot (st_coll st) j;
  pl_top : ro_it ro = None -> ids1 = [] ->
           (exists hd, nth_error (st_coll st) id = Some hd /\ s_root hd = true);
  pl_head : ids1 = [] -> v = V /\ r = ro_base ro /\ e = ro_end ro;
  pl_nri : (ro_it ro <> None \/ ids1 <> []) -> nonroot (st_coll st) id;
  pl_back : forall g' h' t' ids2' l',
       gle g g' ->
       (r = RSrc (ro_src ro) \/ act g' (ro_src ro) = act g (ro_src ro)) ->
       (forall j, In j ids1 -> nth_error (h_coll h') j = nth_error (h_coll h) j /\ nth_error t' j = nth_error (st_coll st) j) ->
       (forall j, In j ids2' -> id < j /\ nonroot t' j) ->
       (nonroot (st_coll st) id -> nonroot t' id) ->
       thr g' h' t' v r (ro_src ro) e (id :: ids2') l' ->
       thr g' h' t' V (ro_base ro) (ro_src ro) (ro_end ro) (ids1 ++ id :: ids2') l'
}.

Lemma thr_node : forall g h t v r s e id ids l, thr g h t v r s e (id :: ids) l ->
  exists x hd rc, node g h t v id x hd r rc s e.
Proof. intros g h t v r s e id ids l T. inversion T; subst; eauto. Qed.

Lemma place_ok : forall g h st roots v c hd,
  rel g h st roots -> s_get (st_coll st) v = Some (c, hd) -> s_state hd <> SDead ->
  exists R1 ro R2 V r e ids1 ids2, place g h st roots R1 ro R2 V c v r e ids1 ids2.
Proof.
  intros g h st roots v c hd RE SG ND.
  assert (E : nth_error (st_coll st) c = Some hd /\
              v = if is_object (s_val hd) then VObj c else VArr c).
  { unfold s_get in SG. destruct v as [s|j|j]; [discriminate| |].
    - destruct (nth_error (st_coll st) j) as [hd'|] eqn:E; [|discriminate].
      destruct (is_array (s_val hd')) eqn:IA; [|discriminate]. injection SG as -> ->.
      split; [exact E|]. destruct (s_val hd); try discriminate. reflexivity.
    - destruct (nth_error (st_coll st) j) as [hd'|] eqn:E; [|discriminate].
      destruct (is_object (s_val hd')) eqn:IA; [|discriminate]. injection SG as -> ->.
      split; [exact E|]. now rewrite IA. }
  destruct E as [E EV].
  destruct (re_cov _ _ _ _ RE c hd E ND) as [ro [I J]].
  destruct (in_split _ _ I) as [R1 [R2 ER]].
  assert (OK := re_ok _ _ _ _ RE ro I).
  assert (X : exists V, ro_v ro = Some V /\
    thr g h (st_coll st) V (ro_base ro) (ro_src ro) (ro_end ro) (ro_ids ro) (ro_leaf ro) /\
    (forall ids1 ids2, ro_ids ro = ids1 ++ c :: ids2 ->
       (forall j, In j ids2 -> nonroot (st_coll st) j) /\
       (ro_it ro = None -> ids1 = [] -> exists hd, nth_error (st_coll st) c = Some hd /\ s_root hd = true) /\
       ((ro_it ro <> None \/ ids1 <> []) -> nonroot (st_coll st) c))).
  { unfold root_ok in OK. destruct (ro_it ro) as [i|] eqn:EI.
    - pose proof (io_thr _ _ _ _ _ OK) as T. destruct (ro_v ro) as [V|].
      + exists V. split; [reflexivity|]. split; [exact T|]. intros ids1 ids2 EQ. split; [|split].
        * intros j K. apply (io_nr _ _ _ _ _ OK). rewrite EQ. apply in_or_app. right. now right.
        * discriminate.
        * intros _. apply (io_nr _ _ _ _ _ OK). rewrite EQ. apply in_or_app. right. now left.
      + destruct T as [_ [T _]]. rewrite T in J. destruct J.
    - destruct (cl_ex _ _ _ _ OK) as [V [id [tl [hd0 [A1 [A2 [A3 [A4 [A5 A6]]]]]]]]].
      exists V. split; [exact A1|]. split; [exact A6|]. intros ids1 ids2 EQ. rewrite A2 in EQ.
      split; [|split].
      + intros j K. destruct ids1 as [|a ids1]; cbn [app] in EQ.
        * injection EQ as _ EQ. apply A5. now rewrite EQ.
        * injection EQ as _ EQ. apply A5. rewrite EQ. apply in_or_app. right. now right.
      + intros _ ->. injection EQ as <- _. eauto.
      + intros [Q|Q]; [congruence|]. destruct ids1 as [|a ids1]; [congruence|].
        cbn [app] in EQ. injection EQ as _ EQ. apply A5. rewrite EQ. apply in_or_app. right. now left. }
  destruct X as [V [X1 [X2 X3]]].
  destruct (thr_focus _ _ _ _ _ _ _ _ _ X2 c J) as [v' [r' [e' [ids1 [ids2 [F1 [F2 [F3 [F4 [F5 [F6 [F7 F8]]]]]]]]]]]].
  destruct (X3 ids1 ids2 F1) as [X4 [X5 X6]].
  assert (EV' : v' = v).
  { destruct (thr_node _ _ _ _ _ _ _ _ _ _ F2) as [x [hd' [rc N]]].
    rewrite (n_v _ _ _ _ _ _ _ _ _ _ _ N), (n_kind _ _ _ _ _ _ _ _ _ _ _ N).
    pose proof (n_hd _ _ _ _ _ _ _ _ _ _ _ N) as H. rewrite E in H. injection H as <-. congruence. }
  subst v'.
  exists R1, ro, R2, V, r', e', ids1, ids2. constructor; auto.
  destruct F3 as [->|[p [q F3]]]; [now left|]. right.
  destruct (thr_leaf _ _ _ _ _ _ _ _ _ F2) as [_ [LB _]]. rewrite F3 in *. symmetry. eapply LB. reflexivity.
Qed.

(** Putting a changed thread back, together with new roots. *)
(** The clones among the roots stay. *)
Definition kept (roots roots' : list root) : Prop :=
  forall ro, In ro roots -> ro_it ro = None ->
  exists ro', In ro' roots' /\ ro_it ro' = None /\ ro_base ro' = ro_base ro /\ ro_end ro' = ro_end ro.
Lemma kept_refl : forall roots, kept roots roots.
Proof. intros roots ro I N. exists ro. auto. Qed.
(** What an operation leads to. *)
Definition relg (g g' : ghost) (h' : heap) (st' : sstore) (roots' : list root) : Prop := rel g' h' st' roots' /\ gle g g'.
Definition relx (g : ghost) (roots : list root) (g' : ghost) (h' : heap) (st' : sstore) (roots' : list root) : Prop :=
  relg g g' h' st' roots' /\ kept roots roots'.
Lemma relx_refl : forall g h st roots, rel g h st roots -> relx g roots g h st roots.
Proof. intros g h st roots RE. split; [split; [exact RE|apply gle_refl]|apply kept_refl]. Qed.

Lemma rel_thread : forall g h st roots R1 ro R2 V c v r e ids1 ids2 g' h' t' ids2' l' N,
  rel g h st roots -> place g h st roots R1 ro R2 V c v r e ids1 ids2 ->
  eff g h g' h' [ro_base ro; ro_leaf ro] (c :: ids2) ->
  (r = RSrc (ro_src ro) \/ act g' (ro_src ro) = act g (ro_src ro)) ->
  length t' = length (h_coll h') ->
  (forall j, j < length (st_coll st) -> ~ In j (c :: ids2) -> nth_error t' j = nth_error (st_coll st) j) ->
  (forall hd, nth_error (st_coll st) c = Some hd -> exists hd', nth_error t' c = Some hd' /\ s_root hd' = s_root hd) ->
  thr g' h' t' v r (ro_src ro) e (c :: ids2') l' ->
  (forall j, In j ids2' -> (In j ids2 \/ length (st_coll st) <= j) /\ c < j /\ nonroot t' j) ->
  (l' = ro_leaf ro \/ l' = ro_base ro \/ gpos g l' = None) ->
  (forall n, In n N -> root_ok g' h' (mkSt t' (st_iter st)) n /\ is_cur (ro_base n) /\ gpos g (ro_base n) = None /\
     gpos g (ro_leaf n) = None /\ ro_leaf n <> l' /\ forall j, In j (ro_ids n) -> length (st_coll st) <= j /\ ~ In j ids2') ->
  NoDup (map ro_base N) -> NoDup (map ro_leaf N) -> NoDup (flat_map ro_ids N) ->
  (forall j hd, nth_error t' j = Some hd -> s_state hd <> SDead ->
     (j < length (st_coll st) /\ ~ In j (c :: ids2)) \/ In j (c :: ids2') \/ In j (flat_map ro_ids N)) ->
  exists roots', relx g roots g' h' (mkSt t' (st_iter st)) roots'.
Proof.
  intros g h st roots R1 ro R2 V c v r e ids1 ids2 g' h' t' ids2' l' N RE PL EF AC LT FR RT T' ID2 LF HN NB NL NI COV.
  assert (OKro : root_ok g h st ro).
  { apply (re_ok _ _ _ _ RE). rewrite (pl_roots _ _ _ _ _ _ _ _ _ _ _ _ _ _ PL). apply in_or_app. right. now left. }
  set (ro' := mkRoot (ro_it ro) (Some V) (ro_base ro) (ro_src ro) (ro_end ro) (ids1 ++ c :: ids2') l').
  assert (IDL : length (st_coll st) = length (h_coll h)) by apply (re_lenc _ _ _ _ RE).
  assert (NRc : nonroot (st_coll st) c -> nonroot t' c).
  { intros [hd [A B]]. destruct (RT hd A) as [hd' [A' B']]. exists hd'. split; [exact A'|congruence]. }
  assert (IDS := root_ids _ _ _ _ OKro). rewrite (pl_ids _ _ _ _ _ _ _ _ _ _ _ _ _ _ PL) in IDS.
  destruct IDS as [IND ILT].
  assert (FR1 : forall j, In j ids1 -> nth_error (h_coll h') j = nth_error (h_coll h) j /\ nth_error t' j = nth_error (st_coll st) j).
  { intros j J. assert (Lj : j < length (st_coll st)) by (apply ILT, in_or_app; now left).
    assert (NJ : ~ In j (c :: ids2)).
    { apply NoDup_app in IND as [_ [_ IND]]. now apply IND. }
    split; [apply (ef_coll _ _ _ _ _ _ EF); [lia|exact NJ]|now apply FR]. }
  assert (T2 : thr g' h' t' V (ro_base ro) (ro_src ro) (ro_end ro) (ids1 ++ c :: ids2') l').
  { eapply (pl_back _ _ _ _ _ _ _ _ _ _ _ _ _ _ PL); eauto; [apply (ef_gle _ _ _ _ _ _ EF)|].
    intros j J. apply (ID2 j J). }
  assert (NR1 : forall j, In j ids1 -> nonroot (st_coll st) j -> nonroot t' j).
  { intros j J [hd [A B]]. destruct (FR1 j J) as [_ F2]. exists hd. split; congruence. }
  assert (OK' : root_ok g' h' (mkSt t' (st_iter st)) ro').
  { unfold root_ok in *. cbn [ro' ro_it]. destruct (ro_it ro) as [i|] eqn:EI.
    - destruct OKro as [A B C D F G]. pose proof (ef_gle _ _ _ _ _ _ EF) as L. constructor; cbn [ro' ro_v ro_base ro_src ro_end ro_ids ro_leaf st_coll st_iter].
      + rewrite (ef_iter _ _ _ _ _ _ EF), A, (pl_V _ _ _ _ _ _ _ _ _ _ _ _ _ _ PL). reflexivity.
      + destruct B as [b [rest [B1 [B2 B3]]]]. exists b, rest. rewrite B1, (pl_V _ _ _ _ _ _ _ _ _ _ _ _ _ _ PL).
        split; [reflexivity|]. split; [exact B2|]. now rewrite (full_on _ _ _ _ L D).
      + rewrite (lim_gle _ _ _ _ L D), (full_on _ _ _ _ L D). exact C.
      + eapply on_src_gle; eauto.
      + intros j J. apply in_app_or in J as [J|[<-|J]].
        * apply NR1; [exact J|]. apply F. rewrite (pl_ids _ _ _ _ _ _ _ _ _ _ _ _ _ _ PL). apply in_or_app. now left.
        * apply NRc, F. rewrite (pl_ids _ _ _ _ _ _ _ _ _ _ _ _ _ _ PL). apply in_or_app. right. now left.
        * apply (ID2 j J).
      + exact T2.
    - destruct OKro as [A B]. constructor; [|exact B].
      destruct A as [V' [id [tl [hd [A1 [A2 [A3 [A4 [A5 A6]]]]]]]]]. cbn [ro' ro_v ro_base ro_src ro_end ro_ids ro_leaf st_coll].
      rewrite (pl_ids _ _ _ _ _ _ _ _ _ _ _ _ _ _ PL) in A2.
      destruct ids1 as [|a ids1]; cbn [app] in *.
      + injection A2 as <- <-. destruct (RT hd A3) as [hd' [RT1 RT2]].
        exists V, c, ids2', hd'. split; [reflexivity|]. split; [reflexivity|]. split; [exact RT1|]. split; [congruence|].
        split; [|exact T2]. intros j J. apply (ID2 j J).
      + injection A2 as <- A2. exists V, a, (ids1 ++ c :: ids2'), hd.
        split; [reflexivity|]. split; [reflexivity|]. split; [|split; [exact A4|split; [|exact T2]]].
        * destruct (FR1 a (or_introl eq_refl)) as [_ ->]. exact A3.
        * intros j J. apply in_app_or in J as [J|[<-|J]].
          -- apply NR1; [now right|]. apply A5. rewrite <- A2. apply in_or_app. now left.
          -- apply NRc, A5. rewrite <- A2. apply in_or_app. right. now left.
          -- apply (ID2 j J). }
  exists (R1 ++ (ro' :: N) ++ R2). split; [split; [|apply (ef_gle _ _ _ _ _ _ EF)]|].
  2:{ intros o I NI'. rewrite (pl_roots _ _ _ _ _ _ _ _ _ _ _ _ _ _ PL) in I. apply in_app_or in I as [I|[<-|I]].
      - exists o. split; [apply in_or_app; now left|auto].
      - exists ro'. split; [apply in_or_app; right; now left|auto].
      - exists o. split; [apply in_or_app; right; apply in_or_app; now right|auto]. }
  assert (REs := RE). rewrite (pl_roots _ _ _ _ _ _ _ _ _ _ _ _ _ _ PL) in REs.
  assert (LT' : length (st_coll st) <= length t').
  { rewrite LT, IDL. apply (ef_len _ _ _ _ _ _ EF). }
  eapply rel_update; [exact REs|apply (ef_core _ _ _ _ _ _ EF)|apply (ef_gle _ _ _ _ _ _ EF)|exact LT| | | | | | | | | | | | | |].
  - cbn [st_iter]. rewrite (ef_iter _ _ _ _ _ _ EF). apply (re_leni _ _ _ _ RE).
  - intros n [<-|I]; [exact OK'|]. now apply HN.
  - intros r' NR G. apply (ef_pos _ _ _ _ _ _ EF); [|exact G].
    destruct (NR ro (or_introl eq_refl)) as [Q1 Q2]. intros [Q|[Q|[]]]; congruence.
  - intro s. destruct (ef_act _ _ _ _ _ _ EF s) as [A|[A|[A|[]]]]; [now left| |];
    right; left; exists ro; (split; [now left|]); auto.
  - intros j Lj NO. assert (NJ : ~ In j (c :: ids2)).
    { intro J. apply (NO ro (or_introl eq_refl)). rewrite (pl_ids _ _ _ _ _ _ _ _ _ _ _ _ _ _ PL). apply in_or_app. now right. }
    split; [apply (ef_coll _ _ _ _ _ _ EF); [lia|exact NJ]|now apply FR].
  - intros i Li NO. cbn [st_iter]. rewrite (ef_iter _ _ _ _ _ _ EF). auto.
  - cbn [map]. constructor; [|exact NB]. intro I. apply in_map_iff in I as [n [E I]].
    destruct (HN n I) as [_ [[p [q Q1]] [Q2 _]]]. cbn [ro' ro_base] in E.
    destruct (root_leaf _ _ _ _ OKro) as [G [LB _]]. rewrite E in Q1. rewrite (LB p q Q1) in G. congruence.
  - cbn [map]. constructor; [|exact NL]. intro I. apply in_map_iff in I as [n [E I]].
    destruct (HN n I) as [_ [_ [_ [_ [Q2 _]]]]]. apply Q2. exact E.
  - cbn [flat_map]. apply NoDup_app. split; [|split; [exact NI|]].
    + exact (proj1 (thr_ids _ _ _ _ _ _ _ _ _ T2)).
    + cbn [ro' ro_ids]. intros j J K. apply in_flat_map in K as [n [I K]].
      destruct (HN n I) as [_ [_ [_ [_ [_ Q]]]]]. destruct (Q j K) as [Q1 Q2].
      apply in_app_or in J as [J|[<-|J]].
      * specialize (ILT j (in_or_app _ _ _ (or_introl J))). lia.
      * specialize (ILT c). assert (c < length (st_coll st)); [|lia]. apply ILT, in_or_app. right. now left.
      * auto.
  - intros n [<-|I]; [left; cbn [map]; now left|]. right. destruct (HN n I) as [_ [Q1 [Q2 _]]]. auto.
  - intros n [<-|I]; cbn [map ro' ro_leaf].
    + destruct LF as [->|[->|LF]]; [right; left; now left|left; now left|auto].
    + right. right. destruct (HN n I) as [_ [_ [_ [Q _]]]]. exact Q.
  - intros n j [<-|I] J.
    + cbn [ro' ro_ids] in J. cbn [flat_map]. rewrite app_nil_r, (pl_ids _ _ _ _ _ _ _ _ _ _ _ _ _ _ PL).
      apply in_app_or in J as [J|[<-|J]].
      * left. apply in_or_app. now left.
      * left. apply in_or_app. right. now left.
      * destruct (ID2 j J) as [[Q|Q] _]; [left|now right]. apply in_or_app. right. now right.
    + right. destruct (HN n I) as [_ [_ [_ [_ [_ Q]]]]]. apply (Q j J).
  - cbn [st_coll]. intros j hd E ND. cbn [flat_map ro' ro_ids].
    destruct (COV j hd E ND) as [[Q1 Q2]|[Q|Q]].
    + destruct (in_dec Nat.eq_dec j ids1) as [J|J].
      * right. apply in_or_app. left. apply in_or_app. now left.
      * left. split; [exact Q1|]. intros o [<-|[]]. rewrite (pl_ids _ _ _ _ _ _ _ _ _ _ _ _ _ _ PL).
        intro K. apply in_app_or in K as [K|K]; auto.
    + right. apply in_or_app. left. apply in_or_app. now right.
    + right. apply in_or_app. now right.
  - cbn [st_iter]. intros i x E.
    destruct (ro_it ro) as [i0|] eqn:EI.
    + destruct (Nat.eq_dec i i0) as [->|NE].
      * right. unfold root_ok in OKro. rewrite EI in OKro.
        destruct (io_s _ _ _ _ _ OKro) as [b [rest [B _]]]. rewrite B in E. injection E as <-.
        unfold iter_cov. cbn [si_state]. exists ro'. split; [now left|]. reflexivity.
      * left. split; [eapply nth_error_lt; exact E|]. intros o [<-|[]]. congruence.
    + left. split; [eapply nth_error_lt; exact E|]. intros o [<-|[]]. congruence.
Qed.

End Grow.

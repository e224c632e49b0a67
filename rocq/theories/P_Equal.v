(** C29 and C30: Equal and SafeValuesEqual. *)
From Coq Require Import List ZArith NArith Arith Bool Lia Permutation.
From Verif Require Import Base Tokens JsonSpec EncSpec GoLiteral ScalarModel ScalarSpec P_Scalar CursorModel
  IterModel IterSpec IterCore IterThr IterRel IterSound ScriptSpec ScriptProofs IterLib EqualModel EqualSpec EqualProofs.

(** The values the property is about: scalars that have a JSON value, numbers
    in the range of float64 (without which Scalar.Equal panics, see C31); the
    keys of an object are different. *)
Definition distinct (l : list (scalar * jval)) : Prop :=
  ForallOrdPairs (fun a b => ~ same_scalar_value (fst a) (fst b)) l.

Inductive comparable : jval -> Prop :=
| cm_scalar : forall s, decent s -> comparable (JScalar s)
| cm_array : forall l e, comparable_items l -> comparable (JArr l e)
| cm_object : forall l e, comparable_members l -> distinct l -> comparable (JObj l e)
with comparable_items : list jval -> Prop :=
| ci_nil : comparable_items []
| ci_cons : forall x l, comparable x -> comparable_items l -> comparable_items (x :: l)
with comparable_members : list (scalar * jval) -> Prop :=
| cb_nil : comparable_members []
| cb_cons : forall k x l, decent k -> comparable x -> comparable_members l -> comparable_members ((k, x) :: l).

Lemma cb_in : forall l k x, comparable_members l -> In (k, x) l -> decent k /\ comparable x.
Proof.
  intros l k x C. induction C as [|k0 x0 l D C0 C IH]; intro I; [destruct I|].
  destruct I as [I|I]; [injection I as <- <-; auto|auto].
Qed.
Lemma cb_all : forall l, (forall k x, In (k, x) l -> decent k /\ comparable x) -> comparable_members l.
Proof.
  induction l as [|[k x] l IH]; intro H; constructor.
  - apply (H k x). now left.
  - apply (H k x). now left.
  - apply IH. intros. apply H. now right.
Qed.
Lemma cb_perm : forall l l', Permutation l l' -> comparable_members l -> comparable_members l'.
Proof.
  intros l l' P C. apply cb_all. intros k x I. eapply cb_in; [exact C|]. eapply Permutation_in; [apply Permutation_sym; exact P|exact I].
Qed.

Lemma eq_total : forall s t, decent s -> decent t -> exists b, scalar_equal s t = Ok b.
Proof. intros s t DS DT. destruct (C31_equal_by_value s t DS DT) as [b [E _]]. eauto. Qed.
Lemma eq_value : forall s t, decent s -> decent t -> scalar_equal s t = Ok true <-> same_scalar_value s t.
Proof.
  intros s t DS DT. destruct (C31_equal_by_value s t DS DT) as [b [-> B]]. rewrite <- B. split; [now injection 1|now intros ->].
Qed.

(** With what Scalar.Equal says in place of the specification. *)
Definition says (s t : scalar) : Prop := scalar_equal s t = Ok true.
Definition distinct_eq (l : list (scalar * jval)) : Prop := ForallOrdPairs (fun a b => ~ says (fst a) (fst b)) l.
Lemma distinct_says : forall l, comparable_members l -> distinct l -> distinct_eq l.
Proof.
  intros l C D. induction D as [|a l F D IH]; [constructor|]. inversion C as [|k x ? K CX C']; subst. constructor; [|now apply IH].
  rewrite Forall_forall in *. intros [k' x'] I S. apply (F _ I). cbn [fst] in *. apply eq_value; auto.
  eapply cb_in; eauto.
Qed.
Lemma same_says : forall x1 x2, comparable x1 -> comparable x2 -> same_by says x1 x2 <-> same x1 x2.
Proof.
  intros x1. induction x1 as [s|l e IH|l e IH] using jval_induction; intros x2 C1 C2.
  - inversion C1 as [? D1| |]; subst. split; intro S; inversion S; subst; inversion C2 as [? D2| |]; subst; constructor; apply eq_value; auto.
  - inversion C1 as [|? ? I1|]; subst. clear C1.
    assert (X : forall l2, comparable_items l2 -> same_items says l l2 <-> same_items same_scalar_value l l2).
    { induction I1 as [|x l CX I1 IHl]; intros l2 I2; [split; intro S; inversion S; constructor|].
      inversion IH as [|? ? H1 H2]; subst.
      split; intro S; inversion S; subst; inversion I2; subst; (constructor; [apply H1; auto|apply IHl; auto]). }
    split; intro S; inversion S; subst; inversion C2; subst; constructor; apply X; auto.
  - inversion C1 as [| |? ? I1 _]; subst. clear C1.
    assert (X : forall l2, comparable_members l2 -> same_members says l l2 <-> same_members same_scalar_value l l2).
    { induction I1 as [|k x l K CX I1 IHl]; intros l2 I2; [split; intro S; inversion S; constructor|].
      inversion IH as [|? ? H1 H2]; subst.
      split; intro S; inversion S; subst; inversion I2; subst; (constructor; [apply eq_value; auto|apply H1; auto|apply IHl; auto]). }
    split; intro S; inversion S as [| |? ? ? ? l' P M]; subst; inversion C2 as [| |? ? I2 _]; subst;
      (eapply same_object; [exact P|]); (apply X; [|exact M]); (eapply cb_perm; [apply Permutation_sym; exact P|exact I2]).
Qed.

Lemma eq_trans_sym : forall k a b, decent k -> decent a -> decent b ->
  scalar_equal k a = Ok true -> scalar_equal k b = Ok true -> scalar_equal a b = Ok true.
Proof.
  intros k a b K A B E1 E2. apply (C31_transitive a k b); [apply A|apply K|apply B| |exact E2].
  rewrite C31_symmetric. exact E1.
Qed.

Lemma distinct_perm : forall l l', Permutation l l' -> distinct_eq l -> distinct_eq l'.
Proof.
  assert (SYM : forall a b : scalar * jval, ~ says (fst a) (fst b) -> ~ says (fst b) (fst a))
    by (intros a b H; unfold says; now rewrite C31_symmetric).
  unfold distinct_eq. induction 1 as [|x l l' P IH|x y l|l l' l'' P1 IH1 P2 IH2]; intro D; auto.
  - inversion D as [|? ? F D']; subst. constructor; [|auto]. eapply Permutation_Forall; [exact P|exact F].
  - inversion D as [|? ? F D']; subst. inversion D' as [|? ? F' D'']; subst. inversion F as [|? ? F1 F2]; subst.
    constructor; [constructor; auto|]. constructor; auto.
Qed.

(** In a list with distinct_eq keys, the member with a given key is known. *)
Lemma the_member : forall k a z l b w r, decent k -> comparable_members ((b, w) :: r) -> distinct_eq ((b, w) :: r) ->
  Permutation ((a, z) :: l) ((b, w) :: r) -> scalar_equal k a = Ok true -> scalar_equal k b = Ok true ->
  (a, z) = (b, w) /\ Permutation l r.
Proof.
  intros k a z l b w r K C D P EA EB.
  assert (I : In (a, z) ((b, w) :: r)) by (eapply Permutation_in; [exact P|now left]).
  assert (E : (a, z) = (b, w)).
  { destruct I as [I|I]; [now symmetry|]. exfalso. inversion D as [|? ? F _]; subst. rewrite Forall_forall in F.
    specialize (F (a, z) I). cbn [fst] in F. apply F. apply (eq_trans_sym k b a); auto.
    - eapply (cb_in _ b w C). now left.
    - eapply (cb_in _ a z C). now right. }
  split; [exact E|]. rewrite E in P. eapply Permutation_cons_inv; exact P.
Qed.

Lemma pfind_total : forall k pl, decent k -> comparable_members pl ->
  exists r, pfind k pl = Some r /\
  match r with
  | Some (w, q) => exists k', scalar_equal k k' = Ok true /\ Permutation ((k', w) :: q) pl
  | None => forall k' w, In (k', w) pl -> scalar_equal k k' <> Ok true
  end.
Proof.
  intros k pl K. induction pl as [|[k0 y] pl IH]; intro C; cbn [pfind].
  - exists None. split; [reflexivity|]. intros k' w [].
  - inversion C as [|? ? ? D0 C0 CL]; subst. destruct (eq_total k k0 K D0) as [b E]. rewrite E. cbn [ok].
    destruct b; [exists (Some (y, pl)); split; [reflexivity|]; exists k0; auto|].
    destruct (IH CL) as [r [-> R]]. destruct r as [[w q]|].
    + exists (Some (w, (k0, y) :: q)). split; [reflexivity|]. destruct R as [k' [E' P]]. exists k'. split; [exact E'|].
      eapply perm_trans; [apply perm_swap|]. now constructor.
    + exists None. split; [reflexivity|]. intros k' w [I|I]; [congruence|eauto].
Qed.

Lemma pright_total : forall k, decent k -> forall l2 pl, comparable_members l2 ->
  exists r, pright k l2 pl = Some r /\
  match r with
  | Some (w, l2', q) => exists k', scalar_equal k k' = Ok true /\ Permutation ((k', w) :: l2' ++ q) (l2 ++ pl)
  | None => forall k' w, In (k', w) l2 -> scalar_equal k k' <> Ok true
  end.
Proof.
  intros k K. induction l2 as [|[k0 y] l2 IH]; intros pl C; cbn [pright].
  - exists None. split; [reflexivity|]. intros k' w [].
  - inversion C as [|? ? ? D0 C0 CL]; subst. destruct (eq_total k k0 K D0) as [b E]. rewrite E. cbn [ok].
    destruct b; [eexists; split; [reflexivity|]; exists k0; auto|].
    destruct (IH (pl ++ [(k0, y)]) CL) as [r [-> R]]. exists r. split; [reflexivity|].
    destruct r as [[[w l2'] q]|].
    + destruct R as [k' [E' P]]. exists k'. split; [exact E'|]. eapply perm_trans; [exact P|].
      cbn [app]. rewrite app_assoc. apply Permutation_sym, Permutation_cons_append.
    + intros k' w [I|I]; [congruence|eauto].
Qed.

Lemma same_members_cons : forall k y l1 l, same_members says ((k, y) :: l1) l ->
  exists a z l', l = (a, z) :: l' /\ scalar_equal k a = Ok true /\ same_by says y z /\ same_members says l1 l'.
Proof. intros k y l1 l H. inversion H; subst. eauto 8. Qed.

(** The function computed is the specification. *)
Lemma peq_says : forall n x1 x2, size x1 < n -> comparable x1 -> comparable x2 ->
  exists b, peq n x1 x2 = Some b /\ (b = true <-> same_by says x1 x2).
Proof.
  induction n as [|n IH]; intros x1 x2 SZ C1 C2; [lia|]. cbn [peq].
  assert (NEVER : forall P : Prop, ~ P -> exists b, Some false = Some b /\ (b = true <-> P)).
  { intros P NP. exists false. split; [reflexivity|]. split; [discriminate|now intro]. }
  destruct x1 as [s1|l1 e1|l1 e1], x2 as [s2|l2 e2|l2 e2]; try (apply NEVER; intro S; inversion S).
  - inversion C1 as [? D1| |]; subst. inversion C2 as [? D2| |]; subst. destruct (eq_total s1 s2 D1 D2) as [b E].
    exists b. rewrite E. split; [reflexivity|]. split.
    + intros ->. now constructor.
    + intro S. inversion S; subst. congruence.
  - inversion C1 as [|? ? I1|]; subst. inversion C2 as [|? ? I2|]; subst. cbn [size] in SZ.
    enough (X : exists b, peq_items (peq n) l1 l2 = Some b /\ (b = true <-> same_items says l1 l2)).
    { destruct X as [b [-> B]]. exists b. split; [reflexivity|]. rewrite B. split; [now constructor|intro S; now inversion S]. }
    clear C1 C2. revert l2 I2 SZ. induction I1 as [|x l1 CX I1 IHl]; intros l2 I2 SZ.
    + destruct I2; cbn [peq_items].
      * exists true. split; [reflexivity|]. split; [constructor|auto].
      * apply NEVER. intro S. inversion S.
    + destruct I2 as [|y l2 CY I2]; cbn [peq_items]; [apply NEVER; intro S; inversion S|].
      unfold list_sum in SZ. cbn [map fold_right] in SZ. fold (list_sum (map size l1)) in SZ.
      destruct (IH x y ltac:(lia) CX CY) as [b [-> B]].
      destruct b.
      * destruct (IHl l2 I2 ltac:(lia)) as [b' [-> B']]. exists b'. split; [reflexivity|]. rewrite B'.
        split; [intro; constructor; auto; now apply B|intro S; now inversion S].
      * exists false. split; [reflexivity|]. split; [discriminate|]. intro S. inversion S; subst. now apply B.
  - inversion C1 as [| |? ? I1 D1]; subst. inversion C2 as [| |? ? I2 D2]; subst. cbn [size] in SZ.
    apply distinct_says in D2; [|exact I2].
    enough (X : forall l1, comparable_members l1 -> 2 + list_sum (map (fun kv => size (snd kv)) l1) < S n ->
       forall l2 pl, comparable_members (l2 ++ pl) -> distinct_eq (l2 ++ pl) ->
       exists b, peq_members (peq n) l1 l2 pl = Some b /\ (b = true <-> exists l, Permutation l (l2 ++ pl) /\ same_members says l1 l)).
    { destruct (X l1 I1 SZ l2 []) as [b [-> B]]; try (now rewrite app_nil_r). exists b. split; [reflexivity|]. rewrite B, app_nil_r.
      split; [intros [l [P M]]; econstructor; eauto|intro S; inversion S; subst; eauto]. }
    clear - IH NEVER. induction 1 as [|k x l1 K CX I1 IHl]; intros SZ l2 pl CL DL; cbn [peq_members].
    + eexists. split; [reflexivity|]. split.
      * intro E. apply andb_prop in E as [E1 E2]. destruct pl; [|discriminate]. destruct l2; [|discriminate].
        exists []. split; constructor.
      * intros [l [P M]]. inversion M; subst. apply Permutation_nil in P. apply app_eq_nil in P as [-> ->]. reflexivity.
    + unfold list_sum in SZ. cbn [map fold_right snd] in SZ. fold (list_sum (map (fun kv => size (snd kv)) l1)) in SZ.
      assert (CP : comparable_members pl /\ comparable_members l2).
      { split; apply cb_all; intros a z I; eapply cb_in; try exact CL; apply in_or_app; auto. }
      destruct CP as [CP C2].
      (* a member found in the right object *)
      assert (FOUND : forall k' w l2' q, scalar_equal k k' = Ok true -> Permutation ((k', w) :: l2' ++ q) (l2 ++ pl) ->
        exists b, match peq n x w with Some true => peq_members (peq n) l1 l2' q | r => r end = Some b /\
          (b = true <-> exists l, Permutation l (l2 ++ pl) /\ same_members says ((k, x) :: l1) l)).
      { intros k' w l2' q E P.
        pose proof (cb_perm _ _ (Permutation_sym P) CL) as C'. pose proof (distinct_perm _ _ (Permutation_sym P) DL) as D'.
        inversion C' as [|? ? ? K' CW CR]; subst. inversion D' as [|? ? _ DR]; subst.
        assert (ONLY : forall l, Permutation l (l2 ++ pl) -> same_members says ((k, x) :: l1) l ->
                  exists l', Permutation l' (l2' ++ q) /\ same_by says x w /\ same_members says l1 l').
        { intros l PL M. destruct (same_members_cons _ _ _ _ M) as [a [z [l' [-> [EA [SZ' M']]]]]].
          destruct (the_member k a z l' k' w (l2' ++ q) K C' D') as [EQ PR]; auto.
          - eapply perm_trans; [exact PL|now apply Permutation_sym].
          - injection EQ as -> ->. eauto. }
        destruct (IH x w ltac:(lia) CX CW) as [b [-> B]]. destruct b.
        - destruct (IHl ltac:(lia) l2' q CR DR) as [b' [-> B']]. exists b'. split; [reflexivity|]. rewrite B'. split.
          + intros [l [PL M]]. exists ((k', w) :: l). split; [eapply perm_trans; [constructor; exact PL|exact P]|].
            constructor; auto. now apply B.
          + intros [l [PL M]]. destruct (ONLY l PL M) as [l' [PL' [_ M']]]. eauto.
        - exists false. split; [reflexivity|]. split; [discriminate|]. intros [l [PL M]].
          destruct (ONLY l PL M) as [l' [_ [SW _]]]. now apply B. }
      destruct (pfind_total k pl K CP) as [r [-> R]]. destruct r as [[w q]|].
      * destruct R as [k' [E P]]. apply (FOUND k' w l2 q E).
        eapply perm_trans; [apply Permutation_middle|]. now apply Permutation_app_head.
      * destruct (pright_total k K l2 pl C2) as [r2 [-> R2]]. destruct r2 as [[[w l2'] q]|].
        -- destruct R2 as [k' [E P]]. exact (FOUND k' w l2' q E P).
        -- apply NEVER. intros [l [PL M]]. destruct (same_members_cons _ _ _ _ M) as [a [z [l' [-> [EA _]]]]].
           assert (I : In (a, z) (l2 ++ pl)) by (eapply Permutation_in; [exact PL|now left]).
           apply in_app_or in I as [I|I]; [exact (R2 a z I EA)|exact (R a z I EA)].
Qed.

Lemma peq_decides : forall n x1 x2, size x1 < n -> comparable x1 -> comparable x2 ->
  exists b, peq n x1 x2 = Some b /\ (b = true <-> same x1 x2).
Proof.
  intros n x1 x2 SZ C1 C2. destruct (peq_says n x1 x2 SZ C1 C2) as [b [E B]]. exists b. split; [exact E|].
  rewrite B. now apply same_says.
Qed.

(* ------------------------------------------------------------------ *)
(** A program that compares the first two values of a stream, having cloned the
    first, and then goes on to run any script on the stream and on the clone.
    [safe]: with SafeValuesEqual. *)
Open Scope iprog_scope.
Definition compare (safe : bool) (n : nat) (l : list (nat * cmd)) : iprog (bool * list out) :=
  IIterAdvance 0 (fun _ => IIterCurrent 0 (fun o1 => ilet v1 <- need o1 ;
  IClone v1 (fun c1 =>
  IIterAdvance 0 (fun _ => IIterCurrent 0 (fun o2 => ilet v2 <- need o2 ;
  ilet b <- (if safe then safe_values_equal n (Some c1) (Some v2) else values_equal n (Some c1) (Some v2)) ;
  let cur v := if safe then DUnread v else DPart v in
  ilet os <- run_script [DStream 0 (cur v2); DClone c1 (cur c1)] l ;
  IRet (b, os)))))).

Definition pair_ids (a b : list nat) (i : nat) : list nat := match i with 0 => a | 1 => b | _ => [] end.

Lemma two_readers : forall t it d1 d2 r1 r2 a b, rr t it d1 r1 a -> rr t it d2 r2 b -> streamy d2 = false -> sep a b ->
  readers_rel t it [d1; d2] [r1; r2] (pair_ids a b).
Proof.
  intros t it d1 d2 r1 r2 a b R1 R2 S2 S. constructor.
  - reflexivity.
  - intros [|[|i]] d r D R; cbn in D, R; try (destruct i; discriminate).
    + injection D as <-. injection R as <-. exact R1.
    + injection D as <-. injection R as <-. exact R2.
  - intros [|[|i]] [|[|j]] x LI LJ NE; cbn in LI, LJ; try lia; cbn [pair_ids]; intros I J.
    + exact (S x I J).
    + exact (S x J I).
  - intros [|[|i]] d D ST; cbn in D; [reflexivity| |destruct i; discriminate].
    injection D as <-. congruence.
Qed.

Lemma compare_spec : forall safe n l x1 x2 vs b, size x1 + size x2 < n -> peq n x1 x2 = Some b ->
  exists st', spec_run (compare safe n l) (spec_start (x1 :: x2 :: vs)) =
    Some (st', (b, run_readers [RStream vs (if safe then Unread x2 else Part); RClone (if safe then Unread x1 else Part)] l)).
Proof.
  intros safe n l x1 x2 vs b SZ P.
  unfold compare, spec_start. cbn [spec_run]. unfold si_advance at 1. cbn [st_iter st_coll nth_error si_state kill_opt].
  rewrite alloc_of. cbn [app length obind spec_run upd si_root]. unfold si_current at 1. cbn [st_iter nth_error si_state need ibind spec_run st_coll].
  pose proof (alloc_fresh [] false x1) as F0. cbn [app length] in F0.
  set (t0 := hof x1 false) in *. set (v1 := vof 0 x1) in *.
  destruct (clone_fresh _ _ _ _ F0) as [CL [FC RC]]. rewrite CL. cbn [on_coll obind spec_run st_iter].
  set (t1 := t0 ++ hof x1 true) in *. set (c1 := vof (length t0) x1) in *. set (i1 := iof (length t0) x1) in *.
  unfold si_advance. cbn [st_iter st_coll nth_error si_state].
  (* the first value goes *)
  assert (F0' : fresh t1 v1 x1 (iof 0 x1)).
  { eapply fresh_frame; [exact F0|]. intros j J. apply nth_error_app_l. exact (fresh_lt _ _ _ _ _ F0 J). }
  assert (K : killed t1 (kill_opt 0 t1 (Some v1)) (iof 0 x1)).
  { apply chain_kill_opt; [eapply fresh_chain; exact F0'|]. intros j J. split; [lia|].
    pose proof (iof_in _ _ _ J) as ->. unfold t1, t0.
    destruct x1 as [s|y e|y e]; cbn [iof] in J; [destruct J| |]; eexists; (split; [reflexivity|reflexivity]). }
  set (t2 := kill_opt 0 t1 (Some v1)) in *.
  assert (CH2 := change_killed _ _ _ K).
  assert (FC2 : fresh t2 c1 x1 i1 /\ (forall j, In j i1 -> exists hd, nth_error t2 j = Some hd /\ s_root hd = true)).
  { assert (AG : agree t1 t2 i1).
    { eapply change_agree; [exact CH2|intros j J; exact (fresh_lt _ _ _ _ _ FC J)|]. intros j J I. apply iof_in in J.
      pose proof (fresh_lt _ _ _ _ _ F0 I). lia. }
    split; [eapply fresh_frame; [exact FC|exact AG]|]. intros j J. rewrite AG by exact J. auto. }
  destruct FC2 as [FC2 RC2].
  rewrite alloc_of. cbn [obind spec_run upd si_root]. unfold si_current. cbn [st_iter nth_error si_state need ibind spec_run st_coll].
  pose proof (alloc_fresh t2 false x2) as F2.
  set (t3 := t2 ++ hof x2 false) in *. set (v2 := vof (length t2) x2) in *. set (i2 := iof (length t2) x2) in *.
  assert (CH3 : change t2 t3 []) by apply change_app.
  assert (AG3 : agree t2 t3 i1) by (eapply change_agree; [exact CH3|intros j J; exact (fresh_lt _ _ _ _ _ FC2 J)|intros j _ []]).
  assert (FC3 : fresh t3 c1 x1 i1) by (eapply fresh_frame; eauto).
  assert (RC3 : forall j, In j i1 -> exists hd, nth_error t3 j = Some hd /\ s_root hd = true).
  { intros j J. rewrite AG3 by exact J. auto. }
  assert (SP : sep i1 i2).
  { intros j J I. apply iof_in in I. pose proof (fresh_lt _ _ _ _ _ FC2 J). lia. }
  assert (NR2 : forall j, In j i2 -> nonroot t3 j).
  { intros j J. pose proof (iof_in _ _ _ J) as ->. unfold i2 in J.
    destruct x2 as [s|y e|y e]; cbn [iof] in J; [destruct J| |]; eexists; (split; [apply nth_error_app_last|reflexivity]). }
  set (it := [mkSi false (SIAt vs (Some v2))]).
  rewrite spec_bind. destruct safe; cbn [values_equal safe_values_equal].
  - destruct (safe_ok n (equal n) (peq n) (equal_ok n) x1 x2 b P SZ t3 it c1 v2 i1 i2 FC3 F2) as [t4 [RUN CH4]].
    rewrite RUN. cbn [obind]. rewrite spec_bind.
    assert (AG4 : forall ids, (forall j, In j ids -> j < length t3) -> agree t3 t4 ids)
      by (intros ids L; eapply change_agree; [exact CH4|exact L|intros j _ []]).
    assert (A1 : agree t3 t4 i1) by (apply AG4; intros j J; exact (fresh_lt _ _ _ _ _ FC3 J)).
    assert (A2 : agree t3 t4 i2) by (apply AG4; intros j J; exact (fresh_lt _ _ _ _ _ F2 J)).
    destruct (run_script_ok l t4 it [DStream 0 (DUnread v2); DClone c1 (DUnread c1)] [RStream vs (Unread x2); RClone (Unread x1)] (pair_ids i2 i1))
      as [st' R].
    + apply two_readers; [| |reflexivity|now apply sep_sym].
      * eapply rr_at; [reflexivity|constructor; eapply fresh_frame; eauto|]. intros j J.
        eapply nonroot_agree; [apply A2; exact J|auto].
      * constructor; [constructor; eapply fresh_frame; eauto|]. intros c ids E. rewrite A1 by (rewrite E; now left).
        apply RC3. rewrite E. now left.
    + rewrite R. cbn [obind spec_run]. eauto.
  - destruct (equal_ok n x1 x2 b P SZ t3 it c1 v2 i1 i2 FC3 F2 SP) as [t4 [j1 [j2 [RUN [CH4 [N1 [N2 [C1 [C2 SJ]]]]]]]]].
    rewrite RUN. cbn [obind]. rewrite spec_bind.
    destruct (run_script_ok l t4 it [DStream 0 (DPart v2); DClone c1 (DPart c1)] [RStream vs Part; RClone Part] (pair_ids j2 j1))
      as [st' R].
    + apply two_readers; [| |reflexivity|now apply sep_sym].
      * eapply rr_at; [reflexivity|constructor; exact C2|].
        pose proof (same_head _ _ _ _ _ (fresh_chain _ _ _ _ F2) C2) as HH. intros j J.
        inversion C2 as [s|? c0 hd G S|? c0 hd k0 ch0 rest ids1 G S C0 O]; subst; [destruct J| |].
        -- destruct J as [<-|[]]. destruct i2 as [|z i2]; [destruct HH|]. subst z. eapply nonroot_change; [exact CH4|]. apply NR2. now left.
        -- destruct J as [<-|J]; [|now apply O]. destruct i2 as [|z i2]; [destruct HH|]. subst z.
           eapply nonroot_change; [exact CH4|]. apply NR2. now left.
      * constructor; [constructor; exact C1|]. eapply root_head; [exact FC3|exact RC3|exact CH4|exact C1].
    + rewrite R. cbn [obind spec_run]. eauto.
Qed.

(** C29.  Equal on two values (at the start of any stream, the first cloned)
    says whether they are the same JSON value, without panic; what is left of
    them does not matter afterwards: going on with any script, on the stream and
    the clone, shows what the specification says when both are half read. *)
Theorem C29_equal : forall grow x1 x2 vs l n, comparable x1 -> comparable x2 -> size x1 + size x2 < n ->
  (Z.of_nat (length (stream (x1 :: x2 :: vs))) < maxint)%Z ->
  exists b, (b = true <-> same x1 x2) /\
  exists n0 h', forall f, n0 <= f ->
    irun grow f (compare false n l) (start (stream (x1 :: x2 :: vs)))
    = Ok (h', (b, run_readers [RStream vs Part; RClone Part] l)).
Proof.
  intros grow x1 x2 vs l n C1 C2 SZ L. destruct (peq_decides n x1 x2) as [b [P B]]; auto; [lia|].
  exists b. split; [exact B|]. destruct (compare_spec false n l x1 x2 vs b SZ P) as [st' R].
  exact (iterators_follow_spec grow _ _ _ _ _ L R).
Qed.

(** C30.  SafeValuesEqual says the same, and both values are unread afterwards:
    any script that follows shows what it would show without it. *)
Theorem C30_safe_equal : forall grow x1 x2 vs l n, comparable x1 -> comparable x2 -> size x1 + size x2 < n ->
  (Z.of_nat (length (stream (x1 :: x2 :: vs))) < maxint)%Z ->
  exists b, (b = true <-> same x1 x2) /\
  exists n0 h', forall f, n0 <= f ->
    irun grow f (compare true n l) (start (stream (x1 :: x2 :: vs)))
    = Ok (h', (b, run_readers [RStream vs (Unread x2); RClone (Unread x1)] l)).
Proof.
  intros grow x1 x2 vs l n C1 C2 SZ L. destruct (peq_decides n x1 x2) as [b [P B]]; auto; [lia|].
  exists b. split; [exact B|]. destruct (compare_spec true n l x1 x2 vs b SZ P) as [st' R].
  exact (iterators_follow_spec grow _ _ _ _ _ L R).
Qed.

(** [same] is what one expects of an equality on such values. *)
Theorem C29_same_reflexive : forall x, comparable x -> same x x.
Proof.
  intros x. induction x as [s|l e IH|l e IH] using jval_induction; intro C.
  - inversion C as [? D| |]; subst. constructor. apply eq_value; auto. apply C31_reflexive. apply D.
  - inversion C as [|? ? I|]; subst. constructor. clear C. induction I as [|y l CY I IHl]; [constructor|].
    inversion IH; subst. constructor; auto. now apply H1.
  - inversion C as [| |? ? I D]; subst. apply same_object with (l := l); [apply Permutation_refl|]. clear C D.
    induction I as [|k y l K CY I IHl]; [constructor|]. inversion IH; subst. constructor; auto.
    + apply eq_value; auto. apply C31_reflexive. apply K.
    + now apply H1.
Qed.

(** Non-vacuity: {"a":1,"b":[2]} and {"b":[2.0],"a":1}. *)
Definition str (b : N) : scalar := new_scalar TStr [34; b; 34]%N.
Definition ex1 : jval := JObj [(str 97, JScalar (new_scalar TNum [49%N])); (str 98, JArr [JScalar (new_scalar TNum [50%N])] false)] false.
Definition ex2 : jval := JObj [(str 98, JArr [JScalar (new_scalar TNum [50; 46; 48]%N)] true); (str 97, JScalar (new_scalar TNum [49%N]))] false.
Lemma ex_decent_str : forall b, (32 <= b < 128)%N -> b <> 34%N -> b <> 92%N -> decent (str b).
Proof.
  intros b L N1 N2. split; [|discriminate]. exists [b], [b]. split; [reflexivity|]. split; [|discriminate].
  assert (U : utf8 b = [b]) by (unfold utf8; destruct (N.ltb_spec b 128); [reflexivity|lia]).
  pose proof (dn_char b [] []) as D. rewrite U in D. apply D; auto; [unfold unicode; lia|lia|constructor].
Qed.
Lemma ex_num_value : forall d, (49 <= d <= 57)%N -> num_value [d] false (Z.of_N d - 48) 0.
Proof.
  intros d D. exists [d], [], []. split; [reflexivity|]. split; [right; exists d, []; repeat split; auto; lia|].
  split; [now left|]. split; [now left|]. exists [], 0%Z. split; [now left|]. split; [now left|]. split; reflexivity.
Qed.
Lemma ex_decent_num : forall d, (49 <= d <= 57)%N -> float_of_decimal (mkDec false (Z.of_N d - 48) 0) <> None -> decent (new_scalar TNum [d]).
Proof.
  intros d D G. pose proof (ex_num_value d D) as V. split; [eexists; eauto|]. intros _. eauto 8.
Qed.
Lemma ex_value_2 : num_value [50; 46; 48]%N false 20 (-1).
Proof.
  exists [50%N], [46; 48]%N, []. split; [reflexivity|].
  split; [right; exists 50%N, []; repeat split; auto; lia|].
  split; [right; exists [48%N]; repeat split; [discriminate|repeat constructor; unfold digit; lia]|].
  split; [now left|]. exists [48%N], 0%Z. split; [right; reflexivity|]. split; [now left|]. split; reflexivity.
Qed.
Lemma ex_decent_2 : decent (new_scalar TNum [50; 46; 48]%N).
Proof.
  pose proof ex_value_2 as V. split; [eexists; eauto|]. intros _. exists false, 20%Z, (-1)%Z. split; [exact V|]. vm_compute. discriminate.
Qed.
Lemma ex_distinct : forall x y, ~ same_scalar_value (str 97) (str 98) -> ~ same_scalar_value (str 98) (str 97) ->
  distinct [(str 97, x); (str 98, y)] /\ distinct [(str 98, y); (str 97, x)].
Proof. intros x y H1 H2. split; repeat constructor; assumption. Qed.
Example ex_comparable : comparable ex1 /\ comparable ex2 /\ same ex1 ex2.
Proof.
  assert (D1 : decent (new_scalar TNum [49%N])) by (apply ex_decent_num; [lia|vm_compute; discriminate]).
  assert (D2 : decent (new_scalar TNum [50%N])) by (apply ex_decent_num; [lia|vm_compute; discriminate]).
  assert (A : decent (str 97)) by (apply ex_decent_str; [lia|discriminate|discriminate]).
  assert (B : decent (str 98)) by (apply ex_decent_str; [lia|discriminate|discriminate]).
  pose proof ex_decent_2 as D3.
  assert (N1 : ~ same_scalar_value (str 97) (str 98)) by (intro H; apply eq_value in H; auto; vm_compute in H; discriminate).
  assert (N2 : ~ same_scalar_value (str 98) (str 97)) by (intro H; apply eq_value in H; auto; vm_compute in H; discriminate).
  assert (C1 : comparable ex1).
  { constructor; [|now apply ex_distinct]. repeat (first [exact A|exact B|exact D1|exact D2|exact D3|constructor]). }
  assert (C2 : comparable ex2).
  { constructor; [|now apply ex_distinct]. repeat (first [exact A|exact B|exact D1|exact D2|exact D3|constructor]). }
  split; [exact C1|]. split; [exact C2|]. apply same_says; auto. eapply same_object; [apply perm_swap|]. repeat constructor.
Qed.
Example ex_equal : exists h, irun (fun _ _ => 1%Z) 300 (compare false 20 [(0, CNext)]) (start (stream [ex1; ex2])) = Ok (h, (true, [OEnd])).
Proof. eexists. vm_compute. reflexivity. Qed.
Example ex_safe : exists h, irun (fun _ _ => 1%Z) 300 (compare true 20 [(0, CCopy); (1, CCopy)]) (start (stream [ex1; ex2]))
  = Ok (h, (true, [OToks (toks ex2); OToks (toks ex1)])).
Proof. eexists. vm_compute. reflexivity. Qed.

(** With a repeated key the order of the members matters to Equal, although it
    should not: {"a":1,"a":2} and {"a":2,"a":1} have the same members. *)
Definition dup (a b : N) : jval := JObj [(str 97, JScalar (new_scalar TNum [a])); (str 97, JScalar (new_scalar TNum [b]))] false.
Theorem C29_repeated_keys_refuted : same (dup 49 50) (dup 50 49) /\
  exists h, irun (fun _ _ => 1%Z) 300 (compare false 20 []) (start (stream [dup 49 50; dup 50 49])) = Ok (h, (false, [])).
Proof.
  split; [|eexists; vm_compute; reflexivity].
  assert (A : decent (str 97)) by (apply ex_decent_str; [lia|discriminate|discriminate]).
  assert (D1 : decent (new_scalar TNum [49%N])) by (apply ex_decent_num; [lia|vm_compute; discriminate]).
  assert (D2 : decent (new_scalar TNum [50%N])) by (apply ex_decent_num; [lia|vm_compute; discriminate]).
  eapply same_object; [apply perm_swap|].
  repeat first [apply sm_nil | apply sm_cons; [apply eq_value; auto; reflexivity|constructor; apply eq_value; auto; reflexivity|]].
Qed.

Print Assumptions C29_equal.
Print Assumptions C30_safe_equal.
Print Assumptions C29_same_reflexive.
Print Assumptions C29_repeated_keys_refuted.

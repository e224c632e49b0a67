(** Programs that use a value, on the specification of the iterators. *)
From Coq Require Import List ZArith Arith Bool Lia.
From Verif Require Import Base Tokens JsonSpec EncSpec CursorModel IterModel IterSpec IterCore IterThr IterRel IterSound ScriptSpec ScriptProofs IterLib EqualModel SplitModel.
Open Scope iprog_scope.

(** [uses p x a]: given the value [x], not yet read, the program [p] gives [a];
    it touches no other value, and leaves [x] so that it can be left. *)
Definition uses {A} (p : value -> iprog A) (x : jval) (a : A) : Prop :=
  forall t it v ids, fresh t v x ids ->
  exists t' ids', spec_run (p v) (mkSt t it) = Some (mkSt t' it, a) /\
    change t t' ids /\ newer t None ids ids' /\ chain t' v ids'.

Lemma uses_copy : forall x, uses (fun v => ICopy v (fun ts => IRet ts)) x (toks x).
Proof.
  intros x t it v ids F. destruct x as [s|l e|l e]; cbn [fresh] in F.
  - destruct F as [-> ->]. cbn [spec_run s_copy on_coll obind st_coll st_iter]. exists t, [].
    split; [reflexivity|]. split; [apply change_refl|]. split; [apply newer_refl|]. constructor.
  - destruct F as [c [root [G ->]]]. cbn [spec_run st_coll]. rewrite (s_copy_get _ _ _ _ _ G). cbn [on_coll obind spec_run st_iter].
    exists (put_state t c SDone), [c]. split; [reflexivity|]. split; [apply change_put|]. split; [apply newer_refl|].
    destruct (s_get_nth _ _ _ _ G) as [E _]. eapply ch_leaf.
    + eapply s_get_frame; [exact G|apply put_state_same; exact E|reflexivity].
    + now right.
  - destruct F as [c [root [G ->]]]. cbn [spec_run st_coll]. rewrite (s_copy_get _ _ _ _ _ G). cbn [on_coll obind spec_run st_iter].
    exists (put_state t c SDone), [c]. split; [reflexivity|]. split; [apply change_put|]. split; [apply newer_refl|].
    destruct (s_get_nth _ _ _ _ G) as [E _]. eapply ch_leaf.
    + eapply s_get_frame; [exact G|apply put_state_same; exact E|reflexivity].
    + now right.
Qed.

(** What follows a use. *)
Lemma uses_bind : forall A B (p : value -> iprog A) (k : A -> B) x a, uses p x a ->
  uses (fun v => ilet r <- p v ; IRet (k r)) x (k a).
Proof.
  intros A B p k x a U t it v ids F. destruct (U t it v ids F) as [t' [ids' [R Q]]].
  exists t', ids'. split; [|exact Q]. now rewrite spec_bind, R.
Qed.

(** Using the current item of an opened collection. *)
Lemma use_item : forall A (p : value -> iprog A) y a t it v rest ids k,
  opened t v ((k, y) :: rest) ids -> uses p y a ->
  exists t1 ch t2 ids', s_advance t v = Some (t1, true) /\ s_current t1 v = Some (k, Some ch) /\
    spec_run (p ch) (mkSt t1 it) = Some (mkSt t2 it, a) /\
    change t t2 ids /\ newer t None ids ids' /\ opened t2 v rest ids'.
Proof.
  intros A p y a t it v rest ids k O U.
  destruct (adv_opened _ _ _ _ O) as [t1 [b [AD [CH [-> [c [ch [idc [AT [F [IN [AB NR]]]]]]]]]]]].
  destruct (U t1 it ch idc F) as [t2 [idc' [RUN [CH2 [NW C2]]]]].
  assert (LC := opened_lt _ _ _ _ _ O IN). assert (LE := cg_len _ _ _ CH).
  exists t1, ch, t2, (c :: idc'). split; [exact AD|]. split; [exact (atc_current _ _ _ _ _ _ AT)|]. split; [exact RUN|].
  split; [eapply change_then; [exact CH|exact CH2|]; intros j J; right; exact (AB j J)|].
  assert (B : forall j, In j idc' -> length t <= j).
  { intros j J. destruct (NW j J) as [I|[I _]]; [exact (AB j I)|lia]. }
  split.
  - intros j [<-|J]; [now left|]. right. split; [auto|reflexivity].
  - eapply atc_opened; [|exact C2|].
    + eapply atc_frame; [exact AT|]. apply (cg_same _ _ _ CH2); [lia|]. intro J. specialize (AB _ J). lia.
    + eapply child_order; [exact F|exact NR| | |exact CH2|exact NW|exact C2]; [|lia]. intros j J. specialize (AB j J). lia.
Qed.

Lemma explode_items_ok : forall n l, length l < n -> forall t it v ids,
  opened t v (map (fun x => (None, x)) l) ids ->
  exists t' ids', spec_run (explode_items n v) (mkSt t it) = Some (mkSt t' it, flat_map toks l) /\
    change t t' ids /\ newer t None ids ids' /\ chain t' v ids'.
Proof.
  induction n as [|n IH]; intros l L t it v ids O; [lia|]. cbn [explode_items spec_run st_coll]. destruct l as [|y l]; cbn [map] in O.
  - destruct (adv_opened _ _ _ _ O) as [t1 [b [AD [CH [-> [ids' [O' I]]]]]]]. rewrite AD. cbn [on_coll obind spec_run st_iter flat_map].
    exists t1, ids'. split; [reflexivity|]. split; [exact CH|]. split; [intros j J; left; auto|eapply opened_chain; exact O'].
  - destruct (use_item _ _ _ _ _ it _ _ _ _ O (uses_copy y)) as [t1 [ch [t2 [ids' [AD [CU [RUN [CH [NW O']]]]]]]]].
    rewrite AD. cbn [on_coll obind spec_run st_iter st_coll]. rewrite CU. cbn [need ibind]. cbn [spec_run st_coll] in *.
    destruct (s_copy t1 ch) as [[t3 ts]|]; [|discriminate]. cbn [on_coll obind spec_run st_iter] in *. injection RUN as -> ->.
    rewrite spec_bind. cbn [length] in L. destruct (IH l ltac:(lia) t2 it v ids' O') as [t4 [ids4 [R [CH4 [NW4 C4]]]]].
    rewrite R. cbn [obind spec_run]. exists t4, ids4. split; [reflexivity|]. split.
    + eapply change_then; [exact CH|exact CH4|]. intros j J. destruct (NW j J) as [I|[I _]]; auto.
    + split; [eapply newer_then; eauto|exact C4].
Qed.

(** Transforming a stream, value by value: [i] is an iterator that is not a
    clone. *)
Lemma transform_values_ok : forall (tv : value -> iprog (list token)) (f : jval -> list token) vs,
  (forall x, In x vs -> uses tv x (f x)) ->
  forall n, length vs < n -> exists st', spec_run (transform_values tv n 0) (spec_start vs) = Some (st', flat_map f vs).
Proof.
  intros tv f vs U.
  enough (H : forall n vs t cur ids, (forall x, In x vs -> uses tv x (f x)) -> length vs < n ->
     match cur with Some v => chain t v ids | None => ids = [] end -> (forall j, In j ids -> nonroot t j) ->
     exists st', spec_run (transform_values tv n 0) (mkSt t [mkSi false (SIAt vs cur)]) = Some (st', flat_map f vs)).
  { intros n L. apply (H n vs [] None []); auto. intros j []. }
  clear vs U. induction n as [|n IH]; intros vs t cur ids U L C NR; [lia|].
  assert (K : killed t (kill_opt 0 t cur) ids).
  { destruct cur as [v|]; [apply chain_kill_opt; [exact C|]; intros j J; split; [lia|auto]|].
    subst ids. split; [reflexivity|]. intro j. split; [intros []|auto]. }
  cbn [transform_values spec_run]. unfold si_advance. cbn [st_iter nth_error si_state st_coll si_root upd].
  destruct vs as [|x vs]; [cbn [obind spec_run flat_map]; eauto|].
  rewrite alloc_of. cbn [obind spec_run]. unfold si_current. cbn [st_iter nth_error si_state need ibind].
  set (t1 := kill_opt 0 t cur) in *. pose proof (alloc_fresh t1 false x) as F.
  rewrite spec_bind.
  destruct (U x (or_introl eq_refl) (t1 ++ hof x false) [mkSi false (SIAt vs (Some (vof (length t1) x)))] _ _ F) as [t2 [ids2 [R [CH [NW C2]]]]].
  rewrite R. cbn [obind]. rewrite spec_bind. cbn [length] in L.
  destruct (IH vs t2 (Some (vof (length t1) x)) ids2) as [st' R']; auto.
  - intros y Y. apply U. now right.
  - lia.
  - intros j J. inversion C2 as [s|? c0 hd G S|? c0 hd k0 ch0 rest ids1 G S C0 O]; subst.
    + destruct J.
    + destruct J as [<-|[]]. pose proof (same_head _ _ _ _ _ (fresh_chain _ _ _ _ F) C2) as HH.
      destruct x as [s|l e|l e]; cbn [iof] in HH; [destruct HH| |]; subst c0;
      (eapply nonroot_change; [exact CH|]); eexists; (split; [apply nth_error_app_last|reflexivity]).
    + destruct J as [<-|J]; [|now apply O]. pose proof (same_head _ _ _ _ _ (fresh_chain _ _ _ _ F) C2) as HH.
      destruct x as [s|l e|l e]; cbn [iof] in HH; [destruct HH| |]; subst c0;
      (eapply nonroot_change; [exact CH|]); eexists; (split; [apply nth_error_app_last|reflexivity]).
  - rewrite R'. cbn [obind spec_run flat_map]. eauto.
Qed.

(** [explode] on any value. *)
Definition exploded (x : jval) : list token := match x with JArr l _ => flat_map toks l | _ => toks x end.
Definition width (x : jval) : nat := match x with JArr l _ => length l | _ => 0 end.
Lemma uses_explode : forall n x, width x < n -> uses (explode n) x (exploded x).
Proof.
  intros n x W t it v ids F. destruct x as [s|l e|l e].
  - pose proof F as F0. cbn [fresh] in F. destruct F as [-> ->]. exact (uses_copy _ t it _ _ F0).
  - pose proof (opened_fresh _ _ _ _ F eq_refl) as O. cbn [items] in O. cbn [width] in W.
    cbn [fresh] in F. destruct F as [c [root [G ->]]]. destruct v as [s|j|j]; try discriminate.
    + cbn [explode]. exact (explode_items_ok n l W t it _ _ O).
    + unfold s_get in G. destruct (nth_error t j) as [h|]; [|discriminate]. destruct (s_val h) eqn:SV; try discriminate.
      injection G as -> ->. discriminate.
  - pose proof F as F0. cbn [fresh] in F. destruct F as [c [root [G ->]]]. destruct v as [s|j|j]; try discriminate.
    + unfold s_get in G. destruct (nth_error t j) as [h|]; [|discriminate]. destruct (s_val h) eqn:SV; try discriminate.
      injection G as -> ->. discriminate.
    + exact (uses_copy _ t it _ _ F0).
Qed.

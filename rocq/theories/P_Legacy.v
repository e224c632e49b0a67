(** C48: the deprecated key extractors. *)
From Coq Require Import List ZArith NArith Arith Bool Lia.
From Verif Require Import Base Tokens JsonSpec EncSpec ScalarModel ScalarSpec EqualSpec CursorModel IterModel IterSpec IterCore IterThr IterRel IterSound
  ScriptSpec ScriptProofs IterLib EqualModel SplitModel UseLib LegacyModel ScalarProofs P_Scalar PathBody.
Open Scope iprog_scope.

(** Specification.  The member named by [k] has the name [key] (in UTF-8). *)
Definition names (key : bytes) (k : scalar) : Prop :=
  sc_type k = TStr /\ exists c u, sc_bytes k = 34%N :: c ++ [34%N] /\ denotes c u /\ key = flat_map utf8 u.

(** All the names of members in a value satisfy [P]. *)
Fixpoint every_name (P : scalar -> Prop) (x : jval) : Prop :=
  match x with
  | JScalar _ => True
  | JArr l _ => fold_right (fun y R => every_name P y /\ R) True l
  | JObj l _ => fold_right (fun m R => (P (fst m) /\ every_name P (snd m)) /\ R) True l
  end.

(** [is] decides which names are the key. *)
Section Found.
Variable is : scalar -> bool.
(** The values of the members of an object. *)
Definition member (x : jval) : list jval :=
  match x with
  | JObj l _ => map snd (filter (fun m => is (fst m)) l)
  | _ => []
  end.
(** The values of the members anywhere, but not below such a value. *)
Fixpoint outermost (x : jval) : list jval :=
  match x with
  | JScalar _ => []
  | JArr l _ => flat_map outermost l
  | JObj l _ => flat_map (fun m => if is (fst m) then [snd m] else outermost (snd m)) l
  end.
(** The values of the members anywhere, in document order. *)
Fixpoint anywhere (x : jval) : list jval :=
  match x with
  | JScalar _ => []
  | JArr l _ => flat_map anywhere l
  | JObj l _ => flat_map (fun m => (if is (fst m) then [snd m] else []) ++ anywhere (snd m)) l
  end.
End Found.

(* ------------------------------------------------------------------ *)
Lemma uses_nothing : forall A (a : A) x, uses (fun _ => IRet a) x a.
Proof.
  intros A a x t it v ids F. exists t, ids. cbn [spec_run]. split; [reflexivity|]. split; [apply change_refl|].
  split; [apply newer_refl|eapply fresh_chain; exact F].
Qed.

Lemma each_member_ok : forall body (res : scalar * jval -> list token) n l, length l < n ->
  (forall m, In m l -> uses (body (fst m)) (snd m) (res m)) ->
  forall t it v ids, opened t v (map (fun m => (Some (fst m), snd m)) l) ids ->
  exists t' ids', spec_run (each_member body n v) (mkSt t it) = Some (mkSt t' it, flat_map res l) /\
    change t t' ids /\ newer t None ids ids' /\ chain t' v ids'.
Proof.
  intros body res. induction n as [|n IH]; intros l L U t it v ids O; [lia|]. cbn [each_member spec_run st_coll].
  destruct l as [|[k y] l]; cbn [map fst snd] in O.
  - destruct (adv_opened _ _ _ _ O) as [t1 [b [AD [CH [-> [ids' [O' I]]]]]]]. rewrite AD. cbn [on_coll obind spec_run st_iter flat_map].
    exists t1, ids'. split; [reflexivity|]. split; [exact CH|]. split; [intros j J; left; auto|eapply opened_chain; exact O'].
  - destruct (use_item _ _ _ _ _ it _ _ _ _ O (U (k, y) (or_introl eq_refl))) as [t1 [ch [t2 [ids' [AD [CU [RUN [CH [NW O']]]]]]]]].
    cbn [fst snd] in RUN. rewrite AD. cbn [on_coll obind spec_run st_iter st_coll]. rewrite CU. cbn [need ibind fst snd obind].
    rewrite spec_bind, RUN. cbn [obind]. rewrite spec_bind. cbn [length] in L.
    destruct (IH l ltac:(lia) (fun m J => U m (or_intror J)) t2 it v ids' O') as [t4 [ids4 [R [CH4 [NW4 C4]]]]].
    rewrite R. cbn [obind spec_run flat_map]. exists t4, ids4. split; [reflexivity|]. split.
    + eapply change_then; [exact CH|exact CH4|]. intros j J. destruct (NW j J) as [I|[I _]]; auto.
    + split; [eapply newer_then; eauto|exact C4].
Qed.

Lemma each_item_ok : forall item (res : jval -> list token) n l, length l < n ->
  (forall y, In y l -> uses item y (res y)) ->
  forall t it v ids, opened t v (map (fun x => (None, x)) l) ids ->
  exists t' ids', spec_run (each_item item n v) (mkSt t it) = Some (mkSt t' it, flat_map res l) /\
    change t t' ids /\ newer t None ids ids' /\ chain t' v ids'.
Proof.
  intros item res. induction n as [|n IH]; intros l L U t it v ids O; [lia|]. cbn [each_item spec_run st_coll].
  destruct l as [|y l]; cbn [map] in O.
  - destruct (adv_opened _ _ _ _ O) as [t1 [b [AD [CH [-> [ids' [O' I]]]]]]]. rewrite AD. cbn [on_coll obind spec_run st_iter flat_map].
    exists t1, ids'. split; [reflexivity|]. split; [exact CH|]. split; [intros j J; left; auto|eapply opened_chain; exact O'].
  - destruct (use_item _ _ _ _ _ it _ _ _ _ O (U y (or_introl eq_refl))) as [t1 [ch [t2 [ids' [AD [CU [RUN [CH [NW O']]]]]]]]].
    rewrite AD. cbn [on_coll obind spec_run st_iter st_coll]. rewrite CU. cbn [need ibind snd obind].
    rewrite spec_bind, RUN. cbn [obind]. rewrite spec_bind. cbn [length] in L.
    destruct (IH l ltac:(lia) (fun m J => U m (or_intror J)) t2 it v ids' O') as [t4 [ids4 [R [CH4 [NW4 C4]]]]].
    rewrite R. cbn [obind spec_run flat_map]. exists t4, ids4. split; [reflexivity|]. split.
    + eapply change_then; [exact CH|exact CH4|]. intros j J. destruct (NW j J) as [I|[I _]]; auto.
    + split; [eapply newer_then; eauto|exact C4].
Qed.

Definition decides (key : bytes) (is : scalar -> bool) (k : scalar) : Prop := equals_string k key = Ok (is k).

Lemma decides_ok : forall key is k, readable k -> (is k = true <-> names key k) -> decides key is k.
Proof.
  intros key is k R I. destruct (C31_equals_string k key R) as [b [E H]]. unfold decides. rewrite E. f_equal.
  unfold names in I. destruct b, (is k); auto.
  - symmetry. apply I, H. reflexivity.
  - apply H, I. reflexivity.
Qed.

Lemma uses_test : forall key is k (p q : value -> iprog (list token)) x (a b : list token), decides key is k ->
  uses p x a -> uses q x b ->
  uses (fun c => ilet e <- of_res (equals_string k key) ; if e then p c else q c) x (if is k then a else b).
Proof.
  intros key is k p q x a b D P Q. unfold uses. rewrite D. cbn [of_res ibind]. destruct (is k); assumption.
Qed.

(** A bound for the loops. *)
Fixpoint weight (x : jval) : nat :=
  match x with
  | JScalar _ => 1
  | JArr l _ => S (S (length l + list_sum (map weight l)))
  | JObj l _ => S (S (length l + list_sum (map (fun m => weight (snd m)) l)))
  end.
Lemma sum_in : forall A (f : A -> nat) l a, In a l -> f a <= list_sum (map f l).
Proof.
  intros A f. induction l as [|b l IH]; intros a J; [destruct J|]. change (list_sum (map f (b :: l))) with (f b + list_sum (map f l)).
  destruct J as [->|J]; [lia|]. specialize (IH a J). lia.
Qed.
Lemma every_arr : forall P l, fold_right (fun y R => every_name P y /\ R) True l -> forall y, In y l -> every_name P y.
Proof. intros P. induction l as [|z l IH]; intros H y J; [destruct J|]. destruct H as [H1 H2]. destruct J as [<-|J]; auto. Qed.
Lemma every_obj : forall P l, fold_right (fun (m : scalar * jval) R => (P (fst m) /\ every_name P (snd m)) /\ R) True l ->
  forall m, In m l -> P (fst m) /\ every_name P (snd m).
Proof. intros P. induction l as [|z l IH]; intros H y J; [destruct J|]. destruct H as [H1 H2]. destruct J as [<-|J]; auto. Qed.

Lemma stream_flat : forall A (f : A -> list jval) l, stream (flat_map f l) = flat_map (fun a => stream (f a)) l.
Proof. intros A f. unfold stream. induction l as [|a l IH]; [reflexivity|]. cbn [flat_map]. now rewrite flat_map_app, IH. Qed.

Lemma deep_ok : forall key is x, every_name (decides key is) x -> forall n, weight x <= n ->
  uses (deep_key_extract key n) x (stream (outermost is x)).
Proof.
  intros key is. apply (jval_induction (fun x => every_name (decides key is) x -> forall n, weight x <= n ->
    uses (deep_key_extract key n) x (stream (outermost is x)))).
  - intros s _ n L. destruct n as [|n]; [cbn in L; lia|]. intros t it v ids F.
    pose proof F as F0. cbn [fresh] in F. destruct F as [-> ->]. exact (uses_nothing _ [] (JScalar s) t it _ _ F0).
  - intros l e IH D n L. destruct n as [|n]; [cbn in L; lia|]. intros t it v ids F.
    destruct (fresh_array _ _ _ _ _ F) as [c ->]. pose proof (opened_fresh _ _ _ _ F eq_refl) as O. cbn [items] in O.
    cbn [weight every_name] in *. cbn [deep_key_extract outermost]. rewrite stream_flat.
    apply (each_item_ok (deep_key_extract key n) (fun y => stream (outermost is y)) (S n) l); [lia| |exact O].
    intros y J. rewrite Forall_forall in IH. apply IH; [exact J|now apply (every_arr _ _ D)|].
    pose proof (sum_in _ weight _ _ J). lia.
  - intros l e IH D n L. destruct n as [|n]; [cbn in L; lia|]. intros t it v ids F.
    destruct (fresh_object _ _ _ _ _ F) as [c ->]. pose proof (opened_fresh _ _ _ _ F eq_refl) as O. cbn [items] in O.
    cbn [weight every_name] in *. cbn [deep_key_extract outermost]. rewrite stream_flat.
    apply (each_member_ok (fun k c => ilet e <- of_res (equals_string k key) ; if e then ICopy c (fun ts => IRet ts) else deep_key_extract key n c)
      (fun m => stream (if is (fst m) then [snd m] else outermost is (snd m))) (S n) l); [lia| |exact O].
    intros m J. destruct (every_obj _ _ D m J) as [D1 D2].
    replace (stream (if is (fst m) then [snd m] else outermost is (snd m)))
      with (if is (fst m) then toks (snd m) else stream (outermost is (snd m)))
      by (destruct (is (fst m)); [unfold stream; cbn [flat_map]; now rewrite app_nil_r|reflexivity]).
    apply (uses_test key is (fst m)); [exact D1|apply uses_copy|].
    rewrite Forall_forall in IH. apply IH; [exact J|exact D2|]. pose proof (sum_in _ (fun m => weight (snd m)) _ _ J). cbn beta in *. lia.
Qed.

Lemma key_ok : forall key is x, every_name (decides key is) x -> forall n, weight x <= n ->
  uses (key_extract key n) x (stream (member is x)).
Proof.
  intros key is x D n L t it v ids F. destruct x as [s|l e|l e].
  - pose proof F as F0. cbn [fresh] in F. destruct F as [-> ->]. exact (uses_nothing _ [] (JScalar s) t it _ _ F0).
  - destruct (fresh_array _ _ _ _ _ F) as [c ->]. exact (uses_nothing _ [] (JArr l e) t it _ _ F).
  - destruct (fresh_object _ _ _ _ _ F) as [c ->]. pose proof (opened_fresh _ _ _ _ F eq_refl) as O. cbn [items] in O.
    cbn [weight every_name] in *. cbn [key_extract member].
    replace (stream (map snd (filter (fun m => is (fst m)) l))) with (flat_map (fun m => if is (fst m) then toks (snd m) else []) l).
    2:{ clear. unfold stream. induction l as [|m l IH]; [reflexivity|]. cbn [flat_map filter]. rewrite IH. destruct (is (fst m)); reflexivity. }
    apply (each_member_ok (fun k c => ilet e <- of_res (equals_string k key) ; if e then ICopy c (fun ts => IRet ts) else IRet [])
      (fun m => if is (fst m) then toks (snd m) else []) n l); [lia| |exact O].
    intros m J. destruct (every_obj _ _ D m J) as [D1 D2].
    apply (uses_test key is (fst m)); [exact D1|apply uses_copy|apply uses_nothing].
Qed.

Lemma every_imp : forall (P Q : scalar -> Prop), (forall k, P k -> Q k) -> forall x, every_name P x -> every_name Q x.
Proof.
  intros P Q PQ. apply (jval_induction (fun x => every_name P x -> every_name Q x)); [auto| |].
  - intros l e IH H. cbn [every_name] in *. induction IH as [|y l H1 H2 IH']; [exact Logic.I|]. destruct H as [A B]. split; auto.
  - intros l e IH H. cbn [every_name] in *. induction IH as [|y l H1 H2 IH']; [exact Logic.I|]. destruct H as [[A A'] B]. split; auto.
Qed.

(* ------------------------------------------------------------------ *)
(** C48, KeyExtractor: each object of the stream is replaced by the values of
    its members with that name, whatever escapes the name is written with (and
    all of them, if it is repeated); other values vanish. *)
Theorem C48_key_extractor : forall grow key (is : scalar -> bool) vs,
  (Z.of_nat (length (stream vs)) < maxint)%Z ->
  Forall (every_name (fun k => readable k /\ (is k = true <-> names key k))) vs ->
  exists n0, forall n, n0 <= n -> exists f0 h', forall f, f0 <= f ->
    irun grow f (transform_values (key_extract key n) n 0) (start (stream vs)) = Ok (h', stream (flat_map (member is) vs)).
Proof.
  intros grow key is vs L D. exists (S (length vs + list_sum (map weight vs))). intros n N.
  destruct (transform_values_ok (key_extract key n) (fun x => stream (member is x)) vs) with (n := n) as [st' R]; [|lia|].
  - intros x J. rewrite Forall_forall in D. apply key_ok.
    + eapply every_imp; [|exact (D x J)]. intros k [A B]. now apply decides_ok.
    + pose proof (sum_in _ weight _ _ J). lia.
  - rewrite stream_flat. exact (iterators_follow_spec grow _ _ _ _ _ L R).
Qed.

(** C48, DeepKeyExtractor: the values of the members with that name at any
    depth, in the order of the document, except below such a value.  The full
    property ("all instances") says [anywhere]; it fails, see below. *)
Theorem C48_deep_partial : forall grow key (is : scalar -> bool) vs,
  (Z.of_nat (length (stream vs)) < maxint)%Z ->
  Forall (every_name (fun k => readable k /\ (is k = true <-> names key k))) vs ->
  exists n0, forall n, n0 <= n -> exists f0 h', forall f, f0 <= f ->
    irun grow f (transform_values (deep_key_extract key n) n 0) (start (stream vs)) = Ok (h', stream (flat_map (outermost is) vs)).
Proof.
  intros grow key is vs L D. exists (S (length vs + list_sum (map weight vs))). intros n N.
  destruct (transform_values_ok (deep_key_extract key n) (fun x => stream (outermost is x)) vs) with (n := n) as [st' R]; [|lia|].
  - intros x J. rewrite Forall_forall in D. apply deep_ok.
    + eapply every_imp; [|exact (D x J)]. intros k [A B]. now apply decides_ok.
    + pose proof (sum_in _ weight _ _ J). lia.
  - rewrite stream_flat. exact (iterators_follow_spec grow _ _ _ _ _ L R).
Qed.

(** Where no member with that name is below another one, that is all of them. *)
Fixpoint separate (is : scalar -> bool) (x : jval) : Prop :=
  match x with
  | JScalar _ => True
  | JArr l _ => fold_right (fun y R => separate is y /\ R) True l
  | JObj l _ => fold_right (fun m R => (separate is (snd m) /\ (is (fst m) = true -> anywhere is (snd m) = [])) /\ R) True l
  end.
Lemma outermost_all : forall is x, separate is x -> outermost is x = anywhere is x.
Proof.
  intros is. apply (jval_induction (fun x => separate is x -> outermost is x = anywhere is x)); [auto| |].
  - intros l e IH H. cbn [separate outermost anywhere] in *. induction IH as [|y l H1 H2 IH']; [reflexivity|]. destruct H as [A B].
    cbn [flat_map]. now rewrite H1, IH'.
  - intros l e IH H. cbn [separate outermost anywhere] in *. induction IH as [|m l H1 H2 IH']; [reflexivity|]. destruct H as [[A A'] B].
    cbn [flat_map]. rewrite IH' by exact B. f_equal. destruct (is (fst m)) eqn:E; [rewrite A' by reflexivity; reflexivity|auto].
Qed.

Theorem C48_deep_all_partial : forall grow key (is : scalar -> bool) vs,
  (Z.of_nat (length (stream vs)) < maxint)%Z ->
  Forall (every_name (fun k => readable k /\ (is k = true <-> names key k))) vs ->
  Forall (separate is) vs ->
  exists n0, forall n, n0 <= n -> exists f0 h', forall f, f0 <= f ->
    irun grow f (transform_values (deep_key_extract key n) n 0) (start (stream vs)) = Ok (h', stream (flat_map (anywhere is) vs)).
Proof.
  intros grow key is vs L D S1. replace (flat_map (anywhere is) vs) with (flat_map (outermost is) vs); [now apply C48_deep_partial|].
  clear L D. induction S1 as [|x vs H S1 IH]; [reflexivity|]. cbn [flat_map]. now rewrite outermost_all, IH.
Qed.

(** {"id": {"id": 1}}: the inner one is not found. *)
Definition id_key : scalar := mkScalar [34; 105; 100; 34]%N TStr true true false.
Definition one : jval := JScalar (new_scalar TNum [49%N]).
Theorem C48_deep_all_refuted :
  let x := JObj [(id_key, JObj [(id_key, one)] false)] false in
  exists h, irun (fun _ _ => 1%Z) 100 (transform_values (deep_key_extract [105; 100]%N 10) 10 0) (start (stream [x]))
    = Ok (h, stream [JObj [(id_key, one)] false]) /\
  anywhere (fun _ => true) x = [JObj [(id_key, one)] false; one].
Proof. cbv zeta. eexists. split; vm_compute; reflexivity. Qed.

(** Non-vacuity: the example in the comment of the code,
    [{"id": 5, "parent": {"id": 2}}, {"id": 10}]. *)
Definition parent_key : scalar := mkScalar [34; 112; 34]%N TStr true true false.
Definition is_id (k : scalar) : bool := bytes_eqb (sc_bytes k) [34; 105; 100; 34]%N.
Definition ex_doc : jval :=
  JArr [JObj [(id_key, one); (parent_key, JObj [(id_key, one)] false)] false; JObj [(id_key, one)] false] false.
Lemma id_denotes : denotes [105; 100]%N [105; 100]%N.
Proof.
  apply (dn_char 105 [100]%N [100]%N); try lia; [left; lia|]. apply (dn_char 100 [] []); try lia; [left; lia|constructor].
Qed.
Example C48_ex : every_name (fun k => readable k /\ (is_id k = true <-> names [105; 100]%N k)) ex_doc /\ separate is_id ex_doc /\
  anywhere is_id ex_doc = [one; one; one].
Proof.
  assert (D := id_denotes).
  assert (P : denotes [112]%N [112]%N) by (apply (dn_char 112 [] []); try lia; [left; lia|constructor]).
  assert (R1 : readable id_key) by (exists [105; 100]%N, [105; 100]%N; repeat split; auto; cbn; intuition congruence).
  assert (R2 : readable parent_key) by (exists [112]%N, [112]%N; repeat split; auto; cbn; intuition congruence).
  assert (N1 : is_id id_key = true <-> names [105; 100]%N id_key).
  { split; [|reflexivity]. intros _. split; [reflexivity|]. exists [105; 100]%N, [105; 100]%N. auto. }
  assert (N2 : is_id parent_key = true <-> names [105; 100]%N parent_key).
  { split; [discriminate|]. intros [_ [c [u [B [DC E]]]]]. injection B as B. apply (app_inj_tail [112%N]) in B as [<- _].
    rewrite (denotes_unique _ _ _ DC P) in E. discriminate. }
  split; [|split].
  - unfold ex_doc, one. cbn [every_name fold_right fst snd]. tauto.
  - unfold ex_doc, one. cbn [separate anywhere flat_map fold_right fst snd]. change (is_id id_key) with true. change (is_id parent_key) with false.
    repeat split; intros; reflexivity || discriminate.
  - reflexivity.
Qed.

Print Assumptions C48_key_extractor.
Print Assumptions C48_deep_partial.
Print Assumptions C48_deep_all_partial.
Print Assumptions C48_deep_all_refuted.

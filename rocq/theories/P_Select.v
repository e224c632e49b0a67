(** C32: index and slice selectors. *)
From Coq Require Import List ZArith Arith Bool Lia Sorted.
From Verif Require Import Base SelectModel SelectSpec.
Local Open Scope Z_scope.

Lemma i64_id : forall z, - 2 ^ 63 <= z < 2 ^ 63 -> i64 z = z.
Proof. intros z H. unfold i64. rewrite Z.mod_small; lia. Qed.

(* ------------------------------------------------------------------ *)
(** Increasing lists with the same members are equal. *)
Lemma sorted_eq : forall l1 l2 : list Z, StronglySorted Z.lt l1 -> StronglySorted Z.lt l2 ->
  (forall x, In x l1 <-> In x l2) -> l1 = l2.
Proof.
  induction l1 as [|a l1 IH]; intros l2 S1 S2 M.
  - destruct l2 as [|b l2]; [reflexivity|]. destruct (proj2 (M b) (or_introl eq_refl)).
  - destruct l2 as [|b l2]; [destruct (proj1 (M a) (or_introl eq_refl))|].
    inversion S1 as [|? ? S1' F1]; subst. inversion S2 as [|? ? S2' F2]; subst. rewrite Forall_forall in F1, F2.
    assert (a = b).
    { destruct (proj1 (M a) (or_introl eq_refl)) as [E|I1]; [auto|]. destruct (proj2 (M b) (or_introl eq_refl)) as [E|I2]; [auto|].
      specialize (F1 _ I2). specialize (F2 _ I1). lia. }
    subst b. f_equal. apply IH; auto. intro x. split; intro I.
    + destruct (proj1 (M x) (or_intror I)) as [E|J]; [|exact J]. subst x. specialize (F1 _ I). lia.
    + destruct (proj2 (M x) (or_intror I)) as [E|J]; [|exact J]. subst x. specialize (F2 _ I). lia.
Qed.

Lemma go_up_in : forall k i upper step j, 0 < step -> upper - i <= Z.of_nat k ->
  In j (go_up k i upper step) <-> i <= j < upper /\ (j - i) mod step = 0.
Proof.
  induction k as [|k IH]; intros i upper step j ST K; cbn [go_up].
  - split; [intros []|]. lia.
  - destruct (Z.ltb_spec i upper) as [L|L].
    + cbn [In]. rewrite IH by lia. split.
      * intros [<-|[B M]]; [split; [lia|]; now rewrite Z.sub_diag|]. split; [lia|].
        replace (j - i) with ((j - (i + step)) + 1 * step) by lia. now rewrite Z.mod_add by lia.
      * intros [B M]. destruct (Z.eq_dec i j) as [->|NE]; [now left|]. right.
        assert (step <= j - i).
        { destruct (Z_lt_ge_dec (j - i) step); [|lia]. rewrite Z.mod_small in M by lia. lia. }
        split; [lia|]. replace (j - i) with ((j - (i + step)) + 1 * step) in M by lia. now rewrite Z.mod_add in M by lia.
    + split; [intros []|]. lia.
Qed.
Lemma go_up_sorted : forall k i upper step, 0 < step ->
  StronglySorted Z.lt (go_up k i upper step) /\ forall j, In j (go_up k i upper step) -> i <= j.
Proof.
  induction k as [|k IH]; intros i upper step ST; cbn [go_up]; [split; [constructor|intros j []]|].
  destruct (i <? upper); [|split; [constructor|intros j []]]. destruct (IH (i + step) upper step ST) as [S L]. split.
  - constructor; [exact S|]. apply Forall_forall. intros j J. specialize (L j J). lia.
  - intros j [<-|J]; [lia|]. specialize (L j J). lia.
Qed.
Lemma go_down_up : forall k i lower step, go_down k i lower step = map Z.opp (go_up k (- i) (- lower) (- step)).
Proof.
  induction k as [|k IH]; intros i lower step; cbn [go_down go_up]; [reflexivity|].
  replace (- i <? - lower) with (lower <? i) by (destruct (Z.ltb_spec lower i), (Z.ltb_spec (- i) (- lower)); lia).
  destruct (lower <? i); [|reflexivity]. cbn [map]. rewrite IH. f_equal; [lia|]. f_equal. f_equal. lia.
Qed.

(* ------------------------------------------------------------------ *)
(** The variable negIndex. *)
Definition neg_of (n len j : Z) : Z := if 0 <? n then Z.max (- (n + 1)) (j - len) else min64 + 1.

Lemma look_ok : forall n left neg, 0 < n <= max64 -> - (n + 1) <= neg <= 0 ->
  exists l, look n left neg = (l, Z.max (- (n + 1)) (neg - Z.of_nat left)) /\
    Z.of_nat l = Z.max 0 (Z.of_nat left - (neg + (n + 1))).
Proof.
  intros n left. unfold max64. induction left as [|left IH]; intros neg N B; cbn [look].
  - exists O. split; [f_equal; lia|lia].
  - rewrite i64_id by lia. destruct (Z.leb_spec 0 (neg + n)).
    + rewrite i64_id by lia. destruct (IH (neg - 1) N ltac:(lia)) as [l [-> L]]. exists l. split; [f_equal; lia|lia].
    + exists (S left). split; [f_equal; lia|lia].
Qed.

(** The state when item [j] is considered. *)
Definition look_at (n : Z) (len : nat) (j : Z) (s : nat * Z) : Prop :=
  snd s = neg_of n (Z.of_nat len) j /\
  (0 < n -> Z.of_nat (fst s) = Z.max 0 (Z.of_nat len - (n + 1) - j)).

Lemma look_start : forall n len, 0 <= n <= max64 -> look_at n len 0 (start_look n len (min64 + 1)).
Proof.
  intros n len N. unfold start_look, look_at, neg_of. destruct (Z.ltb_spec 0 n).
  - destruct (look_ok n len 0) as [l [-> L]]; [lia|lia|]. cbn [fst snd]. split; [reflexivity|]. intros _. lia.
  - split; [reflexivity|lia].
Qed.
Lemma look_step : forall n len j s, 0 <= n <= max64 -> 0 <= j < Z.of_nat len -> Z.of_nat len < 2 ^ 62 ->
  look_at n len j s -> look_at n len (j + 1) (step_look n s).
Proof.
  unfold max64. intros n len j [l neg] N J LN [E L]. cbn [fst snd] in *. unfold step_look, look_at, neg_of in *.
  destruct (Z.ltb_spec 0 n) as [P|P]; [|split; [exact E|lia]]. specialize (L P). destruct l as [|l]; cbn [fst snd].
  - split; [|intros _; lia]. rewrite i64_id by lia. lia.
  - split; [|intros _; lia]. lia.
Qed.

(** What a loop selects. *)
Lemma select_from_in : forall p n len, 0 <= n <= max64 -> Z.of_nat len < 2 ^ 62 ->
  (forall a b, 0 <= a < b -> b < Z.of_nat len -> d_nomore (selects_from_index p a (neg_of n (Z.of_nat len) a)) = true ->
     d_yes (selects_from_index p b (neg_of n (Z.of_nat len) b)) = false) ->
  forall k i s, 0 <= i -> i + Z.of_nat k = Z.of_nat len -> look_at n len i s ->
  forall j, In j (select_from p n k i s) <->
    i <= j < Z.of_nat len /\ d_yes (selects_from_index p j (neg_of n (Z.of_nat len) j)) = true.
Proof.
  intros p n len N LN M. induction k as [|k IH]; intros i s I K L j; cbn [select_from].
  - split; [intros []|lia].
  - pose proof (proj1 L) as E. pose proof (proj2 L) as L0. rewrite E. rewrite in_app_iff. rewrite i64_id by lia.
    set (d := selects_from_index p i _) in *.
    assert (Y : In j (if d_yes d then [i] else []) <-> j = i /\ d_yes d = true).
    { destruct (d_yes d); cbn [In]; split; intros H; [destruct H as [<-|[]]; auto|left; symmetry; apply H|destruct H|destruct H; discriminate]. }
    rewrite Y. destruct (d_nomore d) eqn:ND.
    + split; [|].
      * intros [[-> D]|[]]. split; [lia|exact D].
      * intros [B D]. left. destruct (Z.eq_dec j i) as [->|NE]; [auto|]. rewrite (M i j) in D; [discriminate|lia|lia|exact ND].
    + assert (LS : look_at n len (i + 1) (step_look n s)).
      { apply look_step; auto; lia. }
      rewrite (IH (i + 1) (step_look n s) ltac:(lia) ltac:(lia) LS j). split.
      * intros [[-> D]|[B D]]; (split; [lia|exact D]).
      * intros [B D]. destruct (Z.eq_dec j i) as [->|NE]; [now left|right; split; [lia|exact D]].
Qed.
Lemma select_from_sorted : forall p n k i s, 0 <= i -> i + Z.of_nat k < 2 ^ 62 ->
  StronglySorted Z.lt (select_from p n k i s) /\ forall j, In j (select_from p n k i s) -> i <= j.
Proof.
  intros p n. induction k as [|k IH]; intros i s I B; cbn [select_from]; [split; [constructor|intros j []]|].
  rewrite i64_id by lia. destruct (IH (i + 1) (step_look n s) ltac:(lia) ltac:(lia)) as [S L].
  assert (S' : StronglySorted Z.lt (if d_nomore (selects_from_index p i (snd s)) then [] else select_from p n k (i + 1) (step_look n s)))
    by (destruct (d_nomore _); [constructor|exact S]).
  assert (L' : forall j, In j (if d_nomore (selects_from_index p i (snd s)) then [] else select_from p n k (i + 1) (step_look n s)) -> i + 1 <= j)
    by (destruct (d_nomore _); [intros j []|exact L]).
  destruct (d_yes _); cbn [app].
  - split; [constructor; [exact S'|]; apply Forall_forall; intros j J; specialize (L' j J); lia|].
    intros j [<-|J]; [lia|]. specialize (L' j J). lia.
  - split; [exact S'|]. intros j J. specialize (L' j J). lia.
Qed.

(** Bounds the parser accepts (parse_literals.go:16-25). *)
Definition safe (z : Z) : Prop := Z.abs z < 2 ^ 53.
Definition safe_opt (o : option Z) : Prop := match o with Some z => safe z | None => True end.

Definition hits (p : position) (len : nat) (j : Z) : Prop :=
  0 <= j < Z.of_nat len /\ d_yes (selects_from_index p j (neg_of (lookahead p) (Z.of_nat len) j)) = true.

Lemma select_in : forall p len, 0 <= lookahead p <= max64 -> Z.of_nat len < 2 ^ 62 ->
  (forall a b, 0 <= a < b -> b < Z.of_nat len -> d_nomore (selects_from_index p a (neg_of (lookahead p) (Z.of_nat len) a)) = true ->
     d_yes (selects_from_index p b (neg_of (lookahead p) (Z.of_nat len) b)) = false) ->
  let l := select_from p (lookahead p) len 0 (start_look (lookahead p) len (min64 + 1)) in
  StronglySorted Z.lt l /\ forall j, In j l <-> hits p len j.
Proof.
  intros p len N LN M l. split; [apply select_from_sorted; lia|]. intro j.
  apply select_from_in; auto; [lia|]. now apply look_start.
Qed.

(* ------------------------------------------------------------------ *)
Theorem C32_index : forall i len, safe i -> Z.of_nat len < 2 ^ 62 ->
  select (PIndex i) len = rfc_index i (Z.of_nat len).
Proof.
  unfold safe. intros i len S LN.
  assert (LA : lookahead (PIndex i) = Z.max 0 (- i)).
  { cbn [lookahead]. destruct (Z.ltb_spec i 0); [rewrite i64_id; lia|lia]. }
  assert (O : forall j, 0 <= j < Z.of_nat len -> offset i j (neg_of (lookahead (PIndex i)) (Z.of_nat len) j) =
     if i <? 0 then Z.max (i - 1) (j - Z.of_nat len) - i else j - i).
  { intros j J. unfold offset, neg_of. rewrite LA. destruct (Z.ltb_spec i 0).
    - destruct (Z.ltb_spec 0 (Z.max 0 (- i))); [|lia]. rewrite i64_id; lia.
    - rewrite i64_id; lia. }
  unfold select. cbn [reverses].
  destruct (select_in (PIndex i) len) as [SS M].
  - rewrite LA. unfold max64. lia.
  - exact LN.
  - intros a b A B. cbn [selects_from_index]. rewrite !O by lia.
    destruct (Z.ltb_spec i 0); repeat match goal with |- context [?x <? ?y] => destruct (Z.ltb_spec x y) | |- context [?x =? ?y] => destruct (Z.eqb_spec x y) end; cbn; try congruence; lia.
  - apply sorted_eq; [exact SS| |].
    + unfold rfc_index. destruct (_ && _); repeat constructor.
    + intro j. rewrite (M j). unfold hits, rfc_index, normalize. cbn [selects_from_index].
      split.
      * intros [J D]. rewrite O in D by lia.
        destruct (Z.ltb_spec i 0), (Z.leb_spec 0 i); try lia;
        repeat match goal with H : context [?x <? ?y] |- _ => destruct (Z.ltb_spec x y) | H : context [?x =? ?y] |- _ => destruct (Z.eqb_spec x y) end;
        cbn in D; try discriminate;
        match goal with |- In _ (if ?c then _ else _) => replace c with true; [left; lia|symmetry; apply andb_true_intro; lia] end.
      * intro I. destruct (_ && _) eqn:C in I; [|destruct I]. destruct I as [<-|[]]. apply andb_prop in C as [C1 C2].
        apply Z.leb_le in C1. apply Z.ltb_lt in C2. destruct (Z.leb_spec 0 i); (split; [lia|]); rewrite O by lia;
        destruct (Z.ltb_spec i 0); try lia;
        repeat match goal with |- context [?x <? ?y] => destruct (Z.ltb_spec x y) | |- context [?x =? ?y] => destruct (Z.eqb_spec x y) end; cbn; try reflexivity; lia.
Qed.
Print Assumptions C32_index.

(* ------------------------------------------------------------------ *)
(** Slices. *)
Lemma offset_ok : forall n len b j, 0 <= n <= max64 -> 0 <= j < len -> len < 2 ^ 62 -> - 2 ^ 62 <= b <= max64 -> (b < 0 -> - b <= n) ->
  exists o, offset b j (neg_of n len j) = o /\
  (0 <= o <-> 0 <= j - normalize b len) /\ (0 < o <-> 0 < j - normalize b len) /\
  (b < 0 -> - (n + 1) <= j - len -> o = j - normalize b len) /\ (0 <= b -> o = j - normalize b len) /\
  (0 <= j - normalize b len -> o = j - normalize b len).
Proof.
  unfold max64, offset, neg_of, normalize. intros n len b j N J L B NB.
  destruct (Z.ltb_spec b 0), (Z.leb_spec 0 b); try lia.
  - specialize (NB ltac:(lia)). destruct (Z.ltb_spec 0 n); [|lia]. rewrite i64_id by lia. eexists; split; [reflexivity|]. lia.
  - rewrite i64_id by lia. eexists; split; [reflexivity|]. lia.
Qed.

Lemma rem_mod : forall a b, 0 <= a -> 0 < b -> (Z.rem a b =? 0) = (a mod b =? 0).
Proof. intros a b A B. now rewrite Z.rem_mod_nonneg by lia. Qed.

(** Slices with a positive step. *)
Theorem C32_slice_up_partial : forall start stop step len, 0 < step -> safe_opt start -> safe_opt stop -> Z.of_nat len < 2 ^ 62 ->
  (step = 1 \/ match start with Some a => - Z.of_nat len <= a | None => True end) ->
  select (compile_slice start stop step) len = rfc_slice start stop step len.
Proof.
  intros start stop step len ST SA SB LN C. unfold compile_slice.
  destruct (Z.eqb_spec step 0); [lia|]. destruct (Z.ltb_spec step 0); [lia|].
  set (a := or_else start 0). set (b := or_else stop max64).
  assert (RS : rfc_slice start stop step len = go_up len (Z.min (Z.max (normalize a (Z.of_nat len)) 0) (Z.of_nat len))
      (Z.min (Z.max (normalize b (Z.of_nat len)) 0) (Z.of_nat len)) step).
  { unfold rfc_slice, bounds, a, b. destruct (Z.leb_spec 0 step); [|lia]. destruct (Z.ltb_spec 0 step); [|lia].
    f_equal. destruct stop as [b'|]; [reflexivity|]. cbn [or_else default]. unfold normalize, max64.
    destruct (Z.leb_spec 0 (Z.of_nat len)), (Z.leb_spec 0 (2 ^ 63 - 1)); lia. }
  assert (A : Z.abs a < 2 ^ 53) by (unfold a; destruct start; cbn in *; [exact SA|lia]).
  assert (B : - 2 ^ 53 < b <= max64) by (unfold b, max64; destruct stop as [b'|]; cbn in *; [unfold safe in SB; lia|unfold max64; lia]).
  assert (C' : step = 1 \/ - Z.of_nat len <= a) by (unfold a; destruct C as [C|C]; [now left|right; destruct start; cbn; [exact C|lia]]).
  rewrite RS. clear RS C SA SB. clearbody a b. clear start stop. unfold max64 in B.
  destruct ((0 <=? b) && (b <=? a) || (a <? 0) && (b <=? a)) eqn:E.
  - assert (EMP : go_up len (Z.min (Z.max (normalize a (Z.of_nat len)) 0) (Z.of_nat len)) (Z.min (Z.max (normalize b (Z.of_nat len)) 0) (Z.of_nat len)) step = []).
    { destruct len; [reflexivity|]. cbn [go_up]. destruct (Z.ltb_spec (Z.min (Z.max (normalize a (Z.of_nat (S len))) 0) (Z.of_nat (S len))) (Z.min (Z.max (normalize b (Z.of_nat (S len))) 0) (Z.of_nat (S len)))) as [H0|H0]; [exfalso|reflexivity].
      unfold normalize in H0. apply orb_true_iff in E as [E|E]; apply andb_prop in E as [E1 E2]; apply Z.leb_le in E2;
      [apply Z.leb_le in E1|apply Z.ltb_lt in E1]; destruct (Z.leb_spec 0 a), (Z.leb_spec 0 b); lia. }
    rewrite EMP. unfold select. cbn [reverses lookahead]. destruct len; [reflexivity|]. reflexivity.
  - assert (AB : ~ (0 <= b <= a) /\ ~ (a < 0 /\ b <= a)).
    { apply orb_false_iff in E as [E1 E2]. apply andb_false_iff in E1, E2.
      rewrite !Z.leb_gt in E1. rewrite Z.ltb_ge, Z.leb_gt in E2. lia. }
    set (p := PSlice a b step).
    assert (LA : lookahead p = Z.max 0 (Z.max (- a) (- b))).
    { cbn [p lookahead]. rewrite !i64_id by lia. destruct (Z.ltb_spec (- a) (- b));
      match goal with |- context [0 <? ?x] => destruct (Z.ltb_spec 0 x) end; lia. }
    assert (OA : forall j, 0 <= j < Z.of_nat len -> _) by (intros j J; exact (offset_ok (lookahead p) (Z.of_nat len) a j ltac:(unfold max64; lia) J LN ltac:(unfold max64; lia) ltac:(lia))).
    assert (OB : forall j, 0 <= j < Z.of_nat len -> _) by (intros j J; exact (offset_ok (lookahead p) (Z.of_nat len) b j ltac:(unfold max64; lia) J LN ltac:(unfold max64; lia) ltac:(lia))).
    unfold select. cbn [p reverses]. fold p. destruct (select_in p len) as [SS M].
    + unfold max64. lia.
    + exact LN.
    + intros x y X Y. destruct (OB x ltac:(lia)) as (ox & EX & B1 & _). destruct (OB y ltac:(lia)) as (oy & EY & B2 & _).
      cbn [p selects_from_index]. fold p. rewrite EX, EY. destruct (Z.leb_spec 0 ox) as [K|K].
      * intros _. destruct (Z.leb_spec 0 oy); [reflexivity|]. lia.
      * match goal with |- d_nomore (if ?c then _ else _) = true -> _ => destruct c; intro HH; discriminate HH end.
    + apply sorted_eq; [exact SS|apply go_up_sorted; lia|]. intro j. rewrite (M j), go_up_in by lia. unfold hits.
      cbn [p selects_from_index]. fold p. split.
      * intros [J D]. destruct (OA j J) as (oa & EA & A1 & A2 & A3 & A4 & A5). destruct (OB j J) as (ob & EB & B1 & B2 & B3 & B4 & B5).
        rewrite EA, EB in D. clear M SS OA OB EA EB.
        destruct (Z.leb_spec 0 ob); [cbn in D; discriminate D|].
        destruct (Z.leb_spec 0 oa) as [G|G]; [|cbn in D; discriminate D].
        rewrite rem_mod in D by lia. rewrite A5 in D by lia.
        destruct (Z.eqb_spec ((j - normalize a (Z.of_nat len)) mod step) 0) as [R|R]; [|cbn in D; discriminate D].
        clear D. split; [clear R A3 A4 A5 B3 B4 B5; unfold normalize in *; destruct (Z.leb_spec 0 a), (Z.leb_spec 0 b); lia|].
        destruct C' as [->|C']; [apply Z.mod_1_r|]. etransitivity; [|exact R]. f_equal. assert (GA : normalize a (Z.of_nat len) <= j) by lia. clear - GA C' J. unfold normalize in *. destruct (Z.leb_spec 0 a); lia.
      * intros [G R]. assert (J : 0 <= j < Z.of_nat len) by lia.
        destruct (OA j J) as (oa & EA & A1 & A2 & A3 & A4 & A5). destruct (OB j J) as (ob & EB & B1 & B2 & B3 & B4 & B5). split; [exact J|].
        rewrite EA, EB. clear M SS OA OB EA EB.
        assert (GA : normalize a (Z.of_nat len) <= j) by (clear - G J; unfold normalize in *; destruct (Z.leb_spec 0 a); lia).
        assert (GB : j < normalize b (Z.of_nat len)) by (clear - G J; unfold normalize in *; destruct (Z.leb_spec 0 b); lia).
        destruct (Z.leb_spec 0 ob); [lia|]. destruct (Z.leb_spec 0 oa); [|lia].
        rewrite rem_mod, A5 by lia.
        destruct (Z.eqb_spec ((j - normalize a (Z.of_nat len)) mod step) 0) as [R'|R']; [reflexivity|]. exfalso. apply R'.
        destruct C' as [->|C']; [apply Z.mod_1_r|]. etransitivity; [|exact R]. f_equal. clear - G GA C'. unfold normalize in *. destruct (Z.leb_spec 0 a); lia.
Qed.
Print Assumptions C32_slice_up_partial.

(** Slices with a negative step. *)
Lemma sorted_app : forall l1 l2 : list Z, StronglySorted Z.lt l1 -> StronglySorted Z.lt l2 ->
  (forall x y, In x l1 -> In y l2 -> x < y) -> StronglySorted Z.lt (l1 ++ l2).
Proof.
  induction l1 as [|a l1 IH]; intros l2 S1 S2 B; cbn [app]; [exact S2|]. inversion S1 as [|? ? S1' F1]; subst.
  constructor; [apply IH; auto; intros x y X Y; apply B; [now right|exact Y]|]. rewrite Forall_forall in *. intros x X.
  apply in_app_or in X as [X|X]; [now apply F1|]. apply B; [now left|exact X].
Qed.
Lemma sorted_rev_opp : forall l, StronglySorted Z.lt l -> StronglySorted Z.lt (rev (map Z.opp l)).
Proof.
  induction l as [|a l IH]; intros S; [constructor|]. inversion S as [|? ? S' F]; subst. cbn [map rev]. rewrite Forall_forall in F.
  apply sorted_app; [now apply IH|repeat constructor|]. intros x y X [<-|[]]. rewrite <- in_rev, in_map_iff in X. destruct X as [z [<- Z]].
  specialize (F z Z). lia.
Qed.
Lemma go_down_in : forall k i lower step j, step < 0 -> i - lower <= Z.of_nat k ->
  In j (rev (go_down k i lower step)) <-> lower < j <= i /\ (i - j) mod - step = 0.
Proof.
  intros k i lower step j ST K. rewrite <- in_rev, go_down_up, in_map_iff. split.
  - intros [x [<- X]]. apply go_up_in in X as [B M]; [|lia|lia]. split; [lia|]. etransitivity; [|exact M]. f_equal. lia.
  - intros [B M]. exists (- j). split; [lia|]. apply go_up_in; [lia|lia|]. split; [lia|]. etransitivity; [|exact M]. f_equal. lia.
Qed.
Lemma rem_neg : forall o step, o <= 0 -> step < 0 -> (Z.rem o step =? 0) = ((- o) mod (- step) =? 0).
Proof.
  intros o step O ST. pose proof (Z.rem_opp_opp (- o) (- step) ltac:(lia)) as R. rewrite !Z.opp_involutive in R.
  rewrite R, Z.rem_mod_nonneg by lia. destruct (Z.eqb_spec (- ((- o) mod - step)) 0), (Z.eqb_spec ((- o) mod - step) 0); lia.
Qed.

Theorem C32_slice_down_partial : forall start stop step len, step < 0 -> safe_opt start -> safe_opt stop -> Z.of_nat len < 2 ^ 62 ->
  (step = -1 \/ match start with Some a => a < Z.of_nat len | None => True end) ->
  select (compile_slice start stop step) len = rfc_slice start stop step len.
Proof.
  intros start stop step len ST SA SB LN C. unfold compile_slice.
  destruct (Z.eqb_spec step 0); [lia|]. destruct (Z.ltb_spec step 0); [|lia].
  set (a := or_else start (-1)). set (b := or_else stop min64).
  assert (RS : rfc_slice start stop step len = go_down len (Z.min (Z.max (normalize a (Z.of_nat len)) (-1)) (Z.of_nat len - 1))
      (Z.min (Z.max (normalize b (Z.of_nat len)) (-1)) (Z.of_nat len - 1)) step).
  { unfold rfc_slice, bounds, a, b. destruct (Z.leb_spec 0 step); [lia|]. destruct (Z.ltb_spec 0 step); [lia|]. destruct (Z.ltb_spec step 0); [|lia].
    f_equal; [destruct start as [a'|]; [reflexivity|]|destruct stop as [b'|]; [reflexivity|]]; cbn [or_else default]; unfold normalize, min64;
    repeat match goal with |- context [0 <=? ?x] => destruct (Z.leb_spec 0 x) end; lia. }
  assert (A : Z.abs a < 2 ^ 53) by (unfold a; destruct start; cbn in *; [exact SA|lia]).
  assert (B : b = - 2 ^ 63 \/ Z.abs b < 2 ^ 53) by (unfold b; destruct stop as [b'|]; cbn in *; [right; exact SB|left; reflexivity]).
  assert (C' : step = -1 \/ a < Z.of_nat len) by (unfold a; destruct C as [C|C]; [now left|right; destruct start; cbn; [exact C|lia]]).
  rewrite RS. clear RS C SA SB. clearbody a b. clear start stop.
  destruct ((0 <=? a) && (a <=? b) || (b <? 0) && (a <=? b)) eqn:E.
  - assert (EMP : go_down len (Z.min (Z.max (normalize a (Z.of_nat len)) (-1)) (Z.of_nat len - 1))
      (Z.min (Z.max (normalize b (Z.of_nat len)) (-1)) (Z.of_nat len - 1)) step = []).
    { destruct len; [reflexivity|]. cbn [go_down]. match goal with |- context [?x <? ?y] => destruct (Z.ltb_spec x y) as [H0|H0] end; [exfalso|reflexivity].
      unfold normalize in H0. apply orb_true_iff in E as [E|E]; apply andb_prop in E as [E1 E2]; apply Z.leb_le in E2;
      [apply Z.leb_le in E1|apply Z.ltb_lt in E1]; destruct (Z.leb_spec 0 a), (Z.leb_spec 0 b); lia. }
    rewrite EMP. unfold select. cbn [reverses lookahead]. destruct len; [reflexivity|]. reflexivity.
  - assert (AB : ~ (0 <= a <= b) /\ ~ (b < 0 /\ a <= b)).
    { apply orb_false_iff in E as [E1 E2]. apply andb_false_iff in E1, E2.
      rewrite !Z.leb_gt in E1. rewrite Z.ltb_ge, Z.leb_gt in E2. lia. }
    clear E. set (p := PReverse a b step).
    assert (LA : 0 <= lookahead p <= max64 /\ - a <= lookahead p /\ (Z.abs b < 2 ^ 53 -> - b <= lookahead p) /\
                 (a < 0 -> step < -1 -> (b = - 2 ^ 63 \/ 0 <= b) -> lookahead p = max64)).
    { cbn [p lookahead]. rewrite (i64_id (- a)) by lia. unfold max64.
      assert (IB : i64 (- b) = if b =? - 2 ^ 63 then - 2 ^ 63 else - b).
      { destruct (Z.eqb_spec b (- 2 ^ 63)) as [->|NB]; [reflexivity|]. rewrite i64_id; lia. }
      rewrite IB. clear IB. destruct (Z.eqb_spec b (- 2 ^ 63)) as [E|NB];
      repeat (match goal with |- context [?x <? ?y] => lazymatch y with context [if _ then _ else _] => fail | _ => destruct (Z.ltb_spec x y) end | |- context [?x <=? ?y] => destruct (Z.leb_spec x y) end; cbn [andb]); lia. }
    destruct LA as (L0 & L1 & L2 & L3).
    assert (OA : forall j, 0 <= j < Z.of_nat len -> _) by (intros j J; exact (offset_ok (lookahead p) (Z.of_nat len) a j L0 J LN ltac:(unfold max64; lia) ltac:(lia))).
    assert (OB : forall j, 0 <= j < Z.of_nat len -> exists o, offset b j (neg_of (lookahead p) (Z.of_nat len) j) = o /\ (0 < o <-> 0 < j - normalize b (Z.of_nat len))).
    { intros j J. destruct B as [->|B].
      - eexists; split; [reflexivity|]. unfold offset, normalize, neg_of, min64. unfold max64 in L0. cbn [Z.ltb Z.leb].
        destruct (Z.ltb_spec 0 (lookahead p)); (destruct (Z.ltb_spec (- 2 ^ 63) 0); [|lia]); (destruct (Z.leb_spec 0 (- 2 ^ 63)); [lia|]); rewrite i64_id by lia; lia.
      - destruct (offset_ok (lookahead p) (Z.of_nat len) b j L0 J LN ltac:(unfold max64; lia) ltac:(lia)) as (o & E & _ & O & _). exists o. auto. }
    assert (RM : forall j oa ob, 0 <= j < Z.of_nat len -> offset a j (neg_of (lookahead p) (Z.of_nat len) j) = oa -> oa <= 0 ->
      offset b j (neg_of (lookahead p) (Z.of_nat len) j) = ob -> 0 < ob ->
      (Z.rem oa step =? 0) = ((Z.min (Z.max (normalize a (Z.of_nat len)) (-1)) (Z.of_nat len - 1) - j) mod - step =? 0)).
    { intros j oa ob J EA NA EB NB. destruct (Z.eq_dec step (-1)) as [->|NS].
      - rewrite rem_neg by lia. change (- -1) with 1. now rewrite !Z.mod_1_r.
      - destruct C' as [C'|C']; [lia|]. rewrite rem_neg by lia. f_equal. f_equal.
        destruct (OA j J) as (oa' & EA' & A1 & A2 & A3 & A4 & A5). rewrite EA in EA'. subst oa'.
        destruct (OB j J) as (ob' & EB' & B2). rewrite EB in EB'. subst ob'.
        assert (EQ : oa = j - normalize a (Z.of_nat len)).
        { destruct (Z_lt_le_dec a 0) as [AN|AN]; [|now apply A4]. apply A3; [exact AN|].
          destruct B as [->|B]; [rewrite (L3 AN ltac:(lia) ltac:(lia)); unfold max64; lia|].
          destruct (Z_lt_le_dec b 0) as [BN|BN]; [|rewrite (L3 AN ltac:(lia) ltac:(lia)); unfold max64; lia].
          specialize (L2 B). assert (P : 0 < j - normalize b (Z.of_nat len)) by lia. unfold normalize in P. destruct (Z.leb_spec 0 b); lia. }
        assert (P : 0 <= normalize a (Z.of_nat len) - j) by lia. clear A1 A2 A3 A4 A5. rewrite EQ. unfold normalize in *. destruct (Z.leb_spec 0 a); lia. }
    unfold select. cbn [p reverses]. fold p. destruct (select_in p len) as [SS M].
    + exact L0.
    + exact LN.
    + intros x y X Y. destruct (OA x ltac:(lia)) as (ox & EX & _ & B1 & _). destruct (OA y ltac:(lia)) as (oy & EY & _ & B2 & _).
      cbn [p selects_from_index]. fold p. rewrite EX, EY. destruct (Z.ltb_spec 0 ox) as [K|K].
      * intros _. destruct (Z.ltb_spec 0 oy); [reflexivity|]. lia.
      * match goal with |- d_nomore (if ?c then _ else _) = true -> _ => destruct c; intro HH; discriminate HH end.
    + rewrite <- (rev_involutive (go_down _ _ _ _)). f_equal.
      apply sorted_eq; [exact SS|rewrite go_down_up; apply sorted_rev_opp, go_up_sorted; lia|]. intro j. rewrite (M j), go_down_in by lia. unfold hits.
      cbn [p selects_from_index]. fold p. split.
      * intros [J D]. destruct (OA j J) as (oa & EA & A1 & A2 & _). destruct (OB j J) as (ob & EB & B2).
        rewrite EA, EB in D.
        destruct (Z.ltb_spec 0 oa) as [GA|GA]; [cbn in D; discriminate D|].
        destruct (Z.ltb_spec 0 ob) as [GB|GB]; [|cbn in D; discriminate D].
        rewrite (RM j oa ob J EA GA EB GB) in D.
        match goal with D : context [?x =? 0] |- _ => destruct (Z.eqb_spec x 0) as [R|R]; [|cbn in D; discriminate D] end.
        split; [|exact R]. clear - A2 B2 GA GB J. unfold normalize in *. destruct (Z.leb_spec 0 a), (Z.leb_spec 0 b); lia.
      * intros [G R]. assert (J : 0 <= j < Z.of_nat len) by lia.
        destruct (OA j J) as (oa & EA & A1 & A2 & _). destruct (OB j J) as (ob & EB & B2). split; [exact J|].
        assert (GA : oa <= 0) by (clear - G J A2; unfold normalize in *; destruct (Z.leb_spec 0 a); lia).
        assert (GB : 0 < ob) by (clear - G J B2; unfold normalize in *; destruct (Z.leb_spec 0 b); lia).
        rewrite EA, EB. rewrite (RM j oa ob J EA GA EB GB), R.
        destruct (Z.ltb_spec 0 ob); [|lia]. destruct (Z.ltb_spec 0 oa); [lia|]. reflexivity.
Qed.
Print Assumptions C32_slice_down_partial.

(** A step of zero selects nothing. *)
Theorem C32_slice_zero : forall start stop len, select (compile_slice start stop 0) len = rfc_slice start stop 0 len.
Proof.
  intros. unfold compile_slice, rfc_slice. cbn [Z.eqb]. destruct (bounds _ _ _ _). cbn [Z.ltb Z.compare].
  unfold select. cbn [reverses lookahead]. destruct len; reflexivity.
Qed.
Print Assumptions C32_slice_zero.

(** Without the conditions on the start the selection is not that of the RFC:
    a start before the first item, and one after the last item, shift the items
    taken when the step is not 1 or -1. *)
Theorem C32_slice_refuted :
  (select (compile_slice (Some (-5)) None 2) 4 = [1; 3] /\ rfc_slice (Some (-5)) None 2 4 = [0; 2]) /\
  (select (compile_slice (Some 10) None (-2)) 4 = [2; 0] /\ rfc_slice (Some 10) None (-2) 4 = [3; 1]).
Proof. vm_compute. auto. Qed.
Print Assumptions C32_slice_refuted.

(** The hypotheses hold of real slices, and the results are not trivial. *)
Example C32_index_example : safe (-2) /\ select (PIndex (-2)) 5 = [3] /\ rfc_index (-2) 5 = [3].
Proof. split; [cbv; reflexivity|]. vm_compute. auto. Qed.
Example C32_up_example :
  (0 < 2 /\ safe_opt (Some (-4)) /\ safe_opt (Some (-1)) /\ Z.of_nat 5 < 2 ^ 62 /\ (2 = 1 \/ - Z.of_nat 5 <= -4)) /\
  select (compile_slice (Some (-4)) (Some (-1)) 2) 5 = [1; 3].
Proof. split; [repeat split; cbn; try (cbv; reflexivity); right; lia|]. vm_compute. auto. Qed.
Example C32_down_example :
  (-2 < 0 /\ safe_opt None /\ safe_opt (Some 0) /\ Z.of_nat 5 < 2 ^ 62 /\ (-2 = -1 \/ True)) /\
  select (compile_slice None (Some 0) (-2)) 5 = [4; 2].
Proof. split; [repeat split; cbn; try (cbv; reflexivity); right; exact I|]. vm_compute. auto. Qed.

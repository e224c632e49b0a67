(** What a selector selects does not depend on how far a segment looks ahead, as
    long as it is far enough for the selector. *)
From Coq Require Import List ZArith NArith Arith Bool Lia Sorted.
From Verif Require Import Base SelectModel SelectSpec P_Select.
Local Open Scope Z_scope.

Lemma select_from_look : forall p n n' len, 0 <= n <= max64 -> 0 <= n' <= max64 -> Z.of_nat len < 2 ^ 62 ->
  (forall j, 0 <= j < Z.of_nat len -> selects_from_index p j (neg_of n (Z.of_nat len) j) = selects_from_index p j (neg_of n' (Z.of_nat len) j)) ->
  forall k i s s', 0 <= i -> i + Z.of_nat k = Z.of_nat len -> look_at n len i s -> look_at n' len i s' ->
  select_from p n k i s = select_from p n' k i s'.
Proof.
  intros p n n' len N N' L D. induction k as [|k IH]; intros i s s' I K H H'; [reflexivity|]. cbn [select_from].
  rewrite (proj1 H), (proj1 H'), D by lia. rewrite i64_id by lia.
  rewrite (IH (i + 1) (step_look n s) (step_look n' s')); [reflexivity|lia|lia| |]; apply look_step; auto; lia.
Qed.

(** The positions that the compiler makes. *)
Definition sane (p : position) : Prop :=
  match p with
  | PDefault => True
  | PIndex i => safe i
  | PSlice a b st => Z.abs a < 2 ^ 53 /\ - 2 ^ 53 < b <= max64 /\ 0 < st
  | PReverse a b st => Z.abs a < 2 ^ 53 /\ (b = - 2 ^ 63 \/ Z.abs b < 2 ^ 53) /\ st < 0
  end.

Lemma index_look : forall i, safe i -> lookahead (PIndex i) = Z.max 0 (- i).
Proof. unfold safe. intros i S. cbn [lookahead]. destruct (Z.ltb_spec i 0); [rewrite i64_id; lia|lia]. Qed.
Lemma slice_look : forall a b st, Z.abs a < 2 ^ 53 -> - 2 ^ 53 < b <= max64 -> lookahead (PSlice a b st) = Z.max 0 (Z.max (- a) (- b)).
Proof.
  unfold max64. intros a b st A B. cbn [lookahead]. rewrite !i64_id by lia. destruct (Z.ltb_spec (- a) (- b));
  match goal with |- context [0 <? ?x] => destruct (Z.ltb_spec 0 x) end; lia.
Qed.
Lemma reverse_look : forall a b st, Z.abs a < 2 ^ 53 -> (b = - 2 ^ 63 \/ Z.abs b < 2 ^ 53) -> let n := lookahead (PReverse a b st) in
  0 <= n <= max64 /\ - a <= n /\ (Z.abs b < 2 ^ 53 -> - b <= n) /\ (a < 0 -> st < -1 -> (b = - 2 ^ 63 \/ 0 <= b) -> n = max64).
Proof.
  intros a b st A B. cbn [lookahead]. rewrite (i64_id (- a)) by lia. unfold max64.
  assert (IB : i64 (- b) = if b =? - 2 ^ 63 then - 2 ^ 63 else - b).
  { destruct (Z.eqb_spec b (- 2 ^ 63)) as [->|NB]; [reflexivity|]. rewrite i64_id; lia. }
  rewrite IB. clear IB. destruct (Z.eqb_spec b (- 2 ^ 63)) as [E|NB];
  repeat (match goal with |- context [?x <? ?y] => lazymatch y with context [if _ then _ else _] => fail | _ => destruct (Z.ltb_spec x y) end | |- context [?x <=? ?y] => destruct (Z.leb_spec x y) end; cbn [andb]); lia.
Qed.
Lemma look_range : forall p, sane p -> 0 <= lookahead p <= max64.
Proof.
  intros [|i|a b st|a b st] S; unfold sane in S.
  - cbn. unfold max64. lia.
  - rewrite index_look by exact S. unfold safe, max64 in *. lia.
  - rewrite slice_look by apply S. unfold max64 in *. lia.
  - apply (reverse_look a b st); apply S.
Qed.

(** A far bound below zero. *)
Lemma offset_far : forall n len j, 0 <= n <= max64 -> 0 <= j < len -> len < 2 ^ 62 -> 0 < offset (- 2 ^ 63) j (neg_of n len j).
Proof.
  unfold offset, neg_of, min64, max64. intros n len j N J L. destruct (Z.ltb_spec (- 2 ^ 63) 0); [|lia].
  destruct (Z.ltb_spec 0 n); rewrite i64_id; lia.
Qed.

Ltac facts n len a j H := destruct (offset_ok n len a j) as H; [|lia|lia| | |].
Lemma decide_look : forall p n len, sane p -> lookahead p <= n <= max64 -> Z.of_nat len < 2 ^ 62 ->
  forall j, 0 <= j < Z.of_nat len ->
  selects_from_index p j (neg_of n (Z.of_nat len) j) = selects_from_index p j (neg_of (lookahead p) (Z.of_nat len) j).
Proof.
  intros p n len S N L j J. pose proof (look_range p S) as R. destruct p as [|i|a b st|a b st]; [reflexivity| | |]; unfold sane in S.
  - rewrite (index_look i S) in N, R |- *. unfold safe in S. unfold max64 in *. cbn [selects_from_index]. unfold offset, neg_of.
    destruct (Z.ltb_spec i 0); [|reflexivity].
    destruct (Z.ltb_spec 0 n), (Z.ltb_spec 0 (Z.max 0 (- i))); try lia. rewrite !i64_id by lia.
    repeat match goal with |- context [?x <? ?y] => destruct (Z.ltb_spec x y) | |- context [?x =? ?y] => destruct (Z.eqb_spec x y) end; try reflexivity; lia.
  - destruct S as [A [B ST]]. pose proof (slice_look a b st A B) as E. set (m := lookahead (PSlice a b st)) in *. clearbody m.
    unfold max64 in *. cbn [selects_from_index].
    destruct (offset_ok n (Z.of_nat len) a j) as (oa & -> & A1 & A2 & A3 & A4 & A5); [unfold max64; lia|lia|lia|unfold max64; lia|lia|].
    destruct (offset_ok m (Z.of_nat len) a j) as (oa' & -> & A1' & A2' & A3' & A4' & A5'); [unfold max64; lia|lia|lia|unfold max64; lia|lia|].
    destruct (offset_ok n (Z.of_nat len) b j) as (ob & -> & B1 & _); [unfold max64; lia|lia|lia|unfold max64; lia|lia|].
    destruct (offset_ok m (Z.of_nat len) b j) as (ob' & -> & B1' & _); [unfold max64; lia|lia|lia|unfold max64; lia|lia|].
    destruct (Z.leb_spec 0 ob), (Z.leb_spec 0 ob'); try lia; [reflexivity|].
    destruct (Z.leb_spec 0 oa), (Z.leb_spec 0 oa'); try lia; [|reflexivity]. replace oa' with oa by lia. reflexivity.
  - destruct S as [A [B ST]]. destruct (reverse_look a b st A B) as (R0 & R1 & R2 & R3). set (m := lookahead (PReverse a b st)) in *. clearbody m.
    cbn [selects_from_index].
    destruct (offset_ok n (Z.of_nat len) a j) as (oa & -> & A1 & A2 & A3 & A4 & A5); [lia|lia|lia|unfold max64; lia|lia|].
    destruct (offset_ok m (Z.of_nat len) a j) as (oa' & -> & A1' & A2' & A3' & A4' & A5'); [lia|lia|lia|unfold max64; lia|lia|].
    assert (OB : exists ob ob', offset b j (neg_of n (Z.of_nat len) j) = ob /\ offset b j (neg_of m (Z.of_nat len) j) = ob' /\
       (0 < ob <-> 0 < ob') /\ (b < 0 -> Z.abs b < 2 ^ 53 -> 0 < ob -> b < j - Z.of_nat len)).
    { destruct B as [->|B].
      - pose proof (offset_far n (Z.of_nat len) j ltac:(lia) J L). pose proof (offset_far m (Z.of_nat len) j ltac:(lia) J L).
        do 2 eexists. split; [reflexivity|]. split; [reflexivity|]. split; [lia|]. lia.
      - destruct (offset_ok n (Z.of_nat len) b j) as (ob & EB & _ & B1 & _); [lia|lia|lia|unfold max64; lia|lia|].
        destruct (offset_ok m (Z.of_nat len) b j) as (ob' & EB' & _ & B1' & _); [lia|lia|lia|unfold max64; lia|lia|].
        exists ob, ob'. split; [exact EB|]. split; [exact EB'|]. split; [lia|]. intros BN _ P. apply B1 in P. unfold normalize in P. destruct (Z.leb_spec 0 b); lia. }
    destruct OB as (ob & ob' & -> & -> & OB & OF).
    destruct (Z.ltb_spec 0 oa), (Z.ltb_spec 0 oa'); try lia; [reflexivity|].
    destruct (Z.ltb_spec 0 ob), (Z.ltb_spec 0 ob'); try lia; [|reflexivity]. cbn [andb].
    destruct (Z.eq_dec st (-1)) as [->|NS].
    + rewrite !(Z.rem_opp_r _ 1) by lia. now rewrite !Z.rem_1_r.
    + replace oa' with oa; [reflexivity|]. destruct (Z_lt_le_dec a 0) as [AN|AN]; [|rewrite A4, A4' by lia; reflexivity].
      assert (W : - (m + 1) <= j - Z.of_nat len).
      { destruct (Z_lt_le_dec b 0) as [BN|BN]; [|rewrite R3 by lia; unfold max64; lia].
        destruct B as [->|B]; [rewrite R3 by lia; unfold max64; lia|]. specialize (R2 B). specialize (OF BN B ltac:(lia)). lia. }
      rewrite A3, A3' by lia. reflexivity.
Qed.

Lemma select_look : forall p n len, sane p -> lookahead p <= n <= max64 -> Z.of_nat len < 2 ^ 62 ->
  select_from p n len 0 (start_look n len (min64 + 1)) = select_from p (lookahead p) len 0 (start_look (lookahead p) len (min64 + 1)).
Proof.
  intros p n len S N L. pose proof (look_range p S) as R. apply (select_from_look p n (lookahead p) len); try lia.
  - now apply decide_look.
  - apply look_start. lia.
  - apply look_start. lia.
Qed.

Lemma slice_sane : forall start stop st, safe_opt start -> safe_opt stop -> sane (compile_slice start stop st).
Proof.
  unfold compile_slice. intros start stop st A B. destruct (Z.eqb_spec st 0); [exact I|].
  destruct (Z.ltb_spec st 0).
  - match goal with |- context [if ?c then _ else _] => destruct c end; [exact I|]. cbn [sane]. unfold min64. split; [|split; [|lia]].
    + destruct start; cbn in *; [exact A|lia].
    + destruct stop; cbn in *; [right; exact B|left; reflexivity].
  - match goal with |- context [if ?c then _ else _] => destruct c end; [exact I|]. cbn [sane]. unfold max64, safe_opt, safe in *. split; [|split; [|lia]].
    + destruct start; cbn in *; lia.
    + destruct stop; cbn in *; unfold max64; lia.
Qed.

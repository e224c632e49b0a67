(** Lemmas on the rewriting of patterns. *)
From Coq Require Import List ZArith NArith Arith Bool Lia.
From Verif Require Import Base GoLiteral ScalarSpec IregexpModel IregexpSpec.
Local Open Scope N_scope.

Scheme regexp_ind2 := Induction for regexp Sort Prop
  with branch_ind2 := Induction for branch Sort Prop
  with piece_ind2 := Induction for piece Sort Prop
  with atom_ind2 := Induction for atom Sort Prop.
Combined Scheme regexp_mut from regexp_ind2, branch_ind2, piece_ind2, atom_ind2.

(** The rewriting, without indexes. *)
Fixpoint rewrite_dots (cls esc : bool) (l : list N) : list N :=
  match l with
  | [] => []
  | b :: r =>
      if esc then b :: rewrite_dots cls false r
      else if b =? 92 then b :: rewrite_dots cls true r
      else if b =? 91 then b :: rewrite_dots true false r
      else if b =? 93 then b :: rewrite_dots false false r
      else if b =? 46 then (if cls then [b] else dot_class) ++ rewrite_dots cls false r
      else b :: rewrite_dots cls false r
  end.

Lemma rune_size_tail : forall b r, Forall (fun c => 128 <= c) (firstn (pred (rune_size (b :: r))) r).
Proof.
  intros b r. unfold rune_size. destruct (b <? 128); [constructor|].
  assert (K : forall x lo hi, 128 <= lo -> between lo hi x = true -> 128 <= x).
  { intros x lo hi L H. unfold between in H. apply andb_prop in H. destruct H as [H _]. apply N.leb_le in H. lia. }
  assert (C : forall x, cont x = true -> 128 <= x) by (intros x H; unfold cont in H; apply andb_prop in H; destruct H as [H _]; now apply N.leb_le in H).
  unfold rune_len. destruct r as [|b1 r]; [constructor|].
  destruct (between 194 223 b && cont b1) eqn:E1.
  { apply andb_prop in E1. cbn. constructor; [now apply C|constructor]. }
  destruct r as [|b2 r]; [constructor|].
  match goal with |- context [if ?c then 3%nat else _] => destruct c eqn:E2 end.
  { cbn. repeat (apply orb_prop in E2; destruct E2 as [E2|E2]); repeat (apply andb_prop in E2; let H := fresh in destruct E2 as [E2 H]);
      repeat match goal with H : cont _ = true |- _ => apply C in H | H : between _ _ b1 = true |- _ => apply K in H; [|lia] end; repeat constructor; assumption. }
  destruct r as [|b3 r]; [constructor|].
  match goal with |- context [if ?c then 4%nat else _] => destruct c eqn:E3 end; [|constructor].
  cbn. repeat (apply orb_prop in E3; destruct E3 as [E3|E3]); repeat (apply andb_prop in E3; let H := fresh in destruct E3 as [E3 H]);
      repeat match goal with H : cont _ = true |- _ => apply C in H | H : between _ _ b1 = true |- _ => apply K in H; [|lia] end; repeat constructor; assumption.
Qed.

Lemma rewrite_high : forall b r cls, 128 <= b -> rewrite_dots cls false (b :: r) = b :: rewrite_dots cls false r.
Proof.
  intros b r cls H. cbn [rewrite_dots]. rewrite (proj2 (N.eqb_neq b 92)), (proj2 (N.eqb_neq b 91)), (proj2 (N.eqb_neq b 93)), (proj2 (N.eqb_neq b 46)) by lia. reflexivity.
Qed.

Lemma skipn_cons : forall A (l : list A) i b r, skipn i l = b :: r -> skipn (S i) l = r.
Proof. intros A l. induction l as [|a l IH]; intros [|i] b r H; cbn in *; try discriminate; [now injection H as -> ->|]. now apply IH in H. Qed.
Lemma firstn_snoc : forall A (l : list A) i b r, skipn i l = b :: r -> firstn (S i) l = firstn i l ++ [b].
Proof. intros A l. induction l as [|a l IH]; intros [|i] b r H; cbn in *; try discriminate; [now injection H as -> ->|]. f_equal. now apply (IH i b r). Qed.
Lemma skipn_less : forall A (l : list A) i b r, skipn i l = b :: r -> (i < length l)%nat.
Proof. intros A l. induction l as [|a l IH]; intros [|i] b r H; cbn in *; try discriminate; [lia|]. apply IH in H. lia. Qed.

Section Scan.
Variable ptn : bytes.
(** What has been copied and what will be: the text from [last_index] to [i]. *)
Definition kept_text (i : nat) (s : scan) : bytes := firstn (i - last_index s) (skipn (last_index s) ptn).

Lemma kept_next : forall i s b r, (last_index s <= i)%nat -> skipn i ptn = b :: r -> kept_text (S i) s = kept_text i s ++ [b].
Proof.
  intros i s b r L E. unfold kept_text. replace (S i - last_index s)%nat with (S (i - last_index s)) by lia.
  apply firstn_snoc with (r := r). rewrite <- E. clear E. remember (last_index s) as k. clear Heqk.
  revert L. generalize ptn. revert i. induction k as [|k IH]; intros i p L; [cbn; now rewrite Nat.sub_0_r|]. destruct i as [|i]; [lia|]. cbn [Nat.sub]. destruct p as [|a p]; [now rewrite !skipn_nil|]. cbn [skipn]. apply IH. lia.
Qed.

Lemma scan_ok : forall l skip i s, skipn i ptn = l -> (last_index s <= i)%nat -> (last_index s = O -> builder s = []) ->
  Forall (fun c => 128 <= c) (firstn skip l) -> (skip <> O -> escaped s = false) ->
  let s' := scan_runes ptn l skip i s in
  builder s' ++ skipn (last_index s') ptn = builder s ++ kept_text i s ++ rewrite_dots (in_class s) (escaped s) l /\ (last_index s' = O -> builder s' = []).
Proof.
  induction l as [|b r IH]; intros skip i s E L B F K s'; subst s'.
  - cbn [scan_runes rewrite_dots]. split; [|exact B]. f_equal. rewrite app_nil_r. unfold kept_text. symmetry. apply firstn_all2. rewrite skipn_length.
    apply (f_equal (@length _)) in E. rewrite skipn_length in E. cbn in E. lia.
  - pose proof (skipn_cons _ _ _ _ _ E) as E'. destruct skip as [|k].
    + cbn [scan_runes]. pose proof (rune_size_tail b r) as RT. set (k := pred (rune_size (b :: r))) in *.
      assert (K0 : k <> O -> 128 <= b) by (intro N; subst k; unfold rune_size in N; destruct (b <? 128) eqn:Q; [cbn in N; congruence|now apply N.ltb_ge in Q]).
      unfold scan_rune. cbn [rewrite_dots]. destruct (escaped s) eqn:ES.
      * match goal with |- context [scan_runes ptn r k (S i) ?s2] => destruct (IH k (S i) s2) as [H1 H2] end; [exact E'|cbn; lia|exact B|exact RT|reflexivity|]. split; [|exact H2]. rewrite H1. cbn [in_class escaped builder last_index].
        change (kept_text (S i) {| in_class := in_class s; escaped := false; last_index := last_index s; builder := builder s |}) with (kept_text (S i) s).
        rewrite (kept_next _ _ _ _ L E). now rewrite <- app_assoc.
      * destruct (b =? 92) eqn:E1.
        { match goal with |- context [scan_runes ptn r k (S i) ?s2] => destruct (IH k (S i) s2) as [H1 H2] end; [exact E'|cbn; lia|exact B|exact RT| |split; [rewrite H1|exact H2]].
          - intro N. apply K0 in N. apply N.eqb_eq in E1. lia.
          - cbn [in_class escaped builder]. match goal with |- context [kept_text (S i) ?x] => change (kept_text (S i) x) with (kept_text (S i) s) end.
            rewrite (kept_next _ _ _ _ L E). now rewrite <- app_assoc. }
        destruct (b =? 91) eqn:E2.
        { match goal with |- context [scan_runes ptn r k (S i) ?s2] => destruct (IH k (S i) s2) as [H1 H2] end; [exact E'|cbn; lia|exact B|exact RT|reflexivity|split; [rewrite H1|exact H2]].
          cbn [in_class escaped builder]. match goal with |- context [kept_text (S i) ?x] => change (kept_text (S i) x) with (kept_text (S i) s) end.
          rewrite (kept_next _ _ _ _ L E). now rewrite <- app_assoc. }
        destruct (b =? 93) eqn:E3.
        { match goal with |- context [scan_runes ptn r k (S i) ?s2] => destruct (IH k (S i) s2) as [H1 H2] end; [exact E'|cbn; lia|exact B|exact RT|reflexivity|split; [rewrite H1|exact H2]].
          cbn [in_class escaped builder]. match goal with |- context [kept_text (S i) ?x] => change (kept_text (S i) x) with (kept_text (S i) s) end.
          rewrite (kept_next _ _ _ _ L E). now rewrite <- app_assoc. }
        destruct (b =? 46) eqn:E4.
        { destruct (in_class s) eqn:IC.
          - edestruct (IH k (S i) s) as [H1 H2]; [exact E'|lia|exact B|exact RT|intro; exact ES|split; [rewrite H1|exact H2]].
            rewrite (kept_next _ _ _ _ L E), IC, ES. now rewrite <- app_assoc.
          - match goal with |- context [scan_runes ptn r k (S i) ?s2] => destruct (IH k (S i) s2) as [H1 H2] end; [exact E'|cbn; lia|discriminate|exact RT|reflexivity|split; [rewrite H1|exact H2]].
            cbn [in_class escaped builder last_index]. unfold kept_text at 1. cbn [last_index]. rewrite Nat.sub_diag. cbn [firstn app].
            rewrite <- !app_assoc. f_equal. }
        edestruct (IH k (S i) s) as [H1 H2]; [exact E'|lia|exact B|exact RT|intro; exact ES|split; [rewrite H1|exact H2]].
        rewrite (kept_next _ _ _ _ L E), ES. now rewrite <- app_assoc.
    + cbn [scan_runes]. cbn [firstn] in F. pose proof (Forall_inv F) as F1. pose proof (Forall_inv_tail F) as F2.
      edestruct (IH k (S i) s) as [H1 H2]; [exact E'|lia|exact B|exact F2|intros; now apply K|split; [rewrite H1|exact H2]].
      rewrite (K ltac:(discriminate)). rewrite (kept_next _ _ _ _ L E). rewrite (rewrite_high b) by exact F1. now rewrite <- app_assoc.
Qed.
End Scan.

Lemma iregexp_string_eq : forall ptn, iregexp_string ptn = rewrite_dots false false ptn.
Proof.
  intro ptn. unfold iregexp_string.
  destruct (scan_ok ptn ptn 0 0 (mkScan false false 0 []) eq_refl (le_n _) (fun _ => eq_refl) (Forall_nil _) ltac:(congruence)) as [H1 H2].
  set (s := scan_runes ptn ptn 0 0 (mkScan false false 0 [])) in *. cbn [builder in_class escaped app] in H1.
  change (kept_text ptn 0 (mkScan false false 0 [])) with (@nil N) in H1. cbn [app] in H1. rewrite <- H1.
  destruct (last_index s =? 0)%nat eqn:E; [apply Nat.eqb_eq in E; rewrite (H2 E), E; reflexivity|].
  destruct (last_index s <? length ptn)%nat eqn:E2; [reflexivity|]. apply Nat.ltb_ge in E2. now rewrite skipn_all2, app_nil_r.
Qed.

(** On characters. *)
Lemma utf8_high : forall c, 128 <= c -> exists b r, utf8 c = b :: r /\ 128 <= b /\ Forall (fun x => 128 <= x) r.
Proof.
  intros c H. unfold utf8. rewrite (proj2 (N.ltb_ge c 128)) by exact H.
  destruct (c <? 2048); [|destruct (c <? 65536)]; eexists; eexists; (split; [reflexivity|]); (split; [|repeat constructor]); match goal with |- _ <= ?k + _ => apply N.le_trans with k; [lia|apply N.le_add_r] end.
Qed.
Lemma utf8_low : forall c, c < 128 -> utf8 c = [c].
Proof. intros c H. unfold utf8. now rewrite (proj2 (N.ltb_lt c 128)). Qed.

Lemma rewrite_highs : forall l r cls, Forall (fun x => 128 <= x) l -> rewrite_dots cls false (l ++ r) = l ++ rewrite_dots cls false r.
Proof. induction l as [|b l IH]; intros r cls F; [reflexivity|]. inversion F; subst. cbn [app]. rewrite rewrite_high by assumption. now rewrite IH. Qed.

Lemma encoded_app : forall a b, encoded (a ++ b) = encoded a ++ encoded b.
Proof. intros. apply flat_map_app. Qed.
Lemma encoded_dot_class : encoded dot_class = dot_class.
Proof. reflexivity. Qed.

Lemma rewrite_encoded : forall u cls esc, rewrite_dots cls esc (encoded u) = encoded (rewrite_dots cls esc u).
Proof.
  induction u as [|c u IH]; intros cls esc; [reflexivity|]. change (encoded (c :: u)) with (utf8 c ++ encoded u). destruct (N.lt_ge_cases c 128) as [L|G].
  - rewrite (utf8_low c L). cbn [app rewrite_dots]. assert (ONE : forall l, encoded (c :: l) = c :: encoded l) by (intro l; change (encoded (c :: l)) with (utf8 c ++ encoded l); now rewrite (utf8_low c L)).
    repeat match goal with |- context [if ?x then _ else _] => destruct x eqn:? end; rewrite ?encoded_app, ?encoded_dot_class, ?ONE, ?IH; cbn [app]; try reflexivity.
  - destruct (utf8_high c G) as [b [r [E [Hb Hr]]]]. rewrite E. destruct esc.
    + cbn [app rewrite_dots]. rewrite rewrite_highs, IH by exact Hr. change (encoded (c :: rewrite_dots cls false u)) with (utf8 c ++ encoded (rewrite_dots cls false u)). now rewrite E.
    + cbn [app]. rewrite rewrite_high, rewrite_highs, IH by assumption. rewrite (rewrite_high c) by exact G. change (encoded (c :: rewrite_dots cls false u)) with (utf8 c ++ encoded (rewrite_dots cls false u)). now rewrite E.
Qed.

(* ------------------------------------------------------------------ *)
(** The rewriting of a regular expression. *)
Definition no_newline : cclass := mkClass true false [CSingle (CEsc 110); CSingle (CEsc 114)] false.
Fixpoint undot (r : regexp) : regexp :=
  match r with RBranch b => RBranch (undot_branch b) | ROr b r => ROr (undot_branch b) (undot r) end
with undot_branch (b : branch) : branch := match b with BNil => BNil | BCons p b => BCons (undot_piece p) (undot_branch b) end
with undot_piece (p : piece) : piece := match p with Piece a q => Piece (undot_atom a) q end
with undot_atom (a : atom) : atom :=
  match a with ADot => AClass no_newline | AGroup r => AGroup (undot r) | _ => a end.

Definition inert (c : N) : Prop := c <> 92 /\ c <> 91 /\ c <> 93 /\ c <> 46.
Lemma rewrite_inert : forall c r cls, inert c -> rewrite_dots cls false (c :: r) = c :: rewrite_dots cls false r.
Proof.
  intros c r cls [A [B [C D]]]. cbn [rewrite_dots]. rewrite (proj2 (N.eqb_neq c 92)), (proj2 (N.eqb_neq c 91)), (proj2 (N.eqb_neq c 93)), (proj2 (N.eqb_neq c 46)) by assumption. reflexivity.
Qed.
Lemma rewrite_inerts : forall l r cls, Forall inert l -> rewrite_dots cls false (l ++ r) = l ++ rewrite_dots cls false r.
Proof. induction l as [|b l IH]; intros r cls F; [reflexivity|]. inversion F; subst. cbn [app]. rewrite rewrite_inert by assumption. now rewrite IH. Qed.
Lemma inert_digits : forall l, digits l -> Forall inert l.
Proof. intros l [_ D]. eapply Forall_impl; [|exact D]. cbn. unfold inert. intros; lia. Qed.
Lemma inert_letters : forall l, letters l -> Forall inert l.
Proof. intros l D. eapply Forall_impl; [|exact D]. cbn. unfold inert. intros; lia. Qed.
Ltac inert := repeat (apply Forall_app; split); repeat (constructor; [unfold inert; lia|]); try (apply Forall_nil); auto using inert_digits, inert_letters.

Lemma rewrite_quant : forall q r, ok_quant q -> rewrite_dots false false (show_quant q ++ r) = show_quant q ++ rewrite_dots false false r.
Proof. intros q r O. apply rewrite_inerts. destruct q; cbn [show_quant ok_quant] in *; try match type of O with _ /\ _ => destruct O end; inert. Qed.
Lemma rewrite_esc : forall c r cls, rewrite_dots cls false (92 :: c :: r) = 92 :: c :: rewrite_dots cls false r.
Proof. reflexivity. Qed.
Lemma rewrite_cat : forall k n r cls, letters n -> rewrite_dots cls false (show_cat k n ++ r) = show_cat k n ++ rewrite_dots cls false r.
Proof.
  intros k n r cls L. unfold show_cat. cbn [app]. rewrite rewrite_esc. do 2 f_equal. change (123 :: (n ++ [125]) ++ r) with ((123 :: n ++ [125]) ++ r). rewrite rewrite_inerts; [reflexivity|]. constructor; [unfold inert; lia|]. inert.
Qed.
Lemma rewrite_cchar : forall c r, ok_cchar c -> rewrite_dots true false (show_cchar c ++ r) = show_cchar c ++ rewrite_dots true false r.
Proof.
  intros [c|c] r O; [|reflexivity]. cbn [ok_cchar] in O. destruct O as [_ O]. cbn [show_cchar app rewrite_dots]. cbn in O.
  rewrite (proj2 (N.eqb_neq c 92)), (proj2 (N.eqb_neq c 91)), (proj2 (N.eqb_neq c 93)) by intuition congruence. destruct (c =? 46); reflexivity.
Qed.
Lemma rewrite_item : forall i r, ok_item i -> rewrite_dots true false (show_item i ++ r) = show_item i ++ rewrite_dots true false r.
Proof.
  intros [c|a b|k n] r O; cbn [show_item ok_item] in *; [now apply rewrite_cchar| |now apply rewrite_cat]. destruct O as [A B]. rewrite <- !app_assoc, rewrite_cchar by exact A.
  cbn [app]. rewrite rewrite_inert by (unfold inert; lia). now rewrite rewrite_cchar.
Qed.
Lemma rewrite_items : forall l r, Forall ok_item l -> rewrite_dots true false (flat_map show_item l ++ r) = flat_map show_item l ++ rewrite_dots true false r.
Proof. induction l as [|i l IH]; intros r F; [reflexivity|]. inversion F; subst. cbn [flat_map]. rewrite <- !app_assoc, rewrite_item by assumption. now rewrite IH. Qed.
Lemma rewrite_class : forall k r, ok_class k -> rewrite_dots false false (show_class k ++ r) = show_class k ++ rewrite_dots false false r.
Proof.
  intros [neg fst items lst] r [O _]. cbn [c_items] in O. unfold show_class. cbn [c_neg c_first c_items c_last app].
  change (91 :: (((if neg then [94] else []) ++ dash fst ++ flat_map show_item items ++ dash lst ++ [93]) ++ r))
    with ([91] ++ (((if neg then [94] else []) ++ dash fst ++ flat_map show_item items ++ dash lst ++ [93]) ++ r)).
  change (rewrite_dots false false ([91] ++ (((if neg then [94] else []) ++ dash fst ++ flat_map show_item items ++ dash lst ++ [93]) ++ r)))
    with ([91] ++ rewrite_dots true false (((if neg then [94] else []) ++ dash fst ++ flat_map show_item items ++ dash lst ++ [93]) ++ r)).
  cbn [app]. f_equal. rewrite <- !app_assoc. rewrite rewrite_inerts by (destruct neg; inert). f_equal. rewrite rewrite_inerts by (destruct fst; inert). f_equal.
  rewrite rewrite_items by exact O. f_equal. rewrite rewrite_inerts by (destruct lst; inert). reflexivity.
Qed.

Lemma rewrite_show :
  (forall r, ok_regexp r -> forall t, rewrite_dots false false (show_regexp r ++ t) = show_regexp (undot r) ++ rewrite_dots false false t) /\
  (forall b, ok_branch b -> forall t, rewrite_dots false false (show_branch b ++ t) = show_branch (undot_branch b) ++ rewrite_dots false false t) /\
  (forall p, ok_piece p -> forall t, rewrite_dots false false (show_piece p ++ t) = show_piece (undot_piece p) ++ rewrite_dots false false t) /\
  (forall a, ok_atom a -> forall t, rewrite_dots false false (show_atom a ++ t) = show_atom (undot_atom a) ++ rewrite_dots false false t).
Proof.
  apply regexp_mut.
  - intros b IH O t. now apply IH.
  - intros b IH r IHr [O1 O2] t. cbn [show_regexp undot]. rewrite <- !app_assoc, IH by exact O1. f_equal. cbn [app]. rewrite rewrite_inert by (unfold inert; lia). f_equal. now apply IHr.
  - reflexivity.
  - intros p IH b IHb [O1 O2] t. cbn [show_branch undot_branch]. rewrite <- !app_assoc, IH by exact O1. f_equal. now apply IHb.
  - intros a IH q [O1 O2] t. cbn [show_piece undot_piece]. rewrite <- !app_assoc, IH by exact O1. f_equal. now apply rewrite_quant.
  - intros c [_ O] t. cbn [show_atom undot_atom app]. apply rewrite_inert. cbn in O. unfold inert. intuition congruence.
  - reflexivity.
  - intros c O t. reflexivity.
  - intros k n O t. now apply rewrite_cat.
  - intros k O t. now apply rewrite_class.
  - intros r IH O t. cbn [show_atom undot_atom]. rewrite <- !app_assoc. cbn [app]. rewrite rewrite_inert by (unfold inert; lia). f_equal. rewrite IH by exact O. reflexivity.
Qed.

(* ------------------------------------------------------------------ *)
(** Its meaning. *)
Section Meaning.
Variable category : list N -> N -> Prop.
Notation lang := (lang category). Notation lang_branch := (lang_branch category). Notation lang_piece := (lang_piece category). Notation lang_atom := (lang_atom category).
Notation go_lang := (go_lang category). Notation go_branch := (go_branch category). Notation go_piece := (go_piece category). Notation go_atom := (go_atom category).

Lemma undot_lang :
  (forall r, no_anchor r -> forall pre s post, go_lang (undot r) pre s post <-> lang r s) /\
  (forall b, no_anchor_branch b -> forall pre s post, go_branch (undot_branch b) pre s post <-> lang_branch b s) /\
  (forall p, no_anchor_piece p -> forall pre s post, go_piece (undot_piece p) pre s post <-> lang_piece p s) /\
  (forall a, no_anchor_atom a -> forall pre s post, go_atom (undot_atom a) pre s post <-> lang_atom a s).
Proof.
  apply regexp_mut.
  - intros b IH O pre s post. now apply IH.
  - intros b IH r IHr [O1 O2] pre s post. cbn [undot IregexpSpec.go_lang IregexpSpec.lang]. now rewrite (IH O1), (IHr O2).
  - reflexivity.
  - intros p IH b IHb [O1 O2] pre s post. cbn [undot_branch IregexpSpec.go_branch IregexpSpec.lang_branch]. split; intros [s1 [s2 [E [H1 H2]]]]; exists s1, s2; (split; [exact E|]); split.
    + now apply (IH O1) in H1.
    + now apply (IHb O2) in H2.
    + now apply (IH O1).
    + now apply (IHb O2).
  - intros a IH q O pre s post. cbn [undot_piece IregexpSpec.go_piece IregexpSpec.lang_piece]. split.
    + intros [n [T H]]. assert (X : exists ss, length ss = n /\ s = concat ss /\ Forall (fun x => lang_atom a x) ss).
      { clear T. revert pre s H. induction n as [|n IHn]; intros pre s H; [exists []; now split; [|split]|].
        destruct H as [s1 [s2 [-> [H1 H2]]]]. destruct (IHn _ _ H2) as [ss [L [-> F]]]. exists (s1 :: ss). split; [cbn; now rewrite L|]. split; [reflexivity|]. constructor; [now apply (IH O) in H1|exact F]. }
      destruct X as [ss [<- [E F]]]. exists ss. auto.
    + intros [ss [T [-> F]]]. exists (length ss). split; [exact T|]. clear T. revert pre. induction F as [|x ss H F IHF]; intro pre; [reflexivity|]. cbn [length concat].
      exists x, (concat ss). split; [reflexivity|]. split; [now apply (IH O)|apply IHF].
  - intros c [O1 O2] pre s post. cbn. rewrite (proj2 (N.eqb_neq c 94)), (proj2 (N.eqb_neq c 36)) by assumption. reflexivity.
  - intros _ pre s post. cbn. split; intros [c [-> H]]; exists c; (split; [reflexivity|]).
    + split; intro Q; apply H; right; [apply Exists_cons_hd|apply Exists_cons_tl, Exists_cons_hd]; cbn; exact Q.
    + intros [[_ [Q|Q]]|Q]; [discriminate Q|discriminate Q|]. inversion Q as [? ? X|? ? X]; subst; cbn in X; [destruct H; congruence|]. inversion X as [? ? Y|? ? Y]; subst; cbn in Y; [destruct H; congruence|]. inversion Y.
  - reflexivity.
  - reflexivity.
  - reflexivity.
  - intros r IH O pre s post. now apply IH.
Qed.
End Meaning.

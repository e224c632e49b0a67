(** What the compiled selectors take is what RFC 9535 says they select. *)
From Coq Require Import List ZArith NArith Arith Bool Lia.
From Verif Require Import Base Tokens JsonSpec ScalarModel IterModel IterSpec P_Scalar P_Equal SelectModel SelectSpec P_Select SelectMore
  ScalarSpec EqualSpec ScalarProofs PathModel PathAbs PathPure PathBody PathMain PathAst PathSpec PathTame PathMarks CompileModel.

(* ------------------------------------------------------------------ *)
(** Clean values. *)
Lemma descendants_child : forall x y z, In y (children x) -> In z (descendants y) -> In z (descendants x).
Proof. intros x y z Y Z. rewrite descendants_eq. right. apply in_flat_map. eauto. Qed.
Lemma comparable_child : forall x y, comparable x -> In y (children x) -> comparable y.
Proof.
  intros x y C J. destruct C as [s D|l e C|l e C D]; cbn [children] in J.
  - destruct J.
  - induction C as [|z l Z C IH]; [destruct J|]. destruct J as [<-|J]; auto.
  - apply in_map_iff in J as [[k z] [<- J]]. exact (proj2 (cb_in _ _ _ C J)).
Qed.
Lemma toks_child : forall x y, In y (children x) -> length (toks y) < length (toks x).
Proof.
  intros [s|l e|l e] y J; cbn [children] in J; [destruct J| |]; cbn [toks length]; rewrite app_length.
  - assert (L : length (toks y) <= length (flat_map toks l)); [|lia].
    induction l as [|z l IH]; [destruct J|]. cbn [flat_map]. rewrite app_length. destruct J as [<-|J]; [lia|]. apply IH in J. lia.
  - assert (L : length (toks y) <= length (flat_map (fun m : scalar * jval => TScalar (fst m) :: toks (snd m)) l)); [|lia].
    induction l as [|z l IH]; [destruct J|]. cbn [map flat_map] in *. cbn [app length]. rewrite app_length. destruct J as [<-|J]; [lia|]. apply IH in J. lia.
Qed.
Lemma clean_child : forall x y, clean x -> In y (children x) -> clean y.
Proof.
  intros x y [C [K L]] J. split; [eapply comparable_child; eauto|]. split.
  - intros l e m D M. eapply K; [|exact M]. eapply descendants_child; eauto.
  - pose proof (toks_child x y J). lia.
Qed.
Lemma clean_descendant : forall x, clean x -> forall y, In y (descendants x) -> clean y.
Proof.
  intro x. induction x as [x IH] using children_ind. intros C y J. rewrite descendants_eq in J. destruct J as [<-|J]; [exact C|].
  apply in_flat_map in J as [z [Z J]]. eapply IH; [exact Z|eapply clean_child; eauto|exact J].
Qed.
Lemma children_length : forall x, length (children x) <= length (toks x).
Proof.
  intros [s|l e|l e]; cbn [children]; [cbn; lia| |]; cbn [toks length]; rewrite app_length.
  - assert (length l <= length (flat_map toks l)); [|lia]. induction l as [|y l IH]; [cbn; lia|]. cbn [flat_map length]. rewrite app_length.
    assert (1 <= length (toks y)) by (destruct y; cbn; lia). lia.
  - rewrite map_length. assert (length l <= length (flat_map (fun m : scalar * jval => TScalar (fst m) :: toks (snd m)) l)); [|lia].
    induction l as [|y l IH]; [cbn; lia|]. cbn [flat_map length app]. rewrite app_length. lia.
Qed.
Lemma clean_length : forall x, clean x -> (Z.of_nat (length (children x)) < 2 ^ 53)%Z.
Proof. intros x [_ [_ L]]. pose proof (children_length x). lia. Qed.

(** Keys. *)
Lemma string_characters : forall s, decent s -> sc_type s = TStr -> exists u, characters s u /\ to_string s = Ok (flat_map utf8 u) /\ Forall unicode u.
Proof.
  intros s [R _] T. unfold readable in R. rewrite T in R. destruct R as [c [u [B [D U]]]]. exists u. split; [split; [exact T|eauto]|].
  split; [eapply C31_to_string; eauto|eapply denotes_unicode; eauto].
Qed.
Lemma characters_unique : forall s u v, characters s u -> characters s v -> u = v.
Proof.
  intros s u v [_ [c [B D]]] [_ [c' [B' D']]]. rewrite B in B'. injection B' as B'. apply app_inj_tail in B' as [<- _]. eapply denotes_unique; eauto.
Qed.
Lemma spells_string : forall s name, decent s -> sc_type s = TStr -> (spells s name <-> bytes_eqb (key_string s) name = true).
Proof.
  intros s name D T. destruct (string_characters s D T) as [u [C [E _]]]. unfold key_string. rewrite E. rewrite bytes_eqb_eq. split.
  - intros [v [C' ->]]. now rewrite (characters_unique _ _ _ C C').
  - intros <-. exists u. auto.
Qed.
Lemma same_keys : forall s t, decent s -> decent t -> sc_type s = TStr -> sc_type t = TStr -> key_string s = key_string t -> same_scalar_value s t.
Proof.
  intros s t D D' T T' E. destruct (string_characters s D T) as [u [[_ [c [B C]]] [E1 U]]]. destruct (string_characters t D' T') as [v [[_ [c' [B' C']]] [E2 V]]].
  unfold key_string in E. rewrite E1, E2 in E. apply flat_utf8_inj in E; auto. subst v. split; [congruence|]. rewrite T. exists c, c', u. auto.
Qed.
Lemma clean_keys : forall l e m, clean (JObj l e) -> In m l -> decent (fst m) /\ sc_type (fst m) = TStr.
Proof.
  intros l e [k y] [C [K _]] J. split.
  - inversion C as [| |? ? CM]; subst. exact (proj1 (cb_in _ _ _ CM J)).
  - eapply K; [|exact J]. rewrite descendants_eq. now left.
Qed.
Lemma clean_keys_ok : forall x, clean x -> keys_ok x.
Proof.
  intros [s|l e|l e] C; cbn; auto. intros m J. destruct (clean_keys _ _ _ C J) as [D T]. destruct (string_characters _ D T) as [u [_ [E _]]]. eauto.
Qed.

(* ------------------------------------------------------------------ *)
(** Positions. *)
Lemma kept_iff : forall A (P : A -> Prop) d l i is, (forall a, In a l -> (P a <-> d a = true)) -> (kept P i l is <-> is = positions i (map d l)).
Proof.
  intros A P d. induction l as [|a l IH]; intros i is H.
  - cbn [map positions]. split; [intro K; inversion K; reflexivity|intros ->; constructor].
  - cbn [map positions]. assert (IH' := fun i is => IH i is (fun b B => H b (or_intror B))). specialize (H a (or_introl eq_refl)). split.
    + intro K. inversion K as [|? ? ? is' PA K'|? ? ? is' PA K']; subst; apply IH' in K'; subst.
      * now rewrite (proj1 H PA).
      * destruct (d a); [destruct PA; now apply H|reflexivity].
    + intros ->. destruct (d a) eqn:E; cbn [app].
      * constructor; [now apply H|now apply IH'].
      * apply kept_no; [|now apply IH']. intro PA. apply H in PA. congruence.
Qed.

Section Sel.
  Variable find : bytes -> bytes -> option (nat * nat).
  Variable sing : list (option jval).
  Variable inner : list (list jval).
  Notation sem_sel := (sem_sel find sing inner).
  Notation taken := (taken find sing inner).

  Lemma taken_scalar : forall s look sc, taken s look (JScalar sc) = [].
  Proof. intros. unfold taken. cbn. now destruct (sel_reverses s). Qed.

  Lemma taken_wild : forall look x, taken SWild look x = seq 0 (length (children x)).
  Proof.
    intros look x. unfold taken. cbn [sel_reverses]. rewrite <- (annot_children unit look x (fun _ => tt)), map_length. rewrite <- positions_all. f_equal.
    assert (D : forall i, In i (annot look x (fun _ => tt)) -> it_dec i SWild = yes).
    { destruct x as [s|l e|l e]; cbn [annot]; [intros i []| |].
      - generalize (start_look look (length l) (min64 + 1)), 0%Z. generalize (map (fun y => (y, tt)) l). intro ys. induction ys as [|y ys IH]; intros s k i J; [destruct J|].
        destruct J as [<-|J]; [reflexivity|eauto].
      - intros i J. unfold annot_obj in J. apply in_map_iff in J as [m [<- _]]. reflexivity. }
    induction (annot look x (fun _ => tt)) as [|i its IH]; [reflexivity|]. cbn [marks map]. unfold takes_item. rewrite (D i (or_introl eq_refl)). cbn. f_equal. apply IH. intros. apply D. now right.
  Qed.

  Lemma taken_filter : forall c look x, taken (SFilter c) look x = positions 0 (map (sem_cond find sing inner c) (children x)).
  Proof.
    intros c look x. unfold taken. cbn [sel_reverses]. rewrite <- (annot_children unit look x (fun _ => tt)), map_map. f_equal.
    pose proof (annot_sound _ (fun _ => tt) look x) as D. induction (annot look x (fun _ => tt)) as [|i its IH]; [reflexivity|].
    cbn [marks map]. unfold takes_item. assert (E := D i (or_introl eq_refl) (SFilter c)). cbn in E. rewrite E. cbn. f_equal. apply IH. intros. apply D. now right.
  Qed.

  (** The first item says that there are none. *)
  Lemma marks_stop : forall R h s (its : list (item R)), (forall i, In i its -> it_dec i s = no_more) -> positions 0 (marks h s its) = [].
  Proof.
    intros R h s [|i its] H; [reflexivity|]. cbn [marks positions]. unfold takes_item. rewrite (H i (or_introl eq_refl)). cbn. apply positions_none.
  Qed.
  Lemma taken_name_array : forall name look l e, taken (SName name) look (JArr l e) = [].
  Proof.
    intros name look l e. unfold taken. cbn [sel_reverses]. apply marks_stop. cbn [annot]. generalize (start_look look (length l) (min64 + 1)), 0%Z. generalize (map (fun y => (y, tt)) l).
    intro ys. induction ys as [|y ys IH]; intros s k i J; [destruct J|]. destruct J as [<-|J]; [reflexivity|eauto].
  Qed.
  Lemma taken_pos_object : forall p look l e, taken (SPos p) look (JObj l e) = [].
  Proof.
    intros p look l e. unfold taken. rewrite marks_stop; [now destruct (sel_reverses _)|]. intros i J. cbn [annot] in J. unfold annot_obj in J. apply in_map_iff in J as [m [<- _]]. reflexivity.
  Qed.

  Lemma taken_name_object : forall name look l e, clean (JObj l e) -> taken (SName name) look (JObj l e) = positions 0 (map (fun m => bytes_eqb (key_string (fst m)) name) l).
  Proof.
    intros name look l e C. unfold taken. cbn [sel_reverses annot]. f_equal.
    assert (K := fun m => clean_keys l e m C). destruct C as [C _]. inversion C as [| |? ? _ D]; subst. clear C.
    unfold annot_obj. rewrite map_map. induction D as [|m l F D IH]; [reflexivity|]. cbn [map marks it_dec]. unfold takes_item. cbn [it_dec selects_key fst].
    destruct (bytes_eqb (key_string (fst m)) name) eqn:E; cbn [yes_last no d_yes d_no d_nomore orb negb andb].
    - f_equal. rewrite map_map. apply map_ext_in. intros m' J. rewrite Forall_forall in F. specialize (F m' J).
      destruct (bytes_eqb (key_string (fst m')) name) eqn:E'; [|reflexivity]. exfalso. apply F.
      apply bytes_eqb_eq in E, E'. destruct (K m (or_introl eq_refl)), (K m' (or_intror J)). apply same_keys; auto. congruence.
    - f_equal. apply IH. intros. apply K. now right.
  Qed.

  Lemma marks_array : forall p look l s k, (Z.of_nat (k + length l) < 2 ^ 62)%Z ->
    map Z.of_nat (positions k (marks (sem_sel (SPos p)) (SPos p) (annot_arr look s (Z.of_nat k) (map (fun y => (y, tt)) l)))) = select_from p look (length l) (Z.of_nat k) s.
  Proof.
    intros p look. induction l as [|y l IH]; intros s k L; [reflexivity|]. cbn [map annot_arr marks positions length select_from]. rewrite map_app. unfold takes_item. cbn [it_dec selects_index].
    set (d := selects_from_index p (Z.of_nat k) (snd s)). change (sem_sel (SPos p) (it_val _)) with false. rewrite andb_false_r, orb_false_r. f_equal; [now destruct (d_yes d)|].
    destruct (d_nomore d); [now rewrite positions_none|]. cbn [length] in L. rewrite i64_id by lia. replace (Z.of_nat k + 1)%Z with (Z.of_nat (S k)) by lia. apply IH. lia.
  Qed.
  Lemma taken_pos_array : forall p look l e, sane p -> (lookahead p <= look <= max64)%Z -> (Z.of_nat (length l) < 2 ^ 62)%Z ->
    taken (SPos p) look (JArr l e) = map Z.to_nat (select p (length l)).
  Proof.
    intros p look l e S B L. unfold taken, select. cbn [sel_reverses annot]. cbv zeta. rewrite <- (select_look p look (length l) S B L).
    rewrite <- (marks_array p look l _ 0) by (cbn; lia). cbn [Z.of_nat].
    set (ps := positions 0 _). destruct (reverses p); [rewrite <- map_rev|]; rewrite map_map, (map_ext _ (fun n => n)) by (intro; apply Nat2Z.id); now rewrite map_id.
  Qed.

  (** Index and slice selectors. *)
  Lemma slice_select : forall start stop step len, safe_opt start -> safe_opt stop -> (Z.of_nat len < 2 ^ 62)%Z ->
    match start with
    | Some a => (step = 1 \/ step = -1 \/ 0 <= step /\ - Z.of_nat len <= a \/ step <= 0 /\ a < Z.of_nat len)%Z
    | None => True
    end -> select (compile_slice start stop step) len = rfc_slice start stop step len.
  Proof.
    intros start stop step len A B L C. destruct (Z.lt_trichotomy step 0) as [N|[->|P]].
    - apply C32_slice_down_partial; auto. destruct start as [a|]; [|auto]. lia.
    - apply C32_slice_zero.
    - apply C32_slice_up_partial; auto. destruct start as [a|]; [|auto]. lia.
  Qed.
End Sel.

(** The lookahead of a segment is enough for its selectors. *)
Lemma max_lookahead_ge : forall sels s, In s sels -> (sel_lookahead s <= max_lookahead sels)%Z.
Proof.
  unfold max_lookahead. intros sels.
  assert (M : forall sels a, (a <= fold_left (fun l s => if l <? sel_lookahead s then sel_lookahead s else l) sels a)%Z).
  { clear. induction sels as [|t sels IH]; intro a; cbn [fold_left]; [lia|]. specialize (IH (if (a <? sel_lookahead t)%Z then sel_lookahead t else a)). destruct (Z.ltb_spec a (sel_lookahead t)); lia. }
  generalize 0%Z. induction sels as [|t sels IH]; intros a s J; [destruct J|]. cbn [fold_left]. destruct J as [<-|J]; [|now apply IH].
  specialize (M sels (if (a <? sel_lookahead t)%Z then sel_lookahead t else a)). destruct (Z.ltb_spec a (sel_lookahead t)); lia.
Qed.
Lemma max_lookahead_le : forall sels b, (0 <= b)%Z -> (forall s, In s sels -> (sel_lookahead s <= b)%Z) -> (max_lookahead sels <= b)%Z.
Proof.
  unfold max_lookahead. intros sels b. generalize 0%Z. induction sels as [|t sels IH]; intros a A H; cbn [fold_left]; [exact A|].
  apply IH; [|intros; apply H; now right]. specialize (H t (or_introl eq_refl)). destruct (_ <? _)%Z; lia.
Qed.

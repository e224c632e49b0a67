(** Facts about the matching of regular expressions (LexModel.v). *)
From Coq Require Import List NArith Bool Arith Lia.
From Verif Require Import Base LexModel.
Local Open Scope N_scope.

(** The last character of [x], or the one before it. *)
Fixpoint lastp (p : option N) (x : bytes) : option N := match x with [] => p | b :: r => lastp (Some b) r end.
Lemma lastp_app : forall x p y, lastp p (x ++ y) = lastp (lastp p x) y.
Proof. induction x as [|b x IH]; intros p y; cbn; auto. Qed.
Lemma lastp_snoc : forall x p b, lastp p (x ++ [b]) = Some b.
Proof. intros. now rewrite lastp_app. Qed.

(** The language of an expression: [x] is matched before [y], after [p]. *)
Inductive lang : rx -> option N -> bytes -> bytes -> Prop :=
| l_none : forall p y, lang RxNone p [] y
| l_in : forall f p b y, f b = true -> lang (RxIn f) p [b] y
| l_seq : forall a b p x x' y, lang a p x (x' ++ y) -> lang b (lastp p x) x' y -> lang (RxSeq a b) p (x ++ x') y
| l_left : forall a b p x y, lang a p x y -> lang (RxAlt a b) p x y
| l_right : forall a b p x y, lang b p x y -> lang (RxAlt a b) p x y
| l_star0 : forall a p y, lang (RxStar a) p [] y
| l_star1 : forall a p x x' y, lang a p x (x' ++ y) -> lang (RxStar a) (lastp p x) x' y -> lang (RxStar a) p (x ++ x') y
| l_word : forall p y, xorb (wordy p) (wordy (hd_error y)) = true -> lang RxWordEnd p [] y
| l_end : forall p, lang RxTextEnd p [] [].

Lemma match_sound : forall X r p s (k : option N -> bytes -> option X) v, rx_match r p s k = Some v ->
  exists x y, s = x ++ y /\ lang r p x y /\ k (lastp p x) y = Some v.
Proof.
  intros X r. induction r as [|f|a IHa b IHb|a IHa b IHb|a IHa| |]; intros p s k v H; cbn [rx_match] in H.
  - exists [], s. split; [reflexivity|]. split; [constructor|exact H].
  - destruct s as [|c s]; [discriminate|]. destruct (f c) eqn:F; [|discriminate]. exists [c], s. split; [reflexivity|]. split; [now constructor|exact H].
  - apply IHa in H as (x & y & -> & L & H). apply IHb in H as (x' & y' & -> & L' & H). exists (x ++ x'), y'.
    split; [now rewrite app_assoc|]. split; [now constructor|now rewrite lastp_app].
  - destruct (rx_match a p s k) as [w|] eqn:E.
    + injection H as ->. apply IHa in E as (x & y & -> & L & E). exists x, y. split; [reflexivity|]. split; [now constructor|exact E].
    + apply IHb in H as (x & y & -> & L & H). exists x, y. split; [reflexivity|]. split; [now apply l_right|exact H].
  - revert H. generalize (length s) as n. intro n. revert p s. induction n as [|n IH]; intros p s H.
    + exists [], s. split; [reflexivity|]. split; [constructor|exact H].
    + match type of H with match ?m with _ => _ end = _ => destruct m as [w|] eqn:E end.
      * injection H as ->. apply IHa in E as (x & y & -> & L & E). apply IH in E as (x' & y' & -> & L' & E). exists (x ++ x'), y'.
        split; [now rewrite app_assoc|]. split; [now constructor|now rewrite lastp_app].
      * exists [], s. split; [reflexivity|]. split; [constructor|exact H].
  - destruct (xorb (wordy p) (wordy (hd_error s))) eqn:E; [|discriminate]. exists [], s. split; [reflexivity|]. split; [now constructor|exact H].
  - destruct s; [|discriminate]. exists [], []. split; [reflexivity|]. split; [constructor|exact H].
Qed.
Lemma rest_sound : forall r s y, rx_rest r s = Some y -> exists x, s = x ++ y /\ lang r None x y.
Proof. intros r s y H. apply match_sound in H as (x & y' & -> & L & [= ->]). eauto. Qed.

(** The first way to match succeeds. *)
Definition takes (r : rx) (p : option N) (x y : bytes) : Prop :=
  forall X (k : option N -> bytes -> option X) v, k (lastp p x) y = Some v -> rx_match r p (x ++ y) k = Some v.
(** There is no match. *)
Definition fails (r : rx) (p : option N) (s : bytes) : Prop :=
  forall X (k : option N -> bytes -> option X), rx_match r p s k = None.

Lemma takes_rest : forall r x y, takes r None x y -> rx_rest r (x ++ y) = Some y.
Proof. intros r x y T. apply T. reflexivity. Qed.
Lemma takes_none : forall p y, takes RxNone p [] y.
Proof. intros p y X k v H. exact H. Qed.
Lemma takes_in : forall f p b y, f b = true -> takes (RxIn f) p [b] y.
Proof. intros f p b y F X k v H. cbn. rewrite F. exact H. Qed.
Lemma takes_seq : forall a b p x x' y, takes a p x (x' ++ y) -> takes b (lastp p x) x' y -> takes (RxSeq a b) p (x ++ x') y.
Proof. intros a b p x x' y A B X k v H. cbn. rewrite <- app_assoc. apply A. apply B. now rewrite <- lastp_app. Qed.
Lemma takes_left : forall a b p x y, takes a p x y -> takes (RxAlt a b) p x y.
Proof. intros a b p x y A X k v H. cbn. now rewrite (A X k v H). Qed.
Lemma takes_right : forall a b p x y, fails a p (x ++ y) -> takes b p x y -> takes (RxAlt a b) p x y.
Proof. intros a b p x y F B X k v H. cbn. rewrite F. now apply B. Qed.
Lemma takes_word : forall p y, xorb (wordy p) (wordy (hd_error y)) = true -> takes RxWordEnd p [] y.
Proof. intros p y E X k v H. cbn [app rx_match]. rewrite E. exact H. Qed.
Lemma takes_end : forall p, takes RxTextEnd p [] [].
Proof. intros p X k v H. exact H. Qed.
Lemma takes_opt1 : forall a p x y, takes a p x y -> takes (rx_opt a) p x y.
Proof. intros. now apply takes_left. Qed.
Lemma takes_opt0 : forall a p y, fails a p y -> takes (rx_opt a) p [] y.
Proof. intros a p y F. apply takes_right; [exact F|apply takes_none]. Qed.

Lemma fails_in : forall f p s, match s with b :: _ => f b = false | [] => True end -> fails (RxIn f) p s.
Proof. intros f p [|b s] H X k; cbn; [reflexivity|now rewrite H]. Qed.
Lemma fails_alt : forall a b p s, fails a p s -> fails b p s -> fails (RxAlt a b) p s.
Proof. intros a b p s A B X k. cbn. now rewrite A. Qed.
Lemma fails_seq : forall a b p s, fails a p s -> fails (RxSeq a b) p s.
Proof. intros a b p s A X k. cbn. apply A. Qed.
(** After a part that can be matched in one way only. *)
Lemma fails_after_in : forall f b p c s, (f c = true -> fails b (Some c) s) -> fails (RxSeq (RxIn f) b) p (c :: s).
Proof. intros f b p c s H X k. cbn. destruct (f c); [now apply H|reflexivity]. Qed.

(** Repetitions: a list of matches, each of which is not empty. *)
Inductive iterates (a : rx) : option N -> bytes -> bytes -> Prop :=
| it_end : forall p y, fails a p y -> iterates a p [] y
| it_one : forall p x x' y, x <> [] -> takes a p x (x' ++ y) -> iterates a (lastp p x) x' y -> iterates a p (x ++ x') y.
Lemma takes_star : forall a p x y, iterates a p x y -> takes (RxStar a) p x y.
Proof.
  intros a p x y I X k v H. cbn [rx_match].
  assert (G : forall n, (length x <= n)%nat ->
    (fix loop (n : nat) (p : option N) (s : bytes) : option X :=
       match n with O => k p s | S n' => match rx_match a p s (loop n') with Some w => Some w | None => k p s end end) n p (x ++ y) = Some v).
  { induction I as [p y F|p x x' y N T I IH]; intros n L.
    - destruct n as [|n]; [exact H|]. cbn [app]. rewrite F. exact H.
    - rewrite app_length in L. destruct x as [|b x]; [congruence|]. cbn [length] in L. destruct n as [|n]; [lia|].
      rewrite <- app_assoc. erewrite T; [reflexivity|]. apply IH; [now rewrite <- lastp_app|lia]. }
  apply G. rewrite app_length. lia.
Qed.
Lemma iterates_class : forall f x p y, Forall (fun b => f b = true) x -> match y with b :: _ => f b = false | [] => True end ->
  iterates (RxIn f) p x y.
Proof.
  intros f x. induction x as [|b x IH]; intros p y F E.
  - apply it_end. now apply fails_in.
  - inversion F; subst. apply (it_one (RxIn f) p [b] x y); [discriminate|now apply takes_in|now apply IH].
Qed.
Lemma takes_class : forall f x p y, Forall (fun b => f b = true) x -> match y with b :: _ => f b = false | [] => True end ->
  takes (RxStar (RxIn f)) p x y.
Proof. intros. now apply takes_star, iterates_class. Qed.

(** The first byte of a match. *)
Fixpoint nullable (r : rx) : bool :=
  match r with
  | RxNone | RxStar _ | RxWordEnd | RxTextEnd => true
  | RxIn _ => false
  | RxSeq a b => nullable a && nullable b
  | RxAlt a b => nullable a || nullable b
  end.
Fixpoint first_of (r : rx) (c : N) : bool :=
  match r with
  | RxNone | RxWordEnd | RxTextEnd => false
  | RxIn f => f c
  | RxSeq a b => first_of a c || (nullable a && first_of b c)
  | RxAlt a b => first_of a c || first_of b c
  | RxStar a => first_of a c
  end.
Lemma lang_first : forall r p x y, lang r p x y -> match x with [] => nullable r = true | c :: _ => first_of r c = true end.
Proof.
  intros r p x y L. induction L as [p y|f p b y F|a b p x x' y La IHa Lb IHb|a b p x y La IHa|a b p x y Lb IHb|a p y|a p x x' y La IHa Lb IHb|p y E|p];
    cbn [nullable first_of]; auto.
  - destruct x as [|c x]; cbn [app]; [|now rewrite IHa].
    destruct x' as [|c x']; rewrite IHa, IHb; [reflexivity|now rewrite orb_true_r].
  - destruct x as [|c x]; rewrite IHa; reflexivity.
  - destruct x as [|c x]; rewrite IHb; apply orb_true_r.
  - destruct x as [|c x]; cbn [app]; [destruct x' as [|c x']; [reflexivity|exact IHb]|exact IHa].
Qed.
Lemma first_none : forall r s, nullable r = false -> match s with c :: _ => first_of r c = false | [] => True end -> rx_rest r s = None.
Proof.
  intros r s N F. destruct (rx_rest r s) as [y|] eqn:E; [|reflexivity]. apply rest_sound in E as (x & -> & L). apply lang_first in L.
  destruct x as [|c x]; [congruence|]. cbn in F. congruence.
Qed.
Lemma rest_shorter : forall r s y, nullable r = false -> rx_rest r s = Some y -> exists c x, s = (c :: x) ++ y /\ lang r None (c :: x) y.
Proof.
  intros r s y N E. apply rest_sound in E as (x & -> & L). pose proof (lang_first _ _ _ _ L) as F. destruct x as [|c x]; [congruence|]. eauto.
Qed.
Lemma firstn_match : forall (x y : bytes), firstn (length (x ++ y) - length y) (x ++ y) = x /\ skipn (length x) (x ++ y) = y.
Proof.
  intros x y. split.
  - rewrite app_length. replace (length x + length y - length y)%nat with (length x + 0)%nat by lia. rewrite firstn_app_2. cbn. apply app_nil_r.
  - induction x; cbn; auto.
Qed.

(** Inversion. *)
Lemma lang_seq : forall a b p x y, lang (RxSeq a b) p x y -> exists x1 x2, x = x1 ++ x2 /\ lang a p x1 (x2 ++ y) /\ lang b (lastp p x1) x2 y.
Proof. intros a b p x y L. inversion L; subst. eauto. Qed.
Lemma lang_alt : forall a b p x y, lang (RxAlt a b) p x y -> lang a p x y \/ lang b p x y.
Proof. intros a b p x y L. inversion L; subst; auto. Qed.
Lemma lang_in : forall f p x y, lang (RxIn f) p x y -> exists b, x = [b] /\ f b = true.
Proof. intros f p x y L. inversion L; subst. eauto. Qed.
Lemma lang_char : forall c p x y, lang (rx_char c) p x y -> x = [c].
Proof. intros c p x y L. apply lang_in in L as (b & -> & E). apply N.eqb_eq in E. now subst. Qed.
Lemma lang_none : forall p x y, lang RxNone p x y -> x = [].
Proof. intros p x y L. now inversion L. Qed.
Lemma lang_opt : forall a p x y, lang (rx_opt a) p x y -> lang a p x y \/ x = [].
Proof. intros a p x y L. apply lang_alt in L as [L|L]; [now left|right; eapply lang_none; eauto]. Qed.
Lemma lang_word : forall p x y, lang RxWordEnd p x y -> x = [] /\ xorb (wordy p) (wordy (hd_error y)) = true.
Proof. intros p x y L. inversion L; subst. auto. Qed.
Lemma lang_end : forall p x y, lang RxTextEnd p x y -> x = [] /\ y = [].
Proof. intros p x y L. inversion L; subst. auto. Qed.
Lemma lang_class : forall f p x y, lang (RxStar (RxIn f)) p x y -> Forall (fun b => f b = true) x.
Proof.
  intros f p x y L. remember (RxStar (RxIn f)) as r eqn:R. induction L as [| | | | | |a p x x' y La IHa Lb IHb| |]; inversion R; subst; [constructor|].
  apply lang_in in La as (b & -> & B). constructor; auto.
Qed.
Lemma lang_plus : forall f p x y, lang (rx_plus (RxIn f)) p x y -> x <> [] /\ Forall (fun b => f b = true) x.
Proof.
  intros f p x y L. apply lang_seq in L as (x1 & x2 & -> & A & B). apply lang_in in A as (b & -> & F). apply lang_class in B.
  split; [discriminate|]. constructor; auto.
Qed.
Lemma lang_text : forall l p x y, lang (rx_text l) p x y -> x = l.
Proof.
  induction l as [|c l IH]; intros p x y L; [now apply lang_none in L|]. destruct l as [|d l]; [eapply lang_char; exact L|].
  change (rx_text (c :: d :: l)) with (RxSeq (rx_char c) (rx_text (d :: l))) in L. apply lang_seq in L as (x1 & x2 & -> & A & B).
  apply lang_char in A. apply IH in B. now subst.
Qed.
Lemma lang_any_of : forall l p x y, lang (rx_any_of l) p x y -> exists b, x = [b] /\ In b l.
Proof.
  intros l p x y L. apply lang_in in L as (b & -> & E). exists b. split; [reflexivity|]. apply existsb_exists in E as (c & C & E). apply N.eqb_eq in E. now subst.
Qed.

(** What RFC 9535 says about a value does not depend on the flags of its strings. *)
From Coq Require Import List Arith ZArith NArith Bool Lia Permutation.
From Verif Require Import Base Tokens JsonSpec EncSpec ScalarSpec GoLiteral EqualSpec SelectSpec PathAst PathSpec CompileModel PathInd AlikeSpec.

Lemma forall2_length : forall A B (R : A -> B -> Prop) l l', Forall2 R l l' -> length l = length l'.
Proof. intros A B R l l' H. induction H; cbn; congruence. Qed.
Lemma children_ind : forall P : jval -> Prop, (forall x, Forall P (children x) -> P x) -> forall x, P x.
Proof.
  intros P H. apply jval_induction; [intro s; apply H; constructor|intros l e F; now apply H|].
  intros l e F. apply H. cbn [children]. now apply Forall_map.
Qed.
Lemma alike_scalar_sym : forall s t, alike_scalar s t -> alike_scalar t s.
Proof. intros s t [A B]. split; auto. Qed.
Lemma alike_refl : forall x, alike x x.
Proof.
  apply jval_induction; [repeat constructor| |]; intros l e F; constructor; induction F; constructor; auto. split; [split; reflexivity|assumption].
Qed.
Lemma alike_sym : forall x y, alike x y -> alike y x.
Proof.
  apply (jval_induction (fun x => forall y, alike x y -> alike y x)).
  - intros s y H. inversion H; subst. constructor. now apply alike_scalar_sym.
  - intros l e F y H. inversion H as [|? l' ? G|]; subst. constructor. clear H. induction G; inversion F; subst; constructor; auto.
  - intros l e F y H. inversion H as [| |? l' ? G]; subst. constructor. clear H. induction G as [|m m' l l' [A B] G IH]; inversion F; subst; constructor; auto.
    split; [now apply alike_scalar_sym|auto].
Qed.
Lemma alike_children : forall x y, alike x y -> Forall2 alike (children x) (children y).
Proof.
  intros x y H. inversion H as [|? ? ? G|? ? ? G]; subst; cbn [children]; [constructor|exact G|].
  clear H. induction G as [|m m' l l' [_ B] G IH]; constructor; auto.
Qed.
Lemma flat_alike : forall A (R : A -> A -> Prop) (f : A -> list jval) l l', Forall2 R l l' ->
  (forall a a', In a l -> R a a' -> Forall2 alike (f a) (f a')) -> Forall2 alike (flat_map f l) (flat_map f l').
Proof.
  intros A R f l l' H. induction H as [|a a' l l' HA H IH]; intro K; cbn [flat_map]; [constructor|].
  apply Forall2_app; [apply K; cbn; auto|apply IH; intros; apply K; cbn; auto].
Qed.
Lemma alike_descendants : forall x y, alike x y -> Forall2 alike (descendants x) (descendants y).
Proof.
  apply (jval_induction (fun x => forall y, alike x y -> Forall2 alike (descendants x) (descendants y))).
  - intros s y H. inversion H; subst. cbn. constructor; [exact H|constructor].
  - intros l e F y H. inversion H as [|? l' ? G|]; subst. cbn [descendants]. constructor; [exact H|].
    apply (flat_alike _ alike); [exact G|]. intros a a' I R. rewrite Forall_forall in F. auto.
  - intros l e F y H. inversion H as [| |? l' ? G]; subst. cbn [descendants]. constructor; [exact H|].
    apply (flat_alike _ _ _ _ _ G). intros a a' I [_ R]. rewrite Forall_forall in F. auto.
Qed.
Lemma characters_alike : forall s t u, alike_scalar s t -> characters s u -> characters t u.
Proof. intros s t u [A B] (T & c & E & D). split; [congruence|]. exists c. split; [congruence|exact D]. Qed.
Lemma spells_alike : forall s t n, alike_scalar s t -> spells s n -> spells t n.
Proof. intros s t n A (u & C & E). exists u. split; [eapply characters_alike; eauto|exact E]. Qed.
Lemma kept_alike : forall A (R : A -> A -> Prop) (P Q : A -> Prop) l l', Forall2 R l l' -> (forall a a', R a a' -> (P a <-> Q a')) ->
  forall i is, kept P i l is -> kept Q i l' is.
Proof.
  intros A R P Q l l' H K. induction H as [|a a' l l' HA H IH]; intros i is X; inversion X; subst; constructor; auto; specialize (K _ _ HA); tauto.
Qed.
Lemma nth_alike : forall A (R : A -> A -> Prop) l l', Forall2 R l l' -> forall i,
  match nth_error l i, nth_error l' i with Some a, Some a' => R a a' | None, None => True | _, _ => False end.
Proof. intros A R l l' H. induction H; intros [|i]; cbn; auto. apply IHForall2. Qed.
Lemma pick_alike : forall A (R : A -> A -> Prop) l l', Forall2 R l l' -> forall is, Forall2 R (pick l is) (pick l' is).
Proof.
  intros A R l l' H. induction is as [|i is IH]; cbn [pick flat_map]; [constructor|]. fold (pick l is) (pick l' is). apply Forall2_app; [|exact IH].
  pose proof (nth_alike _ _ _ _ H i) as N. destruct (nth_error l i), (nth_error l' i); try contradiction; repeat constructor; auto.
Qed.
Lemma members_values : forall l l', Forall2 (fun m m' : scalar * jval => alike_scalar (fst m) (fst m') /\ alike (snd m) (snd m')) l l' ->
  Forall2 alike (map snd l) (map snd l').
Proof. intros l l' H. induction H as [|m m' l l' [_ B] H IH]; constructor; auto. Qed.
Lemma concat_alike : forall ls ls', Forall2 (Forall2 alike) ls ls' -> Forall2 alike (concat ls) (concat ls').
Proof. intros ls ls' H. induction H; cbn [concat]; [constructor|]. now apply Forall2_app. Qed.
Lemma collect_alike : forall (R R' : jval -> list jval -> Prop),
  (forall x x' l, alike x x' -> R x l -> exists l', R' x' l' /\ Forall2 alike l l') ->
  forall xs ls, Forall2 R xs ls -> forall xs', Forall2 alike xs xs' -> exists ls', Forall2 R' xs' ls' /\ Forall2 (Forall2 alike) ls ls'.
Proof.
  intros R R' K xs ls H. induction H as [|x l xs ls HX H IH]; intros xs' A; inversion A as [|? x' ? ys AX AS]; subst; [exists []; repeat constructor|].
  destruct (K _ _ _ AX HX) as (l' & R1 & A1). destruct (IH _ AS) as (ls' & R2 & A2). exists (l' :: ls'). split; constructor; auto.
Qed.
Lemma merge_alike : forall is l l', Forall2 alike l l' -> forall b b', Forall2 (Forall2 alike) b b' -> forall i, Forall2 alike (merge i is l b) (merge i is l' b').
Proof.
  intros is l l' H. induction H as [|x x' l l' HX H IH]; intros b b' B i; [constructor|]. inversion B as [|y y' c c' HB BS]; subst; cbn [merge]; [constructor|].
  apply Forall2_app; [|apply Forall2_app; [exact HB|now apply IH]]. induction (count_occ Nat.eq_dec is i); constructor; auto.
Qed.
Lemma walk_alike : forall R R' : jval -> list nat -> Prop, (forall x x' is, alike x x' -> R x is -> R' x' is) ->
  forall x x' l, alike x x' -> walk R x l -> exists l', walk R' x' l' /\ Forall2 alike l l'.
Proof.
  intros R R' K x. pattern x. apply children_ind. clear x. intros x F x' l A W. inversion W as [? is below HR HB]; subst.
  pose proof (alike_children _ _ A) as AC.
  assert (B : exists b', Forall2 (walk R') (children x') b' /\ Forall2 (Forall2 alike) below b').
  { clear - F HB AC. revert F HB. generalize dependent below. induction AC as [|y y' l l' AY AC IH]; intros below F HB; inversion HB as [|? b ? bs H1 H2]; subst; [exists []; repeat constructor|].
    inversion F as [|? ? F1 F2]; subst. destruct (F1 _ _ AY H1) as (b' & W1 & A1). destruct (IH _ F2 H2) as (bs' & W2 & A2). exists (b' :: bs'). split; constructor; auto. }
  destruct B as (b' & W' & A'). eexists. split; [constructor; [eapply K; eauto|exact W']|]. now apply merge_alike.
Qed.

(** Comparisons. *)
Definition oalike (a b : option jval) : Prop :=
  match a, b with Some x, Some y => alike x y | None, None => True | _, _ => False end.
Lemma oalike_sym : forall a b, oalike a b -> oalike b a.
Proof. intros [x|] [y|] H; auto. now apply alike_sym. Qed.
Lemma same_scalar_alike : forall s t s' t', alike_scalar s s' -> alike_scalar t t' -> same_scalar_value s t -> same_scalar_value s' t'.
Proof.
  intros s t s' t' [A B] [C D] [E F]. split; [congruence|]. rewrite <- A, <- B, <- D. exact F.
Qed.
Lemma same_alike : forall x y x' y', alike x x' -> alike y y' -> same x y -> same x' y'.
Proof.
  unfold same. intro x. pattern x. apply jval_induction; clear x.
  - intros s y x' y' A B S. inversion S; subst. inversion A; subst. inversion B; subst. constructor. eapply same_scalar_alike; eauto.
  - intros l e F y x' y' A B S. inversion S as [|? ? l2 e2 I|]; subst. inversion A as [|? l' ? G|]; subst. inversion B as [|? l2' ? G2|]; subst. constructor.
    clear A B S. revert l' G l2' G2 F. induction I as [|u v l1 l2 HU I IH]; intros l' G l2' G2 F; inversion G; inversion G2; subst; [constructor|].
    inversion F; subst. constructor; eauto.
  - intros l e F y x' y' A B S. inversion S as [| |? ? l2 e2 m PE SM]; subst. inversion A as [| |? l' ? G]; subst. inversion B as [| |? l2' ? G2]; subst.
    destruct (Permutation_Forall2 (Permutation_sym PE) G2) as (m' & PE' & GM). apply same_object with (l := m'); [now apply Permutation_sym|].
    clear - SM G GM F. revert l' G m' GM F. induction SM as [|k u k' v l1 l2 HK HU SM IH]; intros l' G m' GM F; inversion G as [|? [k1 x1] ? ? [G1 G2] G3]; inversion GM as [|? [k2 x2] ? ? [M1 M2] M3]; subst; [constructor|].
    inversion F; subst. cbn [fst snd] in *. constructor; [eapply same_scalar_alike; eauto|eauto|auto].
Qed.
Lemma equal_alike : forall a b a' b', oalike a a' -> oalike b b' -> equal_values a b -> equal_values a' b'.
Proof.
  intros [x|] [y|] [x'|] [y'|] A B; cbn in *; try tauto. now apply same_alike.
Qed.
Lemma less_alike : forall a b a' b', oalike a a' -> oalike b b' -> less_values a b -> less_values a' b'.
Proof.
  intros [x|] [y|] [x'|] [y'|] A B H; cbn in A, B; try contradiction; cbn in H; try contradiction; try (destruct x; contradiction).
  destruct x as [s| |]; try contradiction. destruct y as [t| |]; try contradiction. inversion A as [? s' AS| |]; inversion B as [? t' BS| |]; subst.
  pose proof AS as [A1 A2]. pose proof BS as [B1 B2]. cbn. destruct H as [(T1 & T2 & H)|(u & v & C & D & L)]; [left|right].
  - rewrite <- A1, <- B1, <- A2, <- B2. auto.
  - exists u, v. split; [eapply characters_alike; eauto|]. split; [eapply characters_alike; eauto|exact L].
Qed.
Lemma compares_alike : forall op a b a' b', oalike a a' -> oalike b b' -> compares a op b -> compares a' op b'.
Proof.
  intros op a b a' b' A B H. pose proof (equal_alike _ _ _ _ A B) as E. pose proof (less_alike _ _ _ _ A B) as L. pose proof (less_alike _ _ _ _ B A) as G.
  pose proof (equal_alike _ _ _ _ (oalike_sym _ _ A) (oalike_sym _ _ B)) as N. destruct op; cbn [compares] in *; tauto.
Qed.
Lemma length_alike : forall a a' o, oalike a a' -> length_value a o -> length_value a' o.
Proof.
  intros [x|] [x'|] o A H; cbn in A; try contradiction; [|exact H]. inversion A as [s s' AS|l l' e G|l l' e G]; subst; cbn in *.
  - destruct H as [(u & C & E)|[T E]]; [left; exists u; split; [eapply characters_alike; eauto|exact E]|right; destruct AS; split; [congruence|exact E]].
  - now rewrite <- (forall2_length _ _ _ _ _ G).
  - now rewrite <- (forall2_length _ _ _ _ _ G).
Qed.
Lemma text_alike : forall a a' b, oalike a a' -> text_of a b -> text_of a' b.
Proof.
  intros [x|] [x'|] b A H; cbn in A; try contradiction. inversion A; subst; cbn in *; try contradiction. eapply spells_alike; eauto.
Qed.

(** Queries. *)
Section Alike.
  Variable matches : bytes -> bytes -> Prop.
  Variable strict : bool.

  Lemma step_alike : forall s x x' o, alike x x' -> step s x o -> exists o', step s x' o' /\ oalike o o'.
  Proof.
    intros s x x' o A H. destruct s as [n|i]; inversion A as [s s' AS|l l' e G|l l' e G]; subst; cbn [step] in *; try (subst o; exists None; split; [reflexivity|exact I]).
    - destruct H as (is & K & ->). eexists. split; [exists is; split; [|reflexivity]|].
      + eapply (kept_alike _ _ _ _ _ _ G); [|exact K]. intros m m' [AM _]. split; apply spells_alike; [exact AM|now apply alike_scalar_sym].
      + pose proof (nth_alike _ _ _ _ (pick_alike _ _ _ _ (members_values _ _ G) is) 0) as N. exact N.
    - subst o. eexists. split; [reflexivity|]. rewrite <- (forall2_length _ _ _ _ _ G). exact (nth_alike _ _ _ _ (pick_alike _ _ _ _ G _) 0).
  Qed.
  Lemma steps_alike : forall l x x' o, alike x x' -> steps l x o -> exists o', steps l x' o' /\ oalike o o'.
  Proof.
    induction l as [|s l IH]; intros x x' o A H; cbn [steps] in *; [subst o; exists (Some x'); split; [reflexivity|exact A]|].
    destruct H as (o1 & S & R). destruct (step_alike _ _ _ _ A S) as (o1' & S' & A'). destruct o1 as [y|], o1' as [y'|]; cbn in A'; try contradiction.
    - destruct (IH _ _ _ A' R) as (o' & R' & AO). exists o'. split; [exists (Some y'); auto|exact AO].
    - subst o. exists None. split; [exists None; auto|exact I].
  Qed.

  Lemma alike_ind :
    (forall q root root' x x' l, alike root root' -> alike x x' -> nodes matches strict root q x l -> exists l', nodes matches strict root' q x' l' /\ Forall2 alike l l') /\
    (forall g root root' x x' l, alike root root' -> alike x x' -> segment_nodes matches strict root g x l -> exists l', segment_nodes matches strict root' g x' l' /\ Forall2 alike l l') /\
    (forall s root root' x x' is, alike root root' -> alike x x' -> selects matches strict root s x is -> selects matches strict root' s x' is) /\
    (forall c root root' x x', alike root root' -> alike x x' -> holds matches strict root c x -> holds matches strict root' c x') /\
    (forall a root root' x x' o, alike root root' -> alike x x' -> value matches strict root a x o -> exists o', value matches strict root' a x' o' /\ oalike o o') /\
    (forall f root root' x x', alike root root' -> alike x x' ->
       (forall o, call_value matches strict root f x o -> exists o', call_value matches strict root' f x' o' /\ oalike o o') /\
       (call_holds matches strict root f x -> call_holds matches strict root' f x')) /\
    (forall a root root' x x', alike root root' -> alike x x' ->
       (forall o, arg_value matches strict root a x o -> exists o', arg_value matches strict root' a x' o' /\ oalike o o') /\
       (forall l, arg_nodes matches strict root a x l -> exists l', arg_nodes matches strict root' a x' l' /\ Forall2 alike l l')).
  Proof.
    apply path_ind.
    - intros r segs F root root' x x' l AR A H. cbn [nodes] in *.
      assert (AX : Forall2 alike [if r then root else x] [if r then root' else x']) by (destruct r; repeat constructor; assumption).
      revert AX H. generalize [if r then root else x] as xs, [if r then root' else x'] as xs'.
      induction F as [|g segs HG F IH]; intros xs xs' AX H; [subst l; exists xs'; split; [reflexivity|exact AX]|].
      destruct H as (ls & H1 & H2). destruct (collect_alike _ _ (fun y y' k AY => HG root root' y y' k AR AY) _ _ H1 _ AX) as (ls' & H1' & AL).
      destruct (IH _ _ (concat_alike _ _ AL) H2) as (l' & H2' & AL'). exists l'. split; [exists ls'; auto|exact AL'].
    - intros d sels F root root' x x' l AR A H. cbn [segment_nodes] in *.
      assert (CH : forall y y' is, alike y y' -> (exists iss, each (fun s => selects matches strict root s y) sels iss /\ is = concat iss) ->
                     exists iss, each (fun s => selects matches strict root' s y') sels iss /\ is = concat iss).
      { intros y y' is AY (iss & E & ->). exists iss. split; [|reflexivity]. clear - F AR AY E. revert iss E. induction F as [|s sels HS F IH]; intros [|i iss] E; cbn [each] in *; try contradiction; [exact I|].
        destruct E as [E1 E2]. split; eauto. }
      assert (CD : forall y y' k, alike y y' -> (exists is, (exists iss, each (fun s => selects matches strict root s y) sels iss /\ is = concat iss) /\ k = pick (children y) is) ->
                     exists k', (exists is, (exists iss, each (fun s => selects matches strict root' s y') sels iss /\ is = concat iss) /\ k' = pick (children y') is) /\ Forall2 alike k k').
      { intros y y' k AY (is & C & ->). eexists. split; [exists is; split; [eapply CH; eauto|reflexivity]|]. apply pick_alike. now apply alike_children. }
      destruct d; [destruct strict|].
      + destruct H as (ls & H & ->). destruct (collect_alike _ _ CD _ _ H _ (alike_descendants _ _ A)) as (ls' & H' & AL). exists (concat ls'). split; [exists ls'; auto|now apply concat_alike].
      + exact (walk_alike _ _ CH x x' l A H).
      + exact (CD x x' l A H).
    - intros n root root' x x' is AR A H. cbn [selects] in *. inversion A as [s s' AS|l l' e G|l l' e G]; subst; try exact H.
      eapply (kept_alike _ _ _ _ _ _ G); [|exact H]. intros m m' [AM _]. split; apply spells_alike; [exact AM|now apply alike_scalar_sym].
    - intros root root' x x' is AR A H. cbn [selects] in *. now rewrite <- (forall2_length _ _ _ _ _ (alike_children _ _ A)).
    - intros i root root' x x' is AR A H. cbn [selects] in *. inversion A as [s s' AS|l l' e G|l l' e G]; subst; try exact H; try reflexivity. now rewrite <- (forall2_length _ _ _ _ _ G).
    - intros a b s root root' x x' is AR A H. cbn [selects] in *. inversion A as [t t' AS|l l' e G|l l' e G]; subst; try exact H; try reflexivity. now rewrite <- (forall2_length _ _ _ _ _ G).
    - intros c HC root root' x x' is AR A H. cbn [selects] in *. eapply (kept_alike _ _ _ _ _ _ (alike_children _ _ A)); [|exact H].
      intros y y' AY. split; intro K; [exact (HC _ _ _ _ AR AY K)|exact (HC _ _ _ _ (alike_sym _ _ AR) (alike_sym _ _ AY) K)].
    - intros l F root root' x x' AR A H. cbn [holds] in *. induction F as [|c l HC F IH]; cbn [some] in *; [exact H|]. destruct H as [H|H]; [left; eauto|right; auto].
    - intros l F root root' x x' AR A H. cbn [holds] in *. induction F as [|c l HC F IH]; cbn [all] in *; [exact H|]. destruct H as [H1 H2]. split; eauto.
    - intros c HC root root' x x' AR A H. cbn [holds] in *. intro K. apply H. exact (HC _ _ _ _ (alike_sym _ _ AR) (alike_sym _ _ A) K).
    - intros a op b HA HB root root' x x' AR A (u & v & U & V & C). destruct (HA _ _ _ _ _ AR A U) as (u' & U' & AU). destruct (HB _ _ _ _ _ AR A V) as (v' & V' & AV).
      exists u', v'. split; [exact U'|]. split; [exact V'|]. eapply compares_alike; eauto.
    - intros q HQ root root' x x' AR A (y & l & N). destruct (HQ _ _ _ _ _ AR A N) as (l' & N' & AL). inversion AL; subst. eexists _, _. exact N'.
    - intros f HF root root' x x' AR A H. exact (proj2 (HF _ _ _ _ AR A) H).
    - intros s root root' x x' o AR A H. cbn [value] in *. subst o. eexists. split; [reflexivity|]. apply alike_refl.
    - intros [r l] root root' x x' o AR A H. cbn [value singular_node] in *. eapply steps_alike; [|exact H]. now destruct r.
    - intros f HF root root' x x' o AR A H. exact (proj1 (HF _ _ _ _ AR A) o H).
    - intros n args F root root' x x' AR A. split.
      + intros o H. cbn [call_value] in *. destruct args as [|a [|b args]]; try contradiction. inversion F as [|? ? HA _]; subst. destruct (HA _ _ _ _ AR A) as [HV HN].
        destruct H as [(E & v & V & L)|[(E & l & N & ->)|(E & l & N & ->)]].
        * destruct (HV _ V) as (v' & V' & AV). exists o. split; [left; split; [exact E|]; exists v'; split; [exact V'|eapply length_alike; eauto]|].
          destruct o; [apply alike_refl|exact I].
        * destruct (HN _ N) as (l' & N' & AL). eexists. split; [right; left; split; [exact E|]; exists l'; split; [exact N'|reflexivity]|]. rewrite (forall2_length _ _ _ _ _ AL). apply alike_refl.
        * destruct (HN _ N) as (l' & N' & AL). eexists. split; [right; right; split; [exact E|]; exists l'; split; [exact N'|reflexivity]|].
          inversion AL as [|? ? ? ? A1 A2]; subst; [exact I|]. inversion A2; subst; [exact A1|exact I].
      + intros H. cbn [call_holds] in *. destruct args as [|a [|b [|c args]]]; try contradiction. inversion F as [|? ? HA F2]; subst. inversion F2 as [|? ? HB _]; subst.
        destruct H as (u & v & U & V & H). destruct (proj1 (HA _ _ _ _ AR A) _ U) as (u' & U' & AU). destruct (proj1 (HB _ _ _ _ AR A) _ V) as (v' & V' & AV).
        exists u', v'. split; [exact U'|]. split; [exact V'|]. destruct H as [[E (t & p & T & P & M)]|[E (t1 & t & t2 & p & T & P & M)]]; [left|right]; (split; [exact E|]).
        * exists t, p. split; [eapply text_alike; eauto|]. split; [eapply text_alike; eauto|exact M].
        * exists t1, t, t2, p. split; [eapply text_alike; eauto|]. split; [eapply text_alike; eauto|exact M].
    - intros s root root' x x' AR A. split; [intros o H; cbn [arg_value] in *; subst o; eexists; split; [reflexivity|apply alike_refl]|intros l []].
    - intros q HQ root root' x x' AR A. split; [|intros l H; cbn [arg_nodes] in *; eauto].
      intros o [[N ->]|(y & N & ->)]; destruct (HQ _ _ _ _ _ AR A N) as (l' & N' & AL).
      + inversion AL; subst. exists None. split; [left; auto|exact I].
      + inversion AL as [|? y' ? ? AY A2]; subst. inversion A2; subst. exists (Some y'). split; [right; exists y'; auto|exact AY].
    - intros c _ root root' x x' AR A. split; [intros o []|intros l []].
    - intros f HF root root' x x' AR A. split; [intros o H; exact (proj1 (HF _ _ _ _ AR A) o H)|intros l []].
  Qed.
  Lemma nodes_alike : forall q x x' l, alike x x' -> nodes matches strict x q x l -> exists l', nodes matches strict x' q x' l' /\ Forall2 alike l l'.
  Proof. intros q x x' l A H. exact (proj1 alike_ind q x x' x x' l A A H). Qed.
End Alike.

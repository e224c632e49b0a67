(** Runs of the JSON encoder with different colours and fuel compared; the
    encoder terminates. *)
From Coq Require Import List Arith ZArith NArith Bool Lia.
From Verif Require Import Base Tokens JsonSpec EncSpec PrinterModel JsonEncModel JsonEncProofs.

Lemma wv_eq : forall col wl mi f v, write_value col wl mi (S f) v =
  match v with
  | EScalar s => pscalar col s
  | EObject => if (0 <? mi)%Z then write_object_compact col wl mi f
      else ebnd (pb open_object_bytes) (fun _ => object_items col wl mi f true false)
  | EArray => if (0 <? wl)%Z
      then ebnd (pb open_array_bytes) (fun _ => array_items_compact col wl mi f [] (-2)%Z true false)
      else ebnd (pb open_array_bytes) (fun _ => array_items col wl mi f true false)
  end.
Proof. reflexivity. Qed.

(** Two runs on the same tokens, related call by call by [C]. *)
Section Rel.
Variable col1 col2 : option colorizer.
Variable width_limit max_items : Z.
Variable C : list pcall -> list pcall -> Prop.
Variable Q : token -> Prop.
Hypothesis C_nil : C [] [].
Hypothesis C_app : forall a a' b b', C a a' -> C b b' -> C (a ++ b) (a' ++ b').
Hypothesis C_ind : C [PIndent] [PIndent].
Hypothesis C_ded : C [PDedent] [PDedent].
Hypothesis C_nl : C [PNewLine] [PNewLine].
Hypothesis C_b : forall b, In b [elision_bytes; open_object_bytes; close_object_bytes;
  open_array_bytes; close_array_bytes; item_separator_bytes; compact_item_separator_bytes;
  key_value_separator_bytes] -> C [PBytes b] [PBytes b].
Hypothesis C_s : forall s, Q (TScalar s) -> C (print_scalar col1 s) (print_scalar col2 s).

Definition QV (v : evalue) : Prop := match v with EScalar s => Q (TScalar s) | _ => True end.

Definition erel {A} (RA : A -> Prop) (m1 m2 : enc A) : Prop := forall ts, Forall Q ts ->
  snd (m1 ts) = EFuel \/
  (snd (m2 ts) = snd (m1 ts) /\ C (fst (m1 ts)) (fst (m2 ts)) /\
   match snd (m1 ts) with EDone a r => RA a /\ Forall Q r | _ => True end).

Lemma erel_bind : forall A B (RA : A -> Prop) (RB : B -> Prop) m1 m2 f1 f2,
  erel RA m1 m2 -> (forall a, RA a -> erel RB (f1 a) (f2 a)) ->
  erel RB (ebnd m1 f1) (ebnd m2 f2).
Proof.
  intros A B RA RB m1 m2 f1 f2 H1 H2 ts F. unfold ebnd.
  destruct (H1 ts F) as [E|[E [HC P]]].
  - destruct (m1 ts) as [c1 o1]. simpl in E. subst o1. left. reflexivity.
  - destruct (m1 ts) as [c1 o1], (m2 ts) as [c2 o2]. cbn [fst snd] in *. subst o2.
    destruct o1 as [a r| |]; [|right; repeat split; auto..].
    destruct P as [PA PR]. destruct (H2 a PA r PR) as [E|[E [HC' P']]].
    + destruct (f1 a r) as [c1' o1]. simpl in E. subst o1. left. reflexivity.
    + destruct (f1 a r) as [c1' o1], (f2 a r) as [c2' o2]. cbn [fst snd] in *. right. auto.
Qed.

Lemma erel_ret : forall A (RA : A -> Prop) a, RA a -> erel RA (eret a) (eret a).
Proof. intros A RA a H ts F. right. simpl. auto. Qed.
Lemma erel_fuel : forall A (RA : A -> Prop) m, erel RA efuel m.
Proof. intros A RA m ts F. left. reflexivity. Qed.
Lemma erel_panic : forall A (RA : A -> Prop), erel RA epanic epanic.
Proof. intros A RA ts F. right. simpl. auto. Qed.
Lemma erel_calls : forall cs cs', C cs cs' -> erel (fun _ => True) (ecalls cs) (ecalls cs').
Proof. intros cs cs' H ts F. right. simpl. auto. Qed.
Lemma erel_pb : forall b, In b [elision_bytes; open_object_bytes; close_object_bytes;
  open_array_bytes; close_array_bytes; item_separator_bytes; compact_item_separator_bytes;
  key_value_separator_bytes] -> erel (fun _ => True) (pb b) (pb b).
Proof. intros b H. apply erel_calls. auto. Qed.
Lemma erel_scalar : forall s, Q (TScalar s) ->
  erel (fun _ => True) (pscalar col1 s) (pscalar col2 s).
Proof. intros s H. apply erel_calls. auto. Qed.

Lemma erel_next_value : forall t, Q t -> erel QV (next_value t) (next_value t).
Proof. intros [] H; cbn [next_value]; try apply erel_panic; apply erel_ret; simpl; auto. Qed.

Definition QKV (x : option (scalar * evalue) * bool) : Prop :=
  match fst x with Some (k, v) => Q (TScalar k) /\ QV v | None => True end.
Definition QOV (x : option evalue * bool) : Prop :=
  match fst x with Some v => QV v | None => True end.

Lemma erel_obj_advance : erel QKV obj_advance obj_advance.
Proof.
  intros ts F. unfold obj_advance. generalize false.
  induction F as [|t ts Ht F IH]; intros el; [right; simpl; auto|].
  destruct t; cbn [obj_advance_l]; try (right; simpl; auto; fail).
  - right. simpl. repeat split; auto.
  - apply IH.
  - destruct F as [|t ts Ht2 F]; [right; simpl; auto|].
    destruct t; simpl; right; repeat split; auto.
Qed.

Lemma erel_arr_advance : erel QOV arr_advance arr_advance.
Proof.
  intros ts F. unfold arr_advance. generalize false.
  induction F as [|t ts Ht F IH]; intros el; [right; simpl; auto|].
  destruct t; cbn [arr_advance_l]; try (right; simpl; repeat split; auto; fail).
  apply IH.
Qed.

Lemma erel_true : forall A (RA : A -> Prop) m1 m2, erel RA m1 m2 -> erel (fun _ => True) m1 m2.
Proof.
  intros A RA m1 m2 H ts F. destruct (H ts F) as [E|[E [HC P]]]; auto.
  right. repeat split; auto. destruct (snd (m1 ts)); tauto.
Qed.

Definition QP (l : list (scalar * evalue)) : Prop :=
  Forall (fun m => Q (TScalar (fst m)) /\ QV (snd m)) l.

Lemma erel_collect : forall f g pending total el, f <= g -> QP pending ->
  erel (fun x => QP (fst (fst x))) (collect_items width_limit max_items f pending total el)
    (collect_items width_limit max_items g pending total el).
Proof.
  induction f as [|f IH]; intros [|g] pending total el L H; try lia; try apply erel_fuel.
  cbn [collect_items]. eapply erel_bind; [apply erel_obj_advance|].
  intros [[[k v]|] el1] HA; [|apply erel_ret; auto].
  assert (QP (pending ++ [(k, v)])).
  { apply Forall_app. split; auto. }
  destruct v; [destruct (_ && _)|..]; try (apply erel_ret; auto); apply IH; auto; lia.
Qed.

Lemma erel_items : forall is first, Forall (fun s => Q (TScalar s)) is ->
  erel (fun _ => True) (write_items col1 first is) (write_items col2 first is).
Proof.
  induction is as [|s is IH]; intros first F; [apply erel_ret; auto|].
  inversion F; subst. cbn [write_items].
  eapply erel_bind; [destruct first; [apply (erel_ret _ (fun _ => True)); auto|apply erel_pb; simpl; tauto]|].
  intros _ _. eapply erel_bind; [apply erel_scalar; auto|]. intros _ _. apply IH; auto.
Qed.

Ltac er :=
  repeat first
    [ apply erel_items; assumption
    | apply erel_pb; simpl; tauto
    | apply erel_calls; assumption
    | apply erel_scalar; assumption
    | apply (erel_ret _ (fun _ => True)); exact I
    | eapply erel_bind; [|intros ? _]
    | match goal with |- erel _ (if ?b then _ else _) _ => destruct b end ].

Theorem erel_write : forall f g, f <= g ->
  (forall v, QV v -> erel (fun _ => True) (write_value col1 width_limit max_items f v)
                       (write_value col2 width_limit max_items g v)) /\
  (forall first el, erel (fun _ => True) (object_items col1 width_limit max_items f first el)
                       (object_items col2 width_limit max_items g first el)) /\
  (forall c first l, QP l -> erel (fun _ => True) (write_pending col1 width_limit max_items f c first l)
                       (write_pending col2 width_limit max_items g c first l)) /\
  erel (fun _ => True) (write_object_compact col1 width_limit max_items f)
                       (write_object_compact col2 width_limit max_items g) /\
  (forall el, erel (fun _ => True) (object_rest col1 width_limit max_items f el)
                       (object_rest col2 width_limit max_items g el)) /\
  (forall first el, erel (fun _ => True) (array_items col1 width_limit max_items f first el)
                       (array_items col2 width_limit max_items g first el)) /\
  (forall is total first el, Forall (fun s => Q (TScalar s)) is ->
     erel (fun _ => True) (array_items_compact col1 width_limit max_items f is total first el)
                       (array_items_compact col2 width_limit max_items g is total first el)).
Proof.
  induction f as [|f IH]; intros [|g] L; try lia;
    [repeat split; intros; apply erel_fuel..|].
  destruct (IH g ltac:(lia)) as [IV [IO [IP [IC [IR [IA IAC]]]]]]. clear IH.
  repeat split.
  - intros v HV. rewrite !wv_eq. destruct v; [apply erel_scalar; exact HV|..].
    + destruct (0 <? max_items)%Z; [exact IC|]. er. apply IO.
    + destruct (0 <? width_limit)%Z; er; [apply IAC; constructor|apply IA].
  - intros first el. cbn [object_items]. eapply erel_bind; [apply erel_obj_advance|].
    intros [[[k v]|] el1] HA.
    + destruct HA as [HK HV]. er; first [apply IV; exact HV|apply IO].
    + er.
  - intros c first l H. cbn [write_pending]. destruct l as [|[k v] l]; [er|].
    inversion H as [|? ? [HK HV] HL]; subst. cbn [fst snd] in *.
    er; first [apply IV; exact HV | apply IP; exact HL].
  - cbn [write_object_compact]. eapply erel_bind; [apply erel_collect; [lia|constructor]|].
    intros [[pending compact] el] HP. cbn [fst] in HP.
    er; first [apply IP; exact HP | apply IR].
  - intros el. cbn [object_rest]. eapply erel_bind; [apply erel_obj_advance|].
    intros [[[k v]|] el1] HA.
    + destruct HA as [HK HV]. er; first [apply IV; exact HV|apply IR].
    + er.
  - intros first el. cbn [array_items]. eapply erel_bind; [apply erel_arr_advance|].
    intros [[v|] el1] HV.
    + er; first [apply IV; exact HV|apply IA].
    + er.
  - intros is total first el FI. cbn [array_items_compact].
    eapply erel_bind; [apply erel_arr_advance|].
    intros [[v|] el1] HV.
    + destruct v as [s| |].
      * destruct (_ <=? _)%Z; [apply IAC; apply Forall_app; split; auto; constructor; auto|].
        destruct is as [|s0 is].
        -- er; first [apply IV; exact HV|apply IAC; constructor].
        -- er. all: try (apply erel_items; exact FI). all: try (apply IV; exact HV). all: try (apply IAC; repeat constructor; exact HV). 
      * destruct is as [|s0 is];
          er; first [apply erel_items; exact FI|apply IV; exact HV|apply IAC; repeat constructor].
      * destruct is as [|s0 is];
          er; first [apply erel_items; exact FI|apply IV; exact HV|apply IAC; repeat constructor].
    + destruct is as [|s0 is]; er.
Qed.

Lemma erel_next : erel (fun x => match x with Some t => Q t | None => True end) enext enext.
Proof.
  intros ts F. right. destruct F; simpl; auto.
Qed.

Hypothesis C_reset : C [PReset] [PReset].

Theorem erel_consume : forall f g, f <= g ->
  erel (fun _ => True) (consume_loop col1 width_limit max_items f)
    (consume_loop col2 width_limit max_items g).
Proof.
  induction f as [|f IH]; intros [|g] L; try lia; try apply erel_fuel.
  cbn [consume_loop]. eapply erel_bind; [apply erel_next|]. intros [t|] HT; [|er].
  eapply erel_bind; [apply erel_next_value; exact HT|]. intros v HV.
  eapply erel_bind; [apply erel_write; [lia|exact HV]|]. intros _ _.
  er. apply IH. lia.
Qed.
End Rel.

(** More fuel does not change a run that had enough. *)
Theorem consume_mono : forall col wl mi f g ts, f <= g ->
  snd (consume_loop col wl mi f ts) <> EFuel ->
  consume_loop col wl mi g ts = consume_loop col wl mi f ts.
Proof.
  intros col wl mi f g ts L H.
  destruct (erel_consume col col wl mi eq (fun _ => True) eq_refl
    ltac:(intros; subst; reflexivity) eq_refl eq_refl eq_refl (fun _ _ => eq_refl)
    (fun _ _ => eq_refl) eq_refl f g L ts) as [E|[E [E' _]]].
  - apply Forall_forall. auto.
  - congruence.
  - destruct (consume_loop col wl mi g ts), (consume_loop col wl mi f ts). simpl in *. congruence.
Qed.

(** Termination. *)
Definition lands {A} (m : enc A) (ts : list token) (P : A -> list token -> Prop) : Prop :=
  match snd (m ts) with EFuel => False | EPanic => True | EDone a r => P a r end.

Lemma lands_bind : forall A B (m : enc A) (f : A -> enc B) ts P,
  lands m ts (fun a r => lands (f a) r P) -> lands (ebnd m f) ts P.
Proof.
  intros A B m f ts P. unfold lands, ebnd. destruct (m ts) as [cs [a r| |]]; simpl; auto.
  destruct (f a r); auto.
Qed.
Lemma lands_conseq : forall A (m : enc A) ts (P P' : A -> list token -> Prop),
  lands m ts P -> (forall a r, P a r -> P' a r) -> lands m ts P'.
Proof. intros A m ts P P'. unfold lands. destruct (snd (m ts)); auto. Qed.
Lemma lands_ret : forall A (a : A) ts (P : A -> list token -> Prop), P a ts -> lands (eret a) ts P.
Proof. auto. Qed.
Lemma lands_calls : forall cs ts (P : unit -> list token -> Prop), P tt ts -> lands (ecalls cs) ts P.
Proof. auto. Qed.
Lemma lands_scalar : forall col s ts (P : unit -> list token -> Prop), P tt ts -> lands (pscalar col s) ts P.
Proof. auto. Qed.
Lemma lands_pb : forall b ts (P : unit -> list token -> Prop), P tt ts -> lands (pb b) ts P.
Proof. auto. Qed.
Lemma lands_next_value : forall t ts, lands (next_value t) ts (fun _ r => r = ts).
Proof. destruct t; unfold lands; simpl; auto. Qed.
Lemma lands_items : forall col is first ts, lands (write_items col first is) ts (fun _ r => r = ts).
Proof.
  induction is as [|s is IH]; intros first ts; [reflexivity|]. cbn [write_items].
  apply lands_bind. destruct first; [apply lands_ret|apply lands_pb]; apply lands_bind, lands_scalar, IH.
Qed.

Lemma lands_obj_advance : forall ts, lands obj_advance ts (fun x r =>
  match fst x with Some _ => length r + 2 <= length ts | None => length r + 1 <= length ts end).
Proof.
  intros ts. unfold lands, obj_advance. generalize false.
  induction ts as [|t ts IH]; intros el; [exact I|].
  destruct t; cbn [obj_advance_l]; try exact I.
  - simpl. lia.
  - specialize (IH true). destruct (snd (obj_advance_l ts true)) as [[[x|] e] r| |]; simpl in *; auto; lia.
  - destruct ts as [|t ts]; [exact I|]. destruct t; simpl; auto; lia.
Qed.
Lemma lands_arr_advance : forall ts, lands arr_advance ts (fun _ r => length r + 1 <= length ts).
Proof.
  intros ts. unfold lands, arr_advance. generalize false.
  induction ts as [|t ts IH]; intros el; [exact I|].
  destruct t; cbn [arr_advance_l]; simpl; try exact I; try lia.
  specialize (IH true). destruct (snd (arr_advance_l ts true)) as [x r| |]; simpl in *; auto; lia.
Qed.

Lemma lands_collect : forall wl mi f pending total el ts, length ts + 1 <= f ->
  lands (collect_items wl mi f pending total el) ts (fun x r =>
    2 * length (fst (fst x)) + length r <= 2 * length pending + length ts /\
    (snd (fst x) = false -> fst (fst x) <> [])).
Proof.
  induction f as [|f IH]; intros pending total el ts L; [lia|].
  cbn [collect_items]. apply lands_bind. eapply lands_conseq; [apply lands_obj_advance|].
  intros [[[k v]|] el1] r H; cbn [fst] in H; [|apply lands_ret; simpl; split; [lia|discriminate]].
  assert (NE : pending ++ [(k, v)] <> []) by (destruct pending; discriminate).
  destruct v as [s| |]; [destruct (_ && _)|..];
    try (apply lands_ret; cbn [fst snd]; split; [rewrite app_length; simpl; lia|auto]).
  eapply lands_conseq; [apply IH; lia|]. intros x r' [H1 H2]. rewrite app_length in H1. simpl in H1.
  split; [lia|auto].
Qed.

Ltac ld := cbv beta; repeat (match goal with
  | |- lands (ebnd _ _) _ _ => apply lands_bind
  | |- lands (pb _) _ _ => apply lands_pb
  | |- lands (ecalls _) _ _ => apply lands_calls
  | |- lands (eret _) _ _ => apply lands_ret
  | |- lands (pscalar _ _) _ _ => apply lands_scalar
  | |- lands (if ?b then _ else _) _ _ => destruct b
  end; cbv beta).
Ltac use H := eapply lands_conseq; [apply H; cbn [length] in *; lia|]; cbv beta; intros ? ? ?.

Theorem lands_write : forall col wl mi f,
  (forall v ts, 2 * length ts + 3 <= f ->
     lands (write_value col wl mi f v) ts (fun _ r => length r <= length ts)) /\
  (forall first el ts, 2 * length ts + 1 <= f ->
     lands (object_items col wl mi f first el) ts (fun _ r => length r <= length ts)) /\
  (forall c first l ts, (l = [] -> 1 <= f) -> (l <> [] -> length l + 2 * length ts + 3 <= f) ->
     lands (write_pending col wl mi f c first l) ts (fun _ r => length r <= length ts)) /\
  (forall ts, 2 * length ts + 2 <= f ->
     lands (write_object_compact col wl mi f) ts (fun _ r => length r <= length ts)) /\
  (forall el ts, 2 * length ts + 1 <= f ->
     lands (object_rest col wl mi f el) ts (fun _ r => length r <= length ts)) /\
  (forall first el ts, 2 * length ts + 2 <= f ->
     lands (array_items col wl mi f first el) ts (fun _ r => length r <= length ts)) /\
  (forall is total first el ts, 2 * length ts + 2 <= f ->
     lands (array_items_compact col wl mi f is total first el) ts (fun _ r => length r <= length ts)).
Proof.
  intros col wl mi. induction f as [|f [IV [IO [IP [IC [IR [IA IAC]]]]]]].
  { repeat split; intros; try lia. destruct l; [specialize (H eq_refl)|specialize (H0 ltac:(discriminate))]; lia. }
  repeat split.
  - intros v ts L. rewrite wv_eq. destruct v; ld; try lia.
    + apply IC. lia.
    + apply IO; lia.
    + apply IAC; lia.
    + apply IA; lia.
  - intros first el ts L. cbn [object_items]. ld.
    eapply lands_conseq; [apply lands_obj_advance|]. intros [[[k v]|] el1] r H; cbn [fst] in H; ld; try lia.
    all: use IV; use IO; lia.
  - intros c first l ts L1 L2. cbn [write_pending]. destruct l as [|[k v] l]; [ld; lia|].
    specialize (L2 ltac:(discriminate)). cbn [length] in L2.
    ld; use IV; (eapply lands_conseq; [apply IP; intros; lia|]); cbv beta; intros; lia.
  - intros ts L. cbn [write_object_compact]. apply lands_bind.
    eapply lands_conseq; [apply lands_collect; lia|].
    intros [[pending compact] el] r [H1 H2]. cbn [fst snd length] in H1, H2.
    destruct pending as [|m pending].
    + destruct compact; [|exfalso; apply H2; auto].
      ld; (eapply lands_conseq; [apply IP; [lia|congruence]|]); intros; ld; simpl in *; lia.
    + ld; (eapply lands_conseq; [apply IP; [lia|intros _; cbn [length] in *; lia]|]); cbv beta; intros; ld; cbn [length] in *; try lia.
      use IR. ld. lia.
  - intros el ts L. cbn [object_rest]. ld.
    eapply lands_conseq; [apply lands_obj_advance|]. intros [[[k v]|] el1] r H; cbn [fst] in H; ld; try lia.
    all: use IV; use IR; lia.
  - intros first el ts L. cbn [array_items]. ld.
    eapply lands_conseq; [apply lands_arr_advance|]. intros [[v|] el1] r H; ld; try lia.
    all: use IV; use IA; lia.
  - intros is total first el ts L. cbn [array_items_compact]. ld.
    eapply lands_conseq; [apply lands_arr_advance|]. intros [[v|] el1] r H; cbv beta in H.
    + assert (ALONE : forall total, lands (write_value col wl mi f v) r (fun _ r' =>
        lands (array_items_compact col wl mi f [] total false (el || el1)) r' (fun _ r => length r <= length ts))).
      { intros. use IV. use IAC. lia. }
      assert (G : forall is total first, lands (array_items_compact col wl mi f is total first (el || el1)) r (fun _ r => length r <= length ts)).
      { intros. use IAC. lia. }
      destruct v as [s| |]; [destruct (_ <=? _)%Z; [apply G|]|..];
        (destruct is as [|s0 is]; [ld; apply ALONE|]);
        ld; (eapply lands_conseq; [apply lands_items|]); cbv beta; intros ? ? ->; ld; auto.
    + destruct is as [|s0 is]; ld; try lia;
        (eapply lands_conseq; [apply lands_items|]); cbv beta; intros ? ? ->; ld; lia.
Qed.

Theorem lands_consume : forall col wl mi f ts, 2 * length ts + 2 <= f ->
  lands (consume_loop col wl mi f) ts (fun _ _ => True).
Proof.
  induction f as [|f IH]; intros ts L; [lia|]. cbn [consume_loop]. apply lands_bind.
  destruct ts as [|t ts]; [unfold lands; simpl; exact I|].
  unfold lands at 1; cbn [enext snd]. cbn [length] in L.
  apply lands_bind. eapply lands_conseq; [apply lands_next_value|]. intros v r ->.
  apply lands_bind. destruct (lands_write col wl mi f) as [IV _].
  use IV. ld. apply IH. lia.
Qed.

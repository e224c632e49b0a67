(** ParseNumber on any input: it stops before the first byte that cannot continue
    the number; the text up to there is a number, or the call fails. *)
From Coq Require Import List Arith NArith Bool Lia.
From Verif Require Import Base Tokens ScannerModel ScannerSpec ScannerProofs
  ProgModel ProgProofs JsonDecModel JsonSpec JsonDecProofs.

Local Notation st := (st RdEOF).
Local Notation peeked := (peeked RdEOF).

Definition next_not (P : N -> Prop) (r : bytes) : Prop := match r with c :: _ => ~ P c | [] => True end.
Definition exp_byte (b : N) : Prop := b = 101%N \/ b = 69%N.
Definition exp_closed (e r : bytes) : Prop := (e = [] -> next_not exp_byte r) /\ (e <> [] -> next_not digit r).
Definition frac_closed (fr e r : bytes) : Prop :=
  exp_closed e r /\ (fr = [] -> e = [] -> next_not (eq 46%N) r) /\ (fr <> [] -> e = [] -> next_not digit r).
Definition closed (i fr e r : bytes) : Prop :=
  frac_closed fr e r /\ (i <> [48%N] -> fr = [] -> e = [] -> next_not digit r).

Lemma next_peeked : forall (P : N -> Prop) a s tk b, peeked a s tk b -> ~ P b -> next_not P s.
Proof. intros P a s tk b PK H. destruct s as [|c r]; [exact I|]. apply peeked_hd in PK. now subst. Qed.
Lemma peeked_next : forall (P : N -> Prop) a s tk b, peeked a s tk b -> next_not P s -> ~ P EOFb -> ~ P b.
Proof.
  intros P a s tk b PK H NE. destruct s as [|c r].
  - apply peeked_nil in PK. now subst.
  - apply peeked_hd in PK. now subst.
Qed.
Lemma next_stops : forall P r, next_not P r -> stops RdEOF P r.
Proof. intros P [|c r] H; [left; auto|right; eauto]. Qed.

Lemma digits_any : forall f a s tk n, st a s (Some tk) -> bk a -> length s < f ->
  runs a (read_digits f n) (fun a' ts x => ts = [] /\
    match x with
    | DOk (b, n') => exists ds s', s = ds ++ s' /\ Forall digit ds /\ n' = n + length ds /\
                       peeked a' s' (Some (tk ++ ds)) b /\ next_not digit s'
    | DErr _ => True
    end).
Proof.
  induction f as [|f IH]; intros a s tk n S B L; [lia|]. cbn [read_digits].
  apply runs_ebind. eapply runs_conseq; [apply (wp_read_bk RdEOF); eauto|].
  cbv beta. intros a1 t x [-> [[b [-> P]]|[-> _]]]; [|auto].
  destruct (N.eqb b EOFb || negb (is_digit b)) eqn:E.
  - apply runs_ret. split; auto. exists [], s. rewrite app_nil_r.
    repeat (split; [solve [auto | simpl; lia]|]).
    eapply next_peeked; eauto. intro D. apply orb_true_iff in E as [E|E].
    + apply N.eqb_eq in E. subst b. unfold digit, EOFb in D. lia.
    + apply is_digit_spec in D. rewrite D in E. discriminate.
  - apply orb_false_iff in E. destruct E as [E1 E2].
    apply negb_false_iff in E2. apply is_digit_spec in E2. apply N.eqb_neq in E1.
    destruct (peeked_cons _ _ _ _ _ P E1) as [r ->]. apply peeked_st in P. destruct P as [S1 B1].
    eapply runs_conseq; [apply (IH a1 r); [exact S1|exact B1|simpl in L; lia]|].
    cbv beta. intros a2 t2 x [-> R]. split; auto. destruct x as [[b' n']|e]; auto.
    destruct R as [ds [s' [-> [F [-> [P NX]]]]]]. exists (b :: ds), s'.
    split; auto. split; [constructor; auto|]. split; [simpl; lia|].
    rewrite <- app_assoc in P. auto.
Qed.

Lemma exp_any : forall f a s tk b, peeked a s (Some tk) b -> length s < f ->
  runs a (number_exp f b) (fun a' ts x => ts = [] /\
    match x with
    | DOk sc => exists e r, s = e ++ r /\ exp_text e /\ exp_closed e r /\ sc = new_scalar TNum (tk ++ e) /\
                  st a' r None
    | DErr _ => True
    end).
Proof.
  intros f a s tk b P L. unfold number_exp.
  destruct (N.eqb b 101 || N.eqb b 69) eqn:E.
  - apply orb_true_iff in E. rewrite !N.eqb_eq in E.
    assert (NE : b <> EOFb) by (unfold EOFb; lia).
    destruct (peeked_cons _ _ _ _ _ P NE) as [s1 ->]. apply peeked_st in P. destruct P as [S1 B1].
    apply runs_ebind. eapply runs_conseq; [eapply (wp_peek RdEOF); eauto|].
    cbv beta. intros a1 t x [-> [-> R]].
    assert (TAIL : forall a sg s2, st a s2 (Some (tk ++ b :: sg)) -> bk a ->
       (sg = [] \/ sg = [43%N] \/ sg = [45%N]) -> length s2 < f -> s1 = sg ++ s2 ->
       runs a (ebind (read_digits f 0) (fun '(_, n) =>
          if Nat.eqb n 0 then pbind (op_unit SBack) (fun _ => unexpected_byte)
          else pbind (op_unit SBack) (fun _ => pbind end_token
                 (fun t => Ret (DOk (new_scalar TNum t))))))
        (fun a' ts x => ts = [] /\
          match x with
          | DOk sc => exists e r, b :: s1 = e ++ r /\ exp_text e /\ exp_closed e r /\
                        sc = new_scalar TNum (tk ++ e) /\ st a' r None
          | DErr _ => True
          end)).
    { clear a S1 B1 R L. intros a sg s2 S B SG L ->. apply runs_ebind.
      eapply runs_conseq; [apply (digits_any f a s2 (tk ++ b :: sg)); auto|].
      cbv beta. intros a1 t1 y [-> R]. destruct y as [[b' n]|e]; [|auto].
      destruct R as [ds [s' [-> [F [-> [P NX]]]]]]. simpl plus.
      destruct (Nat.eqb_spec (length ds) 0) as [Z|Z].
      - eapply runs_conseq; [eapply wp_back_unexpected; eauto|].
        cbv beta. intros a2 t2 y [-> [e ->]]. auto.
      - eapply runs_conseq; [eapply wp_number_end; eauto|].
        cbv beta. intros a2 t2 y [-> [-> S2]]. split; auto.
        exists (b :: sg ++ ds), s'. split; [cbn [app]; now rewrite app_assoc|].
        split.
        { right. exists b, sg, ds. repeat split; auto; try tauto; try (intros ->; apply Z; reflexivity). }
        split; [split; [discriminate|intros _; exact NX]|].
        split; [|exact S2]. rewrite <- app_assoc. reflexivity. }
    destruct s1 as [|c s2].
    + destruct R as [->|[_ [e ->]]]; [|auto]. cbn [N.eqb Pos.eqb orb]. apply runs_bind.
      replace ((EOFb =? 45)%N || (EOFb =? 43)%N) with false by reflexivity.
      apply runs_ret. cbn [app]. apply (TAIL a [] []); auto.
      simpl in L. simpl. lia.
    + subst x. apply runs_bind. fold (is_sign c). destruct (is_sign c) eqn:SG.
      * apply is_sign_spec in SG.
        eapply runs_conseq; [eapply wp_read_unit_bk; eauto|].
        cbv beta. intros a2 t2 _ [-> [S2 B2]]. cbn [app].
        apply (TAIL a2 [c] s2); auto.
        -- cbn [tok_app] in S2. rewrite <- app_assoc in S2. exact S2.
        -- destruct SG; subst; auto.
        -- simpl in L. lia.
      * apply runs_ret. cbn [app]. apply (TAIL a [] (c :: s2)); auto.
        simpl in *. lia.
  - assert (NX : next_not exp_byte s).
    { eapply next_peeked; eauto. intros [->| ->]; discriminate. }
    eapply runs_conseq; [eapply wp_number_end; eauto|].
    cbv beta. intros a2 t2 y [-> [-> S2]]. split; auto.
    exists [], s. split; auto. split; [now left|]. split; [split; [auto|congruence]|]. rewrite app_nil_r. auto.
Qed.

Lemma exp_ok : forall f a e r tk b, exp_text e -> exp_closed e r ->
  peeked a (e ++ r) (Some tk) b -> length e < f ->
  runs a (number_exp f b) (fun a' ts x => ts = [] /\
    x = DOk (new_scalar TNum (tk ++ e)) /\ st a' r None).
Proof.
  intros f a e r tk b [->|[eb [sg [ds [-> [EB [SG [NE F]]]]]]]] [C1 C2] P L; unfold number_exp.
  - assert (NB : ~ exp_byte b) by (eapply peeked_next; eauto; unfold exp_byte, EOFb; lia).
    replace (N.eqb b 101 || N.eqb b 69) with false.
    2:{ symmetry. apply orb_false_iff. rewrite !N.eqb_neq. unfold exp_byte in NB. tauto. }
    rewrite app_nil_r. eapply wp_number_end; eauto.
  - cbn [app] in P. pose proof (peeked_hd _ _ _ _ _ _ P); subst eb.
    replace (N.eqb b 101 || N.eqb b 69) with true.
    2:{ symmetry. apply orb_true_iff. rewrite !N.eqb_eq. tauto. }
    apply peeked_st in P. destruct P as [S1 B1].
    assert (ST : stops RdEOF digit r) by (apply next_stops, C2; discriminate).
    assert (TAIL : forall a, st a (ds ++ r) (Some (tk ++ b :: sg)) -> bk a ->
       runs a (ebind (read_digits f 0) (fun '(_, n) =>
          if Nat.eqb n 0 then pbind (op_unit SBack) (fun _ => unexpected_byte)
          else pbind (op_unit SBack) (fun _ => pbind end_token
                 (fun t => Ret (DOk (new_scalar TNum t))))))
        (fun a' ts x => ts = [] /\
          x = DOk (new_scalar TNum (tk ++ b :: sg ++ ds)) /\ st a' r None)).
    { clear a S1 B1. intros a S B. apply runs_ebind.
      eapply runs_conseq; [apply (wp_digits_ok RdEOF ds f a r (tk ++ b :: sg)); auto|].
      - simpl in L. rewrite app_length in L. lia.
      - cbv beta. intros a1 t1 y [-> [b' [-> P]]]. simpl plus.
        destruct (Nat.eqb_spec (length ds) 0) as [Z|Z]; [destruct ds; [congruence|discriminate]|].
        eapply runs_conseq; [eapply wp_number_end; eauto|].
        cbv beta. intros a2 t2 y [-> [-> S2]]. split; auto. split; [|exact S2].
        rewrite <- app_assoc. reflexivity. }
    destruct ds as [|d ds]; [congruence|]. inversion F; subst.
    apply runs_ebind. eapply runs_conseq; [eapply (wp_peek RdEOF); eauto|].
    cbv beta. intros a1 t x [-> [-> R]]. rewrite <- app_assoc in R.
    destruct SG as [->|SG].
    + cbn [app] in R, S1. subst x. apply runs_bind.
      replace (N.eqb d 45 || N.eqb d 43) with false.
      2:{ symmetry. apply orb_false_iff. rewrite !N.eqb_neq. unfold digit in *. lia. }
      apply runs_ret. cbn [app]. apply TAIL; [|exact B1]. exact S1.
    + assert (SG' : exists g, sg = [g] /\ (g = 43%N \/ g = 45%N)) by (destruct SG; eauto).
      destruct SG' as [g [-> G]]. cbn [app] in R, S1. subst x. apply runs_bind.
      apply is_sign_spec in G. fold (is_sign g). rewrite G.
      eapply runs_conseq; [eapply wp_read_unit_bk; eauto|].
      cbv beta. intros a2 t2 _ [-> [S2 B2]]. cbn [app]. apply TAIL; [|exact B2].
      cbn [tok_app] in S2. rewrite <- app_assoc in S2. exact S2.
Qed.

Lemma frac_any : forall f a s tk b, peeked a s (Some tk) b -> length s < f ->
  runs a (number_frac f b) (fun a' ts x => ts = [] /\
    match x with
    | DOk sc => exists fr e r, s = fr ++ e ++ r /\ frac_text fr /\ exp_text e /\ frac_closed fr e r /\
                  sc = new_scalar TNum (tk ++ fr ++ e) /\ st a' r None
    | DErr _ => True
    end).
Proof.
  intros f a s tk b P L. unfold number_frac. destruct (N.eqb_spec b 46) as [->|NB].
  - destruct (peeked_cons _ _ _ _ _ P) as [s1 ->]; [discriminate|].
    apply peeked_st in P. destruct P as [S1 B1]. simpl in L.
    apply runs_ebind. eapply runs_conseq; [apply digits_any; eauto; lia|].
    cbv beta. intros a1 t1 y [-> R]. destruct y as [[b' n]|e]; [|auto].
    destruct R as [ds [s' [-> [F [-> [P NX]]]]]]. simpl plus.
    rewrite app_length in L.
    destruct (Nat.eqb_spec (length ds) 0) as [Z|Z].
    + eapply runs_conseq; [eapply wp_back_unexpected; eauto|].
      cbv beta. intros a2 t2 y [-> [e ->]]. auto.
    + eapply runs_conseq; [eapply exp_any; eauto; lia|].
      cbv beta. intros a2 t2 y [-> R2]. split; auto. destruct y as [sc|e]; auto.
      destruct R2 as [e [r [-> [X [EC [-> S2]]]]]].
      exists (46%N :: ds), e, r. split; auto. split.
      { right. exists ds. repeat split; auto; try (intros ->; apply Z; reflexivity). }
      split; auto. split; [split; [exact EC|split; [discriminate|intros _ ->; exact NX]]|].
      split; [|exact S2]. f_equal. rewrite <- !app_assoc. reflexivity.
  - assert (NX : next_not (eq 46%N) s) by (eapply next_peeked; eauto).
    eapply runs_conseq; [eapply exp_any; eauto; lia|].
    cbv beta. intros a2 t2 y [-> R2]. split; auto. destruct y as [sc|e]; auto.
    destruct R2 as [e [r [-> [X [EC [-> S2]]]]]].
    exists [], e, r. split; auto. split; [now left|]. split; [auto|]. split; [|auto].
    split; [exact EC|]. split; [intros _ ->; exact NX|congruence].
Qed.

Lemma frac_ok : forall f a fr e r tk b, frac_text fr -> exp_text e -> frac_closed fr e r ->
  peeked a (fr ++ e ++ r) (Some tk) b -> length (fr ++ e) < f ->
  runs a (number_frac f b) (fun a' ts x => ts = [] /\
    x = DOk (new_scalar TNum (tk ++ fr ++ e)) /\ st a' r None).
Proof.
  intros f a fr e r tk b [->|[ds [-> [NE F]]]] X (C & C1 & C2) P L; unfold number_frac;
    rewrite app_length in L.
  - cbn [app] in *. simpl in L. destruct (N.eqb_spec b 46) as [->|NB].
    + exfalso. destruct X as [->|[eb [sg [ds [-> [EB _]]]]]].
      * apply (peeked_next (eq 46%N) _ _ _ _ P); auto. discriminate.
      * cbn [app] in P. apply peeked_hd in P. lia.
    + eapply exp_ok; eauto.
  - cbn [app] in P. pose proof (peeked_hd _ _ _ _ _ _ P); subst b. cbn [N.eqb Pos.eqb].
    apply peeked_st in P. destruct P as [S1 B1]. simpl in L.
    apply runs_ebind. eapply runs_conseq; [apply (wp_digits_ok RdEOF ds f a (e ++ r) (tk ++ [46%N])); auto|].
    + destruct X as [->|[eb [sg [ds' [-> [EB _]]]]]]; apply next_stops.
      * apply C2; [discriminate|reflexivity].
      * cbn. unfold digit. lia.
    + lia.
    + cbv beta. intros a1 t1 y [-> [b' [-> P]]]. simpl plus.
      destruct (Nat.eqb_spec (length ds) 0) as [Z|Z]; [destruct ds; [congruence|discriminate]|].
      eapply runs_conseq; [apply (exp_ok f a1 e r ((tk ++ [46%N]) ++ ds)); auto; lia|].
      cbv beta. intros a2 t2 y [-> [-> S2]]. split; auto. split; [|exact S2].
      rewrite <- !app_assoc. reflexivity.
Qed.

Lemma number_any : forall f a s, st a s None -> s <> [] -> length s < f ->
  runs a (parse_number f) (fun a' ts x => ts = [] /\
    match x with
    | DOk sc => exists sg i fr e r, s = sg ++ i ++ fr ++ e ++ r /\ (sg = [] \/ sg = [45%N]) /\ int_text i /\ frac_text fr /\ exp_text e /\
        closed i fr e r /\ sc = new_scalar TNum (sg ++ i ++ fr ++ e) /\ st a' r None
    | DErr _ => True
    end).
Proof.
  intros f a s S NE L. unfold parse_number. apply runs_bind.
  eapply runs_conseq; [eapply wp_start; eauto|]. cbv beta. intros a1 t x [-> S1].
  destruct s as [|c s1]; [congruence|]. cbn [app].
  apply runs_ebind. eapply runs_conseq; [eapply wp_read_cons; eauto|].
  cbv beta. intros a2 t2 x2 [-> [-> P]]. cbn [app].
  assert (MAIN : forall a sg s2 b, peeked a s2 (Some sg) b -> b <> EOFb ->
     (sg = [] \/ sg = [45%N]) -> c :: s1 = sg ++ s2 ->
     runs a (if N.eqb b 48 then ebind (op_byte SRead) (fun b => number_frac f b)
             else if N.leb 49 b && N.leb b 57 then
               ebind (read_digits f 0) (fun '(b, _) => number_frac f b)
             else pbind (op_unit SBack) (fun _ => unexpected_byte))
       (fun a' ts x => ts = [] /\
         match x with
         | DOk sc => exists sg i fr e r, c :: s1 = sg ++ i ++ fr ++ e ++ r /\ (sg = [] \/ sg = [45%N]) /\ int_text i /\ frac_text fr /\ exp_text e /\
            closed i fr e r /\ sc = new_scalar TNum (sg ++ i ++ fr ++ e) /\ st a' r None
         | DErr _ => True
         end)).
  { clear a a1 a2 S S1 P. intros a sg s2 b P NB SG EQ.
    destruct (peeked_cons _ _ _ _ _ P NB) as [s3 ->].
    pose proof P as P0. apply peeked_st in P. destruct P as [S1 B1].
    assert (LL : length (c :: s1) = length sg + S (length s3)) by (rewrite EQ, app_length; reflexivity).
    simpl in L, LL.
    destruct (N.eqb_spec b 48) as [->|N48].
    - apply runs_ebind. eapply runs_conseq; [eapply (wp_read_bk RdEOF); eauto|].
      cbv beta. intros a3 t3 x3 [-> [[b3 [-> P3]]|[-> _]]]; [|auto].
      cbn [app tok_app] in *.
      eapply runs_conseq; [eapply frac_any; eauto; lia|].
      cbv beta. intros a4 t4 y [-> R]. split; auto. destruct y as [sc|e]; auto.
      destruct R as [fr [e [r [-> [X1 [X2 [FC [-> S4]]]]]]]].
      exists sg, [48%N], fr, e, r. split; [rewrite EQ; reflexivity|].
      split; [exact SG|]. split; [now left|]. split; [exact X1|]. split; [exact X2|].
      split; [split; [exact FC|congruence]|].
      split; [|exact S4]. rewrite <- !app_assoc. reflexivity.
    - destruct (N.leb 49 b && N.leb b 57) eqn:D.
      + apply andb_true_iff in D. rewrite !N.leb_le in D.
        apply runs_ebind. cbn [tok_app] in S1.
        eapply runs_conseq; [eapply (digits_any f a s3); eauto; lia|].
        cbv beta. intros a3 t3 x3 [-> R]. destruct x3 as [[b3 n]|e]; [|auto].
        destruct R as [ds [s4 [-> [F [_ [P NX]]]]]]. rewrite app_length in LL.
        cbn [app]. eapply runs_conseq; [eapply frac_any; eauto; lia|].
        cbv beta. intros a4 t4 y [-> R]. split; auto. destruct y as [sc|e]; auto.
        destruct R as [fr [e [r [-> [X1 [X2 [FC [-> S4]]]]]]]].
        exists sg, (b :: ds), fr, e, r. split; [rewrite EQ; reflexivity|].
        split; [exact SG|]. split; [right; exists b, ds; auto|]. split; [exact X1|]. split; [exact X2|].
        split; [split; [exact FC|intros _ -> ->; exact NX]|].
        split; [|exact S4]. rewrite <- !app_assoc. reflexivity.
      + eapply runs_conseq; [eapply wp_back_unexpected; eauto|].
        cbv beta. intros a3 t3 y [-> [e ->]]. auto. }
  apply runs_ebind. destruct (N.eqb_spec c 45) as [->|N45].
  - apply peeked_st in P. destruct P as [S2 B2]. cbn [tok_app app] in S2.
    eapply runs_conseq; [eapply wp_read_eof_any; eauto|].
    cbv beta. intros a3 t3 x3 [-> R]. destruct x3 as [b|e]; [|auto].
    destruct R as [s2 [-> [NB P]]]. cbn [app].
    eapply (MAIN a3 [45%N] (b :: s2)); auto.
  - apply runs_ret. cbn [app check_eof]. destruct (N.eqb_spec c EOFb) as [->|NB].
    + auto.
    + eapply (MAIN a2 [] (c :: s1)); auto.
Qed.

Lemma number_ok : forall f a sg i fr e r, st a (sg ++ i ++ fr ++ e ++ r) None ->
  (sg = [] \/ sg = [45%N]) -> int_text i -> frac_text fr -> exp_text e ->
  closed i fr e r -> length (sg ++ i ++ fr ++ e) < f ->
  runs a (parse_number f) (fun a' ts x => ts = [] /\
    x = DOk (new_scalar TNum (sg ++ i ++ fr ++ e)) /\ st a' r None).
Proof.
  intros f a sg i fr e r S SG IT FT ET [FC IC] L.
  rewrite !app_length in L.
  unfold parse_number. apply runs_bind.
  eapply runs_conseq; [eapply wp_start; eauto|]. cbv beta. intros a1 t x [-> S1].
  assert (IH : exists d ds, i = d :: ds /\ digit d).
  { destruct IT as [->|[d [ds [-> [D _]]]]]; unfold digit; do 2 eexists; split; try reflexivity; lia. }
  destruct IH as [d [ds [EI DD]]].
  assert (MAIN : forall a b, peeked a (i ++ fr ++ e ++ r) (Some sg) b ->
     runs a (if N.eqb b 48 then ebind (op_byte SRead) (fun b => number_frac f b)
             else if N.leb 49 b && N.leb b 57 then
               ebind (read_digits f 0) (fun '(b, _) => number_frac f b)
             else pbind (op_unit SBack) (fun _ => unexpected_byte))
       (fun a' ts x => ts = [] /\ x = DOk (new_scalar TNum (sg ++ i ++ fr ++ e)) /\
                       st a' r None)).
  { clear a a1 S S1. intros a b P.
    destruct IT as [->|[d1 [ds1 [-> [D F]]]]].
    - cbn [app] in P. pose proof (peeked_hd _ _ _ _ _ _ P); subst b. cbn [N.eqb Pos.eqb].
      apply peeked_st in P. destruct P as [S1 B1].
      apply runs_ebind. eapply runs_conseq; [eapply (wp_read_stops RdEOF (fun _ => False)); eauto|].
      { apply next_stops. destruct (fr ++ e ++ r); cbn; auto. }
      cbv beta. intros a3 t3 x3 [-> [b3 [-> P3]]].
      eapply runs_conseq; [eapply (frac_ok f a3 fr e r); eauto|].
      { rewrite app_length. lia. }
      cbv beta. intros a4 t4 y [-> [-> S4]]. split; auto. split; [|exact S4].
      rewrite <- !app_assoc. reflexivity.
    - cbn [app] in P. pose proof (peeked_hd _ _ _ _ _ _ P); subst b.
      destruct (N.eqb_spec d1 48); [lia|].
      replace (N.leb 49 d1 && N.leb d1 57) with true
        by (symmetry; apply andb_true_iff; rewrite !N.leb_le; lia).
      apply peeked_st in P. destruct P as [S1 B1]. cbn [tok_app] in S1.
      apply runs_ebind. simpl in L.
      eapply runs_conseq; [eapply (wp_digits_ok RdEOF ds1 f a (fr ++ e ++ r)); eauto|].
      { apply next_stops. destruct FT as [->|[fs [-> _]]]; [|cbn; unfold digit; lia].
        destruct ET as [->|[eb [sg' [ds' [-> [EB _]]]]]]; [|cbn; unfold digit; lia].
        cbn [app]. apply IC; auto. intro Q. injection Q as Q _. lia. }
      { lia. }
      cbv beta. intros a3 t3 x3 [-> [b3 [-> P3]]].
      eapply runs_conseq; [eapply (frac_ok f a3 fr e r); eauto|].
      { rewrite app_length. lia. }
      cbv beta. intros a4 t4 y [-> [-> S4]]. split; auto. split; [|exact S4].
      rewrite <- !app_assoc. reflexivity. }
  apply runs_ebind. destruct SG as [->| ->].
  - cbn [app] in *. rewrite EI in S1. cbn [app] in S1.
    eapply runs_conseq; [eapply wp_read_cons; eauto|].
    cbv beta. intros a2 t2 x2 [-> [-> P]]. apply runs_ebind.
    destruct (N.eqb_spec d 45); [unfold digit in DD; lia|]. apply runs_ret.
    cbn [check_eof]. destruct (N.eqb_spec d EOFb); [unfold digit, EOFb in *; lia|].
    cbn [app]. apply MAIN. rewrite EI. exact P.
  - cbn [app] in S1.
    eapply runs_conseq; [eapply wp_read_cons; eauto|].
    cbv beta. intros a2 t2 x2 [-> [-> P]]. apply peeked_st in P. destruct P as [S2 B2].
    cbn [N.eqb Pos.eqb]. apply runs_ebind. rewrite EI in S2. cbn [app] in S2.
    eapply runs_conseq; [eapply wp_read_eof; eauto|].
    { unfold digit, EOFb in *. lia. }
    cbv beta. intros a3 t3 x3 [-> [-> P]]. cbn [app]. apply MAIN. rewrite EI. exact P.
Qed.

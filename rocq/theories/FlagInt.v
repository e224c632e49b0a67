(** strconv.ParseInt with base 0 and strconv.ParseBool. *)
From Coq Require Import String List Arith ZArith NArith Bool Lia.
From Verif Require Import Base Tokens CliModel FlagModel FlagSpec.
Import ListNotations.
Local Open Scope N_scope.

Ltac cases := repeat match goal with
  | |- context [?a <=? ?b] => destruct (N.leb_spec a b)
  | |- context [?a =? ?b] => destruct (N.eqb_spec a b)
  end.

Lemma lower_cases : forall c, 65 <= c <= 90 /\ lower c = c + 32 \/ (c < 65 \/ 90 < c) /\ lower c = c.
Proof. intro c. unfold lower. destruct (N.leb_spec 65 c), (N.leb_spec c 90); cbn [andb]; lia. Qed.

Lemma digit_of_in : forall base c d, base <= 16 -> (digit_of c = Some d /\ d < base <-> digit_in base c d).
Proof.
  intros base c d B. unfold digit_of, digit_in. pose proof (lower_cases c) as LC. split.
  - intros [E L]. revert E. cases; cbn [andb]; cases; cbn [andb]; intro E; try discriminate; try (exfalso; lia); injection E as <-; lia.
  - intros [H L]. split; [|exact L]. cases; cbn [andb]; cases; cbn [andb]; try (exfalso; lia); f_equal; lia.
Qed.

(** Digits and underscores in any order. *)
Inductive mixed (base : N) : bytes -> list N -> Prop :=
| mx_nil : mixed base [] []
| mx_under : forall t ds, mixed base t ds -> mixed base (95 :: t) ds
| mx_digit : forall b d t ds, digit_in base b d -> mixed base t ds -> mixed base (b :: t) (d :: ds).
Definition has_under (s : bytes) : bool := existsb (fun b => b =? 95) s.

Lemma not_under : forall base b d, digit_in base b d -> (b =? 95) = false.
Proof. intros base b d H. apply N.eqb_neq. unfold digit_in in H. lia. Qed.

Lemma loop_mixed : forall base s n u m u', base <= 16 ->
  (uint_loop base s n u = Some (m, u') <->
   exists ds, mixed base s ds /\ m = fold_left (fun n d => n * base + d) ds n /\ u' = u || has_under s).
Proof.
  intros base s. induction s as [|c s IH]; intros n u m u' B; cbn [uint_loop has_under existsb].
  - split.
    + intro E. injection E as <- <-. exists []. rewrite orb_false_r. repeat split. constructor.
    + intros (ds & M & -> & ->). inversion M; subst. now rewrite orb_false_r.
  - fold (has_under s). destruct (N.eqb_spec c 95) as [->|N95].
    + rewrite IH by exact B. split.
      * intros (ds & M & -> & ->). exists ds. rewrite orb_true_r. cbn [orb]. repeat split. now constructor.
      * intros (ds & M & -> & ->). exists ds. inversion M as [|t ds0 M0|b d t ds0 D M0]; subst; [|apply not_under in D; discriminate].
        rewrite orb_true_r. cbn [orb]. auto.
    + cbn [orb]. destruct (digit_of c) as [d|] eqn:D.
      * destruct (N.leb_spec base d) as [L|L].
        -- split; [discriminate|]. intros (ds & M & _). inversion M as [|t ds0 M0|b d0 t ds0 D0 M0]; subst; [congruence|].
           apply digit_of_in in D0; [|exact B]. destruct D0 as [D0 D1]. rewrite D in D0. injection D0 as <-. lia.
        -- rewrite IH by exact B. split.
           ++ intros (ds & M & -> & ->). exists (d :: ds). split; [|auto]. constructor; [|exact M]. now apply digit_of_in.
           ++ intros (ds & M & -> & ->). inversion M as [|t ds0 M0|b d0 t ds0 D0 M0]; subst; [congruence|].
              apply digit_of_in in D0; [|exact B]. destruct D0 as [D0 D1]. rewrite D in D0. injection D0 as <-. exists ds0. auto.
      * split; [discriminate|]. intros (ds & M & _). inversion M as [|t ds0 M0|b d0 t ds0 D0 M0]; subst; [congruence|].
        apply digit_of_in in D0; [|exact B]. destruct D0 as [D0 _]. congruence.
Qed.

Definition fits (base : N) (hex : bool) : Prop := base <= 10 \/ hex = true /\ base <= 16.
Lemma seen_digit : forall base hex b d, fits base hex -> digit_in base b d ->
  (48 <=? b) && (b <=? 57) || hex && (97 <=? lower b) && (lower b <=? 102) = true.
Proof.
  intros base hex b d F D. unfold digit_in in D. unfold fits in F. pose proof (lower_cases b) as LC. destruct hex; cases; cbn [andb orb]; cases; cbn [andb orb]; try reflexivity; try (exfalso; lia).
  all: destruct F as [F|[F _]]; [exfalso; lia|discriminate].
Qed.

Lemma grouped_mixed : forall base s ds, grouped base s ds -> mixed base s ds.
Proof. intros base s ds G. induction G; [constructor|now apply mx_digit|apply mx_under; now apply mx_digit]. Qed.

Lemma under_grouped : forall base hex s ds, fits base hex -> mixed base s ds ->
  (under_loop hex SDigit s = true <-> grouped base s ds) /\ (under_loop hex SUnder s = true <-> grouped base (95 :: s) ds).
Proof.
  intros base hex s ds F M. induction M as [|t ds M [IH1 IH2]|b d t ds D M [IH1 IH2]]; cbn [under_loop].
  - split; split; try constructor; try discriminate. intro G. inversion G as [|b d t ds D| ]; subst; try (apply not_under in D; discriminate).
  - replace ((48 <=? 95) && (95 <=? 57)) with false by reflexivity. replace (hex && (97 <=? lower 95) && (lower 95 <=? 102)) with false by (destruct hex; reflexivity).
    cbn [orb N.eqb Pos.eqb]. split; [exact IH2|]. split; [discriminate|]. intro G.
    inversion G as [|b d t0 ds0 D G0|b d t0 ds0 D G0]; subst; apply not_under in D; discriminate.
  - rewrite (seen_digit base hex b d F D). split; rewrite IH1; split; intro G.
    + now constructor.
    + inversion G as [|b0 d0 t0 ds0 D0 G0|b0 d0 t0 ds0 D0 G0]; subst; [exact G0|]. apply not_under in D. discriminate.
    + now constructor.
    + inversion G as [|b0 d0 t0 ds0 D0 G0|b0 d0 t0 ds0 D0 G0]; subst; [apply not_under in D0; discriminate|exact G0].
Qed.

Lemma no_under_grouped : forall base s ds, mixed base s ds -> has_under s = false -> grouped base s ds.
Proof.
  intros base s ds M. induction M as [|t ds M IH|b d t ds D M IH]; intro H; [constructor|discriminate|]. cbn [has_under existsb] in H.
  rewrite (not_under _ _ _ D) in H. cbn [orb] in H. constructor; auto.
Qed.

(** The digits after a prefix, or after a first zero. *)
Lemma after_prefix : forall base hex s n (ok : bool), fits base hex -> ok = under_loop hex SDigit s ->
  (match uint_loop base s 0 false with None => None | Some (m, u) => if u && negb ok then None else Some m end = Some n <->
   exists ds, grouped base s ds /\ n = in_base base ds).
Proof.
  intros base hex s n ok F OK. assert (B : base <= 16) by (unfold fits in F; lia). subst ok. split.
  - destruct (uint_loop base s 0 false) as [[m u]|] eqn:E; [|discriminate]. apply loop_mixed in E; [|exact B].
    destruct E as (ds & M & -> & ->). cbn [orb]. destruct (has_under s) eqn:U; cbn [andb].
    + destruct (under_loop hex SDigit s) eqn:L; cbn [negb]; [|discriminate]. intro H. injection H as <-. exists ds. split; [|reflexivity].
      now apply (under_grouped base hex s ds F M).
    + intro H. injection H as <-. exists ds. split; [|reflexivity]. now apply no_under_grouped.
  - intros (ds & G & ->). pose proof (grouped_mixed _ _ _ G) as M.
    replace (uint_loop base s 0 false) with (Some (in_base base ds, has_under s)).
    2:{ symmetry. apply loop_mixed; [exact B|]. exists ds. auto. }
    rewrite (proj2 (proj1 (under_grouped base hex s ds F M)) G). cbn [negb]. now rewrite andb_false_r.
Qed.

Lemma grouped_nil : forall base s, grouped base s [] -> s = [].
Proof. intros base s G. now inversion G. Qed.

Lemma zero_literal : forall t n, literal (48 :: t) n ->
  (exists ds, grouped 8 t ds /\ n = in_base 8 ds) \/
  exists p base t' ds, t = p :: t' /\ In (p, base) [(98, 2); (66, 2); (111, 8); (79, 8); (120, 16); (88, 16)] /\
    grouped base t' ds /\ ds <> [] /\ n = in_base base ds.
Proof.
  intros t n L. inversion L as [b d t0 ds B D G E|t0 ds G E|p base t0 ds P G N E]; subst; [lia|left; eauto|right]. exists p, base, t0, ds. auto.
Qed.

Definition is_prefix (p : N) : bool := (lower p =? 98) || (lower p =? 111) || (lower p =? 120).
Lemma prefix_in : forall p base, In (p, base) [(98, 2); (66, 2); (111, 8); (79, 8); (120, 16); (88, 16)] <->
  (lower p = 98 /\ base = 2 \/ lower p = 111 /\ base = 8 \/ lower p = 120 /\ base = 16).
Proof.
  intros p base. cbn [In]. split.
  - intros H. repeat (destruct H as [H|H]; [injection H as <- <-; cbn; lia|]). destruct H.
  - intro H. pose proof (lower_cases p) as LC.
    assert (X : p = 66 /\ base = 2 \/ p = 79 /\ base = 8 \/ p = 88 /\ base = 16 \/ p = 98 /\ base = 2 \/ p = 111 /\ base = 8 \/ p = 120 /\ base = 16) by lia.
    clear H LC. intuition (subst; auto 10).
Qed.
Lemma prefix_not_octal : forall p base, In (p, base) [(98, 2); (66, 2); (111, 8); (79, 8); (120, 16); (88, 16)] ->
  forall t ds, ~ grouped 8 (p :: t) ds.
Proof.
  intros p base P t ds G. assert (X : p = 98 \/ p = 66 \/ p = 111 \/ p = 79 \/ p = 120 \/ p = 88) by (cbn [In] in P; intuition congruence).
  inversion G as [|b d t0 ds0 [D L] G0|b d t0 ds0 [D L] G0]; subst; lia.
Qed.

Lemma uint_literal : forall s n, parse_uint s = Some n <-> literal s n.
Proof.
  intros s n. destruct s as [|c s].
  { cbn [parse_uint]. split; [discriminate|]. intro L. inversion L. }
  destruct (N.eq_dec c 48) as [->|N48].
  - (* a zero *)
    assert (OCT : forall t, match uint_loop 8 t 0 false with None => None | Some (m, u) => if u && negb (under_loop false SDigit t) then None else Some m end = Some n <->
        exists ds, grouped 8 t ds /\ n = in_base 8 ds).
    { intro t. apply (after_prefix 8 false); [left; lia|reflexivity]. }
    assert (UO : forall t, under_loop false SOther (48 :: t) = under_loop false SDigit t) by reflexivity.
    destruct s as [|p s].
    + cbn [parse_uint base_of]. change (underscore_ok [48]) with (under_loop false SDigit []). rewrite OCT. split.
      * intros (ds & G & ->). now constructor.
      * intro L. apply zero_literal in L as [L|(p & base & t' & ds & E & _)]; [exact L|discriminate].
    + unfold parse_uint, underscore_ok. cbn [base_of].
      destruct (is_prefix p) eqn:IP.
      * assert (PX : exists base, In (p, base) [(98, 2); (66, 2); (111, 8); (79, 8); (120, 16); (88, 16)] /\ fits base (lower p =? 120) /\ 
          forall c' s', base_of (48 :: p :: c' :: s') = (base, c' :: s')).
        { unfold is_prefix in IP. cbn [base_of]. destruct (N.eqb_spec (lower p) 98) as [E|E1]; [|destruct (N.eqb_spec (lower p) 111) as [E|E2]; [|destruct (N.eqb_spec (lower p) 120) as [E|E3]; [|discriminate]]];
            eexists; (split; [apply prefix_in; auto|]); (split; [unfold fits; rewrite ?E; lia|]); intros; rewrite ?E; reflexivity. }
        destruct PX as (base & P & F & BO). unfold is_prefix in IP. rewrite IP.
        destruct s as [|c' s'].
        -- assert (NG : forall ds, ~ grouped 8 [p] ds) by (intro ds; eapply prefix_not_octal; eauto).
           split.
           ++ intro H. exfalso. destruct (uint_loop 8 [p] 0 false) as [[m u]|] eqn:E; [|discriminate]. apply loop_mixed in E; [|lia].
              destruct E as (ds & M & _). assert (U : has_under [p] = false).
              { cbn. rewrite orb_false_r. apply N.eqb_neq. intros ->. vm_compute in IP. discriminate. }
              exact (NG ds (no_under_grouped _ _ _ M U)).
           ++ intro L. exfalso. apply zero_literal in L as [(ds & G & _)|(q & b' & t' & ds & E & _ & G & NE & _)]; [exact (NG ds G)|].
              injection E as <- <-. inversion G; subst. congruence.
        -- specialize (BO c' s'). cbn [base_of] in BO. rewrite BO.
           rewrite (after_prefix base (lower p =? 120) (c' :: s') n _ F eq_refl). split.
           ++ intros (ds & G & ->). apply (li_prefix p base); auto. intros ->. apply grouped_nil in G. discriminate.
           ++ intro L. apply zero_literal in L as [(ds & G & _)|(q & b' & t' & ds & E & Q & G & NE & ->)]; [exfalso; eapply prefix_not_octal; eauto|].
              injection E as <- <-. exists ds. apply prefix_in in P. apply prefix_in in Q.
              assert (b' = base) as -> by lia. auto.
      * assert (PU : forall m, match base_of (48 :: p :: s) with (base, s') =>
             match uint_loop base s' 0 false with None => None | Some (m, u) => if u && negb (underscore_ok (48 :: p :: s)) then None else Some m end end = Some m <->
             match uint_loop 8 (p :: s) 0 false with None => None | Some (m, u) => if u && negb (under_loop false SDigit (p :: s)) then None else Some m end = Some m).
        { intro m. cbn [base_of]. unfold underscore_ok. unfold is_prefix in IP. destruct (lower p =? 98); [discriminate|]. destruct (lower p =? 111); [discriminate|]. destruct (lower p =? 120); [discriminate|].
          cbn [orb]. destruct s; reflexivity. }
        etransitivity; [apply (PU n)|]. rewrite OCT.
        split; [intros (ds & G & ->); now constructor|].
        intro L; apply zero_literal in L as [L|(q & b' & t' & ds & EQ & Q & _)]; [exact L|]; injection EQ as <- _; apply prefix_in in Q; unfold is_prefix in IP;
             exfalso; destruct Q as [[Q _]|[[Q _]|[Q _]]]; rewrite Q in IP; discriminate.
  - (* decimal *)
    assert (PU : parse_uint (c :: s) = match uint_loop 10 (c :: s) 0 false with None => None | Some (m, u) => if u && negb (under_loop false SOther (c :: s)) then None else Some m end).
    { unfold parse_uint, base_of, underscore_ok. destruct c as [|q]; [reflexivity|]. do 6 (destruct q as [q|q|]; try reflexivity). all: now destruct (N48 eq_refl). }
    rewrite PU. clear PU. split.
    + destruct (uint_loop 10 (c :: s) 0 false) as [[m u]|] eqn:E; [|discriminate]. apply loop_mixed in E; [|lia].
      destruct E as (ds & M & -> & ->). cbn [orb]. inversion M as [|t0 ds0 M0|b d t0 ds0 D M0]; subst.
      * cbn [has_under existsb N.eqb Pos.eqb orb andb]. cbn [under_loop]. replace (_ || _) with false by reflexivity. discriminate.
      * assert (UD : under_loop false SOther (c :: s) = under_loop false SDigit s).
        { cbn [under_loop]. rewrite (seen_digit 10 false c d) by (auto; left; lia). reflexivity. }
        rewrite UD. cbn [has_under existsb]. rewrite (not_under _ _ _ D). cbn [orb]. fold (has_under s). intro H.
        assert (R : 49 <= c <= 57) by (unfold digit_in in D; lia).
        assert (G : grouped 10 s ds0).
        { destruct (has_under s) eqn:U; [|now apply no_under_grouped]. cbn [andb] in H. destruct (under_loop false SDigit s) eqn:L; [|discriminate].
          apply (under_grouped 10 false s ds0); auto. left; lia. }
        assert (EN : n = in_base 10 (d :: ds0)) by (destruct (_ && _); [discriminate|injection H as <-; reflexivity]). rewrite EN. now constructor.
    + intro L. inversion L as [b d t0 ds B D G E|t0 ds G E|p base t0 ds P G NN E]; subst; try congruence.
      pose proof (grouped_mixed _ _ _ G) as M.
      replace (uint_loop 10 (c :: s) 0 false) with (Some (in_base 10 (d :: ds), has_under (c :: s))).
      2:{ symmetry. apply loop_mixed; [lia|]. exists (d :: ds). split; [now constructor|auto]. }
      replace (under_loop false SOther (c :: s)) with (under_loop false SDigit s).
      2:{ cbn [under_loop]. rewrite (seen_digit 10 false c d) by (auto; left; lia). reflexivity. }
      rewrite (proj2 (proj1 (under_grouped 10 false s ds ltac:(left; lia) M)) G). cbn [negb]. now rewrite andb_false_r.
Qed.

Lemma sign_not_literal : forall s n, literal s n -> forall r, s <> 43 :: r /\ s <> 45 :: r.
Proof. intros s n L r. inversion L; subst; split; intro E; injection E as E _; lia. Qed.

Lemma int_integer : forall s z, parse_int0 s = Some z <-> integer s z.
Proof.
  intros s z. unfold integer.
  assert (POS : forall u, match parse_uint u with None => None | Some un => if (Z.of_N un <? 2 ^ 63)%Z then Some (Z.of_N un) else None end = Some z <->
     exists n, literal u n /\ z = Z.of_N n /\ (z < 2 ^ 63)%Z).
  { intro u. split.
    - destruct (parse_uint u) as [n|] eqn:E; [|discriminate]. apply uint_literal in E. destruct (Z.ltb_spec (Z.of_N n) (2 ^ 63)); [|discriminate].
      intro H1. injection H1 as <-. eauto.
    - intros (n & L & -> & R). apply uint_literal in L. rewrite L. destruct (Z.ltb_spec (Z.of_N n) (2 ^ 63)); [reflexivity|lia]. }
  assert (NEG : forall u, match parse_uint u with None => None | Some un => if (Z.of_N un <=? 2 ^ 63)%Z then Some (- Z.of_N un)%Z else None end = Some z <->
     exists n, literal u n /\ z = (- Z.of_N n)%Z /\ (- 2 ^ 63 <= z)%Z).
  { intro u. split.
    - destruct (parse_uint u) as [n|] eqn:E; [|discriminate]. apply uint_literal in E. destruct (Z.leb_spec (Z.of_N n) (2 ^ 63)); [|discriminate].
      intro H1. injection H1 as <-. exists n. split; [exact E|]. split; [reflexivity|lia].
    - intros (n & L & -> & R). apply uint_literal in L. rewrite L. destruct (Z.leb_spec (Z.of_N n) (2 ^ 63)); [reflexivity|lia]. }
  assert (SG : s = [] \/ (exists u, s = 43 :: u) \/ (exists u, s = 45 :: u) \/ (exists c u, s = c :: u /\ c <> 43 /\ c <> 45)).
  { destruct s as [|c u]; [auto|]. destruct (N.eq_dec c 43) as [->|]; [eauto|]. destruct (N.eq_dec c 45) as [->|]; [eauto|]. right. right. right. eauto. }
  destruct SG as [->|[[u ->]|[[u ->]|(c & u & -> & N1 & N2)]]].
  - cbn [parse_uint]. split; [discriminate|]. intros [_ (sg & u & n & E & L & _)]. destruct sg; [|discriminate]. cbn [app] in E. subst u. inversion L.
  - unfold parse_int0. rewrite POS. split.
    + intros (n & L & E & R). split; [lia|]. exists [43], u, n. split; [reflexivity|]. split; [exact L|]. auto.
    + intros [R (sg & u' & n & E & L & [[-> _]|[[-> H]|[-> H]]])].
      * cbn [app] in E. exfalso. exact (proj1 (sign_not_literal _ _ L u) (eq_sym E)).
      * injection E as <-. exists n. repeat split; auto; lia.
      * discriminate.
  - unfold parse_int0. rewrite NEG. split.
    + intros (n & L & E & R). split; [lia|]. exists [45], u, n. split; [reflexivity|]. split; [exact L|]. auto.
    + intros [R (sg & u' & n & E & L & [[-> _]|[[-> H]|[-> H]]])].
      * cbn [app] in E. exfalso. exact (proj2 (sign_not_literal _ _ L u) (eq_sym E)).
      * discriminate.
      * injection E as <-. exists n. repeat split; auto; lia.
  - assert (ES : parse_int0 (c :: u) = match parse_uint (c :: u) with None => None | Some un => if (Z.of_N un <? 2 ^ 63)%Z then Some (Z.of_N un) else None end).
    { unfold parse_int0. destruct c as [|q]; [reflexivity|]. do 6 (destruct q as [q|q|]; try reflexivity). all: congruence. }
    rewrite ES. rewrite POS. split.
    + intros (n & L & E & R). split; [lia|]. exists [], (c :: u), n. auto.
    + intros [R (sg & u' & n & E & L & [[-> H]|[[-> H]|[-> H]]])]; cbn [app] in E.
      * subst u'. exists n. repeat split; auto; lia.
      * congruence.
      * congruence.
Qed.

Lemma bool_yes_no : forall s b, parse_bool s = Some b <-> yes_no s b.
Proof.
  assert (EX : forall s l, existsb (bytes_eqb s) l = true <-> In s l).
  { intros s l. rewrite existsb_exists. split.
    - intros (x & I & E). apply bytes_eqb_eq in E. now subst.
    - intros I. exists s. split; [exact I|]. apply bytes_eqb_refl. }
  intros s b. unfold parse_bool, yes_no.
  pose proof (EX s [text "1"; text "t"; text "T"; text "true"; text "TRUE"; text "True"]) as A.
  pose proof (EX s [text "0"; text "f"; text "F"; text "false"; text "FALSE"; text "False"]) as B.
  destruct (existsb _ _) eqn:E1.
  - assert (I1 := proj1 A eq_refl). destruct b; split; intro H; try discriminate; try exact I1; try reflexivity.
    exfalso. clear A B E1. cbn [In] in I1, H. intuition (subst; discriminate).
  - destruct (existsb _ [text "0"; _; _; _; _; _]) eqn:E2.
    + assert (I2 := proj1 B eq_refl). destruct b; split; intro H; try discriminate; try exact I2; try reflexivity.
      apply A in H. discriminate.
    + destruct b; split; intro H; try discriminate; [apply A in H|apply B in H]; discriminate.
Qed.

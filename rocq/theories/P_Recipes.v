(** C74: the recipes of the cookbook. *)
From Coq Require Import String List Arith ZArith NArith Bool Lia.
From Verif Require Import Base Tokens ScannerModel JsonSpec ScalarSpec GoLiteral ScalarProofs P_Scalar EncSpec JsonDecModel P_JsonDec SelectSpec P_Select CursorModel EqualSpec P_Equal
  P_Transform P_Split PathAst PathTypes PathSpec PathTame PathStep PathSel P_Ordinary MainModel GrammarModel GrammarSpec LexModel ParseModel QuerySyntax SyntaxText
  P_Syntax P_PathTypes MainModel P_Main CliModel CliSpec P_Cli RecipeSpec Recipes.
Import ListNotations.

(* ------------------------------------------------------------------ *)
(** Texts. *)
Lemma cat_app : forall sym (a b : @lang sym) x y, a x -> b y -> (a ;; b) (x ++ y).
Proof. intros sym a b x y A B. exists x, y. auto. Qed.
Lemma lang_eq : forall sym (a : @lang sym) x y, a x -> x = y -> a y.
Proof. intros; subst; auto. Qed.
Notation S0 := (Forall blank).
Lemma op_text : forall t, In t operators -> op rfc_text t t.
Proof. intros t H. split; [exact H|reflexivity]. Qed.
Lemma no_blank : S0 [].
Proof. constructor. Qed.
Lemma one_blank : S0 [32%N].
Proof. constructor; [now left|constructor]. Qed.
Ltac lang_app := repeat match goal with |- (_ ;; _) _ => apply cat_app end.
Ltac operator := apply op_text; unfold operators; cbn [In]; tauto.

(** Tests. *)
Section Tests.
Variable float_text : GoLiteral.float -> bytes.
Variable matches : bytes -> bytes -> Prop.
Variable strict : bool.

Definition good_basic (t : bytes) (P : jval -> Prop) (b : gbasic) : Prop :=
  x_basic rfc_text S0 marked b t /\ on_basic valid_token (fun _ => True) true b /\ on_basic float_token (fun _ => True) true b /\
  forall j, reads_basic float_text b j -> ordinary_logical j /\ typed_logical j /\ forall root z, holds matches strict root j z <-> P z.

Lemma dot_name : forall name, member_name name -> rfc_text (LxMember, 46%N :: name) (46%N :: name).
Proof. intros name M. split; [exists name; auto|reflexivity]. Qed.

Lemma named_value : forall root name z y, value matches strict root (JSing (JSingular false [JStepName name])) z (Some y) <-> has_member name z y.
Proof.
  intros root name z y. unfold has_member. cbn [value singular_node steps].
  split.
  - intros (o' & ST & E). assert (o' = Some y) as -> by (destruct o'; congruence). destruct z as [s|l e|l e]; cbn [step member] in *; try discriminate.
    destruct ST as (is & K & N). rewrite pick_map in N. destruct (map snd (pick l is)) as [|y' ys] eqn:EM; [discriminate|]. injection N as <-.
    exists ys, (pick l is). split; [apply sifted_iff; eauto|now rewrite EM].
  - intros (ys & M). exists (Some y). split; [|reflexivity]. destruct z as [s|l e|l e]; cbn [step member] in *; try discriminate.
    destruct M as (ms & H & E). apply sifted_iff in H as (is & K & ->). exists is. split; [exact K|]. rewrite pick_map, <- E. reflexivity.
Qed.

Lemma has_good : forall name, member_name name ->
  good_basic (text "@." ++ name) (fun z => exists y, has_member name z y) (GTestQuery false (GQuery false [GDotName (46%N :: name)])).
Proof.
  intros name M. split; [|split; [|split]].
  - cbn [x_basic x_not x_query every x_segment x_root]. apply (lang_eq _ _ ([] ++ op_at ++ (([] ++ 46%N :: name) ++ []))).
    + lang_app; try reflexivity; [operator|apply no_blank|now apply dot_name].
    + rewrite app_nil_r. reflexivity.
  - cbn. auto.
  - cbn. auto.
  - intros j (q & R & ->). destruct q as [r segs]. cbn [reads_query] in R. destruct R as [<- R]. destruct segs as [|sg [|? ?]]; cbn [each] in R; try tauto.
    destruct R as [R _]. destruct sg as [[] [|[n| | | |] [|? ?]]]; cbn [reads_segment] in R; try tauto. injection R as <-.
    split; [|split].
    + cbn. repeat split; auto. repeat constructor.
    + cbn. auto.
    + intros root z. change (holds matches strict root (JTest (JQuery false [JSegment false [JName name]])) z) with (exists y l, path matches strict root [JSegment false [JName name]] [z] (y :: l)). cbn [path]. split.
      * intros (y & l & ls & F & E). inversion F as [|? a ? b H F' E1 E2]; subst. inversion F'; subst. apply name_segment in H. cbn [concat] in E. rewrite app_nil_r in E. subst a.
        exists y, l. exact H.
      * intros (y & l & H). exists y, l, [y :: l]. split; [|cbn; now rewrite app_nil_r]. constructor; [|constructor]. now apply name_segment.
Qed.

(** Comparisons. *)
Lemma compare_good : forall name o lit t opj P, member_name name ->
  rfc_text (LxCmp, o) o -> reads_op o opj -> x_literal rfc_text lit t ->
  on_literal valid_token (fun _ => True) lit -> on_literal float_token (fun _ => True) lit ->
  (forall s, reads_literal float_text lit s -> decent s /\ forall z, (exists u, match u with Some y => has_member name z y | None => True end /\ compares u opj (Some (JScalar s))) <-> P z) ->
  (forall s, ~ compares None opj (Some (JScalar s))) ->
  good_basic (text "@." ++ name ++ [32%N] ++ o ++ [32%N] ++ t) P (GCompare (GSing false [GStepDot (46%N :: name)]) o (GLit lit)).
Proof.
  intros name o lit t opj P M O RO X V F H NN. split; [|split; [|split]].
  - cbn [x_basic x_comparable x_root every x_step]. apply (lang_eq _ _ ((op_at ++ (([] ++ 46%N :: name) ++ [])) ++ [32%N] ++ o ++ [32%N] ++ t)).
    + lang_app; try reflexivity; try apply one_blank; try exact O; try exact X; [operator|apply no_blank|now apply dot_name].
    + rewrite app_nil_r. change (text "@.") with [64%N; 46%N]. cbn [op_at app]. reflexivity.
  - cbn [on_basic on_comparable all on_step valid_token]. auto.
  - cbn [on_basic on_comparable all on_step float_token]. auto.
  - intros j (a & op' & b & RA & RO' & RB & ->).
    assert (op' = opj) as ->.
    { clear - RO RO'. unfold reads_op in *. cbn [In] in *. intuition congruence. }
    destruct a as [|[r l]|]; cbn [reads_comparable] in RA; try tauto. destruct RA as [<- RA]. destruct l as [|[n|] [|? ?]]; cbn [each reads_step] in RA; try tauto.
    destruct RA as [RA _]. injection RA as <-. destruct b as [s| |]; cbn [reads_comparable] in RB; try tauto. destruct (H s RB) as [D HZ].
    split; [|split].
    + cbn [ordinary_logical ordinary_value]. repeat split; auto; try apply D. repeat constructor.
    + cbn. auto.
    + intros root z. rewrite <- HZ. cbn [holds]. split.
      * intros (u & v & VU & VV & C). cbn [value] in VV. subst v. exists u. destruct u as [y|]; [|destruct (NN s C)].
        split; [apply (named_value root name z y); exact VU|exact C].
      * intros (u & VU & C). destruct u as [y|]; [|destruct (NN s C)]. exists (Some y), (Some (JScalar s)). split; [now apply named_value|]. split; [reflexivity|exact C].
Qed.

Lemma bool_good : forall name (b : bool) t, member_name name -> t = text (if b then "true" else "false") ->
  exists g, good_basic (text "@." ++ name ++ text " == " ++ t) (fun z => exists s, has_member name z (JScalar s) /\ sc_type s = TBool /\ sc_bytes s = t) g.
Proof.
  intros name b t M ->. eexists. change (text " == ") with ([32%N] ++ [61%N; 61%N] ++ [32%N]). rewrite <- !app_assoc.
  apply (compare_good name [61%N; 61%N] (GBool b) _ OpEq _ M); cbn [on_literal]; auto.
  - split; [cbn; tauto|reflexivity].
  - cbn. tauto.
  - destruct b; (split; [cbn; tauto|reflexivity]).
  - intros s R. cbn [reads_literal] in R. split.
    + subst s. split; [|discriminate]. cbn. destruct b; auto.
    + intro z. assert (E : s = new_scalar TBool (text (if b then "true" else "false"))) by (destruct b; exact R). clear R. subst s. split.
      * intros ([y|] & HM & C); cbn [compares equal_values] in C; [|destruct C]. inversion C as [s t' SV E1 E2| |]; subst. exists s. split; [exact HM|].
        destruct SV as [T SV]. cbn in T. rewrite T in SV. split; [exact T|exact SV].
      * intros (s & HM & T & B). exists (Some (JScalar s)). split; [exact HM|]. constructor. split; [exact T|]. rewrite T. exact B.
Qed.

Lemma string_good : forall name c u, member_name name -> denotes c u ->
  exists g, good_basic (text "@." ++ name ++ text " == """ ++ c ++ text """") (fun z => exists s, has_member name z (JScalar s) /\ characters s u) g.
Proof.
  intros name c u M D. eexists. change (text " == """ ++ c ++ text """") with ([32%N] ++ [61%N; 61%N] ++ [32%N] ++ (34%N :: c ++ [34%N])).
  apply (compare_good name [61%N; 61%N] (GString (GDouble (34%N :: c ++ [34%N]))) _ OpEq _ M); cbn [on_literal]; auto.
  - split; [cbn; tauto|reflexivity].
  - cbn. tauto.
  - split; [exists u, c; auto|reflexivity].
  - intros s (u' & c' & (c0 & E0 & D0) & D' & ->). injection E0 as E0. apply app_inj_tail in E0 as [<- _].
    assert (u' = u) as -> by exact (denotes_unique _ _ _ D0 D). split.
    + split; [|discriminate]. cbn. exists c', u. split; [reflexivity|]. split; [exact D'|discriminate].
    + intro z. split.
      * intros ([y|] & HM & C); cbn [compares equal_values] in C; [|destruct C]. inversion C as [s t' SV E1 E2| |]; subst. exists s. split; [exact HM|].
        destruct SV as [T SV]. cbn in T. rewrite T in SV. destruct SV as (c1 & c2 & v & B1 & B2 & D1 & D2). split; [exact T|]. exists c1. split; [exact B1|].
        injection B2 as B2. apply app_inj_tail in B2 as [<- _]. assert (v = u) as -> by exact (denotes_unique _ _ _ D2 D'). exact D1.
      * intros (s & HM & T & c1 & B & D1). exists (Some (JScalar s)). split; [exact HM|]. constructor. split; [exact T|]. rewrite T. exists c1, c', u. cbn. auto.
Qed.

Lemma literal_float : forall g s, written_back float_text g -> s = new_scalar TNum (float_text g) ->
  decent s /\ float_value (JScalar s) g /\ forall f, float_value (JScalar s) f -> f = g.
Proof.
  intros g s (n & m & e & V & F) ->. split; [|split].
  - split; [cbn; eauto|]. intros _. exists n, m, e. split; [exact V|congruence].
  - exists (new_scalar TNum (float_text g)), n, m, e. auto.
  - intros f (s & n' & m' & e' & E & _ & V' & F'). injection E as <-. cbn in V'.
    pose proof (go_number_value _ _ _ _ V) as G. pose proof (go_number_value _ _ _ _ V') as G'. congruence.
Qed.
Lemma less_floats : forall s t f g, float_value (JScalar s) f -> float_value (JScalar t) g -> float_less f g -> less_values (Some (JScalar s)) (Some (JScalar t)).
Proof.
  intros s t f g (s' & n & m & e & E & T & V & F) (t' & n' & m' & e' & E' & T' & V' & F') L. injection E as <-. injection E' as <-. left.
  split; [exact T|]. split; [exact T'|]. exists n, m, e, n', m', e', f, g. auto.
Qed.
Lemma floats_less : forall x y, less_values (Some x) (Some y) -> (exists s, x = JScalar s /\ sc_type s = TNum) \/ (exists s, y = JScalar s /\ sc_type s = TNum) ->
  exists f g, float_value x f /\ float_value y g /\ float_less f g.
Proof.
  intros x y L N. destruct x as [s| |], y as [t| |]; cbn in L; try tauto.
  destruct L as [(T & T' & n & m & e & n' & m' & e' & f & g & V & V' & F & F' & L)|(u & v & [T _] & [T' _] & _)].
  - exists f, g. split; [exists s, n, m, e; auto|]. split; [exists t, n', m', e'; auto|exact L].
  - destruct N as [(s' & E & N)|(s' & E & N)]; injection E as <-; congruence.
Qed.
Lemma number_literal : forall t n m e g s, num_value t n m e -> float_of_decimal (mkDec n m e) = Some g -> reads_literal float_text (GNumber t) s -> s = new_scalar TNum (float_text g).
Proof. intros t n m e g s V F (x & G & ->). rewrite (go_number_value _ _ _ _ V), F in G. now injection G as <-. Qed.

Lemma greater_good : forall name t n m e g, member_name name -> number_text t -> num_value t n m e -> float_of_decimal (mkDec n m e) = Some g -> written_back float_text g ->
  exists b, good_basic (text "@." ++ name ++ text " > " ++ t) (fun z => exists y f, has_member name z y /\ float_value y f /\ float_less g f) b.
Proof.
  intros name t n m e g M T V F W. eexists. change (text " > ") with ([32%N] ++ [62%N] ++ [32%N]). rewrite <- !app_assoc.
  apply (compare_good name [62%N] (GNumber t) _ OpGt _ M); cbn [on_literal]; cbn [valid_token float_token]; auto.
  - split; [cbn; tauto|reflexivity].
  - cbn. tauto.
  - right. split; [exact T|reflexivity].
  - rewrite (go_number_value _ _ _ _ V), F. discriminate.
  - intros s R. pose proof (number_literal _ _ _ _ _ _ V F R) as E. destruct (literal_float _ _ W E) as (D & FV & U). split; [exact D|]. intro z. split.
    + intros ([y|] & HM & C); cbn [compares less_values] in C; [|destruct C].
      destruct (floats_less (JScalar s) y C) as (f1 & f2 & V1 & V2 & L); [left; exists s; subst s; auto|]. rewrite (U _ V1) in L. exists y, f2. auto.
    + intros (y & f & HM & VY & L). exists (Some y). split; [exact HM|]. cbn [compares]. destruct VY as (sy & VY). destruct VY as (n1 & m1 & e1 & -> & VY).
      eapply less_floats; [exact FV| |exact L]. exists sy, n1, m1, e1. auto.
Qed.
Lemma less_good : forall name t n m e g, member_name name -> number_text t -> num_value t n m e -> float_of_decimal (mkDec n m e) = Some g -> written_back float_text g ->
  exists b, good_basic (text "@." ++ name ++ text " < " ++ t) (fun z => exists y f, has_member name z y /\ float_value y f /\ float_less f g) b.
Proof.
  intros name t n m e g M T V F W. eexists. change (text " < ") with ([32%N] ++ [60%N] ++ [32%N]). rewrite <- !app_assoc.
  apply (compare_good name [60%N] (GNumber t) _ OpLt _ M); cbn [on_literal]; cbn [valid_token float_token]; auto.
  - split; [cbn; tauto|reflexivity].
  - cbn. tauto.
  - right. split; [exact T|reflexivity].
  - rewrite (go_number_value _ _ _ _ V), F. discriminate.
  - intros s R. pose proof (number_literal _ _ _ _ _ _ V F R) as E. destruct (literal_float _ _ W E) as (D & FV & U). split; [exact D|]. intro z. split.
    + intros ([y|] & HM & C); cbn [compares] in C; [|destruct C].
      destruct (floats_less y (JScalar s) C) as (f1 & f2 & V1 & V2 & L); [right; exists s; subst s; auto|]. rewrite (U _ V2) in L. exists y, f1. auto.
    + intros (y & f & HM & VY & L). exists (Some y). split; [exact HM|]. cbn [compares]. destruct VY as (sy & VY). destruct VY as (n1 & m1 & e1 & -> & VY).
      eapply less_floats; [|exact FV|exact L]. exists sy, n1, m1, e1. auto.
Qed.

Lemma test_good : forall t P, test float_text t P -> exists b, good_basic t P b.
Proof.
  intros t P [name M|name b t' M E|name c u M D|name t' n m e g M T V F W|name t' n m e g M T V F W].
  - eexists. now apply has_good.
  - now apply (bool_good name b).
  - now apply string_good.
  - eapply greater_good; eauto.
  - eapply less_good; eauto.
Qed.
End Tests.

(* ------------------------------------------------------------------ *)
(** Ends of recipes. *)
Section Endings.
Variable float_text : GoLiteral.float -> bytes.
Variable matches : bytes -> bytes -> Prop.
Variable strict : bool.

Definition good_end (t : bytes) (R : jval -> list jval -> Prop) (gs : list gsegment) : Prop :=
  every (fun g => S0 ;; x_segment rfc_text S0 marked g) gs t /\ all (on_segment valid_token (fun _ => True) true) gs /\
  all (on_segment float_token (fun _ => True) true) gs /\
  forall js, each (reads_segment float_text) gs js ->
    all ordinary_segment js /\ all typed_segment js /\
    forall root xs l, path matches strict root js xs l <-> exists ls, Forall2 R xs ls /\ l = concat ls.

Lemma singles : forall A (xs : list A) ls, Forall2 (fun y l => l = [y]) xs ls -> concat ls = xs.
Proof. intros A xs ls F. induction F as [|x l xs ls E F IH]; [reflexivity|]. subst l. cbn [concat app]. now rewrite IH. Qed.
Lemma singles_list : forall A (xs : list A), Forall2 (fun y l => l = [y]) xs (map (fun y => [y]) xs).
Proof. induction xs; constructor; auto. Qed.
Lemma forall2_iff : forall A B (P Q : A -> B -> Prop), (forall a b, P a b <-> Q a b) -> forall l l', Forall2 P l l' <-> Forall2 Q l l'.
Proof. intros A B P Q H l l'. split; apply PathOrder.forall2_impl; intros a b; apply H. Qed.
Lemma one_path : forall root j R, (forall x l, segment_nodes matches strict root j x l <-> R x l) ->
  forall xs l, path matches strict root [j] xs l <-> exists ls, Forall2 R xs ls /\ l = concat ls.
Proof.
  intros root j R H xs l. cbn [path]. split; intros (ls & F & E); exists ls; (split; [|exact E]); now apply (forall2_iff _ _ _ _ H).
Qed.

Lemma one_good : forall t R g, x_segment rfc_text S0 marked g t -> on_segment valid_token (fun _ => True) true g -> on_segment float_token (fun _ => True) true g ->
  (forall j, reads_segment float_text g j -> ordinary_segment j /\ typed_segment j /\ forall root x l, segment_nodes matches strict root j x l <-> R x l) ->
  good_end t R [g].
Proof.
  intros t R g X V F H. split; [|split; [|split]].
  - cbn [every]. apply (lang_eq _ _ (([] ++ t) ++ [])); [|cbn; apply app_nil_r]. lang_app; [apply no_blank|exact X|reflexivity].
  - cbn [all]. auto.
  - cbn [all]. auto.
  - intros js E. destruct js as [|j [|? ?]]; cbn [each] in E; try tauto. destruct (H j (proj1 E)) as (O & T & N). cbn [all]. split; [auto|]. split; [auto|].
    intros root xs l. apply one_path. apply N.
Qed.

(** A bracketed selector. *)
Lemma bracket_good : forall (desc : bool) t R s, x_selector rfc_text S0 marked s t -> on_selector valid_token (fun _ => True) true s -> on_selector float_token (fun _ => True) true s ->
  (forall j, reads_selector float_text s j -> ordinary_selector j /\ typed_selector j /\
     forall root x l, segment_nodes matches strict root (JSegment desc [j]) x l <-> R x l) ->
  good_end (text (if desc then "..[" else "[") ++ t ++ text "]") R [if desc then GDescBracket s [] else GBracket s []].
Proof.
  intros desc t R s X V F H. apply one_good.
  - destruct desc.
    + cbn [x_segment every]. apply (lang_eq _ _ (op_desc_open ++ [] ++ t ++ [] ++ [] ++ op_close_square)); [|reflexivity].
      lang_app; try apply no_blank; try reflexivity; try operator. exact X.
    + cbn [x_segment every]. apply (lang_eq _ _ (op_open_square ++ [] ++ t ++ [] ++ [] ++ op_close_square)); [|reflexivity].
      lang_app; try apply no_blank; try reflexivity; try operator. exact X.
  - destruct desc; cbn [on_segment all]; auto.
  - destruct desc; cbn [on_segment all]; auto.
  - intros j RJ. assert (exists j', j = JSegment desc [j'] /\ reads_selector float_text s j') as (j' & -> & RS).
    { destruct desc, j as [[] [|j' [|? ?]]]; cbn [reads_segment each] in RJ; try tauto; exists j'; tauto. }
    destruct (H j' RS) as (O & T & N). split; [|split].
    + cbn [ordinary_segment all]. auto.
    + cbn [typed_segment all]. auto.
    + exact N.
Qed.

Lemma int_value_one : forall t z z', int_value t z -> int_value t z' -> z = z'.
Proof.
  intros t z z' H H'. destruct H as [[-> ->]|(d & ds & D & F & H)].
  - destruct H' as [[_ ->]|(d & ds & D & F & [[E ->]|[E ->]])]; [reflexivity| |]; exfalso.
    + injection E as <- _. lia.
    + discriminate.
  - destruct H' as [[E ->]|(d' & ds' & D' & F' & H')].
    + exfalso. destruct H as [[-> _]|[-> _]]; [injection E as -> _; lia|discriminate].
    + destruct H as [[-> ->]|[-> ->]], H' as [[E ->]|[E ->]]; try (injection E as <- <-; reflexivity); exfalso; injection E; intros; subst; lia.
Qed.
Lemma int_text_ok : forall t z, int_value t z -> rfc_text (LxInt, t) t.
Proof. intros t z V. split; [exists z; exact V|reflexivity]. Qed.
Lemma safe_range : forall z, in_range z -> safe z.
Proof. unfold in_range, safe. intros z H. lia. Qed.

Lemma head_good : forall t n, int_value t (Z.of_nat n) -> in_range (Z.of_nat n) ->
  good_end (text "[:" ++ t ++ text "]") (fun y l => l = firstn n (items y)) [GBracket (GSlice None (Some t) None) []].
Proof.
  intros t n V RG. change (text "[:" ++ t ++ text "]") with (text "[" ++ ([58%N] ++ t) ++ text "]").
  apply (bracket_good false).
  - cbn [x_selector x_bound x_slice_step]. apply (lang_eq _ _ ([] ++ op_colon ++ [] ++ (t ++ []) ++ [])); [|rewrite !app_nil_r; reflexivity].
    lang_app; try apply no_blank; try reflexivity; [operator|eapply int_text_ok; eauto|now left].
  - cbn. eauto.
  - cbn. auto.
  - intros j R. destruct j as [| | |a b c|]; cbn [reads_selector] in R; try tauto. destruct R as (RA & RB & ->). destruct a; [destruct RA|]. destruct b as [z|]; [|destruct RB].
    cbn [reads_int] in RB. rewrite (int_value_one _ _ _ RB V). split; [|split; [exact Logic.I|intros; apply head_segment]].
    cbn. repeat split; auto; try lia. now apply safe_range.
Qed.
Lemma tail_good : forall t n, int_value t (- Z.of_nat n) -> in_range (- Z.of_nat n) -> 0 < n ->
  good_end (text "[" ++ t ++ text ":]") (fun y l => l = skipn (length (items y) - n) (items y)) [GBracket (GSlice (Some t) None None) []].
Proof.
  intros t n V RG P. replace (text "[" ++ t ++ text ":]") with (text "[" ++ (t ++ [58%N]) ++ text "]") by (rewrite <- app_assoc; reflexivity).
  apply (bracket_good false).
  - cbn [x_selector x_bound x_slice_step]. apply (lang_eq _ _ ((t ++ []) ++ op_colon ++ [] ++ [] ++ [])); [|rewrite !app_nil_r; reflexivity].
    lang_app; try apply no_blank; try reflexivity; [eapply int_text_ok; eauto|operator|now left].
  - cbn. eauto.
  - cbn. auto.
  - intros j R. destruct j as [| | |a b c|]; cbn [reads_selector] in R; try tauto. destruct R as (RA & RB & ->). destruct b; [destruct RB|]. destruct a as [z|]; [|destruct RA].
    cbn [reads_int] in RA. rewrite (int_value_one _ _ _ RA V). split; [|split; [exact Logic.I|intros; now apply tail_segment]].
    cbn. repeat split; auto; try lia. now apply safe_range.
Qed.
Lemma item_good : forall t n, int_value t (Z.of_nat n) -> in_range (Z.of_nat n) ->
  good_end (text "[" ++ t ++ text "]") (fun y l => l = firstn 1 (skipn n (items y))) [GBracket (GIndex t) []].
Proof.
  intros t n V RG. apply (bracket_good false).
  - eapply int_text_ok; eauto.
  - cbn. eauto.
  - cbn. auto.
  - intros j R. destruct j as [| |z| |]; cbn [reads_selector] in R; try tauto. rewrite (int_value_one _ _ _ R V). split; [|split; [exact Logic.I|intros; apply item_segment]].
    cbn. now apply safe_range.
Qed.
Lemma all_good : good_end (text "[*]") (fun y l => l = contents y) [GBracket GWild []].
Proof.
  change (text "[*]") with (text "[" ++ [42%N] ++ text "]"). apply (bracket_good false).
  - cbn [x_selector]. change [42%N] with op_star. operator.
  - exact Logic.I.
  - exact Logic.I.
  - intros j R. destruct j; cbn [reads_selector] in R; try tauto. split; [exact Logic.I|]. split; [exact Logic.I|]. intros; apply wild_segment.
Qed.
Lemma filter_good : forall (desc : bool) t P (R : jval -> list jval -> Prop), test float_text t P ->
  (forall root c x l, (forall z, holds matches strict root c z <-> P z) -> segment_nodes matches strict root (JSegment desc [JFilter c]) x l <-> R x l) ->
  exists gs, good_end (text (if desc then "..[?" else "[?") ++ t ++ text "]") R gs.
Proof.
  intros desc t P R T H. destruct (test_good float_text matches strict t P T) as (b & X & V & F & J). eexists.
  replace (text (if desc then "..[?" else "[?") ++ t ++ text "]") with (text (if desc then "..[" else "[") ++ ([63%N] ++ t) ++ text "]") by (destruct desc; reflexivity).
  apply (bracket_good desc _ R (GFilter (GOr (GAnd b []) []))).
  - cbn [x_selector x_or x_and every]. apply (lang_eq _ _ (op_question ++ [] ++ (t ++ []) ++ [])); [|rewrite !app_nil_r; reflexivity].
    lang_app; try apply no_blank; try reflexivity; [operator|exact X].
  - cbn [on_selector on_or on_and all]. auto.
  - cbn [on_selector on_or on_and all]. auto.
  - intros j RJ. destruct j as [| | | |c]; cbn [reads_selector] in RJ; try tauto. cbn [reads_or reads_and reads_list] in RJ.
    destruct (J c RJ) as (O & TY & HH). split; [exact O|]. split; [exact TY|]. intros root x l. apply H. apply HH.
Qed.
Lemma below_good : forall name, member_name name -> strict = false -> good_end (text ".." ++ name) (fun y l => below (called name) y l) [GDescName (46%N :: 46%N :: name)].
Proof.
  intros name M ST. apply one_good.
  - cbn [x_segment]. split; [exists name; auto|reflexivity].
  - exact Logic.I.
  - exact Logic.I.
  - intros j RJ. destruct j as [[] [|[n| | | |] [|? ?]]]; cbn [reads_segment] in RJ; try tauto. injection RJ as <-.
    split; [cbn; auto|]. split; [cbn; auto|]. intros root x l. now apply below_name.
Qed.

Lemma ending_good : forall t R, ending float_text strict t R -> exists gs, good_end t R gs.
Proof.
  intros t R [|t' n V RG|t' n V RG P|t' n V RG| |t' P T|name M ST|t' P T ST].
  - exists []. split; [reflexivity|]. split; [exact Logic.I|]. split; [exact Logic.I|]. intros js E. destruct js; [|destruct E]. split; [exact Logic.I|]. split; [exact Logic.I|].
    intros root xs l. cbn [path]. split.
    + intros ->. exists (map (fun y => [y]) xs). split; [apply singles_list|]. symmetry. apply singles, singles_list.
    + intros (ls & F & ->). now apply singles.
  - eexists. now apply head_good.
  - eexists. now apply tail_good.
  - eexists. now apply item_good.
  - eexists. apply all_good.
  - apply (filter_good false t' P); [exact T|]. intros root c x l H. now apply filter_segment.
  - eexists. now apply below_good.
  - apply (filter_good true t' P); [exact T|]. intros root c x l H. now apply below_filter.
Qed.

(** Names before the end. *)
Definition dots (names : list bytes) : list gsegment := map (fun name => GDotName (46%N :: name)) names.
Definition reached (names : list bytes) (R : jval -> list jval -> Prop) (x : jval) (l : list jval) : Prop :=
  exists ys lists, under names x ys /\ Forall2 R ys lists /\ l = concat lists.
Lemma forall2_concat : forall A B C (P : A -> list B -> Prop) (Q : B -> list C -> Prop) xs l,
  (exists ls, Forall2 (fun x l => exists ys lists, P x ys /\ Forall2 Q ys lists /\ l = concat lists) xs ls /\ l = concat ls) <->
  (exists yss, Forall2 P xs yss /\ exists lists, Forall2 Q (concat yss) lists /\ l = concat lists).
Proof.
  intros A B C P Q. induction xs as [|x xs IH]; intro l.
  - split.
    + intros (ls & F & ->). inversion F; subst. exists []. split; [constructor|]. exists []. split; [constructor|reflexivity].
    + intros (yss & F & lists & G & ->). inversion F; subst. inversion G; subst. exists []. split; [constructor|reflexivity].
  - split.
    + intros (ls & F & ->). inversion F as [|? l0 ? ls' (ys & lists & P1 & Q1 & E) F']; subst. destruct (proj1 (IH (concat ls')) (ex_intro _ ls' (conj F' eq_refl))) as (yss & F1 & lists' & G & E').
      exists (ys :: yss). split; [now constructor|]. exists (lists ++ lists'). cbn [concat]. split; [now apply Forall2_app|]. now rewrite concat_app, E'.
    + intros (yss & F & lists & G & ->). inversion F as [|? ys ? yss' P1 F']; subst. cbn [concat] in G. apply Forall2_app_inv_l in G as (l1 & l2 & G1 & G2 & ->).
      destruct (proj2 (IH (concat l2)) (ex_intro _ yss' (conj F' (ex_intro _ l2 (conj G2 eq_refl))))) as (ls & FL & E).
      exists (concat l1 :: ls). split; [constructor; [exists ys, l1; auto|exact FL]|]. cbn [concat]. now rewrite concat_app, E.
Qed.
Lemma recipe_good : forall names t R gs, Forall member_name names -> good_end t R gs -> good_end (dotted names ++ t) (reached names R) (dots names ++ gs).
Proof.
  induction names as [|name names IH]; intros t R gs M G.
  - cbn [dotted flat_map app dots map]. destruct G as (X & V & F & H). split; [exact X|]. split; [exact V|]. split; [exact F|]. intros js RJ. destruct (H js RJ) as (O & T & N).
    split; [exact O|]. split; [exact T|]. intros root xs l. rewrite N. split; intros (ls & F2 & ->); exists ls; (split; [|reflexivity]); (eapply PathOrder.forall2_impl; [|exact F2]); cbn.
    + intros y l' Q. exists [y], [l']. split; [reflexivity|]. split; [constructor; [exact Q|constructor]|cbn; now rewrite app_nil_r].
    + intros y l' (ys & lists & -> & F3 & ->). inversion F3 as [|? ? ? ? Q F4]; subst. inversion F4; subst. cbn. now rewrite app_nil_r.
  - inversion M as [|? ? M1 MR]; subst. destruct (IH t R gs MR G) as (X & V & F & H). cbn [dots map app]. split; [|split; [|split]].
    + cbn [every x_segment dotted flat_map]. change (flat_map (fun n => text "." ++ n) names) with (dotted names).
      apply (lang_eq _ _ (([] ++ 46%N :: name) ++ (dotted names ++ t))); [|cbn [app]; rewrite <- app_assoc; reflexivity].
      lang_app; [apply no_blank|now apply dot_name|exact X].
    + cbn [all]. split; [exact Logic.I|exact V].
    + cbn [all]. split; [exact Logic.I|exact F].
    + intros js RJ. destruct js as [|j js]; cbn [each] in RJ; [destruct RJ|]. destruct RJ as [RJ RR]. destruct (H js RR) as (O & T & N).
      destruct j as [[] [|[n| | | |] [|? ?]]]; cbn [reads_segment] in RJ; try tauto. injection RJ as <-.
      split; [cbn [all]; split; [cbn; split; [discriminate|auto]|exact O]|]. split; [cbn [all]; split; [cbn; auto|exact T]|].
      intros root xs l. cbn [path]. setoid_rewrite N. unfold reached.
      rewrite <- (forall2_concat _ _ _ (fun x ys => segment_nodes matches strict root (JSegment false [JName name]) x ys) (fun x l => exists ys lists, under names x ys /\ Forall2 R ys lists /\ l = concat lists)).
      split; intros (ls & F2 & ->); exists ls; (split; [|reflexivity]); (eapply PathOrder.forall2_impl; [|exact F2]); cbn [under].
      * intros x l' (zs & lss & S1 & F3 & ->). apply name_segment in S1.
        destruct (proj1 (forall2_concat _ _ _ (under names) R zs (concat lss)) (ex_intro _ lss (conj F3 eq_refl))) as (yss & F4 & lists & F5 & E).
        exists (concat yss), lists. split; [exists zs, yss; auto|]. auto.
      * intros x l' (ys & lists & (zs & yss & S1 & F3 & ->) & F5 & ->).
        destruct (proj2 (forall2_concat _ _ _ (under names) R zs (concat lists)) (ex_intro _ yss (conj F3 (ex_intro _ lists (conj F5 eq_refl))))) as (ls' & F6 & E).
        exists zs, ls'. split; [now apply name_segment|]. auto.
Qed.
End Endings.

(* ------------------------------------------------------------------ *)
(** A recipe is a query, with these nodes. *)
Lemma recipe_query : forall float_text matches strict a R, recipe float_text strict a R ->
  exists r segs, a = text "$" ++ r /\ query_of_string float_text a = Some (JQuery true segs) /\ typed_query (JQuery true segs) /\ ordinary (JQuery true segs) /\
    forall x l, nodes matches strict x (JQuery true segs) x l <-> R x l.
Proof.
  intros ft matches strict a R [names e R' M E]. destruct (ending_good ft matches strict e R' E) as (gs & G).
  destruct (recipe_good ft matches strict names e R' gs M G) as (X & V & F & H).
  assert (Q : rfc_query marked (GQuery true (dots names ++ gs)) (text "$" ++ dotted names ++ e)).
  { split; [eauto|]. cbn [x_query x_root]. apply cat_app; [change (text "$") with op_dollar; operator|exact X]. }
  destruct (C54_rfc_queries_are_read ft _ _ Q V F) as (j & RJ & QS & _). destruct j as [r segs]. cbn [reads_query] in RJ. destruct RJ as [<- RJ].
  destruct (H segs RJ) as (O & T & N). exists (dotted names ++ e), segs. split; [reflexivity|]. split; [exact QS|]. split; [exact T|]. split; [exact O|].
  intros x l. rewrite nodes_path, N. unfold reached. split.
  - intros (ls & F2 & ->). inversion F2 as [|? l0 ? ls' Q0 F3]; subst. inversion F3; subst. cbn [concat]. now rewrite app_nil_r.
  - intro Q0. exists [l]. split; [constructor; [exact Q0|constructor]|cbn; now rewrite app_nil_r].
Qed.

(** C74.  What the argument makes of values of the input is what the recipe says. *)
Theorem C74_applies : forall float_text matches strict a R vs ws,
  recipe float_text strict a R -> Forall clean vs ->
  applies float_text matches strict a vs ws <-> exists lists, Forall2 R vs lists /\ ws = concat lists.
Proof.
  intros ft matches strict a R vs ws RC CL. destruct (recipe_query ft matches strict a R RC) as (r & segs & EA & QS & T & O & N). split.
  - intro A. destruct A as [vs|vs|vs|t n vs I1|t z vs I1 I2|r' segs' vs nl q QS' T' O' CL' F]; try discriminate EA.
    rewrite QS in QS'. unfold q in *. injection QS' as <-.
    exists nl. split; [|reflexivity]. eapply PathOrder.forall2_impl; [|exact F]. intros x l. apply N.
  - intros (lists & F & ->). subst a. apply (ap_query ft matches strict r segs); auto. eapply PathOrder.forall2_impl; [|exact F]. intros x l. apply N.
Qed.
Print Assumptions C74_applies.

(** For every value there is one answer, and one only. *)
Theorem C74_one_answer : forall float_text strict a R x,
  recipe float_text strict a R -> clean x ->
  exists l, R x l /\ forall l', R x l' -> l' = l.
Proof.
  intros ft strict a R x RC CL. pose (matches := fun _ _ : bytes => False). destruct (recipe_query ft matches strict a R RC) as (r & segs & EA & QS & T & O & N).
  assert (CV : Forall clean [x]) by (constructor; [exact CL|constructor]).
  destruct (C60_each_argument_applies ft matches strict a [x]) as (ws & A & U).
  - right. right. right. right. exists r, (JQuery true segs). auto.
  - intros q E. rewrite QS in E. injection E as <-. eauto.
  - exact CV.
  - destruct CL as (_ & _ & L). cbn [stream flat_map]. rewrite app_nil_r. eapply Z.lt_trans; [exact L|reflexivity].
  - clear EA. apply (C74_applies ft matches strict a R [x] ws RC CV) in A as (lists & F & ->). inversion F as [|? l ? ls Q F']; subst. inversion F'; subst. exists l. split; [exact Q|].
    intros l' Q'. specialize (U (concat [l'])). cbn [concat] in U. rewrite !app_nil_r in U. apply U. 
    replace l' with (concat [l']) by (cbn; apply app_nil_r). apply (C74_applies ft matches strict a R [x] _ RC CV). exists [l']. split; [constructor; [exact Q'|constructor]|reflexivity].
Qed.
Print Assumptions C74_one_answer.

Lemma follows_applied : forall float_text matches strict args vs ws, follows float_text strict args vs ws -> applied float_text matches strict args vs ws /\ without_depth args.
Proof.
  induction 1 as [vs|args vs ws L F [IH W]|args vs ws L F [IH W]|a R args vs lists ws L CL RC F2 F [IH W]].
  - split; constructor.
  - split; [|constructor; [discriminate|exact W]]. eapply ad_cons; [exact L|apply ap_split|exact IH].
  - split; [|constructor; [discriminate|exact W]]. eapply ad_cons; [exact L|apply ap_join|exact IH].
  - split.
    + eapply ad_cons; [exact L| |exact IH]. apply (C74_applies _ _ _ _ R); eauto.
    + constructor; [|exact W]. destruct RC. discriminate.
Qed.

(** jp with recipes, split and join as arguments prints a JSON text of the values
    that follow from them, and nothing else. *)
Theorem C74_recipes :
  forall float_text csv_records find grow tty epipe (c : command) (rd : reader) (vs ws : list jval),
    plain_json tty c -> cm_file c = [] ->
    json_input c rd vs ->
    follows float_text (cm_strict c) (cm_args c) vs ws ->
    exists t, stext true ws_separated ws t /\
      forall oc, jp float_text csv_records find grow tty epipe None c rd oc <-> oc = mkOutcome t 0.
Proof.
  intros ft csv find grow tty epipe c rd vs ws PJ FI JI FW. destruct (follows_applied ft (fun _ _ => False) _ _ _ _ FW) as [AP WD].
  eapply C60_json_to_json; eauto.
Qed.
Print Assumptions C74_recipes.

(* ------------------------------------------------------------------ *)
(** The queries of the cookbook are recipes. *)
Lemma lower_name : forall c u, (97 <= c <= 122)%N -> Forall (fun b => 97 <= b <= 122)%N u -> member_name (c :: u).
Proof.
  intros c u C F. exists c, u. split; [|split].
  - change (c :: u) with ([c] ++ u) at 1. cbn [flat_map]. f_equal.
    + unfold utf8. destruct (N.ltb_spec c 128); [reflexivity|lia].
    + induction F as [|b u B F IH]; [reflexivity|]. cbn [flat_map]. rewrite <- IH. unfold utf8. destruct (N.ltb_spec b 128); [reflexivity|lia].
  - now left.
  - eapply Forall_impl; [|exact F]. intros b B. left. now left.
Qed.
Ltac lower := match goal with |- member_name ?t => let t' := eval vm_compute in t in change (member_name t') end; apply lower_name; [lia|repeat constructor; lia].
Ltac named l := apply (recipe_of _ _ l); [constructor; [lower|constructor]|].
Lemma ten : int_value (text "10") (Z.of_nat 10).
Proof. right. exists 49%N, [48%N]. split; [lia|]. split; [repeat constructor; unfold digit; lia|]. left. split; reflexivity. Qed.
Lemma minus_ten : int_value (text "-10") (- Z.of_nat 10).
Proof. right. exists 49%N, [48%N]. split; [lia|]. split; [repeat constructor; unfold digit; lia|]. right. split; reflexivity. Qed.
Lemma hundred : number_text (text "100") /\ num_value (text "100") false 100 0.
Proof.
  assert (I1 : int_text [49; 48; 48]%N) by (right; exists 49%N, [48; 48]%N; split; [reflexivity|]; split; [lia|repeat constructor; unfold digit; lia]).
  split.
  - exists [], [49; 48; 48]%N, [], []. split; [reflexivity|]. split; [now left|]. split; [exact I1|]. split; now left.
  - exists [49; 48; 48]%N, [], []. split; [reflexivity|]. split; [exact I1|]. split; [now left|]. split; [now left|]. exists [], 0%Z.
    split; [now left|]. split; [now left|]. split; reflexivity.
Qed.
Theorem C74_cookbook : forall float_text,
  (forall g, float_of_decimal (mkDec false 100 0) = Some g -> written_back float_text g) ->
  Forall (fun a => exists R, recipe float_text false (text a) R)
    ["$.items[:10]"; "$.items[-10:]"; "$.items[*]"; "$.users[?@.email]"; "$.products[?@.price > 100]"; "$..[?@.level == ""error""]";
     "$.users[?@.active == true]"; "$..email"; "$.message"]%string.
Proof.
  intros ft W. destruct hundred as [NT NV].
  assert (G : exists g, float_of_decimal (mkDec false 100 0) = Some g) by (eexists; vm_compute; reflexivity). destruct G as [g G].
  repeat (apply Forall_cons || apply Forall_nil).
  - eexists. change (text "$.items[:10]") with (text "$" ++ dotted [text "items"] ++ (text "[:" ++ text "10" ++ text "]")). named [text "items"].
    apply e_head; [exact ten|unfold in_range; lia].
  - eexists. change (text "$.items[-10:]") with (text "$" ++ dotted [text "items"] ++ (text "[" ++ text "-10" ++ text ":]")). named [text "items"].
    apply e_tail; [exact minus_ten|unfold in_range; lia|lia].
  - eexists. change (text "$.items[*]") with (text "$" ++ dotted [text "items"] ++ text "[*]"). named [text "items"]. apply e_all.
  - eexists. change (text "$.users[?@.email]") with (text "$" ++ dotted [text "users"] ++ (text "[?" ++ (text "@." ++ text "email") ++ text "]")). named [text "users"].
    apply e_filter. apply t_has. lower.
  - eexists. change (text "$.products[?@.price > 100]") with (text "$" ++ dotted [text "products"] ++ (text "[?" ++ (text "@." ++ text "price" ++ text " > " ++ text "100") ++ text "]")).
    named [text "products"]. apply e_filter. apply (t_greater ft (text "price") (text "100") false 100 0 g); [lower|exact NT|exact NV|exact G|now apply W].
  - eexists. change (text "$..[?@.level == ""error""]") with (text "$" ++ dotted [] ++ (text "..[?" ++ (text "@." ++ text "level" ++ text " == """ ++ text "error" ++ text """") ++ text "]")).
    apply (recipe_of _ _ []); [constructor|]. apply e_below_filter; [|reflexivity]. apply (t_string ft (text "level") (text "error") (text "error")); [lower|].
    change (denotes (utf8 101 ++ utf8 114 ++ utf8 114 ++ utf8 111 ++ utf8 114 ++ []) (text "error")). unfold text; cbn [list_ascii_of_string map Ascii.N_of_ascii Ascii.N_of_digits].
    repeat (apply dn_char; [unfold unicode; lia|lia|discriminate|discriminate|]). constructor.
  - eexists. change (text "$.users[?@.active == true]") with (text "$" ++ dotted [text "users"] ++ (text "[?" ++ (text "@." ++ text "active" ++ text " == " ++ text "true") ++ text "]")).
    named [text "users"]. apply e_filter. apply (t_bool ft (text "active") true); [lower|reflexivity].
  - eexists. change (text "$..email") with (text "$" ++ dotted [] ++ (text ".." ++ text "email")). apply (recipe_of _ _ []); [constructor|]. apply e_below; [lower|reflexivity].
  - eexists. change (text "$.message") with (text "$" ++ dotted [text "message"] ++ []). named [text "message"]. apply e_nothing.
Qed.
Print Assumptions C74_cookbook.

(** jp -json-compact '$.a[?@.b == true]' join on {"a":[{"b":true},3]}. *)
Definition ex74 : command := plain_command [text "$.a[?@.b == true]"; text "join"].
Definition ex74_input : reader := stdin (text "{""a"":[{""b"":true},3]}").
Definition ex74_found : jval := JObj [(key_scalar [98%N], JScalar true_scalar)] false.
Definition ex74_value : jval := JObj [(key_scalar [97%N], JArr [ex74_found; P_Path.num 3] false)] false.
Definition ex74_R : jval -> list jval -> Prop := fun x l => exists ys lists, under [[97%N]] x ys /\
  Forall2 (fun y l => sifted (fun z => exists s, has_member [98%N] z (JScalar s) /\ sc_type s = TBool /\ sc_bytes s = text "true") (contents y) l) ys lists /\ l = concat lists.
Lemma one_char : forall c, (97 <= c <= 122)%N -> denotes [c] [c] /\ chars true [c].
Proof.
  intros c H. split.
  - assert (E : utf8 c = [c]) by (unfold utf8; destruct (N.ltb_spec c 128); [reflexivity|lia]). assert (X : denotes (utf8 c ++ []) [c]); [|now rewrite E in X].
    apply dn_char; [unfold unicode; lia|lia|lia|lia|constructor].
  - apply ch_plain; [unfold plain_byte; lia|constructor].
Qed.
Lemma letter_key : forall c, (97 <= c <= 122)%N -> decent (key_scalar [c]) /\ spells (key_scalar [c]) [c] /\ sc_type (key_scalar [c]) = TStr.
Proof.
  intros c H. destruct (one_char c H) as [D _]. split; [|split].
  - split; [|discriminate]. exists [c], [c]. split; [reflexivity|]. split; [exact D|]. intros _ [E|[]]. lia.
  - exists [c]. split; [split; [reflexivity|]; exists [c]; auto|]. cbn. rewrite app_nil_r. unfold utf8. destruct (N.ltb_spec c 128); [reflexivity|lia].
  - reflexivity.
Qed.
Example C74_example : forall float_text csv_records find grow,
  json_input ex74 ex74_input [ex74_value] /\
  follows float_text false (cm_args ex74) [ex74_value] [JArr [ex74_found] false] /\
  jp float_text csv_records find grow false false None ex74 ex74_input (mkOutcome (text "[{""b"": true}]" ++ [10%N]) 0).
Proof.
  intros ft csv find grow. assert (W : ws []) by constructor.
  assert (A : (97 <= 97 <= 122)%N) by lia. assert (B : (97 <= 98 <= 122)%N) by lia.
  destruct (letter_key _ A) as (DA & SA & TA), (letter_key _ B) as (DB & SB & TB), (one_char _ A) as [_ CA], (one_char _ B) as [_ CB].
  assert (JI : json_input ex74 ex74_input [ex74_value]).
  { split; [apply format_ok; eexists; vm_compute; reflexivity|]. exists (text "{""a"":[{""b"":true},3]}"). split; [repeat split|].
    change (text "{""a"":[{""b"":true},3]}") with ([] ++ (123 :: ([] ++ (34 :: [97] ++ [34]) ++ [] ++ 58 :: [] ++ (91 :: ([] ++ (123 :: ([] ++ (34 :: [98] ++ [34]) ++ [] ++ 58 :: [] ++ true_bytes ++ []) ++ [125]) ++ [] ++ 44 :: ([] ++ [51] ++ [])) ++ [93]) ++ []) ++ [125]) ++ [])%N.
    apply JsonSpec.st_cons; [exact W| |now left|constructor; exact W]. apply vt_obj. apply me_one; auto. apply vt_arr. apply el_cons; auto.
    - apply vt_obj. apply me_one; auto. apply vt_true.
    - apply el_one; auto. apply (P_JpQuery.ex53_digit 3). lia. }
  assert (CF : comparable ex74_found).
  { apply cm_object; [apply cb_cons; [exact DB| |constructor]|constructor; constructor]. apply cm_scalar. split; [now left|discriminate]. }
  assert (N3 : comparable (P_Path.num 3)).
  { apply cm_scalar. assert (V : num_value [51%N] false 3 0).
    { exists [51%N], [], []. split; [reflexivity|]. split; [right; exists 51%N, []; split; [reflexivity|]; split; [lia|constructor]|]. split; [now left|]. split; [now left|].
      exists [], 0%Z. split; [now left|]. split; [now left|]. split; reflexivity. }
    split; [exists false, 3%Z, 0%Z; exact V|]. intros _. exists false, 3%Z, 0%Z. split; [exact V|vm_compute; discriminate]. }
  assert (CL : clean ex74_value).
  { split; [|split].
    - apply cm_object; [apply cb_cons; [exact DA| |constructor]|constructor; constructor]. apply cm_array. apply ci_cons; [exact CF|]. apply ci_cons; [exact N3|constructor].
    - intros l e m I1 I2. cbn in I1. destruct I1 as [I1|[I1|[I1|[I1|[I1|[]]]]]]; try discriminate; injection I1 as <- <-; destruct I2 as [<-|[]]; reflexivity.
    - vm_compute. reflexivity. }
  assert (RC : recipe ft false (text "$.a[?@.b == true]") ex74_R).
  { change (text "$.a[?@.b == true]") with (text "$" ++ dotted [[97%N]] ++ (text "[?" ++ (text "@." ++ [98%N] ++ text " == " ++ text "true") ++ text "]")).
    unfold ex74_R. apply (recipe_of _ _ [[97%N]]); [constructor; [lower|constructor]|]. apply e_filter. apply (t_bool ft [98%N] true (text "true")); [lower|reflexivity]. }
  assert (Q : ex74_R ex74_value [ex74_found]).
  { exists [JArr [ex74_found; P_Path.num 3] false], [[ex74_found]]. split; [|split; [|reflexivity]].
    - exists [JArr [ex74_found; P_Path.num 3] false], [[JArr [ex74_found; P_Path.num 3] false]]. split; [|split; [|reflexivity]].
      + eexists. split; [apply sf_yes; [exact SA|constructor]|reflexivity].
      + constructor; [reflexivity|constructor].
    - constructor; [|constructor]. apply sf_yes; [|apply sf_no; [|constructor]].
      + exists true_scalar. split; [|split; reflexivity]. exists []. eexists. split; [apply sf_yes; [exact SB|constructor]|reflexivity].
      + intros (s & (ys & M) & _). cbn in M. discriminate. }
  assert (LT : forall vs, length (stream vs) <= 100 -> (Z.of_nat (length (stream vs)) < maxint)%Z).
  { intros l H. apply Z.le_lt_trans with 100%Z; [lia|reflexivity]. }
  assert (FW : follows ft false (cm_args ex74) [ex74_value] [JArr [ex74_found] false]).
  { apply (fw_recipe ft false _ ex74_R _ _ [[ex74_found]]); [apply LT; cbn; lia|constructor; [exact CL|constructor]|exact RC|constructor; [exact Q|constructor]|].
    apply fw_join; [apply LT; cbn; lia|constructor]. }
  split; [exact JI|]. split; [exact FW|]. destruct (follows_applied ft (fun _ _ => False) _ _ _ _ FW) as [AP _].
  destruct (C60_arguments_in_order ft csv (fun _ _ => False) find grow false false ex74 ex74_input _ _ ltac:(cbn; auto) eq_refl ltac:(cbn; auto) JI AP) as (out & ok & PR & H).
  assert (L : leaves_behind (output_options false ex74) false None (stream [JArr [ex74_found] false]) (mkOutcome (text "[{""b"": true}]" ++ [10%N]) 0)) by (apply leaves_vm; vm_compute; reflexivity).
  refine (proj2 (H _) _). symmetry. exact (leaves_unique _ _ _ _ _ _ (C49_complete_output _ false _ _ _ None PR ltac:(discriminate)) L).
Qed.

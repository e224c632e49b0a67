(** Translating derivations of the grammar of queries. *)
From Coq Require Import List NArith ZArith Bool.
From Verif Require Import Base GrammarModel GrammarInd LexModel ParseModel QuerySyntax.

Lemma cat_intro : forall {A} (p q : @lang A) x y, p x -> q y -> (p ;; q) (x ++ y).
Proof. intros A p q x y P Q. now exists x, y. Qed.

(** The grammar, rule by rule. *)
Section Rules.
  Context {sym : Type}.
  Variables (term : lextok -> @lang sym) (S : @lang sym) (log : gor -> Prop).
  Local Notation xq := (x_query term S log).
  Local Notation xg := (x_segment term S log).
  Local Notation xs := (x_selector term S log).
  Local Notation xo := (x_or term S log).
  Local Notation xd := (x_and term S log).
  Local Notation xb := (x_basic term S log).
  Local Notation xv := (x_comparable term S log).
  Local Notation xf := (x_call term S log).
  Local Notation xa := (x_argument term S log).
  Lemma rule_query : forall r segs, xq (GQuery r segs) = (x_root term r ;; every (fun g => S ;; xg g) segs).
  Proof. reflexivity. Qed.
  Lemma rule_bracket : forall a l, xg (GBracket a l) = (op term op_open_square ;; S ;; xs a ;; every (fun s => S ;; op term op_comma ;; S ;; xs s) l ;; S ;; op term op_close_square).
  Proof. reflexivity. Qed.
  Lemma rule_dotwild : xg GDotWild = op term op_dot_star.
  Proof. reflexivity. Qed.
  Lemma rule_dotname : forall t, xg (GDotName t) = term (LxMember, t).
  Proof. reflexivity. Qed.
  Lemma rule_descbracket : forall a l, xg (GDescBracket a l) = (op term op_desc_open ;; S ;; xs a ;; every (fun s => S ;; op term op_comma ;; S ;; xs s) l ;; S ;; op term op_close_square).
  Proof. reflexivity. Qed.
  Lemma rule_descwild : xg GDescWild = op term op_desc_star.
  Proof. reflexivity. Qed.
  Lemma rule_descname : forall t, xg (GDescName t) = term (LxDesc, t).
  Proof. reflexivity. Qed.
  Lemma rule_name : forall n, xs (GName n) = x_string term n.
  Proof. reflexivity. Qed.
  Lemma rule_wild : xs GWild = op term op_star.
  Proof. reflexivity. Qed.
  Lemma rule_slice : forall a b c, xs (GSlice a b c) = (x_bound term S a ;; op term op_colon ;; S ;; x_bound term S b ;; x_slice_step term S c).
  Proof. reflexivity. Qed.
  Lemma rule_index : forall t, xs (GIndex t) = int term t.
  Proof. reflexivity. Qed.
  Lemma rule_filter : forall e, xs (GFilter e) = (op term op_question ;; S ;; xo e).
  Proof. reflexivity. Qed.
  Lemma rule_or : forall a l, xo (GOr a l) = (xd a ;; every (fun x => S ;; op term op_or ;; S ;; xd x) l).
  Proof. reflexivity. Qed.
  Lemma rule_and : forall a l, xd (GAnd a l) = (xb a ;; every (fun x => S ;; op term op_and ;; S ;; xb x) l).
  Proof. reflexivity. Qed.
  Lemma rule_paren : forall n e, xb (GParen n e) = (x_not term S n ;; op term op_open ;; S ;; xo e ;; S ;; op term op_close).
  Proof. reflexivity. Qed.
  Lemma rule_compare : forall a t b, xb (GCompare a t b) = (xv a ;; S ;; term (LxCmp, t) ;; S ;; xv b).
  Proof. reflexivity. Qed.
  Lemma rule_testquery : forall n q, xb (GTestQuery n q) = (x_not term S n ;; xq q).
  Proof. reflexivity. Qed.
  Lemma rule_testcall : forall n f, xb (GTestCall n f) = (x_not term S n ;; xf f).
  Proof. reflexivity. Qed.
  Lemma rule_lit : forall l, xv (GLit l) = x_literal term l.
  Proof. reflexivity. Qed.
  Lemma rule_sing : forall r l, xv (GSing r l) = (x_root term r ;; every (fun s => S ;; x_step term s) l).
  Proof. reflexivity. Qed.
  Lemma rule_valuecall : forall f, xv (GValueCall f) = xf f.
  Proof. reflexivity. Qed.
  Lemma rule_call0 : forall t, xf (GCall t []) = (term (LxFun, t) ;; S ;; nothing ;; S ;; op term op_close).
  Proof. reflexivity. Qed.
  Lemma rule_call : forall t a l, xf (GCall t (a :: l)) = (term (LxFun, t) ;; S ;; (xa a ;; every (fun x => S ;; op term op_comma ;; S ;; xa x) l) ;; S ;; op term op_close).
  Proof. reflexivity. Qed.
  Lemma rule_arglit : forall l, xa (GArgLit l) = x_literal term l.
  Proof. reflexivity. Qed.
  Lemma rule_argquery : forall q, xa (GArgQuery q) = xq q.
  Proof. reflexivity. Qed.
  Lemma rule_arglogical : forall e, xa (GArgLogical e) = (fun t => log e /\ xo e t).
  Proof. reflexivity. Qed.
  Lemma rule_argcall : forall f, xa (GArgCall f) = xf f.
  Proof. reflexivity. Qed.
End Rules.
Global Hint Rewrite @rule_query @rule_bracket @rule_dotwild @rule_dotname @rule_descbracket @rule_descwild @rule_descname @rule_name @rule_wild @rule_slice
  @rule_index @rule_filter @rule_or @rule_and @rule_paren @rule_compare @rule_testquery @rule_testcall @rule_lit @rule_sing @rule_valuecall @rule_call0 @rule_call
  @rule_arglit @rule_argquery @rule_arglogical @rule_argcall : rules.

(** From right to left: the texts on the left are related to some on the right. *)
Section Sim.
  Context {A B : Type}.
  Variables (ta : lextok -> @lang A) (sa : @lang A) (tb : lextok -> @lang B) (sb : @lang B) (log : gor -> Prop).
  Variable R : list A -> list B -> Prop.
  Hypothesis Rnil : R [] [].
  Hypothesis Rapp : forall a1 b1 a2 b2, R a1 b1 -> R a2 b2 -> R (a1 ++ a2) (b1 ++ b2).
  Hypothesis Rterm : forall k b, fst k <> LxNumber -> tb k b -> exists a, ta k a /\ R a b.
  Hypothesis Rnum : forall t b, tb (LxNumber, t) b -> exists a, (ta (LxInt, t) a \/ ta (LxNumber, t) a) /\ R a b.
  Hypothesis Rblank : forall b, sb b -> exists a, sa a /\ R a b.

  Definition sim (x : @lang A) (y : @lang B) : Prop := forall b, y b -> exists a, x a /\ R a b.
  Lemma sim_nothing : sim nothing nothing.
  Proof. intros b ->. now exists []. Qed.
  Lemma sim_cat : forall x x' y y', sim x y -> sim x' y' -> sim (x ;; x') (y ;; y').
  Proof.
    intros x x' y y' H H' b (b1 & b2 & -> & B1 & B2). destruct (H b1 B1) as (a1 & A1 & R1). destruct (H' b2 B2) as (a2 & A2 & R2).
    exists (a1 ++ a2). split; [now apply cat_intro|now apply Rapp].
  Qed.
  Lemma sim_either : forall x x' y y', sim x y -> sim x' y' -> sim (either x x') (either y y').
  Proof.
    intros x x' y y' H H' b [B1|B1]; [destruct (H b B1) as (a & A1 & R1)|destruct (H' b B1) as (a & A1 & R1)]; exists a; (split; [|exact R1]); [now left|now right].
  Qed.
  Lemma sim_every : forall T (f : T -> @lang A) (g : T -> @lang B) l, Forall (fun x => sim (f x) (g x)) l -> sim (every f l) (every g l).
  Proof. intros T f g l H. induction H as [|x l X H IH]; [apply sim_nothing|]. now apply sim_cat. Qed.
  Lemma sim_term : forall k, fst k <> LxNumber -> sim (ta k) (tb k).
  Proof. intros k N b H. now apply Rterm. Qed.
  Lemma sim_s : sim sa sb.
  Proof. exact Rblank. Qed.
  Lemma sim_op : forall t, sim (op ta t) (op tb t).
  Proof. intro t. now apply sim_term. Qed.
  Lemma sim_int : forall t, sim (int ta t) (int tb t).
  Proof. intro t. now apply sim_term. Qed.
  Lemma sim_string : forall s, sim (x_string ta s) (x_string tb s).
  Proof. intros [t|t]; now apply sim_term. Qed.
  Lemma sim_literal : forall l, sim (x_literal ta l) (x_literal tb l).
  Proof.
    intros [t|s|[|]|]; try (now apply sim_term); [|apply sim_string].
    intros b [H|H].
    - destruct (Rterm (LxInt, t) b) as (a & A1 & R1); [discriminate|exact H|]. exists a. split; [now left|exact R1].
    - destruct (Rnum t b H) as (a & [A1|A1] & R1); exists a; (split; [|exact R1]); [now left|now right].
  Qed.
  Hint Resolve sim_nothing sim_cat sim_either sim_s sim_op sim_int sim_string sim_literal : sim.
  Lemma sim_bound : forall o, sim (x_bound ta sa o) (x_bound tb sb o).
  Proof. intros [t|]; cbn; auto with sim. Qed.
  Lemma sim_slice_step : forall o, sim (x_slice_step ta sa o) (x_slice_step tb sb o).
  Proof. intros [t|]; cbn; auto with sim. Qed.
  Lemma sim_step : forall s, sim (x_step ta s) (x_step tb s).
  Proof. intros [n|t|t]; cbn; auto with sim. now apply sim_term. Qed.
  Lemma sim_not : forall n, sim (x_not ta sa n) (x_not tb sb n).
  Proof. intros [|]; cbn; auto with sim. Qed.
  Lemma sim_root : forall r, sim (x_root ta r) (x_root tb r).
  Proof. intros r. apply sim_op. Qed.
  Hint Resolve sim_bound sim_slice_step sim_step sim_not sim_root : sim.
  Lemma sim_log : forall e x y, sim x y -> sim (fun t => log e /\ x t) (fun t => log e /\ y t).
  Proof. intros e x y H b [L Y]. destruct (H b Y) as (a & A1 & R1). now exists a. Qed.
  Lemma sim_list : forall T (P : T -> Prop) (f : T -> @lang A) (g : T -> @lang B) l, (forall x, P x -> sim (f x) (g x)) -> Forall P l -> sim (every f l) (every g l).
  Proof. intros T P f g l H F. apply sim_every. eapply Forall_impl; [|exact F]. exact H. Qed.

  Lemma sim_grammar :
    (forall q, sim (x_query ta sa log q) (x_query tb sb log q)) /\ (forall g, sim (x_segment ta sa log g) (x_segment tb sb log g)) /\
    (forall s, sim (x_selector ta sa log s) (x_selector tb sb log s)) /\ (forall e, sim (x_or ta sa log e) (x_or tb sb log e)) /\
    (forall e, sim (x_and ta sa log e) (x_and tb sb log e)) /\ (forall e, sim (x_basic ta sa log e) (x_basic tb sb log e)) /\
    (forall v, sim (x_comparable ta sa log v) (x_comparable tb sb log v)) /\ (forall f, sim (x_call ta sa log f) (x_call tb sb log f)) /\
    (forall a, sim (x_argument ta sa log a) (x_argument tb sb log a)).
  Proof.
    apply grammar_ind; intros; cbn [x_query x_segment x_selector x_or x_and x_basic x_comparable x_call x_argument];
      repeat first [apply sim_cat|apply sim_log|now apply sim_term|solve [auto with sim]|eapply sim_list; [|eassumption]; intros; cbv beta].
    - apply sim_every. induction l; constructor; auto with sim.
    - destruct args as [|a args]; [apply sim_nothing|]. inversion H; subst. apply sim_cat; [assumption|]. eapply sim_list; [|eassumption]. intros. auto with sim.
  Qed.
End Sim.

(** From left to right: every text related to one on the left is one on the right. *)
Section Image.
  Context {A B : Type}.
  Variables (ta : lextok -> @lang A) (sa : @lang A) (tb : lextok -> @lang B) (sb : @lang B) (log : gor -> Prop).
  Variable R : list A -> list B -> Prop.
  Hypothesis Rnil : forall b, R [] b -> b = [].
  Hypothesis Rapp : forall a1 a2 b, R (a1 ++ a2) b -> exists b1 b2, b = b1 ++ b2 /\ R a1 b1 /\ R a2 b2.
  Hypothesis Rterm : forall k a b, ta k a -> R a b -> tb k b.
  Hypothesis Rblank : forall a b, sa a -> R a b -> sb b.

  Definition img (x : @lang A) (y : @lang B) : Prop := forall a b, x a -> R a b -> y b.
  Lemma img_nothing : img nothing nothing.
  Proof. intros a b -> H. now apply Rnil in H. Qed.
  Lemma img_cat : forall x x' y y', img x y -> img x' y' -> img (x ;; x') (y ;; y').
  Proof.
    intros x x' y y' H H' a b (a1 & a2 & -> & A1 & A2) Q. apply Rapp in Q as (b1 & b2 & -> & R1 & R2).
    apply cat_intro; [now apply (H a1)|now apply (H' a2)].
  Qed.
  Lemma img_either : forall x x' y y', img x y -> img x' y' -> img (either x x') (either y y').
  Proof. intros x x' y y' H H' a b [A1|A1] Q; [left; now apply (H a)|right; now apply (H' a)]. Qed.
  Lemma img_every : forall T (f : T -> @lang A) (g : T -> @lang B) l, Forall (fun x => img (f x) (g x)) l -> img (every f l) (every g l).
  Proof. intros T f g l H. induction H as [|x l X H IH]; [apply img_nothing|]. now apply img_cat. Qed.
  Lemma img_term : forall k, img (ta k) (tb k).
  Proof. intros k a b H Q. now apply (Rterm k a). Qed.
  Lemma img_s : img sa sb.
  Proof. exact Rblank. Qed.
  Hint Resolve img_nothing img_cat img_either img_s img_term : img.
  Lemma img_op : forall t, img (op ta t) (op tb t).
  Proof. intro t. apply img_term. Qed.
  Lemma img_int : forall t, img (int ta t) (int tb t).
  Proof. intro t. apply img_term. Qed.
  Lemma img_string : forall s, img (x_string ta s) (x_string tb s).
  Proof. intros [t|t]; apply img_term. Qed.
  Hint Resolve img_op img_int img_string : img.
  Lemma img_literal : forall l, img (x_literal ta l) (x_literal tb l).
  Proof. intros [t|s|[|]|]; cbn; auto with img. Qed.
  Lemma img_bound : forall o, img (x_bound ta sa o) (x_bound tb sb o).
  Proof. intros [t|]; cbn; auto with img. Qed.
  Lemma img_slice_step : forall o, img (x_slice_step ta sa o) (x_slice_step tb sb o).
  Proof. intros [t|]; cbn; auto with img. Qed.
  Lemma img_step : forall s, img (x_step ta s) (x_step tb s).
  Proof. intros [n|t|t]; cbn; auto with img. Qed.
  Lemma img_not : forall n, img (x_not ta sa n) (x_not tb sb n).
  Proof. intros [|]; cbn; auto with img. Qed.
  Lemma img_root : forall r, img (x_root ta r) (x_root tb r).
  Proof. intros r. apply img_op. Qed.
  Hint Resolve img_literal img_bound img_slice_step img_step img_not img_root : img.
  Lemma img_log : forall e x y, img x y -> img (fun t => log e /\ x t) (fun t => log e /\ y t).
  Proof. intros e x y H a b [L X] Q. split; [exact L|now apply (H a)]. Qed.
  Lemma img_list : forall T (P : T -> Prop) (f : T -> @lang A) (g : T -> @lang B) l, (forall x, P x -> img (f x) (g x)) -> Forall P l -> img (every f l) (every g l).
  Proof. intros T P f g l H F. apply img_every. eapply Forall_impl; [|exact F]. exact H. Qed.

  Lemma img_grammar :
    (forall q, img (x_query ta sa log q) (x_query tb sb log q)) /\ (forall g, img (x_segment ta sa log g) (x_segment tb sb log g)) /\
    (forall s, img (x_selector ta sa log s) (x_selector tb sb log s)) /\ (forall e, img (x_or ta sa log e) (x_or tb sb log e)) /\
    (forall e, img (x_and ta sa log e) (x_and tb sb log e)) /\ (forall e, img (x_basic ta sa log e) (x_basic tb sb log e)) /\
    (forall v, img (x_comparable ta sa log v) (x_comparable tb sb log v)) /\ (forall f, img (x_call ta sa log f) (x_call tb sb log f)) /\
    (forall a, img (x_argument ta sa log a) (x_argument tb sb log a)).
  Proof.
    apply grammar_ind; intros; cbn [x_query x_segment x_selector x_or x_and x_basic x_comparable x_call x_argument];
      repeat first [apply img_cat|apply img_log|now apply img_term|solve [auto with img]|eapply img_list; [|eassumption]; intros; cbv beta].
    - apply img_every. induction l; constructor; auto with img.
    - destruct args as [|a args]; [apply img_nothing|]. inversion H; subst. apply img_cat; [assumption|]. eapply img_list; [|eassumption]. intros. auto with img.
  Qed.
End Image.

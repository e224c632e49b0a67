(** Induction on the syntax of queries; DeepEqual is equality. *)
From Coq Require Import List ZArith NArith Bool.
From Verif Require Import Base Tokens PathAst CompileModel.

Section Ind.
  Variable Pq : jquery -> Prop.
  Variable Pg : jsegment -> Prop.
  Variable Ps : jselector -> Prop.
  Variable Pc : jlogical -> Prop.
  Variable Pv : jcomparable -> Prop.
  Variable Pf : jcall -> Prop.
  Variable Pa : jarg -> Prop.
  Hypothesis Hq : forall r segs, Forall Pg segs -> Pq (JQuery r segs).
  Hypothesis Hg : forall d sels, Forall Ps sels -> Pg (JSegment d sels).
  Hypothesis Hname : forall n, Ps (JName n).
  Hypothesis Hwild : Ps JWild.
  Hypothesis Hindex : forall i, Ps (JIndex i).
  Hypothesis Hslice : forall a b s, Ps (JSlice a b s).
  Hypothesis Hfilter : forall c, Pc c -> Ps (JFilter c).
  Hypothesis Hor : forall l, Forall Pc l -> Pc (JOr l).
  Hypothesis Hand : forall l, Forall Pc l -> Pc (JAnd l).
  Hypothesis Hnot : forall c, Pc c -> Pc (JNot c).
  Hypothesis Hcmp : forall a op b, Pv a -> Pv b -> Pc (JCompare a op b).
  Hypothesis Htest : forall q, Pq q -> Pc (JTest q).
  Hypothesis Htcall : forall f, Pf f -> Pc (JTestCall f).
  Hypothesis Hlit : forall s, Pv (JLit s).
  Hypothesis Hsing : forall q, Pv (JSing q).
  Hypothesis Hvcall : forall f, Pf f -> Pv (JValueCall f).
  Hypothesis Hcall : forall n args, Forall Pa args -> Pf (JCall n args).
  Hypothesis Halit : forall s, Pa (JArgLit s).
  Hypothesis Haquery : forall q, Pq q -> Pa (JArgQuery q).
  Hypothesis Halog : forall c, Pc c -> Pa (JArgLogical c).
  Hypothesis Hacall : forall f, Pf f -> Pa (JArgCall f).

  Section L.
    Context {A : Type}.
    Variable P : A -> Prop.
    Variable H : forall a, P a.
    Fixpoint forall_list (l : list A) : Forall P l :=
      match l with [] => Forall_nil P | a :: r => Forall_cons a (H a) (forall_list r) end.
  End L.

  Fixpoint ind_q (q : jquery) : Pq q :=
    match q with JQuery r segs => Hq r segs (forall_list Pg ind_g segs) end
  with ind_g (g : jsegment) : Pg g :=
    match g with JSegment d sels => Hg d sels (forall_list Ps ind_s sels) end
  with ind_s (s : jselector) : Ps s :=
    match s with
    | JName n => Hname n | JWild => Hwild | JIndex i => Hindex i | JSlice a b st => Hslice a b st
    | JFilter c => Hfilter c (ind_c c)
    end
  with ind_c (c : jlogical) : Pc c :=
    match c with
    | JOr l => Hor l (forall_list Pc ind_c l)
    | JAnd l => Hand l (forall_list Pc ind_c l)
    | JNot c' => Hnot c' (ind_c c')
    | JCompare a op b => Hcmp a op b (ind_v a) (ind_v b)
    | JTest q => Htest q (ind_q q)
    | JTestCall f => Htcall f (ind_f f)
    end
  with ind_v (v : jcomparable) : Pv v :=
    match v with JLit s => Hlit s | JSing q => Hsing q | JValueCall f => Hvcall f (ind_f f) end
  with ind_f (f : jcall) : Pf f :=
    match f with JCall n args => Hcall n args (forall_list Pa ind_a args) end
  with ind_a (a : jarg) : Pa a :=
    match a with
    | JArgLit s => Halit s
    | JArgQuery q => Haquery q (ind_q q)
    | JArgLogical c => Halog c (ind_c c)
    | JArgCall f => Hacall f (ind_f f)
    end.
  Lemma path_ind : (forall q, Pq q) /\ (forall g, Pg g) /\ (forall s, Ps s) /\ (forall c, Pc c) /\ (forall v, Pv v) /\ (forall f, Pf f) /\ (forall a, Pa a).
  Proof. repeat split; [exact ind_q|exact ind_g|exact ind_s|exact ind_c|exact ind_v|exact ind_f|exact ind_a]. Qed.
End Ind.

(* ------------------------------------------------------------------ *)
Lemma scalar_eqb_eq : forall s t, scalar_eqb s t = true -> s = t.
Proof.
  intros [b ty k a u] [b' ty' k' a' u'] H. unfold scalar_eqb in H. cbn in H. repeat (apply andb_true_iff in H as [H ?]).
  apply bytes_eqb_eq in H. apply stype_eqb_eq in H3. repeat match goal with E : Bool.eqb _ _ = true |- _ => apply Bool.eqb_prop in E end. now subst.
Qed.
Lemma oz_eqb_eq : forall a b, oz_eqb a b = true -> a = b.
Proof. intros [x|] [y|] H; try discriminate; [apply Z.eqb_eq in H; now subst|reflexivity]. Qed.
Lemma op_eqb_eq : forall a b, op_eqb a b = true -> a = b.
Proof. intros [] [] H; try discriminate; reflexivity. Qed.
Lemma list_eqb_eq : forall A (f : A -> A -> bool) l, Forall (fun a => forall b, f a b = true -> a = b) l -> forall l', list_eqb f l l' = true -> l = l'.
Proof.
  intros A f l F. induction F as [|a l HA F IH]; intros [|b l'] H; try discriminate; [reflexivity|]. cbn in H. apply andb_true_iff in H as [H1 H2]. f_equal; auto.
Qed.
Lemma step_eqb_eq : forall a b, step_eqb a b = true -> a = b.
Proof. intros [n|i] [m|j] H; try discriminate; cbn in H; [apply bytes_eqb_eq in H|apply Z.eqb_eq in H]; now subst. Qed.
Lemma singular_eqb_eq : forall a b, singular_eqb a b = true -> a = b.
Proof.
  intros [r l] [r' l'] H. cbn in H. apply andb_true_iff in H as [H1 H2]. apply Bool.eqb_prop in H1. apply list_eqb_eq in H2; [now subst|].
  apply Forall_forall. intros s _. apply step_eqb_eq.
Qed.
Ltac split_and := repeat match goal with H : _ && _ = true |- _ => apply andb_true_iff in H as [? ?] end.
Lemma all_eqb_eq :
  (forall q q', query_eqb q q' = true -> q = q') /\ (forall g g', segment_eqb g g' = true -> g = g') /\
  (forall s s', selector_eqb s s' = true -> s = s') /\ (forall c c', logical_eqb c c' = true -> c = c') /\
  (forall v v', comparable_eqb v v' = true -> v = v') /\ (forall f f', call_eqb f f' = true -> f = f') /\ (forall a a', arg_eqb a a' = true -> a = a').
Proof.
  apply path_ind; intros;
  match goal with H : _ ?x ?y = true |- _ = ?y => destruct y; try discriminate H; cbn in H end; split_and;
  repeat match goal with
  | H : Bool.eqb _ _ = true |- _ => apply Bool.eqb_prop in H
  | H : bytes_eqb _ _ = true |- _ => apply bytes_eqb_eq in H
  | H : Z.eqb _ _ = true |- _ => apply Z.eqb_eq in H
  | H : oz_eqb _ _ = true |- _ => apply oz_eqb_eq in H
  | H : op_eqb _ _ = true |- _ => apply op_eqb_eq in H
  | H : scalar_eqb _ _ = true |- _ => apply scalar_eqb_eq in H
  | H : singular_eqb _ _ = true |- _ => apply singular_eqb_eq in H
  | F : Forall _ ?l, H : list_eqb _ ?l _ = true |- _ => apply (list_eqb_eq _ _ _ F) in H
  | IH : forall b, ?f ?a b = true -> ?a = b, H : ?f ?a _ = true |- _ => apply IH in H
  end; subst; try reflexivity.
Qed.
Lemma query_eqb_eq : forall q q', query_eqb q q' = true -> q = q'.
Proof. exact (proj1 all_eqb_eq). Qed.
Lemma find_entry_ok : forall A B (same : A -> bool) (l : list (A * B)) k i, find_entry same l k = Some i ->
  exists a b, k <= i /\ nth_error l (i - k) = Some (a, b) /\ same a = true.
Proof.
  intros A B same. induction l as [|[a b] l IH]; intros k i H; cbn [find_entry] in H; [discriminate|]. destruct (same a) eqn:E.
  - injection H as <-. exists a, b. rewrite PeanoNat.Nat.sub_diag. auto.
  - apply IH in H as (a' & b' & L & N & SA). exists a', b'. split; [apply PeanoNat.Nat.le_trans with (S k); auto|]. split; [|exact SA].
    destruct i as [|i]; [inversion L|]. apply le_S_n in L. rewrite PeanoNat.Nat.sub_succ_l by exact L. exact N.
Qed.

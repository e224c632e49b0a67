(** Induction on the concrete syntax of queries. *)
From Coq Require Import List ZArith NArith Bool.
From Verif Require Import Base Tokens GrammarModel PathInd.

Section Ind.
  Variable Pq : gquery -> Prop.
  Variable Pg : gsegment -> Prop.
  Variable Ps : gselector -> Prop.
  Variable Po : gor -> Prop.
  Variable Pd : gand -> Prop.
  Variable Pb : gbasic -> Prop.
  Variable Pv : gcomparable -> Prop.
  Variable Pf : gcall -> Prop.
  Variable Pa : garg -> Prop.
  Hypothesis Hq : forall r segs, Forall Pg segs -> Pq (GQuery r segs).
  Hypothesis Hbr : forall a l, Ps a -> Forall Ps l -> Pg (GBracket a l).
  Hypothesis Hdw : Pg GDotWild.
  Hypothesis Hdn : forall t, Pg (GDotName t).
  Hypothesis Hdb : forall a l, Ps a -> Forall Ps l -> Pg (GDescBracket a l).
  Hypothesis Hddw : Pg GDescWild.
  Hypothesis Hddn : forall t, Pg (GDescName t).
  Hypothesis Hname : forall n, Ps (GName n).
  Hypothesis Hwild : Ps GWild.
  Hypothesis Hslice : forall a b s, Ps (GSlice a b s).
  Hypothesis Hindex : forall i, Ps (GIndex i).
  Hypothesis Hfilter : forall c, Po c -> Ps (GFilter c).
  Hypothesis Hor : forall a l, Pd a -> Forall Pd l -> Po (GOr a l).
  Hypothesis Hand : forall a l, Pb a -> Forall Pb l -> Pd (GAnd a l).
  Hypothesis Hparen : forall n e, Po e -> Pb (GParen n e).
  Hypothesis Hcmp : forall a op b, Pv a -> Pv b -> Pb (GCompare a op b).
  Hypothesis Htest : forall n q, Pq q -> Pb (GTestQuery n q).
  Hypothesis Htcall : forall n f, Pf f -> Pb (GTestCall n f).
  Hypothesis Hlit : forall s, Pv (GLit s).
  Hypothesis Hsing : forall r l, Pv (GSing r l).
  Hypothesis Hvcall : forall f, Pf f -> Pv (GValueCall f).
  Hypothesis Hcall : forall n args, Forall Pa args -> Pf (GCall n args).
  Hypothesis Halit : forall s, Pa (GArgLit s).
  Hypothesis Haquery : forall q, Pq q -> Pa (GArgQuery q).
  Hypothesis Halog : forall c, Po c -> Pa (GArgLogical c).
  Hypothesis Hacall : forall f, Pf f -> Pa (GArgCall f).

  Fixpoint gind_q (q : gquery) : Pq q :=
    match q with GQuery r segs => Hq r segs (forall_list Pg gind_g segs) end
  with gind_g (g : gsegment) : Pg g :=
    match g with
    | GBracket a l => Hbr a l (gind_s a) (forall_list Ps gind_s l)
    | GDotWild => Hdw
    | GDotName t => Hdn t
    | GDescBracket a l => Hdb a l (gind_s a) (forall_list Ps gind_s l)
    | GDescWild => Hddw
    | GDescName t => Hddn t
    end
  with gind_s (s : gselector) : Ps s :=
    match s with
    | GName n => Hname n | GWild => Hwild | GIndex i => Hindex i | GSlice a b st => Hslice a b st
    | GFilter c => Hfilter c (gind_o c)
    end
  with gind_o (e : gor) : Po e :=
    match e with GOr a l => Hor a l (gind_d a) (forall_list Pd gind_d l) end
  with gind_d (e : gand) : Pd e :=
    match e with GAnd a l => Hand a l (gind_b a) (forall_list Pb gind_b l) end
  with gind_b (e : gbasic) : Pb e :=
    match e with
    | GParen n e' => Hparen n e' (gind_o e')
    | GCompare a op b => Hcmp a op b (gind_v a) (gind_v b)
    | GTestQuery n q => Htest n q (gind_q q)
    | GTestCall n f => Htcall n f (gind_f f)
    end
  with gind_v (v : gcomparable) : Pv v :=
    match v with GLit s => Hlit s | GSing r l => Hsing r l | GValueCall f => Hvcall f (gind_f f) end
  with gind_f (f : gcall) : Pf f :=
    match f with GCall n args => Hcall n args (forall_list Pa gind_a args) end
  with gind_a (a : garg) : Pa a :=
    match a with
    | GArgLit s => Halit s
    | GArgQuery q => Haquery q (gind_q q)
    | GArgLogical c => Halog c (gind_o c)
    | GArgCall f => Hacall f (gind_f f)
    end.
  Lemma grammar_ind : (forall q, Pq q) /\ (forall g, Pg g) /\ (forall s, Ps s) /\ (forall e, Po e) /\ (forall e, Pd e) /\
    (forall e, Pb e) /\ (forall v, Pv v) /\ (forall f, Pf f) /\ (forall a, Pa a).
  Proof. repeat split; [exact gind_q|exact gind_g|exact gind_s|exact gind_o|exact gind_d|exact gind_b|exact gind_v|exact gind_f|exact gind_a]. Qed.
End Ind.

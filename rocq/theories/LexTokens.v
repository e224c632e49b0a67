(** Texts made of tokens and blanks are split into those tokens. *)
From Coq Require Import List NArith ZArith Bool Arith Lia.
From Verif Require Import Base JsonSpec ScalarSpec GrammarModel GrammarSpec LexModel LexRx ParseModel QuerySyntax LexProofs LexLits.
Local Open Scope N_scope.

(** The tokens that the tokeniser makes. *)
Definition lexeme (k : lextok) : Prop := terminal k /\ (fst k = LxNumber -> ~ exists z, int_value (snd k) z).

(** What may come after a token. *)
Definition follows (k : lextok) (r : bytes) : Prop :=
  match fst k with
  | LxNull | LxBool | LxInt | LxNumber => ends_value r
  | LxDesc | LxMember => ends_name r
  | LxCmp => no_equals r
  | LxOp => snd k = op_not -> no_equals r
  | _ => True
  end.
Lemma lex_token : forall k r, lexeme k -> follows k r -> lex_one (snd k ++ r) = Some (k, r).
Proof.
  intros [[| | | | | | | | | | |] t] r [T L] F; cbn [snd] in *; cbn [follows fst snd] in F.
  - destruct T.
  - cbn in T. subst t. apply lex_null. now apply ends_value_name.
  - destruct T as [->| ->]; [apply lex_true|apply lex_false]; now apply ends_value_name.
  - now apply lex_function.
  - now apply lex_comparison.
  - now apply lex_descendant.
  - now apply lex_member.
  - now apply lex_op.
  - now apply lex_int.
  - destruct (lex_number t r T F) as [Z|E]; [|exact E]. exfalso. now apply (L eq_refl).
  - now apply lex_double.
  - now apply lex_single.
Qed.
Lemma number_lexeme : forall t, number_text t -> lexeme (LxInt, t) \/ lexeme (LxNumber, t).
Proof.
  intros t T. destruct (lex_number t [] T I) as [Z|E].
  - left. split; [exact Z|discriminate].
  - right. split; [exact T|]. intros _ Z. rewrite (lex_int t [] Z I) in E. discriminate.
Qed.

(** The first byte of a token. *)
Definition digit_or_minus (b : N) : Prop := b = 45 \/ 48 <= b <= 57.
Definition heads (k : lextok) (b : N) : Prop :=
  match fst k with
  | LxBlank => False
  | LxNull | LxBool | LxFun => 97 <= b <= 122
  | LxInt | LxNumber => digit_or_minus b
  | LxCmp => b = 61 \/ b = 33 \/ b = 60 \/ b = 62
  | LxDesc | LxMember => b = 46
  | LxOp => In b [36; 64; 42; 58; 63; 33; 40; 41; 91; 93; 44; 38; 124; 46] /\ (b = 46 -> In (snd k) [op_dot_star; op_desc_star; op_desc_open])
  | LxDouble => b = 34
  | LxSingle => b = 39
  end.
Lemma terminal_heads : forall k, terminal k -> exists b u, snd k = b :: u /\ heads k b.
Proof.
  intros [[| | | | | | | | | | |] t] T; unfold heads; cbn [fst snd]; cbn in T.
  - destruct T.
  - subst t. do 2 eexists. split; [reflexivity|lia].
  - destruct T as [->| ->]; do 2 eexists; (split; [reflexivity|lia]).
  - destruct T as (name & -> & (c & u & -> & C & _) & _). do 2 eexists. split; [reflexivity|exact C].
  - repeat destruct T as [<-|T]; try contradiction; do 2 eexists; (split; [reflexivity|lia]).
  - destruct T as (name & -> & _). do 2 eexists. split; reflexivity.
  - destruct T as (name & -> & _). do 2 eexists. split; reflexivity.
  - repeat destruct T as [<-|T]; try contradiction; do 2 eexists; (split; [reflexivity|]); split; cbn; try (intro; discriminate); tauto.
  - destruct T as [z T]. apply int_cases in T as [->|(sg & d & ds & [->| ->] & -> & D & _)]; do 2 eexists; (split; [reflexivity|]); unfold digit_or_minus; lia.
  - destruct T as (sg & i & f & e & -> & SG & I & _). destruct SG as [->| ->]; [|do 2 eexists; split; [reflexivity|now left]].
    destruct I as [->|(d & ds & -> & D & _)]; do 2 eexists; (split; [reflexivity|]); unfold digit_or_minus; lia.
  - destruct T as (u & c & -> & _). do 2 eexists. split; reflexivity.
  - destruct T as (u & c & -> & _). do 2 eexists. split; reflexivity.
Qed.
Lemma heads_space : forall k b, heads k b -> is_space b = false.
Proof.
  intros [[| | | | | | | | | | |] t] b H; unfold heads, digit_or_minus in H; cbn in H; try contradiction; try (classes; fail).
Qed.

(** Two tokens that can be next to each other. *)
Definition wordish (k : lextok) : bool := match fst k with LxNull | LxBool | LxFun | LxInt | LxNumber => true | _ => false end.
Definition dotted (k : lextok) : bool :=
  match fst k with LxDesc | LxMember => true | LxOp => existsb (bytes_eqb (snd k)) [op_dot_star; op_desc_star; op_desc_open] | _ => false end.
Definition compares (k : lextok) : bool := match fst k with LxCmp => true | _ => false end.
Definition adjacent (k k' : lextok) : bool :=
  match fst k with
  | LxNull | LxBool | LxInt | LxNumber => negb (wordish k') && negb (dotted k')
  | LxDesc | LxMember => negb (wordish k')
  | LxCmp => negb (compares k')
  | LxOp => negb (bytes_eqb (snd k) op_not) || negb (compares k')
  | _ => true
  end.
Lemma bytes_eqb_in : forall l t, existsb (bytes_eqb t) l = false -> ~ In t l.
Proof.
  induction l as [|a l IH]; intros t H; [easy|]. cbn in H. apply orb_false_iff in H as [H1 H2]. intros [->|I]; [|now apply (IH t)].
  assert (E : bytes_eqb t t = true) by now apply bytes_eqb_eq. congruence.
Qed.
Lemma heads_name : forall k b, heads k b -> wordish k = false -> name_char b = false.
Proof.
  intros [[| | | | | | | | | | |] t] b H W; unfold heads, digit_or_minus in H; cbn in H, W; try contradiction; try discriminate; try (classes; fail).
Qed.
Lemma heads_dot : forall k b, heads k b -> dotted k = false -> b <> 46.
Proof.
  intros [[| | | | | | | | | | |] t] b H W; unfold heads, digit_or_minus in H; unfold dotted in W; cbn [fst snd] in *; try contradiction; try discriminate; try lia.
  intros ->. destruct H as [_ H]. apply bytes_eqb_in in W. now apply W, H.
Qed.
Lemma heads_equals : forall k b, heads k b -> compares k = false -> b <> 61.
Proof.
  intros [[| | | | | | | | | | |] t] b H W; unfold heads, digit_or_minus in H; unfold compares in W; cbn [fst snd] in *; try contradiction; try discriminate; try lia.
  intros ->. destruct H as [H _]. cbn in H. intuition discriminate.
Qed.
Lemma adjacent_follows : forall k k' r, terminal k' -> adjacent k k' = true -> follows k (snd k' ++ r).
Proof.
  intros k k' r T A. destruct (terminal_heads k' T) as (b & u & -> & H). unfold follows, adjacent in *. cbn [app].
  destruct k as [[| | | | | | | | | | |] t]; cbn [fst snd] in *; try exact I; unfold ends_value, ends_name, no_equals.
  - apply andb_true_iff in A as [A1 A2]. apply negb_true_iff in A1, A2. split; [now apply (heads_name k')|now apply (heads_dot k')].
  - apply andb_true_iff in A as [A1 A2]. apply negb_true_iff in A1, A2. split; [now apply (heads_name k')|now apply (heads_dot k')].
  - apply negb_true_iff in A. now apply (heads_equals k').
  - apply negb_true_iff in A. now apply (heads_name k').
  - apply negb_true_iff in A. now apply (heads_name k').
  - intros ->. apply negb_true_iff in A. now apply (heads_equals k').
  - apply andb_true_iff in A as [A1 A2]. apply negb_true_iff in A1, A2. split; [now apply (heads_name k')|now apply (heads_dot k')].
  - apply andb_true_iff in A as [A1 A2]. apply negb_true_iff in A1, A2. split; [now apply (heads_name k')|now apply (heads_dot k')].
Qed.
Lemma space_name : forall b, is_space b = true -> name_char b = false.
Proof. intros b H. apply lax_space in H. unfold lax_blank, blank in H. classes. Qed.
Lemma blank_follows : forall k b r, lax_blank b -> follows k (b :: r).
Proof.
  intros k b r B. assert (N : name_char b = false) by (now apply space_name, lax_space). assert (E : b <> 46 /\ b <> 61) by (unfold lax_blank, blank in B; lia).
  unfold follows, ends_value, ends_name, no_equals. destruct E. destruct (fst k); auto.
Qed.
Lemma end_follows : forall k, follows k [].
Proof. intro k. unfold follows, ends_value, ends_name, no_equals. destruct (fst k); auto. Qed.

(** Texts with blanks anywhere between tokens. *)
Inductive lay : list lextok -> bytes -> Prop :=
| lay_nil : lay [] []
| lay_blank : forall b ts t, lax_blank b -> lay ts t -> lay ts (b :: t)
| lay_tok : forall k ts t, lexeme k -> lay ts t -> lay (k :: ts) (snd k ++ t).
Lemma lay_app : forall a s b t, lay a s -> lay b t -> lay (a ++ b) (s ++ t).
Proof.
  intros a s b t H H'. induction H as [|c ts u C H IH|k ts u K H IH]; [exact H'|now apply lay_blank|].
  cbn. rewrite <- app_assoc. now apply lay_tok.
Qed.
Lemma lay_blanks : forall w, Forall lax_blank w -> lay [] w.
Proof. intros w H. induction H; [constructor|now constructor]. Qed.
(** Tokens next to each other. *)
Fixpoint chain (ts : list lextok) : Prop :=
  match ts with k :: ts' => match ts' with k' :: _ => adjacent k k' = true | [] => True end /\ chain ts' | [] => True end.
Lemma lay_first : forall ts t, lay ts t -> exists w u, t = w ++ u /\ Forall lax_blank w /\ no_space u /\
  match ts with [] => u = [] | k :: ts' => lexeme k /\ exists u', u = snd k ++ u' /\ lay ts' u' end.
Proof.
  intros ts t H. induction H as [|b ts t B H (w & u & -> & W & NS & IH)|k ts t K H IH].
  - exists [], []. repeat split. constructor.
  - exists (b :: w), u. split; [reflexivity|]. split; [now constructor|]. now split.
  - exists [], (snd k ++ t). split; [reflexivity|]. split; [constructor|]. split.
    + destruct (terminal_heads k (proj1 K)) as (b & u & -> & Q). exact (heads_space k b Q).
    + split; [exact K|]. now exists t.
Qed.

Lemma lex_all_cons : forall n s, lex_all (S n) s = match s with [] => Some [] | _ => match lex_one s with None => None | Some (t, rest) => match lex_all n rest with None => None | Some ts => Some match fst t with LxBlank => ts | _ => t :: ts end end end end.
Proof. intros n [|b s]; reflexivity. Qed.
Lemma lex_all_nil : forall n, lex_all n [] = Some [].
Proof. intros [|n]; reflexivity. Qed.
Lemma lex_all_blanks : forall n w u, Forall lax_blank w -> no_space u -> (length (w ++ u) <= n)%nat ->
  exists m, (length u <= m)%nat /\ lex_all n (w ++ u) = lex_all m u.
Proof.
  intros n w u W NS L. destruct w as [|b w]; [exists n; cbn in *; split; [lia|reflexivity]|].
  cbn in L. destruct n as [|n]; [lia|]. exists n. rewrite app_length in L. split; [lia|]. rewrite lex_all_cons, lex_blanks; [|exact W|discriminate|exact NS].
  cbn [app fst]. destruct (lex_all n u); reflexivity.
Qed.
Lemma lay_lexes : forall ts t, lay ts t -> chain ts -> forall n, (length t <= n)%nat -> lex_all n t = Some ts.
Proof.
  induction ts as [|k ts IH]; intros t H C n L; apply lay_first in H as (w & u & -> & W & NS & H).
  - subst u. destruct (lex_all_blanks n w [] W I L) as (m & _ & ->). apply lex_all_nil.
  - destruct H as (K & u' & -> & H). destruct (lex_all_blanks n w _ W NS L) as (m & L' & ->).
    destruct (terminal_heads k (proj1 K)) as (b & v & Q & HB).
    assert (F : follows k u').
    { apply lay_first in H as (w' & u & -> & W' & _ & H). destruct W' as [|c w' C' W']; [|now apply blank_follows]. cbn.
      destruct ts as [|k' ts]; [subst u; apply end_follows|]. destruct H as (K' & u'' & -> & _). apply adjacent_follows; [apply K'|]. apply C. }
    rewrite app_length, Q in L'. cbn in L'. destruct m as [|m]; [lia|]. rewrite lex_all_cons, lex_token by assumption.
    rewrite (IH u' H (proj2 C) m) by lia. rewrite Q. cbn [app]. destruct K as [K _]. destruct k as [[| | | | | | | | | | |] t]; try reflexivity. destruct K.
Qed.
Lemma lay_tokenise : forall ts t, lay ts t -> chain ts -> tokenise_query t = Some ts.
Proof. intros ts t H C. now apply lay_lexes. Qed.

(** The loop of flag.Parse and the specification of the command line. *)
From Coq Require Import String List Arith ZArith NArith Bool Lia.
From Verif Require Import Base Tokens CliModel FlagModel FlagSpec FlagInt.
Import ListNotations.
Local Open Scope N_scope.

(** The choices that the variables stand for. *)
Definition help_of (v : vars) (h : bytes) : bool :=
  if bytes_eqb h (text "help-input") then va_help_in v
  else if bytes_eqb h (text "help-output") then va_help_out v
  else if bytes_eqb h (text "help-transforms") then va_help_tr v
  else if bytes_eqb h (text "help-cookbook") then va_help_cook v
  else false.
Definition choices_of (v : vars) : choices := mkChoices (va_command v) (help_of v).
Definition agrees (v : vars) (x : choices) : Prop := ch_command x = va_command v /\ forall h, ch_help x h = help_of v h.
Lemma agrees_of : forall v, agrees v (choices_of v).
Proof. intro v. now split. Qed.
Lemma agrees_default : agrees default_vars initial.
Proof. split; [reflexivity|]. intro h. unfold help_of. cbn. repeat (destruct (bytes_eqb h _); [reflexivity|]). reflexivity. Qed.

(* ------------------------------------------------------------------ *)
(** Commands that differ in one option. *)
Ltac fields := intros c c' (H1 & H2 & H3 & H4 & H5 & H6 & H7 & H8 & H9 & H10 & H11); destruct c, c';
  cbn [cm_color cm_in cm_csv_header cm_out cm_indent cm_compact cm_width cm_quote cm_strict cm_file cm_args] in *;
  unfold set_color, set_in, set_csv_header, set_out, set_indent, set_compact, set_width, set_quote, set_strict, set_file, set_args;
  cbn [cm_color cm_in cm_csv_header cm_out cm_indent cm_compact cm_width cm_quote cm_strict cm_file cm_args];
  f_equal; solve [reflexivity | match goal with H : _ -> ?x = ?y |- ?x = ?y => apply H; discriminate end].
Lemma sb_color : forall c c', same_but OColor c c' -> c' = set_color (cm_color c') c. Proof. fields. Qed.
Lemma sb_in : forall c c', same_but OIn c c' -> c' = set_in (cm_in c') c. Proof. fields. Qed.
Lemma sb_header : forall c c', same_but OHeader c c' -> c' = set_csv_header (cm_csv_header c') c. Proof. fields. Qed.
Lemma sb_out : forall c c', same_but OOut c c' -> c' = set_out (cm_out c') c. Proof. fields. Qed.
Lemma sb_indent : forall c c', same_but OIndent c c' -> c' = set_indent (cm_indent c') c. Proof. fields. Qed.
Lemma sb_compact : forall c c', same_but OCompact c c' -> c' = set_compact (cm_compact c') c. Proof. fields. Qed.
Lemma sb_width : forall c c', same_but OWidth c c' -> c' = set_width (cm_width c') c. Proof. fields. Qed.
Lemma sb_quote : forall c c', same_but OQuote c c' -> c' = set_quote (cm_quote c') c. Proof. fields. Qed.
Lemma sb_strict : forall c c', same_but OStrict c c' -> c' = set_strict (cm_strict c') c. Proof. fields. Qed.
Lemma sb_file : forall c c', same_but OFile c c' -> c' = set_file (cm_file c') c. Proof. fields. Qed.
Lemma sb_args : forall c c', same_but OArgs c c' -> c' = set_args (cm_args c') c. Proof. fields. Qed.

Ltac same := unfold same_but; repeat split; intros NE; try reflexivity; destruct (NE eq_refl).

(* ------------------------------------------------------------------ *)
(** The table of flags. *)
Lemma lookup_in : forall name l f, lookup name l = Some f -> In (name, f) l.
Proof.
  intros name l f. induction l as [|[n g] l IH]; cbn [lookup]; [discriminate|]. destruct (bytes_eqb name n) eqn:E; intro H.
  - apply bytes_eqb_eq in E. injection H as ->. subst. now left.
  - right. auto.
Qed.
Ltac names L := apply lookup_in in L; unfold flags in L; cbn [In] in L;
  repeat (destruct L as [L|L]; [first [discriminate L | injection L as <- <-]|]); try destruct L.

Ltac help_cases h := repeat match goal with
  | |- context [bytes_eqb h ?t] => let E := fresh "E" in destruct (bytes_eqb h t) eqn:E; [apply bytes_eqb_eq in E; subst h; try reflexivity|]
  end; try reflexivity.

Lemma table_switch : forall name set b v x, lookup name flags = Some (FBool set) -> agrees v x -> switch name b x (choices_of (set b v)).
Proof.
  intros name set b v x L [A B]. unfold switch, no_help_change, help_names. cbn [choices_of ch_command ch_help].
  names L.
  1-4: left; split; [cbn [In]; auto 10|]; split; [cbn; congruence|]; intro h; rewrite B; unfold help_of; cbn [va_help_in va_help_out va_help_tr va_help_cook]; help_cases h.
  all: right; split; [intro h; rewrite B; reflexivity|]; rewrite A.
  - left. split; [cbn [In]; auto|]. split; [reflexivity|same].
  - left. split; [cbn [In]; auto|]. split; [reflexivity|same].
  - right; left. split; [cbn [In]; auto|]. split; [reflexivity|same].
  - right; right. split; [reflexivity|]. split; [reflexivity|same].
  - right; left. split; [cbn [In]; auto|]. split; [reflexivity|same].
Qed.

Lemma switch_table : forall name b v x x', switch name b x x' -> agrees v x ->
  exists set, lookup name flags = Some (FBool set) /\ agrees (set b v) x'.
Proof.
  intros name b v x x' S [A B]. unfold switch, no_help_change, help_names in S. destruct S as [(I & C & H)|(H & S)].
  - cbn [In] in I. destruct I as [<-|[<-|[<-|[<-|[]]]]]; (eexists; split; [reflexivity|]); (split; [cbn; congruence|]); intro h; rewrite H, B; unfold help_of;
      cbn [va_help_in va_help_out va_help_tr va_help_cook]; help_cases h.
  - assert (HH : forall h, ch_help x' h = help_of v h) by (intro h; rewrite H; apply B).
    destruct S as [(I & E & C)|[(I & E & C)|(-> & E & C)]].
    + apply sb_compact in C. rewrite E, A in C. cbn [In] in I. destruct I as [<-|[<-|[]]]; (eexists; split; [reflexivity|]); split; [exact C|exact HH|exact C|exact HH].
    + apply sb_quote in C. rewrite E, A in C. cbn [In] in I. destruct I as [<-|[<-|[]]]; (eexists; split; [reflexivity|]); split; [exact C|exact HH|exact C|exact HH].
    + apply sb_strict in C. rewrite E, A in C. eexists; split; [reflexivity|]. split; [exact C|exact HH].
Qed.

Lemma table_int : forall name set t z v x, lookup name flags = Some (FInt set) -> parse_int0 t = Some z -> agrees v x -> valued name t x (choices_of (set z v)).
Proof.
  intros name set t z v x L P [A B]. apply int_integer in P. unfold valued, no_help_change. cbn [choices_of ch_command ch_help].
  names L; (split; [intro h; rewrite B; reflexivity|]); rewrite A.
  - left. split; [cbn [In]; auto|]. split; [exact P|same].
  - right; left. split; [cbn [In]; auto|]. split; [exact P|same].
  - left. split; [cbn [In]; auto|]. split; [exact P|same].
  - right; left. split; [cbn [In]; auto|]. split; [exact P|same].
Qed.

Lemma table_string : forall name set t v x, lookup name flags = Some (FString set) -> agrees v x -> valued name t x (choices_of (set t v)).
Proof.
  intros name set t v x L [A B]. unfold valued, no_help_change. cbn [choices_of ch_command ch_help].
  names L; (split; [intro h; rewrite B; reflexivity|]); rewrite A; right; right.
  - left. split; [reflexivity|]. split; [reflexivity|same].
  - right; right; left. split; [reflexivity|]. split; [reflexivity|same].
  - right; left. split; [reflexivity|]. split; [reflexivity|same].
  - right; right; right; left. split; [reflexivity|]. split; [reflexivity|same].
  - right; right; right; right. split; [reflexivity|]. split; [reflexivity|same].
Qed.

Lemma valued_table : forall name t v x x', valued name t x x' -> agrees v x ->
  (exists set z, lookup name flags = Some (FInt set) /\ parse_int0 t = Some z /\ agrees (set z v) x') \/
  (exists set, lookup name flags = Some (FString set) /\ agrees (set t v) x').
Proof.
  intros name t v x x' [H S] [A B]. unfold no_help_change in H.
  assert (HH : forall h, ch_help x' h = help_of v h) by (intro h; rewrite H; apply B).
  destruct S as [(I & E & C)|[(I & E & C)|[(-> & E & C)|[(-> & E & C)|[(-> & E & C)|[(-> & E & C)|(-> & E & C)]]]]]].
  - left. apply int_integer in E. apply sb_indent in C. rewrite A in C. cbn [In] in I.
    destruct I as [<-|[<-|[]]]; (eexists; eexists; split; [reflexivity|]); (split; [exact E|]); split; [exact C|exact HH|exact C|exact HH].
  - left. apply int_integer in E. apply sb_width in C. rewrite A in C. cbn [In] in I.
    destruct I as [<-|[<-|[]]]; (eexists; eexists; split; [reflexivity|]); (split; [exact E|]); split; [exact C|exact HH|exact C|exact HH].
  - right. apply sb_color in C. rewrite E, A in C. eexists; split; [reflexivity|]. split; [exact C|exact HH].
  - right. apply sb_in in C. rewrite E, A in C. eexists; split; [reflexivity|]. split; [exact C|exact HH].
  - right. apply sb_out in C. rewrite E, A in C. eexists; split; [reflexivity|]. split; [exact C|exact HH].
  - right. apply sb_header in C. rewrite E, A in C. eexists; split; [reflexivity|]. split; [exact C|exact HH].
  - right. apply sb_file in C. rewrite E, A in C. eexists; split; [reflexivity|]. split; [exact C|exact HH].
Qed.

Lemma table_colours : forall name set v x, lookup name flags = Some (FBoolFunc set) -> agrees v x -> colours name x (choices_of (set v)).
Proof.
  intros name set v x L [A B]. unfold colours, no_help_change. cbn [choices_of ch_command ch_help].
  names L; (split; [intro h; rewrite B; reflexivity|]); rewrite A; (split; [same|]).
  - left. split; reflexivity.
  - right. split; reflexivity.
Qed.

Lemma colours_table : forall name v x x', colours name x x' -> agrees v x ->
  exists set, lookup name flags = Some (FBoolFunc set) /\ agrees (set v) x'.
Proof.
  intros name v x x' (H & C & S) [A B]. unfold no_help_change in H. apply sb_color in C. rewrite A in C.
  assert (HH : forall h, ch_help x' h = help_of v h) by (intro h; rewrite H; apply B).
  destruct S as [[-> E]|[-> E]]; rewrite E in C; (eexists; split; [reflexivity|]); (split; [exact C|exact HH]).
Qed.

(* ------------------------------------------------------------------ *)
(** The words. *)
Definition good (nm : bytes) : Prop := exists b n, nm = b :: n /\ b <> 45 /\ b <> 61 /\ ~ In 61 n.
Definition act (nm : bytes) (value : option bytes) (args : list bytes) (v : vars) : parsed :=
  match lookup nm flags with
  | None => if bytes_eqb nm (text "help") || bytes_eqb nm (text "h") then exit_usage else exit_error
  | Some (FBool set) =>
      match parse_bool (match value with Some x => x | None => text "true" end) with
      | Some x => parse_flags args (set x v)
      | None => exit_error
      end
  | Some (FBoolFunc set) => parse_flags args (set v)
  | Some (FInt set) =>
      match value with
      | Some x => match parse_int0 x with Some z => parse_flags args (set z v) | None => exit_error end
      | None =>
          match args with
          | [] => exit_error
          | x :: args' => match parse_int0 x with Some z => parse_flags args' (set z v) | None => exit_error end
          end
      end
  | Some (FString set) =>
      match value with
      | Some x => parse_flags args (set x v)
      | None =>
          match args with
          | [] => exit_error
          | x :: args' => parse_flags args' (set x v)
          end
      end
  end.
Definition named (name : bytes) (args : list bytes) (v : vars) : parsed :=
  match name with
  | [] => exit_error
  | b :: name' =>
      if (b =? 45) || (b =? 61) then exit_error
      else let '(n, value) := cut_at_equals name' in act (b :: n) value args v
  end.

Lemma word_two : forall b r args v, parse_flags ((45 :: 45 :: b :: r) :: args) v = named (b :: r) args v.
Proof. reflexivity. Qed.
Lemma word_one : forall b r args v, b <> 45 -> parse_flags ((45 :: b :: r) :: args) v = named (b :: r) args v.
Proof. intros b r args v N. destruct b as [|q]; [reflexivity|]. do 6 (destruct q as [q|q|]; try reflexivity). all: congruence. Qed.
Lemma word_end : forall args v, parse_flags (text "--" :: args) v = Parsed (with_args args v).
Proof. reflexivity. Qed.
Lemma word_arg : forall a args v, (forall b r, a <> 45 :: b :: r) -> parse_flags (a :: args) v = Parsed (with_args (a :: args) v).
Proof.
  intros a args v N. destruct a as [|c a]; [reflexivity|]. destruct (N.eq_dec c 45) as [->|N45].
  - destruct a as [|b r]; [reflexivity|]. now destruct (N b r).
  - destruct c as [|q]; [reflexivity|]. do 6 (destruct q as [q|q|]; try reflexivity). all: congruence.
Qed.

Lemma cut_none : forall n, ~ In 61 n -> cut_at_equals n = (n, None).
Proof.
  induction n as [|b n IH]; intro H; [reflexivity|]. cbn [cut_at_equals]. destruct (N.eqb_spec b 61) as [->|]; [destruct H; now left|].
  rewrite IH; [reflexivity|]. intro I. apply H. now right.
Qed.
Lemma cut_some : forall n val, ~ In 61 n -> cut_at_equals (n ++ 61 :: val) = (n, Some val).
Proof.
  induction n as [|b n IH]; intros val H; [reflexivity|]. cbn [cut_at_equals app]. destruct (N.eqb_spec b 61) as [->|]; [destruct H; now left|].
  rewrite IH; [reflexivity|]. intro I. apply H. now right.
Qed.
Lemma cut_cases : forall s, exists n, ~ In 61 n /\ (s = n \/ exists val, s = n ++ 61 :: val).
Proof.
  induction s as [|b s (n & N & IH)].
  - exists []. auto.
  - destruct (N.eq_dec b 61) as [->|NB].
    + exists []. split; [auto|]. right. now exists s.
    + exists (b :: n). split; [intros [E|I]; [congruence|auto]|]. destruct IH as [->|[val ->]]; [auto|right; now exists val].
Qed.

Lemma good_none : forall d nm args v, In d [text "-"; text "--"] -> good nm -> parse_flags ((d ++ nm) :: args) v = act nm None args v.
Proof.
  intros d nm args v D (b & n & -> & N1 & N2 & N3). cbn [In] in D.
  assert (E : named (b :: n) args v = act (b :: n) None args v).
  { cbn [named]. rewrite (proj2 (N.eqb_neq _ _) N1), (proj2 (N.eqb_neq _ _) N2). cbn [orb]. now rewrite cut_none. }
  destruct D as [<-|[<-|[]]].
  - change (text "-" ++ b :: n) with (45 :: b :: n). now rewrite word_one.
  - change (text "--" ++ b :: n) with (45 :: 45 :: b :: n). now rewrite word_two.
Qed.
Lemma good_some : forall d nm val args v, In d [text "-"; text "--"] -> good nm ->
  parse_flags ((d ++ nm ++ text "=" ++ val) :: args) v = act nm (Some val) args v.
Proof.
  intros d nm val args v D (b & n & -> & N1 & N2 & N3). cbn [In] in D.
  assert (E : named (b :: n ++ 61 :: val) args v = act (b :: n) (Some val) args v).
  { cbn [named]. rewrite (proj2 (N.eqb_neq _ _) N1), (proj2 (N.eqb_neq _ _) N2). cbn [orb]. now rewrite cut_some. }
  destruct D as [<-|[<-|[]]].
  - change (text "-" ++ (b :: n) ++ text "=" ++ val) with (45 :: b :: n ++ 61 :: val). now rewrite word_one.
  - change (text "--" ++ (b :: n) ++ text "=" ++ val) with (45 :: 45 :: b :: n ++ 61 :: val). now rewrite word_two.
Qed.

Lemma word_cases : forall s args,
  (forall b r, s <> 45 :: b :: r) \/ s = text "--" \/ (forall v, parse_flags (s :: args) v = exit_error) \/
  exists d nm, In d [text "-"; text "--"] /\ good nm /\ (s = d ++ nm \/ exists val, s = d ++ nm ++ text "=" ++ val).
Proof.
  intros s args.
  assert (NM : forall b r, (b = 45 \/ b = 61 -> forall v, named (b :: r) args v = exit_error) /\
     (b <> 45 -> b <> 61 -> exists nm, good nm /\ (b :: r = nm \/ exists val, b :: r = nm ++ 61 :: val))).
  { intros b r. split.
    - intros [-> | ->] v; reflexivity.
    - intros N1 N2. destruct (cut_cases r) as (n & N & C). exists (b :: n). split; [exists b, n; auto|].
      destruct C as [->|[val ->]]; [auto|right; now exists val]. }
  destruct s as [|c s]; [left; discriminate|]. destruct (N.eq_dec c 45) as [->|N45]; [|left; intros b r E; injection E as E _; congruence].
  destruct s as [|b r]; [left; discriminate|]. right.
  destruct (N.eq_dec b 45) as [->|NB].
  - destruct r as [|b r]; [left; reflexivity|]. right. destruct (NM b r) as [BAD OK].
    destruct (N.eq_dec b 45) as [->|N1]; [left; intro v; rewrite word_two; auto|]. destruct (N.eq_dec b 61) as [->|N2]; [left; intro v; rewrite word_two; auto|].
    right. destruct (OK N1 N2) as (nm & G & E). exists (text "--"), nm. split; [cbn [In]; auto|]. split; [exact G|].
    destruct E as [<-|[val E]]; [left; reflexivity|right; exists val]. change (text "--" ++ nm ++ text "=" ++ val) with (45 :: 45 :: nm ++ 61 :: val). now rewrite <- E.
  - right. destruct (NM b r) as [BAD OK]. destruct (N.eq_dec b 61) as [->|N2]; [left; intro v; rewrite word_one by discriminate; auto|].
    right. destruct (OK NB N2) as (nm & G & E). exists (text "-"), nm. split; [cbn [In]; auto|]. split; [exact G|].
    destruct E as [<-|[val E]]; [left; reflexivity|right; exists val]. change (text "-" ++ nm ++ text "=" ++ val) with (45 :: nm ++ 61 :: val). now rewrite <- E.
Qed.

(** The names in the table, and those of the usage. *)
Ltac goodname := match goal with |- good ?t => let u := eval vm_compute in t in change t with u end; eexists; eexists; split; [reflexivity|]; split; [discriminate|]; split; [discriminate|];
  cbn [In]; intuition discriminate.
Lemma table_good : forall nm f, lookup nm flags = Some f -> good nm.
Proof. intros nm f L. apply lookup_in in L; unfold flags in L; cbn [In] in L; repeat (destruct L as [L|L]; [injection L as <- _; goodname|]); destruct L. Qed.
Lemma usage_good : forall nm, In nm [text "h"; text "help"] -> good nm /\ lookup nm flags = None.
Proof. intros nm I. cbn [In] in I. destruct I as [<-|[<-|[]]]; (split; [goodname|reflexivity]). Qed.

(* ------------------------------------------------------------------ *)
(** From the specification to the loop. *)
Lemma option_runs : forall w x x', option_words w x x' -> forall v, agrees v x ->
  exists v', agrees v' x' /\ forall rest, parse_flags (w ++ rest) v = parse_flags rest v'.
Proof.
  intros w x x' W v A. destruct W as [d name x x' D H|d name value b x x' D Y H|d name x x' D H|d name value x x' D H|d name value x x' D H|d name value x x' D H].
  - destruct (switch_table _ _ _ _ _ H A) as (set & L & A'). exists (set true v). split; [exact A'|]. intro rest. cbn [app].
    rewrite good_none by (auto; eapply table_good; eauto). unfold act. now rewrite L.
  - destruct (switch_table _ _ _ _ _ H A) as (set & L & A'). exists (set b v). split; [exact A'|]. intro rest. cbn [app].
    rewrite good_some by (auto; eapply table_good; eauto). unfold act. rewrite L. apply bool_yes_no in Y. now rewrite Y.
  - destruct (colours_table _ _ _ _ H A) as (set & L & A'). exists (set v). split; [exact A'|]. intro rest. cbn [app].
    rewrite good_none by (auto; eapply table_good; eauto). unfold act. now rewrite L.
  - destruct (colours_table _ _ _ _ H A) as (set & L & A'). exists (set v). split; [exact A'|]. intro rest. cbn [app].
    rewrite good_some by (auto; eapply table_good; eauto). unfold act. now rewrite L.
  - destruct (valued_table _ _ _ _ _ H A) as [(set & z & L & P & A')|(set & L & A')]; (eexists; split; [exact A'|]); intro rest; cbn [app];
      rewrite good_none by (auto; eapply table_good; eauto); unfold act; rewrite L; rewrite ?P; reflexivity.
  - destruct (valued_table _ _ _ _ _ H A) as [(set & z & L & P & A')|(set & L & A')]; (eexists; split; [exact A'|]); intro rest; cbn [app];
      rewrite good_some by (auto; eapply table_good; eauto); unfold act; rewrite L; rewrite ?P; reflexivity.
Qed.

Lemma options_run : forall ws x x', options ws x x' -> forall v, agrees v x ->
  exists v', agrees v' x' /\ forall rest, parse_flags (ws ++ rest) v = parse_flags rest v'.
Proof.
  intros ws x x' O. induction O as [x|w ws x x1 x2 W O IH]; intros v A.
  - exists v. auto.
  - destruct (option_runs _ _ _ W v A) as (v1 & A1 & R1). destruct (IH v1 A1) as (v2 & A2 & R2). exists v2. split; [exact A2|].
    intro rest. rewrite <- app_assoc, R1. apply R2.
Qed.

Lemma arguments_run : forall rest args v, arguments rest args -> parse_flags rest v = Parsed (with_args args v).
Proof. intros rest args v A. destruct A as [args| |a args N]; [apply word_end|reflexivity|now apply word_arg]. Qed.

Definition usage_word (w : bytes) : Prop :=
  exists d name, In d [text "-"; text "--"] /\ In name [text "h"; text "help"] /\ (w = d ++ name \/ exists v, w = d ++ name ++ text "=" ++ v).
Lemma usage_run : forall w rest v, usage_word w -> parse_flags (w :: rest) v = exit_usage.
Proof.
  intros w rest v (d & name & D & N & W). destruct (usage_good _ N) as [G L]. assert (E : forall val, act name val rest v = exit_usage).
  { intro val. unfold act. rewrite L. cbn [In] in N. destruct N as [<-|[<-|[]]]; reflexivity. }
  destruct W as [->|[val ->]]; [rewrite good_none by auto|rewrite good_some by auto]; apply E.
Qed.

(** From the loop to the specification. *)
Lemma one_step : forall s args v x, agrees v x ->
  (exists a, arguments (s :: args) a) \/ usage_word s \/ parse_flags (s :: args) v = exit_error \/
  exists w ws x' v', s :: args = w ++ ws /\ (length ws <= length args)%nat /\ option_words w x x' /\ agrees v' x' /\ parse_flags (s :: args) v = parse_flags ws v'.
Proof.
  intros s args v x A. destruct (word_cases s args) as [N|[->|[E|(d & nm & D & G & W)]]].
  - left. exists (s :: args). now constructor.
  - left. exists args. constructor.
  - right; right; left. apply E.
  - right. destruct W as [->|[val ->]].
    + rewrite good_none by auto. unfold act. destruct (lookup nm flags) as [[set|set|set|set]|] eqn:L.
      * right; right. exists [d ++ nm], args, (choices_of (set true v)), (set true v). split; [reflexivity|]. split; [lia|].
        split; [apply ow_switch; auto; eapply table_switch; eauto|]. split; [apply agrees_of|reflexivity].
      * destruct args as [|val args]; [right; left; reflexivity|]. destruct (parse_int0 val) as [z|] eqn:P; [|right; left; reflexivity].
        right; right. exists [d ++ nm; val], args, (choices_of (set z v)), (set z v). split; [reflexivity|]. split; [cbn [length]; lia|].
        split; [apply ow_next; auto; eapply table_int; eauto|]. split; [apply agrees_of|reflexivity].
      * destruct args as [|val args]; [right; left; reflexivity|].
        right; right. exists [d ++ nm; val], args, (choices_of (set val v)), (set val v). split; [reflexivity|]. split; [cbn [length]; lia|].
        split; [apply ow_next; auto; eapply table_string; eauto|]. split; [apply agrees_of|reflexivity].
      * right; right. exists [d ++ nm], args, (choices_of (set v)), (set v). split; [reflexivity|]. split; [lia|].
        split; [apply ow_colours; auto; eapply table_colours; eauto|]. split; [apply agrees_of|reflexivity].
      * destruct (bytes_eqb nm (text "help")) eqn:E1; [|destruct (bytes_eqb nm (text "h")) eqn:E2; [|right; left; reflexivity]].
        -- left. apply bytes_eqb_eq in E1. exists d, nm. split; [exact D|]. split; [subst; cbn [In]; auto|auto].
        -- left. apply bytes_eqb_eq in E2. exists d, nm. split; [exact D|]. split; [subst; cbn [In]; auto|auto].
    + rewrite good_some by auto. unfold act. destruct (lookup nm flags) as [[set|set|set|set]|] eqn:L.
      * destruct (parse_bool val) as [b|] eqn:P; [|right; left; reflexivity]. right; right.
        exists [d ++ nm ++ text "=" ++ val], args, (choices_of (set b v)), (set b v). split; [reflexivity|]. split; [lia|].
        split; [apply (ow_switch_value d nm val b); auto; [now apply bool_yes_no|eapply table_switch; eauto]|]. split; [apply agrees_of|reflexivity].
      * destruct (parse_int0 val) as [z|] eqn:P; [|right; left; reflexivity].
        right; right. exists [d ++ nm ++ text "=" ++ val], args, (choices_of (set z v)), (set z v). split; [reflexivity|]. split; [lia|].
        split; [apply ow_value; auto; eapply table_int; eauto|]. split; [apply agrees_of|reflexivity].
      * right; right. exists [d ++ nm ++ text "=" ++ val], args, (choices_of (set val v)), (set val v). split; [reflexivity|]. split; [lia|].
        split; [apply ow_value; auto; eapply table_string; eauto|]. split; [apply agrees_of|reflexivity].
      * right; right. exists [d ++ nm ++ text "=" ++ val], args, (choices_of (set v)), (set v). split; [reflexivity|]. split; [lia|].
        split; [apply ow_colours_value; auto; eapply table_colours; eauto|]. split; [apply agrees_of|reflexivity].
      * destruct (bytes_eqb nm (text "help")) eqn:E1; [|destruct (bytes_eqb nm (text "h")) eqn:E2; [|right; left; reflexivity]].
        -- left. apply bytes_eqb_eq in E1. exists d, nm. split; [exact D|]. split; [subst; cbn [In]; auto|right; eauto].
        -- left. apply bytes_eqb_eq in E2. exists d, nm. split; [exact D|]. split; [subst; cbn [In]; auto|right; eauto].
Qed.

Lemma all_steps : forall n words v x, (length words <= n)%nat -> agrees v x ->
  exists opts rest x0 v0, words = opts ++ rest /\ options opts x x0 /\ agrees v0 x0 /\ parse_flags words v = parse_flags rest v0 /\
    ((exists a, arguments rest a) \/ (exists w r, rest = w :: r /\ usage_word w) \/ parse_flags rest v0 = exit_error).
Proof.
  induction n as [|n IH]; intros words v x LN A.
  - destruct words; [|cbn [length] in LN; lia]. exists [], [], x, v. repeat split; try apply A; try constructor. exists []. constructor.
  - destruct words as [|s args].
    { exists [], [], x, v. repeat split; try apply A; try constructor. exists []. constructor. }
    destruct (one_step s args v x A) as [AR|[U|[E|(w & ws & x' & v' & EQ & LE & W & A' & R)]]].
    + exists [], (s :: args), x, v. split; [reflexivity|]. split; [constructor|]. auto.
    + exists [], (s :: args), x, v. split; [reflexivity|]. split; [constructor|]. split; [exact A|]. split; [reflexivity|]. right; left. eauto.
    + exists [], (s :: args), x, v. split; [reflexivity|]. split; [constructor|]. auto.
    + cbn [length] in LN. destruct (IH ws v' x' ltac:(lia) A') as (opts & rest & x0 & v0 & E1 & O & A0 & R0 & T).
      exists (w ++ opts), rest, x0, v0. split; [rewrite EQ, E1; now rewrite app_assoc|]. split; [econstructor; eauto|]. split; [exact A0|]. split; [congruence|exact T].
Qed.

(* ------------------------------------------------------------------ *)
Lemma parsed_line : forall words v, parse_flags words default_vars = Parsed v -> command_line words (choices_of v).
Proof.
  intros words v P. destruct (all_steps (length words) words default_vars initial (le_n _) agrees_default) as (opts & rest & x0 & v0 & E & O & A & R & T).
  rewrite P in R. destruct T as [[a AR]|[(w & r & -> & U)|T]].
  - rewrite (arguments_run _ _ v0 AR) in R. injection R as ->. exists opts, rest, x0. split; [exact E|]. split; [exact O|]. destruct A as [A B].
    cbn. split; [exact AR|]. split; [rewrite A; same|]. intro h. cbn. rewrite B. reflexivity.
  - rewrite usage_run in R by exact U. discriminate.
  - rewrite T in R. discriminate.
Qed.
Lemma line_parsed : forall words x, command_line words x -> exists v, parse_flags words default_vars = Parsed v /\ agrees v x.
Proof.
  intros words x (opts & rest & x0 & -> & O & AR & C & H). destruct (options_run _ _ _ O _ agrees_default) as (v0 & [A B] & R).
  exists (with_args (cm_args (ch_command x)) v0). rewrite R. split; [now apply arguments_run|]. split.
  - apply sb_args in C. rewrite A in C. exact C.
  - intro h. rewrite H. apply B.
Qed.
Lemma usage_parsed : forall words, asks_usage words -> parse_flags words default_vars = exit_usage.
Proof.
  intros words (opts & w & rest & x0 & d & name & -> & O & D & N & W). destruct (options_run _ _ _ O _ agrees_default) as (v0 & A & R). rewrite R.
  apply usage_run. exists d, name. auto.
Qed.
Lemma parsed_exit : forall words s, parse_flags words default_vars = Exit s -> s = 0%Z /\ asks_usage words \/ s = 2%Z.
Proof.
  intros words s P. destruct (all_steps (length words) words default_vars initial (le_n _) agrees_default) as (opts & rest & x0 & v0 & E & O & A & R & T).
  rewrite P in R. destruct T as [[a AR]|[(w & r & -> & U)|T]].
  - rewrite (arguments_run _ _ v0 AR) in R. discriminate.
  - rewrite usage_run in R by exact U. injection R as ->. left. split; [reflexivity|]. destruct U as (d & name & D & N & W). exists opts, w, r, x0, d, name. auto.
  - rewrite T in R. injection R as ->. auto.
Qed.

Lemma help_none : forall v x, agrees v x -> (va_help_in v || va_help_out v || va_help_tr v || va_help_cook v = true <-> exists h, ch_help x h = true).
Proof.
  intros v x [_ B]. split.
  - intro H. rewrite !orb_true_iff in H. destruct H as [[[H|H]|H]|H]; [exists (text "help-input")|exists (text "help-output")|exists (text "help-transforms")|exists (text "help-cookbook")];
      rewrite B; exact H.
  - intros [h H]. rewrite B in H. unfold help_of in H. repeat match type of H with (if ?c then _ else _) = _ => destruct c end; rewrite ?H, ?orb_true_r; try reflexivity. discriminate.
Qed.

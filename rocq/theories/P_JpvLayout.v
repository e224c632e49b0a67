(** C70: the text of JPV output. *)
From Coq Require Import String List Arith ZArith NArith Bool Lia.
From Verif Require Import Base Tokens ScannerModel JsonSpec EncSpec ScalarSpec PrinterModel JsonEncModel P_JsonDec P_JsonEnc
  JpvEncModel JpvSpec JpvEncProofs MainModel P_Main P_Transform PathSpec P_Path P_JpQuery CliModel CliSpec P_Cli
  JpvLayoutSpec JpvLayout.
Import ListNotations.
Open Scope string_scope.
Open Scope list_scope.
Open Scope nat_scope.

Definition line_end (indent : Z) : bytes := if (indent <? 0)%Z then [] else [10%N].

(** C70.  What the encoder of JPV writes for a stream of values, elided or not,
    with any settings: for each value its lines and an empty line. *)
Theorem C70_jpv_text :
  forall (col : option colorizer) (quote : bool) (indent : Z) (flusher : bool) (vs : list jval),
    Forall (quotes_to_drop quote) vs ->
    exists texts, Forall2 (value_text col quote (line_end indent)) vs texts /\
      exists n, forall fuel, n <= fuel ->
        consume_jpv fuel col quote indent flusher None (stream vs) = (concat texts, CNil).
Proof.
  intros col quote indent flusher vs Q. destruct (values_run indent flusher col quote vs Q) as (n & cs & R & T).
  exists (map (fun v => flat_map (fun l => l ++ line_end indent) (plines col quote [] v) ++ [10%N]) vs). split.
  - clear. induction vs as [|v vs IH]; cbn [map]; constructor; [|exact IH].
    exists (plines col quote [] v). split; [|reflexivity].
    pose proof (plines_ok col quote v []) as F. induction F as [|l t ls ts (p & P & ->) F IH']; constructor; [|exact IH'].
    exists p. auto.
  - exists n. intros f L. unfold consume_jpv. rewrite R by exact L. cbn [failing_write].
    change (written (printer_run indent flusher 0 cs)) with (JsonEncProofs.text indent flusher 0 cs). rewrite T.
    assert (NL : JsonEncProofs.nl indent flusher 0 = line_end indent).
    { unfold JsonEncProofs.nl, new_line, line_end. destruct (indent <? 0)%Z; [reflexivity|].
      rewrite Z.mul_0_r. cbn [Z.to_nat repeat]. rewrite app_nil_r. apply JsonEncProofs.written_nl. }
    f_equal. unfold JpvEncProofs.lines_text. rewrite NL. rewrite flat_map_concat_map. reflexivity.
Qed.
Print Assumptions C70_jpv_text.

(** Without quotes to drop the encoder panics: the hypothesis cannot be left out. *)
Example C70_without_quotes : forall fuel,
  snd (consume_jpv (5 + fuel) None false 2 false None
    (stream [JObj [(mkScalar [97%N] TStr true true false, JScalar (new_scalar TNull null_bytes))] false])) = CPanic.
Proof. intro fuel. reflexivity. Qed.

(* ------------------------------------------------------------------ *)
(** A value has one text only. *)
Definition leading (ds : bytes) : Prop := match ds with [] => True | d :: _ => (49 <= d)%N end.
Lemma leading_value : forall ds, leading ds -> Forall digit ds -> ds <> [] -> (0 < nat_digits 0 ds)%Z.
Proof.
  intros [|d ds] L F N; [congruence|]. inversion F as [|? ? D F']; subst. cbn [nat_digits leading] in *.
  assert (P : (0 < 10 * 0 + (Z.of_N d - 48))%Z) by lia. revert P. generalize (10 * 0 + (Z.of_N d - 48))%Z. clear - F'.
  induction F' as [|x ds X F' IH]; intros z P; cbn [nat_digits]; [exact P|]. apply IH. unfold digit in X. lia.
Qed.
Lemma decimal_unique : forall a b, leading a -> leading b -> Forall digit a -> Forall digit b ->
  nat_digits 0 a = nat_digits 0 b -> a = b.
Proof.
  induction a as [|x a IH] using rev_ind; intros b LA LB FA FB E.
  - destruct b as [|y b]; [reflexivity|]. pose proof (leading_value _ LB FB ltac:(discriminate)). change (nat_digits 0 []) with 0%Z in E. lia.
  - destruct b as [|y b _] using rev_ind.
    + pose proof (leading_value _ LA FA ltac:(destruct a; discriminate)) as P. rewrite E in P. cbn [nat_digits] in P. lia.
    + apply Forall_app in FA as [FA X]. apply Forall_app in FB as [FB Y]. inversion X as [|? ? DX _]; subst. inversion Y as [|? ? DY _]; subst.
      rewrite !nat_digits_app in E. cbn [nat_digits] in E. unfold digit in DX, DY.
      assert (Q : nat_digits 0 a = nat_digits 0 b) by lia. assert (x = y) as -> by lia. f_equal.
      apply IH; auto; [destruct a|destruct b]; cbn [leading app] in *; auto.
Qed.
Lemma int_unique : forall a b, int_text a -> int_text b -> nat_digits 0 a = nat_digits 0 b -> a = b.
Proof.
  assert (P : forall a, int_text a -> a = [48%N] \/ (leading a /\ Forall digit a /\ a <> [])).
  { intros a [->|(d & ds & -> & D & F)]; [now left|right]. cbn [leading]. split; [lia|]. split; [|discriminate]. constructor; [unfold digit; lia|exact F]. }
  intros a b A B E. destruct (P a A) as [->|(LA & FA & NA)], (P b B) as [->|(LB & FB & NB)].
  - reflexivity.
  - pose proof (leading_value b LB FB NB) as Q. rewrite <- E in Q. cbn in Q. lia.
  - pose proof (leading_value a LA FA NA) as Q. rewrite E in Q. cbn in Q. lia.
  - now apply decimal_unique.
Qed.
Lemma step_unique : forall col quote s t, pstep_text col quote s t -> forall t', pstep_text col quote s t' -> t = t'.
Proof.
  intros col quote s t H t' H'. destruct H as [k A Q|k A|i ds I D]; inversion H' as [k0 A0 Q0|k0 A0|i0 ds0 I0 D0]; subst; try reflexivity; try (destruct A; congruence); try (destruct A0; congruence).
  now rewrite (int_unique ds ds0 I I0) by congruence.
Qed.
Lemma path_unique : forall col quote p t, ppath_text col quote p t -> forall t', ppath_text col quote p t' -> t = t'.
Proof.
  intros col quote p t H. induction H as [|s p t r S P IH]; intros t' H'; inversion H' as [|? ? t0 r0 S0 P0]; subst; [reflexivity|].
  f_equal; [eapply step_unique; eauto|auto].
Qed.
Theorem C70_text_unique : forall col quote e v t t', value_text col quote e v t -> value_text col quote e v t' -> t = t'.
Proof.
  intros col quote e v t t' (ls & F & ->) (ls' & F' & ->). do 2 f_equal. revert ls' F'.
  induction F as [|l t lines ls (p & P & ->) F IH]; intros ls' F'; inversion F' as [|? t0 ? ls0 (p0 & P0 & ->) F0]; subst; [reflexivity|].
  f_equal; [|auto]. now rewrite (path_unique _ _ _ _ P _ P0).
Qed.
Print Assumptions C70_text_unique.

(* ------------------------------------------------------------------ *)
(** The command. *)
Lemma drop_children : forall quote x, quotes_to_drop quote x -> Forall (quotes_to_drop quote) (children x).
Proof.
  intros quote x Q. inversion Q as [s|l e F|l e F]; subst; cbn [children]; [constructor|exact F|].
  apply Forall_forall. intros y Y. apply in_map_iff in Y as (m & <- & I). rewrite Forall_forall in F. apply F, I.
Qed.
Lemma drop_truncate : forall quote x, quotes_to_drop quote x -> forall n, quotes_to_drop quote (truncate n x).
Proof.
  intros quote. apply (jval_induction (fun x => quotes_to_drop quote x -> forall n, quotes_to_drop quote (truncate n x))).
  - intros s Q n. exact Q.
  - intros l e IH Q [|n]; cbn [truncate]; constructor; [constructor|]. inversion Q as [|? ? F|]; subst. rewrite Forall_forall in *.
    intros y Y. apply in_map_iff in Y as (x & <- & I). auto.
  - intros l e IH Q [|n]; cbn [truncate]; constructor; [constructor|]. inversion Q as [| |? ? F]; subst. rewrite Forall_forall in *.
    intros y Y. apply in_map_iff in Y as (x & <- & I). cbn [fst snd]. destruct (F x I) as [A B]. auto.
Qed.
Lemma drop_applied : forall quote float_text matches strict args vs ws, applied float_text matches strict args vs ws ->
  Forall (quotes_to_drop quote) vs -> Forall (quotes_to_drop quote) ws.
Proof.
  intros quote ft matches strict args vs ws H. induction H as [vs|a args vs mid ws L A _ IH]; intros F; [exact F|]. apply IH.
  destruct A as [vs|vs|vs|t n vs X|t z vs X N|r segs vs outs q Q T O C N].
  - apply (applies_keeps _ (drop_children quote) (fun l => qd_arr quote l false) ft matches strict (text "split") vs); [constructor| |exact F]. intros t E. discriminate.
  - apply (applies_keeps _ (drop_children quote) (fun l => qd_arr quote l false) ft matches strict (text "join") vs); [constructor| |exact F]. intros t E. discriminate.
  - constructor.
  - apply Forall_forall. intros y Y. apply in_map_iff in Y as (x & <- & I). rewrite Forall_forall in F. apply drop_truncate. auto.
  - constructor.
  - apply (applies_keeps _ (drop_children quote) (fun l => qd_arr quote l false) ft matches strict (text "$" ++ r) vs); [eapply ap_query; eauto| |exact F].
    intros t E. discriminate.
Qed.
Lemma drop_valid : forall quote x, valid true x -> quotes_to_drop quote x.
Proof.
  intros quote. apply (jval_induction (fun x => valid true x -> quotes_to_drop quote x)).
  - intros s _. constructor.
  - intros l e IH V. inversion V as [|? F|]; subst. constructor. rewrite Forall_forall in *. auto.
  - intros l e IH V. inversion V as [| |? F]; subst. constructor. rewrite Forall_forall in *. intros m I. split; [|apply IH; [exact I|]; apply F, I].
    intros _ _. destruct (F m I) as [(c & E & _) _]. rewrite E. cbn [length app]. rewrite app_length. cbn [length]. lia.
Qed.

(** The command jp, on JSON input and with JPV output: the text of the values
    that its arguments make of the values of the input.  With -json-indent -1 or
    -json-compact the lines are not ended by line feeds. *)
Theorem C70_jp :
  forall float_text csv_records matches find grow tty epipe (c : command) (rd : reader) (vs ws : list jval),
    In (cm_color c) [text "auto"; text "always"; text "never"] -> cm_file c = [] -> In (cm_out c) [text "jpv"; text "path"] ->
    json_input c rd vs -> applied float_text matches (cm_strict c) (cm_args c) vs ws ->
    let colours := if bytes_eqb (cm_color c) (text "always") || bytes_eqb (cm_color c) (text "auto") && tty then Some default_colorizer else None in
    let spaces := if cm_compact c then (-1)%Z else cm_indent c in
    exists texts, Forall2 (value_text colours (cm_quote c) (line_end spaces)) ws texts /\
      forall oc, jp float_text csv_records find grow tty epipe None c rd oc <-> oc = mkOutcome (concat texts) 0.
Proof.
  intros ft csv matches find grow tty epipe c rd vs ws CO FI OU JI AP colours spaces.
  destruct (C60_arguments_in_order ft csv matches find grow tty epipe c rd vs ws CO FI) as (out & ok & PR & H); auto; [now right|].
  assert (J : jo_jpv (output_options tty c) = true).
  { unfold output_options. cbn [jo_jpv]. destruct OU as [<-|[<-|[]]]; reflexivity. }
  assert (Q : Forall (quotes_to_drop (cm_quote c)) ws).
  { eapply drop_applied; [exact AP|]. destruct JI as [_ (t & _ & T)]. pose proof (stext_settled _ _ T) as S. eapply Forall_impl; [|exact S].
    intros x [V _]. now apply drop_valid. }
  destruct (C70_jpv_text colours (cm_quote c) spaces tty ws Q) as (texts & F & m & P2). exists texts. split; [exact F|].
  replace (concat texts) with out; [exact H|].
  destruct PR as [n P1]. specialize (P1 (n + m) ltac:(lia)). specialize (P2 (n + m) ltac:(lia)). rewrite J in P1.
  unfold output_options in P1. cbn [jo_color jo_quote jo_indent jo_tty] in P1. fold colours spaces in P1. rewrite P2 in P1. congruence.
Qed.
Print Assumptions C70_jp.

(* ------------------------------------------------------------------ *)
(** A value with parts left out, of which one is empty, in no colours and in
    some. *)
Definition ex70_key (name : string) (plain : bool) : scalar := mkScalar (34%N :: text name ++ [34%N]) TStr true plain false.
Definition ex70_value : jval :=
  JObj [(ex70_key "a" true, JArr [P_Path.num 1; JObj [] false] true); (ex70_key "b c" false, JObj [] true)] true.
Definition ex70_text : bytes :=
  text "$.a[0] = 1" ++ [10%N] ++ text "$.a[1] = {}" ++ [10%N] ++ text "$.a = ..." ++ [10%N] ++
  text "$[""b c""] = {...}" ++ [10%N] ++ text "$ = ..." ++ [10; 10]%N.
Definition ex70_colours : colorizer :=
  mkColorizer (text "<k>") (text "<0>") (text "<b>") (text "<n>") (text "<s>") (text "</>").
Example C70_example :
  quotes_to_drop false ex70_value /\ value_text None false (line_end 2) ex70_value ex70_text /\
  value_text (Some ex70_colours) true (line_end (-1)) (JObj [(ex70_key "a" true, P_Path.num 1)] false)
    (text "$[<k>""a""</>] = <n>1</>" ++ [10%N]).
Proof.
  assert (Q : quotes_to_drop false ex70_value).
  { constructor. constructor; [|constructor; [|constructor]]; (split; [intros _ _; cbn; lia|]).
    - constructor. repeat constructor.
    - constructor. constructor. }
  split; [exact Q|]. split.
  - destruct (C70_jpv_text None false 2 false [ex70_value] ltac:(constructor; [exact Q|constructor])) as (ts & F & n & H).
    inversion F as [|? t ? ? V F0]; subst. inversion F0; subst.
    specialize (H (n + 100) ltac:(lia)). cbn [concat] in H. rewrite app_nil_r in H.
    replace ex70_text with t; [exact V|].
    assert (E : forall k, consume_jpv (k + 100) None false 2 false None (stream [ex70_value]) = (ex70_text, CNil)) by (intro k; rewrite Nat.add_comm; vm_compute; reflexivity).
    rewrite E in H. congruence.
  - assert (Q' : quotes_to_drop true (JObj [(ex70_key "a" true, P_Path.num 1)] false)).
    { constructor. constructor; [|constructor]. split; [discriminate|constructor]. }
    destruct (C70_jpv_text (Some ex70_colours) true (-1) false [JObj [(ex70_key "a" true, P_Path.num 1)] false] ltac:(constructor; [exact Q'|constructor])) as (ts & F & n & H).
    inversion F as [|? t ? ? V F0]; subst. inversion F0; subst.
    specialize (H (n + 100) ltac:(lia)). cbn [concat] in H. rewrite app_nil_r in H.
    replace (text "$[<k>""a""</>] = <n>1</>" ++ [10%N]) with t; [exact V|].
    assert (E : forall k, consume_jpv (k + 100) (Some ex70_colours) true (-1) false None (stream [JObj [(ex70_key "a" true, P_Path.num 1)] false]) = (text "$[<k>""a""</>] = <n>1</>" ++ [10%N], CNil)) by (intro k; rewrite Nat.add_comm; vm_compute; reflexivity).
    rewrite E in H. congruence.
Qed.

(** A command: jp -out jpv depth=1. *)
Definition ex70 : command := mkCommand (text "auto") (text "json") [] (text "jpv") 2 false 60 false false [] [text "depth=1"].
Example C70_example_jp : forall float_text csv_records matches find grow,
  In (cm_color ex70) [text "auto"; text "always"; text "never"] /\ cm_file ex70 = [] /\ In (cm_out ex70) [text "jpv"; text "path"] /\
  json_input ex70 ex60_input [JArr P_JpQuery.ex53_vals false] /\
  applied float_text matches (cm_strict ex70) (cm_args ex70) [JArr P_JpQuery.ex53_vals false] [JArr [JArr [] true; JArr [] true] false] /\
  jp float_text csv_records find grow false false None ex70 ex60_input
    (mkOutcome (text "$[0] = [...]" ++ [10%N] ++ text "$[1] = [...]" ++ [10; 10]%N) 0).
Proof.
  intros ft csv matches find grow. destruct (C60_example ft csv matches find grow) as (JI & _ & _).
  assert (CO : In (cm_color ex70) [text "auto"; text "always"; text "never"]) by (cbn; auto).
  assert (OU : In (cm_out ex70) [text "jpv"; text "path"]) by (cbn; auto).
  assert (JI' : json_input ex70 ex60_input [JArr P_JpQuery.ex53_vals false]).
  { destruct JI as [_ JI]. split; [|exact JI]. apply format_ok. eexists. vm_compute. reflexivity. }
  assert (AP : applied ft matches (cm_strict ex70) (cm_args ex70) [JArr P_JpQuery.ex53_vals false] [JArr [JArr [] true; JArr [] true] false]).
  { apply (ad_cons ft matches false _ _ _ [JArr [JArr [] true; JArr [] true] false]); [vm_compute; reflexivity| |apply ad_nil].
    apply (ap_depth ft matches false (text "1") 1 [JArr P_JpQuery.ex53_vals false]).
    apply int64_parse. vm_compute. reflexivity. }
  do 3 (split; [first [exact CO|exact OU|reflexivity]|]). split; [exact JI'|]. split; [exact AP|].
  unfold jp. destruct (prepare ft false ex70 ex60_input) as [p|] eqn:P; [|exfalso; vm_compute in P; discriminate]. vm_compute in P. injection P as <-.
  eexists _, _. split; [exists (ProgModel.DOk tt); apply (decodes_vm _ _ 60); vm_compute; reflexivity|].
  split; [econstructor; [vm_compute; reflexivity|constructor]|]. apply leaves_vm. vm_compute. reflexivity.
Qed.

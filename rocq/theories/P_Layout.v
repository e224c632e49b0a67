(** C65: the layout of JSON output. *)
From Coq Require Import String List Arith ZArith NArith Bool Lia.
From Verif Require Import Base Tokens ScannerModel JsonSpec EncSpec PrinterModel JsonEncModel P_JsonDec P_JsonEnc
  MainModel P_Main PathSpec P_Path P_JpQuery CliModel CliSpec P_Cli LayoutSpec LayoutProofs.
Import ListNotations.
Open Scope string_scope.
Open Scope list_scope.
Open Scope nat_scope.

(** The layout of a value with the settings of an encoder. *)
Definition laid_out (c : settings) (v : jval) : bytes := layout (painted (se_color c)) (se_width c) (se_items c) (se_indent c) 0 v.

(** C65.  What an encoder writes for a stream of values, elided or not, with any
    settings: each value as it is laid out, and a line feed. *)
Theorem C65_layout : forall c vs, encodes c None (stream vs) (flat_map (fun v => laid_out c v ++ [10%N]) vs) CNil.
Proof.
  intros c vs. destruct (consume_layout (se_color c) (se_indent c) (se_flush c) (se_width c) (se_items c) vs) as (n & cs & R & T).
  exists n. intros f L. unfold consume_json. rewrite R by exact L. cbn [failing_write]. unfold JsonEncProofs.text in T. rewrite T. reflexivity.
Qed.
Print Assumptions C65_layout.

(** The command jp, on JSON input and with JSON output: the values that its
    arguments make of the values of the input, laid out with its options; objects
    of at most two members can be on one line. *)
Theorem C65_jp :
  forall float_text csv_records matches find grow tty epipe (c : command) (rd : reader) (vs ws : list jval),
    In (cm_color c) [text "auto"; text "always"; text "never"] -> cm_file c = [] -> cm_out c = text "json" ->
    json_input c rd vs -> applied float_text matches (cm_strict c) (cm_args c) vs ws ->
    let colours := if bytes_eqb (cm_color c) (text "always") || bytes_eqb (cm_color c) (text "auto") && tty then Some default_colorizer else None in
    let spaces := if cm_compact c then (-1)%Z else cm_indent c in
    forall oc, jp float_text csv_records find grow tty epipe None c rd oc <->
      oc = mkOutcome (flat_map (fun v => layout (painted colours) (cm_width c) 2 spaces 0 v ++ [10%N]) ws) 0.
Proof.
  intros ft csv matches find grow tty epipe c rd vs ws CO FI OU JI AP colours spaces.
  destruct (C60_arguments_in_order ft csv matches find grow tty epipe c rd vs ws CO FI) as (out & ok & PR & H); auto; [rewrite OU; now left|].
  assert (J : jo_jpv (output_options tty c) = false) by (unfold output_options; cbn [jo_jpv]; now rewrite OU).
  pose proof (C65_layout (mkSettings (jo_color (output_options tty c)) (jo_width (output_options tty c)) 2 (jo_indent (output_options tty c)) (jo_tty (output_options tty c))) ws) as EN.
  apply (prints_encodes _ _ _ J) in EN. unfold laid_out in EN. cbn [se_color se_width se_items se_indent] in EN.
  replace (flat_map _ ws) with out; [exact H|].
  destruct PR as [n P1], EN as [m P2]. specialize (P1 (n + m) ltac:(lia)). specialize (P2 (n + m) ltac:(lia)). rewrite J in P1, P2. rewrite P2 in P1.
  unfold output_options in P1. cbn [jo_color jo_width jo_indent] in P1. fold colours spaces in P1. congruence.
Qed.
Print Assumptions C65_jp.

(* ------------------------------------------------------------------ *)
(** Which collections are written on one line. *)
Lemma in_join : forall sep l (b : N), In b (join sep l) -> In b sep \/ exists t, In t l /\ In b t.
Proof.
  intros sep l b. induction l as [|t l IH]; [intros []|]. destruct l as [|u l].
  - intro H. right. exists t. split; [now left|exact H].
  - cbn [join]. intro H. apply in_app_or in H as [H|H]; [right; exists t; split; [now left|exact H]|].
    apply in_app_or in H as [H|H]; [now left|]. destruct (IH H) as [K|(x & X & B)]; [now left|]. right. exists x. split; [now right|exact B].
Qed.
Lemma scalar_no_break : forall s, valid_scalar true s -> ~ In 10%N (sc_bytes s).
Proof.
  intros s V. pose proof (stream_no_byte 10 [JScalar s] ltac:(lia) ltac:(repeat constructor; exact V)) as H. cbn in H. inversion H; subst. assumption.
Qed.
Lemma key_no_break : forall k, string_text true (sc_bytes k) -> ~ In 10%N (sc_bytes k).
Proof. intros k V. apply (scalar_no_break (new_scalar TStr (sc_bytes k)) V). Qed.
Lemma line_scalars : forall l n, line_width (map scalar_width l) = Some n -> Forall (fun v => exists s, v = JScalar s) l.
Proof.
  induction l as [|v l IH]; intros n H; [constructor|]. cbn [map line_width] in H. destruct v as [s| |]; cbn [scalar_width] in H; try discriminate.
  destruct (line_width _) as [m|] eqn:E; [|discriminate]. constructor; [eauto|exact (IH m eq_refl)].
Qed.
Lemma line_members : forall l n, line_width (map member_width l) = Some n -> Forall (fun m => exists s, snd m = JScalar s) l.
Proof.
  induction l as [|[k v] l IH]; intros n H; [constructor|]. cbn [map line_width] in H. unfold member_width at 1 in H. cbn [fst snd] in H. destruct v as [s| |]; cbn [scalar_width] in H; try discriminate.
  destruct (line_width _) as [m|] eqn:E; [|discriminate]. constructor; [cbn [snd]; eauto|exact (IH m eq_refl)].
Qed.
Lemma breaks : forall indent d, (0 <= indent)%Z -> In 10%N (break indent d).
Proof. intros indent d H. unfold break. destruct (Z.ltb_spec indent 0); [lia|]. now left. Qed.

(** One text and a line feed, without other line feeds. *)
Definition one_line (out : bytes) : Prop := exists t, out = t ++ [10%N] /\ ~ In 10%N t.
Lemma one_line_iff : forall t, one_line (t ++ [10%N]) <-> ~ In 10%N t.
Proof.
  intro t. split; [|intro H; exists t; auto]. intros (t' & E & N). apply app_inj_tail in E as [-> _]. exact N.
Qed.

(** An array is on one line exactly when its items are scalars which, with a comma
    and a space between any two of them, are not wider than -json-compact-width. *)
Theorem C65_arrays_on_one_line : forall c l out,
  se_color c = None -> (0 <= se_indent c)%Z -> (0 < se_width c)%Z -> valid true (JArr l false) ->
  encodes c None (toks (JArr l false)) out CNil ->
  (one_line out <-> exists n, line_width (map scalar_width l) = Some n /\ (n <= se_width c)%Z).
Proof.
  intros c l out NC IN W V EN.
  pose proof (C65_layout c [JArr l false]) as L. unfold stream in L. cbn [flat_map] in L. rewrite !app_nil_r in L.
  destruct (encodes_unique _ _ _ _ _ _ _ EN L) as [-> _]. clear EN L. rewrite one_line_iff. unfold laid_out. rewrite NC. cbn [layout].
  inversion V as [|? F|]; subst.
  assert (IL : array_inline (se_width c) l = true <-> exists n, line_width (map scalar_width l) = Some n /\ (n <= se_width c)%Z).
  { unfold array_inline, fits. rewrite (proj2 (Z.ltb_lt _ _) W). cbn [andb]. destruct l as [|x l].
    - cbn [LayoutSpec.empty orb map line_width]. split; [|reflexivity]. intros _. exists (-2)%Z. split; [reflexivity|lia].
    - cbn [LayoutSpec.empty orb]. destruct (line_width _) as [n|]; split.
      + intro H. exists n. split; [reflexivity|]. now apply Z.leb_le.
      + intros (m & E & H). injection E as <-. now apply Z.leb_le.
      + discriminate.
      + intros (m & E & _). discriminate. }
  rewrite <- IL. destruct (array_inline (se_width c) l) eqn:E.
  - split; [reflexivity|]. intros _ I. apply proj1 in IL. destruct (IL eq_refl) as (n & LW & _). apply line_scalars in LW.
    destruct I as [I|I]; [discriminate|]. apply in_app_or in I as [I|[I|[]]]; [|discriminate]. apply in_app_or in I as [I|[]].
    apply in_join in I as [I|(t & T & B)]; [cbn in I; intuition discriminate|]. apply in_map_iff in T as (x & <- & X).
    rewrite Forall_forall in *. destruct (LW x X) as [s ->]. specialize (F _ X). inversion F; subst. cbn [layout painted] in B. revert B. now apply scalar_no_break.
  - split; [|discriminate]. intro N. exfalso. apply N. right. apply in_or_app. left. unfold broken. apply in_or_app. left. now apply breaks.
Qed.
Print Assumptions C65_arrays_on_one_line.

(** An object is on one line exactly when it is empty or has scalar members only,
    not more of them than the encoder's limit (jp: two), which are not wider than
    -json-compact-width. *)
Theorem C65_objects_on_one_line : forall c l out,
  se_color c = None -> (0 <= se_indent c)%Z -> valid true (JObj l false) ->
  encodes c None (toks (JObj l false)) out CNil ->
  (one_line out <-> l = [] \/ (Z.of_nat (length l) <= se_items c)%Z /\ exists n, line_width (map member_width l) = Some n /\ (n <= se_width c)%Z).
Proof.
  intros c l out NC IN V EN.
  pose proof (C65_layout c [JObj l false]) as L. unfold stream in L. cbn [flat_map] in L. rewrite !app_nil_r in L.
  destruct (encodes_unique _ _ _ _ _ _ _ EN L) as [-> _]. clear EN L. rewrite one_line_iff. unfold laid_out. rewrite NC. cbn [layout].
  inversion V as [| |? F]; subst.
  assert (IL : object_inline (se_width c) (se_items c) l = true <-> l = [] \/ (Z.of_nat (length l) <= se_items c)%Z /\ exists n, line_width (map member_width l) = Some n /\ (n <= se_width c)%Z).
  { unfold object_inline, fits. destruct l as [|x l]; [cbn; tauto|]. cbn [LayoutSpec.empty orb]. rewrite andb_true_iff, Z.leb_le. destruct (line_width _) as [n|]; split.
      + intros [A H]. right. split; [exact A|]. exists n. split; [reflexivity|]. now apply Z.leb_le.
      + intros [A|[A (m & E & H)]]; [discriminate|]. split; [exact A|]. injection E as <-. now apply Z.leb_le.
      + intros [_ H]. discriminate.
      + intros [A|[_ (m & E & _)]]; discriminate. }
  rewrite <- IL. destruct (object_inline (se_width c) (se_items c) l) eqn:E.
  - split; [reflexivity|]. intros _ I. apply proj1 in IL.
    assert (LW : Forall (fun m => exists s, snd m = JScalar s) l) by (destruct (IL eq_refl) as [->|[_ (n & LW & _)]]; [constructor|exact (line_members l n LW)]).
    destruct I as [I|I]; [discriminate|]. apply in_app_or in I as [I|[I|[]]]; [|discriminate]. apply in_app_or in I as [I|[]].
    apply in_join in I as [I|(t & T & B)]; [cbn in I; intuition discriminate|]. apply in_map_iff in T as (x & <- & X).
    rewrite Forall_forall in *. destruct (F _ X) as [K VX]. destruct (LW x X) as [s SX]. rewrite SX in *. inversion VX; subst. cbn [layout painted] in B.
    apply in_app_or in B as [B|B]; [revert B; now apply key_no_break|]. apply in_app_or in B as [B|B]; [cbn in B; intuition discriminate|]. revert B. now apply scalar_no_break.
  - split; [|discriminate]. intro N. exfalso. apply N. right. apply in_or_app. left. unfold broken. apply in_or_app. left. now apply breaks.
Qed.
Print Assumptions C65_objects_on_one_line.

(* ------------------------------------------------------------------ *)
(** The lines of a broken array. *)

(** Nothing is lost or moved, and a line that holds several items is not wider
    than the limit (without colours the text of a scalar is as wide as the
    scalar). *)
Lemma join_width : forall l t, l <> [] -> Z.of_nat (length (join comma_space (l ++ [t]))) = (Z.of_nat (length (join comma_space l)) + 2 + Z.of_nat (length t))%Z.
Proof.
  induction l as [|u l IH]; intros t NE; [congruence|]. destruct l as [|u' l].
  - cbn [app join]. rewrite !app_length. cbn [length comma_space]. lia.
  - assert (E : forall x, join comma_space (u :: (u' :: l) ++ x) = u ++ comma_space ++ join comma_space ((u' :: l) ++ x)) by reflexivity.
    specialize (IH t ltac:(discriminate)). change ((u :: u' :: l) ++ [t]) with (u :: (u' :: l) ++ [t]). rewrite E.
    change (join comma_space (u :: u' :: l)) with (u ++ comma_space ++ join comma_space (u' :: l)). rewrite !app_length, !Nat2Z.inj_add, IH. lia.
Qed.
Theorem C65_array_lines : forall width items,
  Forall (fun x => forall n, fst x = Some n -> n = Z.of_nat (length (snd x))) items ->
  concat (array_rows width items) = map snd items /\
  Forall (fun row => (exists t, row = [t]) \/ (Z.of_nat (length (join comma_space row)) <= width)%Z) (array_rows width items).
Proof.
  intros width items F.
  assert (S : concat (map (fun x => [snd x]) items) = map snd items /\ Forall (fun row : list bytes => (exists t, row = [t]) \/ (Z.of_nat (length (join comma_space row)) <= width)%Z) (map (fun x : option Z * bytes => [snd x]) items)).
  { clear. induction items as [|x items [A B]]; [split; [reflexivity|constructor]|]. cbn [map concat app]. split; [now rewrite A|]. constructor; [eauto|exact B]. }
  unfold array_rows. destruct (0 <? width)%Z; [|exact S]. clear S.
  assert (G : forall items line w, Forall (fun x => forall n, fst x = Some n -> n = Z.of_nat (length (snd x))) items ->
    (line <> [] -> w = Z.of_nat (length (join comma_space line)) /\ (w <= width)%Z) ->
    concat (rows width line w items) = line ++ map snd items /\
    Forall (fun row => (exists t, row = [t]) \/ (Z.of_nat (length (join comma_space row)) <= width)%Z) (rows width line w items)).
  { clear items F. induction items as [|[[n|] t] items IH]; intros line w F L; cbn [rows].
    - rewrite app_nil_r. destruct line as [|u line]; [split; [reflexivity|constructor]|]. cbn [concat app]. rewrite app_nil_r. split; [reflexivity|].
      destruct (L ltac:(discriminate)) as [E LE]. constructor; [right; lia|constructor].
    - inversion F as [|? ? X F']; subst. cbn [fst snd] in X. specialize (X n eq_refl). destruct (Z.ltb_spec width n) as [WD|WD].
      + assert (S : concat (map (fun x => [snd x]) ((Some n, t) :: items)) = map snd ((Some n, t) :: items) /\ Forall (fun row : list bytes => (exists t, row = [t]) \/ (Z.of_nat (length (join comma_space row)) <= width)%Z) (map (fun x : option Z * bytes => [snd x]) ((Some n, t) :: items))).
        { clear. generalize ((Some n, t) :: items) as l. induction l as [|x l [A B]]; [split; [reflexivity|constructor]|]. cbn [map concat app]. split; [now rewrite A|]. constructor; [eauto|exact B]. }
        destruct S as [A B]. destruct line as [|u line]; [split; assumption|]. destruct (L ltac:(discriminate)) as [E LE].
        split; [exact (f_equal (fun z => (u :: line) ++ z) A)|].
        constructor; [right; lia|exact B].
      + assert (T1 : forall line0 w0, line0 = [t] -> w0 = n -> (line0 <> [] -> w0 = Z.of_nat (length (join comma_space line0)) /\ (w0 <= width)%Z)) by (intros line0 w0 -> -> _; cbn [join]; split; [exact X|lia]).
        destruct line as [|u line].
        * destruct (IH [t] n F' (T1 _ _ eq_refl eq_refl)) as [A B]. split; [exact A|exact B].
        * destruct (L ltac:(discriminate)) as [E LE]. destruct (Z.leb_spec (w + 2 + n) width) as [FI|FI].
          -- destruct (IH ((u :: line) ++ [t]) (w + 2 + n)%Z F') as [A B].
             { intros _. rewrite join_width by discriminate. split; [lia|exact FI]. }
             split; [refine (eq_trans A _); rewrite <- app_assoc; reflexivity|exact B].
          -- destruct (IH [t] n F' (T1 _ _ eq_refl eq_refl)) as [A B].
             split; [exact (f_equal (fun z => (u :: line) ++ z) A)|].
             constructor; [right; lia|exact B].
    - inversion F as [|? ? X F']; subst. destruct (IH [] 0%Z F' ltac:(congruence)) as [A B].
      assert (C : Forall (fun row => (exists t, row = [t]) \/ (Z.of_nat (length (join comma_space row)) <= width)%Z) ([t] :: rows width [] 0 items)) by (constructor; [left; eauto|exact B]).
      destruct line as [|u line].
      + split; [exact (f_equal (fun z => [t] ++ z) A)|exact C].
      + destruct (L ltac:(discriminate)) as [E LE]. split; [exact (f_equal (fun z => (u :: line) ++ [t] ++ z) A)|].
        constructor; [right; lia|exact C]. }
  destruct (G items [] 0%Z F ltac:(congruence)) as [A B]. split; [exact A|exact B].
Qed.
Print Assumptions C65_array_lines.

(* ------------------------------------------------------------------ *)
(** What the help text says about the layout (cmd/jp/main.go:519-556), and is not
    so.  [by_default] are the settings of jp without options, off a terminal. *)
Definition by_default : settings := mkSettings None 60 2 2 false.
Definition quoted (t : string) : bytes := [34%N] ++ text t ++ [34%N].
Definition str (t : string) : jval := JScalar (new_scalar TStr (quoted t)).
Definition number (t : string) : jval := JScalar (new_scalar TNum (text t)).
Definition member (k : string) (v : jval) : scalar * jval := (key_scalar (text k), v).
Fixpoint lines_of (l : list string) : bytes := match l with [] => [] | t :: r => text t ++ [10%N] ++ lines_of r end.

Lemma small_number : forall n, (1 <= n <= 4)%N -> valid true (P_Path.num n).
Proof. intros n H. constructor. cbn [P_Path.num new_scalar sc_type sc_bytes]. pose proof (ex53_digit n H) as V. inversion V; subst; assumption. Qed.
Lemma small_key : forall b, plain_byte b -> string_text true [34%N; b; 34%N].
Proof. intros b B. exists [b]. split; [reflexivity|]. apply ch_plain; [exact B|constructor]. Qed.

(** "Small arrays and objects that fit are displayed inline for readability": an
    object of three members is not, however small. *)
Definition three_members : list (scalar * jval) := [member "a" (P_Path.num 1); member "b" (P_Path.num 2); member "c" (P_Path.num 3)].
Theorem C65_small_objects_refuted :
  valid true (JObj three_members false) /\ line_width (map member_width three_members) = Some 22%Z /\
  encodes by_default None (toks (JObj three_members false)) (lines_of ["{"; "  ""a"": 1,"; "  ""b"": 2,"; "  ""c"": 3"; "}"]) CNil.
Proof.
  split; [|split; [reflexivity|apply encodes_vm; vm_compute; reflexivity]].
  constructor. unfold three_members, member. constructor; [split; [apply (small_key 97); unfold plain_byte; lia|apply small_number; lia]|]. constructor; [split; [apply (small_key 98); unfold plain_byte; lia|apply small_number; lia]|]. constructor; [split; [apply (small_key 99); unfold plain_byte; lia|apply small_number; lia]|constructor].
Qed.
Print Assumptions C65_small_objects_refuted.

(** "With default settings, [95, 87, 92] stays inline.  With -json-compact-width
    10, it splits across lines": it does not, the brackets are not counted. *)
Definition three_scores : jval := JArr [number "95"; number "87"; number "92"] false.
Theorem C65_documented_width_refuted :
  encodes (mkSettings None 10 2 2 false) None (toks three_scores) (lines_of ["[95, 87, 92]"]) CNil /\
  encodes (mkSettings None 9 2 2 false) None (toks three_scores) (lines_of ["["; "  95, 87,"; "  92"; "]"]) CNil.
Proof. split; apply encodes_vm; vm_compute; reflexivity. Qed.
Print Assumptions C65_documented_width_refuted.

(** The sample of the default output: the address is on one line. *)
Definition sample : jval :=
  JObj [member "name" (str "Alice"); member "scores" three_scores; member "address" (JObj [member "city" (str "Boston"); member "zip" (str "02101")] false)] false.
Theorem C65_documented_output_refuted :
  encodes by_default None (toks sample)
    (lines_of ["{"; "  ""name"": ""Alice"","; "  ""scores"": [95, 87, 92],"; "  ""address"": {""city"": ""Boston"", ""zip"": ""02101""}"; "}"]) CNil.
Proof. apply encodes_vm. vm_compute. reflexivity. Qed.
Print Assumptions C65_documented_output_refuted.

(** The sample of -json-compact: there is no space after the comma between the
    members of an object that is not small. *)
Theorem C65_documented_lines_refuted :
  encodes (mkSettings None 60 2 (-1) false) None (toks (JObj [member "name" (str "Alice"); member "scores" three_scores] false))
    (lines_of ["{""name"": ""Alice"",""scores"": [95, 87, 92]}"]) CNil.
Proof. apply encodes_vm. vm_compute. reflexivity. Qed.
Print Assumptions C65_documented_lines_refuted.

(** "Group together small scalar items up to a certain size"
    (encoding/json/encoder.go:178): after one item wider than the limit they are no
    longer grouped. *)
Definition after_wide : jval := JArr [str "0123456789"; number "1"; number "2"] false.
Definition before_wide : jval := JArr [number "1"; number "2"; str "0123456789"] false.
Theorem C65_grouping_refuted :
  encodes (mkSettings None 10 2 2 false) None (toks after_wide) (lines_of ["["; "  ""0123456789"","; "  1,"; "  2"; "]"]) CNil /\
  encodes (mkSettings None 10 2 2 false) None (toks before_wide) (lines_of ["["; "  1, 2,"; "  ""0123456789"""; "]"]) CNil.
Proof. split; apply encodes_vm; vm_compute; reflexivity. Qed.
Print Assumptions C65_grouping_refuted.

(** An array of two lines, of an array on one line and an object of two, that meets
    the hypotheses of the theorems above. *)
Definition ex65_items : list jval := [P_Path.num 1; P_Path.num 2; JArr [P_Path.num 3; P_Path.num 4] false].
Example C65_example :
  let c := mkSettings None 4 2 1 false in
  valid true (JArr ex65_items false) /\ encodes c None (toks (JArr ex65_items false)) (lines_of ["["; " 1, 2,"; " [3, 4]"; "]"]) CNil /\
  laid_out c (JArr ex65_items false) ++ [10%N] = lines_of ["["; " 1, 2,"; " [3, 4]"; "]"] /\
  line_width (map scalar_width [P_Path.num 3; P_Path.num 4]) = Some 4%Z /\
  laid_out (mkSettings None 14 2 1 false) (JObj [member "a" (P_Path.num 1); member "b" (P_Path.num 2)] false) = text "{""a"": 1, ""b"": 2}" /\
  laid_out (mkSettings None 13 2 1 false) (JObj [member "a" (P_Path.num 1); member "b" (P_Path.num 2)] false) ++ [10%N] = lines_of ["{"; " ""a"": 1,"; " ""b"": 2"; "}"] /\
  array_rows 4 [(Some 1%Z, text "1"); (Some 1%Z, text "2"); (Some 1%Z, text "3"); (None, text "[]"); (Some 1%Z, text "4")] = [[text "1"; text "2"]; [text "3"]; [text "[]"]; [text "4"]].
Proof.
  intro c. split. { constructor. constructor; [apply small_number; lia|]. constructor; [apply small_number; lia|]. constructor; [|constructor]. constructor. constructor; [apply small_number; lia|]. constructor; [apply small_number; lia|constructor]. }
  split; [apply encodes_vm; vm_compute; reflexivity|]. repeat split; vm_compute; reflexivity.
Qed.

(** A command of C60, with -json-compact-width 2. *)
Definition ex65 : command := mkCommand (text "always") (text "json") [] (text "json") 1 false 2 false false [] (cm_args ex60).
Example C65_example_jp : forall float_text csv_records matches find grow,
  In (cm_color ex65) [text "auto"; text "always"; text "never"] /\ cm_file ex65 = [] /\ cm_out ex65 = text "json" /\
  json_input ex65 ex60_input [JArr ex53_vals false] /\
  applied float_text matches (cm_strict ex65) (cm_args ex65) [JArr ex53_vals false] [JArr [P_Path.num 2; P_Path.num 3] false] /\
  (let colour c t := [27; 91]%N ++ text c ++ [109%N] ++ text t ++ [27; 91; 48; 109]%N in
   jp float_text csv_records find grow false false None ex65 ex60_input
     (mkOutcome (lines_of ["["] ++ text " " ++ colour "37" "2" ++ lines_of [","] ++ text " " ++ colour "37" "3" ++ [10%N] ++ lines_of ["]"]) 0)).
Proof.
  intros ft csv matches find grow. destruct (C60_example ft csv matches find grow) as (JI & AP & _).
  assert (CO : In (cm_color ex65) [text "auto"; text "always"; text "never"]) by (cbn; auto).
  assert (JI' : json_input ex65 ex60_input [JArr ex53_vals false]).
  { destruct JI as [_ JI]. split; [|exact JI]. apply format_ok. eexists. vm_compute. reflexivity. }
  do 3 (split; [first [exact CO|reflexivity]|]). split; [exact JI'|]. split; [exact AP|]. intro colour.
  rewrite (C65_jp ft csv matches find grow false false ex65 ex60_input _ _ CO eq_refl eq_refl JI' AP). vm_compute. reflexivity.
Qed.

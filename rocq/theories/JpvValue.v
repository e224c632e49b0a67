(** The tree of a value restricted to some of its leaves. *)
From Coq Require Import List Arith ZArith NArith Bool Lia.
From Verif Require Import Base Tokens JsonDecModel JsonSpec EncSpec P_JsonEnc
  GoLiteral ScalarModel ScalarSpec ScalarProofs P_Scalar JpvEncModel JpvDecModel JpvSpec JpvProofs JpvTree.

(* ------------------------------------------------------------------ *)
(** Comparison of parsed steps. *)
Lemma index_value : forall ds n, int_text ds -> nat_digits 0 ds = Z.of_N n ->
  go_number (ds ++ [93%N]) = float_of_decimal (mkDec false (Z.of_N n) 0).
Proof.
  intros ds n I D. unfold go_number. rewrite (scan_number_ok ds false (Z.of_N n) 0 [93%N]).
  - reflexivity.
  - exists ds, [], []. rewrite !app_nil_r. split; [reflexivity|]. split; [exact I|].
    split; [now left|]. split; [now left|]. exists [], 0%Z.
    split; [left; split; reflexivity|]. split; [left; split; reflexivity|].
    rewrite app_nil_r. split; [now symmetry|reflexivity].
  - intros b r E. injection E as <- <-. unfold continues_number, digit. lia.
Qed.

Lemma index_equal : forall n n' k k', (Z.of_N n < 2 ^ 53)%Z -> (Z.of_N n' < 2 ^ 53)%Z ->
  parsed (SIndex n) k -> parsed (SIndex n') k' -> scalar_equal k k' = Ok (N.eqb n n').
Proof.
  intros n n' k k' L L' [ds [I [D ->]]] [ds' [I' [D' ->]]].
  pose proof (index_value ds n I D) as G. pose proof (index_value ds' n' I' D') as G'.
  destruct (float_of_int (Z.of_N n) ltac:(lia)) as [x F]. destruct (float_of_int (Z.of_N n') ltac:(lia)) as [x' F'].
  unfold scalar_equal. cbn [new_key sc_type sc_bytes stype_eqb negb].
  destruct (bytes_eqb _ _) eqn:B.
  - apply bytes_eqb_eq in B. apply app_inj_tail in B. destruct B as [-> _].
    assert (n = n') by lia. subst. now rewrite N.eqb_refl.
  - unfold literal_numbers_equal. rewrite G, G', F, F'. f_equal.
    destruct (N.eqb_spec n n') as [->|NE].
    + rewrite F in F'. injection F' as ->. now apply float_eqb_eq.
    + destruct (float_eqb x x') eqn:E; [|reflexivity]. apply float_eqb_eq in E. subst.
      exfalso. apply NE. apply N2Z.inj. apply (float_of_int_inj _ _ x'); auto; lia.
Qed.

Lemma key_self : forall quote k, self (key_step quote k).
Proof.
  intros quote k a b. unfold key_step. destruct (sc_alnum k && negb quote); cbn [parsed]; intros -> ->;
    unfold scalar_equal; cbn [name_key key_scalar sc_type sc_bytes stype_eqb negb];
    rewrite bytes_eqb_refl; reflexivity.
Qed.
Lemma index_self : forall n, (Z.of_N n < 2 ^ 53)%Z -> self (SIndex n).
Proof. intros n L a b A B. rewrite (index_equal n n a b); auto. now rewrite N.eqb_refl. Qed.
Lemma index_distinct : forall n n', (Z.of_N n < 2 ^ 53)%Z -> (Z.of_N n' < 2 ^ 53)%Z -> n <> n' ->
  distinct (SIndex n) (SIndex n').
Proof.
  intros n n' L L' NE a b A B. rewrite (index_equal n n' a b); auto.
  apply N.eqb_neq in NE. now rewrite NE.
Qed.

Lemma has_escape_in : forall c, negb (has_escape c) = true -> ~ In 92%N c.
Proof.
  intros c H I. apply negb_true_iff in H. unfold has_escape in H.
  assert (E : existsb (N.eqb 92) c = true).
  { apply existsb_exists. exists 92%N. split; [exact I|reflexivity]. }
  congruence.
Qed.

Lemma step_key_parsed : forall quote k a, parsed (key_step quote k) a ->
  sc_type a = TStr /\ sc_bytes a = 34%N :: contents (sc_bytes k) ++ [34%N] /\
  (sc_unesc a = true -> ~ In 92%N (contents (sc_bytes k))).
Proof.
  intros quote k a. unfold key_step. destruct (sc_alnum k && negb quote); cbn [parsed]; intros ->;
    (split; [reflexivity|split; [reflexivity|]]); cbn [name_key key_scalar sc_unesc].
  - discriminate.
  - apply has_escape_in.
Qed.

Lemma key_distinct : forall quote k k', differ k k' -> distinct (key_step quote k) (key_step quote k').
Proof.
  intros quote k k' [u [u' [D [D' NE]]]] a b A B.
  destruct (step_key_parsed _ _ _ A) as [TA [EA UA]]. destruct (step_key_parsed _ _ _ B) as [TB [EB UB]].
  destruct (C31_strings_compare_by_value a b _ u _ u' TA TB EA D UA EB D' UB) as [_ H]. auto.
Qed.

(* ------------------------------------------------------------------ *)
(** The tree. *)
Definition opt {A} (o : option A) : list A := match o with Some x => [x] | None => [] end.
Definition node (arr : bool) (kids : list (jstep * ptree)) : option ptree :=
  match kids with [] => None | _ => Some (PNode arr kids) end.

Fixpoint tree_of (quote : bool) (keep : list jstep -> bool) (v : jval) : option ptree :=
  match v with
  | JScalar _ => if keep [] then Some (PLeaf (jpv_canon quote v)) else None
  | JArr l _ =>
      match l with
      | [] => if keep [] then Some (PLeaf (jpv_canon quote v)) else None
      | _ => node true (imap (fun i x =>
               map (fun t => (SIndex i, t)) (opt (tree_of quote (fun p => keep (SIndex i :: p)) x))) 0%N l)
      end
  | JObj l _ =>
      match l with
      | [] => if keep [] then Some (PLeaf (jpv_canon quote v)) else None
      | _ => node false (flat_map (fun m =>
               map (fun t => (key_step quote (fst m), t))
                 (opt (tree_of quote (fun p => keep (key_step quote (fst m) :: p)) (snd m)))) l)
      end
  end.

Lemma flat_map_map' : forall A B C (f : A -> B) (g : B -> list C) l,
  flat_map g (map f l) = flat_map (fun x => g (f x)) l.
Proof. induction l as [|x l IH]; cbn [map flat_map]; [reflexivity|]. now rewrite IH. Qed.
Lemma map_flat_map : forall A B C (f : B -> C) (g : A -> list B) l,
  map f (flat_map g l) = flat_map (fun x => map f (g x)) l.
Proof. induction l as [|x l IH]; cbn [map flat_map]; [reflexivity|]. now rewrite map_app, IH. Qed.
Lemma filter_flat_map : forall A B (f : B -> bool) (g : A -> list B) l,
  filter f (flat_map g l) = flat_map (fun x => filter f (g x)) l.
Proof. induction l as [|x l IH]; cbn [flat_map]; [reflexivity|]. now rewrite filter_app, IH. Qed.
Lemma filter_below : forall keep s l,
  filter (fun x : line => keep (fst x)) (map (below s) l) =
  map (below s) (filter (fun x : line => keep (s :: fst x)) l).
Proof.
  intros keep s. induction l as [|x l IH]; [reflexivity|]. cbn [map filter below fst].
  destruct (keep (s :: fst x)); cbn [map]; now rewrite IH.
Qed.

Definition cline (quote : bool) (l : line) : line := (fst l, jpv_canon quote (snd l)).
Lemma cline_below : forall quote s l, map (cline quote) (map (below s) l) = map (below s) (map (cline quote) l).
Proof. intros. rewrite !map_map. reflexivity. Qed.

(** The leaves of the tree are the selected leaves. *)
Definition tree_lines (o : option ptree) : list line := flat_map plines (opt o).
Lemma node_lines : forall arr kids, tree_lines (node arr kids) = kids_lines kids.
Proof.
  intros arr [|k kids]; [reflexivity|]. cbn [tree_lines node opt flat_map plines].
  rewrite app_nil_r. reflexivity.
Qed.

Lemma kid_lines : forall s o,
  kids_lines (map (fun t => (s, t)) (opt o)) = map (below s) (tree_lines o).
Proof.
  intros s [t|]; [|reflexivity]. cbn [opt map kids_lines tree_lines flat_map fst snd].
  now rewrite !app_nil_r.
Qed.
Lemma kids_lines_app : forall a b, kids_lines (a ++ b) = kids_lines a ++ kids_lines b.
Proof. intros. unfold kids_lines. apply flat_map_app. Qed.

Lemma lines_arr : forall quote keep l n,
  Forall (fun x => forall keep, tree_lines (tree_of quote keep x) =
     map (cline quote) (filter (fun y => keep (fst y)) (leaves quote x))) l ->
  kids_lines (imap (fun i x =>
     map (fun t => (SIndex i, t)) (opt (tree_of quote (fun p => keep (SIndex i :: p)) x))) n l) =
  map (cline quote) (filter (fun y => keep (fst y))
     (imap (fun i x => map (below (SIndex i)) (leaves quote x)) n l)).
Proof.
  intros quote keep l. induction l as [|x l IH]; intros n F; cbn [imap]; [reflexivity|].
  inversion F as [|? ? H F']; subst. rewrite kids_lines_app, kid_lines, H, filter_app, map_app.
  rewrite filter_below, cline_below. f_equal. apply IH; auto.
Qed.

Lemma lines_obj : forall quote keep l,
  Forall (fun m => forall keep, tree_lines (tree_of quote keep (snd m)) =
     map (cline quote) (filter (fun y => keep (fst y)) (leaves quote (snd m)))) l ->
  kids_lines (flat_map (fun m : scalar * jval =>
     map (fun t => (key_step quote (fst m), t))
       (opt (tree_of quote (fun p => keep (key_step quote (fst m) :: p)) (snd m)))) l) =
  map (cline quote) (filter (fun y => keep (fst y))
     (flat_map (fun m => map (below (key_step quote (fst m))) (leaves quote (snd m))) l)).
Proof.
  intros quote keep l. induction l as [|m l IH]; intros F; cbn [flat_map]; [reflexivity|].
  inversion F as [|? ? H F']; subst. rewrite kids_lines_app, kid_lines, H, filter_app, map_app.
  rewrite filter_below, cline_below. f_equal. apply IH; auto.
Qed.

Lemma lines_of_tree : forall quote v keep,
  tree_lines (tree_of quote keep v) =
  map (cline quote) (filter (fun y => keep (fst y)) (leaves quote v)).
Proof.
  intros quote. apply (jval_induction (fun v => forall keep, tree_lines (tree_of quote keep v) =
    map (cline quote) (filter (fun y => keep (fst y)) (leaves quote v)))).
  - intros s keep. cbn [tree_of leaves filter fst]. destruct (keep []); reflexivity.
  - intros [|x l] e IH keep.
    + cbn [tree_of leaves filter fst]. destruct (keep []); reflexivity.
    + cbn [tree_of leaves]. rewrite node_lines. apply lines_arr. exact IH.
  - intros [|m l] e IH keep.
    + cbn [tree_of leaves filter fst]. destruct (keep []); reflexivity.
    + cbn [tree_of leaves]. rewrite node_lines. apply lines_obj. exact IH.
Qed.

(** The tokens of the tree are those of the restricted value. *)
Definition same_toks (quote : bool) (o : option ptree) (r : option jval) : Prop :=
  match o, r with
  | Some t, Some v => ptoks t = toks (jpv_canon quote v)
  | None, None => True
  | _, _ => False
  end.

Lemma toks_arr : forall quote keep l n,
  Forall (fun x => forall keep, same_toks quote (tree_of quote keep x) (restrict quote keep x)) l ->
  let kids := imap (fun i x =>
     map (fun t => (SIndex i, t)) (opt (tree_of quote (fun p => keep (SIndex i :: p)) x))) n l in
  let items := imap (fun i x => opt (restrict quote (fun p => keep (SIndex i :: p)) x)) n l in
  kids_toks kids = flat_map toks (map (jpv_canon quote) items) /\ (kids = [] <-> items = []).
Proof.
  intros quote keep l. induction l as [|x l IH]; intros n F; cbn [imap]; [split; [reflexivity|tauto]|].
  inversion F as [|? ? H F']; subst. specialize (H (fun p => keep (SIndex n :: p))).
  specialize (IH (n + 1)%N F'). destruct IH as [IH1 IH2].
  unfold same_toks in H.
  destruct (tree_of quote _ x) as [t|], (restrict quote _ x) as [r|]; try contradiction; cbn [opt map app].
  - cbn [kids_toks flat_map fst snd open_step app]. fold (kids_toks (imap (fun (i : N) (x : jval) =>
      map (fun t : ptree => (SIndex i, t)) (opt (tree_of quote (fun p : list jstep => keep (SIndex i :: p)) x)))
      (n + 1)%N l)). split; [|split; discriminate]. rewrite H, IH1. reflexivity.
  - split; [exact IH1|exact IH2].
Qed.

Lemma toks_obj : forall quote keep l,
  Forall (fun m => forall keep, same_toks quote (tree_of quote keep (snd m)) (restrict quote keep (snd m))) l ->
  let kids := flat_map (fun m : scalar * jval =>
     map (fun t => (key_step quote (fst m), t))
       (opt (tree_of quote (fun p => keep (key_step quote (fst m) :: p)) (snd m)))) l in
  let ms := flat_map (fun m : scalar * jval =>
     map (fun x => (fst m, x))
       (opt (restrict quote (fun p => keep (key_step quote (fst m) :: p)) (snd m)))) l in
  kids_toks kids = flat_map (fun m => TScalar (fst m) :: toks (snd m))
    (map (fun m => (step_key (key_step quote (fst m)), jpv_canon quote (snd m))) ms) /\
  (kids = [] <-> ms = []).
Proof.
  intros quote keep l. induction l as [|m l IH]; intros F; cbn [flat_map]; [split; [reflexivity|tauto]|].
  inversion F as [|? ? H F']; subst. specialize (H (fun p => keep (key_step quote (fst m) :: p))).
  specialize (IH F'). destruct IH as [IH1 IH2]. unfold same_toks in H.
  destruct (tree_of quote _ (snd m)) as [t|], (restrict quote _ (snd m)) as [r|]; try contradiction; cbn [opt map app].
  - split; [|split; discriminate]. cbn [flat_map fst snd]. rewrite <- IH1, <- H.
    cbn [kids_toks flat_map fst snd].
    assert (O : open_step (key_step quote (fst m)) true = [TScalar (step_key (key_step quote (fst m)))]).
    { unfold key_step. destruct (sc_alnum (fst m) && negb quote); reflexivity. }
    rewrite O. reflexivity.
  - split; [exact IH1|exact IH2].
Qed.

Lemma no_elision : forall R quote v, representable R quote v ->
  match v with JArr _ e | JObj _ e => e = false | _ => True end.
Proof. intros R quote v H. destruct H; auto. Qed.

Lemma toks_of_tree : forall R quote v, representable R quote v -> forall keep,
  same_toks quote (tree_of quote keep v) (restrict quote keep v).
Proof.
  intros R quote. apply (jval_induction (fun v => representable R quote v -> forall keep,
    same_toks quote (tree_of quote keep v) (restrict quote keep v))).
  - intros s _ keep. cbn [tree_of restrict]. destruct (keep []); simpl; auto.
  - intros l e IH RP keep. inversion RP as [|? F LN|]; subst.
    destruct l as [|x l]; [cbn [tree_of restrict]; destruct (keep []); simpl; auto|].
    cbn [tree_of restrict]. fold (@opt jval).
    assert (FA : Forall (fun x => forall keep, same_toks quote (tree_of quote keep x) (restrict quote keep x)) (x :: l)).
    { rewrite Forall_forall in *. intros y I. apply IH; auto. }
    destruct (toks_arr quote keep (x :: l) 0%N FA) as [T E].
    change (fun (i : N) (x0 : jval) => match restrict quote (fun p : list jstep => keep (SIndex i :: p)) x0 with
      | Some x1 => [x1] | None => [] end) with
      (fun (i : N) (x0 : jval) => opt (restrict quote (fun p : list jstep => keep (SIndex i :: p)) x0)).
    destruct (imap (fun (i : N) (x0 : jval) => opt (restrict quote (fun p : list jstep => keep (SIndex i :: p)) x0)) 0%N (x :: l)) as [|y ys].
    + rewrite (proj2 E eq_refl). exact I.
    + unfold node. destruct (imap _ 0%N (x :: l)) as [|k ks].
      { exfalso. destruct E as [E _]. specialize (E eq_refl). discriminate. }
      cbn [same_toks jpv_canon]. cbn [toks elision app ptoks]. fold (kids_toks (k :: ks)). rewrite T. reflexivity.
  - intros l e IH RP keep. inversion RP as [| |? F D]; subst.
    destruct l as [|x l]; [cbn [tree_of restrict]; destruct (keep []); simpl; auto|].
    cbn [tree_of restrict].
    assert (FA : Forall (fun m => forall keep, same_toks quote (tree_of quote keep (snd m)) (restrict quote keep (snd m))) (x :: l)).
    { rewrite Forall_forall in *. intros y I. apply IH; auto. apply F; auto. }
    destruct (toks_obj quote keep (x :: l) FA) as [T E].
    change (fun m : scalar * jval => map (fun x0 : jval => (fst m, x0))
      match restrict quote (fun p : list jstep => keep (key_step quote (fst m) :: p)) (snd m) with
      | Some x0 => [x0] | None => [] end) with
      (fun m : scalar * jval => map (fun x0 : jval => (fst m, x0))
        (opt (restrict quote (fun p : list jstep => keep (key_step quote (fst m) :: p)) (snd m)))).
    destruct (flat_map (fun m : scalar * jval => map (fun x0 : jval => (fst m, x0))
        (opt (restrict quote (fun p : list jstep => keep (key_step quote (fst m) :: p)) (snd m)))) (x :: l)) as [|y ys].
    + rewrite (proj2 E eq_refl). exact I.
    + unfold node. destruct (flat_map _ (x :: l)) as [|k ks].
      { exfalso. destruct E as [E _]. specialize (E eq_refl). discriminate. }
      cbn [same_toks jpv_canon]. cbn [toks elision app ptoks]. fold (kids_toks (k :: ks)). rewrite T. reflexivity.
Qed.

(* ------------------------------------------------------------------ *)
(** The tree is well formed. *)
Lemma pairs_chain : forall l, ForallOrdPairs distinct l -> chain l.
Proof.
  induction 1 as [|s l F H IH]; [exact I|]. destruct l as [|s' l]; [exact I|].
  split; [now inversion F|exact IH].
Qed.

Definition good_node (arr : bool) (kids : list (jstep * ptree)) : Prop :=
  Forall (fun k => is_index (fst k) = arr /\ self (fst k) /\ wf (snd k)) kids.

Lemma node_wf : forall arr kids t, good_node arr kids -> chain (map fst kids) ->
  node arr kids = Some t -> wf t.
Proof.
  intros arr kids t G C E. unfold node in E. destruct kids as [|k kids]; [discriminate|].
  injection E as <-. constructor; auto. discriminate.
Qed.

Lemma kept_all : forall quote v keep, (forall p, keep p = true) -> tree_of quote keep v <> None.
Proof.
  intros quote. apply (jval_induction (fun v => forall keep, (forall p, keep p = true) -> tree_of quote keep v <> None)).
  - intros s keep K. cbn [tree_of]. rewrite K. discriminate.
  - intros [|x l] e IH keep K; cbn [tree_of]; [rewrite K; discriminate|].
    inversion IH as [|? ? H IH']; subst. cbn [imap].
    specialize (H (fun p => keep (SIndex 0 :: p)) (fun p => K _)).
    destruct (tree_of quote _ x); [|congruence]. discriminate.
  - intros [|x l] e IH keep K; cbn [tree_of]; [rewrite K; discriminate|].
    inversion IH as [|? ? H IH']; subst. cbn [flat_map].
    specialize (H (fun p => keep (key_step quote (fst x) :: p)) (fun p => K _)).
    destruct (tree_of quote _ (snd x)); [|congruence]. discriminate.
Qed.

Lemma obj_keys_all : forall quote keep l, (forall p, keep p = true) ->
  map fst (flat_map (fun m : scalar * jval =>
     map (fun t => (key_step quote (fst m), t))
       (opt (tree_of quote (fun p => keep (key_step quote (fst m) :: p)) (snd m)))) l) =
  map (key_step quote) (map fst l).
Proof.
  intros quote keep l K. induction l as [|m l IH]; [reflexivity|]. cbn [flat_map map].
  pose proof (kept_all quote (snd m) (fun p => keep (key_step quote (fst m) :: p)) (fun p => K _)) as NN.
  destruct (tree_of quote _ (snd m)) as [t|]; [|congruence]. cbn [opt map app fst]. now rewrite IH.
Qed.

Lemma adjacent_chain : forall quote ks, adjacent_differ ks -> chain (map (key_step quote) ks).
Proof.
  intros quote. induction ks as [|k [|k' ks] IH]; intros H; [exact I|exact I|].
  destruct H as [D H]. cbn [map chain]. split; [now apply key_distinct|]. apply IH. exact H.
Qed.

Lemma obj_keys_some : forall quote keep l, all_differ (map fst l) ->
  ForallOrdPairs distinct (map fst (flat_map (fun m : scalar * jval =>
     map (fun t => (key_step quote (fst m), t))
       (opt (tree_of quote (fun p => keep (key_step quote (fst m) :: p)) (snd m)))) l)).
Proof.
  intros quote keep l. induction l as [|m l IH]; intros D; cbn [flat_map map]; [constructor|].
  inversion D as [|? ? H D']; subst. specialize (IH D').
  destruct (tree_of quote _ (snd m)) as [t|]; [|exact IH]. cbn [opt map app fst].
  constructor; [|exact IH]. rewrite Forall_forall in *. intros s I.
  apply in_map_iff in I. destruct I as [k [<- I]]. apply in_flat_map in I.
  destruct I as [m' [I1 I2]]. apply in_map_iff in I2. destruct I2 as [t' [<- _]]. cbn [fst].
  apply key_distinct. apply H. apply in_map_iff. eauto.
Qed.

Lemma tree_wf : forall (R : list scalar -> Prop) quote v, representable R quote v ->
  forall t keep, ((forall p, keep p = true) /\ (forall ks, R ks -> adjacent_differ ks)) \/
                 (forall ks, R ks -> all_differ ks) ->
  tree_of quote keep v = Some t -> wf t.
Proof.
  intros R quote. apply (jval_induction (fun v => representable R quote v ->
    forall t keep, ((forall p, keep p = true) /\ (forall ks, R ks -> adjacent_differ ks)) \/
                   (forall ks, R ks -> all_differ ks) ->
    tree_of quote keep v = Some t -> wf t)).
  - intros s _ t keep _ E. cbn [tree_of] in E. destruct (keep []); [|discriminate].
    injection E as <-. constructor.
  - intros l e IH RP t keep M E. inversion RP as [|? F LN|]; subst.
    destruct l as [|x l].
    { cbn [tree_of] in E. destruct (keep []); [|discriminate]. injection E as <-. constructor. }
    cbn [tree_of] in E.
    assert (FW : forall l n, Forall (representable R quote) l ->
      Forall (fun v => representable R quote v -> forall t keep,
         ((forall p, keep p = true) /\ (forall ks, R ks -> adjacent_differ ks)) \/
         (forall ks, R ks -> all_differ ks) -> tree_of quote keep v = Some t -> wf t) l ->
      (Z.of_N n + Z.of_nat (length l) <= 2 ^ 53)%Z ->
      let kids := imap (fun i x =>
        map (fun t => (SIndex i, t)) (opt (tree_of quote (fun p => keep (SIndex i :: p)) x))) n l in
      good_node true kids /\ ForallOrdPairs distinct (map fst kids) /\
      Forall (fun k => exists i, fst k = SIndex i /\ (n <= i)%N /\ (Z.of_N i < 2 ^ 53)%Z) kids).
    { clear - M. induction l as [|x l IHl]; intros n F IH L; cbn [imap].
      - repeat split; constructor.
      - inversion F as [|? ? RX F']; subst. inversion IH as [|? ? H IH']; subst. cbn [length] in L.
        destruct (IHl (n + 1)%N F' IH' ltac:(lia)) as [G [D S]]. clear IHl.
        destruct (tree_of quote _ x) as [t|] eqn:T; cbn [opt map app].
        + assert (LN : (Z.of_N n < 2 ^ 53)%Z) by lia.
          split; [|split].
          * constructor; [|exact G]. cbn [fst snd is_index]. split; [reflexivity|].
            split; [now apply index_self|]. eapply H; [exact RX| |exact T].
            destruct M as [[M1 M2]|M]; [left; split; auto|right; auto].
          * cbn [map fst]. constructor; [|exact D]. rewrite Forall_forall in *. intros s I.
            apply in_map_iff in I. destruct I as [k [<- I]]. destruct (S k I) as [i [-> [L1 L2]]].
            apply index_distinct; auto. lia.
          * constructor; [exists n; cbn [fst]; split; [reflexivity|lia]|].
            eapply Forall_impl; [|exact S]. intros k [i [E [L1 L2]]]. exists i. split; [exact E|lia].
        + split; [exact G|split; [exact D|]]. eapply Forall_impl; [|exact S].
          intros k [i [E [L1 L2]]]. exists i. split; [exact E|lia]. }
    destruct (FW (x :: l) 0%N F IH ltac:(lia)) as [G [D _]].
    eapply node_wf; [exact G| |exact E]. now apply pairs_chain.
  - intros l e IH RP t keep M E. inversion RP as [| |? F D]; subst.
    destruct l as [|x l].
    { cbn [tree_of] in E. destruct (keep []); [|discriminate]. injection E as <-. constructor. }
    cbn [tree_of] in E. eapply node_wf; [| |exact E].
    + unfold good_node. rewrite Forall_forall in *. intros k I. apply in_flat_map in I.
      destruct I as [m [I1 I2]]. apply in_map_iff in I2. destruct I2 as [t' [<- I2]]. cbn [fst snd].
      destruct (F m I1) as [TY [ST [AL RP']]].
      split; [unfold key_step; destruct (sc_alnum (fst m) && negb quote); reflexivity|].
      split; [apply key_self|].
      destruct (tree_of quote _ (snd m)) as [t2|] eqn:T; [|contradiction].
      destruct I2 as [<-|[]]. eapply (IH m I1 RP'); [|exact T].
      destruct M as [[M1 M2]|M]; [left; split; auto|right; auto].
    + destruct M as [[M1 M2]|M].
      * rewrite obj_keys_all by auto. apply adjacent_chain. auto.
      * apply pairs_chain. apply obj_keys_some. auto.
Qed.

(** Common definitions: bytes, Go outcomes, Go slice operations. *)
From Coq Require Import List NArith ZArith Lia Bool.
Export ListNotations.
Open Scope list_scope.

(** A byte is a natural number; Go's [byte] ranges over 0..255. *)
Definition byte := N.
Definition bytes := list N.
Definition is_byte (b : N) : Prop := (b < 256)%N.

Fixpoint bytes_eqb (a b : bytes) : bool :=
  match a, b with
  | [], [] => true
  | x :: a', y :: b' => N.eqb x y && bytes_eqb a' b'
  | _, _ => false
  end.

Lemma bytes_eqb_eq : forall a b, bytes_eqb a b = true <-> a = b.
Proof.
  induction a as [|x a IH]; destruct b as [|y b]; simpl; split; intro H;
    try reflexivity; try discriminate.
  - apply andb_prop in H. destruct H as [H1 H2].
    apply N.eqb_eq in H1. apply IH in H2. now subst.
  - injection H as -> ->. rewrite N.eqb_refl. simpl. now apply IH.
Qed.

Lemma bytes_eqb_refl : forall a, bytes_eqb a a = true.
Proof. intro a. now apply bytes_eqb_eq. Qed.

(** Outcome of a Go computation: a value, a panic, or (model only) fuel
    exhaustion. *)
Inductive res (A : Type) : Type :=
| Ok (a : A)
| Panic
| OutOfFuel.
Arguments Ok {A} a.
Arguments Panic {A}.
Arguments OutOfFuel {A}.

Definition bind {A B} (m : res A) (f : A -> res B) : res B :=
  match m with
  | Ok a => f a
  | Panic => Panic
  | OutOfFuel => OutOfFuel
  end.

Declare Scope res_scope.
Delimit Scope res_scope with res.
Notation "'do' x <- m ; f" := (bind m (fun x => f))
  (at level 200, x pattern, m at level 100, f at level 200) : res_scope.
Open Scope res_scope.

(** Go slices of known contents: [l[i:]] and [l[i]] panic when out of range. *)
Definition slice_from {A} (l : list A) (k : Z) : res (list A) :=
  if ((0 <=? k) && (k <=? Z.of_nat (length l)))%Z
  then Ok (skipn (Z.to_nat k) l) else Panic.

Definition slice_to {A} (l : list A) (k : Z) : res (list A) :=
  if ((0 <=? k) && (k <=? Z.of_nat (length l)))%Z
  then Ok (firstn (Z.to_nat k) l) else Panic.

Definition slice_idx {A} (l : list A) (k : Z) : res A :=
  if (0 <=? k)%Z then
    match nth_error l (Z.to_nat k) with
    | Some a => Ok a
    | None => Panic
    end
  else Panic.

(** Go's built-in [copy(dst, src)]: overwrites a prefix of [dst]. *)
Definition go_copy {A} (dst src : list A) : list A :=
  firstn (length dst) src ++ skipn (length src) dst.

(** Update of the [n]-th element. *)
Fixpoint upd {A} (l : list A) (n : nat) (a : A) : list A :=
  match l, n with
  | [], _ => []
  | _ :: r, O => a :: r
  | x :: r, S m => x :: upd r m a
  end.

Lemma upd_length : forall A (l : list A) n a, length (upd l n a) = length l.
Proof. induction l; destruct n; simpl; intros; auto. Qed.

Lemma nth_error_upd_same : forall A (l : list A) n a,
  n < length l -> nth_error (upd l n a) n = Some a.
Proof.
  induction l; destruct n; simpl; intros; try lia; auto.
  apply IHl. lia.
Qed.

Lemma nth_error_upd_other : forall A (l : list A) n m a,
  n <> m -> nth_error (upd l n a) m = nth_error l m.
Proof.
  induction l; destruct n, m; simpl; intros; try lia; auto.
Qed.

Lemma nth_error_app_last : forall A (l : list A) a,
  nth_error (l ++ [a]) (length l) = Some a.
Proof. induction l; simpl; auto. Qed.

Lemma nth_error_app_l : forall A (l r : list A) n,
  n < length l -> nth_error (l ++ r) n = nth_error l n.
Proof. intros. now apply nth_error_app1. Qed.

Lemma nth_error_lt : forall A (l : list A) n a,
  nth_error l n = Some a -> n < length l.
Proof. intros. apply nth_error_Some. congruence. Qed.

Lemma nth_error_ge : forall A (l : list A) n,
  nth_error l n = None -> length l <= n.
Proof. intros. now apply nth_error_None. Qed.

Lemma nth_error_skipn : forall A (l : list A) k n,
  nth_error (skipn k l) n = nth_error l (k + n).
Proof.
  induction l as [|x l IH]; destruct k; simpl; intros; auto.
  destruct n; auto.
Qed.

Lemma nth_error_firstn : forall A (l : list A) k n,
  n < k -> nth_error (firstn k l) n = nth_error l n.
Proof.
  induction l as [|x l IH]; destruct k, n; simpl; intros; auto; try lia.
  apply IH. lia.
Qed.

Lemma skipn_cons_nth : forall A (l : list A) n a,
  nth_error l n = Some a -> skipn n l = a :: skipn (S n) l.
Proof.
  induction l as [|x l IH]; destruct n; simpl; intros; try discriminate; auto.
  - now injection H as ->.
  - now apply IH.
Qed.

Lemma skipn_nil_ge : forall A (l : list A) n,
  length l <= n -> skipn n l = [].
Proof. intros. now apply skipn_all2. Qed.

Lemma firstn_S_nth : forall A (l : list A) n a,
  nth_error l n = Some a -> firstn (S n) l = firstn n l ++ [a].
Proof.
  induction l as [|x l IH]; destruct n; simpl; intros; try discriminate; auto.
  - now injection H as ->.
  - f_equal. now apply IH.
Qed.

Lemma skipn_skipn : forall A (l : list A) a b, skipn a (skipn b l) = skipn (b + a) l.
Proof.
  induction l as [|x l IH]; intros a b.
  - now rewrite !skipn_nil.
  - destruct b; simpl; [reflexivity|apply IH].
Qed.

Lemma firstn_plus : forall A (l : list A) a b,
  firstn (a + b) l = firstn a l ++ firstn b (skipn a l).
Proof.
  induction l as [|x l IH]; intros a b.
  - now rewrite skipn_nil, !firstn_nil.
  - destruct a; simpl; [reflexivity|]. now rewrite IH.
Qed.

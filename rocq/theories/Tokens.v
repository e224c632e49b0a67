(** Tokens: model of /repo/token/tokens.go. *)
From Coq Require Import List NArith Bool Lia.
From Verif Require Import Base.

(** token/tokens.go:205-212 [ScalarType]. *)
Inductive stype := TNull | TBool | TNum | TStr.

(** token/tokens.go:95-105 [Scalar].  The byte [TypeAndFlags] is represented
    by its four components; [pack]/[unpack] below show that nothing is lost. *)
Record scalar := mkScalar {
  sc_bytes : bytes;
  sc_type : stype;
  sc_key : bool;
  sc_alnum : bool;
  sc_unesc : bool
}.

(** token/tokens.go:32-105: the six token types. *)
Inductive token :=
| TStartObj
| TEndObj
| TStartArr
| TEndArr
| TElision
| TScalar (s : scalar).

(** token/tokens.go:116-121 [NewScalar]. *)
Definition new_scalar (t : stype) (b : bytes) : scalar :=
  mkScalar b t false false false.

(** token/tokens.go:123-128 [NewKey]. *)
Definition new_key (t : stype) (b : bytes) : scalar :=
  mkScalar b t true false false.

(** token/tokens.go:221-231 [TrueScalar], [FalseScalar], [NullScalar]. *)
Definition true_bytes : bytes := [116; 114; 117; 101]%N.
Definition false_bytes : bytes := [102; 97; 108; 115; 101]%N.
Definition null_bytes : bytes := [110; 117; 108; 108]%N.
Definition true_scalar := new_scalar TBool true_bytes.
Definition false_scalar := new_scalar TBool false_bytes.
Definition null_scalar := new_scalar TNull null_bytes.

(** token/tokens.go:204-219: numbering of types and masks. *)
Definition type_code (t : stype) : N :=
  match t with TNull => 0 | TBool => 1 | TNum => 2 | TStr => 3 end%N.
Definition TypeMask : N := 3%N.
Definition KeyMask : N := 4%N.
Definition AlnumMask : N := 8%N.
Definition UnescapedMask : N := 16%N.

(** The [TypeAndFlags] byte of a scalar. *)
Definition pack (s : scalar) : N :=
  N.lor (type_code (sc_type s))
    (N.lor (if sc_key s then KeyMask else 0%N)
      (N.lor (if sc_alnum s then AlnumMask else 0%N)
             (if sc_unesc s then UnescapedMask else 0%N))).

(** token/tokens.go:129-143 [Type], [IsKey], [IsAlnum], [IsUnescaped] read the
    components off the packed byte. *)
Lemma pack_faithful : forall s,
  N.land (pack s) TypeMask = type_code (sc_type s) /\
  negb (N.eqb (N.land KeyMask (pack s)) 0) = sc_key s /\
  negb (N.eqb (N.land AlnumMask (pack s)) 0) = sc_alnum s /\
  negb (N.eqb (N.land UnescapedMask (pack s)) 0) = sc_unesc s.
Proof.
  intros [b t k a u]; destruct t, k, a, u; repeat split; reflexivity.
Qed.

Definition stype_eqb (a b : stype) : bool :=
  match a, b with
  | TNull, TNull | TBool, TBool | TNum, TNum | TStr, TStr => true
  | _, _ => false
  end.

Lemma stype_eqb_eq : forall a b, stype_eqb a b = true <-> a = b.
Proof. destruct a, b; simpl; split; congruence. Qed.

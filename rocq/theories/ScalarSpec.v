(** Specification: the values of JSON literals. *)
From Coq Require Import List ZArith NArith Bool.
From Verif Require Import Base Tokens JsonSpec.
Local Open Scope N_scope.

(** Unicode scalar values. *)
Definition unicode (c : N) : Prop := c < 55296 \/ 57344 <= c < 1114112.

(** RFC 3629: the UTF-8 encoding of a character. *)
Definition utf8 (c : N) : bytes :=
  if c <? 128 then [c]
  else if c <? 2048 then [192 + c / 64; 128 + c mod 64]
  else if c <? 65536 then [224 + c / 4096; 128 + (c / 64) mod 64; 128 + c mod 64]
  else [240 + c / 262144; 128 + (c / 4096) mod 64; 128 + (c / 64) mod 64; 128 + c mod 64].

(** RFC 8259 section 7: the characters escapes stand for. *)
Definition hex_digit (b v : N) : Prop :=
  48 <= b <= 57 /\ v = b - 48 \/ 97 <= b <= 102 /\ v = b - 87 \/ 65 <= b <= 70 /\ v = b - 55.
Definition hex_number (a b c d v : N) : Prop :=
  exists x y z w, hex_digit a x /\ hex_digit b y /\ hex_digit c z /\ hex_digit d w /\
    v = 4096 * x + 256 * y + 16 * z + w.
Definition letter_value (b v : N) : Prop :=
  In (b, v) [(34, 34); (92, 92); (47, 47); (98, 8); (102, 12); (110, 10); (114, 13); (116, 9)].

(** [denotes c u]: the string literal with contents [c] has the value [u], a
    list of characters.  Contents that are not UTF-8, and unpaired surrogates,
    have no value. *)
Inductive denotes : bytes -> list N -> Prop :=
| dn_nil : denotes [] []
| dn_char : forall c l u, unicode c -> 32 <= c -> c <> 34 -> c <> 92 -> denotes l u ->
    denotes (utf8 c ++ l) (c :: u)
| dn_letter : forall b v l u, letter_value b v -> denotes l u -> denotes (92 :: b :: l) (v :: u)
| dn_hex : forall a b c d v l u, hex_number a b c d v -> unicode v -> denotes l u ->
    denotes (92 :: 117 :: a :: b :: c :: d :: l) (v :: u)
| dn_pair : forall a b c d v a' b' c' d' v' l u,
    hex_number a b c d v -> hex_number a' b' c' d' v' ->
    55296 <= v < 56320 -> 56320 <= v' < 57344 -> denotes l u ->
    denotes (92 :: 117 :: a :: b :: c :: d :: 92 :: 117 :: a' :: b' :: c' :: d' :: l)
            ((65536 + (v - 55296) * 1024 + (v' - 56320)) :: u).

(** The value of digits. *)
Fixpoint nat_digits (acc : Z) (ds : bytes) : Z :=
  match ds with
  | [] => acc
  | d :: r => nat_digits (10 * acc + (Z.of_N d - 48)) r
  end.

(** [num_value l neg m e]: the number literal [l] stands for
    [(-1)^neg * m * 10^e]. *)
Definition num_value (l : bytes) (neg : bool) (m e : Z) : Prop :=
  exists i f x,
    l = (if neg then [45] else []) ++ i ++ f ++ x /\
    int_text i /\ frac_text f /\ exp_text x /\
    exists fd xe, (f = [] /\ fd = [] \/ f = 46 :: fd) /\
      (x = [] /\ xe = 0%Z \/
       exists eb sg ds, x = eb :: sg ++ ds /\ Forall digit ds /\ (eb = 101 \/ eb = 69) /\
         (sg = [45] /\ xe = (- nat_digits 0 ds)%Z \/
          (sg = [] \/ sg = [43]) /\ xe = nat_digits 0 ds)) /\
      m = nat_digits 0 (i ++ fd) /\ e = (xe - Z.of_nat (length fd))%Z.

(** The same rational number. *)
Definition same_number (neg1 : bool) (m1 e1 : Z) (neg2 : bool) (m2 e2 : Z) : Prop :=
  let d := Z.min e1 e2 in
  (let s n m := if n : bool then (- m)%Z else m in
   s neg1 (m1 * 10 ^ (e1 - d)) = s neg2 (m2 * 10 ^ (e2 - d)))%Z.

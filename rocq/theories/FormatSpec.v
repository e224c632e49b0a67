(** Specification of regular expressions and of the guessed formats. *)
From Coq Require Import List NArith Bool.
From Verif Require Import Base FormatModel.

(** [r] matches [s], which is followed by [t]. *)
Inductive matches : re -> bytes -> bytes -> Prop :=
| m_empty : forall t, matches REmpty [] t
| m_set : forall p b t, p b = true -> matches (RSet p) [b] t
| m_cat : forall r q s1 s2 t, matches r s1 (s2 ++ t) -> matches q s2 t -> matches (RCat r q) (s1 ++ s2) t
| m_left : forall r q s t, matches r s t -> matches (RAlt r q) s t
| m_right : forall r q s t, matches q s t -> matches (RAlt r q) s t
| m_none : forall r t, matches (RStar r) [] t
| m_more : forall r s1 s2 t, matches r s1 (s2 ++ t) -> matches (RStar r) s2 t -> matches (RStar r) (s1 ++ s2) t
| m_end : matches REnd [] [].

(** A name in the header of a CSV file; a first line with at least two of them. *)
Definition ascii_letter (b : N) : Prop := (65 <= b <= 90 \/ 97 <= b <= 122)%N.
Definition name_byte (b : N) : Prop := (ascii_letter b \/ 48 <= b <= 57 \/ b = 95 \/ b = 45)%N.
Definition header_name (n : bytes) : Prop :=
  exists c l, n = c :: l /\ ascii_letter c /\ Forall name_byte l.
(** The fields [fs], separated by commas, on a line that ends with a newline, with
    the text, or with a comma and the text. *)
Definition csv_line (field : bytes -> Prop) (s : bytes) : Prop :=
  exists n ns t, ns <> [] /\ Forall field (n :: ns) /\ s = n ++ flat_map (fun n => 44%N :: n) ns ++ t /\
    ((exists t', t = 10%N :: t') \/ t = [] \/ t = [44%N]).
Definition header_line : bytes -> Prop := csv_line header_name.
(** A field without commas, quotes and newlines, or a field in quotes without
    quotes. *)
Definition csv_field (f : bytes) : Prop :=
  Forall (fun b => b <> 44 /\ b <> 34 /\ b <> 10)%N f \/ exists c, f = 34%N :: c ++ [34%N] /\ Forall (fun b => b <> 34)%N c.

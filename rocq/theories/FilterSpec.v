(** Specification for C69: queries that look at one item at a time. *)
From Coq Require Import List ZArith Arith.
From Verif Require Import Base Tokens JsonSpec PathAst StreamSpec.
Import ListNotations.

(** Child segments that select by name, by position from the start, or all. *)
Definition passing_segment (seg : jsegment) : Prop := match seg with JSegment desc sels => desc = false /\ Forall direct_selector sels end.

(** The value [y] is [d] levels below [x]: [x] itself for 0, an item of [x] for 1. *)
Inductive level : nat -> jval -> jval -> Prop :=
| lv_here : forall x, level 0 x x
| lv_arr : forall d l e x y, In x l -> level d x y -> level (S d) (JArr l e) y
| lv_obj : forall d l e k x y, In (k, x) l -> level d x y -> level (S d) (JObj l e) y.
(** What is [d] levels below [x] has at most [B] tokens. *)
Definition small_below (d B : nat) (x : jval) : Prop := forall y, level d x y -> length (toks y) <= B.

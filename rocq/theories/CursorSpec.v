(** Specification of cursors: independent readers of one immutable list. *)
From Coq Require Import List.
From Verif Require Import Base Tokens CursorModel.

(** [sp_read]: how many tokens of the stream have been asked for so far.
    [sp_cur]: for every cursor ever created, its position in the stream, or
    [None] once it is detached. *)
Record readers := mkReaders { sp_read : nat; sp_cur : list (option nat) }.

Definition spec_step (full : list token) (s : readers) (o : op) : readers * obs :=
  match o with
  | ONew =>
      (mkReaders (sp_read s) (sp_cur s ++ [Some (sp_read s)]),
       ObsCursor (length (sp_cur s)))
  | OClone c =>
      match nth_error (sp_cur s) c with
      | Some (Some n) =>
          (mkReaders (sp_read s) (sp_cur s ++ [Some n]),
           ObsCursor (length (sp_cur s)))
      | Some None => (s, ObsCursor c)
      | None => (s, ObsInvalid)
      end
  | ODetach c =>
      match nth_error (sp_cur s) c with
      | Some _ => (mkReaders (sp_read s) (upd (sp_cur s) c None), ObsUnit)
      | None => (s, ObsInvalid)
      end
  | ONext c =>
      match nth_error (sp_cur s) c with
      | Some (Some n) =>
          match nth_error full n with
          | Some t =>
              (mkReaders (Nat.max (sp_read s) (S n)) (upd (sp_cur s) c (Some (S n))),
               ObsToken (Some t))
          | None => (mkReaders (sp_read s) (upd (sp_cur s) c None), ObsToken None)
          end
      | Some None => (s, ObsToken None)
      | None => (s, ObsInvalid)
      end
  end.

Fixpoint spec_run (full : list token) (s : readers) (ops : list op) : readers * list obs :=
  match ops with
  | [] => (s, [])
  | o :: r =>
      let '(s1, x) := spec_step full s o in
      let '(s2, xs) := spec_run full s1 r in
      (s2, x :: xs)
  end.

(** How many of the operations read a token again that another cursor has
    already read from the stream. *)
Fixpoint rereads (full : list token) (s : readers) (ops : list op) : nat :=
  match ops with
  | [] => 0
  | o :: r =>
      (match o with
       | ONext c =>
           match nth_error (sp_cur s) c with
           | Some (Some n) => if Nat.ltb n (sp_read s) then 1 else 0
           | _ => 0
           end
       | _ => 0
       end) + rereads full (fst (spec_step full s o)) r
  end.

(** Two different cursors are live. *)
Definition two_live (s : readers) : Prop :=
  exists i j m n, i <> j /\
    nth_error (sp_cur s) i = Some (Some m) /\ nth_error (sp_cur s) j = Some (Some n).

(** The cursors of [s] are still live after [ops]: no operation detaches one
    and none runs into the end of the stream. *)
Fixpoint keeps_all (full : list token) (s : readers) (ops : list op) : Prop :=
  match ops with
  | [] => True
  | o :: r =>
      (match o with
       | ODetach _ => False
       | ONext _ => snd (spec_step full s o) <> ObsToken None
       | _ => True
       end) /\ keeps_all full (fst (spec_step full s o)) r
  end.

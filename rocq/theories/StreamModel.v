(** When tokens are written: the log of the copies that a program of
    IterModel.v makes.

    The only operation that puts tokens on the output is Value.Copy
    (streamiterator.go:67-69, 151-174), the model's [ICopy]; the output stream is
    an unbuffered channel (token/pipeline.go:21, 36), so what has been copied has
    been handed on.  For each copy the log has the tokens that it put
    on the output and the tokens of the input that had not been received yet
    when it ended. *)
From Coq Require Import List ZArith Bool.
From Verif Require Import Base Tokens CursorModel IterModel.

(** The input, source 0 of [start] (IterModel.v): what is still to be received. *)
Definition unread (h : heap) : list token := nth 0 (h_src h) [].

Section Growth.
Variable grow : Z -> Z -> Z.

(** Follows [irun]; nothing is logged after a panic or when the fuel is out. *)
Definition after {A B} (m : hm A) (h : heap) (f : A -> heap -> list B) : list B :=
  match m h with Ok (h', a) => f a h' | _ => [] end.

Fixpoint emits {A} (n : nat) (p : iprog A) (h : heap) : list (list token * list token) :=
  match p with
  | IRet _ | IPanic | IFuel => []
  | IAdvance v k => after (ldo c <- coll_of v ; advance grow n c) h (fun b => emits n (k b))
  | ICurrent v k => after (current_value v) h (fun x => emits n (k x))
  | IKeyVal v k => after (current_key_val v) h (fun x => emits n (k x))
  | IClone v k => after (clone grow v) h (fun x => emits n (k x))
  | IDetach v k => after (detach grow v) h (fun _ => emits n k)
  | ICopy v k => after (copy grow n v) h (fun ts h' => (ts, unread h') :: emits n (k ts) h')
  | IDiscard v k => after (discard grow n v) h (fun _ => emits n k)
  | IIterNew d k => after (iter_from_data d) h (fun i => emits n (k i))
  | IIterAdvance i k => after (iter_advance grow n i) h (fun b => emits n (k b))
  | IIterCurrent i k => after (iter_current i) h (fun x => emits n (k x))
  | IIterClone i k => after (iter_clone grow i) h (fun j => emits n (k j))
  | IIterDetach i k => after (iter_detach grow i) h (fun _ => emits n k)
  end.
End Growth.

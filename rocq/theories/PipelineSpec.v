(** Specification of pipelines: what the stages compute one after the other, with
    no concurrency. *)
From Coq Require Import List.
From Verif Require Import Base Tokens PipelineModel.
Import ListNotations.

(** Given the tokens [l] and then the end of the input, the stage sends the tokens
    [o] and returns [r]; it makes [n] steps. *)
Inductive alone {R} : nat -> proc R -> list token -> list token -> R -> Prop :=
| alone_token : forall n k t l o r, alone n (k (Some t)) l o r -> alone (S n) (Receive k) (t :: l) o r
| alone_end : forall n k o r, alone n (k None) [] o r -> alone (S n) (Receive k) [] o r
| alone_send : forall n t p l o r, alone n p l o r -> alone (S n) (Send t p) l (t :: o) r
| alone_compute : forall n p l o r, alone n p l o r -> alone (S n) (Compute p) l o r
| alone_return : forall r l, alone 1 (Return r) l [] r.

(** Each stage is given what the one before has sent. *)
Inductive sequence {R} : nat -> list (proc R) -> list token -> list token -> list R -> Prop :=
| sequence_nil : forall l, sequence 0 [] l l []
| sequence_cons : forall n m p ps l l1 o r rs, alone n p l l1 r -> sequence m ps l1 o rs ->
    sequence (n + m) (p :: ps) l o (r :: rs).

(** What the last goroutine, the sink, has returned, if it has. *)
Definition sink {R} (c : list (goroutine R)) : option R :=
  match last (map Some c) None with Some (Closed r) => Some r | _ => None end.
(** No step is possible. *)
Definition stopped {R} (c : list (goroutine R)) : Prop := forall o c', ~ step c o c'.

(** A stage that returns only after it has read its input to the end. *)
CoInductive reads_all {R} : proc R -> Prop :=
| reads_token : forall k, (forall t, reads_all (k (Some t))) -> reads_all (Receive k)
| reads_send : forall t p, reads_all p -> reads_all (Send t p)
| reads_compute : forall p, reads_all p -> reads_all (Compute p).
(** A goroutine that has returned. *)
Definition finished {R} (g : goroutine R) : Prop := exists r, g = Closed r.

(** Model of /repo/token/pipeline.go: goroutines connected by channels.

    A goroutine is represented by what it will do: receive from its input
    channel, send on its output channel, compute, return.  Nothing is said of
    when it does so: that is up to the schedule. *)
From Coq Require Import List.
From Verif Require Import Base Tokens.
Import ListNotations.

(** The code of a stage: the methods [StreamSource.Produce],
    [StreamTransformer.Transform] and [StreamSink.Consume] (pipeline.go:5-15).
    [R] is what they return (an error or nothing). *)
CoInductive proc (R : Type) : Type :=
| Receive (k : option token -> proc R)  (* <-in; None when it is closed and empty *)
| Send (t : token) (p : proc R)         (* out <- t; tokenstream.go:49-51 [Put] *)
| Compute (p : proc R)                  (* anything that concerns no channel *)
| Return (r : R).
Arguments Receive {R} k.
Arguments Send {R} t p.
Arguments Compute {R} p.
Arguments Return {R} r.

(** A goroutine started by [TransformStream] or [StartStream]
    (pipeline.go:20-45), or the caller of [ConsumeStream] (47-49).  When the
    method has returned, the deferred call closes the output channel, after
    handleError was called with the error, if any (39-42). *)
Inductive goroutine (R : Type) : Type :=
| Running (p : proc R)
| Closed (r : R).
Arguments Running {R} p.
Arguments Closed {R} r.

(** The goroutines of a pipeline, from the source to the sink.  The output
    channel of each one is the input channel of the next.  The channels are made
    by [make(chan Token)] (pipeline.go:21, 36), so they hold no token: to send
    and to receive is one step.  What the last goroutine sends is the output of
    the pipeline. *)
Inductive step {R} : list (goroutine R) -> list token -> list (goroutine R) -> Prop :=
| step_compute : forall p c, step (Running (Compute p) :: c) [] (Running p :: c)
| step_return : forall r c, step (Running (Return r) :: c) [] (Closed r :: c)
| step_send : forall t p k c, step (Running (Send t p) :: Running (Receive k) :: c) [] (Running p :: Running (k (Some t)) :: c)
| step_closed : forall r k c, step (Closed r :: Running (Receive k) :: c) [] (Closed r :: Running (k None) :: c)
| step_output : forall t p, step [Running (Send t p)] [t] [Running p]
| step_next : forall g c o c', step c o c' -> step (g :: c) o (g :: c').

(** The schedules: which steps are made, in which order. *)
Inductive steps {R} : nat -> list (goroutine R) -> list token -> list (goroutine R) -> Prop :=
| steps_none : forall c, steps 0 c [] c
| steps_more : forall n c o c' os c'', step c o c' -> steps n c' os c'' -> steps (S n) c (o ++ os) c''.

(** The pipeline of the stages [ps], the source being the first and the sink the
    last.  The source has no input; this is modelled by a channel that is
    closed. *)
Definition pipeline {R} (r0 : R) (ps : list (proc R)) : list (goroutine R) := Closed r0 :: map Running ps.

(** The stages of pipelines, as goroutines (PipelineModel.v). *)
From Coq Require Import List ZArith.
From Verif Require Import Base Tokens ScannerModel ProgModel PipelineModel.
Import ListNotations.



(** for item := range in { body }; rest, where the body sends tokens and changes
    the variable [s].  [out] are the tokens the body has still to send. *)
CoFixpoint range_loop {R S} (body : S -> token -> S * list token) (rest : proc R) (s : S) (out : list token) : proc R :=
  match out with
  | t :: out' => Send t (range_loop body rest s out')
  | [] => Receive (fun o => match o with
                            | None => rest
                            | Some t => let (s1, out1) := body s t in range_loop body rest s1 out1
                            end)
  end.
Definition range {R S} (body : S -> token -> S * list token) (s : S) (rest : proc R) : proc R := range_loop body rest s [].

(** transform/builtin.go:85-91 [JoinStream.Transform]. *)
Definition join_stage {R} (r : R) : proc R :=
  Send TStartArr (range (fun (_ : unit) t => (tt, [t])) tt (Send TEndArr (Return r))).
(** builtin.go:34-52 [MaxDepthFilter.Transform]. *)
Definition depth_body (max depth : Z) (item : token) : Z * list token :=
  let post_incr := match item with TStartArr | TStartObj => 1 | _ => 0 end%Z in
  let depth1 := match item with TEndArr | TEndObj => depth - 1 | _ => depth end%Z in
  ((depth1 + post_incr)%Z,
   (if (depth1 <=? max)%Z then [item] else []) ++ (if ((depth1 =? max) && (0 <? post_incr))%Z%bool then [TElision] else [])).
Definition depth_stage {R} (r : R) (max : Z) : proc R := range (depth_body max) 0%Z (Return r).
(** builtin.go:98-102 [TraceStream.Transform]. *)
Definition trace_stage {R} (r : R) : proc R := range (fun (_ : unit) _ => (tt, [])) tt (Return r).

(** A sink that hands every token on: what it sends is what it was given.  It
    stands for the encoders, which read to the end of the input. *)
Definition copy_stage {R} (r : R) : proc R := range (fun (_ : unit) t => (tt, [t])) tt (Return r).

(** A decoder as a source (encoding/json/decoder.go, encoding/jpv/decoder.go,
    encoding/csv/decoder.go [Produce]): a program over the scanner. *)
CoFixpoint forever {R} : proc R := Compute forever.
Section Source.
  Variable S : Type.
  Variable scan : S -> sop -> res (S * sobs).
  Fixpoint source_stage {A} (s : S) (p : prog A) : proc A :=
    match p with
    | Ret a => Return a
    | Op o k => match scan s o with
                | Ok (s1, x) => Compute (source_stage s1 (k x))
                | _ => forever (* excluded in the theorems *)
                end
    | Emit t k => Send t (source_stage s k)
    | Stuck => forever
    end.
End Source.
Arguments source_stage {S} scan {A} s p.

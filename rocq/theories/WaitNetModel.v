(** The goroutines of a jp command that waits for input: NetModel.v with a decoder
    whose reader has delivered some bytes and has no more for the time being. *)
From Coq Require Import List ZArith NArith Bool.
From Verif Require Import Base Tokens ScannerModel ProgModel JsonDecModel JpvDecModel CursorModel IterModel PathModel PathTop
  PipelineModel PipelineStages MainModel CliModel NetModel WaitModel.
Import ListNotations.

(** As [source_stage] (PipelineStages.v) with [cstep]; a call of a scanner method
    that asks the reader for more than it has delivered does not return. *)
Fixpoint waiting_stage {A} (s : cst) (p : prog A) : proc A :=
  match p with
  | Ret a => Return a
  | Op o k => match cstep s o with
              | Ok (s1, x) => if asked s1 then forever else Compute (waiting_stage s1 (k x))
              | _ => forever
              end
  | Emit t k => Send t (waiting_stage s k)
  | Stuck => forever
  end.

Section Network.
Variable find : bytes -> bytes -> option (nat * nat).
Variable grow : Z -> Z -> Z.
(** main.go:192-247, as [network] (NetModel.v), with a JSON decoder that has been
    given [chunks]. *)
Definition waiting_network (n f : nat) (p : plan) (chunks : list bytes) : list (goroutine (dres unit)) :=
  PipelineModel.pipeline (DOk tt)
    (waiting_stage (new_scanner (delivering chunks) jp_scanner) (produce f) :: map (stage_goroutine find grow n f) (pl_stages p) ++ [copy_stage (DOk tt)]).
End Network.

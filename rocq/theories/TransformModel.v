(** Model of the transformers of /repo/transform/builtin.go that work on
    tokens.  A transformer maps the tokens received on the channel [in] to the
    tokens put on [out]. *)
From Coq Require Import List ZArith Bool.
From Verif Require Import Base Tokens.
Local Open Scope Z_scope.

(** builtin.go:36-51: the loop of [MaxDepthFilter.Transform], with the current
    value of the variable [depth]. *)
Fixpoint max_depth_loop (max depth : Z) (ts : list token) : list token :=
  match ts with
  | [] => []
  | item :: ts' =>
      let post_incr := match item with TStartArr | TStartObj => 1 | _ => 0 end in
      let depth1 := match item with TEndArr | TEndObj => depth - 1 | _ => depth end in
      (if depth1 <=? max then [item] else [])
      ++ (if (depth1 =? max) && (0 <? post_incr) then [TElision] else [])
      ++ max_depth_loop max (depth1 + post_incr) ts'
  end.

(** builtin.go:34-52 [MaxDepthFilter.Transform]. *)
Definition max_depth_filter (max : Z) (ts : list token) : list token := max_depth_loop max 0 ts.

(** builtin.go:85-91 [JoinStream.Transform]. *)
Definition join_stream (ts : list token) : list token := [TStartArr] ++ ts ++ [TEndArr].

(** builtin.go:98-102 [TraceStream.Transform]: everything goes to the log. *)
Definition trace_stream (ts : list token) : list token := [].

(** Programs that use a scanner and emit tokens.

    The decoders (encoding/json, encoding/jpv, encoding/csv) are written
    against the methods of *scanner.Scanner and a channel of tokens.  They are
    modelled as values of type [prog], which can be run on any scanner model:
    on the buffered one (ScannerModel) and on the plain one (ScannerSpec). *)
From Coq Require Import List NArith Bool.
From Verif Require Import Base Tokens ScannerModel.

Inductive prog (A : Type) : Type :=
| Ret (a : A)                            (* return *)
| Op (o : sop) (k : sobs -> prog A)      (* call a scanner method *)
| Emit (t : token) (k : prog A)          (* out <- t *)
| Stuck.                                 (* model only: loop bound exhausted *)
Arguments Ret {A} a.
Arguments Op {A} o k.
Arguments Emit {A} t k.
Arguments Stuck {A}.

Fixpoint pbind {A B} (m : prog A) (f : A -> prog B) : prog B :=
  match m with
  | Ret a => f a
  | Op o k => Op o (fun x => pbind (k x) f)
  | Emit t k => Emit t (pbind k f)
  | Stuck => Stuck
  end.

Declare Scope prog_scope.
Delimit Scope prog_scope with prog.
Notation "'let!' x := m 'in' f" := (pbind m (fun x => f))
  (at level 200, x pattern, m at level 100, f at level 200) : prog_scope.

(** Errors returned by the decoders: io.EOF, a syntax error, or an error of
    the reader.  Error texts are not modelled. *)
Inductive derr := DEof | DSyntax | DIo.

(** Go's [(A, error)]. *)
Inductive dres (A : Type) : Type := DOk (a : A) | DErr (e : derr).
Arguments DOk {A} a.
Arguments DErr {A} e.

(** [x, err := m; if err != nil { return err }; f x]. *)
Definition ebind {A B} (m : prog (dres A)) (f : A -> prog (dres B)) : prog (dres B) :=
  pbind m (fun r => match r with DOk a => f a | DErr e => Ret (DErr e) end).
Notation "'try!' x := m 'in' f" := (ebind m (fun x => f))
  (at level 200, x pattern, m at level 100, f at level 200) : prog_scope.

Section Run.
Variable S : Type.
Variable step : S -> sop -> res (S * sobs).

(** Run a program: final scanner, tokens emitted, result. *)
Fixpoint prun {A} (s : S) (p : prog A) : res (S * list token * A) :=
  match p with
  | Ret a => Ok (s, [], a)
  | Op o k => match step s o with
              | Ok (s1, x) => prun s1 (k x)
              | Panic => Panic
              | OutOfFuel => OutOfFuel
              end
  | Emit t k => match prun s k with
                | Ok (s1, ts, a) => Ok (s1, t :: ts, a)
                | Panic => Panic
                | OutOfFuel => OutOfFuel
                end
  | Stuck => OutOfFuel
  end.
End Run.
Arguments prun {S} step {A} s p.

(** The value returned by a byte-returning scanner method. *)
Definition byte_of (x : sobs) : dres N :=
  match x with OB b => DOk b | _ => DErr DIo end.

Definition op_byte (o : sop) : prog (dres N) := Op o (fun x => Ret (byte_of x)).
Definition op_unit (o : sop) : prog unit := Op o (fun _ => Ret tt).
Definition end_token : prog bytes :=
  Op SEnd (fun x => match x with OTok t => Ret t | _ => Stuck end).

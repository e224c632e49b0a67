(** Specification of the scanner: reading a plain list of bytes. *)
From Coq Require Import List Arith NArith Bool.
From Verif Require Import Base ScannerModel.

(** [a_in]: the bytes not yet consumed; [a_fin]: what follows them (end of
    input or a read error); [a_last]: the byte just consumed, if going back
    over it is allowed; [a_prev]: the position before it; [a_tok]: the bytes
    consumed since StartToken; [a_eof]: how often end of input was read and not
    taken back. *)
Record ast := mkAst {
  a_in : bytes;
  a_fin : rerr;
  a_pos : pos;
  a_prev : option pos;
  a_last : option N;
  a_tok : option bytes;
  a_eof : nat
}.

Definition a_init (b : bytes) (fin : rerr) : ast :=
  mkAst b fin (mkPos 0 0) None None None 0.

Definition tok_app (t : option bytes) (b : bytes) : option bytes :=
  match t with Some x => Some (x ++ b) | None => None end.

(** The longest white space prefix, as a number of bytes. *)
Fixpoint ws_len (l : bytes) : nat :=
  match l with
  | b :: r => if N.eqb b 10 || is_blank b then S (ws_len r) else 0
  | [] => 0
  end.

Definition a_end_obs (s : ast) : sobs :=
  match a_fin s with RdEOF => OB EOFb | RdFail => OErr end.

(** Skip white space. *)
Definition a_skip (s : ast) : ast :=
  let n := ws_len (a_in s) in
  let w := firstn n (a_in s) in
  mkAst (skipn n (a_in s)) (a_fin s) (fold_left bump_pos w (a_pos s)) (a_prev s)
        (match w with [] => a_last s | _ => None end) (tok_app (a_tok s) w) (a_eof s).

Definition astep (s : ast) (o : sop) : res (ast * sobs) :=
  match o with
  | SRead =>
      match a_in s with
      | b :: r =>
          Ok (mkAst r (a_fin s) (bump_pos (a_pos s) b) (Some (a_pos s)) (Some b)
                    (tok_app (a_tok s) [b]) (a_eof s), OB b)
      | [] =>
          match a_fin s with
          | RdEOF => Ok (mkAst [] (a_fin s) (a_pos s) (a_prev s) (a_last s) (a_tok s)
                               (S (a_eof s)), OB EOFb)
          | RdFail => Ok (s, OErr)
          end
      end
  | SPeek =>
      match a_in s with
      | b :: _ => Ok (s, OB b)
      | [] => Ok (s, a_end_obs s)
      end
  | SSkipPeek =>
      let s1 := a_skip s in
      match a_in s1 with
      | b :: _ => Ok (s1, OB b)
      | [] => Ok (s1, a_end_obs s1)
      end
  | SSkipRead =>
      let s1 := a_skip s in
      match a_in s1 with
      | b :: r => Ok (mkAst r (a_fin s1) (bump_pos (a_pos s1) b) (a_prev s1) (Some b)
                            (tok_app (a_tok s1) [b]) (a_eof s1), OB b)
      | [] => Ok (s1, a_end_obs s1)
      end
  | SBack =>
      match a_last s, a_prev s with
      | Some b, Some pr =>
          match a_eof s with
          | S e => Ok (mkAst (a_in s) (a_fin s) (a_pos s) (a_prev s) (a_last s) (a_tok s) e,
                       OUnit)
          | O => Ok (mkAst (b :: a_in s) (a_fin s) pr None None
                           (match a_tok s with Some t => Some (removelast t) | None => None end)
                           0, OUnit)
          end
      | _, _ => Panic
      end
  | SStart =>
      match a_tok s with
      | Some _ => Panic
      | None => Ok (mkAst (a_in s) (a_fin s) (a_pos s) (a_prev s) None (Some []) (a_eof s),
                    OPos (a_pos s))
      end
  | SEnd =>
      match a_tok s with
      | Some t => Ok (mkAst (a_in s) (a_fin s) (a_pos s) (a_prev s) (a_last s) None (a_eof s),
                      OTok t)
      | None => Panic
      end
  | SPos => Ok (s, OPos (a_pos s))
  end.

Fixpoint arun (s : ast) (ops : list sop) : res (ast * list sobs) :=
  match ops with
  | [] => Ok (s, [])
  | o :: r =>
      do x <- astep s o ;
      do y <- arun (fst x) r ;
      Ok (fst y, snd x :: snd y)
  end.

(** No run of more than [k] (first) or 99 (later) empty reads. *)
Fixpoint ok_runs (k : nat) (cs : list bytes) : bool :=
  match cs with
  | [] => true
  | [] :: r => match k with O => false | S k' => ok_runs k' r end
  | _ :: r => ok_runs 99 r
  end.

(** Position reached after consuming the bytes [l], from first principles:
    the number of newlines, and the number of counted bytes after the last
    newline.  The scanner counts every byte below 0xC0. *)
Definition count (f : N -> bool) (l : bytes) : nat := length (filter f l).

Fixpoint after_last_newline (l : bytes) : bytes :=
  match l with
  | [] => []
  | b :: r =>
      if existsb (N.eqb 10) r then after_last_newline r
      else if N.eqb b 10 then r else b :: r
  end.

Definition pos_of (l : bytes) : pos :=
  mkPos (count (N.eqb 10) l) (count (fun b => N.ltb b 192) (after_last_newline l)).

(** The number of characters of a UTF-8 text: bytes that are not continuation
    bytes. *)
Definition utf8_chars (l : bytes) : nat :=
  count (fun b => negb (N.leb 128 b && N.ltb b 192)) l.

(** Texts made of characters of one or two bytes. *)
Inductive narrow_text : bytes -> Prop :=
| nt_nil : narrow_text []
| nt_one : forall b l, (b < 128)%N -> narrow_text l -> narrow_text (b :: l)
| nt_two : forall b c l, (192 <= b < 224)%N -> (128 <= c < 192)%N ->
    narrow_text l -> narrow_text (b :: c :: l).

(** Every Back directly undoes a successful Read: since the last Read, which
    did not fail, there was no other Back and no SkipSpaceAndRead. *)
Definition rd_after (rd : bool) (o : sop) (x : sobs) : bool :=
  match o, x with
  | SRead, OErr => false
  | SRead, _ => true
  | SSkipRead, _ => false
  | SBack, _ => false
  | _, _ => rd
  end.

Fixpoint backs_follow_reads (rd : bool) (ops : list sop) (xs : list sobs) : bool :=
  match ops, xs with
  | o :: r, x :: ys =>
      match o with SBack => rd | _ => true end && backs_follow_reads (rd_after rd o x) r ys
  | _, _ => true
  end.

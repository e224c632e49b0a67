(** Model of the tokeniser of JSONPath queries:
    /repo/internal/jsonpath/parser/lexer.go.

    The file is a table of token definitions: a name, a regular expression and,
    for one of them, a function that cuts the token off.  It is given to
    grammar.SimpleTokeniser, which is not part of the repository and whose
    source is not available here.  Assumption: at every position the token is that
    of the first definition of the table whose pattern matches there (the patterns
    are alternatives of one regular expression, and Go prefers alternatives on the
    left); its text is what the pattern matches or what the function returns;
    tokens without a name are dropped; it is an error if nothing matches.

    Go matches regular expressions on characters, the model on bytes.  The
    patterns only tell characters below U+0080 apart, every byte of the others is
    at least 0x80, and bytes that are no UTF-8 are read as U+FFFD: [high] stands
    for the ranges from \x80, \x{D7FF}, \x{E000} to \x{10FFFF}. *)
From Coq Require Import List NArith Bool.
From Verif Require Import Base.
Local Open Scope N_scope.

(* ------------------------------------------------------------------ *)
(** Regular expressions, and how Go matches them: alternatives from left to
    right, repetitions as often as possible, going back when what follows does
    not match. *)
Inductive rx :=
| RxNone                              (* the empty string *)
| RxIn (f : N -> bool)                (* a character of a class *)
| RxSeq (a b : rx)
| RxAlt (a b : rx)
| RxStar (a : rx)
| RxWordEnd                           (* \b *)
| RxTextEnd.                          (* $ *)

(** \w, for \b. *)
Definition between (lo hi b : N) : bool := (lo <=? b) && (b <=? hi).
Definition word_char (b : N) : bool := between 48 57 b || between 65 90 b || between 97 122 b || (b =? 95).
Definition wordy (o : option N) : bool := match o with Some b => word_char b | None => false end.

Section Match.
  Context {X : Type}.
  (** [prev] is the character before the text [s]; [k] goes on with the last
      character matched and the rest. *)
  Fixpoint rx_match (r : rx) (prev : option N) (s : bytes) (k : option N -> bytes -> option X) : option X :=
    match r with
    | RxNone => k prev s
    | RxIn f => match s with b :: s' => if f b then k (Some b) s' else None | [] => None end
    | RxSeq a b => rx_match a prev s (fun p s' => rx_match b p s' k)
    | RxAlt a b => match rx_match a prev s k with Some x => Some x | None => rx_match b prev s k end
    | RxStar a =>
        (* at most as often as there are characters *)
        (fix loop (n : nat) (p : option N) (s : bytes) : option X :=
           match n with
           | O => k p s
           | S n' => match rx_match a p s (loop n') with Some x => Some x | None => k p s end
           end) (length s) prev s
    | RxWordEnd => if xorb (wordy prev) (wordy (hd_error s)) then k prev s else None
    | RxTextEnd => match s with [] => k prev s | _ => None end
    end.
End Match.

(** What is left after the match of [r] at the beginning of [s]. *)
Definition rx_rest (r : rx) (s : bytes) : option bytes := rx_match r None s (fun _ s' => Some s').

Definition rx_char (c : N) : rx := RxIn (N.eqb c).
Fixpoint rx_text (l : bytes) : rx := match l with [] => RxNone | [c] => rx_char c | c :: l' => RxSeq (rx_char c) (rx_text l') end.
Definition rx_opt (a : rx) : rx := RxAlt a RxNone.
Definition rx_plus (a : rx) : rx := RxSeq a (RxStar a).
Definition rx_any_of (l : bytes) : rx := RxIn (fun b => existsb (N.eqb b) l).
Fixpoint rx_alts (l : list rx) : rx := match l with [] => RxNone | [a] => a | a :: l' => RxAlt a (rx_alts l') end.
Fixpoint rx_seqs (l : list rx) : rx := match l with [] => RxNone | [a] => a | a :: l' => RxSeq a (rx_seqs l') end.

(* ------------------------------------------------------------------ *)
(** The patterns. *)
Definition high (b : N) : bool := 128 <=? b.
Definition is_digit (b : N) : bool := between 48 57 b.
Definition is_digit1 (b : N) : bool := between 49 57 b.
Definition is_hex (b : N) : bool := between 48 57 b || between 65 70 b || between 97 102 b.
Definition is_lower (b : N) : bool := between 97 122 b.
Definition is_letter (b : N) : bool := between 97 122 b || between 65 90 b.
Definition is_space (b : N) : bool := (b =? 9) || (b =? 10) || (b =? 12) || (b =? 13) || (b =? 32).
(** [a-zA-Z_\x80-...] and [0-9a-zA-Z_\x80-...]. *)
Definition name_first (b : N) : bool := is_letter b || (b =? 95) || high b.
Definition name_char (b : N) : bool := is_digit b || is_letter b || (b =? 95) || high b.

(** lexer.go:7: \s+ *)
Definition rx_space : rx := rx_plus (RxIn is_space).
(** lexer.go:11: null\b *)
Definition rx_null : rx := RxSeq (rx_text [110; 117; 108; 108]) RxWordEnd.
(** lexer.go:15: true\b|false\b *)
Definition rx_bool : rx :=
  RxAlt (RxSeq (rx_text [116; 114; 117; 101]) RxWordEnd) (RxSeq (rx_text [102; 97; 108; 115; 101]) RxWordEnd).
(** lexer.go:19: [a-z][a-z_0-9]* followed by an opening parenthesis *)
Definition rx_function : rx :=
  rx_seqs [RxIn is_lower; RxStar (RxIn (fun b => is_lower b || (b =? 95) || is_digit b)); rx_char 40].
(** lexer.go:23: ==|!=|<=|>=|<|> *)
Definition rx_comparison : rx :=
  rx_alts [rx_text [61; 61]; rx_text [33; 61]; rx_text [60; 61]; rx_text [62; 61]; rx_text [60]; rx_text [62]].
(** lexer.go:27 and 31. *)
Definition rx_descendant_name : rx := rx_seqs [rx_char 46; rx_char 46; RxIn name_first; RxStar (RxIn name_char)].
Definition rx_member_name : rx := rx_seqs [rx_char 46; RxIn name_first; RxStar (RxIn name_char)].
(** lexer.go:35: &&, ||, .. followed by a star or an opening bracket, a dot and a
    star, and one of $ * : ? ! ( ) @ [ ] and the comma *)
Definition rx_op : rx :=
  rx_alts [rx_text [38; 38]; rx_text [124; 124]; rx_seqs [rx_char 46; rx_char 46; rx_any_of [42; 91]]; rx_text [46; 42];
           rx_any_of [36; 42; 58; 63; 33; 40; 41; 64; 91; 93; 44]].
(** lexer.go:39: (?:0|-?[1-9][0-9]* )(?:[^.eE0-9]|$) *)
Definition rx_int : rx :=
  RxSeq (RxAlt (rx_char 48) (rx_seqs [rx_opt (rx_char 45); RxIn is_digit1; RxStar (RxIn is_digit)]))
        (RxAlt (RxIn (fun b => negb ((b =? 46) || (b =? 101) || (b =? 69) || is_digit b))) RxTextEnd).
(** lexer.go:55: (?:-?0|-?[1-9][0-9]* )(?:\.[0-9]+)?(?:[eE][+-]?[0-9]+)?\b *)
Definition rx_number : rx :=
  rx_seqs [RxAlt (RxSeq (rx_opt (rx_char 45)) (rx_char 48)) (rx_seqs [rx_opt (rx_char 45); RxIn is_digit1; RxStar (RxIn is_digit)]);
           rx_opt (RxSeq (rx_char 46) (rx_plus (RxIn is_digit)));
           rx_opt (rx_seqs [rx_any_of [101; 69]; rx_opt (rx_any_of [43; 45]); rx_plus (RxIn is_digit)]);
           RxWordEnd].
(** lexer.go:59 and 63; [q] is the quote. *)
Definition rx_string (q : N) : rx :=
  let u := [rx_char 92; rx_char 117] in
  rx_seqs [rx_char q;
    RxStar (rx_alts [
      RxSeq (rx_char 92) (rx_any_of [98; 102; 110; 114; 116; 47; 92; q]);
      rx_seqs (u ++ [RxIn (fun b => is_hex b && negb ((b =? 68) || (b =? 100))); RxIn is_hex; RxIn is_hex; RxIn is_hex]);
      rx_seqs (u ++ [rx_any_of [68; 100]; RxIn (between 48 55); RxIn is_hex; RxIn is_hex]);
      rx_seqs (u ++ [rx_any_of [68; 100]; rx_any_of [56; 57; 65; 66; 97; 98]; RxIn is_hex; RxIn is_hex] ++
               u ++ [rx_any_of [68; 100]; RxIn (fun b => between 67 70 b || between 99 102 b); RxIn is_hex; RxIn is_hex]);
      RxIn (fun b => (32 <=? b) && negb (b =? q) && negb (b =? 92))]);
    rx_char q].

(* ------------------------------------------------------------------ *)
(** The types of tokens; blanks have no name. *)
Inductive lextype := LxBlank | LxNull | LxBool | LxFun | LxCmp | LxDesc | LxMember | LxOp | LxInt | LxNumber | LxDouble | LxSingle.
Notation lextok := (lextype * bytes)%type.

(** lexer.go:40-51: [Special]. *)
Fixpoint digits_prefix (s : bytes) : bytes :=
  match s with b :: r => if is_digit b then b :: digits_prefix r else [] | [] => [] end.
Definition int_special (s : bytes) : bytes :=
  match s with b :: r => if b =? 45 then b :: digits_prefix r else digits_prefix s | [] => [] end.

(** lexer.go:5-65: the table. *)
Definition lex_table : list (lextype * rx * option (bytes -> bytes)) :=
  [(LxBlank, rx_space, None); (LxNull, rx_null, None); (LxBool, rx_bool, None); (LxFun, rx_function, None); (LxCmp, rx_comparison, None);
   (LxDesc, rx_descendant_name, None); (LxMember, rx_member_name, None); (LxOp, rx_op, None); (LxInt, rx_int, Some int_special);
   (LxNumber, rx_number, None); (LxDouble, rx_string 34, None); (LxSingle, rx_string 39, None)].

(** The first definition that matches: the token and the rest. *)
Fixpoint lex_first (table : list (lextype * rx * option (bytes -> bytes))) (s : bytes) : option (lextok * bytes) :=
  match table with
  | [] => None
  | (ty, r, special) :: table' =>
      match rx_rest r s with
      | None => lex_first table' s
      | Some rest =>
          let text := match special with Some f => f s | None => firstn (length s - length rest) s end in
          Some ((ty, text), skipn (length text) s)
      end
  end.
Definition lex_one (s : bytes) : option (lextok * bytes) := lex_first lex_table s.

(** [n] bounds the number of tokens; no token is empty. *)
Fixpoint lex_all (n : nat) (s : bytes) : option (list lextok) :=
  match s with
  | [] => Some []
  | _ =>
      match n with
      | O => None
      | S n' =>
          match lex_one s with
          | None => None
          | Some (t, rest) =>
              match lex_all n' rest with
              | None => None
              | Some ts => Some match fst t with LxBlank => ts | _ => t :: ts end
              end
          end
      end
  end.
Definition tokenise_query (s : bytes) : option (list lextok) := lex_all (length s) s.

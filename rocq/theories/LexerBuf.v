(** * LexerBuf: the push-back buffer of the lexer as written in Go *)
From Coq Require Import List Ascii String ZArith Lia Bool.
From Verif Require Import Base Lexer.
Import ListNotations.

(** One call of [r.reader.Read(buf)] with a one-byte buffer
    (lexer.go:31-32), as the contract of io.Reader allows:
    a byte; a byte together with an error; nothing without an error; an error. *)
Inductive outcome : Type :=
| RByte (c : ascii)
| RByteErr (c : ascii) (e : goerr)
| RNone
| RErr (e : goerr).

(** [type Lexer] (lexer.go:10-14) with its two parts: [bl_buffer] is the slice
    [buffer] in Go order (the top of the stack is its last element), [bl_reader]
    the outcomes of the coming Read calls; when they are used up every call
    gives [bl_end]. *)
Record buflexer := mkBuf {
  bl_buffer : list ascii;
  bl_reader : list outcome;
  bl_end : goerr
}.

(** [ReadRune], lexer.go:30-40. *)
Definition ReadRune (b : buflexer) : (goerr + ascii) * buflexer :=
  match bl_reader b with
  | [] => (inl (bl_end b), b)
  | o :: r =>
      let b' := mkBuf (bl_buffer b) r (bl_end b) in
      match o with
      | RByte c => (inr c, b')
      | RByteErr _ e => (inl e, b')
      | RNone => (inl EOF, b')
      | RErr e => (inl e, b')
      end
  end.

(** [ReadChar], lexer.go:43-53. *)
Definition ReadChar_buf (b : buflexer) : (goerr + ascii) * buflexer :=
  match bl_buffer b with
  | [] => ReadRune b
  | x :: r => (inr (last (x :: r) NUL), mkBuf (removelast (x :: r)) (bl_reader b) (bl_end b))
  end.

(** [UnreadChar], lexer.go:56-58. *)
Definition UnreadChar_buf (c : ascii) (b : buflexer) : buflexer :=
  mkBuf (bl_buffer b ++ [c]) (bl_reader b) (bl_end b).

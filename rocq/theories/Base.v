(** * Base: Go primitives used by the compiler
    Bytes and runes, [unicode] predicates, UTF-8 conversion of rune slices,
    64-bit words, [fmt] decimal formatting, Go errors and the state monad. *)
From Coq Require Import List Ascii String ZArith NArith Lia Bool.
From Coq Require Import DecimalString DecimalZ.
Import ListNotations.
Open Scope Z_scope.

(** A rune read by the lexer is one byte of the file taken as a rune
    (lexer.go:30-40, [rune(buf[0])]); a rune is therefore modelled by an
    [ascii], i.e. exactly one byte. [code] is its numeric value. *)
Definition code (c : ascii) : Z := Z.of_N (N_of_ascii c).

(** [byte(z)]: conversion of an integer to a byte. Go primitive. *)
Definition byte_of (z : Z) : ascii := ascii_of_N (Z.to_N (z mod 256)).

(** [unicode.IsSpace] restricted to Latin-1 (used at lexer.go:97):
    U+0009-U+000D, space, U+0085, U+00A0. *)
Definition IsSpace (c : ascii) : bool :=
  let n := code c in
  ((9 <=? n) && (n <=? 13)) || (n =? 32) || (n =? 133) || (n =? 160).

(** [unicode.IsDigit] restricted to Latin-1 (used at lexer.go:145,171). *)
Definition IsDigit (c : ascii) : bool :=
  let n := code c in (48 <=? n) && (n <=? 57).

(** [unicode.IsLetter] restricted to Latin-1 (used at lexer.go:145,
    parser_stmt.go:57, expressions.go:889). *)
Definition IsLetter (c : ascii) : bool :=
  let n := code c in
  ((65 <=? n) && (n <=? 90)) || ((97 <=? n) && (n <=? 122))
  || (n =? 170) || (n =? 181) || (n =? 186)
  || ((192 <=? n) && (n <=? 214)) || ((216 <=? n) && (n <=? 246))
  || ((248 <=? n) && (n <=? 255)).

(** Character class of identifiers, lexer.go:145. *)
Definition IsIdent (c : ascii) : bool :=
  IsLetter c || IsDigit c || Ascii.eqb c "_".

(** Encoding of one rune in [string([]rune)] (lexer.go:140,147,260), UTF-8:
    runes below 0x80 are one byte, the others (at most 0xFF here) two. *)
Definition utf8 (c : ascii) : list ascii :=
  let n := code c in
  if n <? 128 then [c]
  else [byte_of (192 + n / 64); byte_of (128 + n mod 64)].

(** [string(runes)] for a rune slice. A Go string is modelled by a Coq
    [string] (a byte sequence). *)
Definition go_string (rs : list ascii) : string :=
  string_of_list_ascii (flat_map utf8 rs).

(** int64 arithmetic: the representative of [z] modulo 2^64 in
    [-2^63, 2^63). Go primitive (wrap-around on overflow). *)
Definition wrap64 (z : Z) : Z := (z + 2 ^ 63) mod 2 ^ 64 - 2 ^ 63.

(** uint64 conversion. Go primitive. *)
Definition u64 (z : Z) : Z := z mod 2 ^ 64.

(** [fmt.Sprintf("%d", z)]. Go primitive, taken from the decimal numerals of
    the Coq standard library. *)
Definition dec (z : Z) : string := NilZero.string_of_int (Z.to_int z).

(** [fmt] ["%c"] of a rune. *)
Definition fmt_c (c : ascii) : string := string_of_list_ascii (utf8 c).

(** The NUL rune: value of [c] after a failed [ReadChar] (lexer.go:34,37). *)
Definition NUL : ascii := ascii_of_N 0.

(** Named characters. [QUOTE] is the single quote, [DQUOTE] the double one. *)
Definition QUOTE : ascii := ascii_of_N 39.
Definition DQUOTE : ascii := ascii_of_N 34.
Definition TAB : ascii := ascii_of_N 9.
Definition LF : ascii := ascii_of_N 10.
Definition CR : ascii := ascii_of_N 13.

(** Go error values: [io.EOF], an I/O error of the reader, or an error made
    by [fmt.Errorf] with its text. *)
Inductive goerr : Type :=
| EOF
| IOErr
| Msg (s : string).

(** Result of running a function on a state: success, error, or the model
    ran out of fuel (shown impossible at the entry points, see Totality). *)
Inductive result (S A : Type) : Type :=
| Ok (a : A) (s : S)
| Err (e : goerr)
| Fuel.
Arguments Ok {S A} a s.
Arguments Err {S A} e.
Arguments Fuel {S A}.

(** State monad with errors: Go functions that mutate their receiver and
    return a value and an [error]. On error the state is dropped: no caller
    in the code continues with it. *)
Definition M (S A : Type) : Type := S -> result S A.
Definition ret {S A} (a : A) : M S A := fun s => Ok a s.
Definition bind {S A B} (m : M S A) (f : A -> M S B) : M S B :=
  fun s => match m s with
           | Ok a s' => f a s'
           | Err e => Err e
           | Fuel => Fuel
           end.
Definition fail {S A} (e : goerr) : M S A := fun _ => Err e.
Definition errorf {S A} (m : string) : M S A := fun _ => Err (Msg m).
Definition out_of_fuel {S A} : M S A := fun _ => Fuel.

Declare Scope m_scope.
Delimit Scope m_scope with m.
Notation "x <- m ;; k" := (bind m (fun x => k))
  (at level 61, m at next level, right associativity) : m_scope.
Notation "' p <- m ;; k" := (bind m (fun x => let p := x in k))
  (at level 61, p pattern, m at next level, right associativity) : m_scope.
Notation "m ;;; k" := (bind m (fun _ => k))
  (at level 61, right associativity) : m_scope.

(** Association lists for Go maps keyed by strings. *)
Fixpoint assoc {A} (k : string) (l : list (string * A)) : option A :=
  match l with
  | [] => None
  | (k', v) :: r => if String.eqb k k' then Some v else assoc k r
  end.

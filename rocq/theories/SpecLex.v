(** * SpecLex: what the lexical elements of B mean, independently of the code *)
From Coq Require Import List Ascii String ZArith Lia Bool.
From Verif Require Import Base.
Import ListNotations.
Open Scope Z_scope.

(** White space: tab, LF, VT, FF, CR, blank, NEL, no-break space. *)
Definition white (c : ascii) : Prop := In (code c) [9; 10; 11; 12; 13; 32; 133; 160].

(** The text contains no comment terminator. *)
Definition no_close (t : list ascii) : Prop :=
  forall a b, t <> a ++ "*"%char :: "/"%char :: b.

(** Layout: any sequence of white space and closed comments. *)
Inductive layout : list ascii -> Prop :=
| lay_nil : layout []
| lay_white c r : white c -> layout r -> layout (c :: r)
| lay_comment t r : no_close t -> layout r ->
    layout ("/"%char :: "*"%char :: t ++ "*"%char :: "/"%char :: r).

(** Text at which no layout can be skipped. *)
Definition token_start (s : list ascii) : Prop :=
  match s with
  | [] => True
  | c :: r => ~ white c /\ (c = "/"%char -> forall r', r <> "*"%char :: r')
  end.

(** Decimal digits and their values. *)
Definition digit (c : ascii) : Prop := 48 <= code c <= 57.

(** Letters of Latin-1. *)
Definition letter (c : ascii) : Prop :=
  65 <= code c <= 90 \/ 97 <= code c <= 122
  \/ In (code c) [170; 181; 186]
  \/ (192 <= code c <= 255 /\ code c <> 215 /\ code c <> 247).

(** Identifier characters. *)
Definition ident_char (c : ascii) : Prop := letter c \/ digit c \/ c = "_"%char.

(** Positional value of a digit string: sum of d * base^(position). *)
Fixpoint positional (base : Z) (ds : list ascii) : Z :=
  match ds with
  | [] => 0
  | d :: r => (code d - 48) * base ^ Z.of_nat (List.length r) + positional base r
  end.

(** [z] is the 64-bit two's-complement word congruent to [v]. *)
Definition is_word (z v : Z) : Prop :=
  - 2 ^ 63 <= z < 2 ^ 63 /\ (z - v) mod 2 ^ 64 = 0.

(** The escapes of the B manual, in the '*' notation: character after the
    '*', byte denoted. *)
Definition escapes : list (ascii * Z) :=
  [("0"%char, 0); ("e"%char, 0); ("*"%char, 42);
   (ascii_of_N 39, 39); (ascii_of_N 34, 34);
   ("("%char, 123); (")"%char, 125);
   ("t"%char, 9); ("n"%char, 10); ("r"%char, 13)].

(** [item q s c]: [s] is a source text for the single character [c] inside a
    literal delimited by [q]. *)
Inductive item (q : ascii) : list ascii -> ascii -> Prop :=
| item_plain c : c <> q -> c <> "*"%char -> item q [c] c
| item_escape e c : In (e, code c) escapes -> item q ["*"%char; e] c.

(** [items q s cs]: [s] is a source text for the characters [cs]. *)
Inductive items (q : ascii) : list ascii -> list ascii -> Prop :=
| items_nil : items q [] []
| items_cons s c ss cs : item q s c -> items q ss cs -> items q (s ++ ss) (c :: cs).

(** Big-endian value of a byte sequence. *)
Fixpoint big_endian (bs : list ascii) : Z :=
  match bs with
  | [] => 0
  | b :: r => code b * 256 ^ Z.of_nat (List.length r) + big_endian r
  end.

(** [s] does not start with a character satisfying [P]. *)
Definition not_starting (P : ascii -> Prop) (s : list ascii) : Prop :=
  match s with [] => True | c :: _ => ~ P c end.

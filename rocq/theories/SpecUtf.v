(** * SpecUtf: texts in UTF-8 (RFC 3629), independently of the code *)
From Coq Require Import List Ascii String ZArith.
Import ListNotations.
Open Scope Z_scope.

Definition byte (c : ascii) : Z := Z.of_N (N_of_ascii c).
Definition trail (c : ascii) : Prop := 128 <= byte c < 192.
(** [utf8_char bs u]: the bytes [bs] are the character number [u]. *)
Inductive utf8_char : list ascii -> Z -> Prop :=
| u1 a : byte a < 128 -> utf8_char [a] (byte a)
| u2 a b u : 192 <= byte a < 224 -> trail b -> u = (byte a - 192) * 64 + (byte b - 128) -> 128 <= u -> utf8_char [a; b] u
| u3 a b c u : 224 <= byte a < 240 -> trail b -> trail c -> u = ((byte a - 224) * 64 + (byte b - 128)) * 64 + (byte c - 128) ->
    2048 <= u -> ~ 55296 <= u < 57344 -> utf8_char [a; b; c] u
| u4 a b c d u : 240 <= byte a < 248 -> trail b -> trail c -> trail d ->
    u = (((byte a - 240) * 64 + (byte b - 128)) * 64 + (byte c - 128)) * 64 + (byte d - 128) ->
    65536 <= u < 1114112 -> utf8_char [a; b; c; d] u.
(** [utf8_text bs us]: the bytes [bs] are the characters [us]. *)
Inductive utf8_text : list ascii -> list Z -> Prop :=
| ut_nil : utf8_text [] []
| ut_cons x u bs us : utf8_char x u -> utf8_text bs us -> utf8_text (x ++ bs) (u :: us).

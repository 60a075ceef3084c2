(** * SpecRt: what the library functions should print, independently of the code *)
From Coq Require Import List Ascii String ZArith Lia Bool.
From Verif Require Import Base SpecLex.
Import ListNotations.
Open Scope Z_scope.

(** [s] is the numeral of [n >= 0] in [base] (2..10) without superfluous zeros. *)
Definition numeral (base n : Z) (s : list ascii) : Prop :=
  s <> [] /\ Forall (fun c => 48 <= code c < 48 + base) s
  /\ positional base s = n
  /\ (forall r, s = "0"%char :: r -> r = []).

(** Signed numerals. *)
Definition signed_numeral (base n : Z) (s : list ascii) : Prop :=
  if n <? 0 then exists d, s = "-"%char :: d /\ numeral base (- n) d
  else numeral base n s.

(** [s] is the byte sequence packed in the word [w]: big-endian, no leading
    zero byte, at least one byte. *)
Definition packed (w : Z) (s : list ascii) : Prop :=
  s <> [] /\ (List.length s <= 8)%nat
  /\ big_endian s = w mod 2 ^ 64
  /\ (forall r, s = NUL :: r -> r = []).

(** A 64-bit signed word. *)
Definition word (z : Z) : Prop := - 2 ^ 63 <= z < 2 ^ 63.

(** [m] holds the NUL-terminated string [s] at address [a]. *)
Fixpoint string_at (m : Z -> ascii) (a : Z) (s : list ascii) : Prop :=
  match s with
  | [] => m (a mod 2 ^ 64) = NUL
  | c :: r => c <> NUL /\ m (a mod 2 ^ 64) = c /\ string_at m (a + 1) r
  end.

(** 7-bit characters. *)
Definition seven (c : ascii) : Prop := code c < 128.

(** [shows m fmt args out]: the format [fmt] applied to the arguments [args]
    is to be printed as [out] (strings are looked up in memory [m]). *)
Inductive shows (m : Z -> ascii) : list ascii -> list Z -> list ascii -> Prop :=
| sh_nil args : shows m [] args []
| sh_char c r args o : c <> "%"%char -> shows m r args o -> shows m (c :: r) args (c :: o)
| sh_d r x args d o : signed_numeral 10 x d -> shows m r args o ->
    shows m ("%" :: "d" :: r)%char (x :: args) (d ++ o)
| sh_o r x args d o : signed_numeral 8 x d -> shows m r args o ->
    shows m ("%" :: "o" :: r)%char (x :: args) (d ++ o)
| sh_c r x args d o : packed x d -> shows m r args o ->
    shows m ("%" :: "c" :: r)%char (x :: args) (d ++ o)
| sh_s r x args s o : string_at m x s -> shows m r args o ->
    shows m ("%" :: "s" :: r)%char (x :: args) (s ++ o)
| sh_pct r args o : shows m r args o -> shows m ("%" :: "%" :: r)%char args ("%"%char :: o)
| sh_other c r args o : ~ In c ["d"; "o"; "c"; "s"; "%"]%char -> shows m (c :: r) args o ->
    shows m ("%" :: c :: r)%char args ("%"%char :: o)
| sh_last args : shows m ["%"%char] args ["%"%char].

(** All characters that [fmt] prints verbatim or with %s satisfy [ok], and no
    %d or %o argument is the most negative word. *)
Fixpoint printable (ok : ascii -> Prop) (m : Z -> ascii) (fmt : list ascii) (args : list Z) : Prop :=
  match fmt with
  | [] => True
  | c1 :: ((c2 :: r2) as r1) =>
      if Ascii.eqb c1 "%" then
        if Ascii.eqb c2 "d" || Ascii.eqb c2 "o" then
          match args with x :: a => word x /\ x <> - 2 ^ 63 /\ printable ok m r2 a | [] => False end
        else if Ascii.eqb c2 "c" then
          match args with x :: a => printable ok m r2 a | [] => False end
        else if Ascii.eqb c2 "s" then
          match args with
          | x :: a => (exists s, string_at m x s /\ Forall ok s) /\ printable ok m r2 a
          | [] => False end
        else if Ascii.eqb c2 "%" then printable ok m r2 args
        else printable ok m r1 args
      else ok c1 /\ printable ok m r1 args
  | [c] => ok c
  end.

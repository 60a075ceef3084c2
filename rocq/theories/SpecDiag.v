(** * SpecDiag: the diagnostics of the compiler
    The complete list of the messages with which a source text may be rejected,
    with what each of them quotes from the text. *)
From Coq Require Import List Ascii String ZArith Bool.
From Verif Require Import Base.
Import ListNotations.
Open Scope string_scope.

(** Messages that quote nothing. *)
Definition plain_messages : list string :=
  [ "unclosed comment, expect '*/' to close the comment";
    "unclosed char literal";
    "unterminated string literal";
    "unexpected end of file after declaration";
    "unexpected end of file, expect expression";
    "unexpected end of file, expect ival";
    "unexpected end of file, expect vector size after '['";
    "initialization with global references is not supported yet";
    "expect ';' at end of declaration";
    "expect identifier at top level";
    "expect ')' or identifier after function arguments";
    "expect identifier after 'auto'";
    "expect identifier after 'extrn'";
    "expect label name after 'goto'";
    "expect '(' or ';' after 'return'";
    "unexpected 'case' outside of 'switch' statements";
    "function redeclared as variable";
    "left operand of assignment must be an lvalue";
    "expected lvalue after '--'";
    "expected lvalue after '++'";
    "expected lvalue after '&'";
    "expected lvalue for postfix '++'";
    "expected lvalue for postfix '--'" ].

(** What was expected at a place where something else stands: the message
    ends there at the end of the text, and names the character otherwise. *)
Definition expectations : list string :=
  [ "expect ']' after vector size";
    "expect ')' after 'return' statement";
    "expect ';' after 'return' statement";
    "expect ']' after array size";
    "expect ';' after 'goto' statement";
    "expect ';' after expression statement";
    "expect '(' after 'if'";
    "expect '(' after 'while'";
    "expect ')' after condition";
    "expect ':' after 'case'";
    "expect ':' in ternary operator";
    "expect ']' after array index";
    "expect ')' after expression" ].

(** What follows the quoted character in "unexpected character 'c', ...". *)
Definition alternatives : list string :=
  [ "expect ')' or ','";
    "expect ';' or ','";
    "expect ';' or ',' after auto variable";
    "expect constant after 'case'";
    "expect ')'";
    "expect '+'";
    "expect expression" ].

Section text.
Variable s : list ascii.

(** A character of the text, or a byte above 127 (names are kept in UTF-8:
    lexer.go:140,147). *)
Definition quotable (c : ascii) : Prop := In c s \/ (128 <= code c)%Z.
(** A name of the text: not empty, and made of its letters and digits, each as
    UTF-8. *)
Definition quotable_name (x : string) : Prop :=
  exists rs, rs <> [] /\ x = String.concat "" (map fmt_c rs) /\ Forall (fun c => quotable c /\ IsIdent c = true) rs.

Inductive diagnostic : string -> Prop :=
| dg_plain m : In m plain_messages -> diagnostic m
| dg_expected m : In m expectations -> diagnostic m
| dg_got m c : In m expectations -> quotable c -> diagnostic (m ++ ", got '" ++ fmt_c c ++ "'")
| dg_unexpected m c : In m alternatives -> quotable c ->
    diagnostic ("unexpected character '" ++ fmt_c c ++ "', " ++ m)
| dg_escape c : quotable c -> diagnostic ("undefined escape character '*" ++ fmt_c c ++ "'")
| dg_operator c : quotable c -> diagnostic ("unknown operator '!" ++ fmt_c c ++ "'")
(** at the end of the text the rune quoted is NUL *)
| dg_operator_end : diagnostic ("unknown operator '!" ++ fmt_c NUL ++ "'")
| dg_plus_end : diagnostic ("unexpected character '" ++ fmt_c NUL ++ "', expect '+'")
| dg_again x : quotable_name x -> diagnostic ("identifier '" ++ x ++ "' already defined in this scope")
| dg_undefined x : quotable_name x -> diagnostic ("undefined identifier '" ++ x ++ "'").
End text.

(** Messages that are final: they name a character that is wrong, or a use
    that is wrong, whatever follows. A '=' may begin the operator "==", and some
    messages quote a NUL at the end of the text: these are left out. *)
Definition settled (c : ascii) : Prop := c <> "="%char /\ c <> NUL.
Definition final_message (t : string) : Prop :=
  (exists m c, In m expectations /\ settled c /\ t = m ++ ", got '" ++ fmt_c c ++ "'") \/
  (exists m c, In m alternatives /\ settled c /\ t = "unexpected character '" ++ fmt_c c ++ "', " ++ m) \/
  (exists c, t = "undefined escape character '*" ++ fmt_c c ++ "'") \/
  (exists c, c <> NUL /\ t = "unknown operator '!" ++ fmt_c c ++ "'") \/
  (exists x, t = "undefined identifier '" ++ x ++ "'") \/
  In t [ "expected lvalue for postfix '++'";
         "expected lvalue for postfix '--'";
         "expect ';' at end of declaration";
         "expect '(' or ';' after 'return'";
         "expect identifier at top level" ].
(** What may be appended: a '*' could make a '/' at the end of the text the
    beginning of a comment. *)
Definition no_star (r : list ascii) : Prop := match r with c :: _ => c <> "*"%char | [] => True end.

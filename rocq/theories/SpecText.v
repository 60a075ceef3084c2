(** * SpecText: the texts of a program
    A grammar of B independent of the parser: [tE l e s] says that [s] is a
    text of the expression [e] at precedence level [l], [tS], [tD], [tP] the
    same for statements, definitions and files. Any layout is allowed between
    tokens; where two tokens would be read as another one, the grammar asks
    for something between them. *)
From Coq Require Import List Ascii String ZArith NArith Lia Bool.
From Verif Require Import Base SpecLex IR Builder Expr Syntax.
Import ListNotations.
Open Scope Z_scope.

Notation "$ s" := (list_ascii_of_string s) (at level 1, format "$ s").

(** Identifiers: ASCII, starting with a letter. *)
Definition ident (x : string) : Prop :=
  Forall ident_char ($x) /\ Forall (fun c => code c < 128) ($x) /\
  exists c r, $x = c :: r /\ letter c.

(** Keywords that begin a statement. *)
Definition keywords : list string :=
  ["return"; "auto"; "extrn"; "if"; "while"; "switch"; "case"; "goto"]%string.

(** Number and character constants. *)
Definition base_of (ds : list ascii) : Z :=
  match ds with c :: _ => if code c =? 48 then 8 else 10 | [] => 10 end.
Inductive tNum : Z -> list ascii -> Prop :=
| tNum_digits z ds : ds <> [] -> Forall digit ds -> is_word z (positional (base_of ds) ds) -> tNum z ds.
Inductive tChr : Z -> list ascii -> Prop :=
| tChr_items z s bs : items QUOTE s bs -> (List.length bs <= 8)%nat -> is_word z (big_endian bs) ->
    tChr z (QUOTE :: s ++ [QUOTE]).
(** String constants with ASCII contents. *)
Inductive tStr : string -> list ascii -> Prop :=
| tStr_items s bs : items DQUOTE s bs -> Forall (fun c => code c < 128) bs ->
    tStr (string_of_list_ascii bs) (DQUOTE :: s ++ [DQUOTE]).

(** Binary operators: text, level, level of the right operand. The operand to
    the right of a relational operator is of level [rr]: 5 in B (shifts bind
    tighter than comparisons). *)
Definition bin_op (rr : nat) (op : cop) : option (string * nat * nat) :=
  match op with
  | CBin OMul => Some ("*", 3, 2)
  | CBin OSDiv => Some ("/", 3, 2)
  | CBin OSRem => Some ("%", 3, 2)
  | CBin OAdd => Some ("+", 4, 3)
  | CBin OSub => Some ("-", 4, 3)
  | CBin OShl => Some ("<<", 5, 4)
  | CBin OAShr => Some (">>", 5, 4)
  | CCmp PSLT => Some ("<", 6, rr)
  | CCmp PSLE => Some ("<=", 6, rr)
  | CCmp PSGT => Some (">", 6, rr)
  | CCmp PSGE => Some (">=", 6, rr)
  | CCmp PEQ => Some ("==", 7, 6)
  | CCmp PNE => Some ("!=", 7, 6)
  | CBin OAnd => Some ("&", 8, 7)
  | CBin OOr => Some ("|", 10, 9)
  end%string%nat.
(** Assignment operators. *)
Definition asg_op (op : option cop) : string :=
  match op with
  | None => "="
  | Some (CBin OMul) => "=*"
  | Some (CBin OSDiv) => "=/"
  | Some (CBin OSRem) => "=%"
  | Some (CBin OAdd) => "=+"
  | Some (CBin OSub) => "=-"
  | Some (CBin OShl) => "=<<"
  | Some (CBin OAShr) => "=>>"
  | Some (CCmp PSLT) => "=<"
  | Some (CCmp PSLE) => "=<="
  | Some (CCmp PSGT) => "=>"
  | Some (CCmp PSGE) => "=>="
  | Some (CCmp PEQ) => "==="
  | Some (CCmp PNE) => "=!="
  | Some (CBin OAnd) => "=&"
  | Some (CBin OOr) => "=|"
  end%string.
(** Operators and the characters that must not follow at once. *)
Definition glue : list (string * ascii) :=
  [("+"%string, "+"%char); ("-"%string, "-"%char); ("/"%string, "*"%char);
   ("="%string, "+"%char); ("="%string, "-"%char); ("="%string, "*"%char); ("="%string, "/"%char); ("="%string, "&"%char);
   ("=/"%string, "*"%char)].
Definition apart (op : string) (s : list ascii) : Prop := forall c r, s = c :: r -> ~ In (op, c) glue.

Definition incdec (op : binop) : option string :=
  match op with OAdd => Some "++"%string | OSub => Some "--"%string | _ => None end.

Section Texts.
Variable rr : nat.

(** Levels: 0 primary, 1 postfix, 2 unary, 3 * / %, 4 + -, 5 << >>,
    6 relational, 7 equality, 8 &, 10 |, 13 ?:, 14 assignment. *)
Inductive tE : nat -> expr -> list ascii -> Prop :=
| tE_num z s : tNum z s -> tE 0 (EInt z) s
| tE_chr z s : tChr z s -> tE 0 (EInt z) s
| tE_str x s : tStr x s -> tE 0 (EStr x) s
| tE_var x : ident x -> tE 0 (EVar x) ($x)
| tE_paren e w1 s w2 : tE 15 e s -> layout w1 -> layout w2 ->
    tE 0 (EParen e) ($"(" ++ w1 ++ s ++ w2 ++ $")")
| tE_idx a sa w i w1 si w2 : tE 1 a sa -> tE 15 i si -> layout w -> layout w1 -> layout w2 ->
    tE 1 (EIdx a i) (sa ++ w ++ $"[" ++ w1 ++ si ++ w2 ++ $"]")
| tE_callx x w args sl : ident x -> tA args sl -> layout w ->
    tE 1 (ECall (ECallee x) args) ($x ++ w ++ $"(" ++ sl)
| tE_call f sf w args sl : tE 1 f sf -> (forall x, f <> EVar x) -> tA args sl -> layout w ->
    tE 1 (ECall f args) (sf ++ w ++ $"(" ++ sl)
| tE_post op x a sa w : tE 1 a sa -> incdec op = Some x -> layout w -> tE 1 (EPost op a) (sa ++ w ++ $x)
| tE_pre op x a sa w : tE 2 a sa -> incdec op = Some x -> layout w -> tE 2 (EPre op a) ($x ++ w ++ sa)
| tE_not a sa w : tE 2 a sa -> layout w -> tE 2 (ENot a) ($"!" ++ w ++ sa)
| tE_neg a sa w : tE 2 a sa -> layout w -> apart "-" (w ++ sa) -> tE 2 (ENeg a) ($"-" ++ w ++ sa)
| tE_deref a sa w : tE 2 a sa -> layout w -> tE 2 (EDeref a) ($"*" ++ w ++ sa)
| tE_addr a sa w : tE 2 a sa -> layout w -> tE 2 (EAddr a) ($"&" ++ w ++ sa)
| tE_bin op x l r a sa w1 w2 b sb : bin_op rr op = Some (x, l, r) -> tE l a sa -> tE r b sb ->
    layout w1 -> layout w2 -> apart x (w2 ++ sb) ->
    tE l (EBin op a b) (sa ++ w1 ++ $x ++ w2 ++ sb)
| tE_cond a sa w1 w2 b sb w3 w4 d sd : tE 12 a sa -> tE 12 b sb -> tE 13 d sd ->
    layout w1 -> layout w2 -> layout w3 -> layout w4 ->
    tE 13 (ECond a b d) (sa ++ w1 ++ $"?" ++ w2 ++ sb ++ w3 ++ $":" ++ w4 ++ sd)
| tE_asg op a sa w1 w2 b sb : tE 12 a sa -> tE 14 b sb -> layout w1 -> layout w2 ->
    apart (asg_op op) (w2 ++ sb) ->
    tE 14 (EAsg op a b) (sa ++ w1 ++ $(asg_op op) ++ w2 ++ sb)
| tE_up l l' e s : tE l e s -> (l <= l')%nat -> tE l' e s
(** Arguments, after the opening parenthesis. *)
with tA : exprs -> list ascii -> Prop :=
| tA_nil : tA ENil ($")")
| tA_one e w1 s w2 : tE 15 e s -> layout w1 -> layout w2 -> tA (ECons e ENil) (w1 ++ s ++ w2 ++ $")")
| tA_cons e w1 s w2 l sl : tE 15 e s -> layout w1 -> layout w2 -> tA l sl -> l <> ENil ->
    tA (ECons e l) (w1 ++ s ++ w2 ++ $"," ++ sl).

Scheme tE_mind := Induction for tE Sort Prop with tA_mind := Induction for tA Sort Prop.
Combined Scheme tE_tA_ind from tE_mind, tA_mind.

(** The identifier an expression text begins with, if any. *)
Fixpoint lead (e : expr) : option string :=
  match e with
  | EVar x | ECallee x => Some x
  | EIdx a _ | ECall a _ | EPost _ a | EBin _ a _ | ECond a _ _ | EAsg _ a _ => lead a
  | _ => None
  end.
Definition no_keyword (e : expr) : Prop := forall x, lead e = Some x -> ~ In x keywords.

(** Does a statement end with an if that has no else? *)
Fixpoint openif (s : stmt) : bool :=
  match s with
  | SIf _ _ => true
  | SIfElse _ _ s | SWhile _ s | SSwitch _ s | SCase _ s | SLabel _ s => openif s
  | _ => false
  end.
(** The text does not begin with the keyword else. *)
Definition noelse (t : list ascii) : Prop :=
  forall y, t = $"else" ++ y -> exists c y', y = c :: y' /\ (letter c \/ digit c).
Definition gap (w : list ascii) : Prop := layout w /\ w <> [].

(** The declarators of auto. *)
Inductive tAutos : list (string * Z) -> list ascii -> Prop :=
| tAutos_end x z s w : tAuto x z s -> layout w -> tAutos [(x, z)] (s ++ w ++ $";")
| tAutos_more x z s w1 w2 r sr : tAuto x z s -> layout w1 -> layout w2 -> tAutos r sr ->
    tAutos ((x, z) :: r) (s ++ w1 ++ $"," ++ w2 ++ sr)
with tAuto : string -> Z -> list ascii -> Prop :=
| tAuto_word x : ident x -> tAuto x (-1) ($x)
| tAuto_vec0 x w1 w2 : ident x -> layout w1 -> layout w2 -> tAuto x 0 ($x ++ w1 ++ $"[" ++ w2 ++ $"]")
| tAuto_vec x z w1 w2 s w3 : ident x -> (tNum z s \/ tChr z s) -> layout w1 -> layout w2 -> layout w3 ->
    tAuto x z ($x ++ w1 ++ $"[" ++ w2 ++ s ++ w3 ++ $"]").
(** Lists of names, with the closing character. *)
Inductive tNames (close : ascii) : list string -> list ascii -> Prop :=
| tNames_end x w : ident x -> layout w -> tNames close [x] ($x ++ w ++ [close])
| tNames_more x w1 w2 r sr : ident x -> layout w1 -> layout w2 -> tNames close r sr ->
    tNames close (x :: r) ($x ++ w1 ++ $"," ++ w2 ++ sr).

Inductive tS : stmt -> list ascii -> Prop :=
| tS_null : tS SNull ($";")
| tS_expr e s w : tE 15 e s -> no_keyword e -> layout w -> tS (SExpr e) (s ++ w ++ $";")
| tS_block l w sl : layout w -> tL l sl -> tS (SBlock l) ($"{" ++ w ++ sl)
| tS_return w : layout w -> tS (SReturn None) ($"return" ++ w ++ $";")
| tS_returne e w w1 s w2 w3 : tE 15 e s -> layout w -> layout w1 -> layout w2 -> layout w3 ->
    tS (SReturn (Some e)) ($"return" ++ w ++ $"(" ++ w1 ++ s ++ w2 ++ $")" ++ w3 ++ $";")
| tS_auto w ds s : gap w -> tAutos ds s -> tS (SAuto ds) ($"auto" ++ w ++ s)
| tS_extrn w ns s : gap w -> tNames ";" ns s -> tS (SExtrn ns) ($"extrn" ++ w ++ s)
| tS_if e w w1 se w2 w3 s1 ss1 : tE 15 e se -> tS s1 ss1 -> layout w -> layout w1 -> layout w2 -> layout w3 ->
    tS (SIf e s1) ($"if" ++ w ++ $"(" ++ w1 ++ se ++ w2 ++ $")" ++ w3 ++ ss1)
| tS_ifelse e w w1 se w2 w3 s1 ss1 w4 b w5 s2 ss2 : tE 15 e se -> tS s1 ss1 -> tS s2 ss2 -> openif s1 = false ->
    layout w -> layout w1 -> layout w2 -> layout w3 -> layout w4 -> white b -> layout w5 ->
    tS (SIfElse e s1 s2) ($"if" ++ w ++ $"(" ++ w1 ++ se ++ w2 ++ $")" ++ w3 ++ ss1 ++ w4 ++ $"else" ++ [b] ++ w5 ++ ss2)
| tS_while e w w1 se w2 w3 s1 ss1 : tE 15 e se -> tS s1 ss1 -> layout w -> layout w1 -> layout w2 -> layout w3 ->
    tS (SWhile e s1) ($"while" ++ w ++ $"(" ++ w1 ++ se ++ w2 ++ $")" ++ w3 ++ ss1)
| tS_switch e w se w3 s1 ss1 : tE 15 e se -> tS s1 ss1 -> layout w -> layout w3 ->
    not_starting ident_char (w ++ se) -> not_starting ident_char (w3 ++ ss1) ->
    (exists c r, ss1 = c :: r /\ (c = "{"%char \/ c = ";"%char \/ letter c)) ->
    tS (SSwitch e s1) ($"switch" ++ w ++ se ++ w3 ++ ss1)
| tS_case z w sz w2 w3 s1 ss1 : (gap w /\ tNum z sz \/ layout w /\ tChr z sz) -> tS s1 ss1 -> layout w2 -> layout w3 ->
    tS (SCase z s1) ($"case" ++ w ++ sz ++ w2 ++ $":" ++ w3 ++ ss1)
| tS_goto x w w2 : gap w -> ident x -> layout w2 -> tS (SGoto x) ($"goto" ++ w ++ $x ++ w2 ++ $";")
| tS_label x w w2 s1 ss1 : ident x -> ~ In x keywords -> tS s1 ss1 -> layout w -> layout w2 ->
    tS (SLabel x s1) ($x ++ w ++ $":" ++ w2 ++ ss1)
(** Statements up to the closing brace. *)
with tL : stmts -> list ascii -> Prop :=
| tL_nil : tL SNil ($"}")
| tL_cons s ss w l sl : tS s ss -> layout w -> tL l sl -> (openif s = true -> noelse sl) ->
    tL (SCons s l) (ss ++ w ++ sl).

Scheme tS_mind := Induction for tS Sort Prop with tL_mind := Induction for tL Sort Prop.
Combined Scheme tS_tL_ind from tS_mind, tL_mind.

(** Initial values. *)
Inductive tIval : ival -> list ascii -> Prop :=
| tIval_num z s : tNum z s -> tIval (IvInt z) s
| tIval_neg z z' w s : tNum z s -> layout w -> is_word z' (- z) -> tIval (IvInt z') ($"-" ++ w ++ s)
| tIval_chr z s : tChr z s -> tIval (IvInt z) s
| tIval_str x s : tStr x s -> tIval (IvStr x) s.
(** One or more of them, up to the semicolon. *)
Inductive tIvals : list ival -> list ascii -> Prop :=
| tIvals_end v s w : tIval v s -> layout w -> tIvals [v] (s ++ w ++ $";")
| tIvals_more v s w1 w2 r sr : tIval v s -> layout w1 -> layout w2 -> tIvals r sr ->
    tIvals (v :: r) (s ++ w1 ++ $"," ++ w2 ++ sr).

Inductive tD : decl -> list ascii -> Prop :=
| tD_word x : ident x -> tD (DGlobal x []) ($x ++ $";")
| tD_init x w vs s : ident x -> layout w -> tIvals vs s -> not_starting ident_char (w ++ s) ->
    tD (DGlobal x vs) ($x ++ w ++ s)
| tD_vec x z w1 sz w2 w3 vs s : ident x -> layout w1 -> layout w2 -> layout w3 ->
    (tNum z sz \/ z = 0 /\ sz = []) -> (tIvals vs s \/ vs = [] /\ s = $";") ->
    tD (DVector x z vs) ($x ++ $"[" ++ w1 ++ sz ++ w2 ++ $"]" ++ w3 ++ s)
| tD_fun0 x w b sb : ident x -> layout w -> tS b sb ->
    tD (DFunction x [] b) ($x ++ $"()" ++ w ++ sb)
| tD_fun x w1 ps sp w b sb : ident x -> layout w1 -> tNames ")" ps sp -> layout w -> tS b sb ->
    tD (DFunction x ps b) ($x ++ $"(" ++ w1 ++ sp ++ w ++ sb).
Definition openifD (d : decl) : bool := match d with DFunction _ _ b => openif b | _ => false end.

(** Files, after leading layout. *)
Inductive tP : list decl -> list ascii -> Prop :=
| tP_nil : tP [] []
| tP_cons d s w r sr : tD d s -> layout w -> tP r sr -> (openifD d = true -> noelse sr) -> tP (d :: r) (s ++ w ++ sr).
End Texts.

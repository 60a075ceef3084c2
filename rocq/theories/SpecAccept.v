(** * SpecAccept: every text the compiler takes
    The grammar of SpecText.v with the liberties the compiler takes spelled
    out. It is an upper bound: what is not a text of this grammar must be
    rejected. The liberties are marked with (L1) to (L8):
    - (L1) declared names, labels after goto and parameters may begin with a
      digit or an underscore;
    - (L2) the shift operators are on the level of the relational ones, and
      their chain associates to the left;
    - (L3) a comma may follow the last argument of a call;
    - (L4) "=/" may be followed by a '*';
    - (L5) after "else" any one character that is neither a letter nor a digit
      is skipped;
    - (L6) the digits of an initial value may be missing: the value is 0;
    - (L7) layout after the first word of an expression statement is dropped,
      even if two words are joined by that;
    - (L8) the value of a switch needs no parentheses; what follows must not
      go on with it. *)
From Coq Require Import List Ascii String ZArith NArith Lia Bool.
From Verif Require Import Base SpecLex IR Builder Expr Syntax SpecText.
Import ListNotations.
Open Scope Z_scope.

(** Source texts of 7-bit characters without NUL. *)
Definition seven (t : list ascii) : Prop := Forall (fun c => 0 < code c < 128) t.

(** (L1) Names in declarations. *)
Definition xname (x : string) : Prop :=
  Forall ident_char ($x) /\ Forall (fun c => code c < 128) ($x) /\ $x <> [].

(** (L2) Binary operators: text, level, level of the right operand. *)
Definition x_op (op : cop) : option (string * nat * nat) :=
  match op with
  | CBin OShl => Some ("<<", 6, 4)
  | CBin OAShr => Some (">>", 6, 4)
  | _ => bin_op 5 op
  end%string%nat.

(** (L4) Operators and the characters that must not follow at once. *)
Definition x_glue : list (string * ascii) :=
  [("+"%string, "+"%char); ("-"%string, "-"%char); ("/"%string, "*"%char);
   ("="%string, "+"%char); ("="%string, "-"%char); ("="%string, "*"%char); ("="%string, "/"%char); ("="%string, "&"%char)].
Definition x_apart (op : string) (s : list ascii) : Prop := forall c r, s = c :: r -> ~ In (op, c) x_glue.

Inductive xE : nat -> expr -> list ascii -> Prop :=
| xE_num z s : tNum z s -> xE 0 (EInt z) s
| xE_chr z s : tChr z s -> xE 0 (EInt z) s
| xE_str x s : tStr x s -> xE 0 (EStr x) s
| xE_var x : ident x -> xE 0 (EVar x) ($x)
| xE_paren e w1 s w2 : xE 15 e s -> layout w1 -> layout w2 ->
    xE 0 (EParen e) ($"(" ++ w1 ++ s ++ w2 ++ $")")
| xE_idx a sa w i w1 si w2 : xE 1 a sa -> xE 15 i si -> layout w -> layout w1 -> layout w2 ->
    xE 1 (EIdx a i) (sa ++ w ++ $"[" ++ w1 ++ si ++ w2 ++ $"]")
| xE_callx x w args sl : ident x -> xA args sl -> layout w ->
    xE 1 (ECall (ECallee x) args) ($x ++ w ++ $"(" ++ sl)
| xE_call f sf w args sl : xE 1 f sf -> (forall x, f <> EVar x) -> xA args sl -> layout w ->
    xE 1 (ECall f args) (sf ++ w ++ $"(" ++ sl)
| xE_post op x a sa w : xE 1 a sa -> incdec op = Some x -> layout w -> xE 1 (EPost op a) (sa ++ w ++ $x)
| xE_pre op x a sa w : xE 2 a sa -> incdec op = Some x -> layout w -> xE 2 (EPre op a) ($x ++ w ++ sa)
| xE_not a sa w : xE 2 a sa -> layout w -> xE 2 (ENot a) ($"!" ++ w ++ sa)
| xE_neg a sa w : xE 2 a sa -> layout w -> x_apart "-" (w ++ sa) -> xE 2 (ENeg a) ($"-" ++ w ++ sa)
| xE_deref a sa w : xE 2 a sa -> layout w -> xE 2 (EDeref a) ($"*" ++ w ++ sa)
| xE_addr a sa w : xE 2 a sa -> layout w -> xE 2 (EAddr a) ($"&" ++ w ++ sa)
| xE_bin op x l r a sa w1 w2 b sb : x_op op = Some (x, l, r) -> xE l a sa -> xE r b sb ->
    layout w1 -> layout w2 -> x_apart x (w2 ++ sb) ->
    xE l (EBin op a b) (sa ++ w1 ++ $x ++ w2 ++ sb)
| xE_cond a sa w1 w2 b sb w3 w4 d sd : xE 12 a sa -> xE 12 b sb -> xE 13 d sd ->
    layout w1 -> layout w2 -> layout w3 -> layout w4 ->
    xE 13 (ECond a b d) (sa ++ w1 ++ $"?" ++ w2 ++ sb ++ w3 ++ $":" ++ w4 ++ sd)
| xE_asg op a sa w1 w2 b sb : xE 12 a sa -> xE 14 b sb -> layout w1 -> layout w2 ->
    x_apart (asg_op op) (w2 ++ sb) ->
    xE 14 (EAsg op a b) (sa ++ w1 ++ $(asg_op op) ++ w2 ++ sb)
| xE_up l l' e s : xE l e s -> (l <= l')%nat -> xE l' e s
(** Arguments, after the opening parenthesis; (L3). *)
with xA : exprs -> list ascii -> Prop :=
| xA_nil : xA ENil ($")")
| xA_one e w1 s w2 : xE 15 e s -> layout w1 -> layout w2 -> xA (ECons e ENil) (w1 ++ s ++ w2 ++ $")")
| xA_cons e w1 s w2 l sl : xE 15 e s -> layout w1 -> layout w2 -> xA l sl ->
    xA (ECons e l) (w1 ++ s ++ w2 ++ $"," ++ sl).
Scheme xE_mut := Induction for xE Sort Prop with xA_mut := Induction for xA Sort Prop.
Combined Scheme xE_xA_ind from xE_mut, xA_mut.

(** The declarators of auto. *)
Inductive xAuto : string -> Z -> list ascii -> Prop :=
| xAuto_word x : xname x -> xAuto x (-1) ($x)
| xAuto_vec x z w1 w2 s w3 : xname x -> (tNum z s \/ tChr z s \/ z = 0 /\ s = []) ->
    layout w1 -> layout w2 -> layout w3 ->
    xAuto x z ($x ++ w1 ++ $"[" ++ w2 ++ s ++ w3 ++ $"]").
Inductive xAutos : list (string * Z) -> list ascii -> Prop :=
| xAutos_end x z s w : xAuto x z s -> layout w -> xAutos [(x, z)] (s ++ w ++ $";")
| xAutos_more x z s w1 w2 r sr : xAuto x z s -> layout w1 -> layout w2 -> xAutos r sr ->
    xAutos ((x, z) :: r) (s ++ w1 ++ $"," ++ w2 ++ sr).
(** Lists of names, with the closing character. *)
Inductive xNames (close : ascii) : list string -> list ascii -> Prop :=
| xNames_end x w : xname x -> layout w -> xNames close [x] ($x ++ w ++ [close])
| xNames_more x w1 w2 r sr : xname x -> layout w1 -> layout w2 -> xNames close r sr ->
    xNames close (x :: r) ($x ++ w1 ++ $"," ++ w2 ++ sr).

(** [joins s u]: the last word or number of [s] would go on with the beginning
    of [u]. *)
Definition joins (s u : list ascii) : Prop := exists p c t d r, s = p ++ c :: t /\ u = d :: r /\
  (p = [] \/ exists p' b, p = p' ++ [b] /\ ~ ident_char b) /\
  Forall ident_char (c :: t) /\ ident_char d /\ (digit c -> digit d).
(** [then_ s]: a word may end where [s] begins. *)
Definition then_ (s : list ascii) : Prop := not_starting ident_char s.

Inductive xS : stmt -> list ascii -> Prop :=
| xS_null : xS SNull ($";")
| xS_expr e s w : xE 15 e s -> not_starting letter s -> layout w -> xS (SExpr e) (s ++ w ++ $";")
(** (L7) [x] is the first word of the statement; what is read is [x ++ y]. *)
| xS_word e x y s w w2 : ident x -> ~ In x keywords -> layout w -> then_ (w ++ y) -> not_starting (eq ":"%char) y ->
    $x ++ y = s ++ w2 ++ $";" -> xE 15 e s -> layout w2 ->
    xS (SExpr e) ($x ++ w ++ y)
| xS_block l w sl : layout w -> xL l sl -> xS (SBlock l) ($"{" ++ w ++ sl)
| xS_return w : layout w -> xS (SReturn None) ($"return" ++ w ++ $";")
| xS_returne e w w1 s w2 w3 : xE 15 e s -> layout w -> layout w1 -> layout w2 -> layout w3 ->
    xS (SReturn (Some e)) ($"return" ++ w ++ $"(" ++ w1 ++ s ++ w2 ++ $")" ++ w3 ++ $";")
| xS_auto w ds s : layout w -> xAutos ds s -> then_ (w ++ s) -> xS (SAuto ds) ($"auto" ++ w ++ s)
| xS_extrn w ns s : layout w -> xNames ";" ns s -> then_ (w ++ s) -> xS (SExtrn ns) ($"extrn" ++ w ++ s)
| xS_if e w w1 se w2 w3 s1 ss1 : xE 15 e se -> xS s1 ss1 -> layout w -> layout w1 -> layout w2 -> layout w3 ->
    xS (SIf e s1) ($"if" ++ w ++ $"(" ++ w1 ++ se ++ w2 ++ $")" ++ w3 ++ ss1)
(** (L5) *)
| xS_ifelse e w w1 se w2 w3 s1 ss1 w4 b w5 s2 ss2 : xE 15 e se -> xS s1 ss1 -> xS s2 ss2 -> openif s1 = false ->
    layout w -> layout w1 -> layout w2 -> layout w3 -> layout w4 -> ~ letter b -> ~ digit b -> layout w5 ->
    xS (SIfElse e s1 s2) ($"if" ++ w ++ $"(" ++ w1 ++ se ++ w2 ++ $")" ++ w3 ++ ss1 ++ w4 ++ $"else" ++ [b] ++ w5 ++ ss2)
| xS_while e w w1 se w2 w3 s1 ss1 : xE 15 e se -> xS s1 ss1 -> layout w -> layout w1 -> layout w2 -> layout w3 ->
    xS (SWhile e s1) ($"while" ++ w ++ $"(" ++ w1 ++ se ++ w2 ++ $")" ++ w3 ++ ss1)
(** (L8) *)
| xS_switch e w se w3 s1 ss1 : xE 15 e se -> xS s1 ss1 -> layout w -> layout w3 -> then_ (w ++ se) ->
    ~ joins se (w3 ++ ss1) -> not_starting (fun c => In c ["("; "!"; "-"; "+"; "*"; "&"]%char) ss1 ->
    xS (SSwitch e s1) ($"switch" ++ w ++ se ++ w3 ++ ss1)
| xS_case z w sz w2 w3 s1 ss1 : layout w -> (tNum z sz \/ tChr z sz) -> then_ (w ++ sz) -> xS s1 ss1 -> layout w2 -> layout w3 ->
    xS (SCase z s1) ($"case" ++ w ++ sz ++ w2 ++ $":" ++ w3 ++ ss1)
| xS_goto x w w2 : layout w -> xname x -> then_ (w ++ $x) -> layout w2 -> xS (SGoto x) ($"goto" ++ w ++ $x ++ w2 ++ $";")
| xS_label x w w2 s1 ss1 : ident x -> ~ In x keywords -> xS s1 ss1 -> layout w -> layout w2 ->
    xS (SLabel x s1) ($x ++ w ++ $":" ++ w2 ++ ss1)
(** Statements up to the closing brace. *)
with xL : stmts -> list ascii -> Prop :=
| xL_nil : xL SNil ($"}")
| xL_cons s ss w l sl : xS s ss -> layout w -> xL l sl -> (openif s = true -> noelse sl) ->
    xL (SCons s l) (ss ++ w ++ sl).
Scheme xS_mut := Induction for xS Sort Prop with xL_mut := Induction for xL Sort Prop.
Combined Scheme xS_xL_ind from xS_mut, xL_mut.

(** Initial values; (L6). *)
Definition xNum (z : Z) (s : list ascii) : Prop := tNum z s \/ z = 0 /\ s = [].
Inductive xIval : ival -> list ascii -> Prop :=
| xIval_num z s : xNum z s -> xIval (IvInt z) s
| xIval_neg z z' w s : xNum z s -> layout w -> is_word z' (- z) -> xIval (IvInt z') ($"-" ++ w ++ s)
| xIval_chr z s : tChr z s -> xIval (IvInt z) s
| xIval_str x s : tStr x s -> xIval (IvStr x) s.
(** One or more of them, up to the semicolon. *)
Inductive xIvals : list ival -> list ascii -> Prop :=
| xIvals_end v s w : xIval v s -> layout w -> xIvals [v] (s ++ w ++ $";")
| xIvals_more v s w1 w2 r sr : xIval v s -> layout w1 -> layout w2 -> xIvals r sr ->
    xIvals (v :: r) (s ++ w1 ++ $"," ++ w2 ++ sr).

Inductive xD : decl -> list ascii -> Prop :=
| xD_word x : xname x -> xD (DGlobal x []) ($x ++ $";")
| xD_init x w vs s : xname x -> layout w -> xIvals vs s -> then_ (w ++ s) -> not_starting (eq ";"%char) (w ++ s) -> xD (DGlobal x vs) ($x ++ w ++ s)
| xD_vec x z w1 sz w2 w3 vs s : xname x -> layout w1 -> layout w2 -> layout w3 ->
    xNum z sz -> (xIvals vs s /\ token_start s /\ not_starting (eq ";"%char) s \/ vs = [] /\ s = $";") ->
    xD (DVector x z vs) ($x ++ $"[" ++ w1 ++ sz ++ w2 ++ $"]" ++ w3 ++ s)
| xD_fun0 x w b sb : xname x -> layout w -> xS b sb ->
    xD (DFunction x [] b) ($x ++ $"()" ++ w ++ sb)
| xD_fun x w1 ps sp w b sb : xname x -> layout w1 -> xNames ")" ps sp -> layout w -> xS b sb ->
    xD (DFunction x ps b) ($x ++ $"(" ++ w1 ++ sp ++ w ++ sb).

(** Files, after leading layout. *)
Inductive xP : list decl -> list ascii -> Prop :=
| xP_nil : xP [] []
| xP_cons d s w r sr : xD d s -> layout w -> xP r sr -> (openifD d = true -> noelse sr) -> xP (d :: r) (s ++ w ++ sr).

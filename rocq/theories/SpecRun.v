(** * SpecRun: how the statements of a function are executed, as rules
    The same language as in SpecSem.v, by rules without bounds. Each statement
    first gets its place in the function: the names known there and the number
    of string literals before it. A jump continues with what the function
    still has to do from the label on ([at_label]), the selection of a case with
    the rest of the switch from the case on ([at_case]). *)
From Coq Require Import List Ascii String ZArith Bool.
From Verif Require Import Base IR Builder Expr Syntax SpecSem.
Import ListNotations.
Open Scope Z_scope.

Inductive placed : Type :=
| RNull
| RExpr (sc : scope) (k : Z) (e : expr)
| RReturn (sc : scope) (k : Z) (o : option expr)
| RAuto (l : list (string * Z))
| RSeq (a b : placed)
| RIf (sc : scope) (k : Z) (e : expr) (a b : placed)
| RWhile (sc : scope) (k : Z) (e : expr) (a : placed)
| RSwitch (sc : scope) (k : Z) (e : expr) (a : placed)
| RCase (z : Z) (a : placed)
| RLabel (l : string) (a : placed)
| RGoto (l : string).
Fixpoint place (sc : scope) (k : Z) (s : stmt) : placed :=
  match s with
  | SNull | SExtrn _ => RNull
  | SExpr e => RExpr sc k e
  | SReturn o => RReturn sc k o
  | SAuto l => RAuto l
  | SBlock l => placeL sc k l
  | SIf e s1 => RIf sc k e (place sc (k + lits e) s1) RNull
  | SIfElse e s1 s2 => RIf sc k e (place sc (k + lits e) s1) (place (after sc s1) (k + lits e + litsS s1) s2)
  | SWhile e s1 => RWhile sc k e (place sc (k + lits e) s1)
  | SSwitch e s1 => RSwitch sc k e (place sc (k + lits e) s1)
  | SCase z s1 => RCase z (place sc k s1)
  | SLabel l s1 => RLabel l (place sc k s1)
  | SGoto l => RGoto l
  end
with placeL (sc : scope) (k : Z) (l : stmts) : placed :=
  match l with
  | SNil => RNull
  | SCons s rest => RSeq (place sc k s) (placeL (after sc s) (k + litsS s) rest)
  end.

(** What is to be done from a label on. *)
Fixpoint at_label (l : string) (s : placed) : option placed :=
  match s with
  | RLabel x a => if String.eqb l x then Some a else at_label l a
  | RCase _ a | RSwitch _ _ _ a => at_label l a
  | RSeq a b => match at_label l a with Some a' => Some (RSeq a' b) | None => at_label l b end
  | RIf _ _ _ a b => match at_label l a with Some a' => Some a' | None => at_label l b end
  | RWhile sc k e a => match at_label l a with Some a' => Some (RSeq a' (RWhile sc k e a)) | None => None end
  | RNull | RExpr _ _ _ | RReturn _ _ _ | RAuto _ | RGoto _ => None
  end.
(** What is to be done in the body of a switch from a case on. *)
Fixpoint at_case (z : Z) (s : placed) : option placed :=
  match s with
  | RCase y a => if z =? y then Some a else at_case z a
  | RLabel _ a => at_case z a
  | RSeq a b => match at_case z a with Some a' => Some (RSeq a' b) | None => at_case z b end
  | RNull | RExpr _ _ _ | RReturn _ _ _ | RAuto _ | RGoto _ | RIf _ _ _ _ _ | RWhile _ _ _ _ | RSwitch _ _ _ _ => None
  end.
(** The expression a statement begins with. *)
Definition begins (s : placed) : option (scope * Z * expr) :=
  match s with
  | RExpr sc k e | RReturn sc k (Some e) | RIf sc k e _ _ | RWhile sc k e _ | RSwitch sc k e _ => Some (sc, k, e)
  | _ => None
  end.

Section Rules.
Context {W : Type}.
Variable H : host W.
Variable locals : bool.
Variable call : string -> list Z -> act W Z.

(** A statement leaves ([Fall]: at its end), with the variables, the memory and
    the world as they are then; or the process ends. *)
Inductive outcome : Type :=
| Leaves (f : flow) (r : env) (m : memory) (w : W)
| Exits (z : Z) (w : W).
Definition falls (o : outcome) : Prop := match o with Leaves Fall _ _ _ => True | _ => False end.

Inductive goes : placed -> env -> memory -> W -> outcome -> Prop :=
| go_null r m w : goes RNull r m w (Leaves Fall r m w)
| go_expr sc k e r m w v m' w' : rvalue H locals call sc r k e m w = Val v m' w' ->
    goes (RExpr sc k e) r m w (Leaves Fall r m' w')
| go_auto l r m w r' m' w' : automatics H l r m w = Val r' m' w' -> goes (RAuto l) r m w (Leaves Fall r' m' w')
| go_seq a b r m w r1 m1 w1 o : goes a r m w (Leaves Fall r1 m1 w1) -> goes b r1 m1 w1 o -> goes (RSeq a b) r m w o
| go_seq_left a b r m w o : goes a r m w o -> ~ falls o -> goes (RSeq a b) r m w o
| go_if sc k e a b r m w v m1 w1 o : rvalue H locals call sc r k e m w = Val v m1 w1 ->
    goes (if v =? 0 then b else a) r m1 w1 o -> goes (RIf sc k e a b) r m w o
| go_while_end sc k e a r m w m1 w1 : rvalue H locals call sc r k e m w = Val 0 m1 w1 ->
    goes (RWhile sc k e a) r m w (Leaves Fall r m1 w1)
| go_while sc k e a r m w v m1 w1 r2 m2 w2 o : rvalue H locals call sc r k e m w = Val v m1 w1 -> v <> 0 ->
    goes a r m1 w1 (Leaves Fall r2 m2 w2) -> goes (RWhile sc k e a) r2 m2 w2 o -> goes (RWhile sc k e a) r m w o
| go_while_left sc k e a r m w v m1 w1 o : rvalue H locals call sc r k e m w = Val v m1 w1 -> v <> 0 ->
    goes a r m1 w1 o -> ~ falls o -> goes (RWhile sc k e a) r m w o
| go_switch sc k e a r m w v m1 w1 b o : rvalue H locals call sc r k e m w = Val v m1 w1 -> at_case v a = Some b ->
    goes b r m1 w1 o -> goes (RSwitch sc k e a) r m w o
| go_switch_none sc k e a r m w v m1 w1 : rvalue H locals call sc r k e m w = Val v m1 w1 -> at_case v a = None ->
    goes (RSwitch sc k e a) r m w (Leaves Fall r m1 w1)
| go_case z a r m w o : goes a r m w o -> goes (RCase z a) r m w o
| go_label l a r m w o : goes a r m w o -> goes (RLabel l a) r m w o
| go_goto l r m w : goes (RGoto l) r m w (Leaves (Jump l) r m w)
| go_return sc k e r m w v m' w' : rvalue H locals call sc r k e m w = Val v m' w' ->
    goes (RReturn sc k (Some e)) r m w (Leaves (Return v) r m' w')
| go_return0 sc k r m w : goes (RReturn sc k None) r m w (Leaves (Return 0) r m w)
| go_exit s sc k e r m w z w' : begins s = Some (sc, k, e) -> rvalue H locals call sc r k e m w = Halt z w' ->
    goes s r m w (Exits z w').

(** The function [body] completes, [s] being what is still to be done. *)
Inductive completes (body : placed) : placed -> env -> memory -> W -> xres W -> Prop :=
| co_end s r m w r' m' w' : goes s r m w (Leaves Fall r' m' w') -> completes body s r m w (XRet 0 m' w')
| co_return s r m w z r' m' w' : goes s r m w (Leaves (Return z) r' m' w') -> completes body s r m w (XRet z m' w')
| co_exit s r m w z w' : goes s r m w (Exits z w') -> completes body s r m w (XExit z w')
| co_goto s r m w l r' m' w' s' x : goes s r m w (Leaves (Jump l) r' m' w') -> at_label l body = Some s' ->
    completes body s' r' m' w' x -> completes body s r m w x.
(** From one point of the function, by any number of jumps, to another. *)
Inductive reaches (body : placed) : placed -> env -> memory -> W -> placed -> env -> memory -> W -> Prop :=
| re_here s r m w : reaches body s r m w s r m w
| re_goto s r m w l r1 m1 w1 s1 s2 r2 m2 w2 : goes s r m w (Leaves (Jump l) r1 m1 w1) -> at_label l body = Some s1 ->
    reaches body s1 r1 m1 w1 s2 r2 m2 w2 -> reaches body s r m w s2 r2 m2 w2.
End Rules.

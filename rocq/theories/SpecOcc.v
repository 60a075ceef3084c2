(** * SpecOcc: what occurs in a program tree *)
From Coq Require Import List String ZArith Bool.
From Verif Require Import Base IR Expr Syntax.
Import ListNotations.

(** All subexpressions of an expression, itself included. *)
Fixpoint subE (e : expr) : list expr :=
  e :: match e with
       | EInt _ | EStr _ | EVar _ | ECallee _ => []
       | EParen a | EPost _ a | EPre _ a | EAddr a | ENot a | ENeg a | EDeref a => subE a
       | EIdx a b | EBin _ a b | EAsg _ a b => subE a ++ subE b
       | ECall f args => subE f ++ subEs args
       | ECond a b c => subE a ++ subE b ++ subE c
       end
with subEs (l : exprs) : list expr :=
  match l with ENil => [] | ECons e r => subE e ++ subEs r end.
(** All expressions of a statement. *)
Fixpoint exprsS (s : stmt) : list expr :=
  match s with
  | SNull | SReturn None | SGoto _ | SAuto _ | SExtrn _ => []
  | SExpr e | SReturn (Some e) => subE e
  | SBlock l => exprsL l
  | SIf e s1 | SWhile e s1 | SSwitch e s1 => subE e ++ exprsS s1
  | SIfElse e s1 s2 => subE e ++ exprsS s1 ++ exprsS s2
  | SCase _ s1 | SLabel _ s1 => exprsS s1
  end
with exprsL (l : stmts) : list expr := match l with SNil => [] | SCons s r => exprsS s ++ exprsL r end.
(** The names declared by auto and by extrn, in the order of the text. *)
Fixpoint autosS (s : stmt) : list string :=
  match s with
  | SAuto ds => map fst ds
  | SBlock l => autosL l
  | SIf _ s1 | SWhile _ s1 | SSwitch _ s1 | SCase _ s1 | SLabel _ s1 => autosS s1
  | SIfElse _ s1 s2 => autosS s1 ++ autosS s2
  | _ => []
  end
with autosL (l : stmts) : list string := match l with SNil => [] | SCons s r => autosS s ++ autosL r end.
Fixpoint extrnsS (s : stmt) : list string :=
  match s with
  | SExtrn ns => ns
  | SBlock l => extrnsL l
  | SIf _ s1 | SWhile _ s1 | SSwitch _ s1 | SCase _ s1 | SLabel _ s1 => extrnsS s1
  | SIfElse _ s1 s2 => extrnsS s1 ++ extrnsS s2
  | _ => []
  end
with extrnsL (l : stmts) : list string := match l with SNil => [] | SCons s r => extrnsS s ++ extrnsL r end.
(** A case label that belongs to no switch: between it and the enclosing
    switch, if any, there is an if or while. *)
Inductive stray : stmt -> Prop :=
| stray_case z s : stray (SCase z s)
| stray_label x s : stray s -> stray (SLabel x s)
| stray_block l s : inL s l -> stray s -> stray (SBlock l)
| stray_if e s : stray s -> stray (SIf e s)
| stray_then e s s2 : stray s -> stray (SIfElse e s s2)
| stray_else e s1 s : stray s -> stray (SIfElse e s1 s)
| stray_while e s : stray s -> stray (SWhile e s)
| stray_switch e s : stray_under s -> stray (SSwitch e s)
(** The same for the body of a switch. *)
with stray_under : stmt -> Prop :=
| under_case z s : stray_under s -> stray_under (SCase z s)
| under_label x s : stray_under s -> stray_under (SLabel x s)
| under_block l s : inL s l -> stray_under s -> stray_under (SBlock l)
| under_if e s : stray s -> stray_under (SIf e s)
| under_then e s s2 : stray s -> stray_under (SIfElse e s s2)
| under_else e s1 s : stray s -> stray_under (SIfElse e s1 s)
| under_while e s : stray s -> stray_under (SWhile e s)
| under_switch e s : stray_under s -> stray_under (SSwitch e s)
with inL : stmt -> stmts -> Prop :=
| inL_here s r : inL s (SCons s r)
| inL_later s s' r : inL s r -> inL s (SCons s' r).

(** What a file says about functions and variables, in the order of the text. *)
Inductive event := FunDef (x : string) | Called (x : string) | VarDef (x : string) | Extrn (x : string).
Definition callsE (e : expr) : list event :=
  flat_map (fun e => match e with ECall (ECallee x) _ => [Called x] | _ => [] end) (subE e).
Fixpoint eventsS (s : stmt) : list event :=
  match s with
  | SNull | SReturn None | SGoto _ | SAuto _ => []
  | SExtrn ns => map Extrn ns
  | SExpr e | SReturn (Some e) => callsE e
  | SBlock l => eventsL l
  | SIf e s1 | SWhile e s1 | SSwitch e s1 => callsE e ++ eventsS s1
  | SIfElse e s1 s2 => callsE e ++ eventsS s1 ++ eventsS s2
  | SCase _ s1 | SLabel _ s1 => eventsS s1
  end
with eventsL (l : stmts) : list event := match l with SNil => [] | SCons s r => eventsS s ++ eventsL r end.
Definition eventsD (d : decl) : list event :=
  match d with
  | DGlobal x _ | DVector x _ _ => [VarDef x]
  | DFunction x _ b => FunDef x :: eventsS b
  end.
Definition eventsP (ds : list decl) : list event := flat_map eventsD ds.

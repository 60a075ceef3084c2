(** * SpecTree: what a source tree contains *)
From Coq Require Import List Ascii String ZArith.
From Verif Require Import Base IR Syntax.
Import ListNotations.

(** The labels a statement jumps to, and the labels it defines. *)
Fixpoint gotos (s : stmt) : list string :=
  match s with
  | SGoto n => [n]
  | SBlock l => gotosL l
  | SIf _ s1 | SWhile _ s1 | SSwitch _ s1 | SCase _ s1 | SLabel _ s1 => gotos s1
  | SIfElse _ s1 s2 => gotos s1 ++ gotos s2
  | SNull | SExpr _ | SReturn _ | SAuto _ | SExtrn _ => []
  end
with gotosL (l : stmts) : list string :=
  match l with SNil => [] | SCons s r => gotos s ++ gotosL r end.
Fixpoint labels (s : stmt) : list string :=
  match s with
  | SLabel n s1 => n :: labels s1
  | SBlock l => labelsL l
  | SIf _ s1 | SWhile _ s1 | SSwitch _ s1 | SCase _ s1 => labels s1
  | SIfElse _ s1 s2 => labels s1 ++ labels s2
  | SNull | SExpr _ | SReturn _ | SAuto _ | SExtrn _ | SGoto _ => []
  end
with labelsL (l : stmts) : list string :=
  match l with SNil => [] | SCons s r => labels s ++ labelsL r end.

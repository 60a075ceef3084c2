(** * SpecLink: how the names of a program and the symbols of its module are linked *)
From Coq Require Import List Ascii String ZArith Bool.
From Verif Require Import Base IR Builder Syntax SpecSem IRSem.
Import ListNotations.
Open Scope Z_scope.

(** The reference semantics and the generated code run on the same machine: new
    objects get the same addresses, the object or function [x] is at the symbol
    [globalName x], the k-th literal at [.str.k], a function is found at its
    own address, and the outside functions do the same. *)
Record linked {W} (H : host W) (I : ihost W) (M : module_) : Prop := {
  lk_place : forall m n, i_place I m n = h_place H m n;
  lk_addr : forall x, i_sym I (globalName x) = h_addr H x;
  lk_lit : forall k, i_sym I (".str." ++ dec k) = h_lit H k;
  lk_fun : forall a x, h_fun H a = Some x -> i_fun I a = Some (globalName x);
  lk_self : forall f x, In f (m_funcs M) -> f_name f = globalName x -> i_fun I (i_sym I (f_name f)) = Some (f_name f);
  lk_ext : forall x args m w, i_ext I (globalName x) args m w = h_ext H x args m w
}.

(** The names called by an expression. *)
Fixpoint callees (e : expr) : list string :=
  match e with
  | EInt _ | EStr _ | EVar _ => []
  | ECallee x => [x]
  | EParen a | EPost _ a | EPre _ a | ENot a | ENeg a | EDeref a | EAddr a => callees a
  | EIdx a b | EBin _ a b | EAsg _ a b => callees a ++ callees b
  | ECond a b c => callees a ++ callees b ++ callees c
  | ECall f l => callees f ++ calleesA l
  end
with calleesA (l : exprs) : list string :=
  match l with ENil => [] | ECons e r => callees e ++ calleesA r end.
(** None of these names is a local variable, if this matters. *)
Definition noloc (locals : bool) (sc : scope) (l : list string) : Prop := locals = true -> forall x, In x l -> inb x (sc_loc sc) = false.
(** No call in [s] names a local variable as the function. *)
Fixpoint direct (locals : bool) (sc : scope) (s : stmt) : Prop :=
  match s with
  | SNull | SReturn None | SAuto _ | SExtrn _ | SGoto _ => True
  | SExpr e | SReturn (Some e) => noloc locals sc (callees e)
  | SBlock l => directL locals sc l
  | SIf e s1 | SWhile e s1 | SSwitch e s1 => noloc locals sc (callees e) /\ direct locals sc s1
  | SIfElse e s1 s2 => noloc locals sc (callees e) /\ direct locals sc s1 /\ direct locals (after sc s1) s2
  | SCase _ s1 | SLabel _ s1 => direct locals sc s1
  end
with directL (locals : bool) (sc : scope) (l : stmts) : Prop :=
  match l with SNil => True | SCons s r => direct locals sc s /\ directL locals (after sc s) r end.

(** Code directly after a [return]: [ends b s], does the code of [s] end in a
    return, if the code before it does so for [b]; [tidy b s], no code follows
    a return except under a label or a case. *)
Fixpoint ends (b : bool) (s : stmt) : bool :=
  match s with
  | SNull | SExtrn _ => b
  | SReturn _ => true
  | SBlock l => endsL b l
  | SCase _ s1 | SLabel _ s1 => ends false s1
  | SExpr _ | SAuto _ | SIf _ _ | SIfElse _ _ _ | SWhile _ _ | SSwitch _ _ | SGoto _ => false
  end
with endsL (b : bool) (l : stmts) : bool :=
  match l with SNil => b | SCons s r => endsL (ends b s) r end.
Fixpoint tidy (b : bool) (s : stmt) : Prop :=
  match s with
  | SNull | SExtrn _ => True
  | SExpr _ | SAuto _ | SReturn _ | SGoto _ => b = false
  | SBlock l => tidyL b l
  | SIf _ s1 | SWhile _ s1 | SSwitch _ s1 => b = false /\ tidy false s1
  | SIfElse _ s1 s2 => b = false /\ tidy false s1 /\ tidy false s2
  | SCase _ s1 | SLabel _ s1 => tidy false s1
  end
with tidyL (b : bool) (l : stmts) : Prop :=
  match l with SNil => True | SCons s r => tidy b s /\ tidyL (ends b s) r end.
(** No switch has two equal cases. *)
Fixpoint onecase (s : stmt) : Prop :=
  match s with
  | SNull | SExpr _ | SReturn _ | SAuto _ | SExtrn _ | SGoto _ => True
  | SBlock l => onecaseL l
  | SIf _ s1 | SWhile _ s1 | SCase _ s1 | SLabel _ s1 => onecase s1
  | SSwitch _ s1 => NoDup (cases s1) /\ onecase s1
  | SIfElse _ s1 s2 => onecase s1 /\ onecase s2
  end
with onecaseL (l : stmts) : Prop :=
  match l with SNil => True | SCons s r => onecase s /\ onecaseL r end.

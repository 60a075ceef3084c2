(** * SpecOwn: functions that assign only to variables of their own
    [ownS sc s]: the targets of all assignments and steps in [s] are parameters
    or automatic variables by name; [sc] are the names in force. *)
From Coq Require Import List Ascii String ZArith Bool.
From Verif Require Import Base IR Expr Syntax SpecSem MemFacts.
Import ListNotations.
Open Scope Z_scope.

Definition own_target (sc : scope) (e : expr) : bool := match e with EVar x => inb x (sc_loc sc) | _ => false end.
Fixpoint ownE (sc : scope) (e : expr) : bool :=
  match e with
  | EInt _ | EStr _ | EVar _ | ECallee _ => true
  | EParen a | ENot a | ENeg a | EDeref a | EAddr a => ownE sc a
  | EIdx a b | EBin _ a b => ownE sc a && ownE sc b
  | ECall f l => ownE sc f && ownA sc l
  | EPost _ a | EPre _ a => own_target sc a
  | ECond a b c => ownE sc a && ownE sc b && ownE sc c
  | EAsg _ a b => own_target sc a && ownE sc b
  end
with ownA (sc : scope) (l : exprs) : bool :=
  match l with ENil => true | ECons e r => ownE sc e && ownA sc r end.
Fixpoint ownS (sc : scope) (s : stmt) : bool :=
  match s with
  | SNull | SAuto _ | SExtrn _ | SGoto _ | SReturn None => true
  | SExpr e | SReturn (Some e) => ownE sc e
  | SBlock l => ownL sc l
  | SIf e s1 | SWhile e s1 | SSwitch e s1 => ownE sc e && ownS sc s1
  | SIfElse e s1 s2 => ownE sc e && ownS sc s1 && ownS (after sc s1) s2
  | SCase _ s1 | SLabel _ s1 => ownS sc s1
  end
with ownL (sc : scope) (l : stmts) : bool :=
  match l with SNil => true | SCons s r => ownS sc s && ownL (after sc s) r end.
Definition ownD (d : decl) : Prop :=
  match d with DFunction _ ps s => ownS (mkScope (rev ps) []) s = true | _ => True end.

(** What a call may do: the words there were keep their contents, no static
    object disappears, the world changes as [R] allows. *)
Definition harmless {W} (R : W -> W -> Prop) (m : memory) (w : W) (r : xres W) : Prop :=
  match r with
  | XRet _ m' w' => kept m m' /\ incl (m_static m) (m_static m') /\ R w w'
  | XExit _ w' => R w w'
  end.

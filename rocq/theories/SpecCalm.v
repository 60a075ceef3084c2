(** * SpecCalm: programs without loops, jumps and recursion
    [calmS may sc s]: [s] has no while and no goto, and calls, by name, only
    functions that [may] allows; [sc] are the variables in force. *)
From Coq Require Import List Ascii String ZArith Bool.
From Verif Require Import Base IR Expr Syntax SpecSem.
Import ListNotations.
Open Scope Z_scope.

Fixpoint calmE (may : string -> bool) (sc : scope) (e : expr) : bool :=
  match e with
  | EInt _ | EStr _ | EVar _ | ECallee _ => true
  | EParen a | ENot a | ENeg a | EDeref a | EAddr a | EPost _ a | EPre _ a => calmE may sc a
  | EIdx a b | EBin _ a b | EAsg _ a b => calmE may sc a && calmE may sc b
  | ECall (ECallee x) l => may x && negb (inb x (sc_loc sc)) && negb (inb x (sc_ext sc)) && calmA may sc l
  | ECall _ _ => false
  | ECond a b c => calmE may sc a && calmE may sc b && calmE may sc c
  end
with calmA (may : string -> bool) (sc : scope) (l : exprs) : bool :=
  match l with ENil => true | ECons e r => calmE may sc e && calmA may sc r end.
Fixpoint calmS (may : string -> bool) (sc : scope) (s : stmt) : bool :=
  match s with
  | SNull | SAuto _ | SExtrn _ | SReturn None => true
  | SExpr e | SReturn (Some e) => calmE may sc e
  | SBlock l => calmL may sc l
  | SIf e s1 | SSwitch e s1 => calmE may sc e && calmS may sc s1
  | SIfElse e s1 s2 => calmE may sc e && calmS may sc s1 && calmS may (after sc s1) s2
  | SCase _ s1 | SLabel _ s1 => calmS may sc s1
  | SWhile _ _ | SGoto _ => false
  end
with calmL (may : string -> bool) (sc : scope) (l : stmts) : bool :=
  match l with SNil => true | SCons s r => calmS may sc s && calmL may (after sc s) r end.
(** Every function calls only functions of a lower rank: there is no recursion. *)
Definition calmD (rank : string -> nat) (d : decl) : Prop :=
  match d with DFunction x ps s => calmS (fun y => Nat.ltb (rank y) (rank x)) (mkScope (rev ps) []) s = true | _ => True end.
Definition calm (ds : list decl) : Prop := exists rank, Forall (calmD rank) ds.

(** * SpecAlpha: programs that differ only in the names of local things
    The names of parameters, automatic variables and labels belong to one
    function; two programs are [alike] if they differ in nothing else. *)
From Coq Require Import List Ascii String ZArith.
From Verif Require Import Base IR Expr Syntax SpecText.
Import ListNotations.
Open Scope Z_scope.

(** The local variables of both functions declared so far, the latest first. *)
Definition pairs := list (string * string).
(** The place of a name in a list. *)
Fixpoint place (x : string) (l : list string) : option nat :=
  match l with
  | [] => None
  | y :: r => if String.eqb x y then Some O else option_map S (place x r)
  end.
(** The names stand for the same: the same local variable, or the same thing
    outside the function. *)
Definition same_name (sc : pairs) (x y : string) : Prop :=
  place x (map fst sc) = place y (map snd sc) /\ (place x (map fst sc) = None -> x = y).

(** Expressions. The name of a call is that of a function, it is never that of
    a local variable. *)
Inductive alikeE (sc : pairs) : expr -> expr -> Prop :=
| al_int z : alikeE sc (EInt z) (EInt z)
| al_str s : alikeE sc (EStr s) (EStr s)
| al_var x y : same_name sc x y -> alikeE sc (EVar x) (EVar y)
| al_callee x : alikeE sc (ECallee x) (ECallee x)
| al_paren a a' : alikeE sc a a' -> alikeE sc (EParen a) (EParen a')
| al_idx a a' i i' : alikeE sc a a' -> alikeE sc i i' -> alikeE sc (EIdx a i) (EIdx a' i')
| al_call f f' l l' : alikeE sc f f' -> alikeA sc l l' -> alikeE sc (ECall f l) (ECall f' l')
| al_post op a a' : alikeE sc a a' -> alikeE sc (EPost op a) (EPost op a')
| al_pre op a a' : alikeE sc a a' -> alikeE sc (EPre op a) (EPre op a')
| al_not a a' : alikeE sc a a' -> alikeE sc (ENot a) (ENot a')
| al_neg a a' : alikeE sc a a' -> alikeE sc (ENeg a) (ENeg a')
| al_deref a a' : alikeE sc a a' -> alikeE sc (EDeref a) (EDeref a')
| al_addr a a' : alikeE sc a a' -> alikeE sc (EAddr a) (EAddr a')
| al_bin op a a' b b' : alikeE sc a a' -> alikeE sc b b' -> alikeE sc (EBin op a b) (EBin op a' b')
| al_cond a a' b b' c c' : alikeE sc a a' -> alikeE sc b b' -> alikeE sc c c' -> alikeE sc (ECond a b c) (ECond a' b' c')
| al_asg op a a' b b' : alikeE sc a a' -> alikeE sc b b' -> alikeE sc (EAsg op a b) (EAsg op a' b')
with alikeA (sc : pairs) : exprs -> exprs -> Prop :=
| al_nil : alikeA sc ENil ENil
| al_cons e e' l l' : alikeE sc e e' -> alikeA sc l l' -> alikeA sc (ECons e l) (ECons e' l').

(** The variables of an auto statement: the same sizes, and a name that is taken
    corresponds to one that is taken. *)
Inductive alikeV : pairs -> list (string * Z) -> list (string * Z) -> pairs -> Prop :=
| al_vnil sc : alikeV sc [] [] sc
| al_vcons sc x y n l l' sc' : (In x (map fst sc) <-> In y (map snd sc)) -> alikeV ((x, y) :: sc) l l' sc' -> alikeV sc ((x, n) :: l) ((y, n) :: l') sc'.

(** Statements, with the variables before and after them; [lab] are the labels of
    the function. *)
Inductive alikeS (lab : pairs) : pairs -> stmt -> stmt -> pairs -> Prop :=
| al_null sc : alikeS lab sc SNull SNull sc
| al_expr sc e e' : alikeE sc e e' -> alikeS lab sc (SExpr e) (SExpr e') sc
| al_block sc l l' sc' : alikeL lab sc l l' sc' -> alikeS lab sc (SBlock l) (SBlock l') sc'
| al_return0 sc : alikeS lab sc (SReturn None) (SReturn None) sc
| al_return sc e e' : alikeE sc e e' -> alikeS lab sc (SReturn (Some e)) (SReturn (Some e')) sc
| al_auto sc l l' sc' : alikeV sc l l' sc' -> alikeS lab sc (SAuto l) (SAuto l') sc'
| al_extrn sc l : alikeS lab sc (SExtrn l) (SExtrn l) sc
| al_if sc e e' s s' sc' : alikeE sc e e' -> alikeS lab sc s s' sc' -> alikeS lab sc (SIf e s) (SIf e' s') sc'
| al_ifelse sc e e' s s' sc' t t' sc'' : alikeE sc e e' -> alikeS lab sc s s' sc' -> alikeS lab sc' t t' sc'' ->
    alikeS lab sc (SIfElse e s t) (SIfElse e' s' t') sc''
| al_while sc e e' s s' sc' : alikeE sc e e' -> alikeS lab sc s s' sc' -> alikeS lab sc (SWhile e s) (SWhile e' s') sc'
| al_switch sc e e' s s' sc' : alikeE sc e e' -> alikeS lab sc s s' sc' -> alikeS lab sc (SSwitch e s) (SSwitch e' s') sc'
| al_case sc z s s' sc' : alikeS lab sc s s' sc' -> alikeS lab sc (SCase z s) (SCase z s') sc'
| al_goto sc x y : In (x, y) lab -> alikeS lab sc (SGoto x) (SGoto y) sc
| al_label sc x y s s' sc' : In (x, y) lab -> alikeS lab sc s s' sc' -> alikeS lab sc (SLabel x s) (SLabel y s') sc'
with alikeL (lab : pairs) : pairs -> stmts -> stmts -> pairs -> Prop :=
| al_snil sc : alikeL lab sc SNil SNil sc
| al_scons sc s s' sc' l l' sc'' : alikeS lab sc s s' sc' -> alikeL lab sc' l l' sc'' -> alikeL lab sc (SCons s l) (SCons s' l') sc''.

(** Each label has one counterpart. *)
Definition labelled (lab : pairs) : Prop :=
  NoDup (map fst lab) /\ NoDup (map snd lab) /\ Forall (fun p => ident (fst p) /\ ident (snd p)) lab.

Inductive alikeD : decl -> decl -> Prop :=
| al_global x l : alikeD (DGlobal x l) (DGlobal x l)
| al_vector x n l : alikeD (DVector x n l) (DVector x n l)
| al_function x ps qs s s' lab sc : List.length ps = List.length qs -> labelled lab -> alikeS lab (rev (combine ps qs)) s s' sc ->
    alikeD (DFunction x ps s) (DFunction x qs s').
Definition alike (ds ds' : list decl) : Prop := Forall2 alikeD ds ds'.

(** ** Modules with the same code *)
(** The same instruction; the name of the parameter of the function does not
    count, there is only one. *)
Definition same_inst (i i' : inst) : Prop :=
  i = i' \/ exists p q a, i = IStore (VParam p) a /\ i' = IStore (VParam q) a.
(** Blocks are known by their place, their names do not count. *)
Definition same_block (b b' : block) : Prop := Forall2 same_inst (b_insts b) (b_insts b') /\ b_term b = b_term b'.
Record same_func (f f' : func) : Prop := {
  sf_name : f_name f = f_name f';
  sf_params : List.length (f_params f) = List.length (f_params f');
  sf_variadic : f_variadic f = f_variadic f';
  sf_void : f_void f = f_void f';
  sf_blocks : Forall2 same_block (f_blocks f) (f_blocks f')
}.
Definition same_code (M M' : module_) : Prop :=
  m_globals M = m_globals M' /\ Forall2 same_func (m_funcs M) (m_funcs M').

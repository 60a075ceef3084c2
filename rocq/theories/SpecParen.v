(** * SpecParen: adding parentheses
    Parentheses may be written around any expression of which only the value is
    used: not around what is assigned to, stepped or has its address taken, and
    not around the name of a function that is called. *)
From Coq Require Import List Ascii String ZArith.
From Verif Require Import Base IR Expr Syntax.
Import ListNotations.
Open Scope Z_scope.

(** [inE e e']: [e'] is [e] with parentheses added inside; [roundE e e']: inside
    or around it. *)
Inductive inE : expr -> expr -> Prop :=
| in_int z : inE (EInt z) (EInt z)
| in_str s : inE (EStr s) (EStr s)
| in_var x : inE (EVar x) (EVar x)
| in_callee x : inE (ECallee x) (ECallee x)
| in_paren a a' : roundE a a' -> inE (EParen a) (EParen a')
| in_idx a a' i i' : roundE a a' -> roundE i i' -> inE (EIdx a i) (EIdx a' i')
| in_call x l l' : inA l l' -> inE (ECall (ECallee x) l) (ECall (ECallee x) l')
| in_callv f f' l l' : (forall x, f <> ECallee x) -> roundE f f' -> inA l l' -> inE (ECall f l) (ECall f' l')
| in_post op a a' : inE a a' -> inE (EPost op a) (EPost op a')
| in_pre op a a' : inE a a' -> inE (EPre op a) (EPre op a')
| in_not a a' : roundE a a' -> inE (ENot a) (ENot a')
| in_neg a a' : roundE a a' -> inE (ENeg a) (ENeg a')
| in_deref a a' : roundE a a' -> inE (EDeref a) (EDeref a')
| in_addr a a' : inE a a' -> inE (EAddr a) (EAddr a')
| in_bin op a a' b b' : roundE a a' -> roundE b b' -> inE (EBin op a b) (EBin op a' b')
| in_cond a a' b b' c c' : roundE a a' -> roundE b b' -> roundE c c' -> inE (ECond a b c) (ECond a' b' c')
| in_asg op a a' b b' : inE a a' -> roundE b b' -> inE (EAsg op a b) (EAsg op a' b')
with roundE : expr -> expr -> Prop :=
| rd_in e e' : inE e e' -> roundE e e'
| rd_add e e' : roundE e e' -> roundE e (EParen e')
with inA : exprs -> exprs -> Prop :=
| in_nil : inA ENil ENil
| in_cons e e' l l' : roundE e e' -> inA l l' -> inA (ECons e l) (ECons e' l').

(** Statements. *)
Inductive inS : stmt -> stmt -> Prop :=
| is_null : inS SNull SNull
| is_expr e e' : roundE e e' -> inS (SExpr e) (SExpr e')
| is_block l l' : inL l l' -> inS (SBlock l) (SBlock l')
| is_return0 : inS (SReturn None) (SReturn None)
| is_return e e' : roundE e e' -> inS (SReturn (Some e)) (SReturn (Some e'))
| is_auto l : inS (SAuto l) (SAuto l)
| is_extrn l : inS (SExtrn l) (SExtrn l)
| is_if e e' s s' : roundE e e' -> inS s s' -> inS (SIf e s) (SIf e' s')
| is_ifelse e e' s s' t t' : roundE e e' -> inS s s' -> inS t t' -> inS (SIfElse e s t) (SIfElse e' s' t')
| is_while e e' s s' : roundE e e' -> inS s s' -> inS (SWhile e s) (SWhile e' s')
| is_switch e e' s s' : roundE e e' -> inS s s' -> inS (SSwitch e s) (SSwitch e' s')
| is_case z s s' : inS s s' -> inS (SCase z s) (SCase z s')
| is_goto x : inS (SGoto x) (SGoto x)
| is_label x s s' : inS s s' -> inS (SLabel x s) (SLabel x s')
with inL : stmts -> stmts -> Prop :=
| is_nil : inL SNil SNil
| is_cons s s' l l' : inS s s' -> inL l l' -> inL (SCons s l) (SCons s' l').

(** Files. *)
Inductive inD : decl -> decl -> Prop :=
| id_global x l : inD (DGlobal x l) (DGlobal x l)
| id_vector x n l : inD (DVector x n l) (DVector x n l)
| id_function x ps s s' : inS s s' -> inD (DFunction x ps s) (DFunction x ps s').
Definition more_parentheses (ds ds' : list decl) : Prop := Forall2 inD ds ds'.

Scheme inE_mind := Induction for inE Sort Prop
with roundE_mind := Induction for roundE Sort Prop
with inA_mind := Induction for inA Sort Prop.
Combined Scheme in_ind3 from inE_mind, roundE_mind, inA_mind.
Scheme inS_mind := Induction for inS Sort Prop
with inL_mind := Induction for inL Sort Prop.
Combined Scheme inS_ind2 from inS_mind, inL_mind.

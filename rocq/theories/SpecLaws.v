(** * SpecLaws: ways of writing that mean the same in B
    [valE]: expressions with the same value and effects; [adrE]: lvalues of the
    same address and effects; [meanS]: statements that do the same. Each is the
    least congruence with the laws listed. *)
From Coq Require Import List Ascii String ZArith.
From Verif Require Import Base IR Expr Syntax SpecSem.
Import ListNotations.
Open Scope Z_scope.

Definition add (a b : expr) : expr := EBin (CBin OAdd) a b.
(** A comparison and its opposite. *)
Inductive opposite : pred -> pred -> Prop :=
| opp_eq : opposite PEQ PNE
| opp_lt : opposite PSLT PSGE
| opp_le : opposite PSLE PSGT.
(** Expressions without assignments, steps, calls and literals: their
    evaluation changes nothing. *)
Inductive pure : expr -> Prop :=
| pure_int z : pure (EInt z)
| pure_var x : pure (EVar x)
| pure_paren a : pure a -> pure (EParen a)
| pure_index a i : pure a -> pure i -> pure (EIdx a i)
| pure_deref a : pure a -> pure (EDeref a)
| pure_addr_var x : pure (EAddr (EVar x))
| pure_addr_index a i : pure a -> pure i -> pure (EAddr (EIdx a i))
| pure_addr_deref a : pure a -> pure (EAddr (EDeref a))
| pure_not a : pure a -> pure (ENot a)
| pure_neg a : pure a -> pure (ENeg a)
| pure_bin op a b : pure a -> pure b -> pure (EBin op a b)
| pure_cond a b c : pure a -> pure b -> pure c -> pure (ECond a b c).
(** Operators whose operands can change places. *)
Inductive swapped : cop -> cop -> Prop :=
| sw_add : swapped (CBin OAdd) (CBin OAdd)
| sw_mul : swapped (CBin OMul) (CBin OMul)
| sw_and : swapped (CBin OAnd) (CBin OAnd)
| sw_or : swapped (CBin OOr) (CBin OOr)
| sw_eq : swapped (CCmp PEQ) (CCmp PEQ)
| sw_ne : swapped (CCmp PNE) (CCmp PNE)
| sw_lt : swapped (CCmp PSLT) (CCmp PSGT)
| sw_le : swapped (CCmp PSLE) (CCmp PSGE).
(** Operators for which the grouping of three operands is free. *)
Inductive grouped : binop -> Prop :=
| gr_add : grouped OAdd
| gr_mul : grouped OMul
| gr_and : grouped OAnd
| gr_or : grouped OOr.

Inductive valE : expr -> expr -> Prop :=
| v_refl e : valE e e
| v_sym e f : valE e f -> valE f e
| v_trans e f g : valE e f -> valE f g -> valE e g
(* the laws *)
| v_paren e : valE (EParen e) e
| v_index a i : valE (EIdx a i) (EDeref (add a (EBin (CBin OMul) (EInt 8) i)))
| v_addr_index a i : valE (EAddr (EIdx a i)) (add a (EBin (CBin OMul) (EInt 8) i))
| v_addr_deref a : valE (EAddr (EDeref a)) a
| v_deref_addr_index a i : valE (EDeref (EAddr (EIdx a i))) (EIdx a i)
| v_deref_addr_deref a : valE (EDeref (EAddr (EDeref a))) (EDeref a)
| v_pre op a : valE (EPre op a) (EAsg (Some (CBin op)) a (EInt 1))
| v_compound op x b : pure b -> valE (EAsg (Some op) (EVar x) b) (EAsg None (EVar x) (EBin op (EVar x) b))
| v_swap op op' a b : pure a -> pure b -> swapped op op' -> valE (EBin op a b) (EBin op' b a)
| v_assoc op a b c : grouped op -> valE (EBin (CBin op) (EBin (CBin op) a b) c) (EBin (CBin op) a (EBin (CBin op) b c))
| v_sub a b : valE (EBin (CBin OSub) a b) (add a (ENeg b))
| v_shift a n : 0 <= n < 63 -> valE (EBin (CBin OShl) a (EInt n)) (EBin (CBin OMul) a (EInt (2 ^ n)))
| v_distribute a b c : pure a -> pure b -> pure c -> valE (EBin (CBin OMul) a (add b c)) (add (EBin (CBin OMul) a b) (EBin (CBin OMul) a c))
| v_cond_not a b c : lits b = 0 -> lits c = 0 -> valE (ECond (ENot a) b c) (ECond a c b)
| v_cond_test a b c : valE (ECond (EBin (CCmp PNE) a (EInt 0)) b c) (ECond a b c)
| v_cond_true z b c : z <> 0 -> lits c = 0 -> valE (ECond (EInt z) b c) b
| v_cond_false b c : lits b = 0 -> valE (ECond (EInt 0) b c) c
| v_not a : valE (ENot a) (EBin (CCmp PEQ) a (EInt 0))
| v_neg a : valE (ENeg a) (EBin (CBin OSub) (EInt 0) a)
| v_opposite p p' a b : opposite p p' -> valE (ENot (EBin (CCmp p) a b)) (EBin (CCmp p') a b)
| v_opposite' p p' a b : opposite p p' -> valE (ENot (EBin (CCmp p') a b)) (EBin (CCmp p) a b)
| v_const op y z v : operate op y z = Some v -> valE (EBin op (EInt y) (EInt z)) (EInt v)
(* congruence *)
| v_idx a a' i i' : valE a a' -> valE i i' -> valE (EIdx a i) (EIdx a' i')
| v_call x l l' : valA l l' -> valE (ECall (ECallee x) l) (ECall (ECallee x) l')
| v_callv f f' l l' : (forall x, f <> ECallee x) -> (forall x, f' <> ECallee x) -> valE f f' -> valA l l' -> valE (ECall f l) (ECall f' l')
| v_post op a a' : adrE a a' -> valE (EPost op a) (EPost op a')
| v_step op a a' : adrE a a' -> valE (EPre op a) (EPre op a')
| v_cnot a a' : valE a a' -> valE (ENot a) (ENot a')
| v_cneg a a' : valE a a' -> valE (ENeg a) (ENeg a')
| v_deref a a' : valE a a' -> valE (EDeref a) (EDeref a')
| v_addr a a' : adrE a a' -> valE (EAddr a) (EAddr a')
| v_bin op a a' b b' : valE a a' -> valE b b' -> valE (EBin op a b) (EBin op a' b')
| v_cond a a' b b' c c' : valE a a' -> valE b b' -> valE c c' -> valE (ECond a b c) (ECond a' b' c')
| v_asg op a a' b b' : adrE a a' -> valE b b' -> valE (EAsg op a b) (EAsg op a' b')
with adrE : expr -> expr -> Prop :=
| a_refl e : adrE e e
| a_sym e f : adrE e f -> adrE f e
| a_trans e f g : adrE e f -> adrE f g -> adrE e g
| a_index a i : adrE (EIdx a i) (EDeref (add a (EBin (CBin OMul) (EInt 8) i)))
| a_deref_addr a : adrE (EDeref (EAddr a)) a
| a_idx a a' i i' : valE a a' -> valE i i' -> adrE (EIdx a i) (EIdx a' i')
| a_deref a a' : valE a a' -> adrE (EDeref a) (EDeref a')
| a_step op a a' : adrE a a' -> adrE (EPre op a) (EPre op a')
with valA : exprs -> exprs -> Prop :=
| va_nil : valA ENil ENil
| va_cons e e' l l' : valE e e' -> valA l l' -> valA (ECons e l) (ECons e' l').

Inductive meanS : stmt -> stmt -> Prop :=
| m_refl s : meanS s s
| m_sym s t : meanS s t -> meanS t s
| m_trans s t u : meanS s t -> meanS t u -> meanS s u
(* the laws *)
| m_const z : meanS (SExpr (EInt z)) SNull
| m_return0 : meanS (SReturn None) (SReturn (Some (EInt 0)))
| m_cond a b c : meanS (SExpr (ECond a b c)) (SIfElse a (SExpr b) (SExpr c))
| m_post op a : meanS (SExpr (EPost op a)) (SExpr (EPre op a))
| m_if_test a s : meanS (SIf (EBin (CCmp PNE) a (EInt 0)) s) (SIf a s)
| m_ifelse_test a s u : meanS (SIfElse (EBin (CCmp PNE) a (EInt 0)) s u) (SIfElse a s u)
| m_while_test a s : meanS (SWhile (EBin (CCmp PNE) a (EInt 0)) s) (SWhile a s)
(* congruence *)
| m_expr e e' : valE e e' -> meanS (SExpr e) (SExpr e')
| m_block l l' : meanL l l' -> meanS (SBlock l) (SBlock l')
| m_return e e' : valE e e' -> meanS (SReturn (Some e)) (SReturn (Some e'))
| m_if e e' s s' : valE e e' -> meanS s s' -> meanS (SIf e s) (SIf e' s')
| m_ifelse e e' s s' t t' : valE e e' -> meanS s s' -> meanS t t' -> meanS (SIfElse e s t) (SIfElse e' s' t')
| m_while e e' s s' : valE e e' -> meanS s s' -> meanS (SWhile e s) (SWhile e' s')
| m_switch e e' s s' : valE e e' -> meanS s s' -> meanS (SSwitch e s) (SSwitch e' s')
| m_case z s s' : meanS s s' -> meanS (SCase z s) (SCase z s')
| m_label x s s' : meanS s s' -> meanS (SLabel x s) (SLabel x s')
with meanL : stmts -> stmts -> Prop :=
| m_nil : meanL SNil SNil
| m_cons s s' l l' : meanS s s' -> meanL l l' -> meanL (SCons s l) (SCons s' l').

Inductive meanD : decl -> decl -> Prop :=
| md_global x l : meanD (DGlobal x l) (DGlobal x l)
| md_vector x n l : meanD (DVector x n l) (DVector x n l)
| md_function x ps s s' : meanS s s' -> meanD (DFunction x ps s) (DFunction x ps s').
Definition same_meaning (ds ds' : list decl) : Prop := Forall2 meanD ds ds'.

Scheme valE_mind := Induction for valE Sort Prop
with adrE_mind := Induction for adrE Sort Prop
with valA_mind := Induction for valA Sort Prop.
Combined Scheme val_ind3 from valE_mind, adrE_mind, valA_mind.
Scheme meanS_mind := Induction for meanS Sort Prop
with meanL_mind := Induction for meanL Sort Prop.
Combined Scheme mean_ind2 from meanS_mind, meanL_mind.

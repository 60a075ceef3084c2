(** * SpecBrace: braces, empty statements and lists of declarations
    Two bodies are the same if one becomes the other by writing or leaving out
    braces around statements, by writing or leaving out empty statements, and by
    declaring several names in one statement or in several. *)
From Coq Require Import List Ascii String ZArith.
From Verif Require Import Base IR Expr Syntax.
Import ListNotations.
Open Scope Z_scope.

(** One sequence of statements after another. *)
Fixpoint andthen (l r : stmts) : stmts := match l with SNil => r | SCons s l => SCons s (andthen l r) end.

Inductive sameS : stmt -> stmt -> Prop :=
| ss_refl s : sameS s s
| ss_sym s t : sameS s t -> sameS t s
| ss_trans s t u : sameS s t -> sameS t u -> sameS s u
| ss_braces s : sameS s (SBlock (SCons s SNil))
| ss_empty : sameS SNull (SBlock SNil)
| ss_block l l' : sameL l l' -> sameS (SBlock l) (SBlock l')
| ss_if e s s' : sameS s s' -> sameS (SIf e s) (SIf e s')
| ss_ifelse e s s' t t' : sameS s s' -> sameS t t' -> sameS (SIfElse e s t) (SIfElse e s' t')
| ss_else e s : sameS (SIf e s) (SIfElse e s SNull)
| ss_while e s s' : sameS s s' -> sameS (SWhile e s) (SWhile e s')
| ss_switch e s s' : sameS s s' -> sameS (SSwitch e s) (SSwitch e s')
| ss_case z s s' : sameS s s' -> sameS (SCase z s) (SCase z s')
| ss_label x s s' : sameS s s' -> sameS (SLabel x s) (SLabel x s')
| ss_case_out z s l : sameS (SBlock (SCons (SCase z s) l)) (SCase z (SBlock (SCons s l)))
| ss_label_out x s l : sameS (SBlock (SCons (SLabel x s) l)) (SLabel x (SBlock (SCons s l)))
with sameL : stmts -> stmts -> Prop :=
| sl_refl l : sameL l l
| sl_sym l k : sameL l k -> sameL k l
| sl_trans l k h : sameL l k -> sameL k h -> sameL l h
| sl_null l : sameL (SCons SNull l) l
| sl_flat l r : sameL (SCons (SBlock l) r) (andthen l r)
| sl_autos a b l : sameL (SCons (SAuto (a ++ b)) l) (SCons (SAuto a) (SCons (SAuto b) l))
| sl_extrns a b l : sameL (SCons (SExtrn (a ++ b)) l) (SCons (SExtrn a) (SCons (SExtrn b) l))
| sl_cons s s' l l' : sameS s s' -> sameL l l' -> sameL (SCons s l) (SCons s' l').

Inductive sameD : decl -> decl -> Prop :=
| sd_global x l : sameD (DGlobal x l) (DGlobal x l)
| sd_vector x n l : sameD (DVector x n l) (DVector x n l)
| sd_function x ps s s' : sameS s s' -> sameD (DFunction x ps s) (DFunction x ps s').
Definition same_braces (ds ds' : list decl) : Prop := Forall2 sameD ds ds'.

Scheme sameS_mind := Induction for sameS Sort Prop
with sameL_mind := Induction for sameL Sort Prop.
Combined Scheme same_ind2 from sameS_mind, sameL_mind.

(** * PropsBrace: braces, empty statements and lists of declarations (C96) *)
From Coq Require Import List Ascii String ZArith NArith Lia Bool.
From Verif Require Import Base Lexer SpecLex IR Builder Expr Stmt Decl Syntax SpecText TextTac RenderDecl SpecSem IRSem PropsExpr PropsEnd PropsAccept PropsStages SemEx
  SpecBrace BraceFacts.
Import ListNotations.
Open Scope string_scope.
Open Scope list_scope.
Open Scope Z_scope.

Local Notation "$ s" := (list_ascii_of_string s%string) (at level 1, format "$ s").

(** ** C96 *)
(** Programs that differ only in braces, empty statements and how the
    declarations are put together are given the very
    same module, or rejected with the very same message. *)
Theorem C96_same : forall inp inp' ds ds', tree_of inp ds -> tree_of inp' ds' -> same_braces ds ds' ->
  compile inp false = compile inp' false.
Proof.
  intros inp inp' ds ds' (w & t & -> & L & X) (w' & t' & -> & L' & X') S.
  pose proof (text_compiles ds t w X L) as Y. pose proof (text_compiles ds' t' w' X' L') as Y'.
  rewrite <- (same_generate true _ _ S) in Y'. pose proof (generate_nf true ds). destruct (generate true ds) as [M []| |]; congruence.
Qed.
Print Assumptions C96_same.
(** In particular a block is no scope: a variable declared in braces is the
    variable of the whole function, and declared in two blocks it is declared
    twice. *)
Theorem C96_scope : forall inp inp' x ps l r,
  tree_of inp [DFunction x ps (SBlock (SCons (SBlock l) r))] -> tree_of inp' [DFunction x ps (SBlock (andthen l r))] ->
  compile inp false = compile inp' false.
Proof.
  intros inp inp' x ps l r T T'. eapply C96_same; [exact T|exact T'|]. constructor; [|constructor]. constructor. apply ss_block, sl_flat.
Qed.
Print Assumptions C96_scope.

Definition few96 : list ascii := $"f(a){auto x,y;if(a)g();while(a)a=h(a);l:g();switch(a){case 1:g();h();}}".
Definition many96 : list ascii := $"f(a){auto x;auto y;;if(a){{g();}}else {}while(a){a=h(a);;}{l:{g();};}switch(a){case 1:{g();h();}}}".
Example C96_ex : exists ds ds' M, tree_of few96 ds /\ tree_of many96 ds' /\ same_braces ds ds' /\
  compile few96 false = Ok M tt /\ compile many96 false = Ok M tt.
Proof.
  pose (G := fun x => SExpr (ECall (ECallee x) ENil)).
  pose (H := SExpr (EAsg None (EVar "a") (ECall (ECallee "h") (ECons (EVar "a") ENil)))).
  exists [DFunction "f" ["a"] (SBlock (SCons (SAuto [("x", -1); ("y", -1)]) (SCons (SIf (EVar "a") (G "g")) (SCons (SWhile (EVar "a") H) (SCons (SLabel "l" (G "g"))
     (SCons (SSwitch (EParen (EVar "a")) (SBlock (SCons (SCase 1 (G "g")) (SCons (G "h") SNil)))) SNil))))))].
  exists [DFunction "f" ["a"] (SBlock (SCons (SAuto [("x", -1)]) (SCons (SAuto [("y", -1)]) (SCons SNull (SCons (SIfElse (EVar "a") (SBlock (SCons (SBlock (SCons (G "g") SNil)) SNil)) (SBlock SNil))
     (SCons (SWhile (EVar "a") (SBlock (SCons H (SCons SNull SNil))))
     (SCons (SBlock (SCons (SLabel "l" (SBlock (SCons (G "g") SNil))) (SCons SNull SNil)))
     (SCons (SSwitch (EParen (EVar "a")) (SBlock (SCons (SCase 1 (SBlock (SCons (G "g") (SCons (G "h") SNil)))) SNil))) SNil))))))))].
  exists (SemEx.module_for few96).
  split; [exists [], few96; split; [reflexivity|split; [apply lay_nil|text]]|].
  split; [exists [], many96; split; [reflexivity|split; [apply lay_nil|text]]|].
  split; [|split; vm_compute; reflexivity].
  constructor; [|constructor]. constructor. apply ss_block. eapply sl_trans; [exact (sl_autos [("x", -1)] [("y", -1)] _)|].
  apply sl_cons; [apply ss_refl|]. apply sl_cons; [apply ss_refl|]. apply sl_sym. eapply sl_trans; [apply sl_null|].
  apply sl_cons.
  { apply ss_sym. eapply ss_trans; [apply ss_else|]. apply ss_ifelse; [|apply ss_empty]. eapply ss_trans; [apply ss_braces|]. apply ss_block, sl_cons; [apply ss_braces|apply sl_refl]. }
  apply sl_cons.
  { apply ss_while. apply ss_sym. eapply ss_trans; [apply ss_braces|]. apply ss_block, sl_cons; [apply ss_refl|]. apply sl_sym, sl_null. }
  eapply sl_trans; [apply sl_flat|]. cbn [andthen]. apply sl_cons; [apply ss_label, ss_sym, ss_braces|].
  eapply sl_trans; [apply sl_null|]. apply sl_cons; [|apply sl_refl]. apply ss_switch, ss_sym. eapply ss_trans; [apply ss_case_out|apply ss_braces].
Qed.
(** The same message. *)
Example C96_ex_wrong : compile ($"f(){auto x;{auto x;}}") false = Err (Msg "identifier 'x' already defined in this scope") /\
  compile ($"f(){auto x;auto x;}") false = Err (Msg "identifier 'x' already defined in this scope").
Proof. split; vm_compute; reflexivity. Qed.

(** * PropsParen: parentheses that change nothing (C95) *)
From Coq Require Import List Ascii String ZArith NArith Lia Bool.
From Verif Require Import Base Lexer SpecLex IR Builder Expr Stmt Decl Syntax SpecText TextTac RenderDecl SpecSem IRSem PropsExpr PropsEnd PropsAccept PropsStages SemEx
  SpecParen ParenFacts.
Import ListNotations.
Open Scope string_scope.
Open Scope list_scope.
Open Scope Z_scope.

Local Notation "$ s" := (list_ascii_of_string s%string) (at level 1, format "$ s").

Lemma generated inp ds M : tree_of inp ds -> compile inp false = Ok M tt -> generate true ds = Ok M tt.
Proof. intros X C. apply (module_of_generate ds M (tree_module _ _ _ X C)). Qed.
Lemma regenerated inp ds M : tree_of inp ds -> generate true ds = Ok M tt -> compile inp false = Ok M tt.
Proof. intros (w & t & -> & L & X) G. pose proof (text_compiles ds t w X L) as Y. rewrite G in Y. exact Y. Qed.

(** ** C95 *)
(** Parentheses added to an accepted program leave it accepted, with the very
    same module. *)
Theorem C95_added : forall inp inp' ds ds' M, tree_of inp ds -> tree_of inp' ds' -> more_parentheses ds ds' ->
  compile inp false = Ok M tt -> compile inp' false = Ok M tt.
Proof. intros inp inp' ds ds' M T T' P C. eapply regenerated; [exact T'|]. eapply le_generate; [exact P|]. eapply generated; eauto. Qed.
Print Assumptions C95_added.
(** Parentheses taken away: the module is the same if there is one. *)
Theorem C95_removed : forall inp inp' ds ds' M M', tree_of inp ds -> tree_of inp' ds' -> more_parentheses ds ds' ->
  compile inp' false = Ok M' tt -> compile inp false = Ok M tt -> M = M'.
Proof. intros inp inp' ds ds' M M' T T' P C' C. rewrite (C95_added _ _ _ _ _ T T' P C) in C'. congruence. Qed.
Print Assumptions C95_removed.

(** [a+b*c] with its grouping written out, and parentheses around a condition, an
    index, what is indexed, an argument and an assigned value. *)
Definition bare95 : list ascii := $"f(a,b){if(a+b*2>3)return(g(b));b=a[b]*-a;}".
Definition full95 : list ascii := $"f(a,b){if(((a+(b*2))>3))return(g((b)));b=(((a))[(b)]*(-(a)));}".
Example C95_ex : exists ds ds' M, tree_of bare95 ds /\ tree_of full95 ds' /\ more_parentheses ds ds' /\
  compile bare95 false = Ok M tt /\ compile full95 false = Ok M tt.
Proof.
  exists [DFunction "f" ["a"; "b"] (SBlock
      (SCons (SIf (EBin (CCmp PSGT) (EBin (CBin OAdd) (EVar "a") (EBin (CBin OMul) (EVar "b") (EInt 2))) (EInt 3)) (SReturn (Some (ECall (ECallee "g") (ECons (EVar "b") ENil)))))
      (SCons (SExpr (EAsg None (EVar "b") (EBin (CBin OMul) (EIdx (EVar "a") (EVar "b")) (ENeg (EVar "a"))))) SNil)))].
  exists [DFunction "f" ["a"; "b"] (SBlock
      (SCons (SIf (EParen (EBin (CCmp PSGT) (EParen (EBin (CBin OAdd) (EVar "a") (EParen (EBin (CBin OMul) (EVar "b") (EInt 2))))) (EInt 3)))
                  (SReturn (Some (ECall (ECallee "g") (ECons (EParen (EVar "b")) ENil)))))
      (SCons (SExpr (EAsg None (EVar "b") (EParen (EBin (CBin OMul) (EIdx (EParen (EParen (EVar "a"))) (EParen (EVar "b"))) (EParen (ENeg (EParen (EVar "a")))))))) SNil)))].
  exists (SemEx.module_for bare95).
  split; [exists [], bare95; split; [reflexivity|split; [apply lay_nil|text]]|].
  split; [exists [], full95; split; [reflexivity|split; [apply lay_nil|text]]|].
  split; [repeat (apply rd_add || constructor)|]. split; vm_compute; reflexivity.
Qed.

(** Parentheses taken away from an accepted program can make it rejected: the
    code takes the [=] of [g==1] for an assignment when it looks up [g]. *)
Definition round95 : list ascii := $"f(){return((g)==1);}".
Definition naked95 : list ascii := $"f(){return(g==1);}".
Theorem C95_removed_refuted : exists inp inp' ds ds', tree_of inp ds /\ tree_of inp' ds' /\ more_parentheses ds ds' /\
  accepted inp' /\ ~ accepted inp.
Proof.
  exists naked95, round95, [DFunction "f" [] (SBlock (SCons (SReturn (Some (EBin (CCmp PEQ) (EVar "g") (EInt 1)))) SNil))],
    [DFunction "f" [] (SBlock (SCons (SReturn (Some (EBin (CCmp PEQ) (EParen (EVar "g")) (EInt 1)))) SNil))].
  split; [exists [], naked95; split; [reflexivity|split; [apply lay_nil|text]]|].
  split; [exists [], round95; split; [reflexivity|split; [apply lay_nil|text]]|].
  split; [repeat (apply rd_add || constructor)|]. split; [exists (SemEx.module_for round95); vm_compute; reflexivity|].
  intros [M C]. vm_compute in C. discriminate C.
Qed.
Print Assumptions C95_removed_refuted.
(** Around what is assigned to, or around the name of a called function, they do
    count: the first is rejected, the second calls the value of a variable of
    that name. *)
Example C95_target : accepted ($"f(a){a=1;}") /\ ~ accepted ($"f(a){(a)=1;}").
Proof. split; [exists (SemEx.module_for ($"f(a){a=1;}")); vm_compute; reflexivity|]. intros [M C]. vm_compute in C. discriminate C. Qed.
Example C95_called : exists M M', compile ($"f(g){return(g(1));}") false = Ok M tt /\ compile ($"f(g){return((g)(1));}") false = Ok M' tt /\ M <> M'.
Proof.
  exists (SemEx.module_for ($"f(g){return(g(1));}")), (SemEx.module_for ($"f(g){return((g)(1));}")).
  split; [vm_compute; reflexivity|]. split; [vm_compute; reflexivity|]. intros H. apply (f_equal (fun m => List.length (m_funcs m))) in H. vm_compute in H. discriminate H.
Qed.

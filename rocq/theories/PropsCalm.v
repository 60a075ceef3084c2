(** * PropsCalm: programs without loops, jumps and recursion end (C99) *)
From Coq Require Import List Ascii String ZArith NArith Lia Bool.
From Verif Require Import Base Lexer SpecLex IR Builder Expr Stmt Decl Syntax SpecTree SpecText TextTac RenderDecl SpecSem IRSem SpecLink SimFun RunFacts
  SemEx PropsExpr PropsEnd PropsAccept PropsStages SpecCalm CalmFacts.
From Verif Require Import SemMono.
Import ListNotations.
Open Scope string_scope.
Open Scope list_scope.
Open Scope Z_scope.

Local Notation "$ s" := (list_ascii_of_string s%string) (at level 1, format "$ s").

(** ** C99 *)
(** The code of a file without while, goto, recursion and calls through
    variables ends, whatever it is called with, unless the text does something
    undefined on the way. *)
Theorem C99_ends_partial : forall inp ds M, tree_of inp ds -> compile inp false = Ok M tt -> separate M -> calm ds ->
  forall W (H : host W) I locals, Forall (regularD locals) ds -> linked H I M ->
  forall x args m w, (forall n, calls H locals ds n x args m w <> Stuck) ->
  code_ends I M x args m w /\ ~ runs_forever I M x args m w.
Proof.
  intros inp ds M T C SEP [rank CALM] W H I locals REG LK x args m w NS.
  destruct (C64_exactly_partial W H I M ds locals (tree_module _ _ _ T C) LK SEP REG x args m w NS) as [A1 A2].
  pose proof (calm_calls H locals rank ds CALM (rank x + 2) x args (le_n _) m w) as K.
  assert (E : code_ends I M x args m w).
  { specialize (NS (rank x + 2)%nat). destruct (calls H locals ds (rank x + 2) x args m w) as [z m' w'|z w'| |] eqn:F; try contradiction.
    - exists (XRet z m' w'). apply A1. eexists. exact F.
    - exists (XExit z w'). apply A1. eexists. exact F. }
  split; [exact E|]. intros B. exact (not_both I M x args m w E B).
Qed.
Print Assumptions C99_ends_partial.

(** That loops, jumps and recursion have to be excluded show f, g and h of
    C64_ex. A program with three layers of functions, a
    switch and a function of the outside: *)
Definition src99 : list ascii := $"max(a,b){return(a<b?b:a);}three(a,b,c){return(max(max(a,b),c));}f(x){auto r;switch(x){case 1:r=three(4,9,2);case 2:putchar(++r);}if(r)return(r);}".
Definition call2 (x : string) (a b : expr) := ECall (ECallee x) (ECons a (ECons b ENil)).
Definition ds99 : list decl :=
  [DFunction "max" ["a"; "b"] (SBlock (SCons (SReturn (Some (ECond (EBin (CCmp PSLT) (EVar "a") (EVar "b")) (EVar "b") (EVar "a")))) SNil));
   DFunction "three" ["a"; "b"; "c"] (SBlock (SCons (SReturn (Some (call2 "max" (call2 "max" (EVar "a") (EVar "b")) (EVar "c")))) SNil));
   DFunction "f" ["x"] (SBlock (SCons (SAuto [("r", -1)]) (SCons (SSwitch (EParen (EVar "x")) (SBlock
     (SCons (SCase 1 (SExpr (EAsg None (EVar "r") (ECall (ECallee "three") (ECons (EInt 4) (ECons (EInt 9) (ECons (EInt 2) ENil)))))))
     (SCons (SCase 2 (SExpr (ECall (ECallee "putchar") (ECons (EPre OAdd (EVar "r")) ENil)))) SNil))))
     (SCons (SIf (EVar "r") (SReturn (Some (EVar "r")))) SNil))))].
Definition rank99 (x : string) : nat := if String.eqb x "f" then 3 else if String.eqb x "three" then 2 else if String.eqb x "max" then 1 else 0.
Definition I99 := machine ["b.f"; "b.max"; "b.three"; "b.putchar"].
Example C99_ex : tree_of src99 ds99 /\ compile src99 false = Ok (module_for src99) tt /\ separate (module_for src99) /\ calm ds99 /\
  Forall (regularD true) ds99 /\ linked (host_of I99) I99 (module_for src99) /\
  (forall n, calls (host_of I99) true ds99 n "f" [1] empty_mem [] <> Stuck) /\
  match calls (host_of I99) true ds99 5 "f" [1] empty_mem [] with Val z m w => z = 10 /\ w = [10] | _ => False end.
Proof.
  split; [exists [], src99; split; [reflexivity|split; [apply lay_nil|text]]|]. split; [vm_compute; reflexivity|]. split; [by_names|].
  split; [exists rank99; repeat constructor|]. split; [by_regular|]. split; [by_machine|]. split; [|vm_compute; auto]. intros n.
  assert (K : match calls (host_of I99) true ds99 9 "f" [1] empty_mem [] with Val z _ _ => True | _ => False end) by (vm_compute; exact Logic.I).
  destruct (Nat.le_ge_cases n 9) as [L|L].
  - destruct (mono_calls (host_of I99) true ds99 n 9 L "f" [1] empty_mem []) as [E|E]; intros F; rewrite F in E; [discriminate|]. rewrite E in K. exact K.
  - destruct (mono_calls (host_of I99) true ds99 9 n L "f" [1] empty_mem []) as [E|E]; [rewrite E in K; contradiction|]. rewrite E. intros F. rewrite F in K. exact K.
Qed.

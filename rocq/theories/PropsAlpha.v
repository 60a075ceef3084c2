(** * PropsAlpha: the names of local variables and labels (C90) *)
From Coq Require Import List Ascii String ZArith NArith Lia Bool.
From Verif Require Import Base Lexer SpecLex IR Builder Expr Stmt Decl Syntax SpecText TextTac RenderDecl SpecSem IRSem PropsExpr PropsEnd PropsAccept PropsStages SemEx
  SpecAlpha AlphaFacts AlphaSem.
Import ListNotations.
Open Scope string_scope.
Open Scope list_scope.
Open Scope Z_scope.

Local Notation "$ s" := (list_ascii_of_string s%string) (at level 1, format "$ s").

(** ** C90 *)
(** Programs that differ only in the names of parameters, automatic variables
    and labels are both accepted or both rejected, and their code is the same. *)
Theorem C90_names : forall inp inp' ds ds', tree_of inp ds -> tree_of inp' ds' -> alike ds ds' ->
  (accepted inp <-> accepted inp') /\
  (forall M M', compile inp false = Ok M tt -> compile inp' false = Ok M' tt -> same_code M M').
Proof.
  intros inp inp' ds ds' T T' A. pose proof (alike_generate true ds ds' A) as K.
  assert (U : forall c d M, tree_of c d -> compile c false = Ok M tt -> generate true d = Ok M tt).
  { intros c d M X C. apply (module_of_generate d M (tree_module _ _ _ X C)). }
  assert (V : forall c d M, tree_of c d -> generate true d = Ok M tt -> compile c false = Ok M tt).
  { intros c d M (w & t & -> & L & X) G. pose proof (text_compiles d t w X L) as Y. rewrite G in Y. exact Y. }
  split; [split|].
  - intros [M C]. rewrite (U _ _ _ T C) in K. destruct (generate true ds') as [M' []| |] eqn:G; try contradiction. exists M'. eapply V; eauto.
  - intros [M C]. rewrite (U _ _ _ T' C) in K. destruct (generate true ds) as [M' []| |] eqn:G; try contradiction. exists M'. eapply V; eauto.
  - intros M M' C C'. rewrite (U _ _ _ T C), (U _ _ _ T' C') in K. exact K.
Qed.
Print Assumptions C90_names.
(** Whatever the functions outside the file do, each function gives the same
    results with the same effects, and runs for ever in the same cases. *)
Theorem C90_behaviour : forall inp inp' ds ds' M M', tree_of inp ds -> tree_of inp' ds' -> alike ds ds' ->
  compile inp false = Ok M tt -> compile inp' false = Ok M' tt ->
  forall W (I : ihost W) x args m w,
    (forall r, icall I M (globalName x) args m w r <-> icall I M' (globalName x) args m w r) /\
    (runs_forever I M x args m w <-> runs_forever I M' x args m w).
Proof.
  intros inp inp' ds ds' M M' T T' A C C' W I x args m w. pose proof (proj2 (C90_names _ _ _ _ T T' A) M M' C C') as S. pose proof (code_sym _ _ S) as S'.
  split; [intros r; split; apply icall_same; assumption|]. split; intros H n; eapply busy_same; eauto.
Qed.
Print Assumptions C90_behaviour.

Lemma names_same l l' : Forall2 same_func l l' -> map f_name l = map f_name l'.
Proof. induction 1 as [|f f' l l' H _ IH]; [reflexivity|]. cbn. rewrite (sf_name _ _ H), IH. reflexivity. Qed.
(** Not covered: the name of a call. A call looks for a function even if a local
    variable has the name, so renaming such a variable changes what is called. *)
Definition g_to_h (c : ascii) : ascii := if Ascii.eqb c "g" then "h"%char else c.
Definition src90 : list ascii := $"f(g){return(g(1));}".
Theorem C90_called_refuted : exists inp n ps b M M', tree_of inp [DFunction n ps b] /\ In "g" ps /\ ~ In "h"%char inp /\
  compile inp false = Ok M tt /\ compile (map g_to_h inp) false = Ok M' tt /\ ~ same_code M M'.
Proof.
  exists src90, "f", ["g"], (SBlock (SCons (SReturn (Some (ECall (ECallee "g") (ECons (EInt 1) ENil)))) SNil)).
  exists (SemEx.module_for src90), (SemEx.module_for (map g_to_h src90)).
  split; [exists [], src90; split; [reflexivity|split; [apply lay_nil|text]]|]. split; [left; reflexivity|].
  split; [vm_compute; intuition discriminate|]. split; [vm_compute; reflexivity|]. split; [vm_compute; reflexivity|].
  intros [_ F]. apply names_same in F. vm_compute in F. discriminate F.
Qed.
Print Assumptions C90_called_refuted.
(** The names of blocks do count for LLVM: a program whose label is renamed to
    [entry] is given code that LLVM does not read. *)
Definition loop90 (l : string) : list decl := [DFunction "f" [] (SBlock (SCons (SLabel l SNull) (SCons (SGoto l) SNil)))].
Definition unentry : list ascii := $"f(){l:;goto l;}".
Definition doentry : list ascii := $"f(){entry:;goto entry;}".
Theorem C90_readable_refuted : exists inp inp' ds ds' M M', tree_of inp ds /\ tree_of inp' ds' /\ alike ds ds' /\
  compile inp false = Ok M tt /\ compile inp' false = Ok M' tt /\ Forall (fun f => NoDup (map b_name (f_blocks f))) (m_funcs M) /\
  ~ Forall (fun f => NoDup (map b_name (f_blocks f))) (m_funcs M').
Proof.
  exists unentry, doentry, (loop90 "l"), (loop90 "entry"), (SemEx.module_for unentry), (SemEx.module_for doentry).
  split; [exists [], unentry; split; [reflexivity|split; [apply lay_nil|text]]|].
  split; [exists [], doentry; split; [reflexivity|split; [apply lay_nil|text]]|].
  split.
  { constructor; [|constructor]. apply (al_function "f" [] [] _ _ [("l", "entry")] []); [reflexivity| |].
    - split; [repeat constructor; cbn; tauto|]. split; [repeat constructor; cbn; tauto|]. constructor; [split; cbn [fst snd]; t_ident|constructor].
    - cbn. repeat (econstructor; cbn; auto). }
  split; [vm_compute; reflexivity|]. split; [vm_compute; reflexivity|]. split.
  - vm_compute. repeat constructor; cbn; intuition discriminate.
  - vm_compute. intros F. inversion F as [|? ? N]; subst. cbn in N. inversion N as [|? ? Q]. apply Q. left. reflexivity.
Qed.
Print Assumptions C90_readable_refuted.

(** A program with parameters, variables in blocks, a vector and a label; the
    names of each are given to others. *)
Definition tree90 (a b c v d l : string) : list decl := [DFunction "f" [a; b] (SBlock
  (SCons (SAuto [(c, -1); (v, 3)]) (SCons (SExtrn ["n"]) (SCons (SExpr (EAsg None (EVar c) (EVar a)))
  (SCons (SLabel l (SIf (EVar c) (SBlock (SCons (SAuto [(d, -1)]) (SCons (SExpr (EAsg None (EVar d) (EVar b)))
    (SCons (SExpr (EAsg None (EIdx (EVar v) (EInt 1)) (EVar d))) (SCons (SExpr (EAsg None (EVar "n") (EPost OSub (EVar c)))) (SCons (SGoto l) SNil))))))))
  (SCons (SReturn (Some (EBin (CBin OAdd) (EIdx (EVar v) (EInt 1)) (ECall (ECallee "g") (ECons (EVar c) ENil))))) SNil))))));
  DGlobal "n" [IvInt 5]].
Definition one90 : list ascii := $"f(a,b){auto c,v[3];extrn n;c=a;l:if(c){auto d;d=b;v[1]=d;n=c--;goto l;}return(v[1]+g(c));}n 5;".
Definition two90 : list ascii := $"f(x,a){auto b,g[3];extrn n;b=x;a:if(b){auto f;f=a;g[1]=f;n=b--;goto a;}return(g[1]+g(b));}n 5;".
Ltac alike_tac := repeat lazymatch goal with
  | |- same_name _ _ _ => split; cbn; [reflexivity|intros K; first [reflexivity|discriminate K]]
  | |- _ <-> _ => cbn; split; intros K; decompose [or] K; try contradiction; discriminate
  | |- In _ _ => cbn; auto
  | |- _ => econstructor
  end.
Example C90_ex : tree_of one90 (tree90 "a" "b" "c" "v" "d" "l") /\ tree_of two90 (tree90 "x" "a" "b" "g" "f" "a") /\
  alike (tree90 "a" "b" "c" "v" "d" "l") (tree90 "x" "a" "b" "g" "f" "a") /\
  compile one90 false = Ok (SemEx.module_for one90) tt /\ compile two90 false = Ok (SemEx.module_for two90) tt.
Proof.
  split; [exists [], one90; split; [reflexivity|split; [apply lay_nil|text]]|].
  split; [exists [], two90; split; [reflexivity|split; [apply lay_nil|text]]|].
  split; [|split; vm_compute; reflexivity].
  constructor; [|constructor; [constructor|constructor]].
  eapply (al_function "f" ["a"; "b"] ["x"; "a"] _ _ [("l", "a")]); [reflexivity| |].
  - split; [repeat constructor; cbn; tauto|]. split; [repeat constructor; cbn; tauto|]. constructor; [split; cbn [fst snd]; t_ident|constructor].
  - cbn. alike_tac.
Qed.

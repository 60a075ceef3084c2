(** * PropsSize: how much code is generated (C91) *)
From Coq Require Import List Ascii String ZArith NArith Lia Bool.
From Verif Require Import Base Lexer SpecLex IR Builder Expr Stmt Decl Syntax Pure SpecText SpecAccept TextTac RenderDecl PropsExpr PropsAccept PropsStages SemEx
  SpecSize SizeFacts SizeText.
Import ListNotations.
Open Scope string_scope.
Open Scope list_scope.
Open Scope nat_scope.

Local Notation "$ s" := (list_ascii_of_string s%string) (at level 1, format "$ s").

(** ** C91 *)
(** The code of a program has at most eight things for each character of its
    text and one for each word of the vectors that are given initial values. *)
Theorem C91_linear : forall inp ds M, tree_of inp ds -> compile inp false = Ok M tt ->
  module_size M <= 8 * List.length inp + vectors ds.
Proof.
  intros inp ds M T C. pose proof (generate_size true ds M (proj2 (module_of_generate _ _ (tree_module _ _ _ T C)))) as G.
  destruct T as (w & s & -> & _ & X). apply text_xP in X. rewrite app_length. lia.
Qed.
Print Assumptions C91_linear.
(** Whatever 7-bit text is accepted: the bound is for some reading of it, and
    without such vectors for the text alone. *)
Theorem C91_accepted : forall inp M, seven inp -> compile inp false = Ok M tt ->
  exists ds, tree_of inp ds /\ module_size M <= 8 * List.length inp + vectors ds /\
    ((forall x n vs, In (DVector x n vs) ds -> vs = [] \/ (n <= 0)%Z) -> module_size M <= 8 * List.length inp).
Proof.
  intros inp M S C. destruct (proj1 (C72_language inp S)) as (ds & v & T & _); [exists M; exact C|].
  exists ds. pose proof (C91_linear inp ds M T C) as K. split; [exact T|]. split; [exact K|]. intros H. enough (vectors ds = 0) by lia.
  clear - H. induction ds as [|d r IH]; [reflexivity|]. unfold vectors in *. rewrite total_cons, IH; [|intros; eapply H; right; eassumption].
  destruct d as [| x n [|v vs]|]; try reflexivity. destruct (H x n (v :: vs)) as [E|E]; [left; reflexivity|discriminate|]. cbn. lia.
Qed.
Print Assumptions C91_accepted.

(** Not by the text alone: vectors are stored in full as soon as one initial
    value is given, irbuilder.go:190-220. *)
Definition wide (z : Z) : list decl := [DVector "v" z [IvInt 1]].
Lemma wide_size z : (z <> 0)%Z -> exists M, generate true (wide z) = Ok M tt /\ Z.to_nat z < module_size M.
Proof.
  intros N. unfold generate, wide. eexists. split.
  - cbn -[vector_words Z.to_nat u64 wrap64 Z.eqb Z.ltb]. destruct (Z.eqb_spec z 0); [contradiction|]. reflexivity.
  - unfold module_size. cbn -[vector_words Z.to_nat u64 wrap64 total]. rewrite total_cons. cbn [g_init init_size List.length]. rewrite vector_length.
    rewrite andb_false_r. lia.
Qed.
Definition billions : list ascii := $"v[1000000000000000000]1;".
Theorem C91_text_refuted : exists inp M, List.length inp = 24 /\ compile inp false = Ok M tt /\ (10 ^ 18 < Z.of_nat (module_size M))%Z.
Proof.
  exists billions. destruct (wide_size (10 ^ 18)%Z) as (M & G & K); [discriminate|]. exists M. split; [reflexivity|].
  assert (T : xP (wide (10 ^ 18)%Z) billions) by text.
  pose proof (text_compiles _ _ [] T lay_nil) as C. rewrite G in C. split; [exact C|]. lia.
Qed.
Print Assumptions C91_text_refuted.

(** A function that counts down, a string and a vector with more words than
    values: 90 characters and 10 words; the same vector without values costs
    two things. *)
Definition src91 : list ascii := $"f(a,b){auto c;c=a+b;while(c>0){putchar(c);c=-1;}return(a?b:c++);}v[10]1,2;s ""hello"";u[99];".
Definition tree91 : list decl :=
  [DFunction "f" ["a"; "b"] (SBlock (SCons (SAuto [("c", (-1)%Z)])
    (SCons (SExpr (EAsg None (EVar "c") (EBin (CBin OAdd) (EVar "a") (EVar "b"))))
    (SCons (SWhile (EBin (CCmp PSGT) (EVar "c") (EInt 0))
      (SBlock (SCons (SExpr (ECall (ECallee "putchar") (ECons (EVar "c") ENil))) (SCons (SExpr (EAsg (Some (CBin OSub)) (EVar "c") (EInt 1))) SNil))))
    (SCons (SReturn (Some (ECond (EVar "a") (EVar "b") (EPost OAdd (EVar "c"))))) SNil)))));
   DVector "v" 10 [IvInt 1; IvInt 2]; DGlobal "s" [IvStr "hello"]; DVector "u" 99 []].
Example C91_ex : exists M, tree_of src91 tree91 /\ compile src91 false = Ok M tt /\ vectors tree91 = 10 /\
  List.length src91 = 90 /\ module_size M = 79.
Proof.
  exists (SemEx.module_for src91). split; [exists [], src91; split; [reflexivity|split; [apply lay_nil|text]]|].
  split; [vm_compute; reflexivity|]. repeat split; vm_compute; reflexivity.
Qed.

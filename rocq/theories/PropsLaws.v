(** * PropsLaws: ways of writing that mean the same (C97) *)
From Coq Require Import List Ascii String ZArith NArith Lia Bool.
From Verif Require Import Base Lexer SpecLex IR Builder Expr Stmt Decl Syntax SpecTree SpecText TextTac RenderDecl SpecSem IRSem SpecLink SimFun
  SemShift SemEx PropsExpr PropsEnd PropsAccept PropsStages SpecLaws LawFacts.
From Verif Require Import SemMono.
Import ListNotations.
Open Scope string_scope.
Open Scope list_scope.
Open Scope Z_scope.

Local Notation "$ s" := (list_ascii_of_string s%string) (at level 1, format "$ s").

(** ** C97 *)
(** In the language: the functions of two files that differ by the laws of
    SpecLaws do the same in every state, undefined behaviour included. *)
Theorem C97_language : forall ds ds', same_meaning ds ds' -> forall W (H : host W) locals n x args m w,
  calls H locals ds n x args m w = calls H locals ds' n x args m w.
Proof. intros ds ds' S W H locals n x args m w. apply (same_calls H locals ds ds' S n x args m w). Qed.
Print Assumptions C97_language.
(** In the code: the modules compiled for the two texts, on machines with the
    same addresses, give the same results with the same effects and run for
    ever in the same cases, wherever the text does nothing undefined. *)
Theorem C97_behaviour_partial : forall inp inp' ds ds' M M', tree_of inp ds -> tree_of inp' ds' -> same_meaning ds ds' ->
  compile inp false = Ok M tt -> compile inp' false = Ok M' tt -> separate M -> separate M' ->
  forall W (H : host W) I I' locals, Forall (regularD locals) ds -> Forall (regularD locals) ds' -> linked H I M -> linked H I' M' ->
  forall x args m w, (forall n, calls H locals ds n x args m w <> Stuck) ->
  (forall r, icall I M (globalName x) args m w r <-> icall I' M' (globalName x) args m w r) /\
  (runs_forever I M x args m w <-> runs_forever I' M' x args m w).
Proof.
  intros inp inp' ds ds' M M' T T' S C C' SEP SEP' W H I I' locals REG REG' LK LK' x args m w NS.
  pose proof (fun n => C97_language ds ds' S W H locals n x args m w) as E.
  destruct (C64_exactly_partial W H I M ds locals (tree_module _ _ _ T C) LK SEP REG x args m w NS) as [A1 A2].
  destruct (C64_exactly_partial W H I' M' ds' locals (tree_module _ _ _ T' C') LK' SEP' REG' x args m w) as [B1 B2]; [intros n; rewrite <- E; apply NS|].
  split.
  - intros r. rewrite A1, B1. split; intros [n K]; exists n; [rewrite <- E|rewrite E]; exact K.
  - rewrite A2, B2. unfold endless. split; intros K n; [rewrite <- E|rewrite E]; apply K.
Qed.
Print Assumptions C97_behaviour_partial.

(** Two laws that do not hold. In the B of the PDP-11 manual [&a[i]] is [a+i]; here: only brackets
    count in words, addition counts in bytes. *)
Definition one_function (e : expr) : list decl := [DFunction "f" ["x"] (SBlock (SCons (SReturn (Some e)) SNil))].
Theorem C97_word_refuted : exists inp inp' a i M M' (I : ihost (list Z)) m m1 m2,
  tree_of inp (one_function (EAddr (EIdx a i))) /\ tree_of inp' (one_function (add a i)) /\
  compile inp false = Ok M tt /\ compile inp' false = Ok M' tt /\
  (forall r, icall I M (globalName "f") [1024] m [] r <-> r = XRet 1032 m1 []) /\
  (forall r, icall I M' (globalName "f") [1024] m [] r <-> r = XRet 1025 m2 []).
Proof.
  set (s := $"f(x){return(&x[1]);}"). set (s' := $"f(x){return(x+1);}").
  set (ds := one_function (EAddr (EIdx (EVar "x") (EInt 1)))). set (ds' := one_function (add (EVar "x") (EInt 1))).
  assert (R1 : Forall (regularD true) ds) by by_regular.
  assert (R2 : Forall (regularD true) ds') by by_regular.
  assert (T1 : tree_of s ds) by (exists [], s; split; [reflexivity|split; [apply lay_nil|text]]).
  assert (T2 : tree_of s' ds') by (exists [], s'; split; [reflexivity|split; [apply lay_nil|text]]).
  assert (C1 : compile s false = Ok (module_for s) tt) by (vm_compute; reflexivity).
  assert (C2 : compile s' false = Ok (module_for s') tt) by (vm_compute; reflexivity).
  exists s, s', (EVar "x"), (EInt 1), (module_for s), (module_for s'), (machine ["b.f"]), empty_mem.
  eexists. eexists. split; [exact T1|]. split; [exact T2|]. split; [exact C1|]. split; [exact C2|]. split.
  - assert (LK : linked (host_of (machine ["b.f"])) (machine ["b.f"]) (module_for s)) by by_machine.
    assert (SE : separate (module_for s)) by by_names.
    pose proof (C36_programs_partial _ _ _ _ _ true (tree_module _ _ _ T1 C1) LK SE R1 5 "f" [1024] empty_mem []) as F. exact F.
  - assert (LK : linked (host_of (machine ["b.f"])) (machine ["b.f"]) (module_for s')) by by_machine.
    assert (SE : separate (module_for s')) by by_names.
    pose proof (C36_programs_partial _ _ _ _ _ true (tree_module _ _ _ T2 C2) LK SE R2 5 "f" [1024] empty_mem []) as F. exact F.
Qed.
Print Assumptions C97_word_refuted.
(** [x =+ e] is not [x = x + e] if [e] changes [x]: the old value is read after
    [e] has been evaluated. *)
Theorem C97_compound_refuted : exists inp inp' e M M' (I : ihost (list Z)) m m1 m2,
  tree_of inp (one_function (EAsg (Some (CBin OAdd)) (EVar "x") e)) /\ tree_of inp' (one_function (EAsg None (EVar "x") (add (EVar "x") e))) /\
  compile inp false = Ok M tt /\ compile inp' false = Ok M' tt /\
  (forall r, icall I M (globalName "f") [3] m [] r <-> r = XRet 10 m1 []) /\
  (forall r, icall I M' (globalName "f") [3] m [] r <-> r = XRet 8 m2 []).
Proof.
  set (s := $"f(x){return(x=+(x=5));}"). set (s' := $"f(x){return(x=x+(x=5));}"). set (e := EParen (EAsg None (EVar "x") (EInt 5))).
  set (ds := one_function (EAsg (Some (CBin OAdd)) (EVar "x") e)). set (ds' := one_function (EAsg None (EVar "x") (add (EVar "x") e))).
  assert (R1 : Forall (regularD true) ds) by by_regular.
  assert (R2 : Forall (regularD true) ds') by by_regular.
  assert (T1 : tree_of s ds) by (exists [], s; split; [reflexivity|split; [apply lay_nil|text]]).
  assert (T2 : tree_of s' ds') by (exists [], s'; split; [reflexivity|split; [apply lay_nil|text]]).
  assert (C1 : compile s false = Ok (module_for s) tt) by (vm_compute; reflexivity).
  assert (C2 : compile s' false = Ok (module_for s') tt) by (vm_compute; reflexivity).
  exists s, s', e, (module_for s), (module_for s'), (machine ["b.f"]), empty_mem.
  eexists. eexists. split; [exact T1|]. split; [exact T2|]. split; [exact C1|]. split; [exact C2|]. split.
  - assert (LK : linked (host_of (machine ["b.f"])) (machine ["b.f"]) (module_for s)) by by_machine.
    assert (SE : separate (module_for s)) by by_names.
    pose proof (C36_programs_partial _ _ _ _ _ true (tree_module _ _ _ T1 C1) LK SE R1 5 "f" [3] empty_mem []) as F. exact F.
  - assert (LK : linked (host_of (machine ["b.f"])) (machine ["b.f"]) (module_for s')) by by_machine.
    assert (SE : separate (module_for s')) by by_names.
    pose proof (C36_programs_partial _ _ _ _ _ true (tree_module _ _ _ T2 C2) LK SE R2 5 "f" [3] empty_mem []) as F. exact F.
Qed.
Print Assumptions C97_compound_refuted.

(** A function written in two ways: the absolute value of the sum of a vector. *)
Definition src97 : list ascii := $"f(v,n){auto i,s;s=i=0;while(i<n){s=+v[i];i++;}if(1)return(!(s<0)?s:-s);return;}".
Definition src97' : list ascii := $"f(v,n){auto i,s;s=(i=0);while((n>i)!=0){s=s+*(v+(i<<3));i=i+1;}if(2>1)return((s>=0?s:0-s));return(0);}".
Definition vi97 := EVar "i".
Definition vs97 := EVar "s".
Definition ds97 : list decl := [DFunction "f" ["v"; "n"] (SBlock
  (SCons (SAuto [("i", -1); ("s", -1)])
  (SCons (SExpr (EAsg None vs97 (EAsg None vi97 (EInt 0))))
  (SCons (SWhile (EBin (CCmp PSLT) vi97 (EVar "n"))
     (SBlock (SCons (SExpr (EAsg (Some (CBin OAdd)) vs97 (EIdx (EVar "v") vi97))) (SCons (SExpr (EPost OAdd vi97)) SNil))))
  (SCons (SIf (EInt 1) (SReturn (Some (ECond (ENot (EParen (EBin (CCmp PSLT) vs97 (EInt 0)))) vs97 (ENeg vs97)))))
  (SCons (SReturn None) SNil))))))].
Definition ds97' : list decl := [DFunction "f" ["v"; "n"] (SBlock
  (SCons (SAuto [("i", -1); ("s", -1)])
  (SCons (SExpr (EAsg None vs97 (EParen (EAsg None vi97 (EInt 0)))))
  (SCons (SWhile (EBin (CCmp PNE) (EParen (EBin (CCmp PSGT) (EVar "n") vi97)) (EInt 0))
     (SBlock (SCons (SExpr (EAsg None vs97 (add vs97 (EDeref (EParen (add (EVar "v") (EParen (EBin (CBin OShl) vi97 (EInt 3)))))))))
       (SCons (SExpr (EAsg None vi97 (add vi97 (EInt 1)))) SNil))))
  (SCons (SIf (EBin (CCmp PSGT) (EInt 2) (EInt 1))
     (SReturn (Some (EParen (ECond (EBin (CCmp PSGE) vs97 (EInt 0)) vs97 (EBin (CBin OSub) (EInt 0) vs97))))))
  (SCons (SReturn (Some (EInt 0))) SNil))))))].
Definition I97 := machine ["b.f"].
Definition mem97 := word_at 4096 (-9) (word_at 4104 4 empty_mem).
Example C97_ex : tree_of src97 ds97 /\ tree_of src97' ds97' /\ same_meaning ds97 ds97' /\
  compile src97 false = Ok (module_for src97) tt /\ compile src97' false = Ok (module_for src97') tt /\ module_for src97 <> module_for src97' /\
  separate (module_for src97) /\ separate (module_for src97') /\
  linked (host_of I97) I97 (module_for src97) /\ linked (host_of I97) I97 (module_for src97') /\
  Forall (regularD true) ds97 /\ Forall (regularD true) ds97' /\
  (forall n, calls (host_of I97) true ds97 n "f" [4096; 2] mem97 [] <> Stuck) /\
  match calls (host_of I97) true ds97 9 "f" [4096; 2] mem97 [] with Val z _ _ => z = 5 | _ => False end.
Proof.
  split; [exists [], src97; split; [reflexivity|split; [apply lay_nil|text]]|].
  split; [exists [], src97'; split; [reflexivity|split; [apply lay_nil|text]]|].
  split.
  { constructor; [|constructor]. apply md_function, m_block. apply m_cons; [apply m_refl|]. apply m_cons.
    { apply m_expr, v_asg; [apply a_refl|]. apply v_sym, v_paren. }
    apply m_cons.
    { eapply m_trans; [|apply m_sym, m_while_test].
      apply m_while; [eapply v_trans; [apply v_swap; constructor|apply v_sym, v_paren]|]. apply m_block, m_cons; [|apply m_cons; [|apply m_nil]].
      - apply m_expr. eapply v_trans; [apply v_compound; repeat constructor|]. apply v_asg; [apply a_refl|]. apply v_bin; [apply v_refl|].
        eapply v_trans; [apply v_index|]. apply v_deref. eapply v_trans; [|apply v_sym, v_paren]. apply v_bin; [apply v_refl|].
        eapply v_trans; [|apply v_sym, v_paren]. eapply v_trans; [apply v_swap; constructor|]. apply v_sym, (v_shift _ 3). lia.
      - eapply m_trans; [apply m_post|]. apply m_expr. eapply v_trans; [apply v_pre|]. apply v_compound. constructor. }
    apply m_cons.
    { apply m_if; [apply v_sym, v_const; reflexivity|]. apply m_return. eapply v_trans; [|apply v_sym, v_paren]. apply v_cond; [|apply v_refl|apply v_neg].
      eapply v_trans; [apply v_cnot, v_paren|]. apply v_opposite. constructor. }
    apply m_cons; [apply m_return0|apply m_nil]. }
  split; [vm_compute; reflexivity|]. split; [vm_compute; reflexivity|]. split; [vm_compute; discriminate|]. split; [by_names|]. split; [by_names|].
  split; [by_machine|]. split; [by_machine|]. split; [by_regular|]. split; [by_regular|].
  split; [|vm_compute; reflexivity]. intros n.
  assert (K : match calls (host_of I97) true ds97 9 "f" [4096; 2] mem97 [] with Val z _ _ => True | _ => False end) by (vm_compute; exact Logic.I).
  destruct (Nat.le_ge_cases n 9) as [L|L].
  - destruct (mono_calls (host_of I97) true ds97 n 9 L "f" [4096; 2] mem97 []) as [E|E]; intros F; rewrite F in E; [discriminate|]. rewrite E in K. exact K.
  - destruct (mono_calls (host_of I97) true ds97 9 n L "f" [4096; 2] mem97 []) as [E|E]; [rewrite E in K; contradiction|]. rewrite E. intros F. rewrite F in K. exact K.
Qed.

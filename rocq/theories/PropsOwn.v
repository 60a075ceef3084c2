(** * PropsOwn: functions that assign only to variables of their own (C98) *)
From Coq Require Import List Ascii String ZArith NArith Lia Bool.
From Verif Require Import Base Lexer SpecLex IR Builder Expr Stmt Decl Syntax SpecTree SpecText TextTac RenderDecl SpecSem IRSem SpecLink SimFun MemFacts
  SemEx PropsExpr PropsEnd PropsStmt PropsAccept PropsStages SpecOwn OwnFacts.
From Verif Require Import SemMono.
Import ListNotations.
Open Scope string_scope.
Open Scope list_scope.
Open Scope Z_scope.

Local Notation "$ s" := (list_ascii_of_string s%string) (at level 1, format "$ s").

(** ** C98 *)
(** If the functions of a file assign only to their parameters and automatic
    variables, by name, and the functions called outside the file are harmless,
    then all calls are: every word there was before keeps its contents. *)
Theorem C98_behaviour_partial : forall inp ds M, tree_of inp ds -> compile inp false = Ok M tt -> separate M -> Forall ownD ds ->
  forall W (H : host W) I locals, Forall (regularD locals) ds -> linked H I M -> sane (h_place H) ->
  forall R : W -> W -> Prop, (forall w, R w w) -> (forall a b c, R a b -> R b c -> R a c) ->
  (forall x args m w r, h_ext H x args m w = Some r -> harmless R m w r) ->
  forall x args m w, (forall n, calls H locals ds n x args m w <> Stuck) ->
  forall r, icall I M (globalName x) args m w r -> harmless R m w r.
Proof.
  intros inp ds M T C SEP OWN W H I locals REG LK SANE R R1 R2 EXT x args m w NS r C'.
  apply (proj1 (C64_exactly_partial W H I M ds locals (tree_module _ _ _ T C) LK SEP REG x args m w NS)) in C'. destruct C' as [n E].
  pose proof (own_calls H locals SANE R R1 R2 ds OWN EXT n x args m w) as K. rewrite E in K. destruct r; exact K.
Qed.
Print Assumptions C98_behaviour_partial.

(** Without the restriction it is false: an external variable can be assigned,
    and so can what a parameter points to. *)
Definition changes (src : string) (args : list Z) : Prop := exists ds M (I : ihost (list Z)) m m',
  tree_of ($src) ds /\ compile ($src) false = Ok M tt /\ (forall x l m w r, i_ext I x l m w = Some r -> harmless (fun _ _ => True) m w r) /\
  (forall r, icall I M (globalName "f") args m [] r <-> r = XRet 0 m' []) /\ ~ kept m m'.
Definition after_f (I : ihost (list Z)) ds args m := match calls (host_of I) true ds 5 "f" args m [] with Val _ m' _ => m' | _ => m end.
Lemma machine_harmless tbl x l m w r : i_ext (machine tbl) x l m w = Some r -> harmless (fun a b => exists o, b = a ++ o) m w r.
Proof.
  cbn. destruct (String.eqb x "b.putchar").
  - destruct l as [|z l]; [discriminate|]. intros E. injection E as <-. cbn. split; [apply kept_refl|]. split; [apply incl_refl|]. eauto.
  - destruct (String.eqb x "b.exit"); [|discriminate]. intros E. injection E as <-. exists []. rewrite app_nil_r. reflexivity.
Qed.
Lemma machine_harmless' tbl x l m w r : i_ext (machine tbl) x l m w = Some r -> harmless (fun _ _ => True) m w r.
Proof. intros E. apply machine_harmless in E. destruct r; cbn in *; tauto. Qed.
Definition I98 := machine ["b.f"; "b.x"].
Definition mem98 := word_at 2048 5 empty_mem.
Theorem C98_extern_refuted : changes "f(){extrn x;x=1;}" [].
Proof.
  set (ds := [DFunction "f" [] (SBlock (SCons (SExtrn ["x"]) (SCons (SExpr (EAsg None (EVar "x") (EInt 1))) SNil)))]).
  assert (RG : Forall (regularD true) ds) by by_regular.
  set (src := $"f(){extrn x;x=1;}").
  assert (T : tree_of src ds) by (exists [], src; split; [reflexivity|split; [apply lay_nil|text]]).
  assert (C : compile src false = Ok (module_for src) tt) by (vm_compute; reflexivity).
  assert (LK : linked (host_of I98) I98 (module_for src)) by by_machine.
  assert (SE : separate (module_for src)) by by_names.
  exists ds, (module_for src), I98, mem98, (after_f I98 ds [] mem98). split; [exact T|]. split; [exact C|]. split; [exact (machine_harmless' _)|]. split.
  - exact (C36_programs_partial _ _ _ _ _ true (tree_module _ _ _ T C) LK SE RG 5 "f" [] mem98 []).
  - intros K. destruct (K 2048) as [_ E]; [vm_compute; reflexivity|]. vm_compute in E. discriminate E.
Qed.
Print Assumptions C98_extern_refuted.
Theorem C98_pointer_refuted : changes "f(p){*p=1;}" [2048].
Proof.
  set (ds := [DFunction "f" ["p"] (SBlock (SCons (SExpr (EAsg None (EDeref (EVar "p")) (EInt 1))) SNil))]).
  assert (RG : Forall (regularD true) ds) by by_regular.
  set (src := $"f(p){*p=1;}").
  assert (T : tree_of src ds) by (exists [], src; split; [reflexivity|split; [apply lay_nil|text]]).
  assert (C : compile src false = Ok (module_for src) tt) by (vm_compute; reflexivity).
  assert (LK : linked (host_of I98) I98 (module_for src)) by by_machine.
  assert (SE : separate (module_for src)) by by_names.
  exists ds, (module_for src), I98, mem98, (after_f I98 ds [2048] mem98). split; [exact T|]. split; [exact C|]. split; [exact (machine_harmless' _)|]. split.
  - exact (C36_programs_partial _ _ _ _ _ true (tree_module _ _ _ T C) LK SE RG 5 "f" [2048] mem98 []).
  - intros K. destruct (K 2048) as [_ E]; [vm_compute; reflexivity|]. vm_compute in E. discriminate E.
Qed.
Print Assumptions C98_pointer_refuted.

(** A power, printed: loops, steps, calls, reading an external variable; the
    output only grows. *)
Definition src98 : list ascii := $"f(e){extrn x;auto r;r=1;while(e--)r=*x;return(g(r));}g(c){putchar(c);return(c);}".
Definition ds98 : list decl :=
  [DFunction "f" ["e"] (SBlock (SCons (SExtrn ["x"]) (SCons (SAuto [("r", -1)]) (SCons (SExpr (EAsg None (EVar "r") (EInt 1)))
     (SCons (SWhile (EPost OSub (EVar "e")) (SExpr (EAsg (Some (CBin OMul)) (EVar "r") (EVar "x"))))
     (SCons (SReturn (Some (ECall (ECallee "g") (ECons (EVar "r") ENil)))) SNil))))));
   DFunction "g" ["c"] (SBlock (SCons (SExpr (ECall (ECallee "putchar") (ECons (EVar "c") ENil))) (SCons (SReturn (Some (EVar "c"))) SNil)))].
Definition J98 := machine ["b.f"; "b.x"; "b.g"; "b.putchar"].
Example C98_ex : tree_of src98 ds98 /\ compile src98 false = Ok (module_for src98) tt /\ separate (module_for src98) /\ Forall ownD ds98 /\
  Forall (regularD true) ds98 /\ linked (host_of J98) J98 (module_for src98) /\ sane (h_place (host_of J98)) /\
  (forall x l m w r, h_ext (host_of J98) x l m w = Some r -> harmless (fun a b => exists o, b = a ++ o) m w r) /\
  (forall n, calls (host_of J98) true ds98 n "f" [2] mem98 [] <> Stuck) /\
  match calls (host_of J98) true ds98 9 "f" [2] mem98 [] with Val z m w => z = 25 /\ w = [25] /\ load m 2048 = Some 5 | _ => False end.
Proof.
  split; [exists [], src98; split; [reflexivity|split; [apply lay_nil|text]]|]. split; [vm_compute; reflexivity|]. split; [by_names|].
  split; [repeat constructor|]. split; [by_regular|]. split; [by_machine|]. split; [exact (machine_sane _)|].
  split; [intros x; exact (machine_harmless _ (globalName x))|]. split; [|vm_compute; auto]. intros n.
  assert (K : match calls (host_of J98) true ds98 9 "f" [2] mem98 [] with Val z _ _ => True | _ => False end) by (vm_compute; exact Logic.I).
  destruct (Nat.le_ge_cases n 9) as [L|L].
  - destruct (mono_calls (host_of J98) true ds98 n 9 L "f" [2] mem98 []) as [E|E]; intros F; rewrite F in E; [discriminate|]. rewrite E in K. exact K.
  - destruct (mono_calls (host_of J98) true ds98 9 n L "f" [2] mem98 []) as [E|E]; [rewrite E in K; contradiction|]. rewrite E. intros F. rewrite F in K. exact K.
Qed.

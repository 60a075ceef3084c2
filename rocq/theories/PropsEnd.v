(** * PropsEnd: programs that do not end (C64) *)
From Coq Require Import List Ascii String ZArith NArith Lia Bool.
From Verif Require Import Base Lexer SpecLex IR Builder Expr Stmt Decl DriverModes Wp Syntax SpecTree Pure ParseGen Pwp SpecText RenderWf PropsText PropsSym
  SpecSem IRSem SpecLink SemFacts SimFun SimAny IRDet SemMono SemEx TextTac PropsExpr RunFacts Runtime Process PropsProc.
Import ListNotations.
Open Scope string_scope.
Open Scope list_scope.
Open Scope Z_scope.

(** [answer] is what the reference semantics says for a result of the code. *)
Section End.
Context {W : Type}.
Variable H : host W.
Variable I : ihost W.
Variable M : module_.
Variable locals : bool.
Variable ds : list decl.
(** In B the call of [x] does not end: no bound on the nested calls, turns of
    loops and jumps is enough. *)
Definition endless (x : string) (args : list Z) (m : memory) (w : W) : Prop := forall n, calls H locals ds n x args m w = Limit.
(** The code of [x] makes as many steps as one likes. *)
Definition runs_forever (x : string) (args : list Z) (m : memory) (w : W) : Prop := forall n, busy I M n (globalName x) args m w.
(** The code of [x] ends. *)
Definition code_ends (x : string) (args : list Z) (m : memory) (w : W) : Prop := exists r, icall I M (globalName x) args m w r.
Lemma not_both x args m w : code_ends x args m w -> runs_forever x args m w -> False.
Proof.
  intros [r C] B. destruct (proj2 (proj2 (ends_bounded I M)) _ _ _ _ _ C) as [k K]. specialize (K _ (B (S k))). lia.
Qed.
End End.

(** A program that does not end is compiled to code that runs for ever: it does
    not stop, and it does not get stuck on the way. *)
Theorem C64_endless_partial : forall W (H : host W) I M ds locals, module_of ds M -> linked H I M -> separate M -> Forall (regularD locals) ds ->
  forall x args m w, endless H locals ds x args m w -> runs_forever I M x args m w /\ ~ code_ends I M x args m w.
Proof.
  intros W H I M ds locals MO LK SEP REG x args m w E. destruct (module_of_generate ds M MO) as [WF GEN].
  assert (B : runs_forever I M x args m w).
  { intros n. pose proof (program_ok H I M LK true locals ds GEN WF REG SEP n x args m w) as K. rewrite (E n) in K. exact K. }
  split; [exact B|]. intros C. exact (not_both I M _ _ _ _ C B).
Qed.
Print Assumptions C64_endless_partial.

(** Code that ends: so does the program, with the same result, unless the
    program does something undefined. *)
Theorem C64_ends_partial : forall W (H : host W) I M ds locals, module_of ds M -> linked H I M -> separate M -> Forall (regularD locals) ds ->
  forall x args m w r, icall I M (globalName x) args m w r ->
  exists n, calls H locals ds n x args m w = answer r \/ calls H locals ds n x args m w = Stuck.
Proof.
  intros W H I M ds locals MO LK SEP REG x args m w r C. destruct (module_of_generate ds M MO) as [WF GEN].
  destruct (proj2 (proj2 (ends_bounded I M)) _ _ _ _ _ C) as [k K]. exists (S k).
  pose proof (program_ok H I M LK true locals ds GEN WF REG SEP (S k) x args m w) as P.
  destruct (calls H locals ds (S k) x args m w) as [z m' w'|z w'| |]; auto.
  - left. rewrite (proj2 (proj2 (deterministic I M)) _ _ _ _ _ C _ P). reflexivity.
  - left. rewrite (proj2 (proj2 (deterministic I M)) _ _ _ _ _ C _ P). reflexivity.
  - apply K in P. lia.
Qed.
Print Assumptions C64_ends_partial.

(** For a call that does nothing undefined: the code ends with a result exactly
    if B does, and runs for ever exactly if it does in B; one of both is the case. *)
Theorem C64_exactly_partial : forall W (H : host W) I M ds locals, module_of ds M -> linked H I M -> separate M -> Forall (regularD locals) ds ->
  forall x args m w, (forall n, calls H locals ds n x args m w <> Stuck) ->
  (forall r, icall I M (globalName x) args m w r <-> exists n, calls H locals ds n x args m w = answer r) /\
  (runs_forever I M x args m w <-> endless H locals ds x args m w).
Proof.
  intros W H I M ds locals MO LK SEP REG x args m w NS.
  assert (A : forall r, icall I M (globalName x) args m w r <-> exists n, calls H locals ds n x args m w = answer r).
  { intros r. split.
    - intros C. destruct (C64_ends_partial W H I M ds locals MO LK SEP REG x args m w r C) as [n [E|E]]; [eauto|destruct (NS n E)].
    - intros [n E]. pose proof (C36_programs_partial W H I M ds locals MO LK SEP REG n x args m w) as F. rewrite E in F. destruct r; apply F; reflexivity. }
  split; [exact A|]. split.
  - intros B n. destruct (calls H locals ds n x args m w) as [z m' w'|z w'| |] eqn:E; auto.
    + exfalso. apply (not_both I M x args m w); auto. exists (XRet z m' w'). apply A. exists n. exact E.
    + exfalso. apply (not_both I M x args m w); auto. exists (XExit z w'). apply A. exists n. exact E.
    + destruct (NS n E).
  - intros E. apply (C64_endless_partial W H I M ds locals MO LK SEP REG x args m w E).
Qed.
Print Assumptions C64_exactly_partial.

(** The process of a program whose main does not end does not end. *)
Theorem C64_process_partial : forall (H : host os) I M ds locals, module_of ds M -> linked H I M -> separate M -> Forall (regularD locals) ds ->
  forall m o, endless H locals ds "main" [] m o -> forall code o', ~ process_ends I M m o code o'.
Proof.
  intros H I M ds locals MO LK SEP REG m o E code o' P. destruct (C64_endless_partial os H I M ds locals MO LK SEP REG _ _ _ _ E) as [_ N].
  apply N. destruct P as [[m' K]|K]; eexists; exact K.
Qed.
Print Assumptions C64_process_partial.

(** Programs that do not end: a loop, a jump back, a recursion. *)
Definition src64 := $"f(a){while(a)putchar(a);return(7);}g(){l:putchar(1);goto l;}h(){return(h()+1);}main(){return(f(0));}".
Definition body64f := SBlock (SCons (SWhile (v_ "a") (SExpr (ECall (ECallee "putchar") (ECons (v_ "a") ENil)))) (SCons (SReturn (Some (EInt 7))) SNil)).
Definition body64g := SBlock (SCons (SLabel "l" (SExpr (ECall (ECallee "putchar") (ECons (EInt 1) ENil)))) (SCons (SGoto "l") SNil)).
Definition body64h := SBlock (SCons (SReturn (Some (EBin (CBin OAdd) (ECall (ECallee "h") ENil) (EInt 1)))) SNil).
Definition tree64 : list decl := [DFunction "f" ["a"] body64f; DFunction "g" [] body64g; DFunction "h" [] body64h;
  DFunction "main" [] (SBlock (SCons (SReturn (Some (ECall (ECallee "f") (ECons (EInt 0) ENil)))) SNil))].
Definition I64 := machine ["b.f"; "b.g"; "b.h"; "b.putchar"; "main"].
Definition M64 := module_for src64.
Definition H64 := host_of I64.
Lemma putchar64 n z m w : calls H64 true tree64 (S n) "putchar" [z] m w = Val 0 m (w ++ [z]).
Proof. reflexivity. Qed.
Lemma forever64f w : endless H64 true tree64 "f" [3] empty_mem w.
Proof.
  intros [|[|n]]; [reflexivity..|].
  change (calls H64 true tree64 (S (S n)) "f" [3] empty_mem w) with (invoke H64 true (calls H64 true tree64 (S n)) (S n) (S n) ["a"] body64f 0 [3] empty_mem w).
  unfold invoke, andthen at 1. destruct (parameters H64 ["a"] [3] (fun _ => None) empty_mem w) as [r m1 w1| | |] eqn:E; [|discriminate..|reflexivity].
  assert (V : exists a, r "a" = Some a /\ load m1 a = Some 3).
  { assert (K : match parameters H64 ["a"] [3] (fun _ => None) empty_mem w with Val r m1 _ => match r "a" with Some a => load m1 a = Some 3 | None => False end | _ => False end) by (vm_compute; reflexivity).
    rewrite E in K. destruct (r "a") as [a|]; [|contradiction]. eauto. }
  destruct V as (a & R & L). clear E.
  assert (LOOP : forall j w2, loop j (fun r => rvalue H64 true (calls H64 true tree64 (S n)) (mkScope ["a"] []) r 0 (v_ "a"))
    (fun r => exec H64 true (calls H64 true tree64 (S n)) (S n) (mkScope ["a"] []) 0 (SExpr (ECall (ECallee "putchar") (ECons (v_ "a") ENil))) None r) r m1 w2 = Limit).
  { induction j as [|j IH]; intros w2; [reflexivity|]. cbn [loop].
    assert (V : rvalue H64 true (calls H64 true tree64 (S n)) (mkScope ["a"] []) r 0 (v_ "a") m1 w2 = Val 3 m1 w2).
    { cbn. unfold variable. cbn. rewrite R. unfold andthen, maybe, done, load_. rewrite L. reflexivity. }
    unfold andthen at 1. rewrite V. cbn [Z.eqb Pos.eqb]. unfold andthen at 1.
    assert (B : exec H64 true (calls H64 true tree64 (S n)) (S n) (mkScope ["a"] []) 0 (SExpr (ECall (ECallee "putchar") (ECons (v_ "a") ENil))) None r m1 w2 = Val (Fall, r) m1 (w2 ++ [3])).
    { cbn [exec]. unfold andthen at 1. rewrite rvalue_named.
      change (called H64 true (mkScope ["a"] []) r "putchar") with (@None (act (list Z) Z)).
      assert (VS : rvalues H64 true (calls H64 true tree64 (S n)) (mkScope ["a"] []) r 0 (ECons (v_ "a") ENil) m1 w2 = Val [3] m1 w2)
        by (unfold andthen in V |- *; cbn in V |- *; unfold andthen in V |- *; rewrite V; reflexivity).
      cbv iota. unfold andthen at 1. rewrite VS. reflexivity. }
    rewrite B. apply IH. }
  assert (EX : exec H64 true (calls H64 true tree64 (S n)) (S n) (mkScope ["a"] []) 0 body64f None r m1 w1 = Limit).
  { pose proof (LOOP (S n) w1) as K.
    change (exec H64 true (calls H64 true tree64 (S n)) (S n) (mkScope ["a"] []) 0 (SWhile (v_ "a") (SExpr (ECall (ECallee "putchar") (ECons (v_ "a") ENil)))) None r m1 w1 = Limit) in K.
    change (execL H64 true (calls H64 true tree64 (S n)) (S n) (mkScope ["a"] []) 0 (SCons (SWhile (v_ "a") (SExpr (ECall (ECallee "putchar") (ECons (v_ "a") ENil)))) (SCons (SReturn (Some (EInt 7))) SNil)) None r m1 w1 = Limit).
    rewrite execL_cons, K. reflexivity. }
  cbn [run]. unfold andthen at 1. change (mkScope (rev ["a"]) []) with (mkScope ["a"] []). rewrite EX. reflexivity.
Qed.
Lemma forever64g w : endless H64 true tree64 "g" [] empty_mem w.
Proof.
  intros [|[|n]]; [reflexivity..|].
  change (calls H64 true tree64 (S (S n)) "g" [] empty_mem w) with (invoke H64 true (calls H64 true tree64 (S n)) (S n) (S n) [] body64g 0 [] empty_mem w).
  assert (RUN : forall j t r m w, t = None \/ t = Some (TLabel "l") -> run H64 true (calls H64 true tree64 (S n)) (S n) j (mkScope [] []) 0 body64g t r m w = Limit).
  { induction j as [|j IH]; intros t r m w1 T; [reflexivity|]. cbn [run]. unfold andthen at 1.
    assert (EX : exec H64 true (calls H64 true tree64 (S n)) (S n) (mkScope [] []) 0 body64g t r m w1 = Val (Jump "l", r) m (w1 ++ [1])) by (destruct T as [->| ->]; reflexivity).
    rewrite EX. apply IH. auto. }
  unfold invoke. cbn [parameters]. unfold andthen at 1, done at 1. change (mkScope (rev []) []) with (mkScope [] []). rewrite RUN; auto.
Qed.
Lemma forever64h m w : endless H64 true tree64 "h" [] m w.
Proof.
  intros n. revert m w. induction n as [|n IH]; intros m w; [reflexivity|].
  change (calls H64 true tree64 (S n) "h" [] m w) with (invoke H64 true (calls H64 true tree64 n) n n [] body64h 0 [] m w).
  unfold invoke. cbn [parameters]. unfold andthen at 1, done at 1. change (mkScope (rev []) []) with (mkScope [] []).
  destruct n as [|n]; [reflexivity|]. cbn [run]. unfold andthen at 1, body64h. cbn [exec execL]. unfold andthen at 1 2. cbn [rvalue]. unfold andthen at 1.
  change (called H64 true (mkScope [] []) (fun _ => None) "h") with (@None (act (list Z) Z)). cbn [rvalues]. unfold andthen at 1, done at 1.
  rewrite IH. reflexivity.
Qed.
Example C64_ex : module_of tree64 M64 /\ linked H64 I64 M64 /\ separate M64 /\ Forall (regularD true) tree64 /\
  endless H64 true tree64 "f" [3] empty_mem [] /\ endless H64 true tree64 "g" [] empty_mem [] /\ endless H64 true tree64 "h" [] empty_mem [].
Proof.
  split; [exists [], src64; split; [apply lay_nil|split; [text|vm_compute; reflexivity]]|]. split; [by_machine|]. split; [by_names|].
  split; [by_regular|]. auto using forever64f, forever64g, forever64h.
Qed.
(** With 0 the loop of f ends at once: nothing in the example is undefined, and
    the code of main gives 7. *)
Example C64_ex_ends : (forall n, calls H64 true tree64 n "main" [] empty_mem [] <> Stuck) /\
  match calls H64 true tree64 9 "main" [] empty_mem [] with Val z _ _ => z = 7 | _ => False end.
Proof.
  split; [|vm_compute; reflexivity]. intros n.
  assert (K : match calls H64 true tree64 9 "main" [] empty_mem [] with Val z _ _ => True | _ => False end) by (vm_compute; exact Logic.I).
  destruct (Nat.le_ge_cases n 9) as [L|L].
  - destruct (mono_calls H64 true tree64 n 9 L "main" [] empty_mem []) as [E|E]; intros F; rewrite F in E; [discriminate|].
    rewrite E in K. exact K.
  - destruct (mono_calls H64 true tree64 9 n L "main" [] empty_mem []) as [E|E]; [rewrite E in K; contradiction|].
    rewrite E. intros F. rewrite F in K. exact K.
Qed.
(** [main(){l:goto l;}] as a process. *)
Definition tree64p : list decl := [DFunction "main" [] (SBlock (SCons (SLabel "l" (SGoto "l")) SNil))].
Definition src64p := $"main(){l:goto l;}".
Definition I64p := computer ["main"].
Definition M64p := module_for src64p.
Example C64_process_ex : module_of tree64p M64p /\ linked (host_of I64p) I64p M64p /\ separate M64p /\ Forall (regularD true) tree64p /\
  endless (host_of I64p) true tree64p "main" [] empty_mem idle.
Proof.
  split; [exists [], src64p; split; [apply lay_nil|split; [text|vm_compute; reflexivity]]|]. split; [by_machine|]. split; [by_names|].
  split; [by_regular|]. intros [|n]; [reflexivity|].
  change (calls (host_of I64p) true tree64p (S n) "main" [] empty_mem idle) with
    (invoke (host_of I64p) true (calls (host_of I64p) true tree64p n) n n [] (SBlock (SCons (SLabel "l" (SGoto "l")) SNil)) 0 [] empty_mem idle).
  assert (RUN : forall call k j t r m w, t = None \/ t = Some (TLabel "l") -> run (host_of I64p) true call k j (mkScope [] []) 0 (SBlock (SCons (SLabel "l" (SGoto "l")) SNil)) t r m w = Limit).
  { intros call k. induction j as [|j IH]; intros t r m w T; [reflexivity|]. cbn [run]. unfold andthen at 1.
    assert (EX : exec (host_of I64p) true call k (mkScope [] []) 0 (SBlock (SCons (SLabel "l" (SGoto "l")) SNil)) t r m w = Val (Jump "l", r) m w) by (destruct T as [->| ->]; reflexivity).
    rewrite EX. apply IH. auto. }
  unfold invoke. cbn [parameters]. unfold andthen at 1, done at 1. change (mkScope (rev []) []) with (mkScope [] []). rewrite RUN; auto.
Qed.

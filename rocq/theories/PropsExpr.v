(** * PropsExpr: what the code of expressions and of whole programs does (C25-C28, C36, C37)
    All theorems are about the module compiled from a text of the program and
    its execution by the machine of IRSem.v. *)
From Coq Require Import List Ascii String ZArith NArith Lia Bool.
From Verif Require Import Base Lexer SpecLex IR Builder Expr Stmt Decl DriverModes Wp Syntax SpecTree Pure ParseGen Pwp SpecText SpecAccept RenderWf PropsText PropsSym
  SpecSem IRSem SpecLink SemFacts SimFun SimAny IRDet SemMono SemEx TextTac.
Import ListNotations.
Open Scope string_scope.
Open Scope list_scope.
Open Scope Z_scope.

(** [M] is the module compiled from some text of the program [ds]. *)
Definition module_of (ds : list decl) (M : module_) : Prop :=
  exists w s, layout w /\ xP ds s /\ compile (w ++ s) false = Ok M tt.
Lemma module_of_generate ds M : module_of ds M -> wfP ds /\ generate true ds = Ok M tt.
Proof.
  intros (w & s & L & T & E). destruct (xP_wf _ _ T) as [K _]. split; auto.
  pose proof (text_same ds s w T L) as S. rewrite E in S. cbn [same_result] in S.
  destruct (generate true ds) as [M' []|e|] eqn:G; cbn in S; congruence || contradiction.
Qed.

Section Follows.
Context {W : Type}.
Variable I : ihost W.
Variable M : module_.
(** The code of the function [x] does exactly what [o] says, if [o] is defined. *)
Definition follows (x : string) (args : list Z) (m : memory) (w : W) (o : res W Z) : Prop :=
  match o with
  | Val z m' w' => forall r, icall I M (globalName x) args m w r <-> r = XRet z m' w'
  | Halt z w' => forall r, icall I M (globalName x) args m w r <-> r = XExit z w'
  | Stuck | Limit => True
  end.
(** [call] describes what the functions do. *)
Definition calling (call : string -> list Z -> act W Z) : Prop := forall x args m w, follows x args m w (call x args m w).
Definition does x args m w (o : res W Z) : Prop :=
  match o with
  | Val z m' w' => icall I M (globalName x) args m w (XRet z m' w')
  | Halt z w' => icall I M (globalName x) args m w (XExit z w')
  | Stuck | Limit => True
  end.
Lemma does_follows x args m w o : does x args m w o <-> follows x args m w o.
Proof.
  destruct (deterministic I M) as (_ & _ & D). unfold does, follows. destruct o as [z m' w'|z w'| |]; [| |tauto..].
  - split; [|intros K; apply K; auto]. intros K r. split; [intros K2; exact (D _ _ _ _ _ K2 _ K)|intros ->; exact K].
  - split; [|intros K; apply K; auto]. intros K r. split; [intros K2; exact (D _ _ _ _ _ K2 _ K)|intros ->; exact K].
Qed.
Lemma calling_busy call : calling call -> forall x args m w,
  match call x args m w with
  | Val z m' w' => icall I M (globalName x) args m w (XRet z m' w')
  | Halt z w' => icall I M (globalName x) args m w (XExit z w')
  | Stuck => True
  | Limit => busy I M 0 (globalName x) args m w
  end.
Proof. intros CA x args m w. pose proof (proj2 (does_follows x args m w _) (CA x args m w)) as K. destruct (call x args m w); auto. apply bu_now. Qed.
End Follows.

Ltac by_nodup := cbn; repeat (apply NoDup_cons || apply NoDup_nil); cbn; intuition discriminate.
Ltac by_noloc := let H := fresh in let y := fresh in intros _ y H; vm_compute in H; repeat (destruct H as [<-|H]; [reflexivity|]); contradiction.
Ltac by_conj := repeat match goal with |- _ /\ _ => split end; try exact Logic.I; try reflexivity; try by_nodup; try by_noloc.
Ltac by_regular := repeat (apply Forall_cons || apply Forall_nil); cbn [regularD]; try exact Logic.I; unfold regular; repeat apply conj; cbn; by_conj.
(** ** C36 *)
(** The functions of a program do what the reference semantics says, for every
    program whose functions are [regular]: the labels of a function are
    different, so are its parameters and the cases of each switch; no code
    follows a return; no call goes through a local variable. [separate]: no
    name is a variable and a function. [locals = true] is B; with [locals =
    false] calls do not see local variables (see C37) and the last condition is
    not needed. *)
Theorem C36_programs_partial : forall W (H : host W) I M ds locals, module_of ds M -> linked H I M -> separate M ->
  Forall (regularD locals) ds ->
  forall n x args m w, follows I M x args m w (calls H locals ds n x args m w).
Proof.
  intros W H I M ds locals MO LK SEP REG n x args m w. destruct (module_of_generate ds M MO) as [WF GEN].
  apply does_follows. pose proof (program_ok H I M LK true locals ds GEN WF REG SEP n x args m w) as K.
  unfold does. destruct (calls H locals ds n x args m w); auto.
Qed.
Print Assumptions C36_programs_partial.
(** The bound on nested calls, loops and jumps does not matter: what is defined
    with one bound is the same for every larger bound. *)
Theorem C36_bound_irrelevant : forall W (H : host W) locals ds n n' x args m w, (n <= n')%nat ->
  calls H locals ds n x args m w <> Limit -> calls H locals ds n' x args m w = calls H locals ds n x args m w.
Proof. intros W H locals ds n n' x args m w L N. destruct (mono_calls H locals ds n n' L x args m w); [contradiction|auto]. Qed.
Print Assumptions C36_bound_irrelevant.
(** A program with a loop, a recursive function, a global and output. *)
Definition src36 := $"n 5;fact(k){if(k<2)return(1);return(k*fact(k-1));}main(){extrn n;auto i;i=0;while(i<n)i=i+1;putchar(i);return(fact(i));}".
Definition tree36 : list decl :=
  [DGlobal "n" [IvInt 5];
   DFunction "fact" ["k"] (SBlock (SCons (SIf (EBin (CCmp PSLT) (v_ "k") (EInt 2)) (SReturn (Some (EInt 1)))) (SCons
     (SReturn (Some (EBin (CBin OMul) (v_ "k") (ECall (ECallee "fact") (ECons (EBin (CBin OSub) (v_ "k") (EInt 1)) ENil))))) SNil)));
   DFunction "main" [] (SBlock (SCons (SExtrn ["n"]) (SCons (SAuto [("i", -1)]) (SCons (SExpr (EAsg None (v_ "i") (EInt 0))) (SCons
     (SWhile (EBin (CCmp PSLT) (v_ "i") (v_ "n")) (SExpr (EAsg None (v_ "i") (EBin (CBin OAdd) (v_ "i") (EInt 1))))) (SCons
     (SExpr (ECall (ECallee "putchar") (ECons (v_ "i") ENil))) (SCons
     (SReturn (Some (ECall (ECallee "fact") (ECons (v_ "i") ENil)))) SNil)))))))].
Definition I36 := machine ["b.n"; "b.fact"; "b.putchar"; "main"].
Definition M36 := module_for src36.
Definition mem36 := word_at 1024 5 empty_mem.
Example C36_ex : module_of tree36 M36 /\ linked (host_of I36) I36 M36 /\ separate M36 /\ Forall (regularD true) tree36 /\
  match calls (host_of I36) true tree36 20 "main" [] mem36 [] with Val z _ w => z = 120 /\ w = [5] | _ => False end.
Proof.
  split; [exists [], src36; split; [apply lay_nil|split; [text|vm_compute; reflexivity]]|]. split; [by_machine|]. split; [by_names|].
  split; [by_regular|]. vm_compute. auto.
Qed.

(** ** Functions that declare variables and return an expression *)
Fixpoint sequence (l : list stmt) (last : stmt) : stmts :=
  match l with [] => SCons last SNil | s :: r => SCons s (sequence r last) end.
Definition is_declaration (s : stmt) : Prop := match s with SAuto _ | SExtrn _ => True | _ => False end.
(** The function [{ pre return(e); }]. *)
Definition returns (pre : list stmt) (e : expr) : stmt := SBlock (sequence pre (SReturn (Some e))).
(** The names known after the declarations [pre], and the state. *)
Fixpoint names_after (sc : scope) (pre : list stmt) : scope :=
  match pre with [] => sc | s :: r => names_after (after sc s) r end.
Fixpoint declarations {W} (H : host W) (pre : list stmt) (r : env) : act W env :=
  match pre with
  | [] => done r
  | SAuto l :: p => (r <~ automatics H l r ;; declarations H p r)%act
  | _ :: p => declarations H p r
  end.
Definition entry {W} (H : host W) (ps : list string) (pre : list stmt) (args : list Z) : act W env :=
  (r <~ parameters H ps args (fun _ => None) ;; declarations H pre r)%act.
Definition names (ps : list string) (pre : list stmt) : scope := names_after (mkScope (rev ps) []) pre.
(** The storage of the call from [m] is given back. *)
Definition ended {W} (m : memory) (o : res W Z) : res W Z :=
  match o with Val z m' w' => Val z (pop m m') w' | other => other end.

Lemma andthen_assoc {W A B D} (x : act W A) (f : A -> act W B) (g : B -> act W D) m w :
  andthen (andthen x f) g m w = andthen x (fun a => andthen (f a) g) m w.
Proof. unfold andthen. destruct (x m w); auto. Qed.
Lemma andthen_ext {W A B} (x : act W A) (f g : A -> act W B) m w : (forall a m w, f a m w = g a m w) -> andthen x f m w = andthen x g m w.
Proof. intros E. unfold andthen. destruct (x m w); auto. Qed.

Lemma direct_any :
  (forall s sc, direct false sc s) /\ (forall l sc, directL false sc l).
Proof.
  apply stmt_stmts_ind; intros; cbn [direct directL]; try exact Logic.I;
    repeat match goal with |- context [match ?o with _ => _ end] => destruct o end; repeat apply conj; auto; try (intros K; discriminate K).
Qed.
Lemma direct_sequence locals pre e : Forall is_declaration pre -> forall sc, noloc locals (names_after sc pre) (callees e) ->
  directL locals sc (sequence pre (SReturn (Some e))).
Proof.
  induction pre as [|s pre IH]; cbn [sequence directL names_after]; intros F sc N.
  - split; [exact N|exact Logic.I].
  - inversion F; subst. split; [|apply IH; auto]. destruct s; try contradiction; exact Logic.I.
Qed.
Lemma regular_returns locals ps pre e : NoDup ps -> Forall is_declaration pre -> noloc locals (names ps pre) (callees e) ->
  regular locals ps (returns pre e).
Proof.
  intros ND F N. unfold returns. repeat apply conj; auto.
  - cbn [labels]. assert (E : labelsL (sequence pre (SReturn (Some e))) = []); [|rewrite E; constructor].
    clear N. induction F as [|s pre D F IH]; cbn [sequence labelsL]; [reflexivity|]. rewrite IH. destruct s; try contradiction; reflexivity.
  - cbn [onecase]. clear N. induction F as [|s pre D F IH]; cbn [sequence onecaseL]; [split; exact Logic.I|].
    split; [destruct s; try contradiction; exact Logic.I|exact IH].
  - cbn [tidy]. clear N. assert (K : forall b, b = false -> tidyL b (sequence pre (SReturn (Some e)))).
    { induction F as [|s pre D F IH]; cbn [sequence tidyL]; intros b ->; [split; [reflexivity|exact Logic.I]|].
      destruct s; try contradiction; cbn [tidy ends]; auto. }
    auto.
  - cbn [direct]. apply direct_sequence; auto.
Qed.

Section Returns.
Context {W : Type}.
Variable H : host W.
Variable locals : bool.
Variable call : string -> list Z -> act W Z.
Lemma exec_returns fuel e : forall pre sc k r m w, Forall is_declaration pre ->
  execL H locals call fuel sc k (sequence pre (SReturn (Some e))) None r m w =
  (r <~ declarations H pre r ;; v <~ rvalue H locals call (names_after sc pre) r k e ;; done (Return v, r))%act m w.
Proof.
  induction pre as [|s pre IH]; intros sc k r m w F; cbn [sequence execL declarations names_after].
  - cbn [exec]. unfold andthen, done. destruct (rvalue H locals call sc r k e m w); auto.
  - inversion F; subst. destruct s as [| | | |l|l| | | | | | |]; try contradiction; cbn [exec litsS after]; rewrite Z.add_0_r.
    + rewrite !andthen_assoc. apply andthen_ext. intros r' m' w'. unfold andthen at 1, done at 1. apply IH. auto.
    + unfold andthen at 1, done at 1. apply IH. auto.
Qed.
Lemma invoke_returns ps pre e k args m w : Forall is_declaration pre ->
  invoke H locals call 1 1 ps (returns pre e) k args m w =
  ended m ((r <~ entry H ps pre args ;; rvalue H locals call (names ps pre) r k e)%act m w).
Proof.
  intros F. unfold invoke, ended, entry. rewrite !andthen_assoc.
  rewrite (andthen_ext (parameters H ps args (fun _ => None)) _ (fun r => r <~ declarations H pre r ;; rvalue H locals call (names ps pre) r k e)%act); [destruct (andthen _ _ m w); reflexivity|].
  intros r m1 w1. cbn [run]. unfold andthen at 1.
  change (exec H locals call 1 (mkScope (rev ps) []) k (returns pre e) None r m1 w1) with (execL H locals call 1 (mkScope (rev ps) []) k (sequence pre (SReturn (Some e))) None r m1 w1).
  rewrite exec_returns by auto. unfold andthen, done, names.
  destruct (declarations H pre r m1 w1) as [r2 m2 w2|z w2| |]; auto.
  destruct (rvalue H locals call _ r2 k e m2 w2); auto.
Qed.
End Returns.

(** What is common to the theorems on expressions: [f] is defined last as
    [f(ps) { pre return(e); }] with [k] string literals before it in the file;
    called with [args] in state [m], [w], it has the variables [r] and the
    state [m1], [w1] when it comes to [e]. *)
Record at_expression {W} (H : host W) (I : ihost W) (M : module_) (call : string -> list Z -> act W Z)
  (f : string) (sc : scope) (r : env) (k : Z) (e : expr) (args : list Z) (m : memory) (w : W) (m1 : memory) (w1 : W) : Prop := {
  ae_linked : linked H I M;
  ae_separate : separate M;
  ae_calling : calling I M call;
  ae_function : exists ds ps pre, module_of ds M /\ defined 0 ds f None = Some (ps, returns pre e, k) /\
    NoDup ps /\ Forall is_declaration pre /\ sc = names ps pre /\ entry H ps pre args m w = Val r m1 w1
}.
Lemma at_expression_follows {W} (H : host W) I M call f sc r k e args m w m1 w1 locals :
  at_expression H I M call f sc r k e args m w m1 w1 -> noloc locals sc (callees e) ->
  follows I M f args m w (ended m (rvalue H locals call sc r k e m1 w1)).
Proof.
  intros [LK SEP CA (ds & ps & pre & MO & D & ND & F & -> & E)] N. destruct (module_of_generate ds M MO) as [WF GEN].
  apply does_follows.
  pose proof (one_ok H I M LK true locals ds GEN WF SEP call 0 (calling_busy I M call CA) f ps (returns pre e) k 1 args m w (le_S _ _ (le_n 0)) D (regular_returns locals ps pre e ND F N)) as K.
  rewrite invoke_returns in K by auto. unfold andthen in K. rewrite E in K. unfold does. destruct (ended m _); auto.
Qed.

(** The file for the examples. *)
Definition e25 := EBin (CBin OAdd) (EBin (CBin OAdd) (EParen (EAsg None (EIdx (v_ "v") (EInt 1)) (EBin (CBin OMul) (v_ "a") (v_ "b"))))
  (ECall (ECallee "putchar") (ECons (ENeg (v_ "n")) ENil))) (EBin (CBin OSDiv) (EIdx (v_ "v") (EInt 1)) (v_ "a")).
Definition e26 := EAsg (Some (CBin OMul)) (v_ "n") (EBin (CBin OAdd) (v_ "a") (v_ "b")).
Definition e27 := EPost OAdd (EIdx (v_ "p") (EInt 1)).
Definition e28 := ECond (EBin (CCmp PSLT) (v_ "a") (EInt 0)) (ENeg (v_ "a")) (ECond (v_ "a") (EInt 1) (ECall (ECallee "putchar") (ECons (v_ "a") ENil))).
Definition src25 := $"n 5;f(a,b){extrn n;auto v[3];return((v[1]=a*b)+putchar(-n)+v[1]/a);}g(a,b){extrn n;return(n=*a+b);}h(p){return(p[1]++);}k(a){return(a<0?-a:a?1:putchar(a));}s(a){return(*a=9);}".
Definition tree25 : list decl := [DGlobal "n" [IvInt 5];
  DFunction "f" ["a"; "b"] (returns [SExtrn ["n"]; SAuto [("v", 3)]] e25);
  DFunction "g" ["a"; "b"] (returns [SExtrn ["n"]] e26);
  DFunction "h" ["p"] (returns [] e27);
  DFunction "k" ["a"] (returns [] e28);
  DFunction "s" ["a"] (returns [] (EAsg None (EDeref (v_ "a")) (EInt 9)))].
Definition I25 := machine ["b.n"; "b.putchar"; "b.f"; "b.g"; "b.h"; "b.k"; "b.s"].
Definition H25 := host_of I25.
Definition M25 := module_for src25.
Definition call25 := calls H25 true tree25 10.
Lemma module25 : module_of tree25 M25.
Proof. exists [], src25. split; [apply lay_nil|split; [text|vm_compute; reflexivity]]. Qed.
Lemma linked25 : linked H25 I25 M25. Proof. by_machine. Qed.
Lemma separate25 : separate M25. Proof. by_names. Qed.
Lemma calling25 : calling I25 M25 call25.
Proof. intros x args m w. apply (C36_programs_partial _ H25 I25 M25 tree25 true module25 linked25 separate25). by_regular. Qed.
(** The state in which the function [f] of the examples comes to its expression. *)
Definition at25 (ps : list string) (pre : list stmt) (args : list Z) : res (list Z) env := entry H25 ps pre args mem36 [].
Definition sit25 (f : string) ps pre e args (P : env -> memory -> list Z -> Prop) : Prop :=
  match at25 ps pre args with
  | Val r m1 w1 => at_expression H25 I25 M25 call25 f (names ps pre) r 0 e args mem36 [] m1 w1 /\ P r m1 w1
  | _ => False
  end.
Lemma sit25_ok f ps pre e args P : defined 0 tree25 f None = Some (ps, returns pre e, 0) -> NoDup ps -> Forall is_declaration pre ->
  match at25 ps pre args with Val r m1 w1 => P r m1 w1 | _ => False end -> sit25 f ps pre e args P.
Proof.
  intros D N F K. unfold sit25. destruct (at25 ps pre args) as [r m1 w1| | |] eqn:E; try contradiction. split; [|exact K].
  constructor; [exact linked25|exact separate25|exact calling25|]. exists tree25, ps, pre. split; [exact module25|]. auto.
Qed.
Ltac by_sit := apply sit25_ok; [vm_compute; reflexivity|repeat constructor; cbn; intuition discriminate|repeat constructor|vm_compute].
(** ** C25 *)
(** The call gives the value of the expression, with its side effects. [locals =
    true] is B; then no function called by name may be a local variable. With
    [locals = false] calls do not see local variables (see C37); all the rest
    is as in B. *)
Theorem C25_expressions_partial : forall W (H : host W) I M call f sc r k e args m w m1 w1 locals,
  at_expression H I M call f sc r k e args m w m1 w1 -> noloc locals sc (callees e) ->
  follows I M f args m w (ended m (rvalue H locals call sc r k e m1 w1)).
Proof. intros. apply at_expression_follows; auto. Qed.
Print Assumptions C25_expressions_partial.
Example C25_ex : sit25 "f" ["a"; "b"] [SExtrn ["n"]; SAuto [("v", 3)]] e25 [6; 7] (fun r m1 w1 =>
  noloc true (names ["a"; "b"] [SExtrn ["n"]; SAuto [("v", 3)]]) (callees e25) /\
  match rvalue H25 true call25 (names ["a"; "b"] [SExtrn ["n"]; SAuto [("v", 3)]]) r 0 e25 m1 w1 with Val z _ w => z = 49 /\ w = [-5] | _ => False end).
Proof. by_sit. split; [|auto]. intros _ x [<-|[]]. reflexivity. Qed.

Section Equations.
Context {W : Type}.
Variable H : host W.
Variable locals : bool.
Variable call : string -> list Z -> act W Z.
Variable sc : scope.
Variable r : env.
Lemma rvalue_asg k op a b : rvalue H locals call sc r k (EAsg (Some op) a b) =
  (p <~ lvalue H locals call sc r k a ;; v <~ rvalue H locals call sc r (k + lits a) b ;; old <~ load_ p ;; new <~ maybe (operate op old v) ;;
   _ <~ store_ p new ;; done new)%act.
Proof. reflexivity. Qed.
Lemma rvalue_set k a b : rvalue H locals call sc r k (EAsg None a b) =
  (p <~ lvalue H locals call sc r k a ;; v <~ rvalue H locals call sc r (k + lits a) b ;; _ <~ store_ p v ;; done v)%act.
Proof. reflexivity. Qed.
Lemma rvalue_post k op a : rvalue H locals call sc r k (EPost op a) = (p <~ lvalue H locals call sc r k a ;; '(old, _) <~ step_by op p ;; done old)%act.
Proof. reflexivity. Qed.
Lemma rvalue_pre k op a : rvalue H locals call sc r k (EPre op a) = (p <~ lvalue H locals call sc r k a ;; '(_, new) <~ step_by op p ;; done new)%act.
Proof. reflexivity. Qed.
Lemma rvalue_cond k a b c : rvalue H locals call sc r k (ECond a b c) =
  (v <~ rvalue H locals call sc r k a ;; if v =? 0 then rvalue H locals call sc r (k + lits a + lits b) c else rvalue H locals call sc r (k + lits a) b)%act.
Proof. reflexivity. Qed.
Lemma rvalue_named k x l : rvalue H locals call sc r k (ECall (ECallee x) l) =
  (match called H locals sc r x with
   | Some p => a <~ p ;; f <~ load_ a ;; vs <~ rvalues H locals call sc r k l ;; call_at H call f vs
   | None => vs <~ rvalues H locals call sc r k l ;; call x vs
   end)%act.
Proof. reflexivity. Qed.
Lemma rvalue_computed k e l : (forall x, e <> ECallee x) -> rvalue H locals call sc r k (ECall e l) =
  (a <~ rvalue H locals call sc r k e ;; vs <~ rvalues H locals call sc r (k + lits e) l ;; call_at H call a vs)%act.
Proof. intros N. destruct e; try reflexivity. exfalso. apply (N name). reflexivity. Qed.
End Equations.
Lemma noloc_any sc l : noloc false sc l. Proof. intros K. discriminate. Qed.
(** ** C26 *)
(** [a =op b]: the address of [a], then [b], then the operation on the old value
    of [a]; the result is stored and yielded. *)
Theorem C26_compound_assignment : forall W (H : host W) I M call f sc r k op a b args m w m1 w1,
  at_expression H I M call f sc r k (EAsg (Some op) a b) args m w m1 w1 ->
  forall p m2 w2 v m3 w3 old new m4,
    lvalue H false call sc r k a m1 w1 = Val p m2 w2 ->
    rvalue H false call sc r (k + lits a) b m2 w2 = Val v m3 w3 ->
    load m3 p = Some old -> operate op old v = Some new -> store m3 p new = Some m4 ->
    forall x, icall I M (globalName f) args m w x <-> x = XRet new (pop m m4) w3.
Proof.
  intros W H I M call f sc r k op a b args m w m1 w1 AE p m2 w2 v m3 w3 old new m4 E1 E2 E3 E4 E5.
  pose proof (at_expression_follows H I M call _ _ _ _ _ _ _ _ _ _ false AE (noloc_any _ _)) as K.
  rewrite rvalue_asg in K. unfold andthen, load_, store_, maybe, done in K. rewrite E1, E2, E3, E4, E5 in K. exact K.
Qed.
Print Assumptions C26_compound_assignment.
Definition sc26 := names ["a"; "b"] [SExtrn ["n"]].
Example C26_ex : sit25 "g" ["a"; "b"] [SExtrn ["n"]] e26 [6; 7] (fun r m1 w1 =>
  match lvalue H25 false call25 sc26 r 0 (v_ "n") m1 w1 with
  | Val p m2 w2 => match rvalue H25 false call25 sc26 r 0 (EBin (CBin OAdd) (v_ "a") (v_ "b")) m2 w2 with
                   | Val v m3 w3 => load m3 p = Some 5 /\ operate (CBin OMul) 5 v = Some 65 /\ match store m3 p 65 with Some _ => True | None => False end
                   | _ => False
                   end
  | _ => False
  end).
Proof. by_sit. auto. Qed.
(** The same for [a = b]. *)
Theorem C26_assignment : forall W (H : host W) I M call f sc r k a b args m w m1 w1,
  at_expression H I M call f sc r k (EAsg None a b) args m w m1 w1 ->
  forall p m2 w2 v m3 w3 m4,
    lvalue H false call sc r k a m1 w1 = Val p m2 w2 ->
    rvalue H false call sc r (k + lits a) b m2 w2 = Val v m3 w3 ->
    store m3 p v = Some m4 ->
    forall x, icall I M (globalName f) args m w x <-> x = XRet v (pop m m4) w3.
Proof.
  intros W H I M call f sc r k a b args m w m1 w1 AE p m2 w2 v m3 w3 m4 E1 E2 E3.
  pose proof (at_expression_follows H I M call _ _ _ _ _ _ _ _ _ _ false AE (noloc_any _ _)) as K.
  rewrite rvalue_set in K. unfold andthen, store_, done in K. rewrite E1, E2, E3 in K. exact K.
Qed.
Print Assumptions C26_assignment.
Example C26_assignment_ex : sit25 "s" ["a"] [] (EAsg None (EDeref (v_ "a")) (EInt 9)) [1024] (fun r m1 w1 =>
  match lvalue H25 false call25 (names ["a"] []) r 0 (EDeref (v_ "a")) m1 w1 with
  | Val p m2 w2 => p = 1024 /\ match store m2 p 9 with Some _ => True | None => False end
  | _ => False
  end).
Proof. by_sit. auto. Qed.

(** ** C27 *)
Theorem C27_increment : forall W (H : host W) I M call f sc r k (prefix : bool) op a args m w m1 w1,
  at_expression H I M call f sc r k (if prefix then EPre op a else EPost op a) args m w m1 w1 ->
  forall p m2 w2 old m3,
    lvalue H false call sc r k a m1 w1 = Val p m2 w2 -> load m2 p = Some old ->
    forall new, (op = OAdd /\ new = wrap64 (old + 1) \/ op = OSub /\ new = wrap64 (old - 1)) ->
    store m2 p new = Some m3 ->
    forall x, icall I M (globalName f) args m w x <-> x = XRet (if prefix then new else old) (pop m m3) w2.
Proof.
  intros W H I M call f sc r k prefix op a args m w m1 w1 AE p m2 w2 old m3 E1 E2 new E3 E4.
  pose proof (at_expression_follows H I M call _ _ _ _ _ _ _ _ _ _ false AE (noloc_any _ _)) as K.
  destruct prefix; [rewrite rvalue_pre in K|rewrite rvalue_post in K]; unfold step_by, andthen, load_, store_, maybe, done in K; rewrite E1, E2 in K;
    destruct E3 as [[-> ->]|[-> ->]]; cbn [arith] in K; rewrite E4 in K; exact K.
Qed.
Print Assumptions C27_increment.
Example C27_ex : sit25 "h" ["p"] [] (EPost OAdd (EIdx (v_ "p") (EInt 1))) [1016] (fun r m1 w1 =>
  match lvalue H25 false call25 (names ["p"] []) r 0 (EIdx (v_ "p") (EInt 1)) m1 w1 with
  | Val p m2 w2 => load m2 p = Some 5 /\ match store m2 p 6 with Some _ => True | None => False end
  | _ => False
  end).
Proof. by_sit. auto. Qed.

(** ** C28 *)
Theorem C28_conditional : forall W (H : host W) I M call f sc r k a b c args m w m1 w1,
  at_expression H I M call f sc r k (ECond a b c) args m w m1 w1 ->
  forall v m2 w2, rvalue H false call sc r k a m1 w1 = Val v m2 w2 ->
    (v <> 0 -> follows I M f args m w (ended m (rvalue H false call sc r (k + lits a) b m2 w2))) /\
    (v = 0 -> follows I M f args m w (ended m (rvalue H false call sc r (k + lits a + lits b) c m2 w2))).
Proof.
  intros W H I M call f sc r k a b c args m w m1 w1 AE v m2 w2 E1.
  pose proof (at_expression_follows H I M call _ _ _ _ _ _ _ _ _ _ false AE (noloc_any _ _)) as K.
  rewrite rvalue_cond in K. unfold andthen in K. rewrite E1 in K. split.
  - intros N. destruct (Z.eqb_spec v 0); [contradiction|]. exact K.
  - intros ->. exact K.
Qed.
Print Assumptions C28_conditional.
Example C28_ex : sit25 "k" ["a"] [] e28 [0] (fun r m1 w1 =>
  match rvalue H25 false call25 (names ["a"] []) r 0 (EBin (CCmp PSLT) (v_ "a") (EInt 0)) m1 w1 with
  | Val v m2 w2 => v = 0 /\
      match rvalue H25 false call25 (names ["a"] []) r 0 (ECond (v_ "a") (EInt 1) (ECall (ECallee "putchar") (ECons (v_ "a") ENil))) m2 w2 with
      | Val z _ w => z = 0 /\ w = [0]
      | _ => False
      end
  | _ => False
  end).
Proof. by_sit. auto. Qed.
(** [a ? b : c ? d : e] is compiled as [a ? b : (c ? d : e)]. *)
Theorem C28_right : forall a b c d e sa sb sc sd se f, tE 4 12 a sa -> tE 4 12 b sb -> tE 4 12 c sc -> tE 4 12 d sd -> tE 4 13 e se -> ident f ->
  same_result (compile ($f ++ $"(){return(" ++ (sa ++ $"?" ++ sb ++ $":" ++ sc ++ $"?" ++ sd ++ $":" ++ se) ++ $");}") false)
              (generate true [DFunction f [] (returns [] (ECond a b (ECond c d e)))]).
Proof.
  intros a b c d e sa sb sc sd se f Ha Hb Hc Hd He Hf.
  apply (text_same [DFunction f [] (returns [] (ECond a b (ECond c d e)))] _ []); [|constructor].
  apply tP_xP. eapply tP_eq; [eapply (tP_cons 4 _ _ [] []); [|constructor|constructor|discriminate]|].
  - apply (tD_fun0 4 f [] _ ($"{" ++ [] ++ (($"return" ++ [] ++ $"(" ++ [] ++ (sa ++ $"?" ++ sb ++ $":" ++ sc ++ $"?" ++ sd ++ $":" ++ se) ++ [] ++ $")" ++ [] ++ $";") ++ [] ++ $"}"))); [exact Hf|constructor|].
    apply tS_block; [constructor|]. cbn [sequence]. apply tL_cons; [|constructor|constructor|discriminate].
    apply tS_returne; try constructor. eapply tE_up; [|apply le_n_S, le_n_S, le_S, le_n]. eapply tE_up; [|apply le_S, le_n].
    apply (tE_cond 4 a sa [] [] b sb [] []); auto; try constructor. apply (tE_cond 4 c sc [] [] d sd [] []); auto; constructor.
  - rewrite !app_nil_r. cbn [app list_ascii_of_string]. rewrite <- !app_assoc. cbn [app]. reflexivity.
Qed.
Print Assumptions C28_right.
Example C28_right_ex : tE 4 12 (EVar "a") ($"a") /\ tE 4 12 (EVar "b") ($"b") /\ tE 4 13 (EVar "c") ($"c") /\ ident "f".
Proof. split; [t_E|]. split; [t_E|]. split; [t_E|t_ident]. Qed.

(** ** C37 *)
(** [x(l)] with an external variable [x]: the function at the address that the
    variable holds (fetched before the arguments are evaluated) is called. *)
Theorem C37_indirect_partial : forall W (H : host W) I M call f sc r k x l args m w m1 w1,
  at_expression H I M call f sc r k (ECall (ECallee x) l) args m w m1 w1 ->
  inb x (sc_ext sc) = true -> inb x (sc_loc sc) = false ->
  forall a vs m2 w2 g, load m1 (h_addr H x) = Some a -> rvalues H false call sc r k l m1 w1 = Val vs m2 w2 -> h_fun H a = Some g ->
  follows I M f args m w (ended m (call g vs m2 w2)).
Proof.
  intros W H I M call f sc r k x l args m w m1 w1 AE E1 _ a vs m2 w2 g E2 E3 E4.
  pose proof (at_expression_follows H I M call _ _ _ _ _ _ _ _ _ _ false AE (noloc_any _ _)) as K.
  rewrite rvalue_named in K. unfold called in K. rewrite E1 in K. unfold andthen, done, load_ in K. rewrite E2, E3 in K. unfold call_at in K. rewrite E4 in K. exact K.
Qed.
Print Assumptions C37_indirect_partial.
(** [x(l)] with a name [x] that is not a variable: the function [x] is called. *)
Theorem C37_direct : forall W (H : host W) I M call f sc r k x l args m w m1 w1,
  at_expression H I M call f sc r k (ECall (ECallee x) l) args m w m1 w1 ->
  inb x (sc_ext sc) = false -> inb x (sc_loc sc) = false ->
  forall vs m2 w2, rvalues H false call sc r k l m1 w1 = Val vs m2 w2 ->
  follows I M f args m w (ended m (call x vs m2 w2)).
Proof.
  intros W H I M call f sc r k x l args m w m1 w1 AE E1 _ vs m2 w2 E3.
  pose proof (at_expression_follows H I M call _ _ _ _ _ _ _ _ _ _ false AE (noloc_any _ _)) as K.
  rewrite rvalue_named in K. unfold called in K. rewrite E1 in K. unfold andthen in K. rewrite E3 in K. exact K.
Qed.
Print Assumptions C37_direct.
(** [(e)(l)] and the like: the function whose address is the value of [e]. *)
Theorem C37_computed : forall W (H : host W) I M call f sc r k e l args m w m1 w1,
  at_expression H I M call f sc r k (ECall e l) args m w m1 w1 -> (forall x, e <> ECallee x) ->
  forall a m2 w2 vs m3 w3 g, rvalue H false call sc r k e m1 w1 = Val a m2 w2 ->
    rvalues H false call sc r (k + lits e) l m2 w2 = Val vs m3 w3 -> h_fun H a = Some g ->
  follows I M f args m w (ended m (call g vs m3 w3)).
Proof.
  intros W H I M call f sc r k e l args m w m1 w1 AE N a m2 w2 vs m3 w3 g E1 E2 E3.
  pose proof (at_expression_follows H I M call _ _ _ _ _ _ _ _ _ _ false AE (noloc_any _ _)) as K.
  rewrite rvalue_computed in K by exact N. unfold andthen in K. rewrite E1, E2 in K. unfold call_at in K. rewrite E3 in K. exact K.
Qed.
Print Assumptions C37_computed.
Definition src37 := $"p;g()return(1);h(a)return(a+7);f(g)return(g());i(){extrn p;return(p(2));}j(){return(h(3));}k(a){return((a)(4));}q()return(7);main()return(f(q));".
Definition tree37 : list decl := [DGlobal "p" [];
  DFunction "g" [] (SReturn (Some (EInt 1)));
  DFunction "h" ["a"] (SReturn (Some (EBin (CBin OAdd) (v_ "a") (EInt 7))));
  DFunction "f" ["g"] (SReturn (Some (ECall (ECallee "g") ENil)));
  DFunction "i" [] (returns [SExtrn ["p"]] (ECall (ECallee "p") (ECons (EInt 2) ENil)));
  DFunction "j" [] (returns [] (ECall (ECallee "h") (ECons (EInt 3) ENil)));
  DFunction "k" ["a"] (returns [] (ECall (EParen (v_ "a")) (ECons (EInt 4) ENil)));
  DFunction "q" [] (SReturn (Some (EInt 7)));
  DFunction "main" [] (SReturn (Some (ECall (ECallee "f") (ECons (v_ "q") ENil))))].
Definition I37 := machine ["b.p"; "b.g"; "b.h"; "b.f"; "b.i"; "b.j"; "b.k"; "main"; "b.q"].
Definition H37 := host_of I37.
Definition M37 := module_for src37.
Definition mem37 := word_at 1024 3072 empty_mem.
Lemma module37 : module_of tree37 M37.
Proof. exists [], src37. split; [apply lay_nil|split; [text|vm_compute; reflexivity]]. Qed.
Lemma linked37 : linked H37 I37 M37. Proof. by_machine. Qed.
Lemma separate37 : separate M37. Proof. by_names. Qed.
Definition call37 := calls H37 false tree37 10.
Lemma calling37 : calling I37 M37 call37.
Proof. intros x args m w. apply (C36_programs_partial _ H37 I37 M37 tree37 false module37 linked37 separate37). by_regular; intros K; discriminate K. Qed.
Example C37_ex : exists r, at_expression H37 I37 M37 call37 "i" (mkScope [] ["p"]) r 0 (ECall (ECallee "p") (ECons (EInt 2) ENil)) [] mem37 [] mem37 [] /\
  load mem37 (h_addr H37 "p") = Some 3072 /\ h_fun H37 3072 = Some "h"%string /\
  match call37 "h" [2] mem37 [] with Val z _ _ => z = 9 | _ => False end.
Proof.
  exists (fun _ => None). split; [|vm_compute; auto]. constructor; [exact linked37|exact separate37|exact calling37|].
  exists tree37, [], [SExtrn ["p"]]. split; [exact module37|]. split; [vm_compute; reflexivity|]. split; [constructor|]. split; [repeat constructor|]. split; reflexivity.
Qed.
Example C37_direct_ex : exists r, at_expression H37 I37 M37 call37 "j" (mkScope [] []) r 0 (ECall (ECallee "h") (ECons (EInt 3) ENil)) [] mem37 [] mem37 [] /\
  match call37 "h" [3] mem37 [] with Val z _ _ => z = 10 | _ => False end.
Proof.
  exists (fun _ => None). split; [|vm_compute; auto]. constructor; [exact linked37|exact separate37|exact calling37|].
  exists tree37, [], []. split; [exact module37|]. split; [vm_compute; reflexivity|]. split; [constructor|]. split; [constructor|]. split; reflexivity.
Qed.
Definition sit37 (f : string) ps e args (P : env -> memory -> list Z -> Prop) : Prop :=
  match entry H37 ps [] args mem37 [] with
  | Val r m1 w1 => at_expression H37 I37 M37 call37 f (names ps []) r 0 e args mem37 [] m1 w1 /\ P r m1 w1
  | _ => False
  end.
Example C37_computed_ex : sit37 "k" ["a"] (ECall (EParen (v_ "a")) (ECons (EInt 4) ENil)) [3072] (fun r m1 w1 =>
  match rvalue H37 false call37 (names ["a"] []) r 0 (EParen (v_ "a")) m1 w1 with
  | Val a m2 w2 => a = 3072 /\ h_fun H37 a = Some "h" /\ match call37 "h" [4] m2 w2 with Val z _ _ => z = 11 | _ => False end
  | _ => False
  end).
Proof.
  unfold sit37. assert (K : match entry H37 ["a"] [] [3072] mem37 [] with Val r m1 w1 => match rvalue H37 false call37 (names ["a"] []) r 0 (EParen (v_ "a")) m1 w1 with
    | Val a m2 w2 => a = 3072 /\ h_fun H37 a = Some "h" /\ match call37 "h" [4] m2 w2 with Val z _ _ => z = 11 | _ => False end
    | _ => False end | _ => False end) by (vm_compute; auto).
  destruct (entry H37 ["a"] [] [3072] mem37 []) as [r m1 w1| | |] eqn:E; try contradiction. split; [|exact K].
  constructor; [exact linked37|exact separate37|exact calling37|].
  exists tree37, ["a"], []. split; [exact module37|]. split; [vm_compute; reflexivity|]. split; [by_nodup|]. split; [constructor|]. split; [reflexivity|exact E].
Qed.
(** A call through a parameter (or an automatic variable) is compiled as a call
    of the function of that name: the program prescribes 7, the code gives 1. *)
Theorem C37_calls_refuted : exists ds M (H : host (list Z)) I n m w z m1 w1 z' m2 w2, module_of ds M /\ linked H I M /\ separate M /\
  calls H true ds n "main" [] m w = Val z m1 w1 /\ (forall r, icall I M (globalName "main") [] m w r <-> r = XRet z' m2 w2) /\ z <> z'.
Proof.
  assert (E1 : match calls H37 true tree37 10 "main" [] mem37 [] with Val z _ _ => z = 7 | _ => False end) by (vm_compute; reflexivity).
  assert (E2 : match call37 "main" [] mem37 [] with Val z _ _ => z = 1 | _ => False end) by (vm_compute; reflexivity).
  pose proof (calling37 "main" [] mem37 []) as K.
  destruct (calls H37 true tree37 10 "main" [] mem37 []) as [z m1 w1| | |] eqn:E; try contradiction. destruct (call37 "main" [] mem37 []) as [z' m2 w2| | |]; try contradiction.
  exists tree37, M37, H37, I37, 10%nat, mem37, [], z, m1, w1, z', m2, w2.
  split; [exact module37|]. split; [exact linked37|]. split; [exact separate37|]. split; [exact E|]. split; [exact K|]. subst. discriminate.
Qed.
Print Assumptions C37_calls_refuted.

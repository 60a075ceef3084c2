(** * PropsStmt: what the code of statements and functions does (C29-C34)
    All theorems are about the module compiled from a text of the program and
    its execution by the machine of IRSem.v; what the statements of B do is said
    by the rules of SpecRun.v. *)
From Coq Require Import List Ascii String ZArith NArith Lia Bool.
From Verif Require Import Base Lexer SpecLex IR Builder Expr Stmt Decl DriverModes Wp Syntax SpecTree Pure ParseGen Pwp SpecText RenderWf PropsText PropsSym
  SpecSem IRSem SpecLink SemFacts SimFun SimAny IRDet SemMono SemEx TextTac PropsExpr SpecRun RunFacts MemFacts.
Import ListNotations.
Open Scope string_scope.
Open Scope list_scope.
Open Scope Z_scope.

(** The function [f], defined last as [f(ps) body] with [k] string literals
    before it in the file, is called with [args] in the state [m], [w]; [r], [m1],
    [w1] are the variables and the state when its parameters have been made. *)
Record in_function {W} (H : host W) (I : ihost W) (M : module_) (call : string -> list Z -> act W Z) (locals : bool)
  (f : string) (ps : list string) (body : stmt) (k : Z) (args : list Z) (m : memory) (w : W) (r : env) (m1 : memory) (w1 : W) : Prop := {
  if_linked : linked H I M;
  if_separate : separate M;
  if_calling : calling I M call;
  if_defined : exists ds, module_of ds M /\ defined 0 ds f None = Some (ps, body, k);
  if_regular : regular locals ps body;
  if_entry : parameters H ps args (fun _ => None) m w = Val r m1 w1
}.
(** All that the function has to do. *)
Definition whole (ps : list string) (body : stmt) (k : Z) : placed := place (mkScope (rev ps) []) k body.
(** The result of a call made in [m]: the storage of the call is given back. *)
Definition back {W} (m : memory) (x : xres W) : xres W := match x with XRet z m' w' => XRet z (pop m m') w' | XExit z w' => XExit z w' end.
Definition gives {W} (I : ihost W) (M : module_) (f : string) (args : list Z) (m : memory) (w : W) (x : xres W) : Prop :=
  forall y, icall I M (globalName f) args m w y <-> y = back m x.

Lemma completes_gives {W} (H : host W) I M call locals f ps body k args m w r m1 w1 x :
  in_function H I M call locals f ps body k args m w r m1 w1 ->
  completes H locals call (whole ps body k) (whole ps body k) r m1 w1 x -> gives I M f args m w x.
Proof.
  intros [LK SEP CA (ds & MO & D) R E] CO. destruct (module_of_generate ds M MO) as [WF GEN].
  destruct (completes_run H locals call _ _ _ _ _ _ _ _ CO None eq_refl) as [n K].
  pose proof (one_ok H I M LK true locals ds GEN WF SEP call 0 (calling_busy I M call CA) f ps body k n args m w (le_0_n n) D R) as Q.
  unfold invoke, andthen in Q. rewrite E, K in Q.
  assert (Q' : does I M f args m w (match x with XRet z m' w' => Val z (pop m m') w' | XExit z w' => Halt z w' end)) by (destruct x; exact Q).
  apply does_follows in Q'. destruct x; exact Q'.
Qed.

(** The rules and the functions of SpecSem.v give the same. *)
Theorem C29_rules : forall W (H : host W) locals call ps body k r m w x,
  completes H locals call (whole ps body k) (whole ps body k) r m w x <->
  exists n, run H locals call n n (mkScope (rev ps) []) k body None r m w = answer x.
Proof.
  intros. split; [intros K; eapply completes_run; [exact K|reflexivity]|]. intros [n E]. eapply run_completes; [|exact E]. reflexivity.
Qed.
Print Assumptions C29_rules.
(** The file for the examples. *)
Definition src29 := $"f(n){auto i,s;i=0;s=0;while(i<n){if(i%2)s=s+i;else putchar(i);i++;}return(s);}g(n){auto i;i=0;l:if(i<n){putchar(i);i++;goto l;}}h(n){switch(n){case 1:putchar(1);case 2:putchar(2);case 3:;}return(n);}p(a,b,c){return(b);}q(x){auto y,v[2];v[1]=x+y;return(v[1]);l:;}".
Definition call_ x e := ECall (ECallee x) (ECons e ENil).
Definition body_f := SBlock (SCons (SAuto [("i", -1); ("s", -1)]) (SCons (SExpr (EAsg None (v_ "i") (EInt 0))) (SCons (SExpr (EAsg None (v_ "s") (EInt 0)))
  (SCons (SWhile (EBin (CCmp PSLT) (v_ "i") (v_ "n")) (SBlock
    (SCons (SIfElse (EBin (CBin OSRem) (v_ "i") (EInt 2)) (SExpr (EAsg None (v_ "s") (EBin (CBin OAdd) (v_ "s") (v_ "i")))) (SExpr (call_ "putchar" (v_ "i"))))
    (SCons (SExpr (EPost OAdd (v_ "i"))) SNil)))) (SCons (SReturn (Some (v_ "s"))) SNil))))).
Definition body_g := SBlock (SCons (SAuto [("i", -1)]) (SCons (SExpr (EAsg None (v_ "i") (EInt 0)))
  (SCons (SLabel "l" (SIf (EBin (CCmp PSLT) (v_ "i") (v_ "n")) (SBlock
     (SCons (SExpr (call_ "putchar" (v_ "i"))) (SCons (SExpr (EPost OAdd (v_ "i"))) (SCons (SGoto "l") SNil)))))) SNil))).
Definition body_h := SBlock (SCons (SSwitch (EParen (v_ "n")) (SBlock (SCons (SCase 1 (SExpr (call_ "putchar" (EInt 1))))
  (SCons (SCase 2 (SExpr (call_ "putchar" (EInt 2)))) (SCons (SCase 3 SNull) SNil))))) (SCons (SReturn (Some (v_ "n"))) SNil)).
Definition body_p := SBlock (SCons (SReturn (Some (v_ "b"))) SNil).
Definition body_q := SBlock (SCons (SAuto [("y", -1); ("v", 2)]) (SCons (SExpr (EAsg None (EIdx (v_ "v") (EInt 1)) (EBin (CBin OAdd) (v_ "x") (v_ "y"))))
  (SCons (SReturn (Some (EIdx (v_ "v") (EInt 1)))) (SCons (SLabel "l" SNull) SNil)))).
Definition tree29 := [DFunction "f" ["n"] body_f; DFunction "g" ["n"] body_g; DFunction "h" ["n"] body_h; DFunction "p" ["a"; "b"; "c"] body_p; DFunction "q" ["x"] body_q].
Definition I29 := machine ["b.f"; "b.g"; "b.h"; "b.p"; "b.q"; "b.putchar"].
Definition H29 := host_of I29.
Definition M29 := module_for src29.
Definition call29 := calls H29 true tree29 10.
Lemma module29 : module_of tree29 M29.
Proof. exists [], src29. split; [apply lay_nil|split; [text|vm_compute; reflexivity]]. Qed.
Lemma linked29 : linked H29 I29 M29. Proof. by_machine. Qed.
Lemma separate29 : separate M29. Proof. by_names. Qed.
Lemma regular29 : Forall (regularD true) tree29. Proof. by_regular. Qed.
Lemma calling29 : calling I29 M29 call29.
Proof. intros x args m w. apply (C36_programs_partial _ H29 I29 M29 tree29 true module29 linked29 separate29 regular29). Qed.
Definition sits (f : string) ps body args r m1 w1 := in_function H29 I29 M29 call29 true f ps body 0 args empty_mem [] r m1 w1.
(** The state of [f] when its parameters have been made satisfies [P]. *)
Definition sit29 (f : string) ps body args (P : env -> memory -> list Z -> Prop) : Prop :=
  exists r m1 w1, sits f ps body args r m1 w1 /\ P r m1 w1.
Lemma sit29_ok f ps body args (P : env -> memory -> list Z -> Prop) : In (DFunction f ps body) tree29 ->
  defined 0 tree29 f None = Some (ps, body, 0) -> match parameters H29 ps args (fun _ => None) empty_mem [] with Val r m1 w1 => P r m1 w1 | _ => False end -> sit29 f ps body args P.
Proof.
  intros Hin D K. destruct (parameters H29 ps args (fun _ => None) empty_mem []) as [r m1 w1| | |] eqn:E; try contradiction.
  exists r, m1, w1. split; [|exact K]. constructor; [exact linked29|exact separate29|exact calling29| | |exact E].
  - exists tree29. split; [exact module29|exact D].
  - pose proof regular29 as R. rewrite Forall_forall in R. exact (R _ Hin).
Qed.
Ltac by_sit29 := apply sit29_ok; [cbn; tauto|vm_compute; reflexivity|].
(** How it completes, and how it goes on, by computation. *)
Lemma completes29 ps body k n r m w (P : xres (list Z) -> Prop) :
  match run H29 true call29 n n (mkScope (rev ps) []) k body None r m w with Val z m' w' => P (XRet z m' w') | Halt z w' => P (XExit z w') | Stuck | Limit => False end ->
  exists x, completes H29 true call29 (whole ps body k) (whole ps body k) r m w x /\ P x.
Proof.
  intros K. destruct (run _ _ _ n n _ k body None r m w) as [z m' w'|z w'| |] eqn:E; [| |contradiction..].
  - exists (XRet z m' w'). split; [|exact K]. apply C29_rules. exists n. exact E.
  - exists (XExit z w'). split; [|exact K]. apply C29_rules. exists n. exact E.
Qed.
Lemma goes29 n s sc k t r m w a (P : outcome -> Prop) : start_at t (place sc k s) = Some a ->
  match exec H29 true call29 n sc k s t r m w with Val (f, r') m' w' => P (Leaves f r' m' w') | Halt z w' => P (Exits z w') | Stuck | Limit => False end ->
  exists o, goes H29 true call29 a r m w o /\ P o.
Proof.
  intros A K. destruct (exec _ _ _ n sc k s t r m w) as [[f r'] m' w'|z w'| |] eqn:E; [| |contradiction..].
  - exists (Leaves f r' m' w'). split; [|exact K]. exact (proj1 (exec_goes H29 true call29 n) _ _ _ _ _ _ _ (Leaves f r' m' w') _ A E).
  - exists (Exits z w'). split; [|exact K]. exact (proj1 (exec_goes H29 true call29 n) _ _ _ _ _ _ _ (Exits z w') _ A E).
Qed.

(** ** C29 *)
(** What the rules of SpecRun.v derive for the body of a function is what a call
    gives. Not covered ([regular]): functions with code directly after a return
    (C32), with two equal labels, parameters or cases of a switch, and, for
    [locals = true], with a call through a local variable (C37). *)
Theorem C29_statements_partial : forall W (H : host W) I M call locals f ps body k args m w r m1 w1 x,
  in_function H I M call locals f ps body k args m w r m1 w1 ->
  completes H locals call (whole ps body k) (whole ps body k) r m1 w1 x -> gives I M f args m w x.
Proof. intros. eapply completes_gives; eauto. Qed.
Print Assumptions C29_statements_partial.
Example C29_ex : sit29 "f" ["n"] body_f [5] (fun r m1 w1 => exists x,
  completes H29 true call29 (whole ["n"] body_f 0) (whole ["n"] body_f 0) r m1 w1 x /\ match x with XRet z _ w => z = 4 /\ w = [0; 2; 4] | _ => False end).
Proof. by_sit29. apply (completes29 _ _ _ 20). vm_compute. auto. Qed.

(** ** Sequences *)
Fixpoint joined (a b : stmts) : stmts := match a with SNil => b | SCons s r => SCons s (joined r b) end.
Section Sequences.
Context {W : Type}.
Variable H : host W.
Variable locals : bool.
Variable call : string -> list Z -> act W Z.
Lemma goes_joined o b : forall a sc k r m w r' m' w',
  goes H locals call (placeL sc k a) r m w (Leaves Fall r' m' w') ->
  goes H locals call (placeL (afterL sc a) (k + litsL a) b) r' m' w' o ->
  goes H locals call (placeL sc k (joined a b)) r m w o.
Proof.
  induction a as [|s a IH]; intros sc k r m w r' m' w' G1 G2.
  - inversion G1; subst. cbn [afterL litsL joined] in *. rewrite Z.add_0_r in G2. exact G2.
  - cbn [placeL] in G1. cbn [joined placeL afterL litsL] in *. rewrite Z.add_assoc in G2. inversion G1; subst; [|exfalso; apply H7; exact Logic.I].
    eapply go_seq; [eassumption|]. eapply IH; eassumption.
Qed.
Lemma completes_after body s s' r m w r' m' w' x : completes H locals call body s' r' m' w' x ->
  (forall o, goes H locals call s' r' m' w' o -> goes H locals call s r m w o) -> completes H locals call body s r m w x.
Proof.
  intros CO K. inversion CO; subst.
  - eapply co_end. apply K. eassumption.
  - eapply co_return. apply K. eassumption.
  - eapply co_exit. apply K. eassumption.
  - eapply co_goto; [apply K; eassumption|eassumption|eassumption].
Qed.
Lemma completes_joined body b a sc k r m w r' m' w' x :
  goes H locals call (placeL sc k a) r m w (Leaves Fall r' m' w') ->
  completes H locals call body (placeL (afterL sc a) (k + litsL a) b) r' m' w' x ->
  completes H locals call body (placeL sc k (joined a b)) r m w x.
Proof. intros G CO. eapply completes_after; [exact CO|]. intros o. apply goes_joined. exact G. Qed.
End Sequences.

(** ** C30 *)
Lemma reaches_completes {W} (H : host W) locals call body s r m w s' r' m' w' x : reaches H locals call body s r m w s' r' m' w' ->
  completes H locals call body s' r' m' w' x -> completes H locals call body s r m w x.
Proof. induction 1; intros CO; [exact CO|]. eapply co_goto; eauto. Qed.
(** When the function, after any number of jumps, comes to [goto l], it continues
    with what [at_label] says. *)
Theorem C30_goto_partial : forall W (H : host W) I M call locals f ps body k args m w r m1 w1 s r2 m2 w2 l r3 m3 w3 rest x,
  in_function H I M call locals f ps body k args m w r m1 w1 ->
  reaches H locals call (whole ps body k) (whole ps body k) r m1 w1 s r2 m2 w2 ->
  goes H locals call s r2 m2 w2 (Leaves (Jump l) r3 m3 w3) ->
  at_label l (whole ps body k) = Some rest ->
  completes H locals call (whole ps body k) rest r3 m3 w3 x -> gives I M f args m w x.
Proof. intros. eapply completes_gives; [eassumption|]. eapply reaches_completes; [eassumption|]. eapply co_goto; eassumption. Qed.
Print Assumptions C30_goto_partial.
(** Every label is found ... *)
Theorem C30_found : forall sc k s l, In l (labels s) -> exists rest, at_label l (place sc k s) = Some rest.
Proof.
  intros sc k s l K. destruct (at_label l (place sc k s)) as [rest|] eqn:E; [exists rest; auto|]. exfalso. apply at_label_none in E. contradiction.
Qed.
Print Assumptions C30_found.
(** ... and what follows is the statement labelled and the statements after it,
    and, if it is in the body of a loop, the loop. *)
Theorem C30_continues : forall l s a b sc k, ~ In l (labelsL a) ->
  at_label l (place sc k (SBlock (joined a (SCons (SLabel l s) b)))) =
    Some (RSeq (place (afterL sc a) (k + litsL a) s) (placeL (after (afterL sc a) s) (k + litsL a + litsS s) b)) /\
  forall e, at_label l (place sc k (SWhile e (SBlock (joined a (SCons (SLabel l s) b))))) =
    Some (RSeq (RSeq (place (afterL sc a) (k + lits e + litsL a) s) (placeL (after (afterL sc a) s) (k + lits e + litsL a + litsS s) b))
               (place sc k (SWhile e (SBlock (joined a (SCons (SLabel l s) b)))))).
Proof.
  intros l s a b. assert (A : forall a sc k, ~ In l (labelsL a) -> at_label l (placeL sc k (joined a (SCons (SLabel l s) b))) =
    Some (RSeq (place (afterL sc a) (k + litsL a) s) (placeL (after (afterL sc a) s) (k + litsL a + litsS s) b))).
  { clear a. induction a as [|s0 a IH]; intros sc k N; cbn [joined placeL afterL litsL].
    - cbn [place at_label litsS after]. rewrite String.eqb_refl, !Z.add_0_r. reflexivity.
    - cbn [labelsL] in N. rewrite in_app_iff in N. cbn [at_label].
      rewrite (proj1 (at_label_some l)) by tauto. rewrite IH by tauto. rewrite Z.add_assoc. reflexivity. }
  intros sc k N. split; [apply A; auto|]. intros e. cbn [place at_label]. rewrite A by auto. reflexivity.
Qed.
Print Assumptions C30_continues.
Definition sc29 := mkScope ["n"] [].
Example C30_ex : sit29 "g" ["n"] body_g [3] (fun r m1 w1 => exists r3 m3 w3 rest x,
  goes H29 true call29 (whole ["n"] body_g 0) r m1 w1 (Leaves (Jump "l") r3 m3 w3) /\ at_label "l" (whole ["n"] body_g 0) = Some rest /\
  completes H29 true call29 (whole ["n"] body_g 0) rest r3 m3 w3 x /\ match x with XRet z _ w => z = 0 /\ w = [0; 1; 2] | _ => False end).
Proof.
  by_sit29. destruct (parameters H29 ["n"] [3] (fun _ => None) empty_mem []) as [r m1 w1| | |] eqn:E.
  2, 3, 4: (assert (K : match parameters H29 ["n"] [3] (fun _ => None) empty_mem [] with Val _ _ _ => True | _ => False end) by exact Logic.I; rewrite E in K; contradiction).
  assert (K : match parameters H29 ["n"] [3] (fun _ => None) empty_mem [] with
    | Val r m1 w1 => match exec H29 true call29 9 sc29 0 body_g None r m1 w1 with
       | Val (Jump x, r3) m3 w3 => (x =? "l")%string = true /\ match run H29 true call29 9 9 sc29 0 body_g (Some (TLabel "l")) r3 m3 w3 with Val z _ w => z = 0 /\ w = [0; 1; 2] | _ => False end
       | _ => False end | _ => False end) by (vm_compute; auto).
  rewrite E in K. destruct (exec H29 true call29 9 sc29 0 body_g None r m1 w1) as [[[|x| |] r3] m3 w3| | |] eqn:EX; try contradiction.
  destruct K as [K1 K]. apply String.eqb_eq in K1. subst x. destruct (run H29 true call29 9 9 sc29 0 body_g (Some (TLabel "l")) r3 m3 w3) as [z m4 w4| | |] eqn:ER; try contradiction.
  destruct (C30_found sc29 0 body_g "l") as [rest AL]; [cbn; auto|]. exists r3, m3, w3, rest, (XRet z m4 w4).
  split; [exact (proj1 (exec_goes H29 true call29 9) _ _ _ None _ _ _ (Leaves (Jump "l") r3 m3 w3) _ eq_refl EX)|]. split; [exact AL|]. split; [|exact K].
  exact (run_completes H29 true call29 sc29 0 body_g 9 (XRet z m4 w4) 9 (Some (TLabel "l")) _ _ _ _ AL ER).
Qed.


(** ** C31 *)
Lemma at_case_joined v s aft : forall before sc k, ~ In v (casesL before) ->
  at_case v (placeL sc k (joined before (SCons (SCase v s) aft))) =
  Some (RSeq (place (afterL sc before) (k + litsL before) s) (placeL (after (afterL sc before) s) (k + litsL before + litsS s) aft)).
Proof.
  induction before as [|s0 l IH]; intros sc k N; cbn [joined placeL afterL litsL].
  - cbn [place at_case litsS after]. rewrite Z.eqb_refl, !Z.add_0_r. reflexivity.
  - cbn [casesL] in N. rewrite in_app_iff in N. cbn [at_case].
    rewrite (proj2 (proj1 (at_case_none v) s0 sc k)) by tauto. rewrite IH by tauto. rewrite Z.add_assoc. reflexivity.
Qed.
(** The function comes to [switch(e) { before case v: s after }] followed by the
    statements [b], and [e] has the value [v]: it continues with [s], [after] and
    [b]. *)
Theorem C31_selects_partial : forall W (H : host W) I M call locals f ps a e before v s aft b k args m w r m1 w1 r2 m2 w2 m3 w3 x,
  let sw := SSwitch e (SBlock (joined before (SCons (SCase v s) aft))) in
  let body := SBlock (joined a (SCons sw b)) in
  let sc := afterL (mkScope (rev ps) []) a in let k1 := k + litsL a in
  let sc2 := afterL sc before in let k2 := k1 + lits e + litsL before in
  in_function H I M call locals f ps body k args m w r m1 w1 ->
  goes H locals call (placeL (mkScope (rev ps) []) k a) r m1 w1 (Leaves Fall r2 m2 w2) ->
  rvalue H locals call sc r2 k1 e m2 w2 = Val v m3 w3 -> ~ In v (casesL before) ->
  completes H locals call (whole ps body k)
    (RSeq (RSeq (place sc2 k2 s) (placeL (after sc2 s) (k2 + litsS s) aft)) (placeL (after sc sw) (k1 + litsS sw) b)) r2 m3 w3 x ->
  gives I M f args m w x.
Proof.
  intros W H I M call locals f ps a e before v s aft b k args m w r m1 w1 r2 m2 w2 m3 w3 x sw body sc k1 sc2 k2 IF G E N CO.
  eapply completes_gives; [exact IF|]. unfold whole at 2. change (place (mkScope (rev ps) []) k body) with (placeL (mkScope (rev ps) []) k (joined a (SCons sw b))).
  eapply completes_joined; [exact G|]. eapply completes_after; [exact CO|].
  assert (AC : at_case v (place sc (k1 + lits e) (SBlock (joined before (SCons (SCase v s) aft)))) =
    Some (RSeq (place sc2 k2 s) (placeL (after sc2 s) (k2 + litsS s) aft))).
  { apply at_case_joined. exact N. }
  intros o G2. change (placeL sc k1 (SCons sw b)) with (RSeq (RSwitch sc k1 e (place sc (k1 + lits e) (SBlock (joined before (SCons (SCase v s) aft))))) (placeL (after sc sw) (k1 + litsS sw) b)).
  inversion G2; subst.
  - eapply go_seq; [eapply go_switch; eassumption|eassumption].
  - eapply go_seq_left; [eapply go_switch; eassumption|assumption].
  - discriminate.
Qed.
Print Assumptions C31_selects_partial.
(** If no case has the value, the body is skipped. *)
Theorem C31_none_partial : forall W (H : host W) I M call locals f ps a e s b k args m w r m1 w1 r2 m2 w2 v m3 w3 x,
  let body := SBlock (joined a (SCons (SSwitch e s) b)) in
  let sc := afterL (mkScope (rev ps) []) a in let k1 := k + litsL a in
  in_function H I M call locals f ps body k args m w r m1 w1 ->
  goes H locals call (placeL (mkScope (rev ps) []) k a) r m1 w1 (Leaves Fall r2 m2 w2) ->
  rvalue H locals call sc r2 k1 e m2 w2 = Val v m3 w3 -> ~ In v (cases s) ->
  completes H locals call (whole ps body k) (placeL (after sc (SSwitch e s)) (k1 + litsS (SSwitch e s)) b) r2 m3 w3 x ->
  gives I M f args m w x.
Proof.
  intros W H I M call locals f ps a e s b k args m w r m1 w1 r2 m2 w2 v m3 w3 x body sc k1 IF G E N CO.
  eapply completes_gives; [exact IF|]. unfold whole at 2. change (place (mkScope (rev ps) []) k body) with (placeL (mkScope (rev ps) []) k (joined a (SCons (SSwitch e s) b))).
  eapply completes_joined; [exact G|]. eapply completes_after; [exact CO|].
  intros o G2. change (placeL (afterL (mkScope (rev ps) []) a) (k + litsL a) (SCons (SSwitch e s) b)) with (RSeq (RSwitch sc k1 e (place sc (k1 + lits e) s)) (placeL (after sc (SSwitch e s)) (k1 + litsS (SSwitch e s)) b)).
  eapply go_seq; [|exact G2]. eapply go_switch_none; [exact E|]. apply at_case_none. exact N.
Qed.
Print Assumptions C31_none_partial.
Definition bef31 := SCons (SCase 1 (SExpr (call_ "putchar" (EInt 1)))) SNil.
Definition aft31 := SCons (SCase 3 SNull) SNil.
Definition end31 := SCons (SReturn (Some (v_ "n"))) SNil.
Example C31_ex : body_h = SBlock (joined SNil (SCons (SSwitch (EParen (v_ "n")) (SBlock (joined bef31 (SCons (SCase 2 (SExpr (call_ "putchar" (EInt 2)))) aft31)))) end31)) /\
  sit29 "h" ["n"] body_h [2] (fun r m1 w1 =>
    rvalue H29 true call29 sc29 r 0 (EParen (v_ "n")) m1 w1 = Val 2 m1 w1 /\ ~ In 2 (casesL bef31) /\ exists x,
    completes H29 true call29 (whole ["n"] body_h 0)
      (RSeq (RSeq (place sc29 0 (SExpr (call_ "putchar" (EInt 2)))) (placeL sc29 0 aft31)) (placeL sc29 0 end31)) r m1 w1 x /\
    match x with XRet z _ w => z = 2 /\ w = [2] | _ => False end).
Proof.
  split; [reflexivity|]. by_sit29. destruct (parameters H29 ["n"] [2] (fun _ => None) empty_mem []) as [r m1 w1| | |] eqn:E.
  2, 3, 4: (assert (K : match parameters H29 ["n"] [2] (fun _ => None) empty_mem [] with Val _ _ _ => True | _ => False end) by exact Logic.I; rewrite E in K; contradiction).
  assert (K : match parameters H29 ["n"] [2] (fun _ => None) empty_mem [] with
    | Val r m1 w1 => match r "n" with Some a => load m1 a = Some 2 | None => False end /\ w1 = [] | _ => False end) by (vm_compute; auto).
  rewrite E in K. destruct K as [K ->]. destruct (r "n") as [a|] eqn:ER; [|contradiction].
  assert (V : forall w, rvalue H29 true call29 sc29 r 0 (EParen (v_ "n")) m1 w = Val 2 m1 w) by (intros w; cbn; unfold variable; cbn; rewrite ER; unfold andthen, maybe, done, load_; rewrite K; reflexivity).
  split; [apply V|]. split; [cbn; intuition discriminate|]. exists (XRet 2 m1 [2]). split; [|auto].
  eapply co_return. eapply go_seq; [eapply go_seq; [eapply go_expr; reflexivity|eapply go_seq; [apply go_case; apply go_null|apply go_null]]|].
  eapply go_seq_left; [|intros []]. apply go_return. apply (V [2]).
Qed.
(** No case for 7. *)
Example C31_none_ex : sit29 "h" ["n"] body_h [7] (fun r m1 w1 => exists x,
  completes H29 true call29 (whole ["n"] body_h 0) (whole ["n"] body_h 0) r m1 w1 x /\ match x with XRet z _ w => z = 7 /\ w = [] | _ => False end).
Proof. by_sit29. apply (completes29 _ _ _ 20). vm_compute. auto. Qed.

(** ** C32 *)
(** The function comes to [return(e);] or [return;]: whatever follows, the call
    ends with the value of [e], or 0. *)
Theorem C32_return_partial : forall W (H : host W) I M call locals f ps a o b k args m w r m1 w1 r2 m2 w2 v m3 w3,
  let body := SBlock (joined a (SCons (SReturn o) b)) in
  in_function H I M call locals f ps body k args m w r m1 w1 ->
  goes H locals call (placeL (mkScope (rev ps) []) k a) r m1 w1 (Leaves Fall r2 m2 w2) ->
  match o with
  | Some e => rvalue H locals call (afterL (mkScope (rev ps) []) a) r2 (k + litsL a) e m2 w2 = Val v m3 w3
  | None => v = 0 /\ m3 = m2 /\ w3 = w2
  end -> gives I M f args m w (XRet v m3 w3).
Proof.
  intros W H I M call locals f ps a o b k args m w r m1 w1 r2 m2 w2 v m3 w3 body IF G E.
  eapply completes_gives; [exact IF|]. unfold whole at 2. change (place (mkScope (rev ps) []) k body) with (placeL (mkScope (rev ps) []) k (joined a (SCons (SReturn o) b))).
  eapply completes_joined; [exact G|]. eapply co_return. cbn [placeL place]. eapply go_seq_left; [|intros []].
  destruct o as [e|]; [apply go_return; exact E|]. destruct E as (-> & -> & ->). apply go_return0.
Qed.
Print Assumptions C32_return_partial.
(** The same for a return anywhere, after any number of jumps: [s] is what the
    function still has to do after the last one. *)
Theorem C32_anywhere_partial : forall W (H : host W) I M call locals f ps body k args m w r m1 w1 s r2 m2 w2 r3 m3 w3 z,
  in_function H I M call locals f ps body k args m w r m1 w1 ->
  reaches H locals call (whole ps body k) (whole ps body k) r m1 w1 s r2 m2 w2 ->
  goes H locals call s r2 m2 w2 (Leaves (Return z) r3 m3 w3) -> gives I M f args m w (XRet z m3 w3).
Proof. intros. eapply completes_gives; [eassumption|]. eapply reaches_completes; [eassumption|]. eapply co_return. eassumption. Qed.
Print Assumptions C32_anywhere_partial.
(** A function that runs off its end gives 0. *)
Theorem C32_end_partial : forall W (H : host W) I M call locals f ps body k args m w r m1 w1 s r2 m2 w2 r3 m3 w3,
  in_function H I M call locals f ps body k args m w r m1 w1 ->
  reaches H locals call (whole ps body k) (whole ps body k) r m1 w1 s r2 m2 w2 ->
  goes H locals call s r2 m2 w2 (Leaves Fall r3 m3 w3) -> gives I M f args m w (XRet 0 m3 w3).
Proof. intros. eapply completes_gives; [eassumption|]. eapply reaches_completes; [eassumption|]. eapply co_end. eassumption. Qed.
Print Assumptions C32_end_partial.
(** A return with something after it, and a function that runs off its end. *)
Example C32_ex : sit29 "q" ["x"] body_q [5] (fun r m1 w1 => exists x,
  completes H29 true call29 (whole ["x"] body_q 0) (whole ["x"] body_q 0) r m1 w1 x /\ match x with XRet z _ w => z = 5 | _ => False end) /\
  sit29 "g" ["n"] body_g [0] (fun r m1 w1 => exists o,
  goes H29 true call29 (whole ["n"] body_g 0) r m1 w1 o /\ match o with Leaves Fall _ _ _ => True | _ => False end).
Proof.
  split; by_sit29.
  - apply (completes29 _ _ _ 20). vm_compute. auto.
  - apply (goes29 9 body_g sc29 0 None); [reflexivity|]. vm_compute. auto.
Qed.
(** Code directly after a return is not skipped: in [f(){return(1);return(2);}]
    the second return replaces the first. *)
Definition src32 := $"f(){return(1);return(2);}".
Definition tree32 := [DFunction "f" [] (SBlock (SCons (SReturn (Some (EInt 1))) (SCons (SReturn (Some (EInt 2))) SNil)))].
Definition I32 := machine ["b.f"].
Theorem C32_return_refuted : exists ds M (H : host (list Z)) I n m w m', module_of ds M /\ linked H I M /\ separate M /\
  calls H true ds n "f" [] m w = Val 1 m w /\ (forall r, icall I M (globalName "f") [] m w r <-> r = XRet 2 m' w).
Proof.
  exists tree32, (module_for src32), (host_of I32), I32, 5%nat, empty_mem, [], (pop empty_mem empty_mem).
  split; [exists [], src32; split; [apply lay_nil|split; [text|vm_compute; reflexivity]]|]. split; [by_machine|]. split; [by_names|]. split; [vm_compute; reflexivity|].
  assert (K : icall I32 (module_for src32) (globalName "f") [] empty_mem [] (XRet 2 (pop empty_mem empty_mem) [])).
  { eapply ic_return; [vm_compute; reflexivity|reflexivity|]. eapply steps_step; [|apply steps_refl]. eapply st_ret; reflexivity. }
  intros r. split; [intros K2; destruct (deterministic I32 (module_for src32)) as (_ & _ & D); exact (D _ _ _ _ _ K2 _ K)|intros ->; exact K].
Qed.
Print Assumptions C32_return_refuted.

(** ** C33 *)
(** When [f(ps) body] is called, each parameter has a word of its own, outside
    all other storage, with the argument of the same position; the words of the
    caller are as before; and the body runs from there. *)
Theorem C33_parameters_partial : forall W (H : host W) I M call locals f ps body k args m w r m1 w1,
  in_function H I M call locals f ps body k args m w r m1 w1 -> sane (h_place H) -> Forall int64 args ->
  w1 = w /\ kept m m1 /\
  (forall i p v, nth_error ps i = Some p -> nth_error args i = Some v ->
     exists a, r p = Some a /\ fresh m a 8 /\ word_ok m1 a = true /\ load m1 a = Some v) /\
  (forall p q a b, In p ps -> In q ps -> p <> q -> r p = Some a -> r q = Some b -> apart a 8 b 8) /\
  (forall x, completes H locals call (whole ps body k) (whole ps body k) r m1 w1 x -> gives I M f args m w x).
Proof.
  intros W H I M call locals f ps body k args m w r m1 w1 IF SA FA.
  assert (ND : NoDup ps) by apply (if_regular _ _ _ _ _ _ _ _ _ _ _ _ _ _ _ IF).
  destruct (parameters_facts H SA ps args _ _ _ _ _ _ ND FA (if_entry _ _ _ _ _ _ _ _ _ _ _ _ _ _ _ IF)) as (-> & _ & K & _ & V & D).
  repeat match goal with |- _ /\ _ => split end; auto. intros x CO. eapply completes_gives; eauto.
Qed.
Print Assumptions C33_parameters_partial.
(** If there is room for them, the parameters are made from any list with at
    least as many arguments. *)
Theorem C33_made : forall W (H : host W), sane (h_place H) -> (forall m, h_place H m 8 <> None) ->
  forall ps args m w, (List.length ps <= List.length args)%nat -> exists r m1, parameters H ps args (fun _ => None) m w = Val r m1 w.
Proof. intros. apply parameters_room; auto. Qed.
Print Assumptions C33_made.
(** [f(ps) { return(p); }] gives the argument at the position of [p]. *)
Theorem C33_argument : forall W (H : host W) I M ds f ps i p k args v m w, module_of ds M -> linked H I M -> separate M ->
  sane (h_place H) -> (forall m, h_place H m 8 <> None) ->
  defined 0 ds f None = Some (ps, SBlock (SCons (SReturn (Some (EVar p))) SNil), k) -> NoDup ps ->
  Forall int64 args -> (List.length ps <= List.length args)%nat -> nth_error ps i = Some p -> nth_error args i = Some v ->
  exists m', forall y, icall I M (globalName f) args m w y <-> y = XRet v m' w.
Proof.
  intros W H I M ds f ps i p k args v m w MO LK SEP SA RO D ND FA L Ep Ev.
  destruct (C33_made W H SA RO ps args m w L) as (r & m1 & E).
  assert (IF : in_function H I M (fun _ _ => stuck) true f ps (SBlock (SCons (SReturn (Some (EVar p))) SNil)) k args m w r m1 w).
  { constructor; auto; [intros x a m0 w0; exact Logic.I|exists ds; auto|]. unfold regular. cbn. repeat apply conj; auto; try constructor. intros _ x []. }
  destruct (C33_parameters_partial _ _ _ _ _ _ _ _ _ _ _ _ _ _ _ _ IF SA FA) as (_ & _ & V & _ & CO).
  destruct (V i p v Ep Ev) as (a & Ea & _ & _ & La). exists (pop m m1). apply (CO (XRet v m1 w)).
  eapply co_return. cbn [whole place placeL]. eapply go_seq_left; [|intros []]. apply go_return.
  cbn [rvalue]. unfold variable. cbn [sc_loc]. assert (IN : inb p (rev ps) = true).
  { apply existsb_exists. exists p. split; [|apply String.eqb_refl]. apply in_rev. rewrite rev_involutive. eapply nth_error_In; eauto. }
  rewrite IN. unfold andthen, maybe, load_, done. rewrite Ea, La. reflexivity.
Qed.
Print Assumptions C33_argument.

Lemma machine_sane tbl : sane (i_place (machine tbl)).
Proof.
  intros m n a E. cbn [machine i_place] in E. apply (f_equal (fun o => match o with Some z => z | None => 0 end)) in E. cbv beta iota in E. subst a. split; [rewrite Z.mul_comm; apply Z.mod_mul; lia|].
  intros b K. unfold word_ok, accessible in K. apply andb_true_iff in K. destruct K as [_ K]. apply existsb_exists in K. destruct K as (o & Ho & K).
  unfold covers in K. apply andb_true_iff in K. destruct K as [_ K]. apply Z.leb_le in K.
  assert (L : fst o + snd o <= fold_right (fun r b => Z.max (fst r + snd r) b) 1048576 (m_stack m ++ m_static m)).
  { clear K b. revert Ho. generalize (m_stack m ++ m_static m). induction l as [|y l IH]; intros []; cbn [fold_right]; [subst; lia|]. specialize (IH H). lia. }
  left. pose proof (Z.div_mod (fold_right (fun r b => Z.max (fst r + snd r) b) 1048576 (m_stack m ++ m_static m) + 7) 8 ltac:(lia)) as DM.
  pose proof (Z.mod_pos_bound (fold_right (fun r b => Z.max (fst r + snd r) b) 1048576 (m_stack m ++ m_static m) + 7) 8 ltac:(lia)). lia.
Qed.
Lemma sane29 : sane (h_place H29). Proof. exact (machine_sane _). Qed.
Example C33_ex : module_of tree29 M29 /\ linked H29 I29 M29 /\ separate M29 /\ sane (h_place H29) /\ (forall m, h_place H29 m 8 <> None) /\
  defined 0 tree29 "p" None = Some (["a"; "b"; "c"], SBlock (SCons (SReturn (Some (EVar "b"))) SNil), 0) /\ NoDup ["a"; "b"; "c"] /\
  Forall int64 [10; 20; 30; 40] /\ nth_error ["a"; "b"; "c"] 1 = Some "b" /\ nth_error [10; 20; 30; 40] 1 = Some 20.
Proof.
  split; [exact module29|]. split; [exact linked29|]. split; [exact separate29|]. split; [exact sane29|]. split; [discriminate|]. split; [vm_compute; reflexivity|].
  split; [by_nodup|]. split; [repeat constructor; discriminate|]. split; reflexivity.
Qed.

(** ** C34 *)
(** [auto l] anywhere in a function: new storage for each variable. *)
Theorem C34_auto : forall W (H : host W) locals call l r m w o, sane (h_place H) -> NoDup (map fst l) ->
  goes H locals call (RAuto l) r m w o -> exists r' m', o = Leaves Fall r' m' w /\ kept m m' /\
  (forall x, ~ In x (map fst l) -> r' x = r x) /\
  (forall x n, In (x, n) l -> exists a, r' x = Some a /\ made n m m' a) /\
  (forall x n a y k b, In (x, n) l -> In (y, k) l -> x <> y -> r' x = Some a -> r' y = Some b ->
     forall i j, 0 <= i < words n -> 0 <= j < words k -> apart (a + 8 * i) 8 (b + 8 * j) 8).
Proof.
  intros W H locals call l r m w o SA ND G. inversion G; subst; [|discriminate].
  match goal with E : automatics _ _ _ _ _ = _ |- _ => destruct (automatics_facts H SA _ _ _ _ _ _ _ ND E) as (-> & K & R & V & D) end.
  exists r', m'. auto.
Qed.
Print Assumptions C34_auto.
(** The function comes to [auto l]; it continues with this storage. *)
Theorem C34_code_partial : forall W (H : host W) I M call locals f ps a l b k args m w r m1 w1 r2 m2 w2 r3 m3 w3,
  let body := SBlock (joined a (SCons (SAuto l) b)) in
  let sc := after (afterL (mkScope (rev ps) []) a) (SAuto l) in
  in_function H I M call locals f ps body k args m w r m1 w1 ->
  goes H locals call (placeL (mkScope (rev ps) []) k a) r m1 w1 (Leaves Fall r2 m2 w2) ->
  automatics H l r2 m2 w2 = Val r3 m3 w3 -> sane (h_place H) -> NoDup (map fst l) ->
  w3 = w2 /\ kept m2 m3 /\ (forall x, ~ In x (map fst l) -> r3 x = r2 x) /\
  (forall x n, In (x, n) l -> exists a, r3 x = Some a /\ made n m2 m3 a) /\
  (forall x, completes H locals call (whole ps body k) (placeL sc (k + litsL a) b) r3 m3 w3 x -> gives I M f args m w x).
Proof.
  intros W H I M call locals f ps a l b k args m w r m1 w1 r2 m2 w2 r3 m3 w3 body sc IF G E SA ND.
  destruct (automatics_facts H SA _ _ _ _ _ _ _ ND E) as (-> & K & R & V & D). split; auto. split; auto. split; auto. split; auto.
  intros x CO. eapply completes_gives; [exact IF|]. unfold whole at 2. change (place (mkScope (rev ps) []) k body) with (placeL (mkScope (rev ps) []) k (joined a (SCons (SAuto l) b))).
  eapply completes_joined; [exact G|]. eapply completes_after; [exact CO|]. intros o G2. cbn [placeL place litsS]. rewrite Z.add_0_r.
  eapply go_seq; [apply go_auto; exact E|]. exact G2.
Qed.
Print Assumptions C34_code_partial.
Example C34_ex : sit29 "q" ["x"] body_q [5] (fun r m1 w1 => exists r3 m3 w3 x,
  automatics H29 [("y", -1); ("v", 2)] r m1 w1 = Val r3 m3 w3 /\ sane (h_place H29) /\ NoDup (map fst [("y", -1); ("v", 2)]) /\
  completes H29 true call29 (whole ["x"] body_q 0) (whole ["x"] body_q 0) r m1 w1 x /\ match x with XRet z _ w => z = 5 | _ => False end).
Proof.
  by_sit29. destruct (parameters H29 ["x"] [5] (fun _ => None) empty_mem []) as [r m1 w1| | |] eqn:E.
  2, 3, 4: (assert (K : match parameters H29 ["x"] [5] (fun _ => None) empty_mem [] with Val _ _ _ => True | _ => False end) by exact Logic.I; rewrite E in K; contradiction).
  assert (K : match parameters H29 ["x"] [5] (fun _ => None) empty_mem [] with
    | Val r m1 w1 => match automatics H29 [("y", -1); ("v", 2)] r m1 w1 with Val _ _ _ => True | _ => False end /\
        match run H29 true call29 20 20 (mkScope ["x"] []) 0 body_q None r m1 w1 with Val z _ _ => z = 5 | _ => False end
    | _ => False end) by (vm_compute; auto).
  rewrite E in K. destruct K as [K1 K2]. destruct (automatics H29 [("y", -1); ("v", 2)] r m1 w1) as [r3 m3 w3| | |]; try contradiction. exists r3, m3, w3.
  destruct (run H29 true call29 20 20 (mkScope ["x"] []) 0 body_q None r m1 w1) as [z m4 w4| | |] eqn:ER; try contradiction. exists (XRet z m4 w4).
  split; [reflexivity|]. split; [exact sane29|]. split; [by_nodup|]. split; [|exact K2].
  apply C29_rules. exists 20%nat. exact ER.
Qed.

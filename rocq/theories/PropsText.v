(** * PropsText: texts, trees and scope rules (C10-C16, C18, C59, C60) *)
From Coq Require Import List Ascii String ZArith NArith Lia Bool Arith.
From Verif Require Import Base Lexer SpecLex LexerFacts IR Builder Expr Stmt Decl Wp Syntax Pure ParseGen SpecStatic Static SpecText SpecAccept
  Render RenderStmt RenderDecl RenderWf SpecOcc OccFacts TextTac.
Import ListNotations.
Open Scope Z_scope.

(** Two compilations give the same module, or the same error. *)
Definition same_result (a b : result unit module_) : Prop :=
  match a, b with
  | Ok m _, Ok m' _ => m = m'
  | Err e, Err e' => e = e'
  | _, _ => False
  end.
Definition rejected (s : list ascii) : Prop := exists e, compile s false = Err e.

Lemma text_same ds s w : xP ds s -> layout w -> same_result (compile (w ++ s) false) (generate true ds).
Proof.
  intros H W. destruct (xP_wf _ _ H) as [W1 W2]. pose proof (generate_iff ds W1 W2) as G. pose proof (text_compiles ds s w H W) as T.
  destruct (chkP ds empty_env).
  - destruct G as (m & G & _). rewrite G in *. rewrite T. reflexivity.
  - destruct G as [e G]. rewrite G in *. rewrite T. reflexivity.
Qed.
Lemma text_rejected ds s w : xP ds s -> layout w -> (forall v, chkP ds empty_env <> Some v) -> rejected (w ++ s).
Proof.
  intros H W N. pose proof (text_accepted ds s w H W) as T. destruct (chkP ds empty_env) as [v|]; [destruct (N v eq_refl)|exact T].
Qed.
Lemma same_sym a b : same_result a b -> same_result b a.
Proof. destruct a, b; cbn; auto. Qed.
Lemma same_trans a b c : same_result a b -> same_result b c -> same_result a c.
Proof. destruct a, b, c; cbn; try tauto; congruence. Qed.

(** ** C10 *)
(** Every text in which the operands of relational operators contain no
    unparenthesised shift to the right of the operator is compiled as its
    tree: the grammar [tP 4] is B's precedence table except for that. *)
Theorem C10_precedence_partial : forall ds s w, tP 4 ds s -> layout w ->
  same_result (compile (w ++ s) false) (generate true ds).
Proof. intros ds s w H. apply text_same, tP_xP, H. Qed.
Print Assumptions C10_precedence_partial.
(** In particular the text determines the code. *)
Theorem C10_unambiguous_partial : forall ds ds' s, xP ds s -> xP ds' s -> same_result (generate true ds) (generate true ds').
Proof.
  intros ds ds' s H H'. eapply same_trans; [apply same_sym; exact (text_same ds s [] H lay_nil)|exact (text_same ds' s [] H' lay_nil)].
Qed.
Print Assumptions C10_unambiguous_partial.
Definition fn (x : string) (ps : list string) (b : stmt) : list decl := [DFunction x ps b].
Definition ret1 (e : expr) : stmt := SReturn (Some e).
Notation v_ x := (EVar x%string).

Definition tree10 : list decl := fn "f" ["a"; "b"; "c"]%string (ret1
  (ECond (EBin (CBin OOr) (EBin (CBin OAnd) (v_ "a") (EBin (CCmp PEQ) (v_ "b") (EBin (CCmp PSLT) (EBin (CBin OShl) (v_ "a") (EInt 2))
            (EBin (CBin OAdd) (v_ "b") (EBin (CBin OMul) (v_ "c") (EInt 3)))))) (v_ "b"))
         (EBin (CBin OSub) (EBin (CBin OSub) (v_ "a") (v_ "b")) (EInt 1))
         (ECond (v_ "c") (ENeg (v_ "a")) (EParen (EAsg (Some (CBin OAdd)) (v_ "b") (EAsg None (v_ "c") (EInt 1))))))).
Example C10_ex : tP 4 tree10 ($"f(a,b,c)return(a&b==a<<2<b+c*3|b?a-b-1:c?-a:(b=+c=1));") /\
  exists m, compile ($"f(a,b,c)return(a&b==a<<2<b+c*3|b?a-b-1:c?-a:(b=+c=1));") false = Ok m tt.
Proof. split; [text|eexists; vm_compute; reflexivity]. Qed.
(** With B's full table ([tP 5]) the claim is false: a<b<<c is compiled as
    (a<b)<<c. *)
Theorem C10_precedence_refuted : exists ds s, tP 5 ds s /\ ~ same_result (compile s false) (generate true ds).
Proof.
  exists (fn "f" ["a"; "b"; "c"]%string (ret1 (EBin (CCmp PSLT) (v_ "a") (EBin (CBin OShl) (v_ "b") (v_ "c"))))), ($"f(a,b,c)return(a<b<<c);").
  split; [text|]. vm_compute. discriminate.
Qed.
Print Assumptions C10_precedence_refuted.

(** ** C11 *)
(** Texts of the same tree: layout, and the spelling of constants, do not
    matter. Missing: places where the grammar allows no layout (between the
    name and the '(' or '[' of a definition, inside its empty parentheses,
    after else without a blank). *)
Theorem C11_layout_partial : forall ds s s' w w', xP ds s -> xP ds s' -> layout w -> layout w' ->
  same_result (compile (w ++ s) false) (compile (w' ++ s') false).
Proof. intros. eapply same_trans; [apply text_same; eauto|apply same_sym, text_same; eauto]. Qed.
Print Assumptions C11_layout_partial.
Lemma lay_sp : layout [" "%char]. Proof. apply lay_white; [unfold white; vm_compute; tauto|apply lay_nil]. Qed.
Lemma lay_cm : layout ($"/*c*/").
Proof.
  change ($"/*c*/") with ("/"%char :: "*"%char :: ["c"%char] ++ "*"%char :: "/"%char :: []). apply lay_comment; [|apply lay_nil].
  intros [|a [|b a']] r; discriminate.
Qed.
Lemma id_f : ident "f". Proof. t_ident. Qed.
Lemma id_a : ident "a". Proof. t_ident. Qed.
Example C11_ex : exists ds, xP ds ($"f(a)return(-a+1);") /\ xP ds ($"f( a )/*c*/return/*c*/( - a/*c*/+ 1);") /\
  exists m, compile ($"f(a)return(-a+1);") false = Ok m tt.
Proof.
  exists (fn "f" ["a"]%string (ret1 (EBin (CBin OAdd) (ENeg (v_ "a")) (EInt 1)))). split; [text|]. split; [|eexists; vm_compute; reflexivity].
  apply tP_xP. eapply (tP_cons 4 _ ($"f( a )/*c*/return/*c*/( - a/*c*/+ 1);") [] []); [|apply lay_nil|apply tP_nil|discriminate].
  apply (tD_fun 4 "f" [" "%char] ["a"%string] ($"a )") ($"/*c*/") _ ($"return/*c*/( - a/*c*/+ 1);")); auto using id_f, lay_sp, lay_cm.
  - apply (tNames_end ")" "a" [" "%char]); auto using id_a, lay_sp.
  - apply (tS_returne 4 _ ($"/*c*/") [" "%char] ($"- a/*c*/+ 1") [] []); auto using lay_cm, lay_sp, lay_nil.
    eapply tE_up; [apply (tE_bin 4 _ "+" 4 3 _ ($"- a") ($"/*c*/") [" "%char] _ ($"1")); auto using lay_cm, lay_sp|].
    + eapply tE_up; [apply (tE_neg 4 _ ($"a") [" "%char]); auto using lay_sp|lia]; [eapply tE_up; [apply tE_var, id_a|lia]|t_apart].
    + t_E.
    + t_apart.
    + lia.
Qed.
(** A blank between the name of a function and its parenthesis. *)
Theorem C11_layout_refuted : exists x w s m, ident x /\ layout w /\ not_starting ident_char s /\
  compile ($x ++ s) false = Ok m tt /\ rejected ($x ++ w ++ s).
Proof.
  exists "f"%string, [" "%char], ($"(){}"). eexists. split; [apply id_f|]. split; [apply lay_sp|]. split; [vm_compute; intuition congruence|].
  split; [vm_compute; reflexivity|]. eexists. vm_compute. reflexivity.
Qed.
Print Assumptions C11_layout_refuted.

(** ** C12 *)
(** Every text of the grammar whose tree obeys the scope rules compiles. *)
Theorem C12_accepted_partial : forall ds s w v, xP ds s -> layout w -> chkP ds empty_env = Some v ->
  exists m, compile (w ++ s) false = Ok m tt.
Proof.
  intros ds s w v H W E. pose proof (text_accepted ds s w H W) as T. rewrite E in T. destruct T as (m & T & _). eauto.
Qed.
Print Assumptions C12_accepted_partial.
(** And no other. *)
Theorem C12_rejected_partial : forall ds s w, xP ds s -> layout w -> chkP ds empty_env = None -> rejected (w ++ s).
Proof. intros ds s w H W E. apply (text_rejected ds); auto. rewrite E. discriminate. Qed.
Print Assumptions C12_rejected_partial.
Definition tree12 : list decl :=
  [DGlobal "n" [IvInt 3]; DVector "v" 10 []; DFunction "f" ["a"; "b"]%string
   (SBlock (SCons (SAuto [("x"%string, -1); ("y"%string, 5)]) (SCons (SExtrn ["n"%string])
    (SCons (SIfElse (EBin (CCmp PSLT) (v_ "a") (EBin (CBin OAdd) (v_ "b") (EInt 1))) (SExpr (EAsg None (v_ "x") (EInt 2))) (SReturn None))
    (SCons (SSwitch (EParen (v_ "x")) (SBlock (SCons (SCase 1 (SExpr (ECall (ECallee "g") (ECons (v_ "x") (ECons (v_ "y") ENil))))) SNil)))
     (SCons (SReturn (Some (ENeg (EIdx (v_ "y") (EInt 0))))) SNil))))))].
Example C12_ex : xP tree12 ($"n 3;v[10];f(a,b){auto x,y[5];extrn n;if(a<b+1)x=2;else return;switch(x){case 1:g(x,y);}return(-y[0]);}")
  /\ exists v, chkP tree12 empty_env = Some v.
Proof. split; [text|eexists; vm_compute; reflexivity]. Qed.
(** A program of B that is rejected: layout before the parenthesis. *)
Theorem C12_accepted_refuted : exists ds x w s m, tP 4 ds ($x ++ s) /\ ident x /\ layout w /\ not_starting ident_char s /\
  compile ($x ++ s) false = Ok m tt /\ rejected ($x ++ w ++ s).
Proof.
  exists (fn "f" [] (SBlock SNil)), "f"%string, [" "%char], ($"(){}"). eexists. split; [text|]. split; [apply id_f|]. split; [apply lay_sp|]. split; [vm_compute; intuition congruence|].
  split; [vm_compute; reflexivity|]. eexists. vm_compute. reflexivity.
Qed.
Print Assumptions C12_accepted_refuted.

(** ** C13 *)
(** Operands that do not designate storage. *)
Definition not_storage (e : expr) : Prop :=
  match e with
  | EInt _ | EStr _ | ECall _ _ | EBin _ _ _ | EParen _ | EPost _ _ | ECond _ _ _ | EAsg _ _ _ | ENot _ | ENeg _ | EAddr _ => True
  | _ => False
  end.
(** An operation that needs storage, and its operand. *)
Definition stores_to (e a : expr) : Prop :=
  (exists op b, e = EAsg op a b) \/ (exists op, e = EPost op a) \/ (exists op, e = EPre op a) \/ e = EAddr a.
Lemma stores_lvalue vars q e a : okE vars q e = true -> stores_to e a -> lvalue vars a = true.
Proof.
  intros H [(op & b & ->)|[(op & ->)|[(op & ->)| ->]]]; cbn [okE] in H; rewrite ?andb_true_iff in H; tauto.
Qed.
Theorem C13_lvalue_required : forall ds s w f ps b e a, xP ds s -> layout w ->
  In (DFunction f ps b) ds -> In e (exprsS b) -> stores_to e a -> not_storage a -> rejected (w ++ s).
Proof.
  intros ds s w f ps b e a H W HD HE HS NS. apply (text_rejected ds); auto. intros v E.
  destruct (chkP_steps _ _ _ _ _ _ E HD) as (fu & gl & v1 & [_ _ _ O]). destruct (O e HE) as [[x ->]|(vs & q & K & _)].
  - destruct HS as [(op & b' & D)|[(op & D)|[(op & D)|D]]]; discriminate.
  - apply (stores_lvalue _ _ _ _ K) in HS. destruct a; cbn in *; try contradiction; discriminate.
Qed.
Print Assumptions C13_lvalue_required.
Definition body13 : stmt := SBlock (SCons (SAuto [("x"%string, -1)]) (SCons (SExpr (EBin (CBin OMul) (EInt 2) (EPre OAdd (EParen (v_ "x"))))) SNil)).
Example C13_ex : xP (fn "f" [] body13) ($"f(){auto x;2*++(x);}") /\
  In (EPre OAdd (EParen (v_ "x"))) (exprsS body13) /\ stores_to (EPre OAdd (EParen (v_ "x"))) (EParen (v_ "x")) /\ not_storage (EParen (v_ "x")).
Proof. split; [text|]. split; [right; right; left; reflexivity|]. split; [|exact I]. right. right. left. eexists. reflexivity. Qed.

(** ** C14 *)
Theorem C14_undeclared_assignment : forall ds s w f ps b op x r, xP ds s -> layout w ->
  In (DFunction f ps b) ds -> In (EAsg op (EVar x) r) (exprsS b) ->
  ~ In x ps -> ~ In x (autosS b) -> ~ In x (extrnsS b) -> rejected (w ++ s).
Proof.
  intros ds s w f ps b op x r H W HD HE N1 N2 N3. apply (text_rejected ds); auto. intros v E.
  destruct (chkP_steps _ _ _ _ _ _ E HD) as (fu & gl & v1 & [_ _ _ O]). destruct (O _ HE) as [[y D]|(vs & q & K & I)]; [discriminate|].
  assert (L : lvalue vs (EVar x) = true) by (eapply stores_lvalue; [exact K|]; left; eauto). cbn in L. apply isin_In in L. apply I in L. cbn in L.
  rewrite !in_app_iff, <- in_rev in L. tauto.
Qed.
Print Assumptions C14_undeclared_assignment.
(** x is a variable of the file and extrn in an earlier function. *)
Definition tree14 : list decl := [DGlobal "x" []; DFunction "g" [] (SExtrn ["x"%string]); DFunction "f" ["a"%string] (SBlock (SCons (SExpr (EAsg None (v_ "a") (EAsg None (v_ "x") (EInt 1)))) SNil))].
Example C14_ex : xP tree14 ($"x;g()extrn x;f(a){a=x=1;}") /\ rejected ($"x;g()extrn x;f(a){a=x=1;}").
Proof.
  split; [text|]. apply (C14_undeclared_assignment tree14 _ [] "f" ["a"%string] (SBlock (SCons (SExpr (EAsg None (v_ "a") (EAsg None (v_ "x") (EInt 1)))) SNil)) None "x" (EInt 1));
    [text|apply lay_nil|right; right; left; reflexivity|right; right; left; reflexivity|cbn; intuition discriminate|cbn; tauto|cbn; tauto].
Qed.

(** ** C15 *)
(** A name declared twice by auto, or by auto and as a parameter. *)
Theorem C15_redeclared : forall ds s w f ps b, xP ds s -> layout w -> In (DFunction f ps b) ds ->
  ~ (NoDup (autosS b) /\ forall x, In x (autosS b) -> ~ In x ps) -> rejected (w ++ s).
Proof.
  intros ds s w f ps b H W HD N. apply (text_rejected ds); auto. intros v E.
  destruct (chkP_steps _ _ _ _ _ _ E HD) as (fu & gl & v1 & [_ _ [F1 F2] _]). apply N. split; auto.
  intros x K L. apply (F2 x K). cbn. rewrite <- in_rev. auto.
Qed.
Print Assumptions C15_redeclared.
Definition body15 : stmt := SBlock (SCons (SAuto [("x"%string, -1)]) (SCons (SWhile (v_ "x") (SBlock (SCons (SAuto [("y"%string, 3); ("x"%string, 2)]) SNil))) SNil)).
Example C15_ex : xP (fn "f" [] body15) ($"f(){auto x;while(x){auto y[3],x[2];}}") /\ ~ NoDup (autosS body15).
Proof. split; [text|]. cbn. intros H. inversion H as [|? ? N _]; subst. apply N. right. left. reflexivity. Qed.
(** Otherwise the declaration is accepted, in any context: the names are
    variables from then on. *)
Theorem C15_declared : forall names sw v, NoDup (map fst names) -> (forall x, In x (map fst names) -> ~ In x (s_locs v)) ->
  exists v', chkS sw (SAuto names) v = Some v' /\ (forall x, In x (map fst names) -> In x (s_locs v')) /\
    (forall x, In x (s_locs v') -> In x (s_locs v) \/ In x (map fst names)).
Proof.
  intros names sw. cbn [chkS]. induction (map fst names) as [|x l IH]; intros v N F; cbn [chkAuto].
  - exists v. repeat split; auto. intros x [].
  - rewrite (proj2 (isin_false x (s_locs v))) by (apply F; left; auto). inversion N; subst.
    destruct (IH (mkEnv (x :: s_locs v) (s_exts v) (s_funs v) (s_globs v))) as (v' & E & K1 & K2); auto.
    + cbn. intros y Y [->|Z]; auto. apply (F y); [right|]; auto.
    + exists v'. split; auto. split.
      * intros y [<-|Y]; auto. apply chkAuto_some in E. destruct E as (-> & _). cbn. apply in_or_app. right. left. auto.
      * intros y Y. cbn. destruct (K2 y Y) as [[->|Z]|Z]; auto.
Qed.
Print Assumptions C15_declared.

(** ** C16 *)
Theorem C16_case_outside_switch : forall ds s w f ps b, xP ds s -> layout w -> In (DFunction f ps b) ds -> stray b -> rejected (w ++ s).
Proof.
  intros ds s w f ps b H W HD N. apply (text_rejected ds); auto. intros v E.
  destruct (chkP_in _ _ _ _ _ _ E HD) as (fu & gl & v1 & K). rewrite (proj1 stray_rejected b N) in K. discriminate.
Qed.
Print Assumptions C16_case_outside_switch.
Definition body16 : stmt := SSwitch (EParen (EInt 1)) (SBlock (SCons (SCase 1 SNull) (SCons (SIf (EInt 1) (SCase 2 SNull)) SNil))).
Example C16_ex : xP (fn "f" [] body16) ($"f()switch(1){case 1:;if(1)case 2:;}") /\ stray body16.
Proof.
  split; [text|]. apply stray_switch. eapply under_block; [apply inL_later, inL_here|]. apply under_if. apply stray_case.
Qed.
(** case labels inside their switch are no reason to reject. *)
Example C16_ex2 : exists m, compile ($"f()switch(1){case 1:l:{case 2:;}case 3:switch(2)case 1:;}") false = Ok m tt.
Proof. eexists. vm_compute. reflexivity. Qed.

(** ** C18 *)
(** extrn of a name that, up to that point of the file, was defined or called
    as a function and neither defined nor declared as a variable. *)
Theorem C18_extrn_of_function : forall ds s w l1 x l2, xP ds s -> layout w -> eventsP ds = l1 ++ Extrn x :: l2 ->
  In (FunDef x) l1 \/ In (Called x) l1 -> ~ In (VarDef x) l1 -> ~ In (Extrn x) l1 -> rejected (w ++ s).
Proof.
  intros ds s w l1 x l2 H W E KN N1 N2. apply (text_rejected ds); auto. intros v C. destruct (xP_wf _ _ H) as [_ SH].
  pose proof (K_chkP ds SH [] empty_env v K_empty eq_refl C) as [_ _ G]. cbn [app] in G. destruct (G _ _ _ E KN); contradiction.
Qed.
Print Assumptions C18_extrn_of_function.
Definition tree18 : list decl := [DFunction "f" [] (SBlock (SCons (SExpr (ECall (ECallee "g") ENil)) SNil)); DFunction "h" [] (SExtrn ["g"%string])].
Example C18_ex : xP tree18 ($"f(){g();}h()extrn g;") /\ eventsP tree18 = [FunDef "f"; Called "g"; FunDef "h"] ++ [Extrn "g"].
Proof. split; [text|reflexivity]. Qed.

(** ** C59 *)
(** if without and with else are compiled as their trees when a blank follows
    else (constructors tS_if and tS_ifelse of the grammar); in the second the
    first branch does not end with an if without else. *)
Theorem C59_else_partial : forall s ss, xS s ss -> forall sw w u t c, layout w -> sk u t -> (openif s = true -> noelse t) ->
  PG (fun n => statement n sw) (w ++ ss ++ u) (genS true s sw) (if openif s then t else u) c.
Proof. exact (proj1 stmts_ok). Qed.
Print Assumptions C59_else_partial.
Definition tree59 : list decl := fn "f" ["a"; "b"]%string (SIf (v_ "a") (SIfElse (v_ "b") (SReturn None) (SReturn (Some (EInt 1))))).
Example C59_ex : xP tree59 ($"f(a,b)if(a)if(b)return;else return(1);").
Proof. text. Qed.
(** Any other character after else is lost. *)
Theorem C59_else_refuted : exists a c b m, ~ letter c /\ ~ digit c /\ compile (a ++ $"else" ++ " "%char :: c :: b) false = Ok m tt /\
  rejected (a ++ $"else" ++ c :: b).
Proof.
  exists ($"f(a){if(a)a=1;"), "{"%char, ($"a=2;}}"). eexists. split; [|split; [|split]].
  - unfold letter. vm_compute. intuition congruence.
  - unfold digit. vm_compute. intuition congruence.
  - vm_compute. reflexivity.
  - eexists. vm_compute. reflexivity.
Qed.
Print Assumptions C59_else_refuted.

(** ** C60 *)
(** An ASCII name starting with a letter that is no keyword can be declared
    and used. *)
Theorem C60_identifiers_partial : forall x, ident x -> ~ In x keywords ->
  (exists m, compile ($"f(){auto " ++ $x ++ $";" ++ $x ++ $"=1;}") false = Ok m tt) /\
  (x <> "f"%string -> exists m, compile ($"f(){extrn " ++ $x ++ $";" ++ $x ++ $"=1;}") false = Ok m tt) /\
  (exists m, compile ($"f(" ++ $x ++ $"){" ++ $x ++ $"=1;}") false = Ok m tt) /\
  (exists m, compile ($x ++ $"(){" ++ $x ++ $"();}") false = Ok m tt).
Proof.
  intros x I N.

  assert (T1 : tP 4 (fn "f" [] (SBlock (SCons (SAuto [(x, -1)]) (SCons (SExpr (EAsg None (EVar x) (EInt 1))) SNil)))) ($"f(){auto " ++ $x ++ $";" ++ $x ++ $"=1;}")).
  { unfold fn. eapply tP_eq; [t_P|]. rewrite <- ?app_assoc. reflexivity. }
  assert (T2 : tP 4 (fn "f" [] (SBlock (SCons (SExtrn [x]) (SCons (SExpr (EAsg None (EVar x) (EInt 1))) SNil)))) ($"f(){extrn " ++ $x ++ $";" ++ $x ++ $"=1;}")).
  { unfold fn. eapply tP_eq; [t_P|]. rewrite <- ?app_assoc. reflexivity. }
  assert (T3 : tP 4 (fn "f" [x] (SBlock (SCons (SExpr (EAsg None (EVar x) (EInt 1))) SNil))) ($"f(" ++ $x ++ $"){" ++ $x ++ $"=1;}")).
  { unfold fn. eapply tP_eq; [t_P|]. rewrite <- ?app_assoc. reflexivity. }
  assert (T4 : tP 4 (fn x [] (SBlock (SCons (SExpr (ECall (ECallee x) ENil)) SNil))) ($x ++ $"(){" ++ $x ++ $"();}")).
  { unfold fn. eapply tP_eq; [t_P|]. rewrite <- ?app_assoc. reflexivity. }
  assert (X : (x =? x)%string = true) by apply String.eqb_refl.
  assert (Y : x <> "f"%string -> (x =? "f")%string = false) by (intro H; apply String.eqb_neq; exact H).

  split; [|split; [|split]].
  - eapply (C12_accepted_partial _ _ [] _ (tP_xP _ _ T1) lay_nil). cbv [fn chkP chkD chkS chkL chkAuto chkE okE lvalue vars_of map rev app s_locs s_exts s_funs s_globs empty_env opt_bind isin existsb fst]. rewrite X. reflexivity.
  - intro F. eapply (C12_accepted_partial _ _ [] _ (tP_xP _ _ T2) lay_nil).  cbv [fn chkP chkD chkS chkL chkExtrn chkE okE lvalue vars_of map rev app s_locs s_exts s_funs s_globs empty_env opt_bind isin existsb fst]. rewrite ?X, ?(Y F). cbv [usedF usedArgs isin existsb app s_locs s_exts s_funs s_globs vars_of okE lvalue chkE opt_bind orb andb negb chkL chkS chkExtrn]. rewrite ?X. reflexivity.
  - eapply (C12_accepted_partial _ _ [] _ (tP_xP _ _ T3) lay_nil). cbv [fn chkP chkD chkS chkL chkE okE lvalue vars_of map rev app s_locs s_exts s_funs s_globs empty_env opt_bind isin existsb fst]. rewrite X. reflexivity.
  - eapply (C12_accepted_partial _ _ [] _ (tP_xP _ _ T4) lay_nil). reflexivity.
Qed.
Print Assumptions C60_identifiers_partial.
Example C60_ex : ident "counter" /\ ~ In "counter"%string keywords /\ ident "A1_b" /\ ~ In "A1_b"%string keywords.
Proof. split; [t_ident|split; [vm_compute; intuition discriminate|split; [t_ident|vm_compute; intuition discriminate]]]. Qed.
(** Names that can be declared but not used: [_x] and [1x]. *)
Theorem C60_identifiers_refuted : exists x,
  (exists m, compile ($"f(){auto " ++ x ++ $";}") false = Ok m tt) /\
  ~ (exists m, compile ($"f(){auto " ++ x ++ $";" ++ x ++ $"=1;}") false = Ok m tt).
Proof.
  exists ($"_x"). split; [eexists; vm_compute; reflexivity|].
  intros [m H]. vm_compute in H. discriminate H.
Qed.
Print Assumptions C60_identifiers_refuted.

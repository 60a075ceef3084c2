(** * PropsMsg: the error messages (C86) *)
From Coq Require Import List Ascii String ZArith NArith Lia Bool Arith.
From Verif Require Import Base Lexer SpecLex LexerFacts IR Builder Expr Stmt Decl Wp Syntax Pure ParseGen SpecStatic Static SpecText SpecAccept
  Render RenderStmt RenderDecl RenderWf SpecOcc OccFacts TextTac PropsText SpecMsg StaticMsg MsgFacts Driver SpecDriver DriverFacts DriverOk PropsDriver Cmdline DriverOut.
From Verif Require PropsOut.
From Verif Require Import SpecOut.
Import ListNotations.
Open Scope string_scope.
Open Scope list_scope.
Open Scope Z_scope.

(** ** C86 *)
(** The compiler gives the message of the first rule that the program breaks,
    and a module if it breaks none. *)
Theorem C86_message : forall ds s w, xP ds s -> layout w ->
  match message ds with
  | Some m => compile (w ++ s) false = Err (Msg m)
  | None => exists md, compile (w ++ s) false = Ok md tt
  end.
Proof.
  intros ds s w H W. destruct (xP_wf _ _ H) as [W1 W2]. pose proof (generate_message ds W1 W2) as G. pose proof (text_compiles ds s w H W) as T.
  destruct (message ds).
  - rewrite G in T. exact T.
  - destruct G as [md G]. rewrite G in T. eauto.
Qed.
Print Assumptions C86_message.
(** The rules of [message] are those of SpecStatic.v. *)
Theorem C86_rules : forall ds s, xP ds s -> (message ds = None <-> exists v, chkP ds empty_env = Some v).
Proof.
  intros ds s H. pose proof (C86_message ds s [] H lay_nil) as M. pose proof (text_accepted ds s [] H lay_nil) as T.
  destruct (message ds), (chkP ds empty_env) as [v|]; split; intros K; try discriminate; try (destruct K; discriminate); eauto.
  - destruct T as (md & T & _). congruence.
  - destruct M as [md M], T as [e T]. congruence.
Qed.
Print Assumptions C86_rules.
(** The message is about the first function that breaks a rule, whatever
    follows it, and says what is wrong there: an undefined identifier occurs
    in it and is no variable at that place, an operation that needs an lvalue
    has none, a name is declared twice, an extrn name is a function, a case
    belongs to no switch. *)
Theorem C86_cause : forall ds s w m, xP ds s -> layout w -> compile (w ++ s) false = Err (Msg m) ->
  exists l1 f ps b l2, ds = l1 ++ DFunction f ps b :: l2 /\ message l1 = None /\
    body_cause ps (fun x => x = f \/ function_in l1 x) b m /\
    forall l3, message (l1 ++ DFunction f ps b :: l3) = Some m.
Proof.
  intros ds s w m H W C. pose proof (C86_message ds s w H W) as M. destruct (message ds) as [m'|] eqn:E; [|destruct M; congruence].
  rewrite M in C. injection C as ->. apply message_cause. auto.
Qed.
Print Assumptions C86_cause.
(** One program for each message; in each the text after the error is never
    looked at. *)
Definition junk : list decl := fn "g" [] (SExpr (EAsg None (v_ "z") (EInt 0))).
Definition says (ds : list decl) (t m : string) : Prop := xP (ds ++ junk) ($t ++ $"g()z=0;") /\ message (ds ++ junk) = Some m.
Definition bl (l : list stmt) : stmt := SBlock (fold_right SCons SNil l).
Definition say_undef := fn "f" ["a"] (bl [SExpr (EAsg None (v_ "a") (EInt 1)); SExpr (EAsg None (v_ "b") (EInt 1)); SAuto [("b", -1)]]).
Definition say_left := fn "f" ["a"] (SExpr (EAsg (Some (CBin OAdd)) (EBin (CBin OAdd) (v_ "a") (EInt 1)) (v_ "a"))).
Definition say_post := fn "f" ["a"] (SExpr (EPost OSub (v_ "b"))).
Definition say_pre := fn "f" ["a"] (SExpr (EPre OAdd (EParen (v_ "a")))).
Definition say_addr := fn "f" ["a"] (ret1 (EAddr (EInt 3))).
Definition say_twice := fn "f" ["a"] (bl [SAuto [("b", -1)]; SWhile (v_ "b") (SAuto [("c", 3); ("a", -1)])]).
Definition say_extrn := [DGlobal "n" []; DFunction "f" [] (SExpr (ECall (ECallee "h") (ECons (v_ "n") ENil))); DFunction "k" [] (SExtrn ["n"])].
Definition say_case := fn "f" ["a"] (SSwitch (EParen (v_ "a")) (bl [SCase 1 SNull; SIf (v_ "a") (SCase 2 SNull)])).
Example C86_ex :
  says say_undef "f(a){a=1;b=1;auto b;}" "undefined identifier 'b'" /\
  says say_left "f(a)a+1=+a;" "left operand of assignment must be an lvalue" /\
  says say_post "f(a)b--;" "expected lvalue for postfix '--'" /\
  says say_pre "f(a)++(a);" "expected lvalue after '++'" /\
  says say_addr "f(a)return(&3);" "expected lvalue after '&'" /\
  says say_twice "f(a){auto b;while(b)auto c[3],a;}" "identifier 'a' already defined in this scope" /\
  says (fn "f" [] (SExpr (ECall (ECallee "h") ENil)) ++ fn "k" [] (SExtrn ["h"])) "f()h();k()extrn h;" "function redeclared as variable" /\
  says say_case "f(a)switch(a){case 1:;if(a)case 2:;}" "unexpected 'case' outside of 'switch' statements".
Proof. unfold says. repeat (match goal with |- _ /\ _ => split end); try text; vm_compute; reflexivity. Qed.

(** *** What the command prints *)
(** The command line asks to compile the one file [f]. *)
Definition asks_for (fl : flags) (f : path) : Prop :=
  compiling fl /\ f_no_args fl = false /\ f_files fl = [f] /\ In (f_optimize fl) [txt "0"; txt "1"; txt "2"; txt "3"].
(** Files can be read. *)
Definition readable (E : env) : Prop := forall t, stat_fault E t = false /\ open_fault E t = false /\ read_fault E t = None.
Lemma single_err E f out s c e : readable E -> d_fs s f = Some c -> compile c false = Err (Msg e) -> exists s', compileSingleTo E f out s = DErr e s'.
Proof.
  intros FE HF HC. unfold compileSingleTo, dbind, os_open. destruct (FE (d_tick s)) as (_ & -> & _). rewrite HF.
  unfold parse_file. destruct (FE (d_tick (tick s (d_fs s) [EvOpen f]))) as (_ & _ & ->). rewrite HC. cbn [err_text]. eauto.
Qed.
Theorem C86_status : forall E fl f st0 s ds t w m, readable E -> asks_for fl f -> named f st0 (txt "b") ->
  d_fs s f = Some (w ++ t) -> xP ds t -> layout w -> message ds = Some m -> fst (main E fl s) = 1.
Proof.
  intros E fl f st0 s ds t w m FE ((CH & CV) & NA & FL & OP) NM FS X W MS.
  assert (C : compile (w ++ t) false = Err (Msg m)) by (pose proof (C86_message ds t w X W) as K; rewrite MS in K; exact K).
  assert (B1 : HasSuffix f (txt ".b") = true) by (apply isb_named; eauto). assert (B2 : Ext f = txt ".b") by (eapply named_Ext; eauto).
  assert (L : exists level, opt_level (f_optimize fl) = Some level) by (destruct OP as [<-|[<-|[<-|[<-|[]]]]]; eexists; reflexivity).
  destruct L as [level L].
  assert (R : forall s1, d_fs s1 f = Some (w ++ t) -> exists s', Compile E (options_of E fl level) s1 = DErr m s').
  { intros s1 F1. assert (ONE : forall out, exists s', compileSingleTo E f out s1 = DErr m s') by (intros; eapply single_err; eauto).
    assert (TO : forall a out, out <> [] -> exists s', compileToIR E (irArgs a f out) s1 = DErr m s') by (intros; rewrite toIR_single; auto).
    assert (NE : forall q r, q ++ txt ".tmp." ++ r <> []) by (intros [|] r; discriminate).
    assert (NE2 : forall q, q ++ txt ".tmp.ll" <> []) by (intros [|]; discriminate).
    unfold Compile. destruct (OutType (options_of E fl level)).
    - unfold compileToExecutable. cbv zeta. set (a := if path_eqb _ _ then _ else _).
      assert (IN : InputFiles a = [f]) by (subst a; destruct (path_eqb _ _); auto). rewrite IN. cbn [exe_inputs]. rewrite B2. cbn [path_eqb].
      replace (path_eqb (txt ".b") (txt ".b")) with true by reflexivity.
      assert (TN : temp_name a 0 f (txt ".b") <> []) by (unfold temp_name; destruct (_ && _)%bool; auto).
      unfold dbind, on_error. destruct (TO a _ TN) as [s' K]. rewrite K. unfold drop_temps. destruct (SaveTemps a); cbn; eauto.
    - unfold compileToObject. replace (InputFiles (options_of E fl level)) with [f] by auto. cbn [each]. rewrite B2.
      assert (Y : forall out, exists s', objOne E (options_of E fl level) f out s1 = DErr m s').
      { intros out. unfold objOne. rewrite B1. unfold dbind. destruct (TO (options_of E fl level) (out ++ txt ".tmp.ll") (NE2 out)) as [s' K]. rewrite K. eauto. }
      unfold dbind, dret. cbn. destruct (negb _); [apply Y|]. destruct (Y (out_name f (txt ".o"))) as [s' K]. cbn in K. rewrite K. eauto.
    - unfold compileToAssembly. replace (InputFiles (options_of E fl level)) with [f] by auto. cbn [each]. rewrite B2.
      assert (Y : forall out, exists s', asmOne E (options_of E fl level) f out s1 = DErr m s').
      { intros out. unfold asmOne. rewrite B1. unfold dbind. destruct (TO (options_of E fl level) (out ++ txt ".tmp.ll") (NE2 out)) as [s' K]. rewrite K. eauto. }
      unfold dbind, dret. cbn. destruct (negb _); [apply Y|]. destruct (Y (out_name f (txt ".s"))) as [s' K]. cbn in K. rewrite K. eauto.
    - unfold compileToIR. replace (InputFiles (options_of E fl level)) with [f] by auto. cbn [each]. rewrite B1. cbn [negb].
      unfold dbind, dret. destruct (negb _); [apply ONE|]. destruct (ONE (out_name f (txt ".ll"))) as [s' K]. rewrite K. eauto. }
  assert (CK : each (check_input E) (f_files fl) s = DOk tt (tick s (d_fs s) [])).
  { rewrite FL. cbn [each]. unfold dbind, check_input. rewrite B2. replace (path_eqb (txt ".b") (txt ".b")) with true by reflexivity. cbn [orb].
    rewrite FS. destruct (FE (d_tick s)) as (-> & _). reflexivity. }
  destruct (R (tick s (d_fs s) []) FS) as [s' R'].
  unfold main. rewrite CH, CV, NA, L. unfold dbind. rewrite CK, R', FL. reflexivity.
Qed.
Print Assumptions C86_status.
(** The whole command, if nothing else goes wrong: the message, and nothing else,
    on the standard error output. *)
Theorem C86_printed : forall csv E T argv fl f st0 s ds t w m, faultless E -> command_line csv argv = Some fl -> argv <> [] -> asks_for fl f ->
  named f st0 (txt "b") -> d_fs s f = Some (w ++ t) -> xP ds t -> layout w -> message ds = Some m ->
  match v_blang csv E T argv s with (st, _, i) => st = 1 /\ errs_of i = [txt "blang: error: " ++ txt m ++ [ascii_of_N 10]] end.
Proof.
  intros csv E T argv fl f st0 s ds t w m FE CL NE AF NM FS X W MS.
  assert (RE : readable E) by (destruct FE; intros k; auto).
  assert (C : compile (w ++ t) false = Err (Msg m)) by (pose proof (C86_message ds t w X W) as K; rewrite MS in K; exact K).
  pose proof (C86_status E fl f st0 s ds t w m RE AF NM FS X W MS) as ST. destruct AF as (CO & NA & FL & OP).
  assert (MD : exists md, mode_is fl md) by (exists (output_type fl); apply mode_type; reflexivity). destruct MD as [md MD].
  pose proof (PropsOut.C89_source csv E T argv fl md s CL NE CO MD FE OP) as K. pose proof (PropsOut.C88_same csv E T argv s) as SM.
  destruct (v_blang csv E T argv s) as [[st s'] i]. destruct SM as [SM _]. unfold blang in SM. rewrite CL in SM. rewrite SM in ST. cbn [fst] in ST. subst st.
  rewrite FL in K. destruct K as [[K _]|(_ & g & c & e & u & HI & _ & FG & CE & VE & ER)]; [discriminate|right; right; reflexivity| |discriminate|].
  - intros g [<-|[]]. split; [congruence|]. exists st0, (txt "b"). split; [exact NM|]. destruct md; left; reflexivity.
  - destruct HI as [<-|[]]. rewrite FS in FG. injection FG as <-. rewrite C in CE. injection CE as <-. cbn in VE. subst u. auto.
Qed.
Print Assumptions C86_printed.
(** With the program of [say_undef] in d/x.b. *)
Definition no (_ : nat) : bool := false.
Definition ex_env : env := mkEnv no no (fun _ => None) no (fun _ => None) no no (fun _ _ _ => ClangOk []) (fun _ => []) true (fun _ => false) None.
Definition ex_text : list ascii := $"f(a){a=1;b=1;auto b;}g()z=0;".
Definition ex_s : dstate := mkD (fun p => if path_eqb p (txt "d/x.b") then Some ex_text else None) [] 0.
Definition ex_flags : flags := mkFlags [] false false false false true false (txt "2") false [] [] [txt "d/x.b"] false.
Definition ex_argv : list path := [txt "-O2"; txt "-S"; txt "d/x.b"].
Example C86_ex2 : faultless ex_env /\ command_line PropsOut.no_csv ex_argv = Some ex_flags /\ asks_for ex_flags (txt "d/x.b") /\
  named (txt "d/x.b") (txt "x") (txt "b") /\ d_fs ex_s (txt "d/x.b") = Some ex_text /\ xP (say_undef ++ junk) ex_text /\
  match v_blang PropsOut.no_csv ex_env PropsOut.ex_T ex_argv ex_s with (st, _, i) =>
    st = 1 /\ errs_of i = [txt "blang: error: undefined identifier 'b'" ++ [ascii_of_N 10]] end.
Proof.
  assert (R : faultless ex_env) by (constructor; cbn; intros; try reflexivity; eexists; reflexivity).
  assert (CL : command_line PropsOut.no_csv ex_argv = Some ex_flags) by (vm_compute; reflexivity).
  assert (A : asks_for ex_flags (txt "d/x.b")) by (repeat split; vm_compute; auto).
  assert (N : named (txt "d/x.b") (txt "x") (txt "b")).
  { exists (txt "d/"). split; [reflexivity|]. split; [right; exists (txt "d"); reflexivity|]. vm_compute. intuition discriminate. }
  assert (X : xP (say_undef ++ junk) ex_text) by exact (proj1 (proj1 C86_ex)).
  refine (conj R (conj CL (conj A (conj N (conj eq_refl (conj X _)))))).
  exact (C86_printed PropsOut.no_csv ex_env PropsOut.ex_T ex_argv ex_flags (txt "d/x.b") (txt "x") ex_s _ ex_text [] "undefined identifier 'b'"
    R CL ltac:(discriminate) A N eq_refl X lay_nil eq_refl).
Qed.
(** The cause found in it: the assignment to b, where only a is a variable. *)
Example C86_ex3 : exists d e, In (d, e) (placesS ["a"] (bl [SExpr (EAsg None (v_ "a") (EInt 1)); SExpr (EAsg None (v_ "b") (EInt 1)); SAuto [("b", -1)]])) /\
  d = ["a"] /\ causeE d e "undefined identifier 'b'".
Proof.
  exists ["a"], (EAsg None (v_ "b") (EInt 1)). split; [right; left; reflexivity|]. split; [reflexivity|]. left. exists "b". split; [reflexivity|].
  split; [right; left; reflexivity|]. intros [K|[]]. discriminate.
Qed.

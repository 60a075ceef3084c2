(** * PropsModule: registers are assigned before use, initial values, all rules of LLVM together (C69, C70, C71) *)
From Coq Require Import List Ascii String ZArith NArith Lia Bool Permutation.
From Verif Require Import Base Lexer IR Builder Expr Stmt Decl Wp Syntax Pure ParseGen Pwp SpecIR SpecSem SpecStatic SpecTree InvDecl Built InvSym SpecValid SpecSure InvDomP InvInit
  SpecLex SpecText RenderWf PropsBlocks PropsIR PropsSym PropsValid TextTac.
From Verif Require PropsExpr SemEx.
Import ListNotations.
Open Scope string_scope.
Open Scope list_scope.
Open Scope Z_scope.

(** ** C69: registers are assigned before they are used *)
(** The claim is false: the storage of an automatic variable is made where its
    auto statement stands, and the variable can be used where the statement
    has been passed by. *)
Definition around69 : string := "main(c){ if(c){ auto x; } x = 1; }".
Theorem C69_assigned_first_refuted : exists inp m f,
  compile inp false = Ok m tt /\ In f (m_funcs m) /\ ~ assigned_first (f_blocks f).
Proof.
  exists (list_ascii_of_string around69).
  assert (E : exists m f, compile (list_ascii_of_string around69) false = Ok m tt /\ In f (m_funcs m) /\
    f_blocks f = [mkBlock "entry" [IAlloca 0 1; IStore (VParam "c") (VReg 0); ILoad 1 (VReg 0); ICmp 2 PNE (VReg 1) (VInt 0)] (Some (TCondBr (VReg 2) 1 2));
                  mkBlock "if.0.then" [IAlloca 3 1; IStore (VInt 0) (VReg 3)] (Some (TBr 3));
                  mkBlock "if.0.else" [] (Some (TBr 3));
                  mkBlock "if.0.end" [IStore (VInt 1) (VReg 3)] (Some (TRet (VInt 0)))]).
  { eexists. eexists. split; [vm_compute; reflexivity|]. split; [left; reflexivity|]. reflexivity. }
  destruct E as (m & f & E1 & E2 & E3). exists m, f. split; auto. split; auto. rewrite E3. intros H.
  (* from the entry block through the else branch *)
  match type of H with assigned_first ?bs => set (l := bs) in H end.
  assert (W1 : walk l ([] ++ [0%nat]) 2) by (eapply (walk_edge l [] 0); [apply walk_entry|reflexivity|reflexivity|cbn; auto]).
  assert (W : walk l ([0%nat] ++ [2%nat]) 3) by (eapply (walk_edge l [0%nat] 2); [exact W1|reflexivity|reflexivity|cbn; auto]).
  destruct (H _ _ _ W eq_refl) as [K _]. destruct (K 0%nat _ 3%nat eq_refl eq_refl) as [(j & b & K1 & K2 & K3)|K1]; [cbn; auto| |].
  - destruct K1 as [<-|[<-|[]]]; injection K2 as <-; cbn in K3; intuition discriminate.
  - destruct K1.
Qed.
Print Assumptions C69_assigned_first_refuted.

(** Missing: programs that do not meet the criterion of SpecSure.v, among them
    some where every use is preceded by the auto statement on every path, and
    sources with characters that are not 7-bit (C72). *)
Theorem C69_assigned_first_partial : forall ds m f,
  PropsExpr.module_of ds m -> In f (m_funcs m) ->
  (forall n ps b, In (DFunction n ps b) ds -> sure_function ps b = true) -> assigned_first (f_blocks f).
Proof.
  intros ds m f HM Hf HD. destruct (module_of_good _ _ HM) as [HG G]. eapply generate_assigned; eauto.
Qed.
Print Assumptions C69_assigned_first_partial.
(** Automatic variables in a loop and in the cases of a switch, a label passed
    both ways, several parameters, conditional expressions. *)
Definition src69 := list_ascii_of_string
  "f(a,b,c){auto i,v[3];i=0;lp:while(i<a){auto t;t=i?b:v[1];i=t+1;}switch(c){case 1:auto u;u=2;c=u;case 2:{auto w;w=c;if(w)goto lp;else goto out;}}out:return(i+c);}".
Definition tree69 : list decl := [DFunction "f" ["a"; "b"; "c"] (SBlock
  (SCons (SAuto [("i", -1); ("v", 3)])
  (SCons (SExpr (EAsg None (EVar "i") (EInt 0)))
  (SCons (SLabel "lp" (SWhile (EBin (CCmp PSLT) (EVar "i") (EVar "a")) (SBlock
     (SCons (SAuto [("t", -1)])
     (SCons (SExpr (EAsg None (EVar "t") (ECond (EVar "i") (EVar "b") (EIdx (EVar "v") (EInt 1)))))
     (SCons (SExpr (EAsg None (EVar "i") (EBin (CBin OAdd) (EVar "t") (EInt 1)))) SNil))))))
  (SCons (SSwitch (EParen (EVar "c")) (SBlock
     (SCons (SCase 1 (SAuto [("u", -1)]))
     (SCons (SExpr (EAsg None (EVar "u") (EInt 2)))
     (SCons (SExpr (EAsg None (EVar "c") (EVar "u")))
     (SCons (SCase 2 (SBlock
        (SCons (SAuto [("w", -1)])
        (SCons (SExpr (EAsg None (EVar "w") (EVar "c")))
        (SCons (SIfElse (EVar "w") (SGoto "lp") (SGoto "out")) SNil))))) SNil))))))
  (SCons (SLabel "out" (SReturn (Some (EBin (CBin OAdd) (EVar "i") (EVar "c"))))) SNil))))))].
Example C69_ex : PropsExpr.module_of tree69 (SemEx.module_for src69) /\
  (forall n ps b, In (DFunction n ps b) tree69 -> sure_function ps b = true).
Proof.
  split; [exists [], src69; split; [apply lay_nil|split; [text|vm_compute; reflexivity]]|].
  intros n ps b [E|[]]. injection E as <- <- <-. vm_compute. reflexivity.
Qed.
(** The criterion rejects the program of the refutation. *)
Example C69_criterion : sure_function ["c"] (SBlock (SCons (SIf (EVar "c") (SBlock (SCons (SAuto [("x", -1)]) SNil))) (SCons (SExpr (EAsg None (EVar "x") (EInt 1))) SNil))) = false.
Proof. reflexivity. Qed.

(** ** C70: initial values *)
(** Addresses in initial values, for every source text. *)
Theorem C70_addresses : forall (inp : list ascii) (failing : bool) (m : module_) (g : gdef),
  compile inp failing = Ok m tt -> In g (m_globals m) -> addresses_ok (m_globals m) g.
Proof.
  intros inp fl m g H Hg. destruct (compile_sound _ _ _ H) as (ds & HW & HG). apply generate_yields in HG. destruct HG as (c & Y & ->).
  apply GI_addresses; auto. exact (GI_genP false ds HW NewCompiler (Forall_nil _) _ _ Y).
Qed.
Print Assumptions C70_addresses.
(** Strings, a vector with and one without initial values, a vector defined
    again: the objects with the addresses they hold. *)
Definition addresses_in (s : string) : list (string * list string) :=
  match compile_string s with
  | Ok m _ => map (fun g => (g_name g, flat_map (fun w => match w with CAddr n _ _ => [n] | CInt _ => [] end) (init_words (g_init g)))) (m_globals m)
  | _ => []
  end.
Example C70_nontrivial : addresses_in "v[9]; a ""x"", 2, ""y""; w[] ""z""; v[1] ""t"";" =
  [("b.v.data", []); (".str.0", []); (".str.1", []); ("b.a", [".str.0"; ".str.1"]); (".str.2", []); ("b.w", ["b.w"; ".str.2"]);
   (".str.3", []); ("b.v", ["b.v"; ".str.3"])].
Proof. vm_compute. reflexivity. Qed.

(** The number of elements: false for a vector with a size of 2^63 or more. *)
Definition huge70 : string := "v[18446744073709551615];".
Theorem C70_lengths_refuted : exists inp m g, compile inp false = Ok m tt /\ In g (m_globals m) /\ ~ length_ok g.
Proof.
  exists (list_ascii_of_string huge70). eexists. exists (mkGlob "b.v" (GWords 0 [CAddr "b.v" 8 1]) false).
  split; [vm_compute; reflexivity|]. split; [left; reflexivity|]. discriminate.
Qed.
Print Assumptions C70_lengths_refuted.
(** Missing: sizes of 2^63 and more, and as many initial values, and
    sources with characters that are not 7-bit (C72). *)
Theorem C70_lengths_partial : forall ds m g,
  PropsExpr.module_of ds m -> In g (m_globals m) -> Forall vector_ok ds -> length_ok g.
Proof.
  intros ds m g HM Hg HV. destruct (module_of_good _ _ HM) as [HG G]. apply generate_yields in G. destruct G as (c & Y & ->).
  pose proof (GL_genP true ds HG HV NewCompiler (Forall_nil _) _ _ Y) as K. unfold GL in K. rewrite Forall_forall in K. auto.
Qed.
Print Assumptions C70_lengths_partial.
Definition src70 := list_ascii_of_string "v[9];w[0]1,""z"";u[2]7;x 1,2;".
Definition tree70 : list decl := [DVector "v" 9 []; DVector "w" 0 [IvInt 1; IvStr "z"]; DVector "u" 2 [IvInt 7]; DGlobal "x" [IvInt 1; IvInt 2]].
Example C70_ex : PropsExpr.module_of tree70 (SemEx.module_for src70) /\ Forall vector_ok tree70 /\
  map (fun g => array_of (g_init g)) (m_globals (SemEx.module_for src70)) =
    [Some (9, 8); Some (1, 8); Some (2, 1); Some (3, 8); Some (3, 8); Some (2, 8)].
Proof.
  split; [exists [], src70; split; [apply lay_nil|split; [text|vm_compute; reflexivity]]|]. split; [|vm_compute; reflexivity].
  repeat constructor; discriminate.
Qed.

(** ** C71: modules LLVM accepts *)
(** What the source must avoid: names used both for a function and a variable,
    vectors defined twice or of a size that is no number, a label called entry
    or like the first parameter, gotos without label, equal cases in a switch,
    functions with parameters called without arguments, and uses of automatic
    variables around their declaration. *)
Record clean_function (ds : list decl) (ps : list string) (b : stmt) : Prop := {
  cf_entry : ~ In "entry" (labels b) /\ ~ In "entry" (gotos b);
  cf_param : forall p, In p (firstn 1 ps) -> p <> "entry" /\ ~ In p (labels b) /\ ~ In p (gotos b);
  cf_gotos : incl (gotos b) (labels b);
  cf_cases : distinct_cases b;
  cf_args : args_in (with_params ds) b;
  cf_sure : sure_function ps b = true
}.
Record clean (ds : list decl) : Prop := {
  cl_vectors : NoDup (vector_names ds) /\ Forall vector_ok ds;
  cl_names : forall v, chkP ds empty_env = Some v -> forall x, In x (s_funs v) -> ~ In x (s_globs v);
  cl_functions : forall n ps b, In (DFunction n ps b) ds -> clean_function ds ps b
}.
Theorem C71_valid_modules_partial : forall ds m, PropsExpr.module_of ds m -> clean ds -> valid_module m.
Proof.
  intros ds m HM [[V1 V2] CN CF]. destruct (module_of_good _ _ HM) as [HG G]. pose proof (goodP_wf _ HG) as HW.
  pose proof HM as (w & s & L & T & E). constructor.
  - pose proof (text_accepted ds s w T L) as A. destruct (chkP ds empty_env) as [v|] eqn:EC; [|destruct A as (e & A); rewrite E in A; discriminate].
    destruct (C21_all_symbols_unique_partial ds s w v T L EC V1 (CN v eq_refl)) as (m' & E' & K). rewrite E in E'. injection E' as <-. exact K.
  - exact (C24_module_well_formed _ _ _ E).
  - intros g Hg. exact (C70_addresses _ _ _ _ E Hg).
  - intros g Hg. exact (C70_lengths_partial _ _ _ HM Hg V2).
  - intros f Hf. constructor.
    + intros NE.
      assert (K1 : NoDup (map b_name (f_blocks f))) by (eapply C22_tree_partial; eauto; intros n ps b HI; apply (cf_entry _ _ _ (CF _ _ _ HI))).
      destruct (f_params f) as [|p [|q r]] eqn:EP; [exact K1| |].
      * constructor; auto. eapply (C61_parameter_and_labels_distinct_partial true ds m f p); eauto.
        -- rewrite EP. left. auto.
        -- destruct (block_names _ _ _ _ HW G Hf NE) as (n & ps & b & HI & _ & EP' & _).
           apply (cf_param _ _ _ (CF _ _ _ HI)). rewrite <- EP', EP. left. auto.
        -- intros n ps b HI HP. apply (cf_param _ _ _ (CF _ _ _ HI)). exact HP.
      * exfalso. destruct (block_names _ _ _ _ HW G Hf NE) as (n & ps & b & HI & _ & EP' & _). rewrite EP in EP'. destruct ps; discriminate.
    + intros b Hb. eapply C23_gotos_defined_partial; eauto. intros n ps bd HI. apply (cf_gotos _ _ _ (CF _ _ _ HI)).
    + exact (C65_well_typed _ _ _ _ E Hf).
    + exact (proj1 (C66_phi_and_entry _ _ _ _ E Hf)).
    + exact (proj2 (C66_phi_and_entry _ _ _ _ E Hf)).
    + intros t Ht. eapply C67_switch_values_partial; eauto. intros n ps b HI. apply (cf_cases _ _ _ (CF _ _ _ HI)).
    + intros i Hi. eapply C68_call_arguments_partial; eauto. intros n ps b HI. apply (cf_args _ _ _ (CF _ _ _ HI)).
    + eapply C69_assigned_first_partial; eauto. intros n ps b HI. apply (cf_sure _ _ _ (CF _ _ _ HI)).
Qed.
Print Assumptions C71_valid_modules_partial.
(** The function of C69, called with a string, with variables of the file. *)
Definition src71 := list_ascii_of_string (string_of_list_ascii src69 ++ "n 5;v[2]1,2;main(){extrn n,v;auto r;r=f(n,v[1],""x"");return(r);}")%string.
Definition tree71 : list decl := tree69 ++ [DGlobal "n" [IvInt 5]; DVector "v" 2 [IvInt 1; IvInt 2];
  DFunction "main" [] (SBlock (SCons (SExtrn ["n"; "v"]) (SCons (SAuto [("r", -1)])
    (SCons (SExpr (EAsg None (EVar "r") (ECall (ECallee "f") (ECons (EVar "n") (ECons (EIdx (EVar "v") (EInt 1)) (ECons (EStr "x") ENil))))))
    (SCons (SReturn (Some (EVar "r"))) SNil)))))].
Example C71_ex : PropsExpr.module_of tree71 (SemEx.module_for src71) /\ clean tree71.
Proof.
  split; [exists [], src71; split; [apply lay_nil|split; [text|vm_compute; reflexivity]]|].
  constructor.
  - split; [repeat constructor; cbn; auto|]. repeat constructor; discriminate.
  - intros v E x H K. vm_compute in E. injection E as <-. cbn in H, K. decompose [or] H; decompose [or] K; try contradiction; subst; discriminate.
  - intros n ps b [E|[E|[E|[E|[]]]]]; try discriminate E; injection E as <- <- <-; constructor; try (vm_compute; reflexivity).
    all: try (cbn; split; intros H; decompose [or] H; try contradiction; discriminate).
    all: try (intros p [<-|[]]; split; [discriminate|]; cbn; split; intros H; decompose [or] H; try contradiction; discriminate).
    all: try (intros x H; cbn in H |- *; tauto).
    all: try (cbn; repeat split; repeat constructor; cbn; intuition discriminate).
Qed.
(** Not every accepted text gives a valid module. *)
Theorem C71_valid_modules_refuted : exists inp m, compile inp false = Ok m tt /\ ~ valid_module m.
Proof.
  destruct C69_assigned_first_refuted as (inp & m & f & E & Hf & N). exists inp, m. split; auto. intros V. apply N.
  exact (vf_assigned _ (vm_functions _ V f Hf)).
Qed.
Print Assumptions C71_valid_modules_refuted.

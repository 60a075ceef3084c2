(** * PropsLd: linking with the run-time library (C78, C79) *)
From Coq Require Import List Ascii String ZArith NArith Lia Bool.
From Verif Require Import Base Lexer LexerFacts SpecLex IR Builder Expr Stmt Decl Wp Syntax SpecTree SpecStatic SpecText TextTac RenderWf ParseGen Names Pwp InvIR InvDecl InvSym Static
  SemEx PropsExpr PropsGlobal PropsBlocks Process Ld SpecLd LdFacts LdSrc Built PropsSym.
Import ListNotations.
Open Scope string_scope.
Open Scope list_scope.
Open Scope Z_scope.

Local Notation "$ s" := (list_ascii_of_string s%string) (at level 1, format "$ s").

(** ** C78 *)
(** Which objects can be linked with the library: every symbol is defined once,
    [main] is defined, everything referred to is defined or in the library, and
    the two symbols of writeb.o do not clash. *)
Theorem C78_links : forall objs, ~ In "_start" (defs_of objs) ->
  ((exists os, link objs libb = Linked os) <-> linkable (defs_of objs) (flat_map o_refs objs)).
Proof. exact libb_links. Qed.
Print Assumptions C78_links.
(** What comes out: each symbol has one definition, nothing is undefined, and of
    the library there are the members that are needed, no others. *)
Theorem C78_result : forall objs os, link objs libb = Linked os ->
  sound os /\ exists ps, os = objs ++ ps /\ forall m, In m ps <-> taken objs libb m.
Proof. intros objs os. apply link_some, libb_once. Qed.
Print Assumptions C78_result.

(** A source file: its tree, what the scope rules make of it, the object made of
    its module. *)
Definition file := (list decl * senv * object)%type.
Definition f_tree (f : file) : list decl := fst (fst f).
Definition f_env (f : file) : senv := snd (fst f).
Definition compiled_file (f : file) : Prop := exists M, file_ok (f_tree f) (f_env f) M /\ object_of M (snd f).
(** The names the file defines: variables (those of extrn included) and functions. *)
Definition defines (f : file) : list string := s_globs (f_env f) ++ fun_names (f_tree f).
Definition apart (f g : file) : Prop := forall x, In x (defines f) -> ~ In x (defines g).

Lemma compiled_symbols f : compiled_file f -> exists M, symbols (f_tree f) (f_env f) M /\ o_defs (snd f) = module_defs M /\
  forall y, In y (o_refs (snd f)) -> In y (o_defs (snd f)) \/ exists x, nodot x /\ y = globalName x /\ In x (s_funs (f_env f)).
Proof.
  intros (M & FO & OD & OR). pose proof (file_symbols _ _ _ FO) as S. exists M. split; auto. split; auto. intros y Hy. apply OR in Hy. apply in_app_or in Hy.
  destruct Hy as [Hy|Hy]; [right; eapply sy_refs; eauto|left; rewrite OD; auto].
Qed.
Definition symbol_of (f : file) (y : string) : Prop :=
  (exists x, nodot x /\ y = globalName x /\ In x (defines f)) \/ (exists x, nodot x /\ In x (defines f) /\ y = (globalName x ++ ".data")%string).
Lemma compiled_kind f : compiled_file f -> forall y, In y (o_defs (snd f)) -> symbol_of f y.
Proof.
  intros C0 y Hy. destruct (compiled_symbols f C0) as (M & S & OD & _). rewrite OD in Hy. unfold symbol_of, defines.
  destruct (sy_kind _ _ _ S y Hy) as [(x & N & E & K)|(x & N & K & E)]; [left|right]; exists x; split; auto; [split; auto|split; auto]; apply in_or_app; tauto.
Qed.
Lemma kinds_apart f g y : apart f g -> symbol_of f y -> symbol_of g y -> False.
Proof.
  intros A [(x & N & E & K)|(x & N & K & E)] [(z & N' & E' & K')|(z & N' & K' & E')].
  - assert (x = z) by (apply globalName_inj; congruence). subst. exact (A _ K K').
  - apply (globalName_data x z N). congruence.
  - apply (globalName_data z x N'). congruence.
  - assert (x = z) by (apply data_inj; congruence). subst. exact (A _ K K').
Qed.
Lemma in_D fs y : In y (defs_of (map snd fs)) <-> exists f : file, In f fs /\ In y (o_defs (snd f)).
Proof.
  rewrite in_defs. split.
  - intros (o & H & K). apply in_map_iff in H. destruct H as (f & <- & H). eauto.
  - intros (f & H & K). exists (snd f). split; auto. apply in_map. auto.
Qed.
Lemma in_R fs y : In y (flat_map o_refs (map snd fs)) <-> exists f : file, In f fs /\ In y (o_refs (snd f)).
Proof.
  rewrite in_flat_map. split.
  - intros (o & H & K). apply in_map_iff in H. destruct H as (f & <- & H). eauto.
  - intros (f & H & K). exists (snd f). split; auto. apply in_map. auto.
Qed.
Lemma files_once fs : Forall compiled_file fs -> ForallOrdPairs apart fs -> NoDup (defs_of (map snd fs)).
Proof.
  induction 1 as [|f fs HF H IH]; intros A; cbn [map]; [constructor|]. inversion A; subst. unfold defs_of. cbn [flat_map]. apply NoDup_app_iff.
  destruct (compiled_symbols f HF) as (M & S & OD & _). split; [rewrite OD; apply S|]. split; [apply IH; auto|].
  intros y Hy Ky. apply in_D in Ky. destruct Ky as (g & Hg & Ky). rewrite Forall_forall in *.
  eapply (kinds_apart f g y); eauto using compiled_kind.
Qed.
Lemma files_start fs : Forall compiled_file fs -> ~ In "_start" (defs_of (map snd fs)).
Proof.
  rewrite Forall_forall. intros H K. apply in_D in K. destruct K as (f & Hf & K). apply compiled_kind in K; auto.
  destruct K as [(x & _ & E & _)|(x & _ & _ & E)]; unfold globalName in E; (destruct (String.eqb x "main") eqn:X; [apply String.eqb_eq in X; subst x|]); discriminate E.
Qed.
(** Programs of one or more source files. The files define different names; one
    of them defines [main]; every function that is used is defined in a file or
    in the library; [writeb] is not defined, and a program that has a variable
    [fout] does not use [writeb]. Then the program is linked. *)
Theorem C78_program_partial : forall fs : list file, Forall compiled_file fs -> ForallOrdPairs apart fs ->
  (exists f, In f fs /\ In "main" (fun_names (f_tree f))) ->
  (forall f x, In f fs -> In x (s_funs (f_env f)) -> (exists g, In g fs /\ In x (fun_names (f_tree g))) \/ In x library_names) ->
  (forall f, In f fs -> ~ In "writeb" (defines f)) ->
  (forall f g, In f fs -> In g fs -> In "fout" (defines f) -> ~ In "writeb" (s_funs (f_env g))) ->
  exists os, link (map snd fs) libb = Linked os.
Proof.
  intros fs HC A (fm & Hm & HM) HF HW HO. apply C78_links; [apply files_start; auto|].
  pose proof HC as HC'. rewrite Forall_forall in HC'.
  assert (DN : forall x, nodot x -> In (globalName x) (defs_of (map snd fs)) -> exists f, In f fs /\ In x (defines f)).
  { intros x N K. apply in_D in K. destruct K as (f & Hf & K). exists f. split; auto. apply compiled_kind in K; auto.
    destruct K as [(z & _ & E & Hz)|(z & _ & _ & E)]; [apply globalName_inj in E; subst; auto|]. exfalso. exact (globalName_data x z N E). }
  assert (DF : forall f x, In f fs -> In x (fun_names (f_tree f)) -> In (globalName x) (defs_of (map snd fs))).
  { intros f x Hf Hx. apply in_D. exists f. split; auto. destruct (compiled_symbols f (HC' f Hf)) as (M & S & OD & _). rewrite OD. apply S. auto. }
  assert (RN : forall x, nodot x -> In (globalName x) (flat_map o_refs (map snd fs)) -> In (globalName x) (defs_of (map snd fs)) \/ exists f, In f fs /\ In x (s_funs (f_env f))).
  { intros x N K. apply in_R in K. destruct K as (f & Hf & K). destruct (compiled_symbols f (HC' f Hf)) as (M & S & OD & OR).
    destruct (OR _ K) as [D|(z & _ & E & Hz)]; [left; apply in_D; eauto|]. apply globalName_inj in E. subst. eauto. }
  assert (NW : nodot "writeb") by (apply nodot_b; reflexivity). assert (NF : nodot "fout") by (apply nodot_b; reflexivity).
  split; [apply files_once; auto|]. split; [exact (DF fm "main" Hm HM)|]. split; [|split].
  - intros y Hy. apply in_R in Hy. destruct Hy as (f & Hf & K). destruct (compiled_symbols f (HC' f Hf)) as (M & S & OD & OR).
    destruct (OR _ K) as [D|(x & N & -> & Hx)]; [left; apply in_D; eauto|]. destruct (HF _ _ Hf Hx) as [(g & Hg & Hx')|L]; [left; eauto|right].
    assert (E : forallb (fun x => isIn (globalName x) (defs_of libb)) library_names = true) by (vm_compute; reflexivity).
    rewrite forallb_forall in E. apply isIn_iff. auto.
  - intros (D & ND & R). destruct (DN "fout" NF D) as (f & Hf & K). destruct (RN "writeb" NW R) as [K'|(g & Hg & K')]; [contradiction|]. exact (HO f g Hf Hg K K').
  - intros (D & _ & _). destruct (DN "writeb" NW D) as (f & Hf & K). exact (HW f Hf K).
Qed.
Print Assumptions C78_program_partial.
(** Two files: one prints, the other has a variable and a function. *)
Definition obj_for (src : list ascii) : object := mkObject (module_defs (module_for src)) (module_refs (module_for src)).
Definition env_for (ds : list decl) : senv := match chkP ds empty_env with Some v => v | None => empty_env end.
Definition file_for (ds : list decl) (src : list ascii) : file := (ds, env_for ds, obj_for src).
Definition src78a := $"main(){next();printf(""%d."",next());}".
Definition tree78a : list decl := [DFunction "main" [] (SBlock (SCons (SExpr (ECall (ECallee "next") ENil))
  (SCons (SExpr (ECall (ECallee "printf") (ECons (EStr "%d.") (ECons (ECall (ECallee "next") ENil) ENil)))) SNil)))].
Definition src78b := $"n 4;v[10];next(){extrn n,v;return(v[n]=n++);}".
Definition tree78b : list decl := [DGlobal "n" [IvInt 4]; DVector "v" 10 [];
  DFunction "next" [] (SBlock (SCons (SExtrn ["n"; "v"]) (SCons (SReturn (Some (EAsg None (EIdx (EVar "v") (EVar "n")) (EPost OAdd (EVar "n"))))) SNil)))].
Lemma file_for_ok ds src : module_of ds (module_for src) -> chkP ds empty_env = Some (env_for ds) -> NoDup (vector_names ds) ->
  forallb (fun x => negb (isIn x (s_globs (env_for ds)))) (s_funs (env_for ds)) = true -> compiled_file (file_for ds src).
Proof.
  intros MO CK ND DJ. exists (module_for src). split; [|split; [reflexivity|intros y Hy; apply in_or_app; left; exact Hy]].
  split; [exact MO|]. split; [exact CK|]. split; [exact ND|]. intros x Hx Kx. cbn [f_env file_for fst snd] in *. rewrite forallb_forall in DJ. specialize (DJ x Hx).
  apply negb_true_iff, isIn_false in DJ. contradiction.
Qed.
Lemma tree78a_ok : compiled_file (file_for tree78a src78a).
Proof.
  apply file_for_ok; [exists [], src78a; split; [apply lay_nil|split; [text|vm_compute; reflexivity]]|vm_compute; reflexivity|repeat constructor|vm_compute; reflexivity].
Qed.
Lemma tree78b_ok : compiled_file (file_for tree78b src78b).
Proof.
  apply file_for_ok; [exists [], src78b; split; [apply lay_nil|split; [text|vm_compute; reflexivity]]|vm_compute; reflexivity|repeat constructor; auto|vm_compute; reflexivity].
Qed.
Example C78_ex : Forall compiled_file [file_for tree78a src78a; file_for tree78b src78b] /\ apart (file_for tree78a src78a) (file_for tree78b src78b) /\
  In "main" (fun_names tree78a) /\ s_funs (env_for tree78a) = ["printf"; "next"; "next"; "main"] /\ s_funs (env_for tree78b) = ["next"] /\
  link [obj_for src78a; obj_for src78b] libb = Linked ([mkObject ["main"] ["b.next"; "b.printf"]; mkObject ["b.n"; "b.v.data"; "b.v"; "b.next"] []] ++
    [mkObject ["b.printf"] ["b.char"; "b.write"; "b.printd"; "b.printo"]; mkObject ["b.char"] []; mkObject ["b.printd"] ["b.nwrite"; "b.fout"]; mkObject ["b.nwrite"] [];
     mkObject ["b.printo"] ["b.nwrite"; "b.fout"]; mkObject ["_start"] ["main"]; mkObject ["b.write"] ["b.fout"]; mkObject ["b.fout"; "b.writeb"] ["b.fout"]]).
Proof.
  split; [constructor; [exact tree78a_ok|constructor; [exact tree78b_ok|constructor]]|].
  split.
  { assert (E1 : defines (file_for tree78a src78a) = ["main"]) by (vm_compute; reflexivity).
    assert (E2 : defines (file_for tree78b src78b) = ["v"; "n"; "next"]) by (vm_compute; reflexivity).
    intros x. rewrite E1, E2. intros [<-|[]]. cbn. intuition discriminate. }
  split; [left; reflexivity|]. split; [vm_compute; reflexivity|]. split; vm_compute; reflexivity.
Qed.
(** The claim without the conditions on [fout] and [writeb] is false, though
    [fout] is a variable of the library (runtime/README.md:56-58) and [writeb]
    a function of it: the file that says extrn [fout] defines it, and so does
    the member that defines [writeb]. *)
Definition src78c := $"main(){extrn fout;fout=1;writeb(120);}".
Definition tree78c : list decl := [DFunction "main" [] (SBlock (SCons (SExtrn ["fout"]) (SCons (SExpr (EAsg None (EVar "fout") (EInt 1)))
  (SCons (SExpr (ECall (ECallee "writeb") (ECons (EInt 120) ENil))) SNil))))].
Theorem C78_program_refuted : exists f, compiled_file f /\ In "main" (fun_names (f_tree f)) /\
  (forall x, In x (s_funs (f_env f)) -> In x (fun_names (f_tree f)) \/ In x library_names) /\ link [snd f] libb = Duplicate "b.fout".
Proof.
  exists (file_for tree78c src78c). split; [|split; [left; reflexivity|split; [|vm_compute; reflexivity]]].
  - apply file_for_ok; [exists [], src78c; split; [apply lay_nil|split; [text|vm_compute; reflexivity]]|vm_compute; reflexivity|repeat constructor|vm_compute; reflexivity].
  - assert (E : s_funs (f_env (file_for tree78c src78c)) = ["writeb"; "main"]) by (vm_compute; reflexivity). rewrite E.
    intros x [<-|[<-|[]]]; [right; right; left; reflexivity|left; left; reflexivity].
Qed.
Print Assumptions C78_program_refuted.
(** With [write] instead of [writeb] it is linked, and the library uses the
    variable of the file. *)
Definition src78d := $"main(){extrn fout;fout=1;write('x');}".
Example C78_ex_fout : link [obj_for src78d] libb = Linked [mkObject ["b.fout"; "main"] ["b.write"]; mkObject ["_start"] ["main"]; mkObject ["b.write"] ["b.fout"]].
Proof. vm_compute. reflexivity. Qed.
(** A program may have its own version of a function of the library, which the
    library then uses too. *)
Definition src78e := $"main(){printf(""x"");} char(s,i){return(65);}".
Example C78_ex_own : exists os, link [obj_for src78e] libb = Linked os /\ ~ In (mkObject ["b.char"] []) os.
Proof.
  eexists. split; [vm_compute; reflexivity|]. cbn. intuition discriminate.
Qed.

(** ** C79 *)
(** The variables a file mentions: those it defines and those of its extrn
    statements. *)
Definition mentions (ds : list decl) (x : string) : Prop :=
  (exists n ps b, In (DFunction n ps b) ds /\ In x (extrns b)) \/ (exists d, In d ds /\ is_function d = false /\ dname d = x).
Lemma mentions_defined ds M x : module_of ds M -> mentions ds x -> In (globalName x) (module_defs M).
Proof.
  intros MO HM. assert (K : exists g, In g (m_globals M) /\ g_name g = globalName x).
  { destruct HM as [(n & ps & b & H1 & H2)|(d & H1 & H2 & <-)]; [eapply C58_defined_here; eauto|].
    destruct (module_of_generate _ _ MO) as [WF GEN]. destruct MO as (w & s & _ & T & _). destruct (xP_wf _ _ T) as [W1 W2]. pose proof (generate_iff ds W1 W2) as G.
    destruct (chkP ds empty_env) as [v|] eqn:CK; [|destruct G as [e G]; congruence]. destruct G as (m' & G1 & _ & G3). rewrite GEN in G1. injection G1 as <-.
    assert (N : nodot (dname d)) by (unfold wfP in WF; rewrite Forall_forall in WF; specialize (WF d H1); destruct d; [apply nodot_name, WF..|discriminate]).
    assert (I : In (dname d) (s_globs v)).
    { revert CK. generalize empty_env. clear - H1 H2. induction ds as [|d' ds IH]; intros v0 E; [contradiction|]. cbn [chkP] in E.
      destruct (chkD d' v0) as [v1|] eqn:X; [|discriminate E]. cbn [opt_bind] in E. destruct H1 as [->|H1]; [|eauto].
      apply (chkP_sub _ _ _ E). destruct d; cbn in X; try discriminate; injection X as <-; left; reflexivity. }
    apply (G3 _ N) in I. apply in_map_iff in I. destruct I as (g & E & Hg). eauto. }
  destruct K as (g & Hg & E). destruct (module_of_generate _ _ MO) as [WF GEN]. apply generate_yields in GEN. destruct GEN as (c & Y & ->).
  pose proof (HD_genP true ds WF NewCompiler (Forall_nil _) _ _ Y) as H. cbv beta in H. unfold HD in H. rewrite Forall_forall in H. specialize (H g Hg).
  unfold module_defs. apply in_or_app. left. rewrite <- E. apply in_map. apply filter_In. split; auto. unfold hidden in H. destruct (g_private g); auto.
  destruct H as [k H]. exfalso. apply (globalName_str x k). congruence.
Qed.
(** Two files that mention the same variable cannot be linked, whatever else is
    in the program: source files can share functions, not variables. *)
Theorem C79_shared_variable : forall ds1 ds2 M1 M2 o1 o2 x l1 l2 l3, module_of ds1 M1 -> module_of ds2 M2 -> object_of M1 o1 -> object_of M2 o2 ->
  mentions ds1 x -> mentions ds2 x -> forall os, link (l1 ++ o1 :: l2 ++ o2 :: l3) libb <> Linked os.
Proof.
  intros ds1 ds2 M1 M2 o1 o2 x l1 l2 l3 MO1 MO2 (D1 & _) (D2 & _) X1 X2 os E. apply C78_result in E. destruct E as ((ND & _) & ps & -> & _).
  rewrite !defs_app in ND. apply NoDup_app_iff in ND. destruct ND as (ND & _). apply NoDup_app_iff in ND. destruct ND as (_ & ND & _).
  unfold defs_of in ND. cbn [flat_map] in ND. apply NoDup_app_iff in ND. destruct ND as (_ & _ & ND).
  apply (ND (globalName x)); [rewrite D1; eapply mentions_defined; eauto|]. apply in_flat_map. exists o2. split; [apply in_or_app; right; left; auto|].
  rewrite D2. eapply mentions_defined; eauto.
Qed.
Print Assumptions C79_shared_variable.
(** The usual way to share a variable: one file defines it, the other says extrn. *)
Definition src79a := $"n 4;inc(){extrn n;n=n+1;}".
Definition tree79a : list decl := [DGlobal "n" [IvInt 4]; DFunction "inc" [] (SBlock (SCons (SExtrn ["n"])
  (SCons (SExpr (EAsg None (EVar "n") (EBin (CBin OAdd) (EVar "n") (EInt 1)))) SNil)))].
Definition src79b := $"main(){extrn n;inc();printd(n);}".
Definition tree79b : list decl := [DFunction "main" [] (SBlock (SCons (SExtrn ["n"]) (SCons (SExpr (ECall (ECallee "inc") ENil))
  (SCons (SExpr (ECall (ECallee "printd") (ECons (EVar "n") ENil))) SNil))))].
Example C79_ex : module_of tree79a (module_for src79a) /\ module_of tree79b (module_for src79b) /\ mentions tree79a "n" /\ mentions tree79b "n" /\
  link [obj_for src79a; obj_for src79b] libb = Duplicate "b.n".
Proof.
  split; [exists [], src79a; split; [apply lay_nil|split; [text|vm_compute; reflexivity]]|].
  split; [exists [], src79b; split; [apply lay_nil|split; [text|vm_compute; reflexivity]]|].
  split; [right; eexists; split; [left; reflexivity|split; reflexivity]|]. split; [left; eexists; eexists; eexists; split; [left; reflexivity|left; reflexivity]|].
  vm_compute. reflexivity.
Qed.

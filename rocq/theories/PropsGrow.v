(** * PropsGrow: definitions added at the end of a file (C94) *)
From Coq Require Import List Ascii String ZArith NArith Lia Bool.
From Verif Require Import Base Lexer SpecLex IR Builder Expr Stmt Decl Syntax SpecTree SpecStatic Static Pure Pwp Built InvSym InvDecl SpecText TextTac Names ParseGen
  RenderDecl SpecSem SemEx PropsSym PropsAccept PropsStages PropsOrder.
Import ListNotations.
Open Scope string_scope.
Open Scope list_scope.
Open Scope Z_scope.

Local Notation "$ s" := (list_ascii_of_string s%string) (at level 1, format "$ s").

Lemma chkP_app a b : forall v v2, chkP (a ++ b) v = Some v2 -> exists v1, chkP a v = Some v1 /\ chkP b v1 = Some v2.
Proof.
  induction a as [|d a IH]; cbn [app chkP]; intros v v2 H; [eauto|]. destruct (chkD d v) as [v'|]; cbn [opt_bind] in *; [|discriminate]. auto.
Qed.
(** The first definitions of an accepted file are an accepted file. *)
Theorem C94_prefix : forall inp inp' ds af, tree_of inp ds -> tree_of inp' (ds ++ af) -> accepted inp' -> accepted inp.
Proof.
  intros inp inp' ds af T T' [M' C']. destruct (env_of _ _ _ T' C') as (v & CK & _). destruct (chkP_app _ _ _ _ CK) as (v1 & K & _).
  destruct (tree_compiles _ _ T) as (W1 & W2 & E). pose proof (generate_iff ds W1 W2) as G. rewrite K in G. destruct G as (M & G & _). exists M. apply E, G.
Qed.
Print Assumptions C94_prefix.

Lemma grown inp inp' ds af M M' : tree_of inp ds -> tree_of inp' (ds ++ af) -> compile inp false = Ok M tt -> compile inp' false = Ok M' tt ->
  exists c c', DI [] c /\ M = module_of c /\ M' = module_of c' /\ yields (genP true af) c tt c' /\ wfP af /\ wfP ds /\ yields (genP true ds) NewCompiler tt c.
Proof.
  intros T T' C C'. destruct (tree_compiles _ _ T) as (W & _ & E). apply E in C. destruct (tree_compiles _ _ T') as (W' & _ & E'). apply E' in C'.
  apply generate_yields in C. destruct C as (c & Y & ->). apply generate_yields in C'. destruct C' as (c' & Y' & ->).
  destruct (genP_app _ _ _ _ _ _ Y') as (c1 & Y1 & Y2). pose proof (Y (mkLexer [] false)) as X1. pose proof (Y1 (mkLexer [] false)) as X2. rewrite X1 in X2. injection X2 as <-.
  exists c, c'. split; [exact (DI_genP true ds _ DI_new _ _ Y)|]. unfold wfP in W'. apply Forall_app in W'. destruct W'. auto 10.
Qed.
(** Added definitions leave the code of the functions before them as it is, to
    the last instruction, ... *)
Theorem C94_functions : forall inp inp' ds af M M', tree_of inp ds -> tree_of inp' (ds ++ af) -> compile inp false = Ok M tt -> compile inp' false = Ok M' tt ->
  forall f x, f_name f = globalName x -> (forall ps b, ~ In (DFunction x ps b) af) -> f_blocks f <> [] -> (In f (m_funcs M) <-> In f (m_funcs M')).
Proof.
  intros inp inp' ds af M M' T T' C C' f x N NA FB. destruct (grown _ _ _ _ _ _ T T' C C') as (c & c' & D & -> & -> & Y & _). cbn [module_of m_funcs]. split.
  - intros HI. refine (genP_keeps_fun true af f x N _ c D HI _ _ Y). intros d Hd. destruct d as [| |n ps b]; auto. right. cbn. intros ->. exact (NA _ _ Hd).
  - clear T T' C C'. revert c D Y. induction af as [|d af IH]; intros c D Y HI.
    + apply yields_ret_inv in Y. destruct Y as [_ ->]. exact HI.
    + cbn [genP] in Y. apply yields_bind_inv in Y; [|auto with pure]. destruct Y as ([] & c1 & Y1 & Y2).
      assert (NA' : forall ps b, ~ In (DFunction x ps b) af) by (intros ps b K; apply (NA ps b); right; exact K).
      pose proof (IH NA' c1 (DI_genD true d c D _ _ Y1) Y2 HI) as H1. destruct (is_function d) eqn:F.
      * destruct d as [| |n ps b]; try discriminate F. destruct (function_shape true n ps b c D _ _ Y1) as (k1 & k2 & l & _ & FE & E). rewrite E in H1.
        apply in_app_or in H1. destruct H1 as [H1|[H1|H1]].
        -- revert H1. unfold remove_named. generalize (c_mfuncs c). induction l0 as [|g l0 IH0]; cbn; auto. intros H1.
           destruct (String.eqb (f_name g) (globalName n)); [right; auto|]. destruct H1 as [H1|H1]; [left; auto|right; auto].
        -- exfalso. subst f. assert (X : globalName n = globalName x) by (rewrite <- N; destruct ps; reflexivity). apply globalName_inj in X. subst n. apply (NA ps b). left. reflexivity.
        -- exfalso. rewrite Forall_forall in FE. exact (FB (FE _ H1)).
      * pose proof (variable_shape true d c F _ _ Y1) as E. cbv beta in E. rewrite E in H1. exact H1.
Qed.
Print Assumptions C94_functions.
(** ... the variables, ... *)
Theorem C94_variables : forall inp inp' ds af M M', tree_of inp ds -> tree_of inp' (ds ++ af) -> compile inp false = Ok M tt -> compile inp' false = Ok M' tt ->
  forall x g, nodot x -> (forall d, In d af -> is_function d = true \/ dname d <> x) -> In g (m_globals M) -> g_name g = globalName x ->
  with_sym (globalName x) (m_globals M') = [g].
Proof.
  intros inp inp' ds af M M' T T' C C' x g N NA HI HN. destruct (grown _ _ _ _ _ _ T T' C C') as (c & c' & D & -> & -> & Y & _ & W & Y0). cbn [module_of m_globals] in *.
  pose proof (genP_once true ds x W N NewCompiler ltac:(cbn; lia) _ _ Y0) as L. cbv beta in L.
  destruct (genP_other true af x N NA c _ _ Y) as [_ K]. apply K.
  assert (IN : In g (with_sym (globalName x) (c_mglobals c))) by (apply filter_In; split; [exact HI|apply String.eqb_eq; exact HN]).
  destruct (with_sym (globalName x) (c_mglobals c)) as [|g1 [|g2 r]]; [destruct IN|destruct IN as [->|[]]; reflexivity|cbn in L; lia].
Qed.
Print Assumptions C94_variables.
(** ... and the string literals. *)
Theorem C94_literals : forall inp inp' ds af M M', tree_of inp ds -> tree_of inp' (ds ++ af) -> compile inp false = Ok M tt -> compile inp' false = Ok M' tt ->
  forall g k, g_name g = (".str." ++ k)%string -> In g (m_globals M) -> In g (m_globals M').
Proof.
  intros inp inp' ds af M M' T T' C C' g k HN HI. destruct (grown _ _ _ _ _ _ T T' C C') as (c & c' & D & -> & -> & Y & _). exact (genP_strs true af c _ _ Y k g HI HN).
Qed.
Print Assumptions C94_literals.

(** A function with a literal and a call to the function that is added. *)
Definition src94 : list ascii := $"main(){extrn k;return(f(""ab"")*k);}k 3;".
Definition src94' : list ascii := $"main(){extrn k;return(f(""ab"")*k);}k 3;f(a){return(a);}".
Definition main94 : decl := DFunction "main" [] (SBlock (SCons (SExtrn ["k"]) (SCons (SReturn (Some
  (EBin (CBin OMul) (ECall (ECallee "f") (ECons (EStr "ab") ENil)) (EVar "k")))) SNil))).
Definition k94 : decl := DGlobal "k" [IvInt 3].
Definition f94 : decl := DFunction "f" ["a"] (SBlock (SCons (SReturn (Some (EVar "a"))) SNil)).
Example C94_ex : tree_of src94 [main94; k94] /\ tree_of src94' ([main94; k94] ++ [f94]) /\
  compile src94 false = Ok (module_for src94) tt /\ compile src94' false = Ok (module_for src94') tt /\
  map f_name (m_funcs (module_for src94)) = ["main"; "b.f"] /\ map f_name (filter (fun f => match f_blocks f with [] => false | _ => true end) (m_funcs (module_for src94'))) = ["main"; "b.f"] /\
  hd_error (m_funcs (module_for src94)) = hd_error (m_funcs (module_for src94')) /\ map g_name (m_globals (module_for src94')) = [".str.0"; "b.k"].
Proof.
  split; [exists [], src94; split; [reflexivity|split; [apply lay_nil|text]]|].
  split; [exists [], src94'; split; [reflexivity|split; [apply lay_nil|text]]|].
  vm_compute. auto 10.
Qed.

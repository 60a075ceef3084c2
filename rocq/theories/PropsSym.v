(** * PropsSym: C17, C19, C20, C21 *)
From Coq Require Import List Ascii String ZArith NArith Lia Bool.
From Verif Require Import Base Lexer SpecLex IR Builder Expr Stmt Decl Wp Syntax Pure ParseGen Pwp Msteps InvIR InvDecl Built Names SpecStatic Static InvSym SpecText SpecAccept RenderWf TextTac DriverModes.
Import ListNotations.
Open Scope Z_scope.
Open Scope list_scope.
Open Scope m_scope.

(** The definitions a source text was compiled as. *)
Definition compiled_as (inp : list ascii) (fl : bool) (m : module_) (ds : list decl) : Prop :=
  compile inp fl = Ok m tt /\ wfP ds /\ generate false ds = Ok m tt.

(** ** C17 *)
(** A name can be used as a variable. *)
Definition visible (c : cstate) (x : string) : Prop := exists a c', yields (GetAddress x) c (Some a) c'.
Lemma visible_iff c x : visible c x <-> In x (map fst (c_locals c)) \/ In x (map fst (c_globals c)).
Proof.
  unfold visible. rewrite <- !assoc_keys. split.
  - intros (a & c' & Y). unfold GetAddress in Y. apply yields_bind_inv in Y; [|auto with pure].
    destruct Y as (c0 & c1 & Y1 & Y). pose proof (Y1 (mkLexer [] false)) as E. injection E as <- <-.
    destruct (assoc x (c_locals c)); [left; discriminate|]. destruct (assoc x (c_globals c)) as [[f b]|]; [right; discriminate|].
    apply yields_ret_inv in Y. destruct Y. discriminate.
  - intros H. unfold GetAddress, get, bind. destruct (assoc x (c_locals c)) as [v|] eqn:E1.
    + exists v, c. intros l. cbn [cs]. rewrite E1. reflexivity.
    + destruct (assoc x (c_globals c)) as [[f b]|] eqn:E2; [|intuition congruence]. destruct b.
      * exists (VReg (c_nreg c)), (emitted (fun r => IGepArr r (VGlob f) 8 0) c). intros l. cbn [cs]. rewrite E1, E2. reflexivity.
      * eexists _, _. intros l. cbn [cs]. rewrite E1, E2. reflexivity.
Qed.
Definition locals_are {A} (m : C A) (l : list string) : Prop := forall c, pwp m (fun _ c' => map fst (c_locals c') = l ++ map fst (c_locals c) /\ c_globals c' = c_globals c) c.
Lemma locals_bind {A B} (m : C A) (f : A -> C B) a b : pure m -> locals_are m a -> (forall x, locals_are (f x) b) -> locals_are (bind m f) (b ++ a).
Proof.
  intros P H1 H2 c. eapply pwp_use; [auto|apply H1|]. cbv beta. intros x c1 [E1 E2]. eapply pwp_mono; [apply H2|]. cbv beta.
  intros y c2 [E3 E4]. rewrite E3, E1, <- app_assoc. split; congruence.
Qed.
Lemma locals_none {A B} (m : C A) (f : A -> C B) b : pure m -> locals_are m [] -> (forall x, locals_are (f x) b) -> locals_are (bind m f) b.
Proof. intros. rewrite <- (app_nil_r b). apply locals_bind; auto. Qed.
Lemma locals_emitR i : locals_are (emitR i) []. Proof. intros c. apply pwp_emitR. auto. Qed.
Lemma locals_emit i : locals_are (emit i) []. Proof. intros c. apply pwp_emit. auto. Qed.
Lemma locals_func n : locals_are (getOrCreateFunc n) [].
Proof. intros c. apply pwp_modify. destruct (find_named _ _ _); auto. Qed.
Lemma locals_local n v : locals_are (bind_local n v) [n]. Proof. intros c. apply pwp_modify. auto. Qed.
Lemma locals_va va l : locals_are (va_params va l) (rev l).
Proof.
  induction l as [|p l IH]; cbn [va_params]; [intros c; apply pwp_ret; auto|]. cbn [rev].
  apply locals_none; [auto with pure|apply locals_emitR|]. intros a. apply locals_none; [auto with pure|apply locals_emitR|]. intros v.
  apply locals_none; [auto with pure|apply locals_emit|]. intros _. apply locals_bind; [auto with pure|apply locals_local|auto].
Qed.
Lemma start_locals n ps c : c_globals c = [] -> pwp (start_of n ps) (fun _ c1 => map fst (c_locals c1) = rev ps /\ c_globals c1 = []) c.
Proof.
  intros HG. unfold start_of, DeclareFunction. apply pwp_bind; [pure_tac|]. apply pwp_bind; [auto with pure|]. apply pwp_modify. apply pwp_ret.
  unfold StartFunction. apply pwp_bind; [auto with pure|]. apply pwp_modify. apply pwp_bind; [auto with pure|]. apply pwp_get.
  cbv zeta. cbn [assoc c_fparams newFunc set_functions set_mfuncs set_fparams set_cur set_nreg set_locals set_labels set_builder set_blocks removeFuncByName].
  rewrite String.eqb_refl.
  match goal with |- pwp ?m _ ?c' => set (c1 := c'); assert (K : locals_are m (rev ps)) end.
  { destruct ps as [|p [|q ps]].
    - intros c0. apply pwp_ret. auto.
    - apply locals_none; [auto with pure|apply locals_emitR|]. intros a. apply locals_none; [auto with pure|apply locals_emit|]. intros _. apply locals_local.
    - cbn [rev]. apply locals_none; [auto with pure|apply locals_emitR|]. intros a. apply locals_none; [auto with pure|apply locals_emit|]. intros _.
      apply locals_bind; [auto with pure|apply locals_local|]. intros _.
      apply locals_none; [auto with pure|apply locals_emitR|]. intros va. apply locals_none; [auto with pure|apply locals_emitR|]. intros w.
      apply locals_none; [auto with pure|apply locals_func|]. intros _. apply locals_none; [auto with pure|apply locals_emit|]. intros _.
      change (rev ps ++ [q]) with ([] ++ rev (q :: ps)). apply locals_bind; [auto with pure|apply locals_va|]. intros _.
      apply locals_none; [auto with pure|apply locals_func|]. intros _. apply locals_emit. }
  eapply pwp_mono; [apply K|]. cbv beta. intros u c2 [E1 E2]. rewrite E1, E2. cbn. rewrite app_nil_r. auto.
Qed.
Lemma function_start chk n ps b c : pwp (genD chk (DFunction n ps b)) (fun _ _ => exists c1, yields (start_of n ps) c tt c1) c.
Proof.
  unfold genD. apply pwp_bind; [pure_tac|]. intros u c' Y.
  apply yields_bind_inv in Y; [|auto with pure]. destruct Y as (f & c1 & Y1 & Y).
  apply yields_bind_inv in Y; [|auto with pure]. destruct Y as ([] & c2 & Y2 & Y).
  pose proof (yields_bind _ _ _ _ _ _ _ Y1 Y2) as YS. intros u2 c3 _. exists c2. exact YS.
Qed.
Lemma genP_cons chk d r : genP chk (d :: r) = bind (genD chk d) (fun _ => genP chk r).
Proof. reflexivity. Qed.
Lemma split_function chk bf n ps b af m : generate chk (bf ++ DFunction n ps b :: af) = Ok m tt ->
  exists c, yields (genP chk bf) NewCompiler tt c /\ DI [] c /\ exists c', yields (genD chk (DFunction n ps b)) c tt c'.
Proof.
  intros E. apply generate_yields in E. destruct E as (cf & Y & _).
  destruct (genP_app _ _ _ _ _ _ Y) as (c & Y1 & Y2). exists c. split; [exact Y1|]. split; [exact (DI_genP chk bf _ DI_new _ _ Y1)|].
  rewrite genP_cons in Y2. apply yields_bind_inv in Y2; [|apply pure_genD]. destruct Y2 as ([] & c' & Y2 & _). exists c'. exact Y2.
Qed.
Lemma visible_tree bf n ps b af m : generate false (bf ++ DFunction n ps b :: af) = Ok m tt ->
  exists c c1, yields (genP false bf) NewCompiler tt c /\ yields (start_of n ps) c tt c1 /\ forall x, visible c1 x <-> In x ps.
Proof.
  intros E. destruct (split_function _ _ _ _ _ _ _ E) as (c & Y1 & D & c' & Y2).
  destruct (function_start false n ps b c _ _ Y2) as [c4 YS]. exists c, c4.
  split; [exact Y1|]. split; [exact YS|]. intros x. rewrite visible_iff.
  destruct (start_locals n ps c (DI_globals _ _ D) _ _ YS) as [-> ->]. rewrite <- in_rev. cbn. tauto.
Qed.
(** For every accepted text: wherever a function is defined, whatever was
    defined and declared before, the variables known at the start of its body
    are its parameters. [c]: after the definitions before it; [c1]: at the start
    of the body. *)
Theorem C17_visible_names : forall inp fl m, compile inp fl = Ok m tt -> exists ds, compiled_as inp fl m ds /\
  forall before n ps b after, ds = before ++ DFunction n ps b :: after ->
  exists c c1, yields (genP false before) NewCompiler tt c /\ yields (start_of n ps) c tt c1 /\ forall x, visible c1 x <-> In x ps.
Proof.
  intros inp fl m H. destruct (compile_sound _ _ _ H) as (ds & W & E). exists ds. split; [exact (conj H (conj W E))|].
  intros bf n ps b af EQ. exact (visible_tree bf n ps b af m (eq_ind _ (fun ds => generate false ds = Ok m tt) E _ EQ)).
Qed.
Print Assumptions C17_visible_names.
Definition src17 := $"f(a){auto x;extrn y;x=y;} g(b,c){auto x;x=b;}".
Example C17_ex : exists m, compile src17 false = Ok m tt.
Proof. eexists. vm_compute. reflexivity. Qed.
(** ** C19 *)
(** Of several definitions of a function the last one is in the module, alone. *)
Theorem C19_last_function : forall inp fl m, compile inp fl = Ok m tt -> exists ds, compiled_as inp fl m ds /\
  forall before n ps b after, ds = before ++ DFunction n ps b :: after ->
  (forall ps' b', ~ In (DFunction n ps' b') after) ->
  exists c c1 c2, yields (genP false before) NewCompiler tt c /\ compiled false c n ps b c1 c2 /\
    filter (fun f => String.eqb (f_name f) (globalName n)) (m_funcs m) = [declared n ps (finished c2)].
Proof.
  intros inp fl m H. destruct (compile_sound _ _ _ H) as (ds & W & E). exists ds. split; [exact (conj H (conj W E))|].
  intros bf n ps b af -> NA. apply generate_yields in E. destruct E as (cf & Y & ->).
  pose proof (DI_genP false _ _ DI_new _ _ Y) as DF.
  apply genP_app in Y. destruct Y as (c & Y1 & Y2). rewrite genP_cons in Y2. apply yields_bind_inv in Y2; [|auto with pure].
  destruct Y2 as (u & c' & Y2 & Y3). pose proof (DI_genP false bf _ DI_new _ _ Y1) as D.
  destruct (function_shape false n ps b c D _ _ Y2) as (c1 & c2 & l & K & _ & E).
  pose proof (DI_genD false _ _ D _ _ Y2) as D'. cbv beta in D'.
  exists c, c1, c2. split; auto. split; auto.
  assert (N : f_name (declared n ps (finished c2)) = globalName n) by (destruct ps; reflexivity).
  rewrite <- N. apply (filter_one f_name); [exact (DI_nodup _ _ DF)|].
  cbn. refine (genP_keeps_fun false af _ n N _ c' D' _ _ _ Y3).
  - intros d Hd. destruct d as [| |n' ps' b']; auto. right. cbn. intros ->. exact (NA _ _ Hd).
  - rewrite E. apply in_or_app. right. left. reflexivity.
Qed.
Print Assumptions C19_last_function.
(** And of several definitions of a variable: one object has its symbol; it
    holds what the last definition says. *)
Theorem C19_last_variable : forall inp fl m, compile inp fl = Ok m tt -> exists ds, compiled_as inp fl m ds /\
  forall before d after, ds = before ++ d :: after -> is_function d = false ->
  (forall d', In d' after -> is_function d' = true \/ dname d' <> dname d) ->
  exists ws, Forall2 (word_for (m_globals m)) (ivals d) ws /\
    with_sym (globalName (dname d)) (m_globals m) = [main_object d ws].
Proof.
  intros inp fl m H. destruct (compile_sound _ _ _ H) as (ds & W & E). exists ds. split; [exact (conj H (conj W E))|].
  intros bf d af -> F NA. apply generate_yields in E. destruct E as (cf & Y & ->).
  apply genP_app in Y. destruct Y as (c & Y1 & Y2). rewrite genP_cons in Y2. apply yields_bind_inv in Y2; [|auto with pure].
  destruct Y2 as ([] & c' & Y2 & Y3). unfold wfP in W. apply Forall_app in W. destruct W as [W1 W2]. inversion W2; subst.
  assert (N : nodot (dname d)) by (destruct d; [apply nodot_name, H2..|discriminate]).
  assert (L : (List.length (with_sym (globalName (dname d)) (c_mglobals c)) <= 1)%nat).
  { refine (genP_once false bf _ W1 N _ _ _ _ Y1). cbn. lia. }
  destruct (genD_same false d c F N L _ _ Y2) as (ws & K & S). exists ws. split.
  - cbn. eapply Forall2_impl; [|exact K]. intros v w. apply word_for_kept. exact (genP_strs false af _ _ _ Y3).
  - destruct (genP_other false af _ N NA _ _ _ Y3) as [_ K2]. cbn. auto.
Qed.
Print Assumptions C19_last_variable.
Definition src19 := $"x 1; f(){} x 2; f(a){return(a);} g(){extrn x; f(x);}".
Example C19_ex : exists m, compile src19 false = Ok m tt /\
  with_sym "b.x" (m_globals m) = [mkGlob "b.x" (GWord (CInt 2)) false] /\ List.length (m_funcs m) = 2%nat.
Proof. eexists. split; [vm_compute; reflexivity|]. split; vm_compute; reflexivity. Qed.

(** ** C20 *)
Theorem C20_symbol_names : globalName "main" = "main"%string /\ (forall x, x <> "main"%string -> globalName x = ("b." ++ x)%string).
Proof.
  split; [reflexivity|]. intros x N. unfold globalName. destruct (String.eqb_spec x "main"); [contradiction|reflexivity].
Qed.
Print Assumptions C20_symbol_names.
Theorem C20_symbol_injective : forall x y, globalName x = globalName y -> x = y.
Proof. exact globalName_inj. Qed.
Print Assumptions C20_symbol_injective.
Theorem C20_symbol_reserved : forall x, (forall k, globalName x <> (".str." ++ k)%string) /\ (forall k, globalName x <> ("llvm." ++ k)%string) /\
  (forall n, name_ok x -> globalName x <> (globalName n ++ ".data")%string).
Proof.
  intros x. split; [|split].
  - intros k. apply globalName_str.
  - intros k. apply globalName_llvm.
  - intros n N. apply globalName_data, nodot_name, N.
Qed.
Print Assumptions C20_symbol_reserved.
(** Names read by the lexer satisfy the hypothesis. *)
Example C20_ex : name_ok "counter_1" /\ globalName "counter_1" = "b.counter_1"%string.
Proof.
  split; [|reflexivity]. apply ident_name. t_ident.
Qed.

(** ** C21 *)
(** Function symbols are unique; so are all globals but the data objects of a
    vector that is defined more than once. *)
Theorem C21_symbols_unique_partial : forall inp fl m, compile inp fl = Ok m tt ->
  NoDup (map f_name (m_funcs m)) /\
  (forall x, name_ok x -> (List.length (with_sym (globalName x) (m_globals m)) <= 1)%nat) /\
  exists ds, compiled_as inp fl m ds /\ (NoDup (vector_names ds) -> NoDup (map g_name (m_globals m))).
Proof.
  intros inp fl m H. destruct (compile_sound _ _ _ H) as (ds & W & E). pose proof (conj H (conj W E)) as CA.
  apply generate_yields in E. destruct E as (c & Y & ->).
  pose proof (DI_genP false _ _ DI_new _ _ Y) as DF. split; [exact (DI_nodup _ _ DF)|]. split.
  - intros x N. cbn. refine (genP_once false ds x W (nodot_name _ N) _ _ _ _ Y). cbn. lia.
  - exists ds. split; auto. intros ND. destruct (SK_genP false ds W [] _ ND (fun _ _ K => K) (Forall_nil _) SI_new _ _ Y) as [data' S].
    exact (SI_nodup _ _ S).
Qed.
Print Assumptions C21_symbols_unique_partial.

(** On texts of the grammar: all symbols are distinct if no vector is defined
    twice and no name is used both as a function and as a variable of the
    file. *)
Theorem C21_all_symbols_unique_partial : forall ds s w v, xP ds s -> layout w -> chkP ds empty_env = Some v ->
  NoDup (vector_names ds) -> (forall x, In x (s_funs v) -> ~ In x (s_globs v)) ->
  exists m, compile (w ++ s) false = Ok m tt /\ NoDup (map g_name (m_globals m) ++ map f_name (m_funcs m)).
Proof.
  intros ds s w v H L CK ND DJ. destruct (xP_wf _ _ H) as [W1 W2]. pose proof (generate_iff ds W1 W2) as G.
  pose proof (text_accepted ds s w H L) as T. rewrite CK in G, T. destruct T as (m & T1 & T2). destruct G as (m' & G1 & GF & GG).
  rewrite T2 in G1. injection G1 as <-. exists m. split; [exact T1|].
  apply generate_yields in T2. destruct T2 as (c & Y & E).
  destruct (SK_genP true ds W1 [] _ ND (fun _ _ K => K) (Forall_nil _) SI_new _ _ Y) as [data' S].
  pose proof (DI_nodup _ _ (DI_genP true _ _ DI_new _ _ Y)) as NF. subst m. cbn [m_globals m_funcs module_of] in *.
  assert (X : forall y, In y (gnames c) -> ~ In y (fnames c)).
  { intros y Hg Hf. destruct S as [_ _ SG SF]. rewrite Forall_forall in SG, SF.
    destruct (SF y Hf) as [(x & Nx & ->)|B].
    - apply (DJ x); [apply GF; exact Hf|apply GG; auto].
    - destruct (SG y Hg) as [(k & _ & ->)|[(x & _ & ->)|(x & _ & ->)]].
      + destruct B; discriminate.
      + destruct B as [B|B]; [exact (globalName_llvm x "va_start" B)|exact (globalName_llvm x "va_end" B)].
      + unfold globalName in B. destruct (String.eqb x "main") eqn:EM; [apply String.eqb_eq in EM; subst x|]; destruct B; discriminate. }
  destruct S as [SN _ _ _]. unfold gnames, fnames in *. clear - SN NF X.
  induction (map g_name (c_mglobals c)) as [|y l IH]; cbn; auto. inversion SN; subst. constructor.
  - intros K. apply in_app_or in K. destruct K as [K|K]; [auto|]. apply (X y); [left|]; auto.
  - apply IH; auto. intros z Hz. apply X. right. auto.
Qed.
Print Assumptions C21_all_symbols_unique_partial.
Definition tree21 : list decl := [DVector "v" 10 []; DFunction "f" ["a"%string]
  (SBlock (SCons (SExtrn ["v"%string]) (SCons (SExpr (ECall (ECallee "g") (ECons (EIdx (EVar "v") (EVar "a")) ENil))) SNil)))].
Example C21_ex : xP tree21 ($"v[10];f(a){extrn v;g(v[a]);}") /\ NoDup (vector_names tree21) /\
  exists v, chkP tree21 empty_env = Some v /\ forall x, In x (s_funs v) -> ~ In x (s_globs v).
Proof.
  split; [text|]. split; [repeat constructor; auto|]. eexists. split; [vm_compute; reflexivity|].
  intros x. cbn. intros H K. decompose [or] H; decompose [or] K; try contradiction; subst; discriminate.
Qed.
(** A vector defined twice leaves two data objects of one name. *)
Theorem C21_globals_unique_refuted : exists inp m, compile inp false = Ok m tt /\ ~ NoDup (map g_name (m_globals m)).
Proof.
  exists ($"v[10];v[10];"). eexists. split; [vm_compute; reflexivity|]. intros H. cbn in H.
  inversion H as [|? ? H1 _]; subst. apply H1. left. reflexivity.
Qed.
Print Assumptions C21_globals_unique_refuted.
(** A variable and a function of one name. *)
Theorem C21_function_and_variable_refuted : exists inp m y, compile inp false = Ok m tt /\
  In y (map g_name (m_globals m)) /\ In y (map f_name (m_funcs m)).
Proof. exists ($"x 1;x(){}"). eexists. exists "b.x"%string. split; [vm_compute; reflexivity|]. split; left; reflexivity. Qed.
Print Assumptions C21_function_and_variable_refuted.

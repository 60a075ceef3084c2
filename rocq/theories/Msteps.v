(** * Msteps: how generating a statement changes the module and the tables *)
From Coq Require Import List Ascii String ZArith NArith Lia Bool.
From Verif Require Import Base Lexer IR Builder Expr Stmt Decl Wp Syntax Pure Pwp.
Import ListNotations.
Open Scope Z_scope.
Open Scope m_scope.

(** Everything but the code of the current function. *)
Definition same_module (c c' : cstate) : Prop :=
  c_mglobals c' = c_mglobals c /\ c_mfuncs c' = c_mfuncs c /\ c_cur c' = c_cur c /\
  c_globals c' = c_globals c /\ c_functions c' = c_functions c /\ c_stringID c' = c_stringID c /\
  c_fparams c' = c_fparams c /\ c_used c' = c_used c.

Definition string_def (str : string) (c : cstate) : gdef :=
  mkGlob (".str." ++ dec (c_stringID c))%string (GBytes (list_ascii_of_string str ++ [NUL])) true.
Definition zero_def (name : string) : gdef := mkGlob (globalName name) (GWord (CInt 0)) false.
Definition extern_fun (name : string) : func := mkFunc (globalName name) [] true false [].

Inductive mstep (c : cstate) : cstate -> Prop :=
| ms_local c' : same_module c c' -> mstep c c'
| ms_string str : mstep c (set_stringID (c_stringID c + 1) (newGlobalDef (string_def str c) c))
| ms_extrn_old name g : findGlobalByName c name = Some g -> mstep c (bind_global name g c)
| ms_extrn_new name : findGlobalByName c name = None -> findFuncByName c name = None -> mem name (c_used c) = false ->
    mstep c (bind_global name (zero_def name) (newGlobalDef (zero_def name) c))
| ms_declare name : findFuncByName c name = None -> assoc name (c_functions c) = None -> assoc name (c_globals c) = None ->
    mstep c (set_used (name :: c_used c)
              (set_functions ((name, fun_value (extern_fun name)) :: c_functions c)
                (newFunc (extern_fun name) (removeFuncByName name c)))).

Inductive msteps : cstate -> cstate -> Prop :=
| mss_refl c : msteps c c
| mss_step a b c : mstep a b -> msteps b c -> msteps a c.
Lemma msteps_one a b : mstep a b -> msteps a b.
Proof. intros. econstructor; eauto. constructor. Qed.
Lemma msteps_trans a b c : msteps a b -> msteps b c -> msteps a c.
Proof. induction 1; eauto using msteps. Qed.

Definition MS {A} (m : C A) : Prop := forall c, pwp m (fun _ c' => msteps c c') c.

Lemma MS_bind {A B} (m : C A) (f : A -> C B) : pure m -> MS m -> (forall a, MS (f a)) -> MS (bind m f).
Proof.
  intros P H1 H2 c. eapply pwp_use; [auto|apply H1|]. cbv beta. intros a c' S.
  eapply pwp_mono; [apply H2|]. cbv beta. intros. eapply msteps_trans; eauto.
Qed.
Lemma MS_ret {A} (a : A) : MS (ret a). Proof. intros c. apply pwp_ret. constructor. Qed.
Lemma MS_err {A} e : MS (@errorf st A e). Proof. intros c. apply pwp_err. Qed.
Lemma MS_get : MS get. Proof. intros c. apply pwp_get. constructor. Qed.
Lemma same_refl c : same_module c c. Proof. repeat split. Qed.
Ltac loc := apply msteps_one, ms_local; repeat split.
Lemma MS_emit i : MS (emit i). Proof. intros c. apply pwp_emit. loc. Qed.
Lemma MS_setTerm i : MS (setTerm i). Proof. intros c. apply pwp_setTerm. loc. Qed.
Lemma MS_emitR i : MS (emitR i). Proof. intros c. apply pwp_emitR. loc. Qed.
Lemma MS_NewBlock i : MS (NewBlock i). Proof. intros c. apply pwp_NewBlock. loc. Qed.
Lemma MS_nextLabelID : MS nextLabelID. Proof. intros c. apply pwp_nextLabelID. loc. Qed.
Lemma MS_SetInsertPoint b : MS (SetInsertPoint b). Proof. intros c. apply pwp_SetInsertPoint. loc. Qed.
Lemma MS_GetInsertBlock : MS GetInsertBlock. Proof. intros c. apply pwp_GetInsertBlock. constructor. Qed.
Lemma MS_bind_local n v : MS (bind_local n v). Proof. intros c. apply pwp_bind_local. loc. Qed.
Lemma MS_termIsNil : MS termIsNil. Proof. intros c. apply pwp_termIsNil. intros. constructor. Qed.
Lemma MS_GetOrCreateLabel n : MS (GetOrCreateLabel n).
Proof.
  intros c. unfold GetOrCreateLabel. apply pwp_bind; [auto with pure|]. apply pwp_get. destruct (assoc n _).
  - apply pwp_ret. constructor.
  - apply pwp_bind; [auto with pure|]. apply pwp_NewBlock. apply pwp_bind; [auto with pure|]. apply pwp_modify. apply pwp_ret. loc.
Qed.
Lemma MS_CreateStringConstant s : MS (CreateStringConstant s).
Proof.
  intros c. unfold CreateStringConstant. apply pwp_bind; [auto with pure|]. apply pwp_get. cbv zeta.
  apply pwp_bind; [auto with pure|]. apply pwp_modify. apply pwp_ret. apply msteps_one, (ms_string c s).
Qed.
Lemma MS_externName n : MS (externName n).
Proof.
  intros c. unfold externName. apply pwp_bind; [auto with pure|]. apply pwp_get.
  destruct (findGlobalByName c n) as [g|] eqn:E1.
  - apply pwp_modify. apply msteps_one, ms_extrn_old. auto.
  - destruct (findFuncByName c n) eqn:E2; [apply pwp_err|]. destruct (mem n (c_used c)) eqn:E3; [apply pwp_err|].
    cbv zeta. apply pwp_modify. apply msteps_one, (ms_extrn_new c n); auto.
Qed.
(** [GetOrDeclareFunction] where the callers use it: no such function yet. *)
Lemma MS_GetOrDeclare n c : findFuncByName c n = None -> pwp (GetOrDeclareFunction n) (fun _ c' => msteps c c') c.
Proof.
  intros H. unfold GetOrDeclareFunction. apply pwp_bind; [auto with pure|]. apply pwp_get.
  destruct (assoc n (c_functions c)) eqn:E1; [apply pwp_ret; constructor|].
  destruct (assoc n (c_globals c)) eqn:E2; [apply pwp_ret; constructor|]. cbv zeta.
  apply pwp_bind; [auto with pure|]. apply pwp_modify. apply pwp_ret. apply msteps_one, ms_declare; auto.
Qed.

Create HintDb ms.
#[export] Hint Resolve MS_ret MS_err MS_get MS_emit MS_setTerm MS_emitR MS_NewBlock MS_nextLabelID MS_SetInsertPoint
  MS_GetInsertBlock MS_bind_local MS_termIsNil MS_GetOrCreateLabel MS_CreateStringConstant MS_externName : ms.
Ltac ms_tac :=
  repeat (first
    [ solve [auto with ms nocore]
    | assumption
    | match goal with H : forall _, _ |- MS _ => solve [apply H] end
    | apply MS_bind; [solve [pure_tac]| |intros ?]
    | match goal with
      | |- MS (let _ := _ in _) => cbv zeta
      | |- MS (if ?x then _ else _) => destruct x
      | |- MS (match ?x with _ => _ end) => destruct x
      end ]).

Lemma MS_GetAddress n : MS (GetAddress n). Proof. unfold GetAddress. ms_tac. Qed.
#[export] Hint Resolve MS_GetAddress : ms.
Lemma MS_genVar q n : MS (genVar q n).
Proof.
  unfold genVar. apply MS_bind; [auto with pure|auto with ms|]. intros [a|]; [auto with ms|]. destruct q; [auto with ms|].
  intros c. apply pwp_bind; [auto with pure|]. apply pwp_get. destruct (findFuncByName c n) eqn:E.
  - match goal with |- pwp ?m _ _ => assert (K : MS m) by ms_tac end. apply K.
  - eapply pwp_use; [auto with pure|apply MS_GetOrDeclare; auto|]. cbv beta. intros o c' S.
    match goal with |- pwp ?m _ _ => assert (K : MS m) by ms_tac end.
    eapply pwp_mono; [apply K|]. cbv beta. intros. eapply msteps_trans; eauto.
Qed.
Lemma MS_genCallee n : MS (genCallee n).
Proof.
  intros c. unfold genCallee. apply pwp_bind; [auto with pure|]. apply pwp_get.
  destruct (findFuncByName c n) eqn:E; [apply pwp_ret; constructor|].
  destruct (assoc n (c_globals c)) as [[full b]|]; [apply pwp_ret; constructor|].
  eapply pwp_use; [auto with pure|apply MS_GetOrDeclare; auto|]. cbv beta. intros [o|] c' S; [apply pwp_ret; auto|apply pwp_err].
Qed.
#[export] Hint Resolve MS_genVar MS_genCallee : ms.
Lemma MS_rval v b : MS (rval v b). Proof. unfold rval. ms_tac. Qed.
#[export] Hint Resolve MS_rval : ms.
Lemma MS_cmpz p a b : MS (cmpz p a b). Proof. unfold cmpz. ms_tac. Qed.
#[export] Hint Resolve MS_cmpz : ms.
Lemma MS_applyCop o a b : MS (applyCop o a b). Proof. destruct o; cbn [applyCop]; ms_tac. Qed.
Lemma MS_doCall f a : MS (doCall f a). Proof. unfold doCall. ms_tac. Qed.
Lemma MS_incDec o p : MS (incDec o p). Proof. unfold incDec. ms_tac. Qed.
Lemma MS_brIfOpen b : MS (brIfOpen b). Proof. unfold brIfOpen. ms_tac. Qed.
Lemma MS_DeclareLocal n : MS (DeclareLocal n). Proof. unfold DeclareLocal. ms_tac. Qed.
Lemma MS_DeclareLocalArray n z : MS (DeclareLocalArray n z). Proof. unfold DeclareLocalArray. ms_tac. Qed.
#[export] Hint Resolve MS_applyCop MS_doCall MS_incDec MS_brIfOpen MS_DeclareLocal MS_DeclareLocalArray : ms.
Lemma MS_declareAutos l : MS (declareAutos l).
Proof. induction l as [|[n z] l IH]; cbn [declareAutos]; ms_tac. Qed.
Lemma MS_switchCases id l : MS (switchCases id l).
Proof. induction l as [|z l IH]; cbn [switchCases]; ms_tac. Qed.
Lemma MS_checkAutos l : forall seen, MS (checkAutos seen l).
Proof. induction l as [|[n z] l IH]; intros seen; cbn [checkAutos]; ms_tac. Qed.
Lemma MS_genExtrn l : MS (genExtrn l).
Proof. induction l as [|n l IH]; cbn [genExtrn]; ms_tac. Qed.
#[export] Hint Resolve MS_declareAutos MS_switchCases MS_checkAutos MS_genExtrn : ms.
Lemma MS_gen_all chk : (forall e q, MS (gen chk q e)) /\ (forall l, MS (genArgs chk l)).
Proof.
 apply expr_exprs_ind; intros; ugen; ms_tac.
Qed.
Lemma MS_gen chk q e : MS (gen chk q e). Proof. apply MS_gen_all. Qed.
Lemma MS_genArgs chk l : MS (genArgs chk l). Proof. apply MS_gen_all. Qed.
#[export] Hint Resolve MS_gen MS_genArgs : ms.
Lemma MS_genR chk q e : MS (genR chk q e). Proof. unfold genR. ms_tac. Qed.
#[export] Hint Resolve MS_genR : ms.
Lemma MS_genS_all chk : (forall s sw, MS (genS chk s sw)) /\ (forall l sw, MS (genL chk l sw)).
Proof. apply stmt_stmts_ind; intros; ugenS; ms_tac. Qed.
Lemma MS_genS chk s sw : MS (genS chk s sw). Proof. apply MS_genS_all. Qed.
Lemma MS_genIval v : MS (genIval v). Proof. destruct v; cbn [genIval]; ms_tac. Qed.
#[export] Hint Resolve MS_genIval : ms.
Lemma MS_genIvals l : MS (genIvals l).
Proof. induction l as [|n l IH]; cbn [genIvals]; ms_tac. Qed.

(** Invariants along steps. *)
Lemma msteps_inv (I : cstate -> Prop) : (forall a b, I a -> mstep a b -> I b) -> forall a b, msteps a b -> I a -> I b.
Proof. intros H a b S. induction S; eauto. Qed.

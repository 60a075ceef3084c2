(** * Pure: computations that only read and change the compiler state, and
    computations that only read and change the lexer *)
From Coq Require Import List Ascii String ZArith NArith Lia Bool.
From Verif Require Import Base Lexer IR Builder Expr Stmt Decl Wp Syntax.
Import ListNotations.
Open Scope Z_scope.
Open Scope m_scope.

(** [m] neither reads nor changes the lexer. *)
Definition pure {A} (m : C A) : Prop := forall l1 l2 c,
  match m (mkSt l1 c) with
  | Ok a s => lx s = l1 /\ m (mkSt l2 c) = Ok a (mkSt l2 (cs s))
  | Err e => m (mkSt l2 c) = Err e
  | Fuel => m (mkSt l2 c) = Fuel
  end.

(** [m] run in [c] gives [a] and [c'], whatever the lexer. *)
Definition yields {A} (m : C A) (c : cstate) (a : A) (c' : cstate) : Prop :=
  forall l, m (mkSt l c) = Ok a (mkSt l c').

(** [m] does not change the compiler state. *)
Definition lexonly {A} (m : C A) : Prop := forall l c,
  match m (mkSt l c) with Ok _ s => cs s = c | _ => True end.

Lemma pure_bind {A B} (m : C A) (f : A -> C B) : pure m -> (forall a, pure (f a)) -> pure (bind m f).
Proof.
  intros H1 H2 l1 l2 c. unfold bind. specialize (H1 l1 l2 c). destruct (m (mkSt l1 c)) as [a [l' c']|e|].
  - cbn in H1. destruct H1 as [-> ->]. apply H2.
  - rewrite H1. reflexivity.
  - rewrite H1. reflexivity.
Qed.
Lemma pure_ret {A} (a : A) : pure (ret a). Proof. intros l1 l2 c. cbn. auto. Qed.
Lemma pure_errorf {A} e : pure (@errorf st A e). Proof. intros l1 l2 c. cbn. auto. Qed.
Lemma pure_fail {A} e : pure (@fail st A e). Proof. intros l1 l2 c. cbn. auto. Qed.
Lemma pure_get : pure get. Proof. intros l1 l2 c. cbn. auto. Qed.
Lemma pure_modify f : pure (modify f). Proof. intros l1 l2 c. cbn. auto. Qed.
Lemma pure_fresh : pure fresh. Proof. intros l1 l2 c. cbn. auto. Qed.
Lemma pure_NewBlock n : pure (NewBlock n). Proof. intros l1 l2 c. cbn. auto. Qed.
Lemma pure_nextLabelID : pure nextLabelID. Proof. intros l1 l2 c. cbn. auto. Qed.

Create HintDb pure.
#[export] Hint Resolve pure_ret pure_errorf pure_fail pure_get pure_modify pure_fresh pure_NewBlock pure_nextLabelID : pure.

Ltac pure_tac :=
  repeat (first
    [ solve [auto with pure nocore]
    | assumption
    | match goal with H : forall _, _ |- pure _ => solve [apply H] end
    | apply pure_bind; [|intros ?]
    | match goal with
      | |- pure (let _ := _ in _) => cbv zeta
      | |- pure (if ?x then _ else _) => destruct x
      | |- pure (match ?x with _ => _ end) => destruct x
      end ]).

Lemma pure_emit i : pure (emit i). Proof. unfold emit. pure_tac. Qed.
Lemma pure_setTerm i : pure (setTerm i). Proof. unfold setTerm. pure_tac. Qed.
#[export] Hint Resolve pure_emit pure_setTerm : pure.
Lemma pure_emitR mk : pure (emitR mk). Proof. unfold emitR. pure_tac. Qed.
#[export] Hint Resolve pure_emitR : pure.
Lemma pure_SetInsertPoint b : pure (SetInsertPoint b). Proof. unfold SetInsertPoint. pure_tac. Qed.
Lemma pure_GetInsertBlock : pure GetInsertBlock. Proof. unfold GetInsertBlock. pure_tac. Qed.
Lemma pure_bind_local n v : pure (bind_local n v). Proof. unfold bind_local. pure_tac. Qed.
#[export] Hint Resolve pure_SetInsertPoint pure_GetInsertBlock pure_bind_local : pure.
Lemma pure_rval v b : pure (rval v b). Proof. unfold rval. pure_tac. Qed.
#[export] Hint Resolve pure_rval : pure.
Lemma pure_cmpz p a b : pure (cmpz p a b). Proof. unfold cmpz. pure_tac. Qed.
#[export] Hint Resolve pure_cmpz : pure.
Lemma pure_applyCop o a b : pure (applyCop o a b). Proof. destruct o; cbn [applyCop]; pure_tac. Qed.
Lemma pure_doCall f a : pure (doCall f a). Proof. unfold doCall. pure_tac. Qed.
Lemma pure_incDec o p : pure (incDec o p). Proof. unfold incDec. pure_tac. Qed.
Lemma pure_GetOrDeclareFunction n : pure (GetOrDeclareFunction n). Proof. unfold GetOrDeclareFunction. pure_tac. Qed.
Lemma pure_GetAddress n : pure (GetAddress n). Proof. unfold GetAddress. pure_tac. Qed.
Lemma pure_CreateStringConstant n : pure (CreateStringConstant n). Proof. unfold CreateStringConstant. pure_tac. Qed.
Lemma pure_GetOrCreateLabel n : pure (GetOrCreateLabel n). Proof. unfold GetOrCreateLabel. pure_tac. Qed.
Lemma pure_termIsNil : pure termIsNil. Proof. unfold termIsNil. pure_tac. Qed.
#[export] Hint Resolve pure_applyCop pure_doCall pure_incDec pure_GetOrDeclareFunction pure_GetAddress
  pure_CreateStringConstant pure_GetOrCreateLabel pure_termIsNil : pure.
Lemma pure_brIfOpen b : pure (brIfOpen b). Proof. unfold brIfOpen. pure_tac. Qed.
Lemma pure_DeclareLocal n : pure (DeclareLocal n). Proof. unfold DeclareLocal. pure_tac. Qed.
Lemma pure_DeclareLocalArray n z : pure (DeclareLocalArray n z). Proof. unfold DeclareLocalArray. pure_tac. Qed.
#[export] Hint Resolve pure_brIfOpen pure_DeclareLocal pure_DeclareLocalArray : pure.
Lemma pure_declareAutos l : pure (declareAutos l).
Proof. induction l as [|[n z] l IH]; cbn [declareAutos]; pure_tac. Qed.
Lemma pure_externName n : pure (externName n). Proof. unfold externName. pure_tac. Qed.
Lemma pure_switchCases id l : pure (switchCases id l).
Proof. induction l as [|z l IH]; cbn [switchCases]; pure_tac. Qed.
Lemma pure_va_params va l : pure (va_params va l).
Proof. induction l as [|n l IH]; cbn [va_params]; pure_tac. Qed.
Lemma pure_getOrCreateFunc n : pure (getOrCreateFunc n). Proof. unfold getOrCreateFunc. pure_tac. Qed.
#[export] Hint Resolve pure_declareAutos pure_externName pure_switchCases pure_va_params pure_getOrCreateFunc : pure.
Lemma pure_StartFunction n f : pure (StartFunction n f). Proof. unfold StartFunction. pure_tac. Qed.
Lemma pure_EndFunction : pure EndFunction. Proof. unfold EndFunction. pure_tac. Qed.
Lemma pure_DeclareFunction n l : pure (DeclareFunction n l). Proof. unfold DeclareFunction. pure_tac. Qed.
Lemma pure_DeclareGlobal n l : pure (DeclareGlobal n l). Proof. unfold DeclareGlobal. pure_tac. Qed.
Lemma pure_DeclareGlobalM n l : pure (DeclareGlobalWithMultipleValues n l).
Proof. unfold DeclareGlobalWithMultipleValues. pure_tac. Qed.
Lemma pure_DeclareGlobalArray n z l : pure (DeclareGlobalArray n z l). Proof. unfold DeclareGlobalArray. pure_tac. Qed.
Lemma pure_Clear : pure ClearTopLevelContext. Proof. unfold ClearTopLevelContext. pure_tac. Qed.
#[export] Hint Resolve pure_StartFunction pure_EndFunction pure_DeclareFunction pure_DeclareGlobal pure_DeclareGlobalM
  pure_DeclareGlobalArray pure_Clear : pure.

(** The generator. *)
Lemma pure_genVar q n : pure (genVar q n). Proof. unfold genVar. pure_tac. Qed.
Lemma pure_genCallee n : pure (genCallee n). Proof. unfold genCallee. pure_tac. Qed.
#[export] Hint Resolve pure_genVar pure_genCallee : pure.

Lemma pure_gen_all chk : (forall e q, pure (gen chk q e)) /\ (forall l, pure (genArgs chk l)).
Proof. apply expr_exprs_ind; intros; cbn [gen genArgs]; pure_tac. Qed.
Lemma pure_gen chk q e : pure (gen chk q e). Proof. apply pure_gen_all. Qed.
Lemma pure_genArgs chk l : pure (genArgs chk l). Proof. apply pure_gen_all. Qed.
#[export] Hint Resolve pure_gen pure_genArgs : pure.
Lemma pure_genR chk q e : pure (genR chk q e). Proof. unfold genR. pure_tac. Qed.
#[export] Hint Resolve pure_genR : pure.
Lemma pure_checkAutos l : forall seen, pure (checkAutos seen l).
Proof. induction l as [|[n z] l IH]; intros seen; cbn [checkAutos]; pure_tac. Qed.
Lemma pure_genExtrn l : pure (genExtrn l).
Proof. induction l as [|n l IH]; cbn [genExtrn]; pure_tac. Qed.
#[export] Hint Resolve pure_checkAutos pure_genExtrn : pure.
Lemma pure_genS_all chk : (forall s sw, pure (genS chk s sw)) /\ (forall l sw, pure (genL chk l sw)).
Proof. apply stmt_stmts_ind; intros; cbn [genS genL]; pure_tac. Qed.
Lemma pure_genS chk s sw : pure (genS chk s sw). Proof. apply pure_genS_all. Qed.
Lemma pure_genL chk l sw : pure (genL chk l sw). Proof. apply pure_genS_all. Qed.
#[export] Hint Resolve pure_genS pure_genL : pure.
Lemma pure_genIval v : pure (genIval v). Proof. destruct v; cbn [genIval]; pure_tac. Qed.
#[export] Hint Resolve pure_genIval : pure.
Lemma pure_genIvals l : pure (genIvals l).
Proof. induction l as [|n l IH]; cbn [genIvals]; pure_tac. Qed.
#[export] Hint Resolve pure_genIvals : pure.
Lemma pure_genD chk d : pure (genD chk d). Proof. unfold genD. destruct d; pure_tac. Qed.
#[export] Hint Resolve pure_genD : pure.
Lemma pure_genP chk l : pure (genP chk l).
Proof. induction l as [|n l IH]; cbn [genP]; pure_tac. Qed.
#[export] Hint Resolve pure_genP : pure.

(** ** yields *)
Lemma yields_bind {A B} (m : C A) (f : A -> C B) c a c1 b c2 :
  yields m c a c1 -> yields (f a) c1 b c2 -> yields (bind m f) c b c2.
Proof. intros H1 H2 l. unfold bind. rewrite H1. apply H2. Qed.
Lemma yields_ret {A} (a : A) c : yields (ret a) c a c.
Proof. intros l. reflexivity. Qed.
Lemma yields_pure {A} (m : C A) l c a s : pure m -> m (mkSt l c) = Ok a s -> yields m c a (cs s) /\ lx s = l.
Proof.
  intros H E. split.
  - intros l2. specialize (H l l2 c). rewrite E in H. apply H.
  - specialize (H l l c). rewrite E in H. apply H.
Qed.
Lemma yields_bind_inv {A B} (m : C A) (f : A -> C B) c b c2 :
  pure m -> yields (bind m f) c b c2 -> exists a c1, yields m c a c1 /\ yields (f a) c1 b c2.
Proof.
  intros P H. pose proof (H (mkLexer [] false)) as H0. unfold bind in H0.
  destruct (m (mkSt (mkLexer [] false) c)) as [a s|e|] eqn:E; try discriminate.
  destruct (yields_pure _ _ _ _ _ P E) as [Y _]. exists a, (cs s). split; auto.
  intros l. specialize (H l). unfold bind in H. rewrite (Y l) in H. exact H.
Qed.
Lemma yields_det {A} (m : C A) c a1 c1 a2 c2 : yields m c a1 c1 -> yields m c a2 c2 -> a1 = a2 /\ c1 = c2.
Proof.
  intros H1 H2. specialize (H1 (mkLexer [] false)). rewrite (H2 (mkLexer [] false)) in H1. injection H1 as -> ->. auto.
Qed.
Lemma yields_ret_inv {A} (a b : A) c c' : yields (ret a) c b c' -> b = a /\ c' = c.
Proof. intros H. destruct (yields_det _ _ _ _ _ _ H (yields_ret a c)). auto. Qed.
Lemma yields_errorf_inv {A} e c (b : A) c' : yields (errorf e) c b c' -> False.
Proof. intros H. specialize (H (mkLexer [] false)). discriminate. Qed.

(** ** Stepping through a parser *)
Lemma wp_genb {A B} (F : Prop) (m : C A) (f : A -> C B) Q l c : pure m -> (forall s, m s <> Fuel) ->
  (forall a c', yields m c a c' -> wp F (f a) Q (mkSt l c')) -> wp F (bind m f) Q (mkSt l c).
Proof.
  intros P N H. apply wp_bind. unfold wp at 1. destruct (m (mkSt l c)) as [a [l' c']|e|] eqn:E; auto.
  - destruct (yields_pure _ _ _ _ _ P E) as [Y L]. cbn in *. subst l'. apply H. auto.
  - exfalso. eapply N; eauto.
Qed.
Lemma wp_genbT {A B} (m : C A) (f : A -> C B) Q l c : pure m ->
  (forall a c', yields m c a c' -> wp True (f a) Q (mkSt l c')) -> wp True (bind m f) Q (mkSt l c).
Proof.
  intros P H. apply wp_bind. unfold wp at 1. destruct (m (mkSt l c)) as [a [l' c']|e|] eqn:E; auto.
  destruct (yields_pure _ _ _ _ _ P E) as [Y L]. cbn in *. subst l'. apply H. auto.
Qed.
Lemma wp_genT {A} (m : C A) (Q : A -> st -> Prop) l c : pure m ->
  (forall a c', yields m c a c' -> Q a (mkSt l c')) -> wp True m Q (mkSt l c).
Proof.
  intros P H. unfold wp. destruct (m (mkSt l c)) as [a [l' c']|e|] eqn:E; auto.
  destruct (yields_pure _ _ _ _ _ P E) as [Y L]. cbn in *. subst l'. apply H. auto.
Qed.
Lemma wp_lexbT {A B} (m : C A) (f : A -> C B) Q l c : lexonly m ->
  (forall a l', wp True (f a) Q (mkSt l' c)) -> wp True (bind m f) Q (mkSt l c).
Proof.
  intros P H. apply wp_bind. unfold wp at 1. specialize (P l c). destruct (m (mkSt l c)) as [a [l' c']|e|]; auto.
  cbn in P. subst c'. apply H.
Qed.
Lemma wp_lexT {A} (m : C A) (Q : A -> st -> Prop) l c : lexonly m ->
  (forall a l', Q a (mkSt l' c)) -> wp True m Q (mkSt l c).
Proof.
  intros P H. unfold wp. specialize (P l c). destruct (m (mkSt l c)) as [a [l' c']|e|]; auto.
  cbn in P. subst c'. apply H.
Qed.

(** ** Lexer operations leave the compiler state alone *)
Lemma lexonly_lift {A} (m : L A) : lexonly (lift m).
Proof. intros l c. unfold lift. cbn. destruct (m l); auto. Qed.
Lemma lexonly_ret {A} (a : A) : lexonly (ret a). Proof. intros l c. reflexivity. Qed.
Lemma lexonly_fail {A} e : lexonly (@fail st A e). Proof. intros l c. exact I. Qed.
Lemma lexonly_errorf {A} e : lexonly (@errorf st A e). Proof. intros l c. exact I. Qed.
Lemma lexonly_bind {A B} (m : C A) (f : A -> C B) : lexonly m -> (forall a, lexonly (f a)) -> lexonly (bind m f).
Proof.
  intros H1 H2 l c. unfold bind. specialize (H1 l c). destruct (m (mkSt l c)) as [a [l' c']|e|]; auto.
  cbn in H1. subst c'. apply H2.
Qed.
Create HintDb lexonly.
#[export] Hint Resolve lexonly_lift lexonly_ret lexonly_fail lexonly_errorf : lexonly.
Ltac lex_tac :=
  repeat (first
    [ solve [auto with lexonly nocore]
    | apply lexonly_bind; [|intros ?]
    | match goal with
      | |- lexonly (let _ := _ in _) => cbv zeta
      | |- lexonly (if ?x then _ else _) => destruct x
      | |- lexonly (match ?x with _ => _ end) => destruct x
      end ]).
Lemma lexonly_rc : lexonly rc. Proof. unfold rc. lex_tac. Qed.
Lemma lexonly_unread c : lexonly (unread c). Proof. unfold unread. lex_tac. Qed.
#[export] Hint Resolve lexonly_rc lexonly_unread : lexonly.
Lemma lexonly_readChar : lexonly readChar. Proof. unfold readChar. lex_tac. Qed.
Lemma lexonly_unreadOk r : lexonly (unreadOk r). Proof. unfold unreadOk. lex_tac. Qed.
#[export] Hint Resolve lexonly_readChar lexonly_unreadOk : lexonly.
Lemma lexonly_tryEqEq : lexonly tryEqEq. Proof. unfold tryEqEq. lex_tac. Qed.
Lemma lexonly_tryEqEqEq r : lexonly (tryEqEqEq r). Proof. unfold tryEqEqEq. lex_tac. Qed.
Lemma lexonly_compoundOp r : lexonly (compoundOp r). Proof. unfold compoundOp. lex_tac. Qed.
Lemma lexonly_identOr m : lexonly (identOr m).
Proof.
  intros l c. unfold identOr. pose proof (lexonly_lift Identifier l c) as H.
  destruct (lift Identifier (mkSt l c)) as [[|a n] s|e|]; auto.
Qed.
Lemma lexonly_liftOr {A} msg (m : L A) : lexonly (liftOr msg m).
Proof.
  intros l c. unfold liftOr. pose proof (lexonly_lift m l c) as H. destruct (lift m (mkSt l c)); auto.
Qed.
#[export] Hint Resolve lexonly_tryEqEq lexonly_tryEqEqEq lexonly_compoundOp lexonly_identOr lexonly_liftOr : lexonly.
Lemma lexonly_autoSize : lexonly autoSize. Proof. unfold autoSize. lex_tac. Qed.
Lemma lexonly_readElse l : forall acc, lexonly (readElse l acc).
Proof. induction l as [|e l IH]; intros acc; cbn [readElse]; lex_tac. Qed.
Lemma lexonly_unreadAll l : lexonly (unreadAll l).
Proof. induction l as [|e l IH]; cbn [unreadAll]; lex_tac. Qed.
#[export] Hint Resolve lexonly_autoSize lexonly_readElse lexonly_unreadAll : lexonly.
Lemma lexonly_elseFollows : lexonly elseFollows. Proof. unfold elseFollows. lex_tac. Qed.
Lemma lexonly_caseValue : lexonly caseValue. Proof. unfold caseValue. lex_tac. Qed.
#[export] Hint Resolve lexonly_elseFollows lexonly_caseValue : lexonly.
Lemma lexonly_parseArguments n : forall acc, lexonly (parseArguments n acc).
Proof.
  induction n as [|n IH]; intros acc; cbn [parseArguments]; [intros l c; exact I|]. lex_tac.
Qed.
#[export] Hint Resolve lexonly_parseArguments : lexonly.

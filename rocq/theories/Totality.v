(** * Totality: the parser never runs out of fuel, and consumes its input from
    the left (the rest is a suffix) *)
From Coq Require Import List Ascii String ZArith NArith Lia Bool.
From Verif Require Import Base Lexer LexerFacts SpecLex IR Builder Expr Stmt Decl Wp.
Import ListNotations.
Open Scope Z_scope.
Open Scope m_scope.

Notation inp s := (l_in (lx s)).
Notation len s := (List.length (l_in (lx s))).

(** [suf d s s']: the input of [s'] is a suffix of that of [s], at least [d]
    characters shorter, with the same end. *)
Definition suf (d : nat) (s s' : st) : Prop :=
  exists p, inp s = p ++ inp s' /\ (d <= List.length p)%nat /\ l_fail (lx s') = l_fail (lx s).

Lemma suf_refl s : suf 0 s s.
Proof. exists []. auto. Qed.

Lemma suf_trans d1 d2 s1 s2 s3 : suf d1 s1 s2 -> suf d2 s2 s3 -> suf (d1 + d2) s1 s3.
Proof.
  intros (p & E1 & L1 & F1) (q & E2 & L2 & F2). exists (p ++ q).
  rewrite E1, E2, app_assoc, app_length. repeat split; [lia|congruence].
Qed.

Lemma suf_weaken d d' s s' : (d' <= d)%nat -> suf d s s' -> suf d' s s'.
Proof. intros H (p & E & L & F). exists p. repeat split; auto. lia. Qed.

Lemma suf_len d s s' : suf d s s' -> (len s' + d <= len s)%nat.
Proof. intros (p & E & L & F). rewrite E, app_length. lia. Qed.

(** Only the lexer part matters. *)
Lemma suf_lx d s s1 s2 : lx s1 = lx s2 -> suf d s s1 -> suf d s s2.
Proof. intros E (p & H). exists p. rewrite <- E. exact H. Qed.

Lemma suf_same s s' : lx s' = lx s -> suf 0 s s'.
Proof. intros E. exists []. rewrite E. auto. Qed.

(** ** Primitives that leave the lexer alone *)
Definition keeps {A} (m : C A) : Prop :=
  forall s, match m s with Ok _ s' => lx s' = lx s | Err _ => True | Fuel => False end.

Lemma keeps_bind {A B} (m : C A) (f : A -> C B) :
  keeps m -> (forall a, keeps (f a)) -> keeps (bind m f).
Proof.
  intros H1 H2 s. unfold bind. specialize (H1 s). destruct (m s) as [a s1| |]; auto.
  specialize (H2 a s1). destruct (f a s1); auto. congruence.
Qed.
Lemma keeps_ret {A} (a : A) : keeps (ret a). Proof. intros s; reflexivity. Qed.
Lemma keeps_errorf {A} e : keeps (@errorf st A e). Proof. intros s; exact I. Qed.
Lemma keeps_get : keeps get. Proof. intros s; reflexivity. Qed.
Lemma keeps_modify f : keeps (modify f). Proof. intros s; reflexivity. Qed.
Lemma keeps_fresh : keeps fresh. Proof. intros s; reflexivity. Qed.
Lemma keeps_NewBlock n : keeps (NewBlock n). Proof. intros s; reflexivity. Qed.
Lemma keeps_nextLabelID : keeps nextLabelID. Proof. intros s; reflexivity. Qed.

Ltac keeps_tac :=
  repeat (first
    [ apply keeps_ret | apply keeps_errorf | apply keeps_get | apply keeps_modify
    | apply keeps_fresh | apply keeps_NewBlock | apply keeps_nextLabelID
    | assumption
    | apply keeps_bind; [|intros ?]
    | match goal with
      | |- keeps (let _ := _ in _) => cbv zeta
      | |- keeps (match ?x with _ => _ end) => destruct x
      | |- keeps ?m => progress unfold emit, setTerm, SetInsertPoint, GetInsertBlock, bind_local, getOrCreateFunc, ClearTopLevelContext
      end ]).

Lemma keeps_emitR mk : keeps (emitR mk).
Proof. unfold emitR. keeps_tac. Qed.
Lemma keeps_rval v b : keeps (rval v b).
Proof. unfold rval. destruct b; [apply keeps_emitR|keeps_tac]. Qed.
Lemma keeps_cmpz p a b : keeps (cmpz p a b).
Proof. unfold cmpz. apply keeps_bind; [apply keeps_emitR|intros; apply keeps_emitR]. Qed.
Lemma keeps_applyCop o a b : keeps (applyCop o a b).
Proof. destruct o; [apply keeps_emitR|apply keeps_cmpz]. Qed.
Lemma keeps_doCall f a : keeps (doCall f a).
Proof.
  unfold doCall. destruct f; cbv zeta;
  repeat (first [apply keeps_emitR | apply keeps_bind; [apply keeps_emitR|intros ?] | destruct (_ && _)]).
Qed.
Lemma keeps_incDec o p : keeps (incDec o p).
Proof.
  unfold incDec. repeat (apply keeps_bind; [apply keeps_emitR|intros ?]). keeps_tac.
Qed.
Lemma keeps_emit i : keeps (emit i). Proof. keeps_tac. Qed.
Lemma keeps_setTerm t : keeps (setTerm t). Proof. keeps_tac. Qed.
Lemma keeps_SetInsertPoint b : keeps (SetInsertPoint b). Proof. keeps_tac. Qed.
Lemma keeps_GetInsertBlock : keeps GetInsertBlock. Proof. keeps_tac. Qed.
Lemma keeps_GetOrDeclareFunction n : keeps (GetOrDeclareFunction n).
Proof. unfold GetOrDeclareFunction. keeps_tac. Qed.
Lemma keeps_GetAddress n : keeps (GetAddress n).
Proof.
  unfold GetAddress, emitR. keeps_tac.
Qed.
Lemma keeps_CreateStringConstant n : keeps (CreateStringConstant n).
Proof. unfold CreateStringConstant. keeps_tac. Qed.
Lemma keeps_GetOrCreateLabel n : keeps (GetOrCreateLabel n).
Proof. unfold GetOrCreateLabel. keeps_tac. Qed.
Lemma keeps_termIsNil : keeps termIsNil.
Proof. unfold termIsNil. keeps_tac. Qed.
Lemma keeps_brIfOpen b : keeps (brIfOpen b).
Proof. unfold brIfOpen. apply keeps_bind; [apply keeps_termIsNil|intros []; keeps_tac]. Qed.
Lemma keeps_DeclareLocal n : keeps (DeclareLocal n).
Proof. unfold DeclareLocal. apply keeps_bind; [apply keeps_emitR|intros ?]. keeps_tac. Qed.
Lemma keeps_DeclareLocalArray n z : keeps (DeclareLocalArray n z).
Proof.
  unfold DeclareLocalArray. cbv zeta. repeat (apply keeps_bind; [apply keeps_emitR|intros ?]). keeps_tac.
Qed.
Lemma keeps_declareAutos l : keeps (declareAutos l).
Proof.
  induction l as [|[n z] l IH]; cbn [declareAutos]; [keeps_tac|].
  apply keeps_bind; [destruct (z =? -1); auto using keeps_DeclareLocal, keeps_DeclareLocalArray|auto].
Qed.
Lemma keeps_externName n : keeps (externName n).
Proof. unfold externName. keeps_tac. Qed.
Lemma keeps_switchCases id l : keeps (switchCases id l).
Proof.
  induction l as [|z l IH]; cbn [switchCases]; [keeps_tac|].
  apply keeps_bind; [apply keeps_GetOrCreateLabel|intros ?]. keeps_tac.
Qed.
Lemma keeps_va_params va l : keeps (va_params va l).
Proof.
  induction l as [|n l IH]; cbn [va_params]; [keeps_tac|].
  repeat (apply keeps_bind; [apply keeps_emitR|intros ?]). keeps_tac.
Qed.
Lemma keeps_StartFunction n f : keeps (StartFunction n f).
Proof.
  unfold StartFunction. apply keeps_bind; [keeps_tac|intros ?]. apply keeps_bind; [keeps_tac|intros ?].
  cbv zeta. destruct (match assoc n _ with Some _ => _ | None => _ end) as [|p [|q ps]]; [keeps_tac| |].
  - apply keeps_bind; [apply keeps_emitR|intros ?]. keeps_tac.
  - apply keeps_bind; [apply keeps_emitR|intros ?].
    apply keeps_bind; [keeps_tac|intros ?].
    apply keeps_bind; [keeps_tac|intros ?].
    apply keeps_bind; [apply keeps_emitR|intros ?].
    apply keeps_bind; [apply keeps_emitR|intros ?].
    apply keeps_bind; [keeps_tac|intros ?].
    apply keeps_bind; [keeps_tac|intros ?].
    apply keeps_bind; [apply keeps_va_params|intros ?]. keeps_tac.
Qed.
Lemma keeps_EndFunction : keeps EndFunction.
Proof.
  unfold EndFunction. apply keeps_bind; [apply keeps_termIsNil|intros []]; keeps_tac.
Qed.
Lemma keeps_DeclareFunction n l : keeps (DeclareFunction n l).
Proof. unfold DeclareFunction. cbv zeta. keeps_tac. Qed.
Lemma keeps_DeclareGlobal n l : keeps (DeclareGlobal n l).
Proof. unfold DeclareGlobal. cbv zeta. keeps_tac. Qed.
Lemma keeps_DeclareGlobalM n l : keeps (DeclareGlobalWithMultipleValues n l).
Proof. unfold DeclareGlobalWithMultipleValues. cbv zeta. keeps_tac. Qed.
Lemma keeps_DeclareGlobalArray n z l : keeps (DeclareGlobalArray n z l).
Proof. unfold DeclareGlobalArray. cbv zeta. keeps_tac. Qed.
Lemma keeps_Clear : keeps ClearTopLevelContext.
Proof. unfold ClearTopLevelContext. keeps_tac. Qed.

#[export] Hint Resolve keeps_emitR keeps_rval keeps_cmpz keeps_applyCop keeps_doCall keeps_incDec
  keeps_emit keeps_setTerm keeps_SetInsertPoint keeps_GetInsertBlock keeps_GetOrDeclareFunction
  keeps_GetAddress keeps_CreateStringConstant keeps_GetOrCreateLabel keeps_termIsNil keeps_brIfOpen
  keeps_declareAutos keeps_externName keeps_switchCases keeps_StartFunction keeps_EndFunction
  keeps_DeclareFunction keeps_DeclareGlobal keeps_DeclareGlobalM keeps_DeclareGlobalArray keeps_Clear
  keeps_NewBlock keeps_nextLabelID keeps_get keeps_modify keeps_fresh keeps_ret keeps_errorf : keeps.

(** ** Lexer primitives *)
Notation wpT := (wp False).

(** [goes d m]: never out of fuel, rest is a suffix at least [d] shorter. *)
Definition goes {A} (d : nat) (m : C A) : Prop := forall s, wpT m (fun _ s' => suf d s s') s.

Lemma keeps_goes {A} (m : C A) : keeps m -> goes 0 m.
Proof.
  intros H s. unfold wp. specialize (H s). destruct (m s); auto. apply suf_same; auto.
Qed.

Lemma goes_Whitespace : goes 0 (lift Whitespace).
Proof.
  intros s. apply wp_lift.
  - apply Whitespace_fuel.
  - intros [] l' E. destruct (lx s) as [i fl] eqn:EL.
    destruct (Whitespace_spec i fl) as [lay rest E2 HL HT HE| |]; try discriminate.
    injection E as <-. exists lay. cbn. rewrite EL. cbn. repeat split; auto. lia.
Qed.

Lemma goes_Identifier : goes 0 (lift Identifier).
Proof.
  intros s. apply wp_lift.
  - apply Identifier_fuel.
  - intros n l' E. apply Identifier_inv in E. destruct E as (lay & id & E & _ & _ & _ & _ & _ & F).
    exists (lay ++ id). cbn. rewrite <- app_assoc. repeat split; auto. lia.
Qed.

Lemma goes_Number : goes 0 (lift Number).
Proof.
  intros s. apply wp_lift.
  - apply Number_fuel.
  - intros n l' E. apply Number_inv in E. destruct E as (lay & id & E & _ & _ & _ & _ & F & _).
    exists (lay ++ id). cbn. rewrite <- app_assoc. repeat split; auto. lia.
Qed.

Lemma goes_Character : goes 1 (lift Character).
Proof.
  intros s. apply wp_lift.
  - apply character_loop_fuel.
  - intros z l' E. apply Character_inv in E. destruct E as (src & c & _ & _ & E & F & _).
    exists (src ++ [QUOTE]). cbn. rewrite <- app_assoc, app_length. repeat split; auto. cbn; lia.
Qed.

Lemma goes_String : goes 1 (lift String_).
Proof.
  intros s. apply wp_lift.
  - apply String_fuel.
  - intros z l' E. apply String_inv in E. destruct E as (src & c & _ & E & F & _).
    exists (src ++ [DQUOTE]). cbn. rewrite <- app_assoc, app_length. repeat split; auto. cbn; lia.
Qed.

Lemma goes_Expect c m : goes 1 (lift (ExpectChar c m)).
Proof.
  intros s. apply wp_lift; unfold ExpectChar, bind, tryRead; destruct (lx s) as [[|x i] fl] eqn:EL; cbn.
  - unfold end_err; cbn. destruct fl; discriminate.
  - destruct (Ascii.eqb x c); discriminate.
  - unfold end_err; cbn. destruct fl; discriminate.
  - intros a l'. destruct (Ascii.eqb x c); [|discriminate]. intros E; injection E as _ <-.
    exists [x]. rewrite EL. cbn. auto.
Qed.

Lemma goes_readChar : goes 1 readChar.
Proof.
  intros s. unfold wp, readChar, bind, rc, lift, tryRead. destruct (lx s) as [[|x i] fl] eqn:EL; cbn; [exact I|].
  exists [x]. rewrite EL. cbn. auto.
Qed.

(** Reading one character, with the two outcomes. *)
Lemma wp_rc F (Q : goerr + ascii -> st -> Prop) s :
  (inp s = [] -> Q (inl (end_err (lx s))) s) ->
  (forall c r, inp s = c :: r -> Q (inr c) (mkSt (mkLexer r (l_fail (lx s))) (cs s))) ->
  wp F rc Q s.
Proof.
  intros H1 H2. unfold wp, rc, lift, tryRead. destruct s as [[[|c i] fl] c0]; cbn in *; auto.
Qed.

Lemma wp_readChar F (Q : ascii -> st -> Prop) s :
  (forall c r, inp s = c :: r -> Q c (mkSt (mkLexer r (l_fail (lx s))) (cs s))) ->
  wp F readChar Q s.
Proof.
  intros H. unfold readChar. apply wp_bind. apply wp_rc; intros; [apply wp_fail|apply wp_ret; auto].
Qed.

Lemma wp_unread F c (Q : unit -> st -> Prop) s :
  Q tt (mkSt (mkLexer (c :: inp s) (l_fail (lx s))) (cs s)) -> wp F (unread c) Q s.
Proof. auto. Qed.

Lemma wp_goes {A} d (m : C A) (Q : A -> st -> Prop) s :
  goes d m -> (forall a s', suf d s s' -> Q a s') -> wpT m Q s.
Proof. intros H HQ. eapply wp_mono; [apply H|]. intros; auto. Qed.

Lemma wp_keeps {A} (m : C A) (Q : A -> st -> Prop) s :
  keeps m -> (forall a s', lx s' = lx s -> Q a s') -> wpT m Q s.
Proof. intros H HQ. unfold wp. specialize (H s). destruct (m s); auto. Qed.

(** Small look-ahead helpers consume at most what they report. *)
Lemma suf_step d s c r (x : cstate) : inp s = c :: r -> (d <= 1)%nat ->
  suf d s (mkSt (mkLexer r (l_fail (lx s))) x).
Proof. intros E H. exists [c]. cbn. repeat split; auto. Qed.

Lemma suf_eq s (x : cstate) i : inp s = i -> suf 0 s (mkSt (mkLexer i (l_fail (lx s))) x).
Proof. intros E. exists []. cbn. auto. Qed.

Ltac inv_inp :=
  repeat match goal with
  | H : l_in (lx (mkSt (mkLexer ?i ?f) ?c)) = _ |- _ => cbn [lx l_in l_fail] in H; subst
  | H : ?c :: ?r = ?c2 :: ?r2 |- _ => injection H; clear H; intros; subst
  end.

Ltac sufx := cbn [lx l_in l_fail cs] in *;
  match goal with
  | E : l_in (lx ?s) = _ |- suf _ ?s _ =>
      unfold suf; cbn [lx l_in l_fail]; rewrite E;
      first [ exists []; split; [reflexivity|split; [cbn; lia|reflexivity]]
            | eexists [_]; split; [reflexivity|split; [cbn; lia|reflexivity]]
            | eexists [_; _]; split; [reflexivity|split; [cbn; lia|reflexivity]]
            | eexists [_; _; _]; split; [reflexivity|split; [cbn; lia|reflexivity]] ]
  end.

Ltac peek :=
  repeat first
  [ apply wp_bind
  | apply wp_ret
  | apply wp_errorf
  | apply wp_unread
  | match goal with
    | |- wp _ rc _ _ => apply wp_rc; cbn [lx l_in l_fail cs]; intros; inv_inp
    | |- wp _ (unreadOk _) _ _ => unfold unreadOk
    | |- wp _ (match ?x with _ => _ end) _ _ => destruct x eqn:?
    end; cbn [isCh lx l_in l_fail cs] ].

Lemma isCh_eq c d : isCh (inr c) d = true -> c = d.
Proof. cbn. apply Ascii.eqb_eq. Qed.

(** ['='] at level >= 7: after the first '='. *)
Lemma goes_tryEqEq : goes 0 tryEqEq.
Proof.
  intros s. destruct s as [[i fl] c]. unfold wp, tryEqEq, bind, rc, lift, tryRead, unreadOk, unread.
  cbn [lx l_in l_fail cs].
  destruct i as [|a [|b i]]; cbn; try (destruct (Ascii.eqb_spec a "="); subst);
    cbn; try (destruct (Ascii.eqb_spec b "="); subst); cbn;
    solve [ exists []; cbn; auto | eexists [_]; cbn; auto ].
Qed.

(** The assignment operator after its first '=', when it is not '=='. *)
Definition not_eqeq (i : list ascii) : Prop :=
  match i with
  | a :: r => a = "="%char -> exists t, r = "="%char :: t
  | [] => True
  end.

Lemma tryEqEq_false s s' : tryEqEq s = Ok false s' -> not_eqeq (inp s') /\ inp s' = inp s.
Proof.
  destruct s as [[i fl] c]. unfold tryEqEq, bind, rc, lift, tryRead, unreadOk, unread.
  cbn [lx l_in l_fail cs].
  destruct i as [|a [|b i]]; cbn; try (destruct (Ascii.eqb_spec a "="); subst);
    cbn; try (destruct (Ascii.eqb_spec b "="); subst); cbn;
    intros E; try discriminate; injection E as <-; cbn; split; try congruence; eauto.
Qed.

(** ** Walking through the parsers *)
Lemma suf_back k d s t s' : suf (d - k) s t -> suf k t s' -> suf d s s'.
Proof. intros H1 H2. eapply suf_weaken; [|eapply suf_trans; eauto]. lia. Qed.

Lemma wp_rc' (F : Prop) (Q : goerr + ascii -> st -> Prop) s :
  (inp s = [] -> Q (inl (end_err (lx s))) s) ->
  (forall c s1, inp s = c :: inp s1 -> suf 1 s s1 -> cs s1 = cs s -> Q (inr c) s1) ->
  wp F rc Q s.
Proof.
  intros H1 H2. apply wp_rc; auto. intros c r E. apply H2; auto. sufx.
Qed.

Lemma wp_readChar' (F : Prop) (Q : ascii -> st -> Prop) s :
  (forall c s1, inp s = c :: inp s1 -> suf 1 s s1 -> cs s1 = cs s -> Q c s1) ->
  wp F readChar Q s.
Proof.
  intros H. apply wp_readChar. intros c r E. apply H; auto. sufx.
Qed.

(** Pushing back the character read last. *)
Lemma wp_unread' (F : Prop) c (Q : unit -> st -> Prop) s t :
  inp t = c :: inp s -> l_fail (lx s) = l_fail (lx t) ->
  (forall s2, inp s2 = inp t -> suf 0 t s2 -> cs s2 = cs s -> Q tt s2) ->
  wp F (unread c) Q s.
Proof.
  intros E EF H. apply wp_unread. apply H; auto; cbn; auto. exists []. cbn. rewrite E. auto.
Qed.

Lemma suf_fail d s s' : suf d s s' -> l_fail (lx s') = l_fail (lx s).
Proof. intros (p & _ & _ & H). exact H. Qed.

Lemma layout_ident_nil lay id c r rest : ident_char c ->
  lay ++ id ++ rest = c :: r -> layout lay -> not_starting ident_char rest ->
  lay = [] /\ id <> [].
Proof.
  intros HC E HL HR. assert (lay = []) as ->.
  { destruct HL as [|w r' W|t r']; auto; cbn in E; injection E; intros; subst.
    - exfalso; eapply ident_not_white; eauto.
    - exfalso; eapply ident_not_slash; eauto. }
  split; auto. intros ->. cbn in E. subst rest. cbn in HR. auto.
Qed.

Lemma wp_Identifier1 (Q : string -> st -> Prop) s c r :
  inp s = c :: r -> IsIdent c = true ->
  (forall name s', suf 1 s s' ->
     (exists id, inp s = id ++ inp s' /\ Forall ident_char id /\ name = go_string id) ->
     cs s' = cs s -> Q name s') ->
  wpT (lift Identifier) Q s.
Proof.
  intros E HI HQ. apply wp_lift; [apply Identifier_fuel|].
  intros n l' EI. apply Identifier_inv in EI. destruct EI as (lay & id & E2 & HL & HF & HN & Hn & HT & HFl).
  rewrite E in E2. apply IsIdent_ident in HI. symmetry in E2.
  destruct (layout_ident_nil _ _ _ _ _ HI E2 HL HN) as [-> Hid].
  cbn [app] in E2. apply HQ; cbn; auto.
  - exists id. cbn. rewrite E. repeat split; auto. destruct id; cbn; [congruence|lia].
  - exists id. rewrite E. auto.
Qed.

Lemma wp_Number1 (Q : Z -> st -> Prop) s c r :
  inp s = c :: r -> IsDigit c = true ->
  (forall z s', suf 1 s s' -> cs s' = cs s -> Q z s') ->
  wpT (lift Number) Q s.
Proof.
  intros E HI HQ. apply wp_lift; [apply Number_fuel|].
  intros n l' EI. apply HQ; auto.
  destruct (Number_inv _ _ _ EI) as (lay & ds & E2 & HL & HF & HR & HT & HFl & _).
  apply IsDigit_digit in HI.
  exists (lay ++ ds). cbn. rewrite E2, <- app_assoc. repeat split; auto.
  destruct lay; [|cbn; lia]. destruct ds; [|cbn; lia].
  cbn in E2. rewrite E in E2. rewrite <- E2 in HR. cbn in HR. contradiction.
Qed.

Lemma wp_Expect (Q : unit -> st -> Prop) s c m :
  (forall s', inp s = c :: inp s' -> suf 1 s s' -> cs s' = cs s -> Q tt s') ->
  wpT (lift (ExpectChar c m)) Q s.
Proof.
  intros H. apply wp_lift; unfold ExpectChar, bind, tryRead; destruct (lx s) as [[|x i] fl] eqn:EL; cbn.
  - unfold end_err; cbn. destruct fl; discriminate.
  - destruct (Ascii.eqb x c); discriminate.
  - unfold end_err; cbn. destruct fl; discriminate.
  - intros [] l'. destruct (Ascii.eqb_spec x c); [|discriminate]. intros E; injection E as <-. subst.
    apply H; auto; cbn; rewrite ?EL; auto. exists [c]. cbn. rewrite EL. auto.
Qed.

Lemma wp_keeps' {A} (m : C A) (Q : A -> st -> Prop) s :
  keeps m -> (forall a s', lx s' = lx s -> suf 0 s s' -> Q a s') -> wpT m Q s.
Proof. intros H HQ. apply wp_keeps; auto. intros. apply HQ; auto. apply suf_same; auto. Qed.

Ltac sufsolve :=
  match goal with
  | |- suf _ ?s ?s => eapply suf_weaken; [|apply suf_refl]; lia
  | H : suf _ ?t ?s' |- suf _ _ ?s' => eapply suf_back; [|exact H]; cbn [Nat.sub]; sufsolve
  end.

Ltac lens :=
  repeat match goal with
  | H : suf _ _ _ |- _ => apply suf_len in H
  end; lia.

(** same end flag along a chain *)
Ltac fails :=
  repeat match goal with
  | H : suf _ _ _ |- _ => apply suf_fail in H
  end; congruence.

Ltac inps :=
  repeat match goal with
  | H : lx _ = lx _ |- _ => rewrite H in *; clear H
  end.

(** one step of a walk *)
Ltac wstep :=
  match goal with
  | |- wp _ (bind _ _) _ _ => apply wp_bind
  | |- wp _ (ret _) _ _ => apply wp_ret
  | |- wp _ (errorf _) _ _ => apply wp_errorf
  | |- wp _ (fail _) _ _ => apply wp_fail
  | |- wp _ (lift Whitespace) _ _ => eapply wp_goes; [apply goes_Whitespace|intros ? ? ?]
  | |- wp _ (lift Character) _ _ => eapply wp_goes; [apply goes_Character|intros ? ? ?]
  | |- wp _ (lift String_) _ _ => eapply wp_goes; [apply goes_String|intros ? ? ?]
  | |- wp _ (lift (ExpectChar _ _)) _ _ => apply wp_Expect; intros
  | |- wp _ rc _ _ => apply wp_rc'; intros
  | |- wp _ readChar _ _ => apply wp_readChar'; intros
  | |- wp _ (unreadOk (inl _)) _ _ => cbn [unreadOk]
  | |- wp _ (unreadOk (inr _)) _ _ => cbn [unreadOk]
  | H : l_in (lx ?t) = ?c :: l_in (lx ?s) |- wp _ (unread ?c) _ ?s =>
      eapply wp_unread'; [exact H|fails|intros]
  | H : l_in (lx ?t) = ?c :: l_in (lx ?s1), H1 : l_in (lx ?s) = l_in (lx ?s1) |- wp _ (unread ?c) _ ?s =>
      apply (wp_unread' _ _ _ s t); [rewrite H, H1; reflexivity|fails|intros]
  | H : lx ?s = lx ?s1 |- wp _ (unread ?c) _ ?s =>
      match goal with
      | H2 : l_in (lx ?t) = c :: l_in (lx s1) |- _ =>
      apply (wp_unread' _ _ _ s t); [rewrite H, H2; reflexivity|fails|intros]
      end
  | |- wp _ (if isCh (inl _) _ then _ else _) _ _ => cbn [isCh]
  | |- wp _ (if isCh (inr _) _ then _ else _) _ _ => cbn [isCh]
  | |- wp _ (match inr _ with _ => _ end) _ _ => cbv beta iota
  | |- wp _ (match end_err ?l with _ => _ end) _ _ => unfold end_err; destruct (l_fail l); cbv beta iota
  | |- wp _ (if Ascii.eqb ?a ?b then _ else _) _ _ => destruct (Ascii.eqb_spec a b); subst
  | |- wp _ (if ?b && _ then _ else _) _ _ => destruct b; cbn [andb]
  | |- wp _ (if ?b || _ then _ else _) _ _ => destruct b eqn:?; cbn [orb]
  | |- wp _ (if negb ?b then _ else _) _ _ => destruct b; cbn [negb]
  | |- wp _ (if true then _ else _) _ _ => cbv beta iota
  | |- wp _ (if false then _ else _) _ _ => cbv beta iota
  | |- wp _ (if ?b then _ else _) _ _ => is_var b; destruct b
  | |- wp _ (let (_, _) := ?p in _) _ _ => is_var p; destruct p
  | |- wp _ (match ?p with _ => _ end) _ _ => is_var p; destruct p
  | |- wp _ ?m _ _ => apply wp_keeps'; [solve [auto with keeps]|intros]
  end; cbv beta.

Lemma goes_primaryIdent name : goes 0 (primaryIdent name).
Proof.
  intros s. unfold primaryIdent.
  repeat (wstep; try sufsolve).
  all: match goal with |- wp _ (match ?x with _ => _ end) _ _ => destruct x end.
  all: repeat (wstep; try sufsolve).
  all: match goal with |- wp _ (match ?x with _ => _ end) _ _ => destruct x as [[]|] end.
  all: repeat (wstep; try sufsolve).
Qed.

Lemma wp_tryEqEq (Q : bool -> st -> Prop) s :
  (forall b s', suf 0 s s' -> (b = false -> not_eqeq (inp s') /\ inp s' = inp s) -> Q b s') -> wpT tryEqEq Q s.
Proof.
  intros H. apply wp_intro.
  - intros E. pose proof (goes_tryEqEq s) as G. unfold wp in G. rewrite E in G. exact G.
  - intros b s' E. apply H.
    + pose proof (goes_tryEqEq s) as G. unfold wp in G. rewrite E in G. exact G.
    + intros ->. eapply tryEqEq_false; eauto.
Qed.

Lemma wp_compoundOp (Q : option cop -> st -> Prop) s t c :
  inp t = c :: inp s -> l_fail (lx s) = l_fail (lx t) ->
  (forall o s', suf 0 t s' -> Q o s') -> wpT (compoundOp (inr c)) Q s.
Proof.
  intros E EF H. assert (S1 : suf 1 t s) by (exists [c]; cbn; rewrite E; auto).
  unfold compoundOp.
  repeat (first [wstep | apply H; sufsolve]).
Qed.

(** ** Expressions *)
Theorem expr_total n :
  (forall lv s, (4 * len s + 4 <= n)%nat -> wpT (exprL n lv) (fun _ s' => suf 1 s s') s) /\
  (forall lv v b s, (4 * len s + 1 <= n)%nat -> wpT (exprLoop n lv v b) (fun _ s' => suf 0 s s') s) /\
  (forall s, (4 * len s + 3 <= n)%nat -> wpT (unary n) (fun _ s' => suf 1 s s') s) /\
  (forall s, (4 * len s + 2 <= n)%nat -> wpT (postfix n) (fun _ s' => suf 1 s s') s) /\
  (forall v b s, (4 * len s + 2 <= n)%nat -> wpT (postfixLoop n v b) (fun _ s' => suf 0 s s') s) /\
  (forall acc s, (4 * len s + 5 <= n)%nat -> wpT (callArgs n acc) (fun _ s' => suf 1 s s') s) /\
  (forall s, (4 * len s + 1 <= n)%nat -> wpT (primary n) (fun _ s' => suf 1 s s') s).
Proof.
  induction n as [|n (IHe & IHl & IHu & IHp & IHpl & IHa & IHpr)].
  { repeat split; intros; lia. }
  Ltac call IH := eapply wp_mono; [apply IH; lens|intros; cbv beta in *].
  Ltac wk IHe IHl IHu IHp IHpl IHa IHpr :=
    repeat first
      [ wstep
      | match goal with
        | |- wp _ (exprL _ _) _ _ => call IHe
        | |- wp _ (exprLoop _ _ _ _) _ _ => call IHl
        | |- wp _ (unary _) _ _ => call IHu
        | |- wp _ (postfix _) _ _ => call IHp
        | |- wp _ (postfixLoop _ _ _) _ _ => call IHpl
        | |- wp _ (callArgs _ _) _ _ => call IHa
        | |- wp _ (primary _) _ _ => call IHpr
        | |- wp _ (primaryIdent _) _ _ => eapply wp_goes; [apply goes_primaryIdent|intros]
        end
      | sufsolve ].
  repeat apply conj.
  - intros lv s Hn. cbn [exprL]. wk IHe IHl IHu IHp IHpl IHa IHpr.
  - intros lv v b s Hn. cbn [exprLoop].
    wstep. wstep. wstep. wstep.
    + wk IHe IHl IHu IHp IHpl IHa IHpr.
    + destruct ((13 <=? lv)%nat && Ascii.eqb c "?"); [wk IHe IHl IHu IHp IHpl IHa IHpr|].
      destruct ((7 <=? lv)%nat && Ascii.eqb c "=") eqn:E7.
      * wstep. apply wp_tryEqEq. intros bq s2 S2 HN. destruct bq; [wk IHe IHl IHu IHp IHpl IHa IHpr|].
        destruct (HN eq_refl) as [HN1 HN2]. apply andb_true_iff in E7. destruct E7 as [_ E7].
        apply Ascii.eqb_eq in E7. subst c.
        destruct (14 <=? lv)%nat eqn:E14; cbn [andb].
        -- rewrite Ascii.eqb_refl. wstep. wstep.
           ++ wk IHe IHl IHu IHp IHpl IHa IHpr.
           ++ wstep. unfold tryEqEqEq. destruct (Ascii.eqb_spec c "=") as [->|NE].
              ** cbn [isCh]. rewrite Ascii.eqb_refl.
                 rewrite H3 in HN1. cbn in HN1. destruct (HN1 eq_refl) as [tl Etl].
                 wstep. wstep; [congruence|].
                 rewrite H6 in Etl. injection Etl as -> Etl. cbn [isCh]. rewrite Ascii.eqb_refl.
                 wk IHe IHl IHu IHp IHpl IHa IHpr.
              ** cbn [isCh]. destruct (Ascii.eqb_spec c "="); [congruence|].
                 wstep. destruct b; cbv beta iota delta [negb]; [|apply wp_errorf].
                 wstep. eapply wp_compoundOp; [exact H3|fails|intros].
                 wk IHe IHl IHu IHp IHpl IHa IHpr.
        -- cbn. rewrite ?andb_false_r.
           eapply (wp_bind False). apply (wp_unread' _ _ _ s2 s'); [rewrite H0, HN2; reflexivity|fails|intros].
           wk IHe IHl IHu IHp IHpl IHa IHpr.
      * wstep. wstep.
        destruct ((14 <=? lv)%nat && Ascii.eqb c "=") eqn:E14.
        { exfalso. apply andb_true_iff in E14. destruct E14 as [E14 E15]. rewrite E15, andb_true_r in E7.
          apply Nat.leb_le in E14. apply Nat.leb_gt in E7. lia. }
        clear E7 E14.
        wk IHe IHl IHu IHp IHpl IHa IHpr.
  - intros s Hn. cbn [unary]. wk IHe IHl IHu IHp IHpl IHa IHpr.
  - intros s Hn. cbn [postfix]. wk IHe IHl IHu IHp IHpl IHa IHpr.
  - intros v b s Hn. cbn [postfixLoop]. wk IHe IHl IHu IHp IHpl IHa IHpr.
  - intros acc s Hn. cbn [callArgs]. wk IHe IHl IHu IHp IHpl IHa IHpr.
  - intros s Hn. cbn [primary]. wk IHe IHl IHu IHp IHpl IHa IHpr.
    destruct (IsDigit c) eqn:ED.
    + wk IHe IHl IHu IHp IHpl IHa IHpr.
      eapply wp_Number1; [rewrite H3, H0; reflexivity|exact ED|intros].
      wk IHe IHl IHu IHp IHpl IHa IHpr.
    + destruct (IsLetter c) eqn:EL; [|wstep].
      wk IHe IHl IHu IHp IHpl IHa IHpr.
      eapply wp_Identifier1; [rewrite H3, H0; reflexivity|unfold IsIdent; rewrite EL; reflexivity|intros].
      wk IHe IHl IHu IHp IHpl IHa IHpr.
Qed.

Lemma parseExpression_total n s : (4 * len s + 4 <= n)%nat ->
  wpT (parseExpression n) (fun _ s' => suf 1 s s') s.
Proof. intros H. apply (proj1 (expr_total n)); auto. Qed.


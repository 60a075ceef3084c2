(** * InvCalls: the cases of switch instructions and the arguments of calls *)
From Coq Require Import List Ascii String ZArith NArith Lia Bool.
From Verif Require Import Base Lexer IR Builder Expr Stmt Decl Wp Syntax Pure Pwp SpecIR SpecSem SpecValid ParseGen InvIR InvDecl Built InvTerm InvType SimExpr.
Import ListNotations.
Open Scope Z_scope.
Open Scope m_scope.

(** Only the name of a called function yields a function. *)
Definition notfun (v : value) : Prop := match v with VFun _ _ _ => False | _ => True end.
Lemma pwp_skip {A B} (m : C A) (f : A -> C B) Q c : pure m -> (forall a c', pwp (f a) Q c') -> pwp (bind m f) Q c.
Proof. intros HP H. apply (pwp_use m f (fun _ _ => True)); auto. intros a c' _. exact I. Qed.
Ltac sk := apply pwp_skip; [solve [pure_tac]|intros ? ?; cbv beta; try match goal with |- pwp (match ?x with pair _ _ => _ end) _ _ => destruct x end].
Lemma nf_emitR mk c : pwp (emitR mk) (fun v _ => notfun v) c.
Proof. apply pwp_emitR. exact I. Qed.
Ltac nfe := eapply pwp_use; [solve [pure_tac]|apply nf_emitR|cbv beta; intros ? ? ?].
Lemma nf_rval v b c : (b = false -> notfun v) -> pwp (rval v b) (fun v _ => notfun v) c.
Proof. intros H. unfold rval. destruct b; [apply nf_emitR|apply pwp_ret; auto]. Qed.
Lemma nf_applyCop o a b c : pwp (applyCop o a b) (fun v _ => notfun v) c.
Proof. destruct o; cbn [applyCop]; [apply nf_emitR|]. unfold cmpz. sk. apply nf_emitR. Qed.
Lemma nf_doCall f a c : pwp (doCall f a) (fun v _ => notfun v) c.
Proof. unfold doCall. cbv zeta. destruct f; try (sk; apply nf_emitR). destruct (_ && _); [sk|]; apply nf_emitR. Qed.
Lemma nf_incDec o p c : pwp (incDec o p) (fun v _ => notfun v) c.
Proof. unfold incDec. nfe. sk. sk. apply pwp_ret. auto. Qed.
Lemma nf_genVar q n c : pwp (genVar q n) (fun p _ => snd p = false -> notfun (fst p)) c.
Proof.
  unfold genVar. apply pwp_skip; [pure_tac|]. intros [v|] c1; [apply pwp_ret; discriminate|]. destruct q; [apply pwp_err|].
  apply pwp_skip; [pure_tac|]. intros c2 c3. destruct (findFuncByName c2 n).
  - nfe. apply pwp_ret. auto.
  - apply pwp_skip; [pure_tac|]. intros [v|] c4; [|apply pwp_err]. nfe. apply pwp_ret. auto.
Qed.
Lemma nf_gen chk : (forall e, goodE e -> forall q c, pwp (gen chk q e) (fun p _ => snd p = false -> notfun (fst p)) c) /\ (forall l : exprs, True).
Proof.
  Ltac rt := apply pwp_ret; cbn [fst snd]; auto; discriminate.
  Ltac nfs L := eapply pwp_use; [solve [pure_tac]|apply L; auto|cbv beta; intros ? ? ?].
  apply expr_exprs_ind; cbn [goodE]; intros; repeat match goal with H : _ /\ _ |- _ => destruct H end; auto; ugen.
  - apply pwp_ret. intros _. exact I.
  - sk. sk. nfe. rt.
  - apply nf_genVar.
  - contradiction.
  - nfs H. destruct a0. cbn [fst snd] in *. nfs nf_rval. rt.
  - do 6 sk. rt.
  - do 3 sk. nfs nf_doCall. rt.
  - apply pwp_skip; [pure_tac|intros [? []] ?]; cbv beta iota; [|apply pwp_err]. nfs nf_incDec. rt.
  - apply pwp_skip; [pure_tac|intros [? []] ?]; cbv beta iota; [|apply pwp_err]. sk. rt.
  - sk. sk. unfold cmpz. eapply pwp_use; [solve [pure_tac]|sk; apply nf_emitR|cbv beta; intros ? ? ?]. rt.
  - sk. sk. nfe. rt.
  - sk. sk. sk. rt.
  - apply pwp_skip; [pure_tac|intros [? []] ?]; cbv beta iota; [|apply pwp_err]. nfe. rt.
  - do 4 sk. nfs nf_applyCop. rt.
  - do 19 sk. nfe. rt.
  - apply pwp_skip; [pure_tac|intros [? []] ?]; cbv beta iota; [|apply pwp_err]. nfs H0. match goal with x : (value * bool)%type |- _ => destruct x end. cbn [fst snd] in *. nfs nf_rval. destruct op as [o|].
    + sk. nfs nf_applyCop. sk. rt.
    + sk. rt.
Qed.

Section D.
(** [WA]: calls have their arguments, [WB]: switches have different values. *)
Variables WA WB : Prop.
Variable D : string -> Prop.
(** Functions with parameters are in [D], and have one fixed parameter. *)
Definition QF (c : cstate) : Prop :=
  forall n f, In f (c_mfuncs c) -> f_name f = globalName n -> WA -> (List.length (f_params f) <= 1)%nat /\ (List.length (f_params f) <> 0%nat -> D n).
Definition fewer (n : string) (v : value) : Prop := match v with VFun _ _ k => WA -> (k <= 1)%nat /\ (k <> 0%nat -> D n) | _ => True end.
Record QI (c : cstate) : Prop := {
  QI_funcs : QF c;
  QI_functions : Forall (fun p => fewer (fst p) (snd p)) (c_functions c);
  QI_insts : WA -> Forall call_ok (all_insts (c_blocks c));
  QI_terms : WB -> Forall switch_ok (flat_map block_terms (c_blocks c))
}.
Definition qk {A} (m : C A) : Prop := forall c, QI c -> pwp m (fun _ c' => QI c') c.
Lemma qk_bind {A B} (m : C A) (f : A -> C B) : pure m -> qk m -> (forall a, qk (f a)) -> qk (bind m f).
Proof. intros HP H1 H2 c H. eapply pwp_use; [auto|apply H1; auto|]. cbv beta. intros a c1 Q1. apply H2; auto. Qed.
Lemma qk_ret {A} (a : A) : qk (ret a). Proof. intros c H. apply pwp_ret. auto. Qed.
Lemma qk_err {A} e : qk (@errorf st A e). Proof. intros c H. apply pwp_err. Qed.
Lemma qk_get : qk get. Proof. intros c H. apply pwp_get. auto. Qed.
Definition qsame (c c' : cstate) : Prop := c_blocks c' = c_blocks c /\ c_mfuncs c' = c_mfuncs c /\ c_functions c' = c_functions c.
Lemma QI_same c c' : qsame c c' -> QI c -> QI c'.
Proof. intros (E1 & E2 & E3) []. unfold QF in *. constructor; unfold QF; rewrite ?E1, ?E2, ?E3; auto. Qed.
Lemma qk_modify f : (forall c, qsame c (f c)) -> qk (modify f).
Proof. intros HS c H. apply pwp_modify. eapply QI_same; eauto. Qed.
Lemma insts_add i n bs : Forall call_ok (all_insts bs) -> call_ok i -> Forall call_ok (all_insts (upd n (add_inst i) bs)).
Proof.
  intros H HI. destruct (le_lt_dec (List.length bs) n) as [L|L].
  - replace (upd n (add_inst i) bs) with bs; auto. clear H. revert n L. induction bs as [|b bs IH]; intros [|n] L; cbn in *; auto; try lia. f_equal. apply IH. lia.
  - rewrite Forall_forall in *. intros x Hx. apply insts_upd in Hx; auto. destruct Hx as [->|]; auto.
Qed.
Lemma qk_emit i : (WA -> call_ok i) -> qk (emit i).
Proof.
  intros HI c []. apply pwp_emit. constructor; auto; cbn; [intros a; apply insts_add; auto|rewrite terms_add; auto].
Qed.
Lemma qk_emitR i : (WA -> forall r, call_ok (i r)) -> qk (emitR i).
Proof.
  intros HI c []. apply pwp_emitR. constructor; auto; cbn; [intros a; apply insts_add; auto|rewrite terms_add; auto].
Qed.
Lemma qk_setTerm t : (WB -> switch_ok t) -> qk (setTerm t).
Proof.
  intros HI c []. apply pwp_setTerm. constructor; auto; cbn; [rewrite insts_put; auto|].
  intros b. specialize (QI_terms0 b). rewrite Forall_forall in *. intros x Hx. apply terms_put in Hx. destruct Hx as [->|]; auto.
Qed.
Lemma qk_NewBlock n : qk (NewBlock n).
Proof.
  intros c []. apply pwp_NewBlock. constructor; auto; cbn; unfold all_insts; rewrite flat_map_app; cbn; rewrite app_nil_r; auto.
Qed.
Lemma qk_SetInsertPoint b : qk (SetInsertPoint b). Proof. apply qk_modify. repeat split. Qed.
Lemma qk_GetInsertBlock : qk GetInsertBlock. Proof. intros c H. apply pwp_GetInsertBlock. auto. Qed.
Lemma qk_bind_local n v : qk (bind_local n v). Proof. apply qk_modify. repeat split. Qed.
Lemma qk_termIsNil : qk termIsNil. Proof. intros c H. apply pwp_termIsNil. auto. Qed.
Lemma qk_nextLabelID : qk nextLabelID. Proof. intros c H. apply pwp_nextLabelID. eapply QI_same; eauto. repeat split. Qed.
Hint Resolve qk_ret qk_err qk_get qk_GetInsertBlock qk_bind_local qk_termIsNil qk_nextLabelID qk_NewBlock qk_SetInsertPoint : qk.
Ltac qk_tac :=
  repeat (first
    [ solve [auto with qk nocore]
    | assumption
    | match goal with H : forall _, _ |- qk _ => solve [apply H; auto] end
    | solve [apply qk_emitR; intros ? ?; exact I]
    | solve [apply qk_emit; intros ?; exact I]
    | solve [apply qk_setTerm; intros ?; exact I]
    | solve [apply qk_modify; intros ?; repeat split]
    | apply qk_bind; [solve [pure_tac]| |intros ?]
    | match goal with
      | |- qk (let _ := _ in _) => cbv zeta
      | |- qk (if ?x then _ else _) => destruct x
      | |- qk (match ?x with _ => _ end) => destruct x
      end ]).
Lemma qk_CreateStringConstant s : qk (CreateStringConstant s).
Proof. unfold CreateStringConstant. qk_tac. Qed.
Lemma q_GetOrDeclareFunction n c : QI c -> pwp (GetOrDeclareFunction n) (fun o c' => QI c' /\ match o with Some v => fewer n v | None => True end) c.
Proof.
  intros H. unfold GetOrDeclareFunction. apply pwp_bind; [auto with pure|]. apply pwp_get.
  destruct (assoc n (c_functions c)) as [fn|] eqn:E1.
  { apply pwp_ret. split; auto. apply assoc_In in E1. destruct H. rewrite Forall_forall in QI_functions0. apply (QI_functions0 _ E1). }
  destruct (assoc n (c_globals c)) eqn:E2; [apply pwp_ret; auto|].
  cbv zeta. apply pwp_bind; [auto with pure|]. apply pwp_modify. apply pwp_ret.
  assert (F : fewer n (fun_value (mkFunc (globalName n) [] true false []))) by (cbn; intros _; split; [lia|congruence]).
  split; auto. destruct H. constructor; auto; cbn; [|constructor; auto].
  intros m f HI. cbn in HI. apply in_app_or in HI. destruct HI as [HI|[<-|[]]]; [|intros _ _; cbn; split; [lia|congruence]]. apply QI_funcs0. eapply In_remove_named; eauto.
Qed.
Lemma qk_GetOrDeclareFunction n : qk (GetOrDeclareFunction n).
Proof. intros c H. eapply pwp_mono; [apply q_GetOrDeclareFunction; auto|]. cbv beta. tauto. Qed.
Lemma qk_externName n : qk (externName n).
Proof. unfold externName. cbv zeta. qk_tac. Qed.
Hint Resolve qk_CreateStringConstant qk_GetOrDeclareFunction qk_externName : qk.
Lemma qk_GetAddress n : qk (GetAddress n). Proof. unfold GetAddress. qk_tac. Qed.
Hint Resolve qk_GetAddress : qk.
Lemma qk_genVar q n : qk (genVar q n). Proof. unfold genVar. qk_tac. Qed.
Lemma q_genCallee n c : QI c -> pwp (genCallee n) (fun p c' => QI c' /\ (snd p = false -> fewer n (fst p))) c.
Proof.
  intros H. unfold genCallee. apply pwp_bind; [auto with pure|]. apply pwp_get.
  destruct (findFuncByName c n) as [f|] eqn:E.
  { apply pwp_ret. split; auto. intros _. cbn. unfold findFuncByName in E. apply find_named_In in E. destruct E as [E1 E2].
    apply (QI_funcs _ H n f); auto. }
  destruct (assoc n (c_globals c)) as [[full b]|] eqn:E2.
  { apply pwp_ret. split; auto. discriminate. }
  eapply pwp_use; [pure_tac|apply q_GetOrDeclareFunction; auto|]. cbv beta. intros [v|] c1 [H1 H2]; [|apply pwp_err].
  apply pwp_ret. auto.
Qed.
Lemma qk_genCallee n : qk (genCallee n).
Proof. intros c H. eapply pwp_mono; [apply q_genCallee; auto|]. cbv beta. tauto. Qed.
Lemma qk_rval v b : qk (rval v b). Proof. unfold rval. qk_tac. Qed.
Hint Resolve qk_genVar qk_genCallee qk_rval : qk.
Lemma qk_cmpz p a b : qk (cmpz p a b). Proof. unfold cmpz. qk_tac. Qed.
Hint Resolve qk_cmpz : qk.
Lemma qk_applyCop o a b : qk (applyCop o a b). Proof. destruct o; cbn [applyCop]; qk_tac. Qed.
Lemma qk_doCall f a : (WA -> forall n v k, f = VFun n v k -> (k <= List.length a)%nat) -> qk (doCall f a).
Proof.
  intros HF. unfold doCall.
  assert (IND : let many := (1 <=? Datatypes.length a)%nat in
    qk (p <- emitR (fun r => IIntToPtr r f);; emitR (fun r => ICall r p (if many then 1%nat else 0%nat) many a))).
  { intros many. apply qk_bind; [pure_tac|apply qk_emitR; intros ? ?; exact I|intros]. apply qk_emitR. intros aw r.
    subst many. destruct (1 <=? Datatypes.length a)%nat eqn:E; cbn [call_ok]; auto. apply Nat.leb_le. auto. }
  destruct f as [z|r|n|n v k|p]; auto.
  destruct (_ && _) eqn:E.
  - apply qk_bind; [pure_tac|apply qk_emitR; intros ? ?; exact I|intros]. apply qk_emitR. intros aw r. cbn [call_ok].
    apply andb_true_iff in E. destruct E as [_ E]. apply Nat.leb_le in E. auto.
  - apply qk_emitR. intros aw r. cbn. destruct v; auto. apply (HF aw n true k eq_refl).
Qed.
Lemma qk_incDec o p : qk (incDec o p). Proof. unfold incDec. qk_tac. Qed.
Lemma qk_DeclareLocal n : qk (DeclareLocal n). Proof. unfold DeclareLocal. qk_tac. Qed.
Lemma qk_DeclareLocalArray n z : qk (DeclareLocalArray n z). Proof. unfold DeclareLocalArray. cbv zeta. qk_tac. Qed.
Hint Resolve qk_applyCop qk_incDec qk_DeclareLocal qk_DeclareLocalArray : qk.
Lemma qk_declareAutos l : qk (declareAutos l).
Proof. induction l as [|[n z] l IH]; cbn [declareAutos]; qk_tac. Qed.
Lemma qk_checkAutos l : forall seen, qk (checkAutos seen l).
Proof. induction l as [|[n z] l IH]; intros seen; cbn [checkAutos]; qk_tac. Qed.
Lemma qk_genExtrn l : qk (genExtrn l).
Proof. induction l as [|n l IH]; cbn [genExtrn]; qk_tac. Qed.
Lemma qk_brIfOpen b : qk (brIfOpen b). Proof. unfold brIfOpen. qk_tac. Qed.
Lemma qk_GetOrCreateLabel n : qk (GetOrCreateLabel n). Proof. unfold GetOrCreateLabel. qk_tac. Qed.
Hint Resolve qk_declareAutos qk_checkAutos qk_genExtrn qk_brIfOpen qk_GetOrCreateLabel : qk.

(** The number of values. *)
Fixpoint count (l : exprs) : nat := match l with ENil => 0%nat | ECons _ r => S (count r) end.
Lemma q_gen_all chk :
  (forall e, goodE e -> enough_args D e -> forall q, qk (gen chk q e)) /\
  (forall l, goodEs l -> enough_argss D l -> forall c, QI c -> pwp (genArgs chk l) (fun vs c' => QI c' /\ List.length vs = count l) c).
Proof.
  apply expr_exprs_ind; cbn [goodE goodEs enough_args enough_argss]; intros; repeat match goal with H : _ /\ _ |- _ => destruct H end; ugen;
    try solve [qk_tac].
  - (* call *)
    intros c HQ.
    assert (K : pwp (gen chk false f) (fun p c' => QI c' /\ (WA -> snd p = false -> forall n v k, fst p = VFun n v k -> (k <= count args)%nat)) c).
    { assert (X : (exists n, f = ECallee n) \/ goodE f) by (destruct f; eauto). destruct X as [(n & ->)|X].
      - ugen. eapply pwp_mono; [apply q_genCallee; auto|]. cbv beta. intros [v l] c' [Q1 Q2]. split; auto. cbn [fst snd] in *. intros a HL n' v' k ->.
        specialize (Q2 HL). cbn in Q2. specialize (Q2 a). destruct Q2 as [L Q2]. destruct args; [|cbn; lia]. destruct (Nat.eq_dec k 0); [lia|]. contradiction (H2 (Q2 n0)).
      - assert (Y : enough_args D f) by (destruct f; auto; destruct X).
        eapply pwp_mono; [apply pwp_and; [apply H; auto|apply (proj1 (nf_gen chk)); auto]|]. cbv beta. intros [v l] c' [Q1 Q2]. split; auto.
        cbn [fst snd] in *. intros a HL n' v' k ->. destruct (Q2 HL). }
    eapply pwp_use; [pure_tac|exact K|]. cbv beta. intros [v l] c1 [Q1 Q2]. cbn [fst snd] in Q2.
    assert (R : pwp (rval v l) (fun w c' => QI c' /\ (WA -> forall n v k, w = VFun n v k -> (k <= count args)%nat)) c1).
    { apply pwp_and; [apply qk_rval; auto|]. unfold rval. destruct l; [apply pwp_emitR; discriminate|apply pwp_ret; exact (fun a => Q2 a eq_refl)]. }
    eapply pwp_use; [pure_tac|exact R|]. cbv beta. intros fn c2 [Q3 Q4].
    eapply pwp_use; [pure_tac|apply H0; auto|]. cbv beta. intros vs c3 [Q5 Q6].
    eapply pwp_use; [pure_tac|apply qk_doCall; auto|].
    { intros a n v0 k E. specialize (Q4 a _ _ _ E). lia. }
    cbv beta. intros res c4 Q7. apply pwp_ret. auto.
  - apply pwp_ret. auto.
  - eapply pwp_use; [pure_tac|apply H; auto|]. cbv beta. intros [v l'] c1 Q1.
    eapply pwp_use; [pure_tac|apply qk_rval; auto|]. cbv beta. intros v' c2 Q2.
    eapply pwp_use; [pure_tac|apply H0; auto|]. cbv beta. intros vs c3 [Q3 Q4]. apply pwp_ret. split; auto. cbn. auto.
Qed.
Lemma qk_genR chk q e : goodE e -> enough_args D e -> qk (genR chk q e).
Proof.
  intros H1 H2. unfold genR. apply qk_bind; [pure_tac|apply (proj1 (q_gen_all chk)); auto|]. intros [v l]. apply qk_rval.
Qed.

(** ** Statements *)
Lemma q_switchCases id l : forall c, QI c -> pwp (switchCases id l) (fun bs c' => QI c' /\ map fst bs = l) c.
Proof.
  induction l as [|z l IH]; intros c H; cbn [switchCases]; [apply pwp_ret; auto|].
  eapply pwp_use; [pure_tac|apply qk_GetOrCreateLabel; auto|]. cbv beta. intros b c1 H1.
  eapply pwp_use; [pure_tac|apply IH; auto|]. cbv beta. intros bs c2 [H2 E]. apply pwp_ret. split; auto. cbn. congruence.
Qed.
Definition sw_add (sw : swctx) (l : list Z) : swctx := match sw with Some (id, vals) => Some (id, vals ++ l)%list | None => None end.
Lemma sw_add_nil sw : sw_add sw [] = sw. Proof. destruct sw as [[]|]; cbn; rewrite ?app_nil_r; auto. Qed.
Lemma sw_add_app sw a b : sw_add (sw_add sw a) b = sw_add sw (a ++ b). Proof. destruct sw as [[]|]; cbn; rewrite <- ?app_assoc; auto. Qed.
Ltac q1 L := eapply pwp_use; [solve [pure_tac]|apply L; auto|cbv beta; intros ? ? ?].
Lemma q_genS_all chk :
  (forall s, goodS s -> args_in D s -> (WB -> distinct_cases s) -> forall sw c, QI c -> pwp (genS chk s sw) (fun sw' c' => QI c' /\ sw' = sw_add sw (cases s)) c) /\
  (forall l, goodL l -> args_inL D l -> (WB -> distinct_casesL l) -> forall sw c, QI c -> pwp (genL chk l sw) (fun sw' c' => QI c' /\ sw' = sw_add sw (casesL l)) c).
Proof.
  Ltac rq := apply pwp_ret; cbn [cases casesL]; rewrite ?sw_add_nil; auto.
  Ltac qe := eapply pwp_use; [solve [pure_tac]|apply qk_emitR; [intros ? ?; exact I|auto]|cbv beta; intros ? ? ?].
  Ltac qt := eapply pwp_use; [solve [pure_tac]|apply qk_setTerm; [intros _; exact I|auto]|cbv beta; intros ? ? ?].
  Ltac qb IH := eapply pwp_use; [solve [pure_tac]|apply IH; auto|cbv beta; intros ? ? [? ?]].
  apply stmt_stmts_ind; cbn [goodS goodL args_in args_inL distinct_cases distinct_casesL]; intros;
    repeat match goal with H : WB -> _ /\ _ |- _ => pose proof (fun b => proj1 (H b)); pose proof (fun b => proj2 (H b)); clear H end;
    repeat match goal with H : _ /\ _ |- _ => destruct H end; ugenS.
  - rq.
  - q1 qk_genR. rq.
  - apply H; auto.
  - destruct e as [e|]; [q1 qk_genR|]; qt; rq.
  - q1 qk_checkAutos. q1 qk_declareAutos. rq.
  - q1 qk_genExtrn. rq.
  - q1 qk_genR. q1 qk_nextLabelID. q1 qk_NewBlock. q1 qk_NewBlock. q1 qk_NewBlock. qe. qt. q1 qk_SetInsertPoint. qb H. q1 qk_brIfOpen. q1 qk_SetInsertPoint. q1 qk_brIfOpen.
    q1 qk_SetInsertPoint. rq.
  - q1 qk_genR. q1 qk_nextLabelID. q1 qk_NewBlock. q1 qk_NewBlock. q1 qk_NewBlock. qe. qt. q1 qk_SetInsertPoint. qb H. q1 qk_brIfOpen. q1 qk_SetInsertPoint. qb H0. q1 qk_brIfOpen.
    q1 qk_SetInsertPoint. rq.
  - q1 qk_nextLabelID. q1 qk_NewBlock. q1 qk_NewBlock. q1 qk_NewBlock. qt. q1 qk_SetInsertPoint. q1 qk_genR. qe. qt. q1 qk_SetInsertPoint. qb H. q1 qk_brIfOpen. q1 qk_SetInsertPoint. rq.
  - q1 qk_nextLabelID. q1 qk_genR. q1 qk_NewBlock. q1 qk_NewBlock. q1 qk_NewBlock. qt. q1 qk_SetInsertPoint. qb H. q1 qk_brIfOpen. q1 qk_SetInsertPoint.
    cbn [sw_add app] in *. subst.
    match goal with |- pwp (bind ?m _) _ ?c => assert (K : pwp m (fun _ c' => QI c') c) end.
    { destruct (cases s) as [|z vals] eqn:E; [apply qk_setTerm; [intros _; exact I|auto]|].
      eapply pwp_use; [solve [pure_tac]|apply q_switchCases; auto|cbv beta; intros bs cz [Q EB]]. apply qk_setTerm; auto. intros b. cbn [switch_ok]. rewrite EB. auto. }
    eapply pwp_use; [solve [pure_tac]|exact K|cbv beta; intros ? ? ?]. q1 qk_SetInsertPoint. rq.
  - destruct sw as [[id vals]|]; [|apply pwp_err]. q1 qk_GetOrCreateLabel. q1 qk_brIfOpen. q1 qk_SetInsertPoint.
    eapply pwp_mono; [apply H; auto|]. cbv beta. intros swz cz [Q ->]. split; auto. cbn. rewrite <- app_assoc. auto.
  - q1 qk_GetOrCreateLabel. qt. q1 qk_nextLabelID. q1 qk_NewBlock. q1 qk_SetInsertPoint. rq.
  - q1 qk_GetOrCreateLabel. q1 qk_brIfOpen. q1 qk_SetInsertPoint. eapply pwp_mono; [apply H; auto|]. cbv beta. auto.
  - rq.
  - qb H. subst. eapply pwp_mono; [apply H0; auto|]. cbv beta. intros swz cz [Q ->]. split; auto. rewrite sw_add_app. auto.
Qed.

(** ** Functions and programs *)
Lemma qk_getOrCreateFunc n : (forall x, n <> globalName x) -> qk (getOrCreateFunc n).
Proof.
  intros HN c []. apply pwp_modify. destruct (find_named f_name n (c_mfuncs c)); [constructor; auto|]. constructor; auto.
  intros m f HI E. cbn in HI. apply in_app_or in HI. destruct HI as [HI|[<-|[]]]; [eauto|]. cbn in E. destruct (HN _ E).
Qed.
Lemma qk_va_params va l : qk (va_params va l).
Proof. induction l; cbn [va_params]; qk_tac. Qed.
Lemma va_name x : ("llvm.va_start" <> globalName x /\ "llvm.va_end" <> globalName x)%string.
Proof. unfold globalName. destruct (String.eqb_spec x "main") as [->|]; split; discriminate. Qed.
Lemma q_start name params c : c_functions c = [] -> QF c -> (WA -> params <> [] -> D name) -> pwp (start_of name params) (fun _ c1 => QI c1) c.
Proof.
  intros HF HQ HD. unfold start_of, DeclareFunction. apply pwp_bind; [pure_tac|]. apply pwp_bind; [auto with pure|]. apply pwp_modify. apply pwp_ret.
  unfold StartFunction. apply pwp_bind; [auto with pure|]. apply pwp_modify. apply pwp_bind; [auto with pure|]. apply pwp_get.
  cbv zeta. cbn [assoc c_fparams newFunc set_functions set_mfuncs set_fparams set_cur set_nreg set_locals set_labels set_builder set_blocks removeFuncByName].
  rewrite String.eqb_refl.
  match goal with |- pwp ?m _ ?c' => set (c1 := c'); assert (K : qk m) end.
  { destruct params as [|p [|q ps]]; [qk_tac..|].
    repeat (apply qk_bind; [solve [pure_tac]|first [apply qk_getOrCreateFunc; intros x; apply va_name|apply qk_va_params|solve [qk_tac]]|intros ?]).
    qk_tac. }
  apply K. subst c1. constructor.
  - intros m g HI E a. cbn in HI. apply in_app_or in HI. destruct HI as [HI|[<-|[]]].
    + apply (HQ m g); auto. eapply In_remove_named; eauto.
    + destruct params as [|p ps]; cbn in *; (split; [lia|]); [congruence|]. apply globalName_inj in E. subst. intros _. apply HD; [exact a|discriminate].
  - cbn. rewrite HF. constructor; [|constructor].
    destruct params as [|p ps]; cbn; intros a; (split; [lia|]); [congruence|]. intros _. apply HD; [exact a|discriminate].
  - intros _. constructor.
  - intros _. constructor.
Qed.
Lemma QF_store full bs c c' : c_mfuncs c' = store_blocks full bs (c_mfuncs c) -> QF c -> QF c'.
Proof.
  intros E HQ n f HI. rewrite E in HI.
  assert (K : exists g, In g (c_mfuncs c) /\ f_name g = f_name f /\ f_params g = f_params f).
  { clear E HQ. induction (c_mfuncs c) as [|g l IH]; cbn in HI; [destruct HI|]. destruct (String.eqb (f_name g) full).
    - destruct HI as [<-|HI]; [exists g; cbn; auto|]. exists f. cbn. auto.
    - destruct HI as [<-|HI]; [exists g; cbn; auto|]. destruct (IH HI) as (h & H1 & H2). exists h. cbn. auto. }
  destruct K as (g & K1 & K2 & K3). rewrite <- K2, <- K3. apply (HQ n g); auto.
Qed.
Definition okD (d : decl) : Prop :=
  match d with DFunction n ps b => (WA -> ps <> [] -> D n) /\ goodS b /\ args_in D b /\ (WB -> distinct_cases b) | _ => True end.
Lemma QF_genD chk d c : okD d -> DI [] c -> QF c -> pwp (genD chk d) (fun _ c' => QF c') c.
Proof.
  intros HO HDI HQ. destruct (is_function d) eqn:EF.
  - destruct d as [| |n ps b]; try discriminate. destruct HO as (H1 & H2 & H3 & H4).
    unfold genD. apply pwp_bind; [pure_tac|]. intros u c' Y.
    apply yields_bind_inv in Y; [|auto with pure]. destruct Y as (f & c1 & Y1 & Y).
    apply yields_bind_inv in Y; [|auto with pure]. destruct Y as ([] & c2 & Y2 & Y).
    apply yields_bind_inv in Y; [|auto with pure]. destruct Y as (sw & c3 & Y3 & Y).
    pose proof (yields_bind _ _ _ _ _ _ _ Y1 Y2) as YS.
    pose proof (q_start n ps c (DI_functions _ _ HDI) HQ H1 _ _ YS) as Q2. cbv beta in Q2.
    destruct (start_shape n ps c _ _ YS) as (_ & C1).
    destruct (proj1 (q_genS_all chk) b H2 H3 H4 None _ Q2 _ _ Y3) as [Q3 _].
    pose proof (Msteps.MS_genS chk b None c2 _ _ Y3) as S. cbv beta in S.
    assert (C3 : c_cur c3 = Some (globalName n)) by (rewrite (msteps_cur _ _ S); auto).
    pose proof (EndFunction_shape _ _ C3 _ _ Y) as E. cbv beta in E.
    apply pwp_clear. eapply QF_store; [|apply Q3]. exact E.
  - eapply pwp_mono; [apply variable_shape; auto|]. cbv beta. intros u c' E. unfold QF in *. rewrite E. auto.
Qed.
(** As [genP_from], keeping the invariant. *)
Lemma genP_calls chk : forall ds c, Forall okD ds -> DI [] c -> QF c ->
  (forall f, In f (c_mfuncs c) -> (WA -> Forall call_ok (all_insts (f_blocks f))) /\ (WB -> Forall switch_ok (flat_map block_terms (f_blocks f)))) ->
  pwp (genP chk ds) (fun _ c' => forall f, In f (c_mfuncs c') -> (WA -> Forall call_ok (all_insts (f_blocks f))) /\ (WB -> Forall switch_ok (flat_map block_terms (f_blocks f)))) c.
Proof.
  induction ds as [|d ds IH]; intros c HO HDI HQ HM; cbn [genP]; [apply pwp_ret; auto|]. inversion HO; subst.
  eapply (pwp_use _ _ (fun _ c1 => (DI [] c1 /\ QF c1) /\ (forall f, In f (c_mfuncs c1) -> (WA -> Forall call_ok (all_insts (f_blocks f))) /\ (WB -> Forall switch_ok (flat_map block_terms (f_blocks f)))))); [auto with pure| |].
  - apply pwp_and; [apply pwp_and; [apply DI_genD; auto|apply QF_genD; auto]|].
    destruct (is_function d) eqn:EF.
    + destruct d as [| |n ps b]; try discriminate. destruct H1 as (H1 & H3 & H4 & H5).
      eapply pwp_mono; [apply function_shape; auto|]. cbv beta. intros u c' (c1 & c2 & l & (_ & YS & sw & YB) & HL & E) f Hf. rewrite E in Hf.
      apply in_app_or in Hf. destruct Hf as [Hf|[<-|Hf]].
      * apply HM. eapply In_remove_named; eauto.
      * pose proof (q_start n ps c (DI_functions _ _ HDI) HQ H1 _ _ YS) as Q2. cbv beta in Q2.
        destruct (proj1 (q_genS_all chk) b H3 H4 H5 None _ Q2 _ _ YB) as [Q3 _].
        replace (f_blocks (declared n ps (finished c2))) with (finished c2) by (destruct ps; auto).
        unfold finished. destruct (nth_error _ _) as [bb|]; [|split; apply Q3]. destruct (b_term bb); [split; apply Q3|].
        assert (K : pwp (setTerm (TRet (VInt 0))) (fun _ c' => QI c') c2) by (apply qk_setTerm; [intros _; exact I|auto]).
        assert (K2 : QI (set_blocks (upd (c_builder c2) (put_term (TRet (VInt 0))) (c_blocks c2)) c2)) by (apply (K tt); intros ?; reflexivity).
        split; apply K2.
      * rewrite Forall_forall in HL. rewrite (HL f Hf). split; intros _; constructor.
    + eapply pwp_mono; [apply variable_shape; auto|]. cbv beta. intros u c' ->. auto.
  - cbv beta. intros u c1 [[K1 K2] K3]. apply IH; auto.
Qed.
End D.
Theorem generate_calls chk ds m f : goodP ds -> generate chk ds = Ok m tt -> In f (m_funcs m) ->
  (forall n ps b, In (DFunction n ps b) ds -> args_in (with_params ds) b) ->
  Forall call_ok (all_insts (f_blocks f)).
Proof.
  intros HP HG HF HC. apply generate_yields in HG. destruct HG as (c & Y & ->).
  assert (HO : Forall (okD True False (with_params ds)) ds).
  { rewrite Forall_forall. intros [| |n ps b] HI; cbn; auto. unfold goodP in HP. rewrite Forall_forall in HP. destruct (HP _ HI) as (_ & _ & GB).
    split; [|split; [auto|split; [eauto|intros []]]]. intros _ NE. exists ps, b. auto. }
  assert (Q : QF True (with_params ds) NewCompiler) by (intros ? ? []).
  refine (proj1 (genP_calls True False (with_params ds) chk ds _ HO DI_new Q _ _ _ Y f HF) I). intros ? [].
Qed.
Lemma enough_none : (forall e, enough_args (fun _ => False) e) /\ (forall l, enough_argss (fun _ => False) l).
Proof.
  apply expr_exprs_ind; cbn [enough_args enough_argss]; auto. intros f HF args HA. split; auto. destruct f; auto. destruct args; auto.
Qed.
Lemma args_none : (forall s, args_in (fun _ => False) s) /\ (forall l, args_inL (fun _ => False) l).
Proof.
  destruct enough_none as [X _]. apply stmt_stmts_ind; cbn [args_in args_inL]; auto. intros [e|]; auto.
Qed.
Theorem generate_switches chk ds m f : goodP ds -> generate chk ds = Ok m tt -> In f (m_funcs m) ->
  (forall n ps b, In (DFunction n ps b) ds -> distinct_cases b) ->
  Forall switch_ok (flat_map block_terms (f_blocks f)).
Proof.
  intros HP HG HF HC. apply generate_yields in HG. destruct HG as (c & Y & ->).
  assert (HO : Forall (okD False True (fun _ => False)) ds).
  { rewrite Forall_forall. intros [| |n ps b] HI; cbn; auto. unfold goodP in HP. rewrite Forall_forall in HP. destruct (HP _ HI) as (_ & _ & GB).
    split; [intros []|]. split; [auto|]. split; [apply args_none|eauto]. }
  assert (Q : QF False (fun _ => False) NewCompiler) by (intros ? ? []).
  refine (proj2 (genP_calls False True (fun _ => False) chk ds _ HO DI_new Q _ _ _ Y f HF) I). intros ? [].
Qed.

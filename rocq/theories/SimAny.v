(** * SimAny: one function inside a program whose other functions may be anything *)
From Coq Require Import List Ascii String ZArith Bool Lia.
From Verif Require Import Base Lexer IR Builder Expr Stmt Decl Wp Syntax Pure ParseGen Pwp InvIR Msteps InvDecl Names InvNames Built SpecTree InvTerm InvSym SpecSem IRSem SemFacts SpecLink SimBase SimExpr SimStmt SimAuto SimBody SimFun.
Import ListNotations.
Open Scope Z_scope.

(** ** Literals are numbered in the order of the text *)
Definition sid {A} (n : Z) (m : C A) : Prop := forall c, pwp m (fun _ c' => c_stringID c' = c_stringID c + n) c.
Lemma sid_bind {A B} n1 n (m : C A) (f : A -> C B) : pure m -> sid n1 m -> (forall a, sid (n - n1) (f a)) -> sid n (bind m f).
Proof.
  intros P H1 H2 c. eapply pwp_use; [auto|apply H1|]. cbv beta. intros a c' E.
  eapply pwp_mono; [apply H2|]. cbv beta. intros. lia.
Qed.
Lemma sid_eq {A} n n' (m : C A) : sid n m -> n = n' -> sid n' m. Proof. intros K <-. exact K. Qed.
Lemma sid_modify f : (forall c, c_stringID (f c) = c_stringID c) -> sid 0 (modify f).
Proof. intros K c. apply pwp_modify. rewrite K. lia. Qed.
Lemma sid_ret {A} (a : A) : sid 0 (ret a). Proof. intros c. apply pwp_ret. lia. Qed.
Lemma sid_err {A} n e : sid n (@errorf st A e). Proof. intros c. apply pwp_err. Qed.
Lemma sid_get : sid 0 get. Proof. intros c. apply pwp_get. lia. Qed.
Lemma sid_sameG {A} (m : C A) : sameG m -> sid 0 m.
Proof. intros K c. eapply pwp_mono; [apply K|]. cbv beta. intros a c' [_ E]. lia. Qed.
Lemma sid_emit i : sid 0 (emit i). Proof. apply sid_sameG, sameG_emit. Qed.
Lemma sid_setTerm i : sid 0 (setTerm i). Proof. apply sid_sameG, sameG_setTerm. Qed.
Lemma sid_emitR i : sid 0 (emitR i). Proof. apply sid_sameG, sameG_emitR. Qed.
Lemma sid_bind_local x v : sid 0 (bind_local x v). Proof. apply sid_sameG, sameG_bind_local. Qed.
Lemma sid_termIsNil : sid 0 termIsNil. Proof. apply sid_sameG, sameG_termIsNil. Qed.
Lemma sid_NewBlock i : sid 0 (NewBlock i). Proof. apply sid_sameG, sameG_NewBlock. Qed.
Lemma sid_nextLabelID : sid 0 nextLabelID. Proof. apply sid_sameG, sameG_nextLabelID. Qed.
Lemma sid_SetInsertPoint b : sid 0 (SetInsertPoint b). Proof. apply sid_sameG, sameG_SetInsertPoint. Qed.
Lemma sid_GetInsertBlock : sid 0 GetInsertBlock. Proof. apply sid_sameG, sameG_GetInsertBlock. Qed.
Create HintDb sid.
#[export] Hint Resolve sid_ret sid_err sid_get sid_emit sid_setTerm sid_emitR sid_bind_local sid_termIsNil sid_NewBlock sid_nextLabelID
  sid_SetInsertPoint sid_GetInsertBlock : sid.
Ltac sid_tac :=
  repeat (first
    [ solve [eauto with sid nocore]
    | solve [eapply sid_eq; [solve [eauto with sid nocore]|lia]]
    | match goal with K : forall _, _ |- sid _ _ => solve [apply K | eapply sid_eq; [apply K|lia]] end
    | match goal with K : forall _, _ |- sid _ (bind _ _) => eapply sid_bind; [solve [pure_tac]|apply K|intros ?] end
    | eapply sid_bind; [solve [pure_tac]|solve [eauto with sid nocore]|intros ?]
    | solve [eapply sid_eq; [apply sid_modify; reflexivity|lia]]
    | eapply sid_bind; [solve [pure_tac]|solve [apply sid_modify; reflexivity]|intros ?]
    | match goal with
      | |- sid _ (let _ := _ in _) => cbv zeta
      | |- sid _ (if ?x then _ else _) => destruct x
      | |- sid _ (match ?x with _ => _ end) => destruct x
      end ]).
Lemma sid_rval v l : sid 0 (rval v l). Proof. unfold rval. sid_tac. Qed.
Lemma sid_cmpz p a b : sid 0 (cmpz p a b). Proof. unfold cmpz. sid_tac. Qed.
#[export] Hint Resolve sid_rval sid_cmpz : sid.
Lemma sid_applyCop o a b : sid 0 (applyCop o a b). Proof. unfold applyCop. sid_tac. Qed.
Lemma sid_incDec o a : sid 0 (incDec o a). Proof. unfold incDec. sid_tac. Qed.
Lemma sid_doCall f l : sid 0 (doCall f l). Proof. unfold doCall. sid_tac. Qed.
Lemma sid_GetAddress x : sid 0 (GetAddress x). Proof. unfold GetAddress. sid_tac. Qed.
Lemma sid_GetOrDeclareFunction x : sid 0 (GetOrDeclareFunction x). Proof. unfold GetOrDeclareFunction. sid_tac. Qed.
Lemma sid_GetOrCreateLabel x : sid 0 (GetOrCreateLabel x). Proof. unfold GetOrCreateLabel. sid_tac. Qed.
Lemma sid_brIfOpen b : sid 0 (brIfOpen b). Proof. unfold brIfOpen. sid_tac. Qed.
Lemma sid_string s : sid 1 (CreateStringConstant s).
Proof. unfold CreateStringConstant. eapply sid_bind; [pure_tac|apply sid_get|intros c]. cbv zeta. eapply (sid_bind 1); [pure_tac|intros c'; apply pwp_modify; reflexivity|]. intros []. eapply sid_eq; [apply sid_ret|lia]. Qed.
#[export] Hint Resolve sid_applyCop sid_incDec sid_doCall sid_GetAddress sid_GetOrDeclareFunction sid_GetOrCreateLabel sid_brIfOpen sid_string : sid.
Lemma sid_genVar q x : sid 0 (genVar q x). Proof. unfold genVar. sid_tac. Qed.
Lemma sid_genCallee x : sid 0 (genCallee x). Proof. unfold genCallee. sid_tac. Qed.
Lemma sid_checkAutos l : forall seen, sid 0 (checkAutos seen l). Proof. induction l as [|[x n] l IH]; intros seen; cbn [checkAutos]; sid_tac. Qed.
Lemma sid_DeclareLocal x : sid 0 (DeclareLocal x). Proof. unfold DeclareLocal. sid_tac. Qed.
Lemma sid_DeclareLocalArray x n : sid 0 (DeclareLocalArray x n). Proof. unfold DeclareLocalArray. sid_tac. Qed.
#[export] Hint Resolve sid_genVar sid_genCallee sid_checkAutos sid_DeclareLocal sid_DeclareLocalArray : sid.
Lemma sid_declareAutos l : sid 0 (declareAutos l).
Proof. induction l as [|[x n] l IH]; cbn [declareAutos]; [sid_tac|]. eapply (sid_bind 0); [pure_tac|destruct (n =? -1); sid_tac|]. intros. eapply sid_eq; [apply IH|lia]. Qed.
Lemma sid_externName x : sid 0 (externName x). Proof. unfold externName. sid_tac. Qed.
#[export] Hint Resolve sid_declareAutos sid_externName : sid.
Lemma sid_genExtrn l : sid 0 (genExtrn l).
Proof. induction l as [|x l IH]; cbn [genExtrn]; [sid_tac|]. eapply (sid_bind 0); [pure_tac|sid_tac|]. intros. eapply sid_eq; [apply IH|lia]. Qed.
Lemma sid_switchCases i l : sid 0 (switchCases i l).
Proof. induction l as [|x l IH]; cbn [switchCases]; [sid_tac|]. eapply (sid_bind 0); [pure_tac|sid_tac|]. intros. eapply (sid_bind 0); [pure_tac|apply IH|]. sid_tac. Qed.
#[export] Hint Resolve sid_genExtrn sid_switchCases : sid.

Lemma sid_gen chk : (forall e q, sid (lits e) (gen chk q e)) /\ (forall l, sid (litsA l) (genArgs chk l)).
Proof.
  apply expr_exprs_ind; intros; ugen; cbn [lits litsA]; try sid_tac.
Qed.
Lemma sid_genR chk q e : sid (lits e) (genR chk q e).
Proof. unfold genR. eapply sid_bind; [pure_tac|apply sid_gen|]. intros [v l]. eapply sid_eq; [apply sid_rval|lia]. Qed.
#[export] Hint Resolve sid_genR : sid.
Lemma sid_genS chk : (forall s sw, sid (litsS s) (genS chk s sw)) /\ (forall l sw, sid (litsL l) (genL chk l sw)).
Proof.
  apply stmt_stmts_ind; intros; ugenS; cbn [litsS litsL]; try sid_tac.
  eapply (sid_bind 0); [pure_tac| |intros ?; sid_tac]. sid_tac.
Qed.

(** ** Names are kept *)
Lemma mstep_names c c' : mstep c c' -> incl (gnames c) (gnames c') /\ incl (fnames c) (fnames c').
Proof.
  destruct 1 as [c' S|str|name g E|name E1 E2 E3|name E1 E2 E3]; unfold gnames, fnames.
  - destruct S as (E1 & E2 & _). rewrite E1, E2. split; apply incl_refl.
  - cbn. split; [|apply incl_refl]. rewrite map_app. apply incl_appl, incl_refl.
  - cbn. split; apply incl_refl.
  - cbn. split; [|apply incl_refl]. rewrite map_app. apply incl_appl, incl_refl.
  - cbn. split; [apply incl_refl|]. rewrite map_app. intros y Hy.
    apply (remove_named_incl f_name (globalName name)) in Hy. rewrite in_app_iff. cbn. destruct Hy as [<-|Hy]; auto.
Qed.
Lemma msteps_names c c' : msteps c c' -> incl (gnames c) (gnames c') /\ incl (fnames c) (fnames c').
Proof.
  induction 1 as [|a b c S _ [I1 I2]]; [split; apply incl_refl|]. apply mstep_names in S. destruct S. split; eapply incl_tran; eauto.
Qed.
Lemma genD_any chk d c : DI [] c -> pwp (genD chk d) (fun _ c' =>
  c_stringID c' = c_stringID c + litsD d /\ incl (gnames c) (gnames c') /\ incl (fnames c) (fnames c')) c.
Proof.
  intros HD. destruct (is_function d) eqn:F.
  - destruct d as [| |n ps b]; try discriminate. eapply pwp_mono; [apply function_end; auto|]. cbv beta.
    intros u c' (c1 & c2 & l & (_ & YS & sw & YG) & E & F2 & G2 & D2).
    destruct (start_shape n ps c _ _ YS) as ((l1 & E1 & _) & _).
    destruct (sameG_start n ps c _ _ YS) as [B1 B2].
    pose proof (MS_genS chk b None c1 _ _ YG) as S. cbv beta in S. apply msteps_names in S. destruct S as [S1 S2].
    pose proof (proj1 (sid_genS chk) b None c1 _ _ YG) as S3. cbv beta in S3.
    rewrite F2, G2, D2. cbn [litsD]. split; [lia|]. split; [eapply incl_tran; [|exact S1]|eapply incl_tran; [|exact S2]].
    + unfold gnames. rewrite B1. apply incl_refl.
    + unfold fnames. rewrite E1, !map_app. intros y Hy. apply (remove_named_incl f_name (globalName n)) in Hy.
      rewrite !in_app_iff. destruct Hy as [<-|Hy]; auto. left. right. cbn. destruct ps; auto.
  - eapply pwp_mono; [apply pwp_and; [apply (sid_variable chk d c F)|apply pwp_and; [apply (names_variable chk d c F)|apply (variable_shape chk d c F)]]|].
    cbv beta. intros u c' (A1 & A2 & A3). split; auto. split; auto. unfold fnames. rewrite A3. apply incl_refl.
Qed.
Lemma genP_any chk : forall ds c, DI [] c -> pwp (genP chk ds) (fun _ c' =>
  c_stringID c' = c_stringID c + literals ds /\ incl (gnames c) (gnames c') /\ incl (fnames c) (fnames c')) c.
Proof.
  induction ds as [|d ds IH]; intros c HD.
  - cbn [genP]. apply pwp_ret. cbn. split; [lia|]. split; apply incl_refl.
  - rewrite genP_step.
    eapply pwp_use; [auto with pure|apply pwp_and; [apply (DI_genD chk d); auto|apply (genD_any chk d c); auto]|].
    cbv beta. intros u c1 (D1 & A1 & A2 & A3). eapply pwp_mono; [apply IH; auto|]. cbv beta. intros u2 c2 (B1 & B2 & B3).
    cbn [literals fold_right]. fold (literals ds). split; [lia|]. split; eapply incl_tran; eauto.
Qed.

(** ** A function of a program *)
Section One.
Context {W : Type}.
Variable H : host W.
Variable I : ihost W.
Variable M : module_.
Hypothesis LK : linked H I M.
Variable chk locals : bool.
Variable ds : list decl.
Hypothesis GEN : generate chk ds = Ok M tt.
Hypothesis WF : wfP ds.
Hypothesis SEP : separate M.
Variable call : string -> list Z -> act W Z.
Variable Nb : nat.
Hypothesis CALL : forall x args m w,
  match call x args m w with
  | Val z m' w' => icall I M (globalName x) args m w (XRet z m' w')
  | Halt z w' => icall I M (globalName x) args m w (XExit z w')
  | Stuck => True
  | Limit => busy I M Nb (globalName x) args m w
  end.
Theorem one_ok x ps body k n args m w : (Nb <= n)%nat -> defined 0 ds x None = Some (ps, body, k) -> regular locals ps body ->
  match invoke H locals call n n ps body k args m w with
  | Val z m' w' => icall I M (globalName x) args m w (XRet z m' w')
  | Halt z w' => icall I M (globalName x) args m w (XExit z w')
  | Stuck => True
  | Limit => busy I M (S Nb) (globalName x) args m w
  end.
Proof.
  intros HL ED R3.
  apply defined_split in ED. destruct ED as [[K _]|(bf & af & E & Ek & NA)]; [discriminate|].
  pose proof GEN as Y. apply generate_yields in Y. destruct Y as (cf & Y & EM). rewrite E in Y.
  pose proof WF as WF'. unfold wfP in WF'. rewrite E in WF'. apply Forall_app in WF'. destruct WF' as [W1 W2]. apply Forall_cons_iff in W2. destruct W2 as [W3 W4].
  pose proof (DI_genP chk _ _ DI_new _ _ Y) as DF. cbv beta in DF.
  apply genP_app in Y. destruct Y as (c & Y1 & Y2). rewrite genP_step in Y2. apply yields_bind_inv in Y2; [|auto with pure].
  destruct Y2 as (u & c' & Y2 & Y3). pose proof (DI_genP chk bf _ DI_new _ _ Y1) as D. cbv beta in D.
  pose proof (DI_genD chk _ _ D _ _ Y2) as D'. cbv beta in D'.
  destruct (function_end chk x ps body c D _ _ Y2) as (c1 & c2 & l & K & EF & F2 & G2 & D2).
  destruct (genP_any chk bf _ DI_new _ _ Y1) as (S1 & _). change (c_stringID NewCompiler) with 0 in S1.
  destruct (genP_any chk af _ D' _ _ Y3) as (_ & S2 & S3). rewrite G2 in S2. rewrite F2 in S3.
  rewrite Ek, <- S1.
  assert (N : f_name (declared x ps (finished c2)) = globalName x) by (destruct ps; reflexivity).
  refine (invoke_ok H I _ locals call Nb LK CALL chk c x ps body c1 c2 n args m w HL K _ R3 _ _).
  + apply W3.
  + split.
    * intros y A B. apply (SEP y); rewrite EM; [apply S2, A|apply S3, B].
    * intros y A. apply S3 in A. apply in_map_iff in A. destruct A as (f & A1 & A2). rewrite <- A1. eapply (lk_self _ _ _ LK); eauto. rewrite EM. exact A2.
  + rewrite EM. apply definition_one; auto.
    * exact (DI_nodup _ _ DF).
    * refine (genP_keeps_fun chk af _ x N _ c' D' _ _ _ Y3).
      -- intros d Hd. destruct d as [| |n' ps' b']; auto. right. cbn. intros ->. exact (NA _ _ Hd).
      -- rewrite EF. apply in_or_app. right. left. reflexivity.
    * destruct (function_ok H I _ locals (fun _ _ => stuck) 0 LK (fun _ _ _ _ => Logic.I) chk c x ps body c1 c2 0 (le_n 0) K) as (_ & _ & _ & B & _); [apply W3|exact R3|].
      destruct ps; exact B.
Qed.
End One.

(** * Static: the generator accepts exactly the programs of SpecStatic *)
From Coq Require Import List Ascii String ZArith NArith Lia Bool.
From Verif Require Import Base Lexer IR Builder Expr Stmt Decl Wp Syntax Pure ParseGen Pwp Names InvIR Msteps InvDecl SpecStatic.
Import ListNotations.
Open Scope string_scope.
Open Scope list_scope.
Open Scope Z_scope.
Open Scope m_scope.

(** ** Outcomes *)
Definition fails {A} (m : C A) (c : cstate) : Prop := forall l, exists e, m (mkSt l c) = Err e.
(** [m] succeeds in [c] with [Q] if [b], and fails otherwise. *)
Definition out {A} (m : C A) (b : bool) (Q : A -> cstate -> Prop) (c : cstate) : Prop :=
  if b then exists a c', yields m c a c' /\ Q a c' else fails m c.
Lemma out_bind {A B} (m : C A) (f : A -> C B) b1 b2 P Q c :
  out m b1 P c -> (forall a c', P a c' -> out (f a) b2 Q c') -> out (bind m f) (b1 && b2) Q c.
Proof.
  destruct b1; cbn.
  - intros (a & c1 & Y & HP) H. specialize (H a c1 HP). destruct b2; cbn in *.
    + destruct H as (b & c2 & Y2 & HQ). exists b, c2. split; auto. eapply yields_bind; eauto.
    + intros l. unfold bind. rewrite (Y l). apply H.
  - intros H _ l. destruct (H l) as (e & E). exists e. unfold bind. rewrite E. auto.
Qed.
Lemma out_mono {A} (m : C A) b (P Q : A -> cstate -> Prop) c : out m b P c -> (forall a c', P a c' -> Q a c') -> out m b Q c.
Proof. destruct b; cbn; auto. intros (a & c' & Y & H) K. eauto. Qed.
Lemma out_eq {A} (m : C A) b b' Q c : out m b Q c -> b = b' -> out m b' Q c.
Proof. intros H <-. auto. Qed.
Lemma out_ret {A} (a : A) (Q : A -> cstate -> Prop) c : Q a c -> out (ret a) true Q c.
Proof. intros H. exists a, c. split; auto using yields_ret. Qed.
Lemma out_err {A} e (Q : A -> cstate -> Prop) c : out (errorf e) false Q c.
Proof. intros l. eexists. reflexivity. Qed.
Lemma out_get (Q : cstate -> cstate -> Prop) c : Q c c -> out get true Q c.
Proof. intros H. exists c, c. split; auto. intros l. reflexivity. Qed.
Lemma out_modify f (Q : unit -> cstate -> Prop) c : Q tt (f c) -> out (modify f) true Q c.
Proof. intros H. exists tt, (f c). split; auto. intros l. reflexivity. Qed.

(** ** What the rules depend on *)
Record Req (c c' : cstate) : Prop := {
  Q_locals : c_locals c' = c_locals c;
  Q_globals : c_globals c' = c_globals c;
  Q_mfuncs : fnames c' = fnames c;
  Q_functions : c_functions c' = c_functions c;
  Q_used : c_used c' = c_used c;
  Q_gnames : forall x, In (globalName x) (gnames c') <-> In (globalName x) (gnames c)
}.
Lemma Req_refl c : Req c c. Proof. constructor; auto. intros; tauto. Qed.
Lemma Req_trans a b c : Req a b -> Req b c -> Req a c.
Proof. intros [] []. constructor; try congruence. intros x. rewrite Q_gnames1. auto. Qed.
Definition quiet {A} (m : C A) : Prop := forall c, out m true (fun _ c' => Req c c') c.
Lemma quiet_bind {A B} (m : C A) (f : A -> C B) : quiet m -> (forall a, quiet (f a)) -> quiet (bind m f).
Proof.
  intros H1 H2 c. change true with (true && true). eapply out_bind; [apply H1|]. cbv beta. intros a c' K.
  eapply out_mono; [apply H2|]. cbv beta. intros b c2 K2. eapply Req_trans; eauto.
Qed.
Lemma quiet_ret {A} (a : A) : quiet (ret a). Proof. intros c. apply out_ret, Req_refl. Qed.
Lemma quiet_get : quiet get. Proof. intros c. apply out_get, Req_refl. Qed.
Lemma quiet_modify f : (forall c, Req c (f c)) -> quiet (modify f). Proof. intros H c. apply out_modify, H. Qed.
Ltac req := constructor; auto; intros; tauto.
Lemma quiet_emit i : quiet (emit i). Proof. apply quiet_modify. intros. req. Qed.
Lemma quiet_setTerm i : quiet (setTerm i). Proof. apply quiet_modify. intros. req. Qed.
Lemma quiet_fresh : quiet fresh. Proof. intros c. exists (c_nreg c), (set_nreg (S (c_nreg c)) c). split; [intros l; reflexivity|req]. Qed.
Lemma quiet_emitR mk : quiet (emitR mk).
Proof. unfold emitR. repeat (apply quiet_bind; [auto using quiet_fresh, quiet_emit|intros]). apply quiet_ret. Qed.
Lemma quiet_NewBlock n : quiet (NewBlock n). Proof. intros c. exists (List.length (c_blocks c)), (set_blocks (c_blocks c ++ [mkBlock n [] None]) c). split; [intros l; reflexivity|req]. Qed.
Lemma quiet_nextLabelID : quiet nextLabelID. Proof. intros c. exists (c_labelID c), (set_labelID (c_labelID c + 1) c). split; [intros l; reflexivity|req]. Qed.
Lemma quiet_SetInsertPoint b : quiet (SetInsertPoint b). Proof. apply quiet_modify. intros. req. Qed.
Create HintDb quiet.
#[export] Hint Resolve quiet_ret quiet_get quiet_emit quiet_setTerm quiet_emitR quiet_NewBlock quiet_nextLabelID quiet_SetInsertPoint : quiet.
Ltac quiet_tac :=
  repeat (first
    [ solve [auto with quiet nocore]
    | assumption
    | match goal with H : forall _, _ |- quiet _ => solve [apply H] end
    | apply quiet_bind; [|intros ?]
    | match goal with
      | |- quiet (let _ := _ in _) => cbv zeta
      | |- quiet (if ?x then _ else _) => destruct x
      | |- quiet (match ?x with _ => _ end) => destruct x
      end ]).
Lemma quiet_GetInsertBlock : quiet GetInsertBlock. Proof. unfold GetInsertBlock. quiet_tac. Qed.
Lemma quiet_rval v b : quiet (rval v b). Proof. unfold rval. quiet_tac. Qed.
Lemma quiet_cmpz p a b : quiet (cmpz p a b). Proof. unfold cmpz. quiet_tac. Qed.
#[export] Hint Resolve quiet_GetInsertBlock quiet_rval quiet_cmpz : quiet.
Lemma quiet_applyCop o a b : quiet (applyCop o a b). Proof. destruct o; cbn [applyCop]; quiet_tac. Qed.
Lemma quiet_doCall f a : quiet (doCall f a). Proof. unfold doCall. quiet_tac. Qed.
Lemma quiet_incDec o p : quiet (incDec o p). Proof. unfold incDec. quiet_tac. Qed.
Lemma quiet_termIsNil : quiet termIsNil. Proof. unfold termIsNil. quiet_tac. Qed.
#[export] Hint Resolve quiet_applyCop quiet_doCall quiet_incDec quiet_termIsNil : quiet.
Lemma quiet_brIfOpen b : quiet (brIfOpen b). Proof. unfold brIfOpen. quiet_tac. Qed.
Lemma quiet_GetOrCreateLabel n : quiet (GetOrCreateLabel n).
Proof. unfold GetOrCreateLabel. quiet_tac. apply quiet_modify. intros. req. Qed.
#[export] Hint Resolve quiet_brIfOpen quiet_GetOrCreateLabel : quiet.
Lemma quiet_switchCases id l : quiet (switchCases id l).
Proof. induction l as [|z l IH]; cbn [switchCases]; quiet_tac. Qed.
Lemma globalName_str x k : globalName x <> (".str." ++ k)%string.
Proof. unfold globalName. destruct (String.eqb_spec x "main") as [->|]; discriminate. Qed.
Lemma quiet_CreateStringConstant s : quiet (CreateStringConstant s).
Proof.
  unfold CreateStringConstant. intros c. apply (out_bind _ _ true true (fun a c' => a = c /\ c' = c)).
  { exists c, c. split; auto. intros l. reflexivity. }
  intros c1 c' [-> ->]. apply (out_bind _ _ true true (fun _ c' => Req c c')).
  - apply out_modify. constructor; auto. intros x. unfold gnames. cbn. rewrite map_app, in_app_iff. cbn.
    split; auto. intros [|[K|[]]]; auto. destruct (globalName_str x (dec (c_stringID c))). cbn. auto.
  - intros. apply out_ret. auto.
Qed.
#[export] Hint Resolve quiet_switchCases quiet_CreateStringConstant : quiet.

(** ** The environment of a state *)
Record R (v : senv) (c : cstate) : Prop := {
  R_locs : s_locs v = map fst (c_locals c);
  R_exts : s_exts v = map fst (c_globals c);
  R_funs : forall x, In x (s_funs v) <-> In (globalName x) (fnames c);
  R_globs : forall x, nodot x -> (In x (s_globs v) <-> In (globalName x) (gnames c));
  R_tab : forall x f, assoc x (c_functions c) = Some f -> In (globalName x) (fnames c);
  R_used : forall x, In x (c_used c) -> In (globalName x) (fnames c)
}.
Lemma R_req v c c' : Req c c' -> R v c -> R v c'.
Proof.
  intros [] []. constructor; rewrite ?Q_locals0, ?Q_globals0, ?Q_mfuncs0, ?Q_functions0, ?Q_used0; auto.
  intros x N. rewrite Q_gnames0. auto.
Qed.
Lemma quiet_R {A} (m : C A) v c : quiet m -> R v c -> out m true (fun _ c' => R v c') c.
Proof. intros H K. eapply out_mono; [apply H|]. cbv beta. intros. eapply R_req; eauto. Qed.

Lemma isin_In x l : isin x l = true <-> In x l.
Proof. unfold isin. rewrite existsb_exists. split; [intros (y & H & E); apply String.eqb_eq in E; subst; auto|]. intros H. exists x. split; auto. apply String.eqb_refl. Qed.
Lemma isin_false x l : isin x l = false <-> ~ In x l.
Proof. rewrite <- isin_In. destruct (isin x l); split; congruence || tauto. Qed.
Lemma mem_isin x l : mem x l = isin x l. Proof. reflexivity. Qed.
Lemma assoc_keys {A} x (l : list (string * A)) : assoc x l <> None <-> In x (map fst l).
Proof.
  induction l as [|[k a] l IH]; cbn; [tauto|]. destruct (String.eqb_spec x k) as [->|N].
  - split; auto; discriminate.
  - rewrite IH. intuition.
Qed.
Lemma globalName_inj x y : globalName x = globalName y -> x = y.
Proof.
  unfold globalName. destruct (String.eqb_spec x "main"), (String.eqb_spec y "main"); subst; auto; try discriminate.
  intros H. injection H. auto.
Qed.
Lemma findFunc_In c x : findFuncByName c x <> None <-> In (globalName x) (fnames c).
Proof.
  unfold findFuncByName, fnames. destruct (find_named f_name (globalName x) (c_mfuncs c)) eqn:E.
  - split; [|discriminate]. intros _. destruct (in_dec string_dec (globalName x) (map f_name (c_mfuncs c))); auto.
    apply find_named_none in n. congruence.
  - apply find_named_none in E. split; [congruence|contradiction].
Qed.
Lemma findGlobal_In c x : findGlobalByName c x <> None <-> In (globalName x) (gnames c).
Proof.
  unfold findGlobalByName, gnames. destruct (find_named g_name (globalName x) (c_mglobals c)) eqn:E.
  - split; [|discriminate]. intros _. destruct (in_dec string_dec (globalName x) (map g_name (c_mglobals c))); auto.
    apply find_named_none in n. congruence.
  - apply find_named_none in E. split; [congruence|contradiction].
Qed.

(** ** Expressions *)
Definition addF (fs : list string) (v : senv) : senv := mkEnv (s_locs v) (s_exts v) (fs ++ s_funs v) (s_globs v).
Lemma R_set v v' c : R v c -> s_locs v' = s_locs v -> s_exts v' = s_exts v ->
  (forall x, In x (s_funs v') <-> In x (s_funs v)) -> (forall x, In x (s_globs v') <-> In x (s_globs v)) -> R v' c.
Proof.
  intros [] E1 E2 E3 E4. constructor; auto; try congruence.
  - intros x. rewrite E3. auto.
  - intros x N. rewrite E4. auto.
Qed.
Lemma R_addnil v c : R v c -> R (addF [] v) c.
Proof. intros H. eapply R_set; eauto; cbn; tauto. Qed.
Lemma R_addin x v c : R v c -> In (globalName x) (fnames c) -> R (addF [x] v) c.
Proof.
  intros H K. eapply R_set; eauto; cbn; try tauto. intros y. split; auto. intros [<-|]; auto. apply (R_funs _ _ H). auto.
Qed.
Lemma R_add2 f1 f2 v c : R (addF f2 (addF f1 v)) c -> R (addF (f1 ++ f2) v) c.
Proof.
  intros H. eapply R_set; eauto; try (cbn; tauto). intros y. unfold addF; cbn [s_funs]. rewrite !in_app_iff. tauto.
Qed.
Lemma R_declare v c x f fv : R v c -> ~ In (globalName x) (fnames c) -> f_name f = globalName x ->
  R (addF [x] v) (set_used (x :: c_used c) (set_functions ((x, fv) :: c_functions c) (newFunc f (removeFuncByName x c)))).
Proof.
  intros [] N E.
  assert (EF : c_mfuncs (newFunc f (removeFuncByName x c)) = c_mfuncs c ++ [f]).
  { cbn. rewrite remove_named_none; auto. apply find_named_none. auto. }
  assert (EN : forall y, In y (map f_name (c_mfuncs c ++ [f])) <-> y = globalName x \/ In y (fnames c)).
  { intros y. rewrite map_app, in_app_iff. cbn. rewrite E. unfold fnames. intuition. }
  constructor; cbn [s_locs s_exts s_funs s_globs addF]; auto; unfold fnames; cbn [c_mfuncs set_used set_functions c_functions c_used]; rewrite EF.
  - intros y. rewrite EN. cbn. rewrite <- R_funs0. split; [intros [->|]; auto|]. intros [K|]; auto. apply globalName_inj in K. auto.
  - intros y g. rewrite EN. cbn [assoc]. destruct (String.eqb_spec y x) as [->|]; auto. intros K. right. eauto.
  - intros y. rewrite EN. intros [->|]; auto.
Qed.
Lemma out_quiet {A B} (m : C A) (f : A -> C B) v b Q c : quiet m -> R v c ->
  (forall a c', R v c' -> out (f a) b Q c') -> out (bind m f) b Q c.
Proof. intros H1 H2 H3. apply (out_bind _ _ true b (fun _ c' => R v c')); auto. apply quiet_R; auto. Qed.
Lemma out_getR {B} (f : cstate -> C B) b Q c : out (f c) b Q c -> out (bind get f) b Q c.
Proof. intros H. apply (out_bind _ _ true b (fun a c' => a = c /\ c' = c)); [exists c, c; split; auto; intros l; reflexivity|]. intros a c' [-> ->]. auto. Qed.

Lemma out_declareF v c x : R v c -> ~ In (globalName x) (fnames c) -> ~ In x (s_exts v) ->
  out (GetOrDeclareFunction x) true (fun o c' => o <> None /\ R (addF [x] v) c') c.
Proof.
  intros H N NE. unfold GetOrDeclareFunction. apply out_getR.
  destruct (assoc x (c_functions c)) eqn:E1; [destruct N; eapply R_tab; eauto|].
  destruct (assoc x (c_globals c)) eqn:E2.
  { destruct NE. rewrite (R_exts _ _ H). apply assoc_keys. congruence. }
  cbv zeta. apply (out_bind _ _ true true (fun _ c' => R (addF [x] v) c')).
  - apply out_modify. apply R_declare; auto.
  - intros. apply out_ret. split; auto. discriminate.
Qed.
Lemma out_callee v c x : R v c ->
  out (genCallee x) true (fun _ c' => R (addF (if isin x (s_exts v) then [] else [x]) v) c') c.
Proof.
  intros H. unfold genCallee. apply out_getR. destruct (findFuncByName c x) eqn:E.
  - apply out_ret. assert (K : In (globalName x) (fnames c)) by (apply findFunc_In; congruence).
    destruct (isin _ _); auto using R_addnil, R_addin.
  - assert (K : ~ In (globalName x) (fnames c)) by (rewrite <- findFunc_In; congruence).
    destruct (assoc x (c_globals c)) as [[full arr]|] eqn:E2.
    + apply out_ret. destruct (isin x (s_exts v)) eqn:E3; [apply R_addnil; auto|]. apply isin_false in E3. destruct E3.
      rewrite (R_exts _ _ H). apply assoc_keys. congruence.
    + assert (NE : ~ In x (s_exts v)). { rewrite (R_exts _ _ H), <- assoc_keys. congruence. }
      apply isin_false in NE as E3. rewrite E3.
      change true with (true && true). eapply out_bind; [apply out_declareF; eauto|]. cbv beta. intros [fn|] c' [K1 K2]; [|congruence].
      apply out_ret. auto.
Qed.
Lemma out_genVar v c q x : R v c ->
  out (genVar q x) (isin x (vars_of v) || negb q)
    (fun a c' => snd a = isin x (vars_of v) /\ R (addF (if isin x (vars_of v) then [] else [x]) v) c') c.
Proof.
  intros H. unfold genVar.
  assert (EV : isin x (vars_of v) = true <-> assoc x (c_locals c) <> None \/ assoc x (c_globals c) <> None).
  { rewrite !assoc_keys, isin_In. unfold vars_of. rewrite in_app_iff, (R_locs _ _ H), (R_exts _ _ H). tauto. }
  assert (HA : out (GetAddress x) true (fun o c' => (o <> None <-> isin x (vars_of v) = true) /\ R v c') c).
  { unfold GetAddress. apply out_getR. destruct (assoc x (c_locals c)) eqn:E1.
    - apply out_ret. split; auto. rewrite EV. split; [left; congruence|congruence].
    - destruct (assoc x (c_globals c)) as [[full [|]]|] eqn:E2.
      + eapply out_quiet; [apply quiet_emitR|eauto|]. intros a c' H'. apply out_ret. split; auto. rewrite EV. split; [right; congruence|congruence].
      + apply out_ret. split; auto. rewrite EV. split; [right; congruence|congruence].
      + apply out_ret. split; auto. rewrite EV. split; [congruence|]. intros [|]; congruence. }
  change (isin x (vars_of v) || negb q) with (true && (isin x (vars_of v) || negb q)).
  eapply out_bind; [apply HA|]. cbv beta. intros [addr|] c' [K1 K2].
  - rewrite (proj1 K1) by discriminate. cbn [orb]. apply out_ret. split; auto using R_addnil.
  - assert (EF : isin x (vars_of v) = false) by (destruct (isin x (vars_of v)); auto; exfalso; apply (proj2 K1); auto).
    rewrite EF in *. cbn [orb]. destruct q; cbn [negb]; [apply out_err|].
    apply out_getR. destruct (findFuncByName c' x) eqn:E.
    + assert (K : In (globalName x) (fnames c')) by (apply findFunc_In; congruence).
      apply (out_quiet _ _ (addF [x] v)); [apply quiet_emitR|apply R_addin; auto|]. intros a c2 H'. apply out_ret. auto.
    + assert (K : ~ In (globalName x) (fnames c')) by (rewrite <- findFunc_In; congruence).
      change true with (true && true). eapply out_bind; [apply out_declareF; eauto|].
      { intros X. apply isin_false in EF. apply EF. unfold vars_of. apply in_or_app. auto. }
      cbv beta. intros [fn|] c2 [K3 K4]; [|congruence]. eapply out_quiet; [apply quiet_emitR|eauto|]. intros. apply out_ret. auto.
Qed.

Definition Epost (v : senv) (e : expr) (a : value * bool) (c' : cstate) : Prop :=
  snd a = lvalue (vars_of v) e /\ R (addF (usedF (vars_of v) (s_exts v) e) v) c'.
Lemma out_if {A} (b x y : bool) (m1 m2 : C A) Q c : (b = true -> out m1 x Q c) -> (b = false -> out m2 y Q c) ->
  out (if b then m1 else m2) (if b then x else y) Q c.
Proof. destruct b; auto. Qed.
Ltac qstep := eapply out_quiet; [solve [auto with quiet]|eassumption|intros ? ? ?].
Ltac qend := apply out_ret; unfold Epost; cbn [snd lvalue usedF]; auto.
Ltac useR IH S qq := match goal with |- out _ _ _ ?c0 => match goal with K : R ?v' c0 |- _ => exact (IH S qq v' c0 K) end end.
Ltac useRl IH S := match goal with |- out _ _ _ ?c0 => match goal with K : R ?v' c0 |- _ => exact (IH S v' c0 K) end end.
Lemma out_gen_all :
  (forall e, shE e -> forall q v c, R v c -> out (gen true q e) (okE (vars_of v) q e) (Epost v e) c) /\
  (forall l, shEs l -> forall v c, R v c -> out (genArgs true l) (okArgs (vars_of v) l) (fun _ c' => R (addF (usedArgs (vars_of v) (s_exts v) l) v) c') c).
Proof.
  apply expr_exprs_ind.
  - intros z _ q v c H. qend. auto using R_addnil.
  - intros s _ q v c H. cbn [gen okE]. qstep. qstep. qstep. qend. auto using R_addnil.
  - intros x _ q v c H. cbn [gen okE]. apply out_genVar; auto.
  - intros x [].
  - intros a IH SH q v c H. cbn [gen okE]. eapply out_eq; [eapply out_bind; [apply (IH SH _ v c H)|]|apply andb_true_r].
    intros [w l] c' [_ H']. qstep. qend.
  - intros a IHa i IHi [S1 S2] q v c H. cbn [gen okE]. eapply out_bind; [apply (IHa S1 _ v c H)|]. intros [w l] c1 [_ HH1].
    qstep. qstep. eapply out_eq; [eapply out_bind; [useR IHi S2 false|]|apply andb_true_r].
    intros [w2 l2] c2 [_ HH2]. qstep. qstep. qend. auto using R_add2.
  - intros f IHf args IHargs [S1 S2] q v c H.
    assert (HF : out (gen true false f) (match f with ECallee _ => true | _ => okE (vars_of v) false f end)
       (fun _ c' => R (addF (usedF (vars_of v) (s_exts v) f) v) c') c).
    { destruct f; try contradiction; try (eapply out_mono; [apply (IHf S1 false v c H)|]; intros ? ? [_ K]; exact K). cbn [gen usedF]. apply out_callee; auto. }
    rewrite gen_call. cbn [okE]. eapply out_bind; [apply HF|]. cbv beta. intros [w l] c1 HH1. qstep.
    eapply out_eq; [eapply out_bind; [useRl IHargs S2|]|apply andb_true_r]. cbv beta. intros vs c2 HH2. qstep. qend. auto using R_add2.
  - intros op a IH SH q v c H. cbn [gen okE]. eapply out_bind; [apply (IH SH _ v c H)|]. intros [w l] c1 [E HH1]. cbn [snd] in E. rewrite <- E.
    destruct l; [|apply out_err]. qstep. qend.
  - intros op a IH SH q v c H. cbn [gen okE]. eapply out_bind; [apply (IH SH _ v c H)|]. intros [w l] c1 [E HH1]. cbn [snd] in E. rewrite <- E.
    destruct l; [|apply out_err]. qstep. qend.
  - intros a IH SH q v c H. cbn [gen okE]. eapply out_eq; [eapply out_bind; [apply (IH SH _ v c H)|]|apply andb_true_r].
    intros [w l] c' [_ H']. qstep. qstep. qend.
  - intros a IH SH q v c H. cbn [gen okE]. eapply out_eq; [eapply out_bind; [apply (IH SH _ v c H)|]|apply andb_true_r].
    intros [w l] c' [_ H']. qstep. qstep. qend.
  - intros a IH SH q v c H. cbn [gen okE]. eapply out_eq; [eapply out_bind; [apply (IH SH _ v c H)|]|apply andb_true_r].
    intros [w l] c' [_ H']. qstep. qstep. qend.
  - intros a IH SH q v c H. cbn [gen okE]. eapply out_bind; [apply (IH SH _ v c H)|]. intros [w l] c1 [E HH1]. cbn [snd] in E. rewrite <- E.
    destruct l; [|apply out_err]. qstep. qend.
  - intros op a IHa b IHb [S1 S2] q v c H. cbn [gen okE andb]. eapply out_bind; [apply (IHa S1 _ v c H)|]. intros [w l] c1 [_ HH1].
    qstep. eapply out_eq; [eapply out_bind; [useR IHb S2 q|]|apply andb_true_r].
    intros [w2 l2] c2 [_ HH2]. qstep. qstep. qend. auto using R_add2.
  - intros a IHa b IHb d IHd (S1 & S2 & S3) q v c H. cbn [gen okE]. rewrite <- andb_assoc. eapply out_bind; [apply (IHa S1 _ v c H)|]. intros [w l] c1 [_ HH1].
    do 8 qstep. eapply out_bind; [useR IHb S2 false|]. intros [w2 l2] c2 [_ HH2]. do 4 qstep.
    eapply out_eq; [eapply out_bind; [useR IHd S3 q|]|apply andb_true_r].
    intros [w3 l3] c3 [_ HH3]. do 5 qstep. qend. split; auto. apply R_add2, R_add2. auto.
  - intros op a IHa b IHb [S1 S2] q v c H. cbn [gen okE]. rewrite <- andb_assoc. eapply out_bind; [apply (IHa S1 _ v c H)|]. intros [w l] c1 [E HH1]. cbn [snd] in E. rewrite <- E.
    destruct l; [|apply out_err]. cbn [andb]. eapply out_eq; [eapply out_bind; [useR IHb S2 q|]|apply andb_true_r].
    intros [w2 l2] c2 [_ HH2]. qstep. destruct op; repeat qstep; qend; auto using R_add2.
  - intros _ v c H. apply out_ret. apply R_addnil. auto.
  - intros e IHe l IHl [S1 S2] v c H. rewrite genArgs_cons. cbn [okArgs]. eapply out_bind; [apply (IHe S1 _ v c H)|]. intros [w lv] c1 [_ HH1]. qstep.
    eapply out_eq; [eapply out_bind; [useRl IHl S2|]|apply andb_true_r]. cbv beta. intros vs c2 HH2. apply out_ret. cbn [usedArgs]. auto using R_add2.
Qed.

(** ** Statements *)
Definition outO {A} (m : C A) (o : option senv) (P : A -> Prop) (c : cstate) : Prop :=
  match o with
  | Some v => exists a c', yields m c a c' /\ P a /\ R v c'
  | None => fails m c
  end.
Lemma outO_bind {A B} (m : C A) (f : A -> C B) o k (P : A -> Prop) Q c : outO m o P c ->
  (forall a c' v', o = Some v' -> P a -> R v' c' -> outO (f a) (k v') Q c') -> outO (bind m f) (opt_bind o k) Q c.
Proof.
  destruct o as [v|]; cbn.
  - intros (a & c1 & Y & HP & HR) H. specialize (H a c1 v eq_refl HP HR). unfold outO in *. destruct (k v).
    + destruct H as (b & c2 & Y2 & HQ). exists b, c2. split; auto. eapply yields_bind; eauto.
    + intros l. unfold bind. rewrite (Y l). apply H.
  - intros H _ l. destruct (H l) as (e & E). exists e. unfold bind. rewrite E. auto.
Qed.
Lemma outO_quiet {A B} (m : C A) (f : A -> C B) v o Q c : quiet m -> R v c ->
  (forall a c', R v c' -> outO (f a) o Q c') -> outO (bind m f) o Q c.
Proof.
  intros H1 H2 H3. change o with (opt_bind (Some v) (fun _ => o)). eapply (outO_bind m f (Some v) _ (fun _ => True)).
  - destruct (quiet_R m v c H1 H2) as (a & c' & Y & K). exists a, c'. auto.
  - intros a c' v' E _ K. injection E as <-. auto.
Qed.
Lemma outO_ret {A} (a : A) v (P : A -> Prop) c : P a -> R v c -> outO (ret a) (Some v) P c.
Proof. intros H K. exists a, c. split; auto using yields_ret. Qed.
Lemma outO_err {A} e (P : A -> Prop) c : outO (errorf e) None P c.
Proof. intros l. eexists. reflexivity. Qed.
Lemma outO_then {A B} (m : C A) (f : A -> C B) o (P : A -> Prop) Q c : outO m o P c ->
  (forall a c' v', P a -> R v' c' -> outO (f a) (Some v') Q c') -> outO (bind m f) o Q c.
Proof.
  intros H1 H2. replace o with (opt_bind o (fun v => Some v)) by (destruct o; auto). eapply outO_bind; eauto.
Qed.
Lemma outO_genR e v c : shE e -> R v c -> outO (genR true false e) (chkE e v) (fun _ => True) c.
Proof.
  intros S H. unfold genR, chkE. pose proof (proj1 out_gen_all e S false v c H) as K. unfold out in K.
  destruct (okE (vars_of v) false e); unfold outO.
  - destruct K as ([w l] & c1 & Y & E & K). destruct (quiet_R (rval w l) _ _ (quiet_rval w l) K) as (x & c2 & Y2 & K2).
    exists x, c2. split; [eapply yields_bind; [exact Y|exact Y2]|]. auto.
  - intros l. destruct (K l) as (er & E). exists er. unfold bind. rewrite E. auto.
Qed.
Ltac oq := eapply outO_quiet; [solve [auto with quiet]|eassumption|intros ? ? ?].

(** auto *)
Definition putL (x : string) (v : senv) : senv := mkEnv (x :: s_locs v) (s_exts v) (s_funs v) (s_globs v).
Lemma outO_bind_local x w v c : R v c -> outO (bind_local x w) (Some (putL x v)) (fun _ => True) c.
Proof.
  intros []. exists tt, (set_locals ((x, w) :: c_locals c) c). split; [intros l; reflexivity|]. split; auto.
  constructor; cbn; auto. congruence.
Qed.
Lemma outO_declare x z v c : R v c ->
  outO (if z =? -1 then DeclareLocal x else DeclareLocalArray x z) (Some (putL x v)) (fun _ => True) c.
Proof.
  intros H. destruct (z =? -1); [unfold DeclareLocal|unfold DeclareLocalArray; cbv zeta]; repeat oq; apply outO_bind_local; auto.
Qed.
Fixpoint putLs (xs : list string) (v : senv) : senv := match xs with [] => v | x :: r => putLs r (putL x v) end.
Lemma outO_declareAutos ds : forall v c, R v c -> outO (declareAutos ds) (Some (putLs (map fst ds) v)) (fun _ => True) c.
Proof.
  induction ds as [|[x z] ds IH]; intros v c H; cbn [declareAutos map putLs fst].
  - apply outO_ret; auto.
  - change (Some (putLs (map fst ds) (putL x v))) with (opt_bind (Some (putL x v)) (fun v => Some (putLs (map fst ds) v))).
    eapply outO_bind; [apply outO_declare; auto|]. cbv beta. intros a c' v' E _ K. injection E as <-. auto.
Qed.
Lemma chkAuto_spec names : forall v, chkAuto names v = None \/ chkAuto names v = Some (putLs names v).
Proof. induction names as [|x l IH]; intros v; cbn; auto. destruct (isin _ _); auto. Qed.
Lemma isin_app x a b : isin x (a ++ b) = isin x a || isin x b.
Proof. unfold isin. apply existsb_app. Qed.
Lemma out_checkAutos ds c : forall seen v, s_locs v = seen ++ map fst (c_locals c) ->
  out (checkAutos seen ds) (match chkAuto (map fst ds) v with Some _ => true | None => false end) (fun _ c' => c' = c) c.
Proof.
  induction ds as [|[x z] ds IH]; intros seen v E; cbn [checkAutos map fst chkAuto].
  - apply out_ret. auto.
  - apply out_getR. change (mem x seen) with (isin x seen). change (mem x (map fst (c_locals c))) with (isin x (map fst (c_locals c))). rewrite E, isin_app. destruct (isin x seen); [apply out_err|]. cbn [orb].
    destruct (isin x (map fst (c_locals c))); [apply out_err|]. apply IH. reflexivity.
Qed.

(** extrn *)
Lemma R_bind_global x g v c : R v c -> R (mkEnv (s_locs v) (x :: s_exts v) (s_funs v) (s_globs v)) (bind_global x g c).
Proof. intros []. constructor; cbn; auto. congruence. Qed.
Lemma R_newglobal x g v c : R v c -> g_name g = globalName x -> nodot x ->
  R (mkEnv (s_locs v) (s_exts v) (s_funs v) (x :: s_globs v)) (newGlobalDef g c).
Proof.
  intros [] E N. constructor; cbn; auto. intros y NY. unfold gnames. cbn. rewrite map_app, in_app_iff. cbn.
  rewrite R_globs0 by auto. rewrite E. split; [intros [->|]; auto|]. intros [|[K|[]]]; auto. apply globalName_inj in K. auto.
Qed.
Lemma outO_extern x v c : nodot x -> R v c -> outO (externName x) (chkExtrn [x] v) (fun _ => True) c.
Proof.
  intros N H. unfold externName. cbn [chkExtrn].
  assert (EG : isin x (s_globs v) = match findGlobalByName c x with Some _ => true | None => false end).
  { destruct (findGlobalByName c x) eqn:E.
    - apply isin_In. apply (R_globs _ _ H); auto. apply findGlobal_In. congruence.
    - apply isin_false. rewrite (R_globs _ _ H), <- findGlobal_In by auto. congruence. }
  assert (EF : isin x (s_funs v) = match findFuncByName c x with Some _ => true | None => false end).
  { destruct (findFuncByName c x) eqn:E.
    - apply isin_In. apply (R_funs _ _ H); auto. apply findFunc_In. congruence.
    - apply isin_false. rewrite (R_funs _ _ H), <- findFunc_In by auto. congruence. }
  intros. rewrite EG, EF. assert (GET : forall (f : cstate -> C unit) o, outO (f c) o (fun _ => True) c -> outO (bind get f) o (fun _ => True) c).
  { intros f o K. unfold outO in *. destruct o; [destruct K as (a & c' & Y & K)|].
    - exists a, c'. split; auto.
    - intros l. destruct (K l) as (e & K'). exists e. auto. }
  apply GET. destruct (findGlobalByName c x) eqn:E1.
  - exists tt, (bind_global x g c). split; [intros l; reflexivity|]. split; auto. apply R_bind_global. auto.
  - destruct (findFuncByName c x) eqn:E2; [apply outO_err|]. rewrite mem_isin. destruct (isin x (c_used c)) eqn:E3.
    { exfalso. apply isin_In in E3. apply (R_used _ _ H), findFunc_In in E3. congruence. }
    cbv zeta. match goal with |- outO (modify ?f) _ _ _ => exists tt, (f c) end. split; [intros l; reflexivity|]. split; auto. cbv beta.
    change (mkEnv (s_locs v) (x :: s_exts v) (s_funs v) (x :: s_globs v)) with
      (let w := mkEnv (s_locs v) (s_exts v) (s_funs v) (x :: s_globs v) in mkEnv (s_locs w) (x :: s_exts w) (s_funs w) (s_globs w)).
    cbv zeta. apply R_bind_global. apply R_newglobal; auto.
Qed.
Lemma chkExtrn_cons x r v : chkExtrn (x :: r) v = opt_bind (chkExtrn [x] v) (chkExtrn r).
Proof. cbn [chkExtrn]. destruct (isin _ _); auto. destruct (isin _ _); auto. Qed.
Lemma outO_genExtrn ns : Forall nodot ns -> forall v c, R v c -> outO (genExtrn ns) (chkExtrn ns v) (fun _ => True) c.
Proof.
  induction 1 as [|x ns N F IH]; intros v c H; [apply outO_ret; auto|]. rewrite chkExtrn_cons. cbn [genExtrn].
  eapply outO_bind; [apply outO_extern; auto|]. auto.
Qed.

Definition is_sw (sw : swctx) : bool := match sw with Some _ => true | None => false end.
Lemma outO_genS_all :
  (forall s, wfS s -> shS s -> forall sw v c, R v c -> outO (genS true s sw) (chkS (is_sw sw) s v) (fun sw' => is_sw sw' = is_sw sw) c) /\
  (forall l, wfL l -> shL l -> forall sw v c, R v c -> outO (genL true l sw) (chkL (is_sw sw) l v) (fun sw' => is_sw sw' = is_sw sw) c).
Proof.
  apply stmt_stmts_ind.
  - intros _ _ sw v c H. apply outO_ret; auto.
  - intros e W S sw v c H. cbn [genS chkS]. eapply outO_then; [apply outO_genR; eauto|]. intros. apply outO_ret; auto.
  - intros l IH W S sw v c H. rewrite genS_block. cbn [chkS]. apply IH; auto.
  - intros [e|] W S sw v c H; cbn [genS chkS].
    + eapply outO_then; [apply outO_genR; eauto|]. cbv beta. intros a c1 v1 _ H1. oq. apply outO_ret; auto.
    + oq. apply outO_ret; auto.
  - intros ds W S sw v c H. cbn [genS chkS]. pose proof (out_checkAutos ds c [] v (R_locs _ _ H)) as K.
    destruct (chkAuto_spec (map fst ds) v) as [E|E]; rewrite E in *; cbn in K.
    + intros l. destruct (K l) as (e & Y). exists e. unfold bind at 1. rewrite Y. auto.
    + destruct K as ([] & c' & Y & ->). destruct (outO_declareAutos ds v c H) as (u & c2 & Y2 & _ & H2).
      exists sw, c2. split; auto. eapply yields_bind; [exact Y|]. eapply yields_bind; [exact Y2|]. apply yields_ret.
  - intros ns W S sw v c H. cbn [genS chkS]. eapply outO_then; [apply outO_genExtrn; eauto|intros; apply outO_ret; auto].
    eapply Forall_impl; [|exact W]. apply nodot_name.
  - intros e s IH [W1 W2] [S1 S2] sw v c H. cbn [genS chkS]. eapply outO_bind; [apply outO_genR; eauto|]. cbv beta. intros a c1 v1 _ _ H1.
    do 7 oq. eapply outO_then; [apply (IH W2 S2 None); eassumption|]. cbv beta. intros sw2 c2 v2 _ H2'. do 4 oq. apply outO_ret; auto.
  - intros e s IH s2 IH2 (W1 & W2 & W3) (S1 & S2 & S3) sw v c H. cbn [genS chkS]. eapply outO_bind; [apply outO_genR; eauto|]. cbv beta. intros a c1 v1 _ _ H1.
    do 7 oq. eapply outO_bind; [apply (IH W2 S2 None); eassumption|]. cbv beta. intros sw2 c2 v2 _ _ H2'. do 2 oq.
    eapply outO_then; [apply (IH2 W3 S3 None); eassumption|]. cbv beta. intros sw3 c3 v3 _ H3'. do 2 oq. apply outO_ret; auto.
  - intros e s IH [W1 W2] [S1 S2] sw v c H. cbn [genS chkS]. do 6 oq. eapply outO_bind; [apply outO_genR; eauto|]. cbv beta. intros cnd c1 v1 _ _ HH1.
    do 3 oq. eapply outO_then; [apply (IH W2 S2 None); eassumption|]. cbv beta. intros sw2 c2 v2 _ HH2. do 2 oq. apply outO_ret; auto.
  - intros e s IH [W1 W2] [S1 S2] sw v c H. cbn [genS chkS]. oq. eapply outO_bind; [apply outO_genR; eauto|]. cbv beta. intros cnd c1 v1 _ _ HH1.
    do 5 oq. eapply outO_then; [eapply (IH W2 S2 (Some (_, []))); eassumption|]. cbv beta. intros sw2 c2 v2 _ HH2. do 2 oq.
    eapply outO_quiet; [|eassumption|].
    { destruct sw2 as [[i [|z vals]]|]; auto with quiet. apply quiet_bind; auto with quiet. }
    intros ? ? ?. oq. apply outO_ret; auto.
  - intros z s IH [W1 W2] S sw v c H. cbn [genS chkS]. destruct sw as [[id vals]|]; cbn [is_sw]; [|apply outO_err].
    do 3 oq. apply (IH W2 S (Some (id, vals ++ [z]))). auto.
  - intros x W S sw v c H. cbn [genS chkS]. do 5 oq. apply outO_ret; auto.
  - intros x s IH [W1 W2] S sw v c H. cbn [genS chkS]. do 3 oq. apply IH; auto.
  - intros _ _ sw v c H. apply outO_ret; auto.
  - intros s IHs l IHl [W1 W2] [S1 S2] sw v c H. rewrite genL_cons. cbn [chkL]. eapply outO_bind; [apply IHs; eauto|]. cbv beta. intros sw2 c2 v2 _ E H2.
    rewrite <- E. apply IHl; auto.
Qed.

(** ** Definitions *)
Lemma remove_In {A} (nm : A -> string) n l y : In y (map nm (remove_named nm n l)) \/ y = n <-> In y (map nm l) \/ y = n.
Proof.
  split.
  - intros [H|]; auto. apply in_map_iff in H. destruct H as (x & <- & H). left. apply in_map. eapply In_remove_named; eauto.
  - intros [H|]; auto. apply (remove_named_incl nm n) in H. destruct H; auto.
Qed.
Lemma quiet_R_fun {A} (m : C A) v c : (forall c, out m true (fun _ c' => c_locals c' = c_locals c /\ c_globals c' = c_globals c /\
  incl (fnames c) (fnames c') /\ (forall x, In (globalName x) (fnames c') -> In (globalName x) (fnames c)) /\
  c_functions c' = c_functions c /\ c_used c' = c_used c /\ gnames c' = gnames c) c) -> R v c -> outO m (Some v) (fun _ => True) c.
Proof.
  intros H []. destruct (H c) as (a & c' & Y & E1 & E2 & I & E3 & E4 & E5 & E6). exists a, c'. split; auto. split; auto.
  constructor; rewrite ?E1, ?E2, ?E4, ?E5, ?E6; auto.
  - intros x. rewrite R_funs0. split; auto.
  - intros. apply I. eauto.
Qed.
Lemma outO_getOrCreateFunc n v c : (forall x, globalName x <> n) -> R v c -> outO (getOrCreateFunc n) (Some v) (fun _ => True) c.
Proof.
  intros N. apply quiet_R_fun. clear c. intros c. apply out_modify. destruct (find_named f_name n (c_mfuncs c)).
  - repeat split; auto using incl_refl.
  - unfold fnames. cbn. rewrite map_app. repeat split; auto.
    + apply incl_appl, incl_refl.
    + intros x K. apply in_app_or in K. destruct K as [|[K|[]]]; auto. destruct (N x). auto.
Qed.
Lemma globalName_llvm x s : globalName x <> ("llvm." ++ s)%string.
Proof. unfold globalName. destruct (String.eqb_spec x "main") as [->|]; discriminate. Qed.
Lemma outO_step {A B} (m : C A) (f : A -> C B) v1 o (P : A -> Prop) Q c : outO m (Some v1) P c ->
  (forall a c', P a -> R v1 c' -> outO (f a) o Q c') -> outO (bind m f) o Q c.
Proof. intros H K. change o with (opt_bind (Some v1) (fun _ => o)). eapply outO_bind; eauto. intros a c' v' E. injection E as <-. auto. Qed.
Lemma outO_va_params va l : forall v c, R v c -> outO (va_params va l) (Some (putLs l v)) (fun _ => True) c.
Proof.
  induction l as [|x l IH]; intros v c H; cbn [va_params putLs]; [apply outO_ret; auto|]. do 3 oq.
  eapply outO_step; [apply outO_bind_local; eauto|]. cbv beta. auto.
Qed.
Lemma putLs_locs l : forall v, putLs l v = mkEnv (rev l ++ s_locs v) (s_exts v) (s_funs v) (s_globs v).
Proof.
  induction l as [|x l IH]; intros v; cbn; [destruct v; auto|]. rewrite IH. cbn. rewrite <- app_assoc. reflexivity.
Qed.
Lemma outO_q {A} (m : C A) v c : quiet m -> R v c -> outO m (Some v) (fun _ => True) c.
Proof. intros H K. destruct (quiet_R m v c H K) as (a & c' & Y & E). exists a, c'. auto. Qed.
Lemma outO_via {A} (m m2 : C A) c c2 o Q : (forall l, m (mkSt l c) = m2 (mkSt l c2)) -> outO m2 o Q c2 -> outO m o Q c.
Proof.
  intros E. unfold outO. destruct o.
  - intros (a & c' & Y & H). exists a, c'. split; auto. intros l. rewrite E. apply Y.
  - intros H l. destruct (H l) as [e K]. exists e. rewrite E. exact K.
Qed.
Lemma outO_mod {B} f (k : unit -> C B) o Q c : outO (k tt) o Q (f c) -> outO (bind (modify f) k) o Q c.
Proof. apply outO_via. reflexivity. Qed.
Lemma outO_getk {B} (k : cstate -> C B) o Q c : outO (k c) o Q c -> outO (bind get k) o Q c.
Proof. apply outO_via. reflexivity. Qed.
Lemma outO_declare_fn {B} name params (k : func -> C B) o Q c :
  let fn := match params with [] => mkFunc (globalName name) [] false false [] | p :: _ => mkFunc (globalName name) [p] true false [] end in
  outO (k fn) o Q (set_functions ((name, fun_value fn) :: c_functions c) (newFunc fn (set_fparams ((name, params) :: c_fparams c) (removeFuncByName name c)))) ->
  outO (bind (DeclareFunction name params) k) o Q c.
Proof. intros fn. apply outO_via. reflexivity. Qed.
Lemma outO_start name params v c : R v c -> s_exts v = [] ->
  outO (f <- DeclareFunction name params ;; StartFunction name f) (Some (mkEnv (rev params) [] (name :: s_funs v) (s_globs v))) (fun _ => True) c.
Proof.
  intros H HE.
  set (fn := match params with [] => mkFunc (globalName name) [] false false [] | p :: _ => mkFunc (globalName name) [p] true false [] end).
  set (c1 := set_functions ((name, fun_value fn) :: c_functions c) (newFunc fn (set_fparams ((name, params) :: c_fparams c) (removeFuncByName name c)))).
  set (c2 := set_cur (Some (f_name fn)) (set_nreg 0%nat (set_locals [] (set_labels [] (set_builder 0%nat (set_blocks [mkBlock "entry" [] None] c1)))))).
  assert (H2 : R (mkEnv [] [] (name :: s_funs v) (s_globs v)) c2).
  { destruct H.
    assert (EN : forall y, In y (fnames c2) <-> In y (fnames c) \/ y = globalName name).
    { intros y. unfold fnames, c2, c1. cbn. rewrite map_app, in_app_iff. cbn. unfold fnames.
      rewrite <- (remove_In f_name (globalName name) (c_mfuncs c)). replace (f_name fn) with (globalName name) by (unfold fn; destruct params; auto). intuition. }
    constructor; cbn [s_locs s_exts s_funs s_globs]; auto.
    - unfold c2, c1. cbn. congruence.
    - intros x. rewrite EN. cbn. rewrite R_funs0. split; [intros [->|]; auto|]. intros [|K]; auto. apply globalName_inj in K. auto.
    - intros x f. rewrite EN. unfold c2, c1. cbn [c_functions set_cur set_nreg set_locals set_labels set_builder set_blocks set_functions assoc].
      destruct (String.eqb_spec x name) as [->|]; auto. intros K. left. eapply R_tab0; eauto.
    - intros x. rewrite EN. intros K. left. apply R_used0. exact K. }
  apply outO_declare_fn. fold fn. apply outO_mod. fold c1. fold c2. apply outO_getk.
  replace (assoc name (c_fparams c2)) with (Some params) by (unfold c2, c1; cbn; rewrite String.eqb_refl; reflexivity).
  clearbody c2. clear c1. clear fn. cbv iota zeta.
 destruct params as [|p [|p2 ps]].
  - apply outO_ret; auto.
  - oq. oq. match goal with K : R ?v0 ?c0 |- _ => exact (outO_bind_local p _ v0 c0 K) end.
  - oq. oq. eapply outO_step; [apply outO_bind_local; eauto|]. cbv beta. intros ? ? ? ?. oq. oq.
    eapply outO_step; [apply (outO_getOrCreateFunc "llvm.va_start"); eauto; intros; apply (globalName_llvm _ "va_start")|]. intros ? ? ? ?. oq.
    eapply outO_step; [apply outO_va_params; eauto|]. intros ? ? ? HH.
    replace (mkEnv (rev (p :: p2 :: ps)) [] (name :: s_funs v) (s_globs v)) with (putLs (p2 :: ps) (putL p (mkEnv [] [] (name :: s_funs v) (s_globs v)))) by (rewrite putLs_locs; reflexivity).
    eapply outO_step; [apply (outO_getOrCreateFunc "llvm.va_end"); eauto; intros; apply (globalName_llvm _ "va_end")|]. intros ? ? ? ?. apply outO_q; auto with quiet.
Qed.

Lemma store_names full bs l : map f_name (store_blocks full bs l) = map f_name l.
Proof. induction l; cbn; auto. destruct (_ =? _)%string; cbn; congruence. Qed.
Lemma outO_end v c : R v c -> outO (EndFunction ;;; ClearTopLevelContext) (Some (mkEnv [] [] (s_funs v) (s_globs v))) (fun _ => True) c.
Proof.
  intros H. unfold EndFunction. apply (outO_via _ (nil <- termIsNil ;; (if nil : bool then setTerm (TRet (VInt 0)) else ret tt) ;;;
    modify (fun c =>
    set_cur None (set_locals [] (set_labels [] (set_blocks [] (set_builder 0%nat
      (match c_cur c with
       | Some full => set_mfuncs (store_blocks full (c_blocks c) (c_mfuncs c)) c
       | None => c
       end)))))) ;;; ClearTopLevelContext) c c).
  { intros l. unfold bind. destruct (termIsNil _) as [b s| |]; auto. destruct b; [destruct (setTerm (TRet (VInt 0)) s)|]; auto. }
  oq. eapply outO_step; [apply (outO_q _ v); auto; destruct a; auto with quiet|]. intros ? c1 _ HH.
  set (f := fun c => set_globals [] (set_functions [] (set_fparams [] (set_cur None (set_locals [] (set_labels [] (set_blocks [] (set_builder 0%nat
      (match c_cur c with
       | Some full => set_mfuncs (store_blocks full (c_blocks c) (c_mfuncs c)) c
       | None => c
       end))))))))).
  exists tt, (f c1). split; [intros l; reflexivity|]. split; auto.
  assert (E : fnames (f c1) = fnames c1 /\ gnames (f c1) = gnames c1 /\ c_locals (f c1) = [] /\ c_globals (f c1) = [] /\
     c_functions (f c1) = [] /\ c_used (f c1) = c_used c1).
  { unfold f, fnames, gnames. destruct (c_cur c1); cbn; repeat split. apply store_names. }
  destruct E as (E1 & E2 & E3 & E4 & E5 & E6). destruct HH. constructor; cbn [s_locs s_exts s_funs s_globs]; rewrite ?E1, ?E2, ?E3, ?E4, ?E5, ?E6; auto.
  discriminate.
Qed.

Lemma quiet_genIvals l : quiet (genIvals l).
Proof. induction l as [|v l IH]; cbn [genIvals]; [quiet_tac|]. apply quiet_bind; [destruct v; cbn [genIval]; quiet_tac|]. intros w. apply quiet_bind; auto. intros. quiet_tac. Qed.
Lemma globalName_data x n : nodot x -> globalName x <> (globalName n ++ ".data")%string.
Proof.
  intros N. unfold globalName. destruct (String.eqb_spec x "main") as [->|]; destruct (String.eqb_spec n "main") as [->|]; try discriminate.
  intros E. injection E as E. apply (nodot_dot x n "data"); auto.
Qed.
(** A variable of the file, replaced if there is one. *)
Lemma R_define n gs v c c1 c2 : nodot n -> R v c -> Req (removeGlobalByName n c) c1 ->
  map g_name gs = [globalName n] \/ map g_name gs = [(globalName n ++ ".data")%string; globalName n] ->
  c_mglobals c2 = c_mglobals c1 ++ gs -> fnames c2 = fnames c1 -> c_locals c2 = [] -> c_globals c2 = [] -> c_functions c2 = [] -> c_used c2 = c_used c1 ->
  R (mkEnv [] [] (s_funs v) (n :: s_globs v)) c2.
Proof.
  intros N [] [] G E1 E2 E3 E4 E5 E6. constructor; cbn [s_locs s_exts s_funs s_globs]; rewrite ?E2, ?E3, ?E4, ?E5, ?E6; auto.
  - intros x. rewrite R_funs0, Q_mfuncs0. reflexivity.
  - intros x Nx. unfold gnames. rewrite E1, map_app, in_app_iff. fold (gnames c1). rewrite Q_gnames0.
    unfold gnames. cbn [removeGlobalByName c_mglobals set_mglobals].
    pose proof (remove_In g_name (globalName n) (c_mglobals c) (globalName x)) as K. fold (gnames c) in *.
    rewrite <- R_globs0 in K by auto.
    assert (GN : In (globalName x) (map g_name gs) <-> globalName x = globalName n).
    { destruct G as [-> | ->]; cbn; split; intros HH; auto.
      - destruct HH as [|[]]; auto.
      - destruct HH as [HH|[|[]]]; auto. symmetry in HH. apply globalName_data in HH; auto. contradiction. }
    rewrite GN. rewrite K. cbn. split; [intros [->|]; auto|]. intros [|HH]; auto. apply globalName_inj in HH. auto.
  - discriminate.
  - intros x. rewrite Q_mfuncs0, Q_used0. apply R_used0.
Qed.
Lemma outO_define n vals (k : list cword -> C unit) v c : nodot n -> R v c ->
  (forall ws c1, exists gs c2, yields (k ws) c1 tt c2 /\
     (map g_name gs = [globalName n] \/ map g_name gs = [(globalName n ++ ".data")%string; globalName n]) /\
     c_mglobals c2 = c_mglobals c1 ++ gs /\ fnames c2 = fnames c1 /\ c_locals c2 = c_locals c1 /\ c_used c2 = c_used c1) ->
  s_locs v = [] ->
  outO ((modify (removeGlobalByName n) ;;; ws <- genIvals vals ;; k ws) ;;; ClearTopLevelContext)
    (Some (mkEnv [] [] (s_funs v) (n :: s_globs v))) (fun _ => True) c.
Proof.
  intros N H K L. destruct (quiet_genIvals vals (removeGlobalByName n c)) as (ws & c1 & Y1 & Q1).
  destruct (K ws c1) as (gs & c2 & Y2 & G & E1 & E2 & E3 & E4).
  exists tt, (set_globals [] (set_functions [] (set_fparams [] c2))). split; [|split; auto].
  - apply (yields_bind _ _ c tt c2); [|intros l; reflexivity].
    apply (yields_bind _ _ c tt (removeGlobalByName n c)); [intros l; reflexivity|].
    eapply yields_bind; [exact Y1|exact Y2].
  - eapply (R_define n gs v c c1); auto; cbn. rewrite E3. destruct Q1. rewrite Q_locals0. cbn. destruct H.
    destruct (c_locals c); auto. rewrite L in R_locs0. discriminate.
Qed.

Lemma yields_modify f c : yields (modify f) c tt (f c). Proof. intros l. reflexivity. Qed.

(** ** One definition, a file *)
Lemma outO_genD d v c : wfD d -> shD d -> s_locs v = [] -> s_exts v = [] -> R v c -> outO (genD true d) (chkD d v) (fun _ => True) c.
Proof.
  intros W S L X H. destruct d as [n vals|n z vals|n ps body].
  - unfold genD; cbn [chkD]. apply outO_define; auto; [apply nodot_name, W|].
    intros ws c1. destruct ws as [|w [|w2 ws]]; (eexists [_], _; split; [apply yields_modify|refine (conj _ (conj eq_refl (conj eq_refl (conj eq_refl eq_refl)))); left; reflexivity]).
  - unfold genD; cbn [chkD]. apply outO_define; auto; [apply nodot_name, W|].
    intros ws c1. unfold DeclareGlobalArray. cbv zeta. destruct (_ && _).
    + eexists [_; _], _. split; [apply yields_modify|]. refine (conj _ (conj (eq_sym (app_assoc _ [_] [_])) (conj eq_refl (conj eq_refl eq_refl)))). right; reflexivity.
    + eexists [_], _. split; [apply yields_modify|]. refine (conj _ (conj eq_refl (conj eq_refl (conj eq_refl eq_refl)))); left; reflexivity.
  - unfold genD; cbn [chkD].
    apply (outO_via _ ((f <- DeclareFunction n ps ;; StartFunction n f) ;;; (genS true body None ;;; (EndFunction ;;; ClearTopLevelContext))) c c).
    { intros l. unfold bind. destruct (DeclareFunction n ps _) as [f s| |]; auto. destruct (StartFunction n f s) as [? s1| |]; auto. destruct (genS true body None s1); auto. }
    eapply outO_step; [apply outO_start; eauto|]. intros _ c1 _ H1.
    eapply outO_bind; [eapply (proj1 outO_genS_all body); eauto; apply W|]. intros a c2 v2 E _ H2. cbv beta. apply outO_end. auto.
Qed.
Lemma chkD_locs d v v' : chkD d v = Some v' -> s_locs v' = [] /\ s_exts v' = [].
Proof.
  destruct d as [n vals|n z vals|n ps body]; cbn [chkD]; intros H; try (injection H as <-; auto).
  destruct (chkS _ _ _); [|discriminate]. injection H as <-. auto.
Qed.
Lemma outO_genP ds : wfP ds -> Forall shD ds -> forall v c, s_locs v = [] -> s_exts v = [] -> R v c -> outO (genP true ds) (chkP ds v) (fun _ => True) c.
Proof.
  induction ds as [|d ds IH]; intros W S v c L X H; cbn [genP chkP].
  - apply outO_ret; auto.
  - inversion W; subst. inversion S; subst. eapply outO_bind; [apply outO_genD; auto|]. cbv beta.
    intros a c1 v1 E _ H1. destruct (chkD_locs _ _ _ E). apply IH; auto.
Qed.
Lemma R_new : R empty_env NewCompiler.
Proof. constructor; cbn; try tauto; discriminate. Qed.

(** A file is accepted iff it satisfies the rules of SpecStatic. *)
Theorem generate_iff ds : wfP ds -> Forall shD ds ->
  match chkP ds empty_env with
  | Some v => exists m, generate true ds = Ok m tt /\
      (forall x, In x (s_funs v) <-> In (globalName x) (map f_name (m_funcs m))) /\
      (forall x, nodot x -> (In x (s_globs v) <-> In (globalName x) (map g_name (m_globals m))))
  | None => exists e, generate true ds = Err e
  end.
Proof.
  intros W S. pose proof (outO_genP ds W S empty_env NewCompiler eq_refl eq_refl R_new) as H. unfold outO in H. unfold generate.
  destruct (chkP ds empty_env) as [v|].
  - destruct H as ([] & c & Y & _ & K). rewrite (Y _). exists (module_of c). split; auto. destruct K. split; auto.
  - destruct (H (mkLexer [] false)) as [e E]. rewrite E. eauto.
Qed.

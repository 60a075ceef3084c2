(** * Built: where the functions of a module come from *)
From Coq Require Import List Ascii String ZArith NArith Lia Bool.
From Verif Require Import Base Lexer IR Builder Expr Stmt Decl Wp Syntax Pure ParseGen Pwp Msteps InvIR InvDecl.
Import ListNotations.
Open Scope Z_scope.
Open Scope m_scope.

(** The blocks stored by EndFunction (irbuilder.go:390-399) at the end of a
    body: the current block returns 0 unless it is terminated. *)
Definition finished (c : cstate) : list block :=
  match nth_error (c_blocks c) (c_builder c) with
  | Some b => match b_term b with
              | None => upd (c_builder c) (put_term (TRet (VInt 0))) (c_blocks c)
              | Some _ => c_blocks c
              end
  | None => c_blocks c
  end.
(** The function object made by DeclareFunction (irbuilder.go:223-244). *)
Definition declared (name : string) (params : list string) (bs : list block) : func :=
  match params with
  | [] => mkFunc (globalName name) [] false false bs
  | p :: _ => mkFunc (globalName name) [p] true false bs
  end.
Definition start_of (name : string) (params : list string) : C unit :=
  f <- DeclareFunction name params ;; StartFunction name f.

(** [body] compiled after [c]: [c1] at its start, [c2] at its end. *)
Definition compiled chk (c : cstate) name params body (c1 c2 : cstate) : Prop :=
  DI [] c /\ yields (start_of name params) c tt c1 /\ exists sw, yields (genS chk body None) c1 sw c2.

Definition appends (a b : list func) : Prop := exists l, b = a ++ l /\ Forall (fun f => f_blocks f = []) l.
Lemma appends_refl a : appends a a.
Proof. exists []. rewrite app_nil_r. auto. Qed.
Lemma appends_trans a b c : appends a b -> appends b c -> appends a c.
Proof. intros (l & -> & H) (k & -> & K). exists (l ++ k)%list. rewrite app_assoc. split; auto. apply Forall_app; auto. Qed.
Lemma appends_one a f : f_blocks f = [] -> appends a (a ++ [f]).
Proof. exists [f]. auto. Qed.
Lemma mstep_appends a b : mstep a b -> appends (c_mfuncs a) (c_mfuncs b).
Proof.
  intros []; cbn; auto using appends_refl.
  - destruct H as (_ & -> & _). apply appends_refl.
  - unfold findFuncByName in H. rewrite (remove_named_none _ _ _ H). apply appends_one. auto.
Qed.
Lemma msteps_appends a b : msteps a b -> appends (c_mfuncs a) (c_mfuncs b).
Proof. induction 1; eauto using appends_refl, appends_trans, mstep_appends. Qed.

Definition App {A} (m : C A) : Prop := forall c, pwp m (fun _ c' => appends (c_mfuncs c) (c_mfuncs c') /\ c_cur c' = c_cur c) c.
Lemma App_MS {A} (m : C A) : MS m -> App m.
Proof. intros H c. eapply pwp_mono; [apply H|]. cbv beta. intros. split; [apply msteps_appends; auto|apply msteps_cur; auto]. Qed.
Lemma App_bind {A B} (m : C A) (f : A -> C B) : pure m -> App m -> (forall a, App (f a)) -> App (bind m f).
Proof.
  intros P H1 H2 c. eapply pwp_use; [auto|apply H1|]. cbv beta. intros a c' (S & E).
  eapply pwp_mono; [apply H2|]. cbv beta. intros b c2 (S2 & E2). split; [eapply appends_trans; eauto|congruence].
Qed.
Lemma App_getOrCreateFunc n : App (getOrCreateFunc n).
Proof. intros c. apply pwp_modify. destruct (find_named _ _ _); cbn; auto using appends_refl, appends_one. Qed.
Lemma App_va_params va l : App (va_params va l).
Proof.
  apply App_MS. induction l; cbn [va_params]; ms_tac.
Qed.

Lemma start_shape name params c : pwp (start_of name params) (fun _ c1 =>
  appends (remove_named f_name (globalName name) (c_mfuncs c) ++ [declared name params []]) (c_mfuncs c1) /\ c_cur c1 = Some (globalName name)) c.
Proof.
  unfold start_of, DeclareFunction. apply pwp_bind; [pure_tac|]. apply pwp_bind; [auto with pure|]. apply pwp_modify. apply pwp_ret.
  unfold StartFunction. apply pwp_bind; [auto with pure|]. apply pwp_modify. apply pwp_bind; [auto with pure|]. apply pwp_get.
  cbv zeta. cbn [assoc c_fparams newFunc set_functions set_mfuncs set_fparams set_cur set_nreg set_locals set_labels set_builder set_blocks removeFuncByName].
  rewrite String.eqb_refl.
  match goal with |- pwp ?m _ ?c' => set (c1 := c'); assert (K : App m) end.
  { destruct params as [|p [|q ps]]; [apply App_MS; ms_tac..|].
    repeat (apply App_bind; [solve [pure_tac]|first [solve [apply App_MS; ms_tac]|apply App_getOrCreateFunc|apply App_va_params]|intros ?]).
    apply App_MS; ms_tac. }
  eapply pwp_mono; [apply K|]. cbv beta. intros u c2 [H1 H2]. split.
  - replace (c_mfuncs c1) with (remove_named f_name (globalName name) (c_mfuncs c) ++ [declared name params []])%list in H1; auto.
  - rewrite H2. destruct params; reflexivity.
Qed.

Lemma store_blocks_app full bs l f r : ~ In full (map f_name l) -> f_name f = full ->
  store_blocks full bs (l ++ f :: r) = l ++ mkFunc (f_name f) (f_params f) (f_variadic f) (f_void f) bs :: r.
Proof.
  induction l as [|x l IH]; cbn; intros N E.
  - rewrite (proj2 (String.eqb_eq _ _) E). auto.
  - destruct (String.eqb_spec (f_name x) full); [exfalso; auto|]. rewrite IH; auto.
Qed.

Lemma EndFunction_shape full c : c_cur c = Some full ->
  pwp EndFunction (fun _ c' => c_mfuncs c' = store_blocks full (finished c) (c_mfuncs c)) c.
Proof.
  intros HC. unfold EndFunction, finished. apply pwp_bind; [auto with pure|]. apply pwp_termIsNil. intros b H1 H2.
  destruct b; cbv iota.
  - destruct (H1 eq_refl) as (bl & -> & ->). apply pwp_bind; [auto with pure|]. apply pwp_setTerm. apply pwp_modify. cbn. rewrite HC. reflexivity.
  - apply pwp_bind; [auto with pure|]. apply pwp_ret. apply pwp_modify. rewrite HC. cbn.
    destruct (H2 eq_refl) as [->|(bl & t & -> & ->)]; auto.
Qed.

(** The functions after a function definition. *)
Lemma function_shape chk name params body c : DI [] c -> pwp (genD chk (DFunction name params body)) (fun _ c' =>
  exists c1 c2 l, compiled chk c name params body c1 c2 /\ Forall (fun f => f_blocks f = []) l /\
    c_mfuncs c' = remove_named f_name (globalName name) (c_mfuncs c) ++ declared name params (finished c2) :: l) c.
Proof.
  intros H. unfold genD. apply pwp_bind; [pure_tac|].
  intros u c' Y.
  apply yields_bind_inv in Y; [|auto with pure]. destruct Y as (f & c1 & Y1 & Y).
  apply yields_bind_inv in Y; [|auto with pure]. destruct Y as ([] & c2 & Y2 & Y).
  apply yields_bind_inv in Y; [|auto with pure]. destruct Y as (sw & c3 & Y3 & Y).
  pose proof (yields_bind _ _ _ _ _ _ _ Y1 Y2) as YS.
  destruct (start_shape name params c _ _ YS) as ((l1 & E1 & F1) & C1).
  pose proof (MS_genS chk body None c2 _ _ Y3) as S. cbv beta in S.
  destruct (msteps_appends _ _ S) as (l2 & E2 & F2).
  assert (C3 : c_cur c3 = Some (globalName name)) by (rewrite (msteps_cur _ _ S); auto).
  pose proof (EndFunction_shape _ _ C3 _ _ Y) as E. cbv beta in E.
  apply pwp_clear. exists c2, c3, (l1 ++ l2)%list. split; [|split].
  - split; auto. split; auto. exists sw. auto.
  - apply Forall_app. auto.
  - cbn. rewrite E, E2, E1, <- !app_assoc. cbn [app].
    destruct (remove_named_nodup f_name (globalName name) (c_mfuncs c) (DI_nodup _ _ H)) as [_ N].
    rewrite store_blocks_app; auto; destruct params; auto.
Qed.

Lemma mfuncs_ivals l : forall c, pwp (genIvals l) (fun _ c' => c_mfuncs c' = c_mfuncs c) c.
Proof.
  induction l as [|v l IH]; intros c; cbn [genIvals]; [apply pwp_ret; auto|].
  apply pwp_bind; [auto with pure|]. assert (K : pwp (genIval v) (fun _ c' => c_mfuncs c' = c_mfuncs c) c).
  { destruct v; cbn [genIval]; [apply pwp_ret; auto|]. unfold CreateStringConstant.
    apply pwp_bind; [pure_tac|]. apply pwp_bind; [auto with pure|]. apply pwp_get. apply pwp_bind; [auto with pure|]. apply pwp_modify. apply pwp_ret. apply pwp_ret. auto. }
  eapply pwp_mono; [apply K|]. cbv beta. intros w c1 E. eapply pwp_use; [auto with pure|apply IH|]. cbv beta.
  intros ws c2 E2. apply pwp_ret. congruence.
Qed.
Definition is_function (d : decl) : bool := match d with DFunction _ _ _ => true | _ => false end.
Lemma variable_shape chk d c : is_function d = false -> pwp (genD chk d) (fun _ c' => c_mfuncs c' = c_mfuncs c) c.
Proof.
  destruct d as [n vs|n z vs|]; [| |discriminate]; intros _; unfold genD.
  - apply pwp_bind; [pure_tac|]. apply pwp_bind; [auto with pure|]. apply pwp_modify.
    eapply pwp_use; [auto with pure|apply mfuncs_ivals|]. cbv beta. intros ws c1 E.
    destruct ws as [|w [|w2 ws]]; apply pwp_modify; apply pwp_clear; cbn; auto.
  - apply pwp_bind; [pure_tac|]. apply pwp_bind; [auto with pure|]. apply pwp_modify.
    eapply pwp_use; [auto with pure|apply mfuncs_ivals|]. cbv beta. intros ws c1 E.
    unfold DeclareGlobalArray. cbv zeta. destruct (_ && (1 <? _)); apply pwp_modify; apply pwp_clear; cbn; auto.
Qed.

(** Every function of a module is a declaration or was built from a definition. *)
Definition from chk (ds : list decl) (f : func) : Prop :=
  exists name params body c c1 c2, In (DFunction name params body) ds /\ compiled chk c name params body c1 c2 /\
    f = declared name params (finished c2).
Lemma from_incl chk ds ds' f : incl ds ds' -> from chk ds f -> from chk ds' f.
Proof. intros I (n & p & b & c & c1 & c2 & H & K). exists n, p, b, c, c1, c2. auto. Qed.
Lemma genP_from chk : forall ds c, DI [] c -> pwp (genP chk ds) (fun _ c' =>
  forall f, In f (c_mfuncs c') -> In f (c_mfuncs c) \/ f_blocks f = [] \/ from chk ds f) c.
Proof.
  induction ds as [|d ds IH]; intros c H; cbn [genP]; [apply pwp_ret; auto|].
  eapply (pwp_use _ _ (fun _ c1 => DI [] c1 /\ forall f, In f (c_mfuncs c1) -> In f (c_mfuncs c) \/ f_blocks f = [] \/ from chk [d] f)).
  - auto with pure.
  - apply pwp_and; [apply DI_genD; auto|]. destruct (is_function d) eqn:E.
    + destruct d as [| |n ps b]; try discriminate. eapply pwp_mono; [apply function_shape; auto|]. cbv beta.
      intros u c1 (c1' & c2 & l & HC & HL & ->) f Hf. apply in_app_or in Hf. destruct Hf as [Hf|[<-|Hf]].
      * left. eapply In_remove_named; eauto.
      * right. right. exists n, ps, b, c, c1', c2. split; [left; auto|]. auto.
      * right. left. rewrite Forall_forall in HL. auto.
    + eapply pwp_mono; [apply variable_shape; auto|]. cbv beta. intros u c1 ->. auto.
  - intros u c1 [H1 H2]. eapply pwp_mono; [apply IH; auto|]. cbv beta. intros u2 c2 H3 f Hf.
    destruct (H3 f Hf) as [K|[K|K]]; auto.
    + destruct (H2 f K) as [|[|K2]]; auto. right. right. eapply from_incl; [|exact K2]. intros x [<-|[]]. left. auto.
    + right. right. eapply from_incl; [|exact K]. intros x Hx. right. auto.
Qed.
Theorem generate_from chk ds m f : generate chk ds = Ok m tt -> In f (m_funcs m) -> f_blocks f = [] \/ from chk ds f.
Proof.
  intros H Hf. apply generate_yields in H. destruct H as (c & Y & ->).
  destruct (genP_from chk ds _ DI_new _ _ Y f Hf) as [[]|]; auto.
Qed.

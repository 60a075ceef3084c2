(** * InvDecl: well-formedness of whole modules *)
From Coq Require Import List Ascii String ZArith NArith Lia Bool Permutation.
From Verif Require Import Base Lexer IR Builder Expr Stmt Decl Wp Syntax Pure Pwp SpecIR ParseGen InvIR Msteps.
Import ListNotations.
Open Scope Z_scope.
Open Scope m_scope.

(** ** Searching by name *)
Lemma find_named_app {A} (nm : A -> string) n l r :
  find_named nm n (l ++ r) = match find_named nm n l with Some x => Some x | None => find_named nm n r end.
Proof. induction l as [|x l IH]; cbn; auto. destruct (String.eqb (nm x) n); auto. Qed.
Lemma remove_named_none {A} (nm : A -> string) n l : find_named nm n l = None -> remove_named nm n l = l.
Proof.
  induction l as [|x l IH]; cbn; auto. destruct (String.eqb (nm x) n); [discriminate|]. intros H. rewrite IH; auto.
Qed.
Lemma find_named_none {A} (nm : A -> string) n l : find_named nm n l = None <-> ~ In n (map nm l).
Proof.
  induction l as [|x l IH]; cbn; [intuition|]. destruct (String.eqb_spec (nm x) n) as [->|N].
  - split; [discriminate|]. intros H. exfalso. auto.
  - rewrite IH. intuition.
Qed.
Lemma find_remove_other {A} (nm : A -> string) n m l : n <> m -> find_named nm n (remove_named nm m l) = find_named nm n l.
Proof.
  intros N. induction l as [|x l IH]; cbn; auto. destruct (String.eqb_spec (nm x) m) as [->|].
  - destruct (String.eqb_spec m n); [congruence|]. auto.
  - cbn. destruct (String.eqb (nm x) n); auto.
Qed.

(** A function found in the module stays. *)
Lemma mstep_find a b n f : mstep a b -> find_named f_name n (c_mfuncs a) = Some f -> find_named f_name n (c_mfuncs b) = Some f.
Proof.
  intros S H. destruct S as [b (E1 & E2 & _)| | | |name F]; cbn; auto.
  - rewrite E2. auto.
  - unfold findFuncByName in F. rewrite (remove_named_none _ _ _ F), find_named_app, H. auto.
Qed.
Lemma msteps_find a b n f : msteps a b -> find_named f_name n (c_mfuncs a) = Some f -> find_named f_name n (c_mfuncs b) = Some f.
Proof. intros S. induction S; auto. intros K. eapply IHS, mstep_find; eauto. Qed.
Lemma msteps_cur a b : msteps a b -> c_cur b = c_cur a.
Proof.
  intros S. induction S; auto. rewrite IHS. destruct H as [b (E1 & E2 & E3 & _)| | | |]; auto.
Qed.

Lemma NoDup_snoc {A} (l : list A) x : NoDup l -> ~ In x l -> NoDup (l ++ [x]).
Proof.
  intros H N. apply NoDup_rev in H. rewrite <- (rev_involutive (l ++ [x])). apply NoDup_rev.
  rewrite rev_app_distr. cbn. constructor; auto. rewrite <- in_rev. auto.
Qed.
Lemma mstep_nodup a b : mstep a b -> NoDup (fnames a) -> NoDup (fnames b).
Proof.
  intros S H. unfold fnames in *. destruct S as [b (E1 & E2 & _)| | | |name F]; cbn; auto.
  - rewrite E2. auto.
  - unfold findFuncByName in F. rewrite (remove_named_none _ _ _ F), map_app. apply NoDup_snoc; auto.
    apply find_named_none. auto.
Qed.
Lemma msteps_nodup a b : msteps a b -> NoDup (fnames a) -> NoDup (fnames b).
Proof. intros S. induction S; auto. eauto using mstep_nodup. Qed.
Lemma remove_named_nodup {A} (nm : A -> string) n l : NoDup (map nm l) ->
  NoDup (map nm (remove_named nm n l)) /\ ~ In n (map nm (remove_named nm n l)).
Proof.
  induction l as [|x l IH]; cbn; [auto|]. intros H. inversion H; subst. destruct (String.eqb_spec (nm x) n) as [<-|N]; auto.
  destruct (IH H3) as [I1 I2]. cbn. split.
  - constructor; auto. intros K. apply H2. apply in_map_iff in K. destruct K as (y & E & K). rewrite <- E.
    apply in_map. eapply In_remove_named; eauto.
  - intros [K|K]; auto.
Qed.

(** ** Between definitions *)
(** [x]: symbols about to be redefined. *)
Record DI (x : list string) (c : cstate) : Prop := {
  DI_module : Forall (wf_function (x ++ gnames c) (fnames c)) (c_mfuncs c);
  DI_inits : Forall (fun g => ginit_ok (x ++ gnames c) (g_init g)) (c_mglobals c);
  DI_nodup : NoDup (fnames c);
  DI_globals : c_globals c = [];
  DI_functions : c_functions c = [];
  DI_fparams : c_fparams c = [];
  DI_locals : c_locals c = [];
  DI_labels : c_labels c = []
}.

Lemma DI_remove name c : DI [] c -> DI [globalName name] (removeGlobalByName name c).
Proof.
  intros []. assert (I : incl (gnames c) ([globalName name] ++ gnames (removeGlobalByName name c))).
  { apply remove_named_incl. }
  constructor; auto.
  - eapply wf_module_incl; [exact I|apply incl_refl|]; exact DI_module0.
  - cbn. apply Forall_remove_named. eapply inits_incl; [exact I|]. exact DI_inits0.
Qed.

Lemma incl_snoc (x l : list string) y : incl (x ++ l) (x ++ l ++ [y]).
Proof. apply incl_app; [apply incl_appl, incl_refl|]. apply incl_appr, incl_appl, incl_refl. Qed.
Lemma DI_string x s c : DI x c -> pwp (CreateStringConstant s) (fun g c' => DI x c' /\ In g (gnames c') /\ incl (gnames c) (gnames c')) c.
Proof.
  intros []. unfold CreateStringConstant. apply pwp_bind; [auto with pure|]. apply pwp_get. cbv zeta.
  apply pwp_bind; [auto with pure|]. apply pwp_modify. apply pwp_ret.
  match goal with |- DI _ ?c' /\ _ => set (c1 := c') end.
  assert (E : gnames c1 = gnames c ++ [(".str." ++ dec (c_stringID c))%string]).
  { unfold gnames. cbn. rewrite map_app. reflexivity. }
  split; [|split].
  - constructor; auto.
    + rewrite E. eapply wf_module_incl; [apply incl_snoc|apply incl_refl|]. exact DI_module0.
    + rewrite E. cbn. apply Forall_app. split; [eapply inits_incl; [apply incl_snoc|exact DI_inits0]|].
      constructor; auto. exact I.
  - rewrite E. apply in_or_app. right. left. auto.
  - rewrite E. apply incl_appl, incl_refl.
Qed.
Lemma word_ok_incl a b w : incl a b -> word_ok a w -> word_ok b w.
Proof. intros H. destruct w; cbn; auto. Qed.
Lemma DI_ivals x l : forall c, DI x c -> pwp (genIvals l) (fun ws c' => DI x c' /\ Forall (word_ok (gnames c')) ws /\ incl (gnames c) (gnames c')) c.
Proof.
  induction l as [|v l IH]; intros c H; cbn [genIvals].
  - apply pwp_ret. repeat split; auto using incl_refl; apply H.
  - apply pwp_bind; [auto with pure|]. destruct v as [z|s]; cbn [genIval].
    + apply pwp_ret. eapply pwp_use; [auto with pure|apply IH; auto|]. cbv beta. intros ws c' (H1 & H2 & H3).
      apply pwp_ret. split; [auto|]. split; auto. constructor; auto. exact I.
    + eapply pwp_use; [auto with pure|apply DI_string; eauto|]. cbv beta. intros g c1 (H1 & H2 & H3). apply pwp_ret.
      eapply pwp_use; [auto with pure|apply IH; auto|]. cbv beta. intros ws c' (H4 & H5 & H6).
      apply pwp_ret. split; [auto|]. split; [|eauto using incl_tran]. constructor; auto. cbn. auto.
Qed.

(** [ClearTopLevelContext] as a function. *)
Definition cleared (c : cstate) : cstate := set_globals [] (set_functions [] (set_fparams [] c)).

Lemma DI_add name c gs : DI [globalName name] c -> In (globalName name) (map g_name gs) ->
  Forall (fun g => ginit_ok (gnames c ++ map g_name gs) (g_init g)) gs ->
  forall c', c_mglobals c' = c_mglobals c ++ gs -> c_mfuncs c' = c_mfuncs c -> c_locals c' = c_locals c -> c_labels c' = c_labels c ->
  DI [] (cleared c').
Proof.
  intros [] HI HG c' E1 E2 E3 E4.
  assert (EG : gnames c' = gnames c ++ map g_name gs) by (unfold gnames; rewrite E1, map_app; auto).
  assert (EF : fnames c' = fnames c) by (unfold fnames; rewrite E2; auto).
  assert (I : incl ([globalName name] ++ gnames c) (gnames c')).
  { rewrite EG. apply incl_app; [|apply incl_appl, incl_refl]. intros y [<-|[]]. apply in_or_app. auto. }
  assert (EG' : gnames (cleared c') = gnames c') by reflexivity.
  assert (EF' : fnames (cleared c') = fnames c) by exact EF.
  constructor; rewrite ?EG', ?EF'; auto; cbn; try congruence.
  - rewrite E2. eapply wf_module_incl; [exact I|apply incl_refl|auto].
  - rewrite E1. apply Forall_app. split.
    + eapply inits_incl; eauto.
    + rewrite EG. auto.
Qed.

Lemma vector_words_ok gs n : forall l, Forall (word_ok gs) l -> Forall (word_ok gs) (vector_words n l).
Proof.
  induction n as [|n IH]; intros l H; cbn; auto. destruct H; constructor; auto. exact I.
Qed.
Lemma pwp_clear (Q : unit -> cstate -> Prop) c : Q tt (cleared c) -> pwp ClearTopLevelContext Q c.
Proof. apply pwp_modify. Qed.

Ltac add1 name c1 :=
  match goal with |- context [newGlobalDef ?g _] => apply (DI_add name c1 [g]); auto; [left; reflexivity|] end.
Lemma DI_global chk name vals c : DI [] c -> pwp (genD chk (DGlobal name vals)) (fun _ c' => DI [] c') c.
Proof.
  intros H. unfold genD. apply pwp_bind; [pure_tac|]. apply pwp_bind; [auto with pure|]. apply pwp_modify.
  eapply pwp_use; [auto with pure|apply DI_ivals, DI_remove, H|]. cbv beta. intros ws c1 (H1 & H2 & _).
  destruct ws as [|w [|w2 ws]]; apply pwp_modify; apply pwp_clear.
  - add1 name c1. constructor; auto. exact I.
  - add1 name c1. constructor; auto. cbn. inversion H2.
    eapply word_ok_incl; [|eauto]. apply incl_appl, incl_refl.
  - add1 name c1. constructor; auto. cbn [g_init ginit_ok].
    eapply Forall_impl; [|exact H2]. intros w'. apply word_ok_incl. apply incl_appl, incl_refl.
Qed.

Lemma DI_vector chk name z vals c : DI [] c -> pwp (genD chk (DVector name z vals)) (fun _ c' => DI [] c') c.
Proof.
  intros H. unfold genD. apply pwp_bind; [pure_tac|]. apply pwp_bind; [auto with pure|]. apply pwp_modify.
  eapply pwp_use; [auto with pure|apply DI_ivals, DI_remove, H|]. cbv beta. intros ws c1 (H1 & H2 & _).
  unfold DeclareGlobalArray. cbv zeta. destruct (_ && (1 <? _)); apply pwp_modify; apply pwp_clear.
  - match goal with |- context [newGlobalDef ?g (newGlobalDef ?d _)] => eapply (DI_add name c1 [d; g]); eauto end.
    + right. left. reflexivity.
    + constructor; [exact I|]. constructor; auto. constructor; auto. cbn. apply in_or_app. right. left. auto.
    + cbn. rewrite <- app_assoc. reflexivity.
  - add1 name c1. constructor; auto. constructor.
    + cbn. apply in_or_app. right. left. auto.
    + apply vector_words_ok. eapply Forall_impl; [|exact H2]. intros w'. apply word_ok_incl. apply incl_appl, incl_refl.
Qed.

(** ** Functions *)
(** The current function is in the module with parameters [ps]. *)
Definition cur_ok (ps : list string) (full : string) (c : cstate) : Prop :=
  c_cur c = Some full /\ NoDup (fnames c) /\ exists f, find_named f_name full (c_mfuncs c) = Some f /\ f_params f = ps /\ f_name f = full.
Lemma cur_ok_msteps ps full a b : msteps a b -> cur_ok ps full a -> cur_ok ps full b.
Proof.
  intros S (E & N & f & F & P). split; [rewrite (msteps_cur _ _ S); auto|]. split; [eapply msteps_nodup; eauto|]. exists f. split; auto. eapply msteps_find; eauto.
Qed.

Lemma getOrCreateFunc_ok ps full n c : cur_ok ps full c -> G ps c ->
  pwp (getOrCreateFunc n) (fun _ c' => cur_ok ps full c' /\ G ps c' /\ le c c') c.
Proof.
  intros HC HG. apply pwp_modify. destruct (find_named f_name n (c_mfuncs c)) eqn:E.
  { split; auto. split; auto using le_refl. }
  match goal with |- cur_ok _ _ ?c' /\ _ => set (c1 := c') end.
  assert (I : incl (fnames c) (fnames c1)).
  { unfold fnames. cbn. rewrite map_app. apply incl_appl, incl_refl. }
  assert (L : le c c1) by (constructor; cbn; auto using incl_refl).
  split; [|split; auto].
  - destruct HC as (E1 & N & f & F & P). split; auto. split.
    { unfold fnames. cbn. rewrite map_app. apply NoDup_snoc; auto. apply find_named_none. auto. }
    exists f. split; auto. cbn. rewrite find_named_app, F. auto.
  - apply (G_grow ps c c1); auto; destruct HG; cbn; auto.
    + eapply Forall_impl; [|eassumption]. cbn. intros. eapply vok_le; eauto.
    + apply Forall_app. split; [eapply wf_module_incl; [| |eassumption]; apply L|].
      constructor; auto. apply wf_empty. auto.
Qed.

Lemma find_named_snoc_new {A} (nm : A -> string) l x : find_named nm (nm x) l = None -> find_named nm (nm x) (l ++ [x]) = Some x.
Proof. intros H. rewrite find_named_app, H. cbn. rewrite String.eqb_refl. auto. Qed.

(** Both invariants through a step that only touches the function. *)
Definition FG (ps : list string) (full : string) (c : cstate) : Prop := cur_ok ps full c /\ G ps c.
Lemma FG_step {A B} ps full (m : C A) (f : A -> C B) (P : A -> cstate -> Prop) (Q : B -> cstate -> Prop) c :
  pure m -> MS m -> FG ps full c -> pwp m (post ps c P) c ->
  (forall a c', FG ps full c' -> le c c' -> P a c' -> pwp (f a) Q c') -> pwp (bind m f) Q c.
Proof.
  intros HP HM [HC HG] H1 H2. eapply pwp_use; [auto| |].
  - apply pwp_and; [apply H1|apply HM].
  - cbv beta. intros a c' ((G' & L & P') & S). apply H2; auto. split; auto. eapply cur_ok_msteps; eauto.
Qed.
Ltac fstep lem := eapply FG_step; [solve [auto with pure]|solve [auto with ms]|eassumption|lem|cbv beta; intros ? ? [? ?] ? ?].

Lemma va_params_ok ps full va l : forall c, FG ps full c -> vok ps c va ->
  pwp (va_params va l) (fun _ c' => FG ps full c' /\ le c c') c.
Proof.
  induction l as [|n l IH]; intros c H HV; cbn [va_params].
  { apply pwp_ret. split; auto using le_refl. }
  fstep ltac:(apply P_emitR; [apply H|reflexivity|intros; split; constructor]).
  assert (V1 : vok ps c' va) by eauto using vok_le.
  eapply FG_step; [auto with pure|auto with ms|split; eassumption|apply P_emitR; [assumption|reflexivity|intros; split; repeat constructor; auto]|cbv beta; intros v1 c1 F1 L1 W1].
  eapply FG_step; [auto with pure|auto with ms|exact F1|apply P_emit; [apply F1|reflexivity|split; repeat constructor; eauto using vok_le]|cbv beta; intros v2 c2 F2 L2 W2].
  eapply FG_step; [auto with pure|auto with ms|exact F2|apply P_bind_local; [apply F2|eauto using vok_le]|cbv beta; intros v3 c3 F3 L3 W3].
  eapply pwp_mono; [apply IH; auto; eauto 10 using vok_le|]. cbv beta. intros _ c4 [F4 L4]. split; auto.
  eauto 10 using le_trans.
Qed.

Lemma bind_local_FG ps full n v c : FG ps full c -> vok ps c v -> pwp (bind_local n v) (fun _ c' => FG ps full c') c.
Proof.
  intros [HC HG] HV. eapply pwp_mono; [apply pwp_and; [apply P_bind_local; eauto|apply MS_bind_local]|].
  cbv beta. intros a c' ((G' & _) & S). split; auto. eapply cur_ok_msteps; eauto.
Qed.


Lemma G_initial ps full c1 bs : c_blocks c1 = bs -> bs = [mkBlock "entry" [] None] -> c_builder c1 = 0%nat -> c_nreg c1 = 0%nat ->
  c_locals c1 = [] -> c_labels c1 = [] -> c_globals c1 = [] ->
  (exists v, c_functions c1 = [v] /\ vok ps c1 (snd v)) ->
  Forall (wf_function (gnames c1) (fnames c1)) (c_mfuncs c1) ->
  Forall (fun g => ginit_ok (gnames c1) (g_init g)) (c_mglobals c1) -> cur_ok ps full c1 -> FG ps full c1.
Proof.
  intros E1 -> E2 E3 E4 E5 E6 (v & E7 & HV) HM HI HC. split; auto.
  constructor; rewrite ?E1, ?E2, ?E3, ?E4, ?E5, ?E6, ?E7; auto.
  - unfold bok. rewrite E1. cbn. lia.
  - constructor; auto. split; constructor.
  - constructor.
  - cbn. intros r. split; [intros []|lia].
Qed.

Lemma StartFunction_ok name params c : DI [] c ->
  pwp (f <- DeclareFunction name params ;; StartFunction name f)
    (fun _ c' => FG (match params with [] => [] | p :: _ => [p] end) (globalName name) c') c.
Proof.
  intros []. set (ps := match params with [] => [] | p :: _ => [p] end).
  unfold DeclareFunction. apply pwp_bind; [pure_tac|]. apply pwp_bind; [auto with pure|]. apply pwp_modify. apply pwp_ret.
  match goal with |- context [newFunc ?g _] => set (fn := g) end.
  assert (HN : f_name fn = globalName name) by (unfold fn; destruct params; auto).
  assert (HP : f_params fn = ps) by (unfold fn, ps; destruct params; auto).
  assert (HB : f_blocks fn = []) by (unfold fn; destruct params; auto).
  unfold StartFunction. apply pwp_bind; [auto with pure|]. apply pwp_modify. apply pwp_bind; [auto with pure|]. apply pwp_get.
  match goal with |- pwp _ _ ?c' => set (c1 := c') end.
  assert (EF : c_mfuncs c1 = remove_named f_name (globalName name) (c_mfuncs c) ++ [fn]) by reflexivity.
  destruct (remove_named_nodup f_name (globalName name) (c_mfuncs c) DI_nodup0) as [N1 N2].
  assert (IF : incl (fnames c) (fnames c1)).
  { unfold fnames. rewrite EF, map_app. cbn. rewrite HN. intros x Hx. apply in_or_app.
    apply (remove_named_incl f_name (globalName name)) in Hx. destruct Hx; [right; left; auto|left; auto]. }
  assert (HF : FG ps (globalName name) c1).
  { apply (G_initial _ _ _ [mkBlock "entry" [] None]); auto.
    - eexists. split; [cbn; rewrite DI_functions0; reflexivity|]. cbn [snd fun_value vok]. unfold fnames. rewrite EF, map_app. apply in_or_app. right. left. auto.
    - rewrite EF. apply Forall_app. split.
      + apply Forall_remove_named. eapply wf_module_incl; [|exact IF|exact DI_module0]. apply incl_refl.
      + constructor; auto. apply wf_empty. auto.
    - split; [cbn; rewrite HN; auto|]. split.
      + unfold fnames. rewrite EF, map_app. cbn. rewrite HN. apply NoDup_snoc; auto.
      + exists fn. split; auto. rewrite EF. rewrite <- HN. apply find_named_snoc_new. rewrite HN. apply find_named_none. auto. }
  assert (EP : assoc name (c_fparams c1) = Some params).
  { cbn. rewrite String.eqb_refl. auto. }
  clearbody c1. cbv zeta. rewrite EP. destruct params as [|p rest]; [apply pwp_ret; auto|].
  assert (K0 : forall (k : value -> C unit), (forall a c2, FG ps (globalName name) c2 -> vok ps c2 a -> pwp (k a) (fun _ c' => FG ps (globalName name) c') c2) ->
     pwp (a <- emitR (fun r => IAlloca r 1) ;; emit (IStore (VParam p) a) ;;; bind_local p a ;;; k a) (fun _ c' => FG ps (globalName name) c') c1).
  { intros k Hk.
    eapply FG_step; [auto with pure|auto with ms|exact HF|apply P_emitR; [apply HF|reflexivity|intros; split; constructor]|cbv beta; intros v1 c2 F1 L1 W1].
    eapply FG_step; [auto with pure|auto with ms|exact F1|apply P_emit; [apply F1|reflexivity|split; repeat constructor; auto]|cbv beta; intros v2 c3 F2 L2 W2].
    eapply FG_step; [auto with pure|auto with ms|exact F2|apply P_bind_local; [apply F2|eauto using vok_le]|cbv beta; intros v3 c4 F3 L3 W3].
    apply Hk; eauto using vok_le. }
  destruct rest as [|q rest].
  - eapply FG_step; [auto with pure|auto with ms|exact HF|apply P_emitR; [apply HF|reflexivity|intros; split; constructor]|cbv beta; intros v1 c2 F1 L1 W1].
    eapply FG_step; [auto with pure|auto with ms|exact F1|apply P_emit; [apply F1|reflexivity|split; repeat constructor; auto]|cbv beta; intros v2 c3 F2 L2 W2].
    eapply bind_local_FG; eauto using vok_le.
  - apply K0. clear K0 HF c1 IF EF EP. intros a c1 HF HA.
    eapply FG_step; [auto with pure|auto with ms|exact HF|apply P_emitR; [apply HF|reflexivity|intros; split; constructor]|cbv beta; intros v1 c2 F1 L1 W1].
    eapply FG_step; [auto with pure|auto with ms|exact F1|apply P_emitR; [apply F1|reflexivity|intros; split; repeat constructor; auto]|cbv beta; intros v2 c3 F2 L2 W2].
    eapply pwp_use; [auto with pure|apply getOrCreateFunc_ok; apply F2|cbv beta; intros u3 c4 (F3 & G3 & L3)].
    eapply FG_step; [auto with pure|auto with ms|split; eassumption|apply P_emit; [exact G3|reflexivity|split; repeat constructor; eauto using vok_le]|cbv beta; intros v4 c5 F4 L4 W4].
    eapply pwp_use; [auto with pure|apply va_params_ok; [exact F4|eauto using vok_le]|cbv beta; intros u5 c6 (F5 & L5)].
    eapply pwp_use; [auto with pure|apply getOrCreateFunc_ok; apply F5|cbv beta; intros u6 c7 (F6 & G6 & L6)].
    eapply pwp_mono; [apply pwp_and; [apply P_emit; [exact G6|reflexivity|split; repeat constructor; eauto 10 using vok_le]|apply MS_emit]|].
    cbv beta. intros _ c8 ((G8 & _) & S). split; auto. eapply cur_ok_msteps; eauto.
Qed.

(** The stored function. *)
Lemma store_blocks_names full bs l : map f_name (store_blocks full bs l) = map f_name l.
Proof. induction l as [|f l IH]; cbn; auto. destruct (String.eqb (f_name f) full); cbn; congruence. Qed.
Lemma store_blocks_in full bs l g : In g (store_blocks full bs l) -> NoDup (map f_name l) ->
  In g l \/ (exists f, find_named f_name full l = Some f /\ g = mkFunc (f_name f) (f_params f) (f_variadic f) (f_void f) bs).
Proof.
  induction l as [|f l IH]; cbn; auto. intros HI HN. inversion HN; subst. destruct (String.eqb_spec (f_name f) full).
  - destruct HI as [<-|HI]; auto. right. eauto.
  - destruct HI as [<-|HI]; auto. destruct (IH HI H2) as [|(f' & ? & ?)]; eauto.
Qed.

Lemma wf_of_G ps c f : G ps c -> f_blocks f = c_blocks c -> f_params f = ps -> wf_function (gnames c) (fnames c) f.
Proof.
  intros HG EB EP. pose proof (G_blocks ps c HG) as GB. unfold wf_function. rewrite EB. split; [|split; [apply HG|]].
  - intros t Ht. unfold all_targets in Ht. apply in_app_or in Ht.
    destruct Ht as [Ht|Ht]; apply in_flat_map in Ht; destruct Ht as (i & Hi & Ht);
      apply in_flat_map in Hi; destruct Hi as (b & Hb & Hi); rewrite Forall_forall in GB;
      destruct (GB b Hb) as [B1 B2].
    + rewrite Forall_forall in B1. destruct (B1 i Hi) as [_ B3]. rewrite Forall_forall in B3. apply B3; auto.
    + rewrite Forall_forall in B2. destruct (B2 i Hi) as [_ B3]. rewrite Forall_forall in B3. apply B3; auto.
  - intros v Hv.
    assert (V : vok ps c v).
    { unfold all_operands in Hv. apply in_app_or in Hv.
      destruct Hv as [Hv|Hv]; apply in_flat_map in Hv; destruct Hv as (i & Hi & Hv);
        apply in_flat_map in Hi; destruct Hi as (b & Hb & Hi); rewrite Forall_forall in GB;
        destruct (GB b Hb) as [B1 B2].
      + rewrite Forall_forall in B1. destruct (B1 i Hi) as [B3 _]. rewrite Forall_forall in B3. apply B3; auto.
      + rewrite Forall_forall in B2. destruct (B2 i Hi) as [B3 _]. rewrite Forall_forall in B3. apply B3; auto. }
    destruct v; cbn in *; auto; [|congruence]. rewrite EB. apply (G_regs ps c HG). auto.
Qed.

Lemma EndFunction_ok ps full c : FG ps full c ->
  pwp EndFunction (fun _ c' => DI [] (cleared c')) c.
Proof.
  intros [HC HG]. unfold EndFunction.
  assert (K : forall c, cur_ok ps full c -> G ps c ->
    pwp (modify (fun c => set_cur None (set_locals [] (set_labels [] (set_blocks [] (set_builder 0%nat
      (match c_cur c with
       | Some full => set_mfuncs (store_blocks full (c_blocks c) (c_mfuncs c)) c
       | None => c
       end))))))) (fun _ c' => DI [] (cleared c')) c).
  { clear. intros c (EC & HN & f & HF & HP & HNm) HG. apply pwp_modify. rewrite EC.
    set (l := store_blocks full (c_blocks c) (c_mfuncs c)).
    assert (EN : map f_name l = fnames c) by apply store_blocks_names.
    constructor; cbn; auto.
    - unfold fnames. cbn. rewrite EN. apply Forall_forall. intros g Hg. 
      destruct (store_blocks_in _ _ _ _ Hg HN) as [Hin|(f' & E1 & E2)].
      + pose proof (G_module _ _ HG) as GM. rewrite Forall_forall in GM. apply GM. auto.
      + rewrite HF in E1. injection E1 as <-. apply (wf_of_G ps c); auto; rewrite E2; auto.
    - apply HG.
    - unfold fnames. cbn. rewrite EN. auto. }
  apply pwp_bind; [auto with pure|]. apply pwp_termIsNil. intros [|] _ _.
  - eapply FG_step; [auto with pure|auto with ms|split; eassumption|apply P_setTerm; [auto|split; repeat constructor]|cbv beta; intros v1 c2 F1 L1 W1].
    apply K; apply F1.
  - apply pwp_bind; [auto with pure|]. apply pwp_ret. auto.
Qed.

Lemma DI_function chk name params body c : DI [] c -> pwp (genD chk (DFunction name params body)) (fun _ c' => DI [] c') c.
Proof.
  intros H. unfold genD. apply pwp_bind; [pure_tac|].
  intros u c' Y.
  apply yields_bind_inv in Y; [|auto with pure]. destruct Y as (f & c1 & Y1 & Y).
  apply yields_bind_inv in Y; [|auto with pure]. destruct Y as (u1 & c2 & Y2 & Y).
  apply yields_bind_inv in Y; [|auto with pure]. destruct Y as (sw & c3 & Y3 & Y).
  pose proof (StartFunction_ok name params c H _ _ (yields_bind _ _ _ _ _ _ _ Y1 Y2)) as [HC HG].
  destruct (proj1 (P_genS_all _ chk) body None c2 HG _ _ Y3) as (HG3 & _ & _).
  pose proof (MS_genS chk body None c2 _ _ Y3) as S. cbv beta in S.
  apply pwp_clear. eapply EndFunction_ok; [|eassumption]. split; [|eassumption]. eapply cur_ok_msteps; eauto.
Qed.

Lemma DI_genD chk d c : DI [] c -> pwp (genD chk d) (fun _ c' => DI [] c') c.
Proof. destruct d; auto using DI_global, DI_vector, DI_function. Qed.
Lemma DI_genP chk ds : forall c, DI [] c -> pwp (genP chk ds) (fun _ c' => DI [] c') c.
Proof.
  induction ds as [|d ds IH]; intros c H; cbn [genP]; [apply pwp_ret; auto|].
  eapply pwp_use; [auto with pure|apply DI_genD; auto|]. cbv beta. auto.
Qed.
Lemma DI_new : DI [] NewCompiler.
Proof. constructor; cbn; auto. constructor. Qed.

Lemma generate_yields chk ds m : generate chk ds = Ok m tt -> exists c, yields (genP chk ds) NewCompiler tt c /\ m = module_of c.
Proof.
  unfold generate. destruct (genP chk ds _) as [[] s|e|] eqn:E; try discriminate. intros H; injection H as <-.
  destruct (yields_pure _ _ _ _ _ (pure_genP chk ds) E) as [Y _]. eauto.
Qed.

Theorem generate_wf chk ds m : generate chk ds = Ok m tt -> wf_module m.
Proof.
  intros H. apply generate_yields in H. destruct H as (c & Y & ->).
  destruct (DI_genP chk ds _ DI_new _ _ Y). intros f Hf. cbn in *. rewrite Forall_forall in DI_module0. apply DI_module0. auto.
Qed.

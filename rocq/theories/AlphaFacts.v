(** * AlphaFacts: the code generated for programs that are alike *)
From Coq Require Import List Ascii String ZArith NArith Lia Bool.
From Verif Require Import Base Lexer IR Builder Expr Stmt Decl Syntax Names SpecText SpecAlpha RenderWf.
Import ListNotations.
Open Scope Z_scope.
Open Scope m_scope.

Lemma place_assoc {A} x : forall (l : list (string * A)), assoc x l = match place x (map fst l) with Some i => nth_error (map snd l) i | None => None end.
Proof.
  induction l as [|[y v] l IH]; cbn; auto. destruct (String.eqb x y); auto. rewrite IH. destruct (place x (map fst l)); reflexivity.
Qed.
Lemma place_in x l : place x l = None <-> ~ In x l.
Proof.
  induction l as [|y l IH]; cbn; [tauto|]. destruct (String.eqb_spec x y) as [->|N]; [split; [discriminate|intros X; exfalso; auto]|].
  assert (E : (y = x \/ In x l) <-> In x l) by (split; [intros [->|]; auto; destruct N; auto|auto]). rewrite E, <- IH.
  destruct (place x l); cbn; split; congruence.
Qed.
Lemma mem_in x l : mem x l = true <-> In x l.
Proof.
  unfold mem. rewrite existsb_exists. split; [intros (y & Y & E); apply String.eqb_eq in E; subst; auto|]. intros. exists x. split; auto. apply String.eqb_refl.
Qed.

Lemma F2_len {A B} (R : A -> B -> Prop) l l' : Forall2 R l l' -> List.length l = List.length l'.
Proof. induction 1; cbn; auto. Qed.

Section Alpha.
Variable lab : pairs.
Hypothesis LAB : labelled lab.

(** Labels of the user, and those of cases. *)
Definition lbl (k k' : string) : Prop := In (k, k') lab \/ (k = k' /\ ~ nodot k).
Lemma ident_nodot x : ident x -> nodot x.
Proof. intros. apply nodot_name, ident_name. assumption. Qed.
Lemma lbl_inj a a' b b' : lbl a a' -> lbl b b' -> (a = b <-> a' = b').
Proof.
  destruct LAB as (N1 & N2 & ID). rewrite Forall_forall in ID.
  assert (U1 : forall x y z, In (x, y) lab -> In (x, z) lab -> y = z).
  { clear - N1. induction lab as [|[u v] l IH]; [intros; contradiction|]. cbn in N1. inversion N1; subst. intros x y z [E|E] [F|F]; try congruence; eauto.
    - injection E as -> ->. destruct H1. apply (in_map fst) in F. exact F.
    - injection F as -> ->. destruct H1. apply (in_map fst) in E. exact E. }
  assert (U2 : forall x y z, In (y, x) lab -> In (z, x) lab -> y = z).
  { clear - N2. induction lab as [|[u v] l IH]; [intros; contradiction|]. cbn in N2. inversion N2; subst. intros x y z [E|E] [F|F]; try congruence; eauto.
    - injection E as -> ->. destruct H1. apply (in_map snd) in F. exact F.
    - injection F as -> ->. destruct H1. apply (in_map snd) in E. exact E. }
  intros [A|[-> A]] [B|[-> B]].
  - split; intros ->; eauto.
  - destruct (ID _ A) as [I1 I2]. cbn in I1, I2. split; intros <-; [destruct (B (ident_nodot _ I1))|destruct (B (ident_nodot _ I2))].
  - destruct (ID _ B) as [I1 I2]. cbn in I1, I2. split; intros ->; [destruct (A (ident_nodot _ I1))|destruct (A (ident_nodot _ I2))].
  - tauto.
Qed.

(** The states of the two compilations. *)
Record K (sc : pairs) (c c' : cstate) : Prop := {
  K_mglobals : c_mglobals c = c_mglobals c';
  K_mfuncs : Forall2 same_func (c_mfuncs c) (c_mfuncs c');
  K_cur : c_cur c = c_cur c';
  K_blocks : Forall2 same_block (c_blocks c) (c_blocks c');
  K_builder : c_builder c = c_builder c';
  K_nreg : c_nreg c = c_nreg c';
  K_loc1 : map fst (c_locals c) = map fst sc;
  K_loc2 : map fst (c_locals c') = map snd sc;
  K_loc3 : map snd (c_locals c) = map snd (c_locals c');
  K_globals : c_globals c = c_globals c';
  K_functions : c_functions c = c_functions c';
  K_stringID : c_stringID c = c_stringID c';
  K_labelID : c_labelID c = c_labelID c';
  K_labels : Forall2 (fun p q => lbl (fst p) (fst q) /\ snd p = snd q) (c_labels c) (c_labels c');
  K_used : c_used c = c_used c'
}.
Definition rel {A} (sc sc' : pairs) (m m' : C A) : Prop := forall s s', K sc (cs s) (cs s') ->
  match m s, m' s' with
  | Ok a t, Ok a' t' => a = a' /\ K sc' (cs t) (cs t')
  | Err _, Err _ => True
  | Fuel, Fuel => True
  | _, _ => False
  end.
Lemma r_ret {A} sc (a : A) : rel sc sc (ret a) (ret a).
Proof. intros s s' H. cbn. auto. Qed.
Lemma r_err {A} sc sc' e e' : rel sc sc' (@errorf st A e) (errorf e').
Proof. intros s s' H. cbn. exact Logic.I. Qed.
Lemma r_bind {A B} sc sc1 sc2 (m m' : C A) (k k' : A -> C B) :
  rel sc sc1 m m' -> (forall a, rel sc1 sc2 (k a) (k' a)) -> rel sc sc2 (bind m k) (bind m' k').
Proof.
  intros H1 H2 s s' HK. unfold bind. specialize (H1 s s' HK). destruct (m s), (m' s'); try contradiction; auto.
  destruct H1 as [<- H1]. apply (H2 a). exact H1.
Qed.
Lemma r_get {B} sc sc2 (k k' : cstate -> C B) : (forall c c', K sc c c' -> rel sc sc2 (k c) (k' c')) -> rel sc sc2 (bind get k) (bind get k').
Proof. intros H s s' HK. unfold bind, get. apply (H _ _ HK). exact HK. Qed.
Lemma r_modify sc sc' f f' : (forall c c', K sc c c' -> K sc' (f c) (f' c')) -> rel sc sc' (modify f) (modify f').
Proof. intros H s s' HK. cbn. auto. Qed.

Lemma F2_upd {A} (R : A -> A -> Prop) n f f' : (forall a b, R a b -> R (f a) (f' b)) -> forall l l', Forall2 R l l' -> Forall2 R (upd n f l) (upd n f' l').
Proof. intros H l l' F. revert n. induction F; intros [|n]; cbn; constructor; auto. Qed.
Ltac ks := match goal with HK : K _ _ _ |- K _ _ _ => destruct HK; constructor; cbn; auto end.
Lemma r_emit_gen sc i i' : same_inst i i' -> rel sc sc (emit i) (emit i').
Proof.
  intros S. apply r_modify. intros c c' HK. ks. rewrite K_builder0. apply F2_upd; auto. intros a b [H1 H2]. split; cbn; auto. apply Forall2_app; auto.
Qed.
Lemma r_emit sc i : rel sc sc (emit i) (emit i).
Proof. apply r_emit_gen. left. reflexivity. Qed.
Lemma r_setTerm sc t : rel sc sc (setTerm t) (setTerm t).
Proof. apply r_modify. intros c c' HK. ks. rewrite K_builder0. apply F2_upd; auto. intros a b [H1 H2]. split; cbn; auto. Qed.
Lemma r_fresh sc : rel sc sc fresh fresh.
Proof. intros s s' HK. cbn. split; [apply HK|]. ks. Qed.
Lemma r_emitR sc mk : rel sc sc (emitR mk) (emitR mk).
Proof. unfold emitR. eapply r_bind; [apply r_fresh|]. intros a. eapply r_bind; [apply r_emit|]. intros _. apply r_ret. Qed.
Lemma r_NewBlock_gen sc n n' : rel sc sc (NewBlock n) (NewBlock n').
Proof.
  intros s s' HK. cbn. split; [eapply F2_len; apply HK|]. ks. apply Forall2_app; auto. constructor; [|constructor]. split; cbn; auto.
Qed.
Lemma r_NewBlock sc n : rel sc sc (NewBlock n) (NewBlock n).
Proof. apply r_NewBlock_gen. Qed.
Lemma r_SetInsertPoint sc b : rel sc sc (SetInsertPoint b) (SetInsertPoint b).
Proof. apply r_modify. intros c c' HK. ks. Qed.
Lemma r_GetInsertBlock sc : rel sc sc GetInsertBlock GetInsertBlock.
Proof. apply r_get. intros c c' HK. rewrite (K_builder _ _ _ HK). apply r_ret. Qed.
Lemma F2_nth {A} (R : A -> A -> Prop) l l' : Forall2 R l l' -> forall n, match nth_error l n, nth_error l' n with Some a, Some b => R a b | None, None => True | _, _ => False end.
Proof. induction 1; intros [|n]; cbn; auto. apply IHForall2. Qed.
Lemma r_termIsNil sc : rel sc sc termIsNil termIsNil.
Proof.
  apply r_get. intros c c' HK. rewrite (K_builder _ _ _ HK). pose proof (F2_nth _ _ _ (K_blocks _ _ _ HK) (c_builder c')) as H.
  destruct (nth_error (c_blocks c) _), (nth_error (c_blocks c') _); try contradiction; [|apply r_ret]. destruct H as [_ ->]. apply r_ret.
Qed.
Lemma r_nextLabelID sc : rel sc sc nextLabelID nextLabelID.
Proof. intros s s' HK. cbn. split; [apply HK|]. ks. rewrite K_labelID0. auto. Qed.
Lemma labels_assoc k k' l l' : lbl k k' -> Forall2 (fun p q => lbl (fst p) (fst q) /\ snd p = snd q) l l' -> @assoc nat k l = assoc k' l'.
Proof.
  intros H F. induction F as [|[a b] [a' b'] l l' [F1 F2] _ IH]; cbn; auto. cbn in F1, F2. subst b'. destruct (lbl_inj _ _ _ _ H F1) as [I1 I2].
  destruct (String.eqb_spec k a) as [E|E], (String.eqb_spec k' a') as [E'|E']; auto; exfalso; tauto.
Qed.
Lemma r_label sc k k' : lbl k k' -> rel sc sc (GetOrCreateLabel k) (GetOrCreateLabel k').
Proof.
  intros H. apply r_get. intros c c' HK. rewrite (labels_assoc k k' _ _ H (K_labels _ _ _ HK)). destruct (assoc k' (c_labels c')); [apply r_ret|].
  eapply r_bind; [apply r_NewBlock_gen|]. intros b. eapply r_bind; [|intros; apply r_ret].
  apply r_modify. clear c c' HK. intros c c' HK. ks.
Qed.
Lemma r_brIfOpen sc b : rel sc sc (brIfOpen b) (brIfOpen b).
Proof. unfold brIfOpen. eapply r_bind; [apply r_termIsNil|]. intros [|]; [apply r_setTerm|apply r_ret]. Qed.

Lemma find_func full : forall l l', Forall2 same_func l l' ->
  match find_named f_name full l, find_named f_name full l' with Some f, Some f' => fun_value f = fun_value f' | None, None => True | _, _ => False end.
Proof.
  induction 1 as [|f f' l l' H _ IH]; cbn; auto. rewrite (sf_name _ _ H). destruct (String.eqb _ full); auto. unfold fun_value.
  rewrite (sf_name _ _ H), (sf_params _ _ H), (sf_variadic _ _ H). reflexivity.
Qed.
Lemma remove_func full : forall l l', Forall2 same_func l l' -> Forall2 same_func (remove_named f_name full l) (remove_named f_name full l').
Proof. induction 1 as [|f f' l l' H HF IH]; cbn; auto. rewrite (sf_name _ _ H). destruct (String.eqb _ full); auto. Qed.
Lemma same_refl f : f_blocks f = [] -> same_func f f.
Proof. intros E. constructor; auto. rewrite E. constructor. Qed.
Lemma r_GetOrDeclare sc x : rel sc sc (GetOrDeclareFunction x) (GetOrDeclareFunction x).
Proof.
  apply r_get. intros c c' HK. rewrite (K_functions _ _ _ HK), (K_globals _ _ _ HK). destruct (assoc x (c_functions c')); [apply r_ret|].
  destruct (assoc x (c_globals c')); [apply r_ret|]. eapply r_bind; [|intros; apply r_ret]. apply r_modify. clear c c' HK. intros c c' HK.
  ks; try congruence. apply Forall2_app; [apply remove_func; auto|]. constructor; [apply same_refl; reflexivity|constructor].
Qed.
Lemma r_local sc x y : rel sc ((x, y) :: sc) (bind_local x (VInt 0)) (bind_local y (VInt 0)).
Proof. apply r_modify. intros c c' HK. ks; congruence. Qed.
Lemma r_bind_local sc x y v : rel sc ((x, y) :: sc) (bind_local x v) (bind_local y v).
Proof. apply r_modify. intros c c' HK. ks; congruence. Qed.
Lemma r_string sc t : rel sc sc (CreateStringConstant t) (CreateStringConstant t).
Proof.
  apply r_get. intros c c' HK. rewrite (K_stringID _ _ _ HK). eapply r_bind; [|intros; apply r_ret]. apply r_modify.
  intros d d' HK'. ks; congruence.
Qed.
Lemma local_address sc x y i c c' : same_name sc x y -> place x (map fst sc) = Some i -> K sc c c' ->
  exists v, assoc x (c_locals c) = Some v /\ assoc y (c_locals c') = Some v.
Proof.
  intros [P1 P2] E HK. rewrite !place_assoc, (K_loc1 _ _ _ HK), (K_loc2 _ _ _ HK), <- P1, (K_loc3 _ _ _ HK), E.
  assert (B : nth_error (map snd (c_locals c')) i <> None).
  { apply nth_error_Some. rewrite <- (K_loc3 _ _ _ HK), map_length, <- (map_length fst), (K_loc1 _ _ _ HK). clear - E. revert i E. induction (map fst sc) as [|z l IH]; intros i E; cbn in *; [discriminate|].
    destruct (String.eqb x z); [injection E as <-; lia|]. destruct (place x l); [|discriminate]. injection E as <-. specialize (IH _ eq_refl). lia. }
  destruct (nth_error (map snd (c_locals c')) i) as [v|]; [eauto|contradiction].
Qed.
Lemma r_address sc x y : same_name sc x y -> rel sc sc (GetAddress x) (GetAddress y).
Proof.
  intros S. apply r_get. intros c c' HK. destruct (place x (map fst sc)) as [i|] eqn:E.
  - destruct (local_address sc x y i _ _ S E HK) as (v & V1 & V2). rewrite V1, V2. apply r_ret.
  - assert (X : x = y) by (apply S; auto). subst y. destruct S as [P _].
    rewrite (place_assoc x (c_locals c)), (place_assoc x (c_locals c')), (K_loc1 _ _ _ HK), (K_loc2 _ _ _ HK), <- P, E, (K_globals _ _ _ HK).
    destruct (assoc x (c_globals c')) as [[full [|]]|]; [|apply r_ret..]. eapply r_bind; [apply r_emitR|]. intros; apply r_ret.
Qed.

(** ** Expressions *)
Lemma r_rval sc v l : rel sc sc (rval v l) (rval v l).
Proof. destruct l; [apply r_emitR|apply r_ret]. Qed.
Lemma r_cmpz sc p a b : rel sc sc (cmpz p a b) (cmpz p a b).
Proof. eapply r_bind; [apply r_emitR|]. intros; apply r_emitR. Qed.
Lemma r_cop sc op a b : rel sc sc (applyCop op a b) (applyCop op a b).
Proof. destruct op; [apply r_emitR|apply r_cmpz]. Qed.
Lemma r_doCall sc f l : rel sc sc (doCall f l) (doCall f l).
Proof.
  destruct f; cbn [doCall]; cbv zeta; try destruct (_ && _)%bool; try apply r_emitR; (eapply r_bind; [apply r_emitR|]); intros; apply r_emitR.
Qed.
Lemma r_incDec sc op p : rel sc sc (incDec op p) (incDec op p).
Proof. eapply r_bind; [apply r_emitR|]. intros. eapply r_bind; [apply r_emitR|]. intros. eapply r_bind; [apply r_emit|]. intros. apply r_ret. Qed.
Lemma r_genVar sc q x y : same_name sc x y -> rel sc sc (genVar q x) (genVar q y).
Proof.
  intros S. destruct (place x (map fst sc)) as [i|] eqn:E.
  - intros s s' HK. destruct (local_address sc x y i _ _ S E HK) as (v & V1 & V2). unfold genVar, bind, GetAddress, bind, get. rewrite V1, V2. cbn. auto.
  - assert (X : x = y) by (apply S; auto). subst y. unfold genVar. eapply r_bind; [apply r_address; auto|]. intros [a|]; [apply r_ret|].
    destruct q; [apply r_err|]. apply r_get. intros c c' HK. pose proof (find_func (globalName x) _ _ (K_mfuncs _ _ _ HK)) as F. unfold findFuncByName.
    destruct (find_named _ _ (c_mfuncs c)), (find_named _ _ (c_mfuncs c')); try contradiction.
    + rewrite F. eapply r_bind; [apply r_emitR|]. intros; apply r_ret.
    + eapply r_bind; [apply r_GetOrDeclare|]. intros [fn|]; [|apply r_err]. eapply r_bind; [apply r_emitR|]. intros; apply r_ret.
Qed.
Lemma r_genCallee sc x : rel sc sc (genCallee x) (genCallee x).
Proof.
  unfold genCallee. apply r_get. intros c c' HK. pose proof (find_func (globalName x) _ _ (K_mfuncs _ _ _ HK)) as F. unfold findFuncByName.
  destruct (find_named _ _ (c_mfuncs c)), (find_named _ _ (c_mfuncs c')); try contradiction; [rewrite F; apply r_ret|].
  rewrite (K_globals _ _ _ HK). destruct (assoc x (c_globals c')) as [[full b]|]; [apply r_ret|].
  eapply r_bind; [apply r_GetOrDeclare|]. intros [fn|]; [apply r_ret|apply r_err].
Qed.

Scheme alikeE_mind := Induction for alikeE Sort Prop with alikeA_mind := Induction for alikeA Sort Prop.
Ltac one := lazymatch goal with
  | |- rel _ _ (ret _) _ => apply r_ret
  | |- rel _ _ (errorf _) _ => apply r_err
  | |- rel _ _ (emitR _) _ => apply r_emitR
  | |- rel _ _ (emit _) _ => apply r_emit
  | |- rel _ _ (setTerm _) _ => apply r_setTerm
  | |- rel _ _ (rval _ _) _ => apply r_rval
  | |- rel _ _ (applyCop _ _ _) _ => apply r_cop
  | |- rel _ _ (cmpz _ _ _) _ => apply r_cmpz
  | |- rel _ _ (doCall _ _) _ => apply r_doCall
  | |- rel _ _ (incDec _ _) _ => apply r_incDec
  | |- rel _ _ nextLabelID _ => apply r_nextLabelID
  | |- rel _ _ (NewBlock _) _ => apply r_NewBlock
  | |- rel _ _ (SetInsertPoint _) _ => apply r_SetInsertPoint
  | |- rel _ _ GetInsertBlock _ => apply r_GetInsertBlock
  | |- rel _ _ (brIfOpen _) _ => apply r_brIfOpen
  | |- rel _ _ (CreateStringConstant _) _ => apply r_string
  | |- rel _ _ (genCallee _) _ => apply r_genCallee
  | H : forall q, rel _ _ (gen _ q ?e) _ |- rel _ _ (gen _ _ ?e) _ => apply H
  | |- _ => eassumption
  end.
Ltac go := repeat match goal with
  | |- rel _ _ (bind _ _) (bind _ _) => eapply r_bind; [solve [one]|]; intros
  | |- rel _ _ (let '(_, _) := ?a in _) _ => destruct a
  | |- rel _ _ (if ?b then _ else _) _ => destruct b
  | |- rel _ _ (match ?o with Some _ => _ | None => _ end) _ => destruct o
  end; try solve [one].
Lemma r_gen_all chk sc : (forall e e', alikeE sc e e' -> forall q, rel sc sc (gen chk q e) (gen chk q e')) /\
  (forall l l', alikeA sc l l' -> rel sc sc (genArgs chk l) (genArgs chk l')).
Proof.
  split.
  - apply (alikeE_mind sc (fun e e' _ => forall q, rel sc sc (gen chk q e) (gen chk q e')) (fun l l' _ => rel sc sc (genArgs chk l) (genArgs chk l')));
      intros; cbn [gen genArgs]; fold (gen chk) (genArgs chk); try (apply r_genVar; assumption); go.
  - apply (alikeA_mind sc (fun e e' _ => forall q, rel sc sc (gen chk q e) (gen chk q e')) (fun l l' _ => rel sc sc (genArgs chk l) (genArgs chk l')));
      intros; cbn [gen genArgs]; fold (gen chk) (genArgs chk); try (apply r_genVar; assumption); go.
Qed.
Lemma r_genR chk sc q e e' : alikeE sc e e' -> rel sc sc (genR chk q e) (genR chk q e').
Proof. intros H. unfold genR. eapply r_bind; [apply r_gen_all; auto|]. intros [v l]. apply r_rval. Qed.

(** ** Statements *)
Ltac oneS := lazymatch goal with
  | |- rel _ _ (genR _ _ _) _ => apply r_genR; assumption
  | |- _ => one
  end.
Ltac goS := repeat lazymatch goal with
  | |- rel _ _ (bind _ _) (bind _ _) => eapply r_bind; [solve [oneS]|]; intros
  end; try solve [oneS].
Lemma r_extern sc x : rel sc sc (externName x) (externName x).
Proof.
  unfold externName. apply r_get. intros c c' HK. unfold findGlobalByName. rewrite (K_mglobals _ _ _ HK).
  destruct (find_named g_name _ (c_mglobals c')). { apply r_modify. clear. intros c c' HK. ks. congruence. }
  pose proof (find_func (globalName x) _ _ (K_mfuncs _ _ _ HK)) as F. unfold findFuncByName. destruct (find_named _ _ (c_mfuncs c)), (find_named _ _ (c_mfuncs c')); try contradiction; [apply r_err|].
  rewrite (K_used _ _ _ HK). destruct (mem x (c_used c')); [apply r_err|]. apply r_modify. clear. intros c c' HK. ks; congruence.
Qed.
Lemma r_genExtrn sc l : rel sc sc (genExtrn l) (genExtrn l).
Proof. induction l as [|x l IH]; cbn [genExtrn]; [apply r_ret|]. eapply r_bind; [apply r_extern|]. intros; exact IH. Qed.
Lemma mem_same x y l l' : (In x l <-> In y l') -> mem x l = mem y l'.
Proof. intros H. destruct (mem x l) eqn:E, (mem y l') eqn:E'; auto; exfalso; [apply mem_in in E; apply H, mem_in in E; congruence|apply mem_in in E'; apply H, mem_in in E'; congruence]. Qed.
Lemma r_checkAutos l l' : forall sc sp sc', alikeV (sp ++ sc) l l' sc' -> rel sc sc (checkAutos (map fst sp) l) (checkAutos (map snd sp) l').
Proof.
  intros sc sp sc' H. remember (sp ++ sc) as all eqn:EQ. revert sp EQ. induction H as [all|all x y n l l' sc' H1 H2 IH]; intros sp ->; cbn [checkAutos]; [apply r_ret|].
  apply r_get. intros c c' HK. rewrite (K_loc1 _ _ _ HK), (K_loc2 _ _ _ HK). rewrite !map_app, !in_app_iff in H1.
  destruct (mem x (map fst sp)) eqn:M1, (mem y (map snd sp)) eqn:M2; try apply r_err.
  - destruct (mem y (map snd sc)) eqn:M3; [apply r_err|]. apply mem_in in M1. assert (X : In y (map snd sp) \/ In y (map snd sc)) by tauto.
    destruct X as [X|X]; apply mem_in in X; congruence.
  - destruct (mem x (map fst sc)) eqn:M3; [apply r_err|]. apply mem_in in M2. assert (X : In x (map fst sp) \/ In x (map fst sc)) by tauto.
    destruct X as [X|X]; apply mem_in in X; congruence.
  - assert (N1 : ~ In x (map fst sp)) by (intros X; apply mem_in in X; congruence). assert (N2 : ~ In y (map snd sp)) by (intros X; apply mem_in in X; congruence).
    rewrite (mem_same x y (map fst sc) (map snd sc)) by tauto. destruct (mem y (map snd sc)); [apply r_err|]. apply (IH ((x, y) :: sp)). reflexivity.
Qed.
Lemma r_declareAutos l l' : forall sc sc', alikeV sc l l' sc' -> rel sc sc' (declareAutos l) (declareAutos l').
Proof.
  intros sc sc' H. induction H as [sc|sc x y n l l' sc' H1 H2 IH]; cbn [declareAutos]; [apply r_ret|].
  eapply r_bind; [|intros; exact IH]. destruct (n =? -1).
  - unfold DeclareLocal. go. apply r_bind_local.
  - unfold DeclareLocalArray. cbv zeta. go. apply r_bind_local.
Qed.
Lemma case_lbl id z : lbl ("case." ++ dec id ++ "." ++ dec z) ("case." ++ dec id ++ "." ++ dec z).
Proof. right. split; auto. intros N. apply N. do 4 right. left. reflexivity. Qed.
Lemma r_switchCases sc id vals : rel sc sc (switchCases id vals) (switchCases id vals).
Proof.
  induction vals as [|v r IH]; cbn [switchCases]; [apply r_ret|]. eapply r_bind; [apply r_label, case_lbl|]. intros. eapply r_bind; [exact IH|]. intros; apply r_ret.
Qed.
Scheme alikeS_mind := Induction for alikeS Sort Prop with alikeL_mind := Induction for alikeL Sort Prop.
Lemma r_genS_all chk : (forall sc s s' sc', alikeS lab sc s s' sc' -> forall sw, rel sc sc' (genS chk s sw) (genS chk s' sw)) /\
  (forall sc l l' sc', alikeL lab sc l l' sc' -> forall sw, rel sc sc' (genL chk l sw) (genL chk l' sw)).
Proof.
  assert (H : forall sc s s' sc' (D : alikeS lab sc s s' sc'), forall sw, rel sc sc' (genS chk s sw) (genS chk s' sw)).
  { apply (alikeS_mind lab (fun sc s s' sc' _ => forall sw, rel sc sc' (genS chk s sw) (genS chk s' sw)) (fun sc l l' sc' _ => forall sw, rel sc sc' (genL chk l sw) (genL chk l' sw)));
      intros; cbn [genS genL]; fold (genS chk) (genL chk).
    - apply r_ret.
    - goS.
    - apply H.
    - goS.
    - goS.
    - eapply r_bind; [apply (r_checkAutos l l' sc [] sc'); auto|]. intros. eapply r_bind; [apply r_declareAutos; eauto|]. intros; apply r_ret.
    - eapply r_bind; [apply r_genExtrn|]. intros; apply r_ret.
    - goS. eapply r_bind; [apply H|]. intros. goS.
    - goS. eapply r_bind; [apply H|]. intros. goS. eapply r_bind; [apply H0|]. intros. goS.
    - goS. eapply r_bind; [apply H|]. intros. goS.
    - goS. eapply r_bind; [apply H|]. intros sw'. goS. eapply r_bind; [|intros; goS]. destruct sw' as [[i [|v0 vals]]|]; try apply r_setTerm.
      eapply r_bind; [apply r_switchCases|]. intros; apply r_setTerm.
    - destruct sw as [[id vals]|]; [|apply r_err]. eapply r_bind; [apply r_label, case_lbl|]. intros. goS. apply H.
    - eapply r_bind; [apply r_label; left; eassumption|]. intros. goS.
    - eapply r_bind; [apply r_label; left; eassumption|]. intros. goS. apply H.
    - apply r_ret.
    - eapply r_bind; [apply H|]. intros. apply H0. }
  split; [exact H|]. intros sc l l' sc' HL. induction HL as [sc|sc s s' sc' l l' sc'' HS HL IH]; intros sw; cbn [genL]; fold (genS chk) (genL chk); [apply r_ret|].
  eapply r_bind; [apply H; eassumption|]. intros. apply IH.
Qed.
Lemma r_genS chk sc s s' sc' sw : alikeS lab sc s s' sc' -> rel sc sc' (genS chk s sw) (genS chk s' sw).
Proof. intros. apply r_genS_all. assumption. Qed.
Lemma r_va_params va : forall ps qs sc, List.length ps = List.length qs -> rel sc (rev (combine ps qs) ++ sc) (va_params va ps) (va_params va qs).
Proof.
  induction ps as [|p ps IH]; intros [|q qs] sc E; cbn in E; try discriminate; cbn [va_params combine rev app]; [apply r_ret|].
  goS. eapply r_bind; [apply r_bind_local|]. intros. rewrite <- app_assoc. cbn [app]. apply IH. lia.
Qed.
Lemma r_getOrCreate sc x : rel sc sc (getOrCreateFunc x) (getOrCreateFunc x).
Proof.
  apply r_modify. intros c c' HK. pose proof (find_func x _ _ (K_mfuncs _ _ _ HK)) as F. destruct (find_named _ _ (c_mfuncs c)), (find_named _ _ (c_mfuncs c')); try contradiction; auto.
  ks. apply Forall2_app; auto. constructor; [apply same_refl; reflexivity|constructor].
Qed.
End Alpha.

(** ** Definitions *)
(** The code at the beginning of a function. *)
Definition prologue (params : list string) : C unit :=
  match params with
  | [] => ret tt
  | [p] =>
      a <- emitR (fun r => IAlloca r 1) ;;
      emit (IStore (VParam p) a) ;;;
      bind_local p a
  | p :: ps =>
      a <- emitR (fun r => IAlloca r 1) ;;
      emit (IStore (VParam p) a) ;;;
      bind_local p a ;;;
      vaArr <- emitR IAllocaVA ;;
      va <- emitR (fun r => IGepArr r vaArr 1 0) ;;
      getOrCreateFunc "llvm.va_start" ;;;
      emit (IVaStart va) ;;;
      va_params va ps ;;;
      getOrCreateFunc "llvm.va_end" ;;;
      emit (IVaEnd va)
  end.
Lemma r_prologue lab ps qs : List.length ps = List.length qs -> rel lab [] (rev (combine ps qs)) (prologue ps) (prologue qs).
Proof.
  destruct ps as [|p [|p2 ps]], qs as [|q [|q2 qs]]; intros E; cbn in E; try discriminate.
  - apply r_ret.
  - cbn [prologue combine rev app]. eapply r_bind; [apply r_emitR|]. intros a. eapply r_bind; [apply r_emit_gen; right; eauto|]. intros. apply r_bind_local.
  - unfold prologue. eapply r_bind; [apply r_emitR|]. intros a. eapply r_bind; [apply r_emit_gen; right; eauto|]. intros. eapply r_bind; [apply r_bind_local|]. intros.
    eapply r_bind; [apply r_emitR|]. intros. eapply r_bind; [apply r_emitR|]. intros. eapply r_bind; [apply r_getOrCreate|]. intros. eapply r_bind; [apply r_emit|]. intros.
    change (rev (combine (p :: p2 :: ps) (q :: q2 :: qs))) with (rev (combine (p2 :: ps) (q2 :: qs)) ++ [(p, q)]).
    eapply r_bind; [apply r_va_params; cbn; lia|]. intros. eapply r_bind; [apply r_getOrCreate|]. intros. apply r_emit.
Qed.
Definition head_of (name : string) (params : list string) : func :=
  match params with
  | [] => mkFunc (globalName name) [] false false []
  | p :: _ => mkFunc (globalName name) [p] true false []
  end.
Definition opened (name : string) (params : list string) (c : cstate) : cstate :=
  let f := head_of name params in
  set_cur (Some (f_name f)) (set_nreg 0%nat (set_locals [] (set_labels [] (set_builder 0%nat (set_blocks [mkBlock "entry" [] None]
    (set_functions ((name, fun_value f) :: c_functions c) (newFunc f (set_fparams ((name, params) :: c_fparams c) (removeFuncByName name c))))))))).
Lemma start_eq {A} name params (k : C A) s :
  bind (DeclareFunction name params) (fun f => bind (StartFunction name f) (fun _ => k)) s =
  bind (prologue params) (fun _ => k) (mkSt (lx s) (opened name params (cs s))).
Proof.
  unfold StartFunction, DeclareFunction, bind, modify, ret, get. cbn [cs lx]. cbn [c_fparams set_cur set_nreg set_locals set_labels set_builder set_blocks set_functions newFunc set_mfuncs set_fparams assoc].
  rewrite String.eqb_refl. unfold opened, head_of, prologue, bind. destruct params as [|p [|p2 ps]]; reflexivity.
Qed.
Definition top (c c' : cstate) : Prop := K [] [] c c'.
Lemma opened_ok lab name ps qs c c' : List.length ps = List.length qs -> top c c' -> K lab [] (opened name ps c) (opened name qs c').
Proof.
  intros E HK. destruct HK. constructor; cbn; auto.
  - apply Forall2_app; [apply remove_func; auto|]. constructor; [|constructor]. destruct ps, qs; try discriminate; constructor; cbn; auto.
  - destruct ps, qs; try discriminate; reflexivity.
  - constructor; [|constructor]. split; cbn; auto.
  - rewrite K_functions0. destruct ps, qs; try discriminate; reflexivity.
Qed.
Lemma store_same full bs bs' : Forall2 same_block bs bs' -> forall l l', Forall2 same_func l l' -> Forall2 same_func (store_blocks full bs l) (store_blocks full bs' l').
Proof.
  intros B. induction 1 as [|f f' l l' H HF IH]; cbn; [constructor|]. rewrite (sf_name _ _ H). destruct (String.eqb _ full); constructor; auto.
  destruct H; constructor; cbn; auto.
Qed.
Definition relT {A} (m m' : C A) : Prop := forall s s', top (cs s) (cs s') ->
  match m s, m' s' with
  | Ok _ t, Ok _ t' => top (cs t) (cs t')
  | Err _, Err _ => True
  | Fuel, Fuel => True
  | _, _ => False
  end.
Lemma relT_bind {A B} (m m' : C A) (k k' : C B) : relT m m' -> relT k k' -> relT (bind m (fun _ => k)) (bind m' (fun _ => k')).
Proof.
  intros H1 H2 s s' HT. unfold bind. specialize (H1 s s' HT). destruct (m s), (m' s'); try contradiction; auto. apply H2. exact H1.
Qed.
Lemma relT_rel {A} (m m' : C A) : rel [] [] [] m m' -> relT m m'.
Proof. intros H s s' HT. specialize (H s s' HT). destruct (m s), (m' s'); tauto. Qed.
Lemma r_clear : rel [] [] [] ClearTopLevelContext ClearTopLevelContext.
Proof. apply r_modify. intros c c' []; constructor; cbn; auto. Qed.
Lemma r_EndFunction lab sc s s' : K lab sc (cs s) (cs s') ->
  match EndFunction s, EndFunction s' with
  | Ok _ t, Ok _ t' => top (cs t) (cs t')
  | Err _, Err _ => True
  | Fuel, Fuel => True
  | _, _ => False
  end.
Proof.
  intros HK. unfold EndFunction.
  assert (H : forall u u', K lab sc u u' -> let f := fun c => set_cur None (set_locals [] (set_labels [] (set_blocks [] (set_builder 0%nat
      (match c_cur c with Some full => set_mfuncs (store_blocks full (c_blocks c) (c_mfuncs c)) c | None => c end))))) in top (f u) (f u')).
  { intros u u' []. cbv beta zeta. rewrite K_cur0. destruct (c_cur u'); constructor; cbn; auto. apply store_same; auto. }
  pose proof (r_termIsNil lab sc s s' HK) as T. unfold bind. destruct (termIsNil s) as [b t|e|], (termIsNil s') as [b' t'|e'|]; try contradiction; auto.
  destruct T as [<- T]. destruct b.
  - pose proof (r_setTerm lab sc (TRet (VInt 0)) t t' T) as U. unfold setTerm, modify in *. cbn in U. destruct U as [_ U]. exact (H _ _ U).
  - cbn. exact (H _ _ T).
Qed.
Lemma r_ivals sc l : rel [] sc sc (genIvals l) (genIvals l).
Proof.
  induction l as [|[z|t] l IH]; cbn [genIvals genIval]; [apply r_ret|..].
  - eapply r_bind; [apply r_ret|]. intros. eapply r_bind; [exact IH|]. intros. apply r_ret.
  - eapply r_bind; [eapply r_bind; [apply r_string|intros; apply r_ret]|]. intros. eapply r_bind; [exact IH|]. intros. apply r_ret.
Qed.
Lemma r_remove x : rel [] [] [] (modify (removeGlobalByName x)) (modify (removeGlobalByName x)).
Proof. apply r_modify. intros c c' []; constructor; cbn; auto. congruence. Qed.
Lemma r_add x g : rel [] [] [] (modify (fun c => bind_global x g (newGlobalDef g c))) (modify (fun c => bind_global x g (newGlobalDef g c))).
Proof. apply r_modify. intros c c' []; constructor; cbn; auto; congruence. Qed.
Lemma r_add2 x g d : rel [] [] [] (modify (fun c => bind_global x g (newGlobalDef g (newGlobalDef d c)))) (modify (fun c => bind_global x g (newGlobalDef g (newGlobalDef d c)))).
Proof. apply r_modify. intros c c' []; constructor; cbn; auto; congruence. Qed.
Lemma r_genD chk d d' : alikeD d d' -> relT (genD chk d) (genD chk d').
Proof.
  intros H. destruct H as [x l|x n l|x ps qs s s' lab sc LN LB HS].
  - unfold genD. apply relT_bind; [|apply relT_rel, r_clear]. apply relT_rel. eapply r_bind; [apply r_remove|]. intros _. eapply r_bind; [apply r_ivals|].
    intros [|w [|w2 ws]]; apply r_add.
  - unfold genD. apply relT_bind; [|apply relT_rel, r_clear]. apply relT_rel. eapply r_bind; [apply r_remove|]. intros _. eapply r_bind; [apply r_ivals|].
    intros ws. unfold DeclareGlobalArray. cbv zeta. destruct (_ && _)%bool; [destruct (_ && _)%bool|destruct (_ && _)%bool]; first [apply r_add2|apply r_add].
  - unfold genD. apply relT_bind; [|apply relT_rel, r_clear]. intros u u' HT.
    rewrite !start_eq. assert (P := r_prologue lab ps qs LN (mkSt (lx u) (opened x ps (cs u))) (mkSt (lx u') (opened x qs (cs u'))) (opened_ok lab x ps qs _ _ LN HT)).
    unfold bind. destruct (prologue ps _) as [a t|e|], (prologue qs _) as [a' t'|e'|]; try contradiction; auto. destruct P as [_ P].
    assert (Q := r_genS lab LB chk _ s s' sc None HS t t' P). destruct (genS chk s None t) as [b v|e|], (genS chk s' None t') as [b' v'|e'|]; try contradiction; auto.
    destruct Q as [_ Q]. exact (r_EndFunction lab sc v v' Q).
Qed.
Lemma r_genP chk ds ds' : alike ds ds' -> relT (genP chk ds) (genP chk ds').
Proof.
  induction 1 as [|d d' ds ds' H _ IH]; cbn [genP]; [intros s s' HT; cbn; exact HT|]. apply relT_bind; [apply r_genD; auto|exact IH].
Qed.
(** The code of programs that are alike. *)
Theorem alike_generate chk ds ds' : alike ds ds' ->
  match generate chk ds, generate chk ds' with
  | Ok M _, Ok M' _ => same_code M M'
  | Err _, Err _ => True
  | Fuel, Fuel => True
  | _, _ => False
  end.
Proof.
  intros H. unfold generate. assert (T : top (cs (mkSt (mkLexer [] false) NewCompiler)) (cs (mkSt (mkLexer [] false) NewCompiler))).
  { constructor; cbn; auto. }
  pose proof (r_genP chk ds ds' H _ _ T) as R. destruct (genP chk ds _), (genP chk ds' _); try contradiction; auto. destruct R. split; auto.
Qed.

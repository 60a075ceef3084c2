(** * InvTerm: which blocks of a function have a terminator *)
From Coq Require Import List Ascii String ZArith NArith Lia Bool.
From Verif Require Import Base Lexer IR Builder Expr Stmt Decl DriverModes Wp Syntax SpecTree Pure ParseGen Pwp Names InvIR InvDecl InvNames Built.
Import ListNotations.
Open Scope string_scope.
Open Scope list_scope.
Open Scope Z_scope.
Open Scope m_scope.

(** [V]: labels already placed; [P]: blocks made and not yet filled. *)
Record TI (V : string -> Prop) (P : list nat) (c : cstate) : Prop := {
  TI_builder : (c_builder c < List.length (c_blocks c))%nat;
  TI_pend : forall i, In i P -> (i < List.length (c_blocks c))%nat;
  TI_lt : forall n i, assoc n (c_labels c) = Some i -> (i < List.length (c_blocks c))%nat;
  TI_open : forall i b, nth_error (c_blocks c) i = Some b -> b_term b = None ->
    i = c_builder c \/ In i P \/ exists n, assoc n (c_labels c) = Some i /\ ~ V n;
  TI_lab : forall n i, assoc n (c_labels c) = Some i -> ~ V n ->
    nth_error (c_blocks c) i = Some (mkBlock n [] None) /\ i <> c_builder c /\ ~ In i P;
  TI_inj : forall n m i, assoc n (c_labels c) = Some i -> assoc m (c_labels c) = Some i -> n = m;
  TI_visited : forall n, V n -> assoc n (c_labels c) <> None;
  TI_dec : forall n, V n \/ ~ V n
}.
Definition closed (c : cstate) : Prop := exists b t, nth_error (c_blocks c) (c_builder c) = Some b /\ b_term b = Some t.

Lemma nth_lt {A} (l : list A) i x : nth_error l i = Some x -> (i < List.length l)%nat.
Proof. intros H. apply nth_error_Some. congruence. Qed.

(** Changing the current block. *)
Lemma TI_upd V P c c' f : c_blocks c' = upd (c_builder c) f (c_blocks c) -> c_builder c' = c_builder c -> c_labels c' = c_labels c ->
  (forall b, b_term (f b) = None -> b_term b = None) -> TI V P c -> TI V P c'.
Proof.
  intros E1 E2 E3 HF []. constructor; rewrite ?E1, ?E2, ?E3, ?upd_length; auto.
  - intros i b H N. destruct (Nat.eq_dec i (c_builder c)) as [->|D]; [auto|]. rewrite nth_upd_other in H; auto. eauto.
  - intros n i H N. destruct (TI_lab0 n i H N) as (K1 & K2 & K3). rewrite nth_upd_other; auto.
Qed.
Definition same_code (c c' : cstate) : Prop := c_blocks c' = c_blocks c /\ c_builder c' = c_builder c /\ c_labels c' = c_labels c.
Lemma TI_same V P c c' : same_code c c' -> TI V P c -> TI V P c'.
Proof. intros (E1 & E2 & E3) []. constructor; rewrite ?E1, ?E2, ?E3; auto. Qed.

Definition tk {A} (m : C A) : Prop := forall V P c, TI V P c -> pwp m (fun _ c' => TI V P c' /\ c_labels c' = c_labels c) c.
Lemma tk_bind {A B} (m : C A) (f : A -> C B) : pure m -> tk m -> (forall a, tk (f a)) -> tk (bind m f).
Proof.
  intros HP H1 H2 V P c HT. eapply pwp_use; [auto|apply H1; eauto|]. cbv beta. intros a c' (HT' & E).
  eapply pwp_mono; [apply H2; eauto|]. cbv beta. intros b c2 (HT2 & E2). split; auto. congruence.
Qed.
Lemma tk_ret {A} (a : A) : tk (ret a). Proof. intros V P c H. apply pwp_ret. auto. Qed.
Lemma tk_err {A} e : tk (@errorf st A e). Proof. intros V P c H. apply pwp_err. Qed.
Lemma tk_get : tk get. Proof. intros V P c H. apply pwp_get. auto. Qed.
Lemma tk_modify f : (forall c, same_code c (f c)) -> tk (modify f).
Proof. intros H V P c HT. apply pwp_modify. split; [eapply TI_same; eauto|apply H]. Qed.
Lemma tk_emit i : tk (emit i).
Proof. intros V P c H. apply pwp_emit. split; auto. eapply TI_upd; [reflexivity..| |eassumption]. cbn. auto. Qed.
Lemma tk_emitR i : tk (emitR i).
Proof. intros V P c H. apply pwp_emitR. split; auto. eapply TI_upd; [reflexivity..| |eassumption]. cbn. auto. Qed.
Lemma tk_setTerm i : tk (setTerm i).
Proof. intros V P c H. apply pwp_setTerm. split; auto. eapply TI_upd; [reflexivity..| |eassumption]. cbn. discriminate. Qed.
Lemma tk_GetInsertBlock : tk GetInsertBlock.
Proof. intros V P c H. apply pwp_GetInsertBlock. auto. Qed.
Lemma tk_bind_local n v : tk (bind_local n v).
Proof. apply tk_modify. repeat split. Qed.
Lemma tk_termIsNil : tk termIsNil.
Proof. intros V P c H. apply pwp_termIsNil. auto. Qed.
Lemma tk_nextLabelID : tk nextLabelID.
Proof. intros V P c H. apply pwp_nextLabelID. split; auto. eapply TI_same; [|eassumption]. repeat split. Qed.
Lemma tk_CreateStringConstant s : tk (CreateStringConstant s).
Proof.
  unfold CreateStringConstant. apply tk_bind; [auto with pure|apply tk_get|]. intros c.
  apply tk_bind; [auto with pure| |intros; apply tk_ret]. apply tk_modify. repeat split.
Qed.
Lemma tk_GetOrDeclareFunction n : tk (GetOrDeclareFunction n).
Proof.
  unfold GetOrDeclareFunction. apply tk_bind; [auto with pure|apply tk_get|]. intros c.
  destruct (assoc n (c_functions c)); [apply tk_ret|]. destruct (assoc n (c_globals c)); [apply tk_ret|].
  apply tk_bind; [auto with pure| |intros; apply tk_ret]. apply tk_modify. repeat split.
Qed.
Lemma tk_externName n : tk (externName n).
Proof.
  unfold externName. apply tk_bind; [auto with pure|apply tk_get|]. intros c.
  destruct (findGlobalByName c n); [apply tk_modify; repeat split|]. destruct (findFuncByName c n); [apply tk_err|].
  destruct (mem n (c_used c)); [apply tk_err|]. apply tk_modify. repeat split.
Qed.
Create HintDb tk.
#[export] Hint Resolve tk_ret tk_err tk_get tk_emit tk_emitR tk_setTerm tk_GetInsertBlock tk_bind_local tk_termIsNil
  tk_nextLabelID tk_CreateStringConstant tk_GetOrDeclareFunction tk_externName : tk.
Ltac tk_tac :=
  repeat (first
    [ solve [auto with tk nocore]
    | assumption
    | match goal with H : forall _, _ |- tk _ => solve [apply H; auto] end
    | apply tk_bind; [solve [pure_tac]| |intros ?]
    | match goal with
      | |- tk (let _ := _ in _) => cbv zeta
      | |- tk (if ?x then _ else _) => destruct x
      | |- tk (match ?x with _ => _ end) => destruct x
      end ]).
Lemma tk_GetAddress n : tk (GetAddress n). Proof. unfold GetAddress. tk_tac. Qed.
#[export] Hint Resolve tk_GetAddress : tk.
Lemma tk_genVar q n : tk (genVar q n). Proof. unfold genVar. tk_tac. Qed.
Lemma tk_genCallee n : tk (genCallee n). Proof. unfold genCallee. tk_tac. Qed.
Lemma tk_rval v b : tk (rval v b). Proof. unfold rval. tk_tac. Qed.
#[export] Hint Resolve tk_genVar tk_genCallee tk_rval : tk.
Lemma tk_cmpz p a b : tk (cmpz p a b). Proof. unfold cmpz. tk_tac. Qed.
#[export] Hint Resolve tk_cmpz : tk.
Lemma tk_applyCop o a b : tk (applyCop o a b). Proof. destruct o; cbn [applyCop]; tk_tac. Qed.
Lemma tk_doCall f a : tk (doCall f a). Proof. unfold doCall. tk_tac. Qed.
Lemma tk_incDec o p : tk (incDec o p). Proof. unfold incDec. tk_tac. Qed.
Lemma tk_DeclareLocal n : tk (DeclareLocal n). Proof. unfold DeclareLocal. tk_tac. Qed.
Lemma tk_DeclareLocalArray n z : tk (DeclareLocalArray n z). Proof. unfold DeclareLocalArray. tk_tac. Qed.
#[export] Hint Resolve tk_applyCop tk_doCall tk_incDec tk_DeclareLocal tk_DeclareLocalArray : tk.
Lemma tk_declareAutos l : tk (declareAutos l).
Proof. induction l as [|[n z] l IH]; cbn [declareAutos]; tk_tac. Qed.
Lemma tk_checkAutos l : forall seen, tk (checkAutos seen l).
Proof. induction l as [|[n z] l IH]; intros seen; cbn [checkAutos]; tk_tac. Qed.
Lemma tk_genExtrn l : tk (genExtrn l).
Proof. induction l as [|n l IH]; cbn [genExtrn]; tk_tac. Qed.
#[export] Hint Resolve tk_declareAutos tk_checkAutos tk_genExtrn : tk.

(** ** Blocks *)
Lemma nth_snoc {A} (l : list A) x i y : nth_error (l ++ [x]) i = Some y -> nth_error l i = Some y \/ (i = List.length l /\ y = x).
Proof.
  intros H. destruct (Nat.lt_ge_cases i (List.length l)) as [L|L].
  - rewrite nth_error_app1 in H; auto.
  - rewrite nth_error_app2 in H; auto. destruct (i - List.length l)%nat eqn:E.
    + cbn in H. injection H as <-. right. split; auto. lia.
    + cbn in H. destruct n; discriminate.
Qed.
(** After [m] in [c]: the new state satisfies the invariant with [P], same labels. *)
Definition tpost (V : string -> Prop) (P : list nat) (c c' : cstate) : Prop := TI V P c' /\ c_labels c' = c_labels c.
Lemma T_NewBlock V P n c : TI V P c -> pwp (NewBlock n) (fun b c' => tpost V (b :: P) c c' /\ ~ In b P) c.
Proof.
  intros []. apply pwp_NewBlock. split.
  - split; auto. constructor; cbn; rewrite ?app_length; cbn; auto; try lia.
    + intros i [<-|H]; [lia|]. specialize (TI_pend0 _ H). lia.
    + intros m i H. specialize (TI_lt0 _ _ H). lia.
    + intros i b H N. apply nth_snoc in H. destruct H as [H|[-> ->]]; [|auto].
      destruct (TI_open0 i b H N) as [|[|]]; auto.
    + intros m i H N. destruct (TI_lab0 m i H N) as (K1 & K2 & K3).
      specialize (TI_lt0 _ _ H). rewrite nth_error_app1; auto. repeat split; auto. intros [K|K]; [lia|auto].
  - intros K. specialize (TI_pend0 _ K). lia.
Qed.
Lemma T_setTerm V P t c : TI V P c -> pwp (setTerm t) (fun _ c' => tpost V P c c' /\ closed c') c.
Proof.
  intros H. eapply pwp_mono; [apply pwp_and; [apply tk_setTerm; eauto|]|cbv beta; intros a c' [K1 K2]; split; [exact K1|exact K2]].
  apply pwp_setTerm. destruct H. destruct (nth_error (c_blocks c) (c_builder c)) as [b|] eqn:E.
  - exists (put_term t b), t. cbn. rewrite nth_upd_same, E. auto.
  - apply nth_error_None in E. lia.
Qed.
Lemma T_brIfOpen V P b c : TI V P c -> pwp (brIfOpen b) (fun _ c' => tpost V P c c' /\ closed c') c.
Proof.
  intros H. unfold brIfOpen. apply pwp_bind; [auto with pure|]. apply pwp_termIsNil. intros [|] K1 K2; cbv iota.
  - apply T_setTerm; auto.
  - apply pwp_ret. split; [split; auto|]. destruct (K2 eq_refl) as [K|(bl & t & K & E)].
    + apply nth_error_None in K. destruct H. lia.
    + exists bl, t. auto.
Qed.
Lemma T_insert V P P' b c : TI V P c -> closed c -> In b P -> (forall x, In x P -> x = b \/ In x P') -> incl P' P ->
  pwp (SetInsertPoint b) (fun _ c' => tpost V P' c c') c.
Proof.
  intros [] (bl & t & HB & HT) HI H1 H2. apply pwp_SetInsertPoint. split; auto. constructor; cbn; auto.
  - intros i bi Hi N. destruct (TI_open0 i bi Hi N) as [->|[K|K]]; auto; [congruence|]. destruct (H1 i K); auto.
  - intros n i Hn Hv. destruct (TI_lab0 n i Hn Hv) as (K1 & K2 & K3). repeat split; auto. intros ->. auto.
Qed.
Definition D (c : cstate) (n : string) : Prop := assoc n (c_labels c) <> None.
Lemma T_label V P n c : TI V P c -> pwp (GetOrCreateLabel n) (fun b c' => TI V P c' /\ assoc n (c_labels c') = Some b /\
  forall m, D c' m <-> D c m \/ m = n) c.
Proof.
  intros H. unfold GetOrCreateLabel. apply pwp_bind; [auto with pure|]. apply pwp_get. destruct (assoc n (c_labels c)) eqn:E.
  { apply pwp_ret. split; auto. split; auto. unfold D. intros m. split; auto. intros [K| ->]; auto. congruence. }
  apply pwp_bind; [auto with pure|]. apply pwp_NewBlock. apply pwp_bind; [auto with pure|]. apply pwp_modify. apply pwp_ret.
  destruct H.
  assert (NV : ~ V n) by (intros K; apply (TI_visited0 n K); auto).
  split; [|split].
  - constructor; cbn; rewrite ?app_length; cbn; auto; try lia.
    + intros i Hi. specialize (TI_pend0 _ Hi). lia.
    + intros m i. destruct (String.eqb_spec m n); intros K; [injection K as <-; lia|]. specialize (TI_lt0 _ _ K). lia.
    + intros i b Hi N. apply nth_snoc in Hi. destruct Hi as [Hi|[-> ->]].
      * destruct (TI_open0 i b Hi N) as [|[|(m & K1 & K2)]]; auto. right. right. exists m. split; auto.
        destruct (String.eqb_spec m n); [congruence|auto].
      * right. right. exists n. rewrite String.eqb_refl. auto.
    + intros m i. destruct (String.eqb_spec m n) as [->|]; intros K HV.
      * injection K as <-. rewrite nth_error_app2, Nat.sub_diag; auto. repeat split; auto; [lia|].
        intros X. specialize (TI_pend0 _ X). lia.
      * destruct (TI_lab0 m i K HV) as (K1 & K2 & K3). specialize (TI_lt0 _ _ K). rewrite nth_error_app1; auto.
    + intros a b i. destruct (String.eqb_spec a n), (String.eqb_spec b n); subst; auto; intros K1 K2.
      * injection K1 as <-. specialize (TI_lt0 _ _ K2). lia.
      * injection K2 as <-. specialize (TI_lt0 _ _ K1). lia.
      * eauto.
    + intros m. destruct (String.eqb_spec m n); [discriminate|auto].
  - cbn. rewrite String.eqb_refl. auto.
  - unfold D. cbn. intros m. destruct (String.eqb_spec m n); subst.
    + split; auto; congruence.
    + split; auto. intros [|]; auto.
Qed.
Lemma T_visit V P n b c : TI V P c -> closed c -> assoc n (c_labels c) = Some b ->
  pwp (SetInsertPoint b) (fun _ c' => TI (fun m => V m \/ m = n) P c' /\ c_labels c' = c_labels c) c.
Proof.
  intros [] (bl & t & HB & HT) HI. apply pwp_SetInsertPoint. split; auto. constructor; cbn; auto.
  - eauto.
  - intros i bi Hi N. destruct (TI_open0 i bi Hi N) as [->|[K|(m & K1 & K2)]]; auto; [congruence|].
    destruct (string_dec m n) as [->|]; [left; congruence|]. right. right. exists m. split; auto. intros [|]; auto.
  - intros m i Hn Hv. destruct (TI_lab0 m i Hn) as (K1 & K2 & K3); [tauto|]. repeat split; auto. intros ->.
    apply Hv. right. eauto.
  - intros m [K| ->]; auto. congruence.
  - intros m. destruct (TI_dec0 m); auto. destruct (string_dec m n); auto. right. tauto.
Qed.

(** ** Expressions *)
Lemma tk_gen_all chk : (forall e q, tk (gen chk q e)) /\ (forall l, tk (genArgs chk l)).
Proof.
  apply expr_exprs_ind; intros; ugen; try solve [tk_tac].
  intros V P c0 HT.
  eapply pwp_use; [pure_tac|apply H; eauto|cbv beta; intros [v l] c1 [T1 L1]].
  eapply pwp_use; [pure_tac|apply tk_rval; eauto|cbv beta; intros w c2 [T2 L2]].
  eapply pwp_use; [pure_tac|apply tk_nextLabelID; eauto|cbv beta; intros id c3 [T3 L3]].
  eapply pwp_use; [pure_tac|apply T_NewBlock; eauto|cbv beta; intros b1 c4 [[T4 L4] N4]].
  eapply pwp_use; [pure_tac|apply T_NewBlock; eauto|cbv beta; intros b2 c5 [[T5 L5] N5]].
  eapply pwp_use; [pure_tac|apply T_NewBlock; eauto|cbv beta; intros b3 c6 [[T6 L6] N6]].
  eapply pwp_use; [pure_tac|apply tk_emitR; eauto|cbv beta; intros cmp c7 [T7 L7]].
  eapply pwp_use; [pure_tac|apply T_setTerm; eauto|cbv beta; intros u c8 [[T8 L8] C8]].
  eapply pwp_use; [pure_tac|eapply (T_insert V _ (b3 :: b2 :: P)); eauto; [cbn; auto|cbn; intuition|intros x; cbn; intuition]|cbv beta; intros u1 c9 [T9 L9]].
  eapply pwp_use; [pure_tac|apply H0; eauto|cbv beta; intros [v' l'] c10 [T10 L10]].
  eapply pwp_use; [pure_tac|apply tk_rval; eauto|cbv beta; intros w' c11 [T11 L11]].
  eapply pwp_use; [pure_tac|apply tk_GetInsertBlock; eauto|cbv beta; intros e1 c12 [T12 L12]].
  eapply pwp_use; [pure_tac|apply T_setTerm; eauto|cbv beta; intros u2 c13 [[T13 L13] C13]].
  eapply pwp_use; [pure_tac|eapply (T_insert V _ (b3 :: P)); eauto; [cbn; auto|cbn; intuition|intros x; cbn; intuition]|cbv beta; intros u3 c14 [T14 L14]].
  eapply pwp_use; [pure_tac|apply H1; eauto|cbv beta; intros [v'' l''] c15 [T15 L15]].
  eapply pwp_use; [pure_tac|apply tk_rval; eauto|cbv beta; intros w'' c16 [T16 L16]].
  eapply pwp_use; [pure_tac|apply tk_GetInsertBlock; eauto|cbv beta; intros e2 c17 [T17 L17]].
  eapply pwp_use; [pure_tac|apply T_setTerm; eauto|cbv beta; intros u4 c18 [[T18 L18] C18]].
  eapply pwp_use; [pure_tac|eapply (T_insert V _ P); eauto; [cbn; auto|cbn; intuition|intros x; cbn; intuition]|cbv beta; intros u5 c19 [T19 L19]].
  eapply pwp_use; [pure_tac|apply tk_emitR; eauto|cbv beta; intros phi c20 [T20 L20]].
  apply pwp_ret. split; auto. congruence.
Qed.
Lemma tk_gen chk q e : tk (gen chk q e). Proof. apply tk_gen_all. Qed.
#[export] Hint Resolve tk_gen : tk.
Lemma tk_genR chk q e : tk (genR chk q e). Proof. unfold genR. tk_tac. Qed.
#[export] Hint Resolve tk_genR : tk.

(** ** Statements *)
Definition sw_id (sw : swctx) : option Z := match sw with Some (id, _) => Some id | None => None end.
Definition sw_ok (V : string -> Prop) (sw : swctx) : Prop :=
  match sw with Some (id, vals) => Forall (fun z => V (case_name id z)) vals | None => True end.
(** How labels grow over a statement with labels [ls] and gotos [gs]. *)
Record srest (V V' : string -> Prop) (ls gs : list string) (c c' : cstate) : Prop := {
  sr_mono : forall n, V n -> V' n;
  sr_new : forall n, nodot n -> V' n -> V n \/ In n ls;
  sr_ls : forall n, In n ls -> V' n;
  sr_D : forall n, D c n -> D c' n;
  sr_Dnew : forall n, nodot n -> D c' n -> D c n \/ In n ls \/ In n gs;
  sr_gs : forall n, In n gs -> D c' n;
  sr_case : forall id z, D c' (case_name id z) -> D c (case_name id z) \/ V' (case_name id z)
}.
Definition spost (V : string -> Prop) (P : list nat) (ls gs : list string) (sw : swctx) (c : cstate) (sw' : swctx) (c' : cstate) : Prop :=
  exists V', TI V' P c' /\ sw_ok V' sw' /\ sw_id sw' = sw_id sw /\ srest V V' ls gs c c'.

Lemma sw_ok_mono (V V' : string -> Prop) sw : (forall n, V n -> V' n) -> sw_ok V sw -> sw_ok V' sw.
Proof. destruct sw as [[id vals]|]; cbn; auto. intros H. apply Forall_impl. auto. Qed.
Lemma srest_same V ls gs V' c c' c0 c0' : c_labels c0 = c_labels c -> c_labels c0' = c_labels c' -> srest V V' ls gs c c' -> srest V V' ls gs c0 c0'.
Proof. intros E E' []. unfold D in *. constructor; unfold D; rewrite ?E, ?E'; auto. Qed.
Lemma srest_refl V c : srest V V [] [] c c.
Proof. constructor; cbn; auto; try contradiction. Qed.
Lemma srest_seq V V1 V2 l1 g1 l2 g2 c c1 c2 : srest V V1 l1 g1 c c1 -> srest V1 V2 l2 g2 c1 c2 -> srest V V2 (l1 ++ l2) (g1 ++ g2) c c2.
Proof.
  intros [A1 B1 C1 D1 E1 F1 X1] [A2 B2 C2 D2 E2 F2 X2]. constructor; auto.
  - intros n N K. rewrite in_app_iff. destruct (B2 n N K) as [X|X]; auto. destruct (B1 n N X); auto.
  - intros n K. apply in_app_or in K. destruct K; auto.
  - intros n N K. rewrite !in_app_iff. destruct (E2 n N K) as [X|[X|X]]; auto. destruct (E1 n N X) as [Y|[Y|Y]]; auto.
  - intros n K. apply in_app_or in K. destruct K; auto.
  - intros id z K. destruct (X2 id z K) as [Y|Y]; auto. destruct (X1 id z Y); auto.
Qed.

Lemma closed_next c : closed c -> pwp nextLabelID (fun _ c' => closed c') c.
Proof. intros H. apply pwp_nextLabelID. exact H. Qed.
Lemma closed_NewBlock n c : closed c -> pwp (NewBlock n) (fun _ c' => closed c') c.
Proof.
  intros (b & t & H & E). apply pwp_NewBlock. exists b, t. cbn. rewrite nth_error_app1; auto. eapply nth_lt; eauto.
Qed.
Lemma T_cases V P id vals : forall c, TI V P c -> Forall (fun z => V (case_name id z)) vals ->
  pwp (switchCases id vals) (fun _ c' => c' = c) c.
Proof.
  induction vals as [|z vals IH]; intros c HT HV; cbn [switchCases]; [apply pwp_ret; auto|].
  inversion HV; subst. eapply (pwp_use _ _ (fun _ c' => c' = c)); [pure_tac| |].
  - unfold GetOrCreateLabel. apply pwp_bind; [auto with pure|]. apply pwp_get.
    change ("case." ++ dec id ++ "." ++ dec z)%string with (case_name id z).
    destruct (assoc _ (c_labels c)) eqn:E; [apply pwp_ret; auto|]. exfalso. apply (TI_visited _ _ _ HT _ H1). auto.
  - intros b c' ->. eapply pwp_use; [pure_tac|apply IH; auto|]. cbv beta. intros bs c' ->. apply pwp_ret. auto.
Qed.
Ltac use L := eapply pwp_use; [solve [pure_tac]|L|cbv beta].
Ltac ins PP := eapply pwp_use; [solve [pure_tac]|eapply (T_insert _ _ PP); [eassumption|eassumption|cbn; auto|cbn; intuition|intros x; cbn; intuition]|cbv beta; intros ? ? [? ?]].

Ltac newb b N := eapply pwp_use; [solve [pure_tac]|apply T_NewBlock; eassumption|cbv beta; intros b ? [[? ?] N]].
Ltac tks L x := eapply pwp_use; [solve [pure_tac]|apply L; eassumption|cbv beta; intros x ? [? ?]].
Ltac term := eapply pwp_use; [solve [pure_tac]|first [apply T_setTerm|apply T_brIfOpen]; eassumption|cbv beta; intros ? ? [[? ?] ?]].
Ltac body IH V1 R := eapply pwp_use; [solve [pure_tac]|eapply IH; [assumption|eassumption|exact I]|cbv beta; intros ? ? (V1 & ? & ? & ? & R)].

Lemma T_genS_all chk :
  (forall s sw V P c, wfS s -> TI V P c -> sw_ok V sw -> pwp (genS chk s sw) (spost V P (labels s) (gotos s) sw c) c) /\
  (forall l sw V P c, wfL l -> TI V P c -> sw_ok V sw -> pwp (genL chk l sw) (spost V P (labelsL l) (gotosL l) sw c) c).
Proof.
  assert (SIMPLE : forall {A} (m : C A) V P sw c, pure m -> tk m -> TI V P c -> sw_ok V sw ->
    pwp (bind m (fun _ => ret sw)) (spost V P [] [] sw c) c).
  { intros A m V P sw c HP HM HT HS. eapply pwp_use; [auto|apply HM; eauto|]. cbv beta. intros a c' [T' L']. apply pwp_ret.
    exists V. split; auto. split; auto. split; auto. eapply srest_same; [reflexivity|exact L'|apply srest_refl]. }
  apply stmt_stmts_ind; intros;
    repeat match goal with
    | H : wfS (_ _) |- _ => cbn [wfS] in H
    | H : wfS (_ _ _) |- _ => cbn [wfS] in H
    | H : wfS (_ _ _ _) |- _ => cbn [wfS] in H
    | H : wfL (_ _) |- _ => cbn [wfL] in H
    | H : wfL (_ _ _) |- _ => cbn [wfL] in H
    | H : _ /\ _ |- _ => destruct H
    end; cbn [labels gotos labelsL gotosL].
  - ugenS. apply pwp_ret. exists V. auto using srest_refl.
  - ugenS. apply SIMPLE; auto with tk. pure_tac.
  - ugenS. apply H; auto.
  - ugenS. destruct e.
    + eapply pwp_use; [pure_tac|apply tk_genR; eauto|]. cbv beta. intros v c1 [T1 L1].
      eapply pwp_mono; [apply SIMPLE; eauto with tk; pure_tac|]. cbv beta. intros sw' c' (V' & A1 & A2 & A3 & A4).
      exists V'. split; auto. split; auto. split; auto. eapply srest_same; [symmetry; exact L1|reflexivity|exact A4].
    + apply SIMPLE; auto with tk; pure_tac.
  - ugenS. eapply pwp_use; [pure_tac|apply tk_checkAutos; eauto|]. cbv beta. intros v c1 [T1 L1].
    eapply pwp_mono; [apply SIMPLE; eauto with tk; pure_tac|]. cbv beta. intros sw' c' (V' & A1 & A2 & A3 & A4).
    exists V'. split; auto. split; auto. split; auto. eapply srest_same; [symmetry; exact L1|reflexivity|exact A4].
  - ugenS. apply SIMPLE; auto with tk; pure_tac.
  - (* if *) ugenS. tks tk_genR v. tks tk_nextLabelID lid. newb b1 N1. newb b2 N2. newb b3 N3. tks tk_emitR cmp. term.
    ins (b3 :: b2 :: P). body H V1 R1. term. ins (b3 :: P). term. ins P.
    apply pwp_ret. exists V1. split; auto. split; [eapply sw_ok_mono; [apply R1|auto]|]. split; auto.
    eapply srest_same; [| |exact R1]; congruence.
  - (* if else *) ugenS. tks tk_genR v. tks tk_nextLabelID lid. newb b1 N1. newb b2 N2. newb b3 N3. tks tk_emitR cmp. term.
    ins (b3 :: b2 :: P). body H V1 R1. term. ins (b3 :: P). body H0 V2 R2. term. ins P.
    apply pwp_ret. exists V2. split; auto.
    split; [eapply sw_ok_mono; [|eassumption]; intros; apply R2; apply R1; auto|]. split; auto.
    eapply srest_seq; [eapply srest_same; [| |exact R1]|eapply srest_same; [| |exact R2]]; try reflexivity; congruence.
  - (* while *) ugenS. tks tk_nextLabelID lid. newb b1 N1. newb b2 N2. newb b3 N3. term. ins (b3 :: b2 :: P).
    tks tk_genR v. tks tk_emitR cmp. term. ins (b3 :: P). body H V1 R1. term. ins P.
    apply pwp_ret. exists V1. split; auto. split; [eapply sw_ok_mono; [apply R1|auto]|]. split; auto.
    eapply srest_same; [| |exact R1]; congruence.
  - (* switch *) ugenS. tks tk_nextLabelID lid. tks tk_genR v. newb b1 N1. newb b2 N2. newb b3 N3. term.
    ins (b3 :: b2 :: P).
    eapply pwp_use; [solve [pure_tac]|eapply (H (Some (lid, []))); [assumption|eassumption|constructor]|cbv beta; intros sw' c8 (V1 & T8 & S8 & I8 & R1)].
    term. ins (b3 :: P).
    match goal with |- pwp (bind ?m _) _ ?c => 
      assert (K : pwp m (fun _ c' => (TI V1 (b3 :: P) c' /\ c_labels c' = c_labels c) /\ closed c') c) end.
    { destruct sw' as [[id' [|z vals]]|]; try (apply T_setTerm; auto).
      cbn in I8. injection I8 as ->. eapply pwp_use; [pure_tac|eapply T_cases; eauto|]. cbv beta. intros bs cz ->. apply T_setTerm; auto. }
    eapply pwp_use; [pure_tac|exact K|cbv beta; intros u c11 [[T11 L11] C11]].
    ins P. apply pwp_ret. exists V1. split; auto. split; [eapply sw_ok_mono; [apply R1|auto]|]. split; auto.
    eapply srest_same; [| |exact R1]; congruence.
  - (* case *) ugenS. destruct sw as [[id vals]|]; [|apply pwp_err].
    change ("case." ++ dec id ++ "." ++ dec z)%string with (case_name id z).
    eapply pwp_use; [pure_tac|apply T_label; eauto|cbv beta; intros b c1 (T1 & A1 & D1)].
    eapply pwp_use; [pure_tac|apply T_brIfOpen; eauto|cbv beta; intros u c2 ([T2 L2] & C2)].
    eapply pwp_use; [pure_tac|eapply T_visit; eauto; rewrite L2; eauto|cbv beta; intros u2 c3 [T3 L3]].
    eapply pwp_mono; [apply H; eauto|].
    { cbn. apply Forall_app. split; [eapply Forall_impl; [|exact H2]; cbn; auto|]. constructor; auto. }
    cbv beta. intros sw' c' (V' & K1 & K2 & K3 & [Q1 Q2 Q3 Q4 Q5 Q6 Q7]). exists V'. split; auto. split; auto. split; auto.
    assert (ND : forall n, nodot n -> n <> case_name id z) by (intros n N ->; eapply nodot_dot; [exact N|apply join_cons]).
    assert (DD : forall n, D c3 n <-> D c n \/ n = case_name id z) by (intros n; unfold D in *; rewrite L3, L2; apply D1).
    constructor; auto.
    + intros n N X. destruct (Q2 n N X) as [[|Y]|]; auto. destruct (ND n N Y).
    + intros n X. apply Q4. apply DD. auto.
    + intros n N X. destruct (Q5 n N X) as [Y|Y]; auto. apply DD in Y. destruct Y as [|Y]; auto. destruct (ND n N Y).
    + intros i x X. destruct (Q7 i x X) as [Y|Y]; auto. apply DD in Y. destruct Y as [|Y]; auto.
  - (* goto *) ugenS.
    eapply pwp_use; [pure_tac|apply T_label; eauto|cbv beta; intros b c1 (T1 & A1 & D1)].
    term.
    eapply pwp_use; [pure_tac|apply pwp_and; [apply tk_nextLabelID; eassumption|apply closed_next; assumption]|cbv beta; intros lid ? [[? ?] ?]].
    eapply pwp_use; [pure_tac|apply pwp_and; [apply T_NewBlock; eassumption|apply closed_NewBlock; assumption]|cbv beta; intros dd ? [[[? ?] ?] ?]].
    ins P. apply pwp_ret. exists V. split; auto. split; auto. split; auto.
    match goal with |- srest _ _ _ _ _ ?c' => assert (DD : forall n, D c' n <-> D c n \/ n = name) end.
    { intros n. rewrite <- D1. unfold D. split; congruence. }
    constructor; cbn; auto; try contradiction.
    + intros n X. apply DD. auto.
    + intros n N X. apply DD in X. intuition.
    + intros n [<-|[]]. apply DD. auto.
    + intros i x X. apply DD in X. destruct X as [|X]; auto. exfalso. change (case_name i x = name) in X.
      match goal with K : name_ok name |- _ => apply nodot_name in K; rewrite <- X in K; eapply nodot_dot; [exact K|apply join_cons] end.
  - (* label *) ugenS.
    eapply pwp_use; [pure_tac|apply T_label; eauto|cbv beta; intros b c1 (T1 & A1 & D1)].
    eapply pwp_use; [pure_tac|apply T_brIfOpen; eauto|cbv beta; intros u c2 ([T2 L2] & C2)].
    eapply pwp_use; [pure_tac|eapply T_visit; eauto; rewrite L2; eauto|cbv beta; intros u2 c3 [T3 L3]].
    eapply pwp_mono; [apply H; eauto; eapply sw_ok_mono; [|eassumption]; auto|].
    cbv beta. intros sw' c' (V' & K1 & K2 & K3 & [Q1 Q2 Q3 Q4 Q5 Q6 Q7]). exists V'. split; auto. split; auto. split; auto.
    assert (DD : forall n, D c3 n <-> D c n \/ n = name) by (intros n; unfold D in *; rewrite L3, L2; apply D1).
    constructor; auto.
    + intros n N X. cbn. destruct (Q2 n N X) as [[|Y]|]; auto.
    + intros n [<-|X]; auto.
    + intros n X. apply Q4. apply DD. auto.
    + intros n N X. cbn. destruct (Q5 n N X) as [Y|[Y|Y]]; auto. apply DD in Y. destruct Y as [|Y]; auto.
    + intros i x X. destruct (Q7 i x X) as [Y|Y]; auto. apply DD in Y. destruct Y as [|Y]; auto.
  - ugenS. apply pwp_ret. exists V. auto using srest_refl.
  - ugenS. eapply pwp_use; [pure_tac|apply H; eauto|cbv beta; intros sw1 c1 (V1 & T1 & S1 & I1 & R1)].
    eapply pwp_mono; [apply H0; eauto|]. cbv beta. intros sw2 c2 (V2 & T2 & S2 & I2 & R2).
    exists V2. split; auto. split; auto. split; [congruence|]. eapply srest_seq; eauto.
Qed.

(** ** Functions *)
Lemma gotos_ok_all : (forall s, wfS s -> Forall name_ok (gotos s) /\ Forall name_ok (labels s)) /\
  (forall l, wfL l -> Forall name_ok (gotosL l) /\ Forall name_ok (labelsL l)).
Proof.
  apply stmt_stmts_ind; cbn [gotos labels gotosL labelsL]; intros;
    repeat match goal with
    | H : wfS (_ _) |- _ => cbn [wfS] in H
    | H : wfS (_ _ _) |- _ => cbn [wfS] in H
    | H : wfS (_ _ _ _) |- _ => cbn [wfS] in H
    | H : wfL (_ _ _) |- _ => cbn [wfL] in H
    | H : _ /\ _ |- _ => destruct H
    | H : wfS ?s -> _, K : wfS ?s |- _ => specialize (H K)
    | H : wfL ?s -> _, K : wfL ?s |- _ => specialize (H K)
    end; rewrite ?Forall_app; auto.
Qed.

Lemma tk_getOrCreateFunc n : tk (getOrCreateFunc n).
Proof. apply tk_modify. intros c. destruct (find_named _ _ _); repeat split. Qed.
Lemma tk_va_params va l : tk (va_params va l).
Proof. induction l; cbn [va_params]; tk_tac. Qed.
#[export] Hint Resolve tk_getOrCreateFunc tk_va_params : tk.
Lemma TI_start c : c_blocks c = [mkBlock "entry" [] None] -> c_labels c = [] -> c_builder c = 0%nat -> TI (fun _ => False) [] c.
Proof.
  intros E1 E2 E3. constructor; rewrite ?E1, ?E2, ?E3; cbn; auto; try discriminate; try contradiction.
  intros [|[|i]] b H; cbn in H; try discriminate. auto.
Qed.
Lemma T_start name params c : pwp (start_of name params) (fun _ c1 => TI (fun _ => False) [] c1 /\ c_labels c1 = []) c.
Proof.
  unfold start_of, DeclareFunction. apply pwp_bind; [pure_tac|]. apply pwp_bind; [auto with pure|]. apply pwp_modify. apply pwp_ret.
  unfold StartFunction. apply pwp_bind; [auto with pure|]. apply pwp_modify. apply pwp_bind; [auto with pure|]. apply pwp_get.
  cbv zeta. match goal with |- pwp ?m _ ?c' => set (c1 := c'); assert (K : tk m) by tk_tac; assert (N : TI (fun _ => False) [] c1) by (apply TI_start; reflexivity) end.
  eapply pwp_mono; [apply K; eauto|]. cbv beta. intros u c2 [H E]. split; auto.
Qed.

Lemma NI_started name params c : pwp (start_of name params) (fun _ c1 => NI c1) c.
Proof. unfold start_of. apply NI_start_of. Qed.
(** The unterminated blocks of a compiled function are its undefined labels. *)
Lemma open_blocks chk c name params body c1 c2 : compiled chk c name params body c1 c2 -> wfS body ->
  (forall b, In b (finished c2) -> b_term b = None ->
     exists n, In n (gotos body) /\ ~ In n (labels body) /\ b = mkBlock n [] None) /\
  (forall n, In n (gotos body) -> ~ In n (labels body) -> In (mkBlock n [] None) (finished c2)) /\
  (forall n, nodot n -> D c2 n -> In n (labels body) \/ In n (gotos body)).
Proof.
  intros (_ & YS & sw & YB) HW.
  destruct (T_start name params c _ _ YS) as [T1 L1].
  destruct (proj1 (T_genS_all chk) body None _ _ _ HW T1 I _ _ YB) as (V & T2 & _ & _ & []).
  destruct (proj1 gotos_ok_all body HW) as [HG HL]. rewrite Forall_forall in HG, HL.
  assert (ND : forall n, D c1 n -> False) by (intros n; unfold D; rewrite L1; cbn; congruence).
  assert (DN : forall n, In n (gotos body) -> nodot n) by (intros; apply nodot_name; auto).
  split; [|split].
  - intros b HB HT. apply In_nth_error in HB. destruct HB as [i HB]. unfold finished in HB.
    assert (KB : nth_error (c_blocks c2) i = Some b /\ i <> c_builder c2).
    { destruct (nth_error (c_blocks c2) (c_builder c2)) as [bb|] eqn:EB.
      - destruct (b_term bb) eqn:ET.
        + split; auto. intros ->. congruence.
        + destruct (Nat.eq_dec i (c_builder c2)) as [->|].
          * rewrite nth_upd_same, EB in HB. cbn in HB. injection HB as <-. discriminate.
          * rewrite nth_upd_other in HB; auto.
      - split; auto. intros ->. congruence. }
    destruct KB as [KB NB]. destruct (TI_open _ _ _ T2 i b KB HT) as [K|[[]|(n & K1 & K2)]]; [congruence|].
    destruct (TI_lab _ _ _ T2 n i K1 K2) as (K3 & _). rewrite KB in K3. injection K3 as ->.
    assert (NN : nodot n).
    { destruct (NI_labels c2) with (n := n) as [|(id & z & E)]; auto; [|congruence|].
      - assert (N1 : NI c1) by exact (NI_started name params c _ _ YS).
        destruct (proj1 (kept_genS_all chk) body None HW c1 N1 _ _ YB) as [N2 _]. auto.
      - exfalso. subst n. destruct (sr_case0 id z) as [X|X]; [unfold D; congruence|destruct (ND _ X)|auto]. }
    exists n. assert (K4 : ~ In n (labels body)) by (intros X; apply K2; auto).
    split; auto. destruct (sr_Dnew0 n NN) as [X|[X|X]]; auto; try contradiction; [unfold D; congruence|]. destruct (ND n X).
  - intros n H1 H2. specialize (sr_gs0 n H1). unfold D in sr_gs0. destruct (assoc n (c_labels c2)) as [i|] eqn:E; [|congruence].
    assert (NV : ~ V n). { intros X. destruct (sr_new0 n (DN n H1) X) as [[]|]; auto. }
    destruct (TI_lab _ _ _ T2 n i E NV) as (K1 & K2 & _). unfold finished. eapply nth_error_In with (n := i).
    destruct (nth_error (c_blocks c2) (c_builder c2)) as [bb|]; auto. destruct (b_term bb); auto. rewrite nth_upd_other; auto.
  - intros n N K. destruct (sr_Dnew0 n N K) as [X|[|]]; auto. destruct (ND n X).
Qed.

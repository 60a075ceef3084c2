(** * MsgFacts: the messages of SpecMsg.v say what is wrong *)
From Coq Require Import List Ascii String ZArith Lia Bool.
From Verif Require Import Base IR Expr Syntax SpecStatic SpecOcc OccFacts Static SpecMsg.
Import ListNotations.
Open Scope string_scope.
Open Scope list_scope.

Definition same (d v : list string) : Prop := forall x, In x d <-> In x v.
Lemma same_refl d : same d d. Proof. intros x. tauto. Qed.
Lemma same_isin d v x : same d v -> isin x d = isin x v.
Proof.
  intros H. destruct (isin x d) eqn:E1, (isin x v) eqn:E2; auto.
  - apply isin_In, H, isin_In in E1. congruence.
  - apply isin_In, H, isin_In in E2. congruence.
Qed.
Lemma lvalue_same d v a : same d v -> lvalue d a = lvalue v a.
Proof. intros H. destruct a; auto. cbn. apply same_isin; auto. Qed.
Lemma causeE_same d v e m : same d v -> causeE v e m -> causeE d e m.
Proof.
  intros S [(x & H1 & H2 & H3)|(e' & a & H1 & H2 & H3)]; [left; exists x|right; exists e', a].
  - repeat (split; auto). intros K. apply S in K. auto.
  - rewrite (lvalue_same d v) by auto. auto.
Qed.
Lemma orelse_some a b m : orelse a b = Some m -> a = Some m \/ b = Some m.
Proof. destruct a; cbn; auto. Qed.
Lemma unless_some b s m : unless b s = Some m -> b = false /\ m = s.
Proof. destruct b; [discriminate|]. injection 1 as <-. auto. Qed.
Definition causeEs (d : list string) (es : list expr) (m : string) : Prop :=
  (exists x, m = quoted "undefined identifier " x "" /\ In (EVar x) es /\ ~ In x d) \/
  (exists e' a, In e' es /\ needs_storage e' = Some (m, a) /\ lvalue d a = false).
Lemma causeEs_incl d es es' m : incl es es' -> causeEs d es m -> causeEs d es' m.
Proof. intros S [(x & H1 & H2 & H3)|(e' & a & H1 & H2 & H3)]; [left; exists x|right; exists e', a]; auto. Qed.
Ltac inclE := intros ? ?; cbn [subE subEs]; rewrite ?in_app_iff in *; cbn [In]; rewrite ?in_app_iff; tauto.
Lemma msg_cause vars : (forall e q m, msgE vars q e = Some m -> causeEs vars (subE e) m) /\ (forall l m, msgArgs vars l = Some m -> causeEs vars (subEs l) m).
Proof.
  apply expr_exprs_ind; intros; cbn [msgE msgArgs] in *;
    repeat match goal with
           | H : orelse _ _ = Some _ |- _ => apply orelse_some in H; destruct H as [H|H]
           | H : unless _ _ = Some _ |- _ => apply unless_some in H; destruct H as [H ->]
           end; try discriminate;
    try (match goal with
         | IH : forall q m, msgE _ q ?e = Some m -> _, H : msgE _ _ ?e = Some _ |- _ => apply IH in H; eapply causeEs_incl; [|exact H]; inclE
         | IH : forall m, msgArgs _ ?e = Some m -> _, H : msgArgs _ ?e = Some _ |- _ => apply IH in H; eapply causeEs_incl; [|exact H]; inclE
         end; fail);
    try (right; eexists; eexists; split; [left; reflexivity|split; [reflexivity|assumption]]; fail).
  apply orb_false_iff in H. destruct H as [H _]. left. eexists. split; [reflexivity|]. split; [left; auto|]. apply isin_false. auto.
Qed.

(** ** Statements *)
Lemma cause_seq1 locs funs pl1 pl2 au1 au2 ex1 ex2 (st1 st : Prop) m : (st1 -> st) -> cause locs funs pl1 au1 ex1 st1 m ->
  cause locs funs (pl1 ++ pl2) (au1 ++ au2) (ex1 ++ ex2) st m.
Proof.
  intros S [d e m' H1 H2|x l1 l2 -> H|x H1 H2|H].
  - eapply ca_expr; [apply in_or_app; left; eauto|auto].
  - apply (ca_auto _ _ _ _ _ _ x l1 (l2 ++ au2)); [rewrite <- app_assoc; reflexivity|auto].
  - apply (ca_extrn _ _ _ _ _ _ x); [apply in_or_app; auto|]. destruct H2 as [H2|(d & e & H2 & H3)]; [left; auto|right]. exists d, e. rewrite in_app_iff. auto.
  - apply ca_case. auto.
Qed.
Lemma cause_seq2 locs locs' (funs funs' : string -> Prop) pl1 pl2 au1 au2 ex1 ex2 (st2 st : Prop) m : (st2 -> st) ->
  (forall x, In x locs' -> In x locs \/ In x au1) -> (forall x, funs' x -> funs x \/ exists d e, In (d, e) pl1 /\ named x e) ->
  cause locs' funs' pl2 au2 ex2 st2 m -> cause locs funs (pl1 ++ pl2) (au1 ++ au2) (ex1 ++ ex2) st m.
Proof.
  intros S SL SF [d e m' H1 H2|x l1 l2 -> H|x H1 H2|H].
  - eapply ca_expr; [apply in_or_app; right; eauto|auto].
  - apply (ca_auto _ _ _ _ _ _ x (au1 ++ l1) l2); [rewrite <- app_assoc; reflexivity|]. rewrite in_app_iff. destruct H as [H|H]; [destruct (SL x H)|]; auto.
  - apply (ca_extrn _ _ _ _ _ _ x); [apply in_or_app; auto|]. destruct H2 as [H2|(d & e & H2 & H3)].
    + destruct (SF x H2) as [H3|(d & e & H3 & H4)]; [left; auto|right]. exists d, e. rewrite in_app_iff. auto.
    + right. exists d, e. rewrite in_app_iff. auto.
  - apply ca_case. auto.
Qed.
Lemma cause_mono locs locs' (funs funs' : string -> Prop) pl au ex (st st' : Prop) m : (st -> st') -> (forall x, In x locs -> In x locs') -> (forall x, funs x -> funs' x) ->
  cause locs funs pl au ex st m -> cause locs' funs' pl au ex st' m.
Proof. intros S H1 H2 H. apply (cause_seq2 locs' locs funs' funs [] pl [] au [] ex st st' m); auto. Qed.

Record after (v v' : senv) (pl : list (list string * expr)) (au ex : list string) : Prop := {
  af_locs : s_locs v' = rev au ++ s_locs v;
  af_exts : s_exts v' = rev ex ++ s_exts v;
  af_funs : forall x, In x (s_funs v') -> In x (s_funs v) \/ exists d e, In (d, e) pl /\ named x e }.
Lemma after_nil v : after v v [] [] [].
Proof. constructor; auto. Qed.
Lemma after_app v v1 v2 p1 p2 a1 a2 x1 x2 : after v v1 p1 a1 x1 -> after v1 v2 p2 a2 x2 -> after v v2 (p1 ++ p2) (a1 ++ a2) (x1 ++ x2).
Proof.
  intros [L1 X1 F1] [L2 X2 F2]. constructor.
  - rewrite L2, L1, rev_app_distr, app_assoc. auto.
  - rewrite X2, X1, rev_app_distr, app_assoc. auto.
  - intros x H. destruct (F2 x H) as [K|(d & e & K1 & K2)].
    + destruct (F1 x K) as [J|(d & e & J1 & J2)]; auto. right. exists d, e. rewrite in_app_iff. auto.
    + right. exists d, e. rewrite in_app_iff. auto.
Qed.
Lemma usedF_named vars exts : (forall e x, In x (usedF vars exts e) -> named x e) /\
  (forall l x, In x (usedArgs vars exts l) -> In (EVar x) (subEs l) \/ In (ECallee x) (subEs l)).
Proof.
  unfold named. apply expr_exprs_ind; intros; cbn [usedF usedArgs subE subEs] in *; rewrite ?in_app_iff in *; cbn [In] in *; rewrite ?in_app_iff;
    try match goal with H : In _ (if ?b then _ else _) |- _ => destruct b; cbn in H end;
    repeat match goal with
    | H : _ \/ _ |- _ => destruct H
    | IH : forall x, In x _ -> _, H : In _ _ |- _ => apply IH in H
    end; subst; try contradiction; tauto.
Qed.
Lemma after_dgE e v v' d : dgE e v = inr v' -> after v v' [(d, e)] [] [].
Proof.
  unfold dgE. destruct (msgE _ _ _); [discriminate|]. injection 1 as <-. constructor; cbn; auto. intros x H. apply in_app_iff in H. destruct H as [H|H]; auto.
  right. exists d, e. split; auto. eapply (proj1 (usedF_named _ _)); eauto.
Qed.
Lemma after_dgAuto names : forall v v', dgAuto names v = inr v' -> after v v' [] names [].
Proof.
  induction names as [|x r IH]; intros v v' H; cbn in H; [injection H as <-; apply after_nil|].
  destruct (isin _ _); [discriminate|]. (eapply (after_app v _ v' [] [] [x] r [] []); [|apply IH; exact H]); constructor; cbn; auto.
Qed.
Lemma after_dgExtrn names : forall v v', dgExtrn names v = inr v' -> after v v' [] [] names.
Proof.
  induction names as [|x r IH]; intros v v' H; cbn in H; [injection H as <-; apply after_nil|].
  destruct (isin _ _); [|destruct (isin _ _); [discriminate|]]; (eapply (after_app v _ v' [] [] [] [] [x] r); [|apply IH; exact H]); constructor; cbn; auto.
Qed.
Lemma then_inr o k v : then_ o k = inr v -> exists v1, o = inr v1 /\ k v1 = inr v.
Proof. destruct o; [discriminate|]. cbn. eauto. Qed.
Lemma then_inl o k m : then_ o k = inl m -> o = inl m \/ exists v1, o = inr v1 /\ k v1 = inl m.
Proof. destruct o; cbn; eauto. Qed.
Lemma after_dgS : (forall s sw v v' d, dgS sw s v = inr v' -> after v v' (placesS d s) (autosS s) (extrnsS s)) /\
  (forall l sw v v' d, dgL sw l v = inr v' -> after v v' (placesL d l) (autosL l) (extrnsL l)).
Proof.
  assert (TWO : forall e s v v1 v2 d, dgE e v = inr v1 -> after v1 v2 (placesS d s) (autosS s) (extrnsS s) ->
    after v v2 ([(d, e)] ++ placesS d s) ([] ++ autosS s) ([] ++ extrnsS s)) by (intros; eapply after_app; [apply after_dgE; eauto|auto]).
  apply stmt_stmts_ind; cbn [dgS dgL placesS placesL autosS autosL extrnsS extrnsL].
  - intros sw v v' d H. injection H as <-. apply after_nil.
  - intros e sw v v' d H. apply after_dgE. auto.
  - eauto.
  - intros [e|] sw v v' d H; [apply after_dgE; auto|injection H as <-; apply after_nil].
  - intros ds sw v v' d H. apply after_dgAuto. auto.
  - intros ns sw v v' d H. apply after_dgExtrn. auto.
  - intros e s IH sw v v' d H. apply then_inr in H. destruct H as (v1 & H1 & H). eapply TWO; eauto.
  - intros e s IH s2 IH2 sw v v' d H. apply then_inr in H. destruct H as (v1 & H1 & H). apply then_inr in H. destruct H as (v2 & H2 & H).
    apply (after_app v v1 v' [(d, e)] _ [] _ [] _); [apply after_dgE; auto|]. eapply after_app; eauto.
  - intros e s IH sw v v' d H. apply then_inr in H. destruct H as (v1 & H1 & H). eapply TWO; eauto.
  - intros e s IH sw v v' d H. apply then_inr in H. destruct H as (v1 & H1 & H). eapply TWO; eauto.
  - intros z s IH [|] v v' d H; [eauto|discriminate].
  - intros x sw v v' d H. injection H as <-. apply after_nil.
  - eauto.
  - intros sw v v' d H. injection H as <-. apply after_nil.
  - intros s IHs l IHl sw v v' d H. apply then_inr in H. destruct H as (v1 & H1 & H). eapply after_app; eauto.
Qed.

Definition strayb (sw : bool) (s : stmt) : Prop := if sw then stray_under s else stray s.
Definition straybL (sw : bool) (l : stmts) : Prop := exists s, inL s l /\ strayb sw s.
Lemma cause_dgE e v m d locs funs au ex st : dgE e v = inl m -> same d (vars_of v) -> cause locs funs [(d, e)] au ex st m.
Proof.
  unfold dgE. destruct (msgE _ _ _) as [m'|] eqn:E; [|discriminate]. injection 1 as <-. intros S. eapply ca_expr; [left; reflexivity|].
  eapply causeE_same; [exact S|]. exact (proj1 (msg_cause _) e _ _ E).
Qed.
Lemma cause_dgAuto names : forall v m locs funs pl ex st, same locs (s_locs v) -> dgAuto names v = inl m -> cause locs funs pl names ex st m.
Proof.
  induction names as [|x r IH]; intros v m locs funs pl ex st S H; cbn in H; [discriminate|]. destruct (isin x (s_locs v)) eqn:E.
  - injection H as <-. apply (ca_auto _ _ _ _ _ _ x [] r); auto. left. apply S, isin_In. auto.
  - apply (cause_seq2 locs (x :: locs) funs funs [] pl [x] r [] ex st st m); auto; [cbn; intros y [->|K]; auto|].
    eapply IH; [|exact H]. cbn. intros y. cbn. specialize (S y). tauto.
Qed.
Lemma cause_dgExtrn names : forall v m locs (funs : string -> Prop) pl au st, (forall x, In x (s_funs v) -> funs x) -> dgExtrn names v = inl m -> cause locs funs pl au names st m.
Proof.
  induction names as [|x r IH]; intros v m locs funs pl au st S H; cbn in H; [discriminate|].
  assert (K : forall v', s_funs v' = s_funs v -> dgExtrn r v' = inl m -> cause locs funs pl au (x :: r) st m).
  { intros v' E D. apply (cause_seq2 locs locs funs funs [] pl [] au [x] r st st m); auto. eapply IH; [|exact D]. rewrite E. auto. }
  destruct (isin x (s_globs v)); [eapply K; [|exact H]; auto|]. destruct (isin x (s_funs v)) eqn:E.
  - injection H as <-. apply (ca_extrn _ _ _ _ _ _ x); [left; auto|]. left. apply S, isin_In. auto.
  - eapply K; [|exact H]; auto.
Qed.
Lemma same_after v v' d pl au ex : same d (vars_of v) -> after v v' pl au ex -> same (d ++ au ++ ex) (vars_of v').
Proof. intros S [L X _] x. unfold vars_of in *. rewrite L, X. specialize (S x). rewrite !in_app_iff in *. rewrite <- !in_rev. tauto. Qed.
Lemma after_locs v v' pl au ex x : after v v' pl au ex -> In x (s_locs v') -> In x (s_locs v) \/ In x au.
Proof. intros [L _ _]. rewrite L, in_app_iff, <- in_rev. tauto. Qed.
Notation inS v := (fun x => In x (s_funs v)).
Lemma cause_dgS : (forall s sw v m d, dgS sw s v = inl m -> same d (vars_of v) -> cause (s_locs v) (inS v) (placesS d s) (autosS s) (extrnsS s) (strayb sw s) m) /\
  (forall l sw v m d, dgL sw l v = inl m -> same d (vars_of v) -> cause (s_locs v) (inS v) (placesL d l) (autosL l) (extrnsL l) (straybL sw l) m).
Proof.
  assert (TWO : forall e s sw sw' st v m d, then_ (dgE e v) (dgS sw' s) = inl m -> same d (vars_of v) -> (strayb sw' s -> strayb sw st) ->
     (forall v m d, dgS sw' s v = inl m -> same d (vars_of v) -> cause (s_locs v) (inS v) (placesS d s) (autosS s) (extrnsS s) (strayb sw' s) m) ->
     cause (s_locs v) (inS v) ([(d, e)] ++ placesS d s) ([] ++ autosS s) ([] ++ extrnsS s) (strayb sw st) m).
  { intros e s sw sw' st v m d H S T IH. apply then_inl in H. destruct H as [H|(v1 & H1 & H2)].
    - eapply (cause_seq1 _ _ [(d, e)] _ [] _ [] _ False); [tauto|]. eapply cause_dgE; eauto.
    - pose proof (after_dgE e v v1 d H1) as A. eapply cause_seq2; [exact T| | |apply IH; [exact H2|]].
      + intros x K. eapply after_locs; eauto.
      + apply (af_funs _ _ _ _ _ A).
      + pose proof (same_after _ _ d _ _ _ S A) as K. cbn in K. rewrite app_nil_r in K. auto. }
  apply stmt_stmts_ind.
  - intros sw v m d H. discriminate.
  - intros e sw v m d H S. cbn [dgS placesS] in *. eapply cause_dgE; eauto.
  - intros l IH sw v m d H S. cbn [dgS placesS autosS extrnsS] in *. eapply (cause_mono (s_locs v) _ (inS v)); [|auto|auto|apply IH; eauto].
    intros (s & H1 & H2). destruct sw; cbn in *; econstructor; eauto.
  - intros [e|] sw v m d H S; cbn [dgS placesS] in *; [|discriminate]. eapply cause_dgE; eauto.
  - intros ds sw v m d H S. cbn [dgS placesS autosS extrnsS] in *. eapply cause_dgAuto; [apply same_refl|eauto].
  - intros ns sw v m d H S. cbn [dgS placesS autosS extrnsS] in *. eapply cause_dgExtrn; [|eauto]. auto.
  - intros e s IH sw v m d H S. refine (TWO e s sw false (SIf e s) v m d H S _ (fun v m d => IH false v m d)). destruct sw; cbn; constructor; auto.
  - intros e s IH s2 IH2 sw v m d H S. cbn [dgS placesS autosS extrnsS] in *. apply then_inl in H. change ((d, e) :: ?x) with ([(d, e)] ++ x).
    change (autosS s ++ autosS s2) with ([] ++ (autosS s ++ autosS s2)). change (extrnsS s ++ extrnsS s2) with ([] ++ (extrnsS s ++ extrnsS s2)).
    destruct H as [H|(v1 & H1 & H)].
    + eapply (cause_seq1 _ _ [(d, e)] _ [] _ [] _ False); [tauto|]. eapply cause_dgE; eauto.
    + pose proof (after_dgE e v v1 d H1) as A. assert (S1 : same d (vars_of v1)) by (pose proof (same_after _ _ d _ _ _ S A) as K; cbn in K; rewrite app_nil_r in K; auto).
      eapply (cause_seq2 _ (s_locs v1) _ (inS v1)); [| |apply (af_funs _ _ _ _ _ A)|]; [intros Q; exact Q|intros x K; eapply after_locs; eauto|].
      apply then_inl in H. destruct H as [H|(v2 & H2 & H)].
      * eapply cause_seq1; [|apply IH; eauto]. destruct sw; cbn; constructor; auto.
      * pose proof (proj1 after_dgS s _ _ _ d H2) as A2. eapply (cause_seq2 _ (s_locs v2) _ (inS v2)); [| |apply (af_funs _ _ _ _ _ A2)|apply IH2; [exact H|]].
        -- destruct sw; cbn; [apply under_else|apply stray_else].
        -- intros x K. eapply after_locs; eauto.
        -- eapply same_after; eauto.
  - intros e s IH sw v m d H S. refine (TWO e s sw false (SWhile e s) v m d H S _ (fun v m d => IH false v m d)). destruct sw; cbn; constructor; auto.
  - intros e s IH sw v m d H S. refine (TWO e s sw true (SSwitch e s) v m d H S _ (fun v m d => IH true v m d)). destruct sw; cbn; constructor; auto.
  - intros z s IH sw v m d H S. cbn [dgS placesS autosS extrnsS] in *. destruct sw.
    + eapply (cause_mono (s_locs v) _ (inS v)); [|auto|auto|apply IH; eauto]. cbn. constructor. auto.
    + injection H as <-. apply ca_case. cbn. constructor.
  - discriminate.
  - intros x s IH sw v m d H S. cbn [dgS placesS autosS extrnsS] in *. eapply (cause_mono (s_locs v) _ (inS v)); [|auto|auto|apply IH; eauto]. destruct sw; cbn; constructor; auto.
  - discriminate.
  - intros s IHs l IHl sw v m d H S. cbn [dgL placesL autosL extrnsL] in *. apply then_inl in H. destruct H as [H|(v1 & H1 & H)].
    + eapply cause_seq1; [|apply IHs; eauto]. intros K. exists s. split; [constructor|auto].
    + pose proof (proj1 after_dgS s _ _ _ d H1) as A. eapply (cause_seq2 _ (s_locs v1) _ (inS v1)); [| |apply (af_funs _ _ _ _ _ A)|apply IHl; [exact H|]].
      * intros (s0 & K1 & K2). exists s0. split; [constructor; auto|auto].
      * intros x K. eapply after_locs; eauto.
      * eapply same_after; eauto.
Qed.

(** ** Files *)
Lemma dgP_app d1 : forall d2 v, dgP (d1 ++ d2) v = then_ (dgP d1 v) (dgP d2).
Proof. induction d1 as [|d r IH]; intros d2 v; cbn; auto. destruct (dgD d v); cbn; auto. Qed.
Lemma dgP_first ds : forall v m, dgP ds v = inl m -> exists l1 d l2 v1, ds = l1 ++ d :: l2 /\ dgP l1 v = inr v1 /\ dgD d v1 = inl m.
Proof.
  induction ds as [|d r IH]; intros v m H; cbn in H; [discriminate|]. apply then_inl in H. destruct H as [H|(v1 & H1 & H)].
  - exists [], d, r, v. auto.
  - destruct (IH _ _ H) as (l1 & d' & l2 & v2 & -> & K1 & K2). exists (d :: l1), d', l2, v2. cbn. rewrite H1. auto.
Qed.
Lemma funs_dgP ds : forall v v', dgP ds v = inr v' -> forall x, In x (s_funs v') -> In x (s_funs v) \/ function_in ds x.
Proof.
  induction ds as [|d r IH]; intros v v' H x K; cbn in H; [injection H as <-; auto|]. apply then_inr in H. destruct H as (v1 & H1 & H).
  assert (M : function_in r x -> function_in (d :: r) x). { intros (f & ps & b & J & J2). exists f, ps, b. split; [right; auto|auto]. }
  destruct (IH _ _ H x K) as [J|J]; auto. destruct d as [n l|n z l|n ps b]; cbn in H1; try (injection H1 as <-; auto).
  apply then_inr in H1. destruct H1 as (v2 & H1 & E). injection E as <-. cbn in J. pose proof (proj1 after_dgS b _ _ _ ps H1) as A.
  destruct (af_funs _ _ _ _ _ A x J) as [J2|J2].
  - cbn in J2. destruct J2 as [<-|J2]; auto. right. exists n, ps, b. split; [left; auto|auto].
  - right. exists n, ps, b. split; [left; auto|auto].
Qed.
Lemma message_cause ds m : message ds = Some m -> exists l1 f ps b l2, ds = l1 ++ DFunction f ps b :: l2 /\ message l1 = None /\
  body_cause ps (fun x => x = f \/ function_in l1 x) b m /\ forall l3, message (l1 ++ DFunction f ps b :: l3) = Some m.
Proof.
  unfold message. destruct (dgP ds empty_env) as [m'|v] eqn:E; [|discriminate]. injection 1 as ->.
  destruct (dgP_first _ _ _ E) as (l1 & d & l2 & v1 & -> & H1 & H2). destruct d as [n l|n z l|n ps b]; cbn in H2; try discriminate.
  exists l1, n, ps, b, l2. split; auto. rewrite H1. split; auto.
  assert (AFT : forall l3, match dgP (l1 ++ DFunction n ps b :: l3) empty_env with inl m0 => Some m0 | inr _ => None end = Some m).
  { intros l3. rewrite dgP_app, H1. cbn [then_ dgP dgD]. rewrite H2. reflexivity. }
  split; auto. apply then_inl in H2. destruct H2 as [H2|(v2 & _ & H2)]; [|discriminate].
  pose proof (proj1 cause_dgS b false _ m ps H2) as K. unfold body_cause. cbn [s_locs s_funs strayb] in K.
  eapply cause_mono; [| | |apply K].
  - auto.
  - intros x. rewrite <- in_rev. auto.
  - cbn. intros x [<-|J]; auto. destruct (funs_dgP _ _ _ H1 x J) as [[]|J2]; auto.
  - intros x. unfold vars_of. cbn. rewrite app_nil_r, <- in_rev. tauto.
Qed.

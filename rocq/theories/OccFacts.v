(** * OccFacts: what the scope rules say about occurrences *)
From Coq Require Import List Ascii String ZArith NArith Lia Bool.
From Verif Require Import Base IR Expr Syntax SpecStatic Static SpecOcc.
Import ListNotations.

Lemma okE_sub : (forall e vars q, okE vars q e = true -> forall e', In e' (subE e) -> (exists x, e' = ECallee x) \/ exists q', okE vars q' e' = true) /\
  (forall l vars, okArgs vars l = true -> forall e', In e' (subEs l) -> (exists x, e' = ECallee x) \/ exists q', okE vars q' e' = true).
Proof.
  apply expr_exprs_ind; intros; cbn [okE okArgs subE subEs] in *; repeat rewrite andb_true_iff in *; rewrite ?in_app_iff in *;
    repeat match goal with
    | H : _ /\ _ |- _ => destruct H
    | H : _ \/ _ |- _ => destruct H
    | H : In _ (_ :: _) |- _ => cbn [In] in H
    | H : False |- _ => destruct H
    | H : In _ [] |- _ => destruct H
    | H : _ = ?e |- _ => is_var e; subst e
    end; rewrite ?in_app_iff in *;
    repeat match goal with H : _ \/ _ |- _ => destruct H end;
    try solve [right; match goal with q : bool |- _ => exists q end; cbn [okE]; repeat rewrite andb_true_iff; auto | eauto].
  all: match goal with H : match ?f with _ => _ end = true, K : In _ (subE ?f) |- _ => destruct f; eauto end.
  cbn in H2. destruct H2 as [<-|[]]; eauto.
Qed.

Lemma chkE_some e v v' : chkE e v = Some v' -> okE (vars_of v) false e = true /\ s_locs v' = s_locs v /\ s_exts v' = s_exts v /\ s_globs v' = s_globs v /\
  s_funs v' = usedF (vars_of v) (s_exts v) e ++ s_funs v.
Proof. unfold chkE. destruct (okE _ _ _); [|discriminate]. injection 1 as <-. auto. Qed.
Lemma opt_some {A B} (o : option A) (f : A -> option B) b : opt_bind o f = Some b -> exists a, o = Some a /\ f a = Some b.
Proof. destruct o; [eauto|discriminate]. Qed.

Lemma chkAuto_some names : forall v v', chkAuto names v = Some v' -> v' = mkEnv (rev names ++ s_locs v) (s_exts v) (s_funs v) (s_globs v) /\
  NoDup names /\ (forall x, In x names -> ~ In x (s_locs v)).
Proof.
  induction names as [|x r IH]; intros v v' H; cbn in H.
  - injection H as <-. destruct v. repeat split; auto. constructor.
  - destruct (isin x (s_locs v)) eqn:E; [discriminate|]. apply isin_false in E. apply IH in H. destruct H as (-> & N & F). cbn in *.
    rewrite <- app_assoc. repeat split; auto.
    + constructor; auto. intros K. apply (F _ K). auto.
    + intros y [<-|K]; auto. intros L. apply (F _ K). auto.
Qed.
Lemma chkExtrn_some names : forall v v', chkExtrn names v = Some v' -> s_locs v' = s_locs v /\ s_exts v' = rev names ++ s_exts v /\ s_funs v' = s_funs v.
Proof.
  induction names as [|x r IH]; intros v v' H; cbn in H.
  - injection H as <-. auto.
  - destruct (isin x (s_globs v)); [|destruct (isin x (s_funs v)); [discriminate|]]; apply IH in H; cbn in H; destruct H as (-> & -> & ->);
    cbn [rev]; rewrite <- app_assoc; auto.
Qed.

(** Locals and extrns after a statement, and the variables at every expression. *)
Definition okAt (vars : list string) (e : expr) : Prop :=
  (exists x, e = ECallee x) \/ exists vs q, okE vs q e = true /\ incl vs vars.
Lemma okAt_incl a b e : incl a b -> okAt a e -> okAt b e.
Proof. intros I [H|(vs & q & H & K)]; [left; auto|right; exists vs, q; split; auto; eapply incl_tran; eauto]. Qed.
Record stepS (v v' : senv) (au ex : list string) (es : list expr) : Prop := {
  st_locs : s_locs v' = rev au ++ s_locs v;
  st_exts : s_exts v' = rev ex ++ s_exts v;
  st_fresh : NoDup au /\ forall x, In x au -> ~ In x (s_locs v);
  st_ok : forall e, In e es -> okAt (s_locs v ++ s_exts v ++ au ++ ex) e }.
Lemma stepS_nil v : stepS v v [] [] [].
Proof. constructor; auto. - split; [constructor|auto]. - intros e []. Qed.
Lemma stepS_app v v1 v2 a1 a2 x1 x2 e1 e2 : stepS v v1 a1 x1 e1 -> stepS v1 v2 a2 x2 e2 -> stepS v v2 (a1 ++ a2) (x1 ++ x2) (e1 ++ e2).
Proof.
  intros [L1 X1 [N1 F1] O1] [L2 X2 [N2 F2] O2]. constructor.
  - rewrite L2, L1, rev_app_distr, app_assoc. auto.
  - rewrite X2, X1, rev_app_distr, app_assoc. auto.
  - rewrite L1 in F2. split.
    + clear - N1 N2 F2. induction N1 as [|x l NI N IH]; cbn; auto. constructor.
      * rewrite in_app_iff. intros [K|K]; [auto|]. apply (F2 _ K). apply in_or_app. left. rewrite <- in_rev. left. auto.
      * apply IH. intros y K L. apply (F2 _ K). apply in_app_iff in L. apply in_or_app. destruct L; [left|right]; auto.
        rewrite <- in_rev in *. right. auto.
    + intros x K. apply in_app_iff in K. destruct K as [K|K]; auto. intros L. apply (F2 _ K). apply in_or_app. auto.
  - intros e K. apply in_app_iff in K. destruct K as [K|K].
    + eapply okAt_incl; [|apply O1, K]. intros y Y. rewrite !in_app_iff in *. tauto.
    + eapply okAt_incl; [|apply O2, K]. rewrite L1, X1. intros y Y. rewrite !in_app_iff, <- !in_rev in *. tauto.
Qed.
Lemma stepS_chkE e v v' : chkE e v = Some v' -> stepS v v' [] [] (subE e).
Proof.
  intros H. apply chkE_some in H. destruct H as (H & L & X & _ & _). constructor; auto; [split; [constructor|auto]|].
  intros e' K. destruct (proj1 okE_sub e _ _ H e' K) as [|[q Q]]; [left; auto|right]. exists (vars_of v), q. split; auto.
  cbn. rewrite app_nil_r. apply incl_refl.
Qed.
Lemma stepS_chkS : (forall s sw v v', chkS sw s v = Some v' -> stepS v v' (autosS s) (extrnsS s) (exprsS s)) /\
  (forall l sw v v', chkL sw l v = Some v' -> stepS v v' (autosL l) (extrnsL l) (exprsL l)).
Proof.
  apply stmt_stmts_ind; intros; cbn [chkS chkL autosS autosL extrnsS extrnsL exprsS exprsL] in *.
  - injection H as <-. apply stepS_nil.
  - apply stepS_chkE; auto.
  - eauto.
  - match goal with H : context [match ?o with Some _ => _ | None => _ end] |- _ => destruct o end; [apply stepS_chkE; auto|injection H as <-; apply stepS_nil].
  - apply chkAuto_some in H. destruct H as (-> & N & F). constructor; cbn; auto. intros e [].
  - apply chkExtrn_some in H. destruct H as (L & X & _). constructor; auto; [split; [constructor|auto]|]. intros e [].
  - apply opt_some in H0. destruct H0 as (v1 & H1 & H2). exact (stepS_app _ _ _ [] _ [] _ _ _ (stepS_chkE _ _ _ H1) (H _ _ _ H2)).
  - apply opt_some in H1. destruct H1 as (v1 & H1 & H2). apply opt_some in H2. destruct H2 as (v2 & H2 & H3).
    exact (stepS_app _ _ _ [] _ [] _ _ _ (stepS_chkE _ _ _ H1) (stepS_app _ _ _ _ _ _ _ _ _ (H _ _ _ H2) (H0 _ _ _ H3))).
  - apply opt_some in H0. destruct H0 as (v1 & H1 & H2). exact (stepS_app _ _ _ [] _ [] _ _ _ (stepS_chkE _ _ _ H1) (H _ _ _ H2)).
  - apply opt_some in H0. destruct H0 as (v1 & H1 & H2). exact (stepS_app _ _ _ [] _ [] _ _ _ (stepS_chkE _ _ _ H1) (H _ _ _ H2)).
  - destruct sw; [eauto|discriminate].
  - injection H as <-. apply stepS_nil.
  - eauto.
  - injection H as <-. apply stepS_nil.
  - apply opt_some in H1. destruct H1 as (v1 & H1 & H2). eauto using stepS_app.
Qed.

(** Every function of an accepted file. *)
Lemma chkP_in ds : forall v v' f ps b, chkP ds v = Some v' -> In (DFunction f ps b) ds ->
  exists fu gl v1, chkS false b (mkEnv (rev ps) [] fu gl) = Some v1.
Proof.
  induction ds as [|d r IH]; intros v v' f ps b H K; [destruct K|]. cbn [chkP] in H. apply opt_some in H. destruct H as (v1 & H1 & H2).
  destruct K as [->|K]; eauto. cbn [chkD] in H1. apply opt_some in H1. destruct H1 as (v2 & H1 & _). eauto.
Qed.
Lemma chkP_steps ds v v' f ps b : chkP ds v = Some v' -> In (DFunction f ps b) ds ->
  exists fu gl v1, stepS (mkEnv (rev ps) [] fu gl) v1 (autosS b) (extrnsS b) (exprsS b).
Proof.
  intros H K. destruct (chkP_in _ _ _ _ _ _ H K) as (fu & gl & v1 & E). exists fu, gl, v1. eapply (proj1 stepS_chkS); eauto.
Qed.

(** Stray case labels. *)
Scheme stray_mind := Induction for stray Sort Prop with under_mind := Induction for stray_under Sort Prop.
Combined Scheme stray_under_ind from stray_mind, under_mind.
Lemma chkL_in sw s l : inL s l -> forall v, (forall v, chkS sw s v = None) -> chkL sw l v = None.
Proof.
  induction 1 as [s r|s s' r H IH]; intros v N; cbn [chkL]; [rewrite N; reflexivity|].
  destruct (chkS sw s' v); cbn [opt_bind]; auto.
Qed.
Lemma opt_none {A B} (o : option A) (f : A -> option B) : (forall a, f a = None) -> opt_bind o f = None.
Proof. intros H. destruct o; cbn; auto. Qed.
Lemma stray_rejected : (forall s, stray s -> forall v, chkS false s v = None) /\ (forall s, stray_under s -> forall v, chkS true s v = None).
Proof.
  apply stray_under_ind; intros; cbn [chkS]; auto using opt_none; try (eapply chkL_in; eauto).
  - apply opt_none. intros a. rewrite H. reflexivity.
  - apply opt_none. intros a. rewrite H. reflexivity.
Qed.

(** Functions and variables of the file. *)
Definition known (x : string) (l : list event) : Prop := In (FunDef x) l \/ In (Called x) l.
Definition variable (x : string) (l : list event) : Prop := In (VarDef x) l \/ In (Extrn x) l.
Record K (l : list event) (v : senv) : Prop := {
  K_funs : forall x, known x l -> ~ variable x l -> In x (s_funs v);
  K_globs : forall x, In x (s_globs v) \/ In x (s_exts v) -> variable x l;
  K_good : forall l1 x l2, l = l1 ++ Extrn x :: l2 -> known x l1 -> variable x l1 }.
Lemma app_snoc_split {A} (l1 l2 l : list A) a b : l ++ [a] = l1 ++ b :: l2 -> (l2 = [] /\ l = l1 /\ a = b) \/ exists l3, l2 = l3 ++ [a] /\ l = l1 ++ b :: l3.
Proof.
  destruct l2 as [|z l2] using rev_ind; intros E.
  - left. apply app_inj_tail in E. destruct E; auto.
  - right. exists l2. change (l1 ++ b :: l2 ++ [z]) with (l1 ++ (b :: l2) ++ [z]) in E. rewrite app_assoc in E. apply app_inj_tail in E. destruct E as [-> ->]. auto.
Qed.
Lemma K_more l v a v' : K l v -> (forall x, a <> Extrn x) ->
  (forall x, In x (s_funs v) -> In x (s_funs v')) -> (forall x, a = FunDef x \/ a = Called x -> ~ variable x l -> In x (s_funs v')) ->
  (forall x, In x (s_globs v') \/ In x (s_exts v') -> In x (s_globs v) \/ In x (s_exts v) \/ a = VarDef x) -> K (l ++ [a]) v'.
Proof.
  intros [KF KG GO] NE F1 F2 G. assert (VM : forall x, variable x l -> variable x (l ++ [a])) by (intros x [H|H]; [left|right]; apply in_or_app; auto).
  constructor.
  - intros x H NV. unfold known in H. rewrite !in_app_iff in H. cbn [In] in H.
    destruct H as [[H|[H|[]]]|[H|[H|[]]]]; [apply F1, KF; [left; auto|auto]|apply F2; auto|apply F1, KF; [right; auto|auto]|apply F2; auto].
  - intros x H. destruct (G x H) as [H1|[H1|H1]]; [apply VM, KG; auto|apply VM, KG; auto|]. left. apply in_or_app. right. left. auto.
  - intros l1 x l2 E. apply app_snoc_split in E. destruct E as [(_ & _ & E)|(l3 & _ & E)]; [destruct (NE x E)|eauto].
Qed.
Lemma K_same l v v' : K l v -> (forall x, In x (s_funs v) -> In x (s_funs v')) ->
  (forall x, In x (s_globs v') \/ In x (s_exts v') -> In x (s_globs v) \/ In x (s_exts v)) -> K l v'.
Proof. intros [KF KG GO] F G. constructor; eauto. Qed.
Lemma K_extrn names : forall l v v', K l v -> chkExtrn names v = Some v' -> K (l ++ map Extrn names) v'.
Proof.
  induction names as [|x r IH]; intros l v v' H E.
  - cbn in *. injection E as <-. rewrite app_nil_r. auto.
  - cbn [map]. change (Extrn x :: map Extrn r) with ([Extrn x] ++ map Extrn r). rewrite app_assoc. cbn [chkExtrn] in E.
    assert (X : forall v2, s_funs v2 = s_funs v -> (forall y, In y (s_globs v2) \/ In y (s_exts v2) -> In y (s_globs v) \/ In y (s_exts v) \/ y = x) ->
       (In x (s_globs v) \/ ~ In x (s_funs v)) -> K (l ++ [Extrn x]) v2).
    { intros v2 F G D. destruct H as [KF KG GO]. constructor.
      - intros y [Y|Y] NV; rewrite F; apply in_app_iff in Y; destruct Y as [Y|[Y|[]]]; try discriminate Y; (apply KF; [unfold known; auto|]);
          intros [V|V]; apply NV; [left|right|left|right]; apply in_or_app; auto.
      - intros y Y. destruct (G y Y) as [Z|[Z| ->]].
        + destruct (KG y (or_introl Z)) as [V|V]; [left|right]; apply in_or_app; auto.
        + destruct (KG y (or_intror Z)) as [V|V]; [left|right]; apply in_or_app; auto.
        + right. apply in_or_app. right. left. auto.
      - intros l1 y l2 E2 KN. apply app_snoc_split in E2. destruct E2 as [(_ & -> & E2)|(l3 & _ & E2)]; [injection E2 as ->|eauto].
        destruct D as [D|D]; auto. destruct (in_dec string_dec y (s_globs v)) as [|NG]; auto.
        assert (V : variable y l1 \/ ~ variable y l1).
        { unfold variable. assert (ED : forall a b : event, {a = b} + {a <> b}) by (decide equality; apply string_dec).
          destruct (in_dec ED (VarDef y) l1); [auto|]. destruct (in_dec ED (Extrn y) l1); [auto|]. right. tauto. }
        destruct V as [V|V]; auto. exfalso. apply D. apply KF; auto. }
    destruct (isin x (s_globs v)) eqn:EG; [|destruct (isin x (s_funs v)) eqn:EF; [discriminate|]].
    + apply isin_In in EG. eapply IH; [|exact E]. apply X; cbn; auto. intros y [Y|[Y|Y]]; auto.
    + apply isin_false in EF. eapply IH; [|exact E]. apply X; cbn; auto. intros y [[Y|Y]|[Y|Y]]; auto.
Qed.
Lemma usedF_calls vars exts : (forall e x, shE e -> In (Called x) (callsE e) -> ~ In x exts -> In x (usedF vars exts e)) /\
  (forall l x, shEs l -> In (Called x) (flat_map (fun e => match e with ECall (ECallee x) _ => [Called x] | _ => [] end) (subEs l)) -> ~ In x exts -> In x (usedArgs vars exts l)).
Proof.
  unfold callsE. apply expr_exprs_ind; intros; cbn [subE subEs shE shEs usedF usedArgs flat_map app] in *; rewrite ?flat_map_app, ?in_app_iff in *;
    repeat match goal with H : _ /\ _ |- _ => destruct H end; cbn [In] in *;
    try solve [tauto | repeat match goal with H : _ \/ _ |- _ => destruct H end; eauto 6].
  destruct f; try (destruct H2 as [[]|[H2|H2]]; [left; apply H; auto|right; apply H0; auto]); try contradiction.
  cbn [flat_map subE In usedF] in *. destruct H2 as [[H2|[]]|[[]|H2]].
  - injection H2 as <-. left. apply isin_false in H3. rewrite H3. left. auto.
  - right. apply H0; auto.
Qed.
Lemma K_list l v v' names : K l v -> s_globs v' = s_globs v -> s_exts v' = s_exts v -> (forall x, In x (s_funs v) -> In x (s_funs v')) ->
  (forall x, In (Called x) names -> ~ In x (s_exts v) -> In x (s_funs v')) -> Forall (fun a => exists x, a = Called x) names -> K (l ++ names) v'.
Proof.
  intros H G X F C FA. revert l v H G X F C. induction FA as [|a r [x ->] FA IH]; intros l v H G X F C.
  - rewrite app_nil_r. eapply K_same; [exact H|auto|]. rewrite G, X. auto.
  - change (Called x :: r) with ([Called x] ++ r). rewrite app_assoc. apply (IH _ v'); auto.
    + apply (K_more l v); auto.
      * discriminate.
      * intros y [E|E] NV; [discriminate|]. injection E as <-. apply C; [left; auto|]. intros E. apply NV. destruct H as [_ KG _]. apply KG. auto.
      * rewrite G, X. tauto.
    + intros y Y NX. apply C; [right; auto|]. rewrite <- X. auto.
Qed.
Lemma calls_only e : Forall (fun a => exists x, a = Called x) (callsE e).
Proof.
  unfold callsE. induction (subE e) as [|a r IH]; cbn; auto. destruct a; auto. destruct a; auto. cbn. constructor; eauto.
Qed.
Lemma K_chkE e l v v' : shE e -> K l v -> chkE e v = Some v' -> K (l ++ callsE e) v'.
Proof.
  intros S H E. apply chkE_some in E. destruct E as (_ & L & X & G & F). eapply K_list; eauto using calls_only.
  - intros x Hx. rewrite F. apply in_or_app. auto.
  - intros x Hx NX. rewrite F. apply in_or_app. left. eapply (proj1 (usedF_calls _ _)); eauto.
Qed.
Lemma K_chkS : (forall s sw l v v', shS s -> K l v -> chkS sw s v = Some v' -> K (l ++ eventsS s) v') /\
  (forall r sw l v v', shL r -> K l v -> chkL sw r v = Some v' -> K (l ++ eventsL r) v').
Proof.
  apply stmt_stmts_ind; intros; cbn [chkS chkL eventsS eventsL shS shL] in *.
  - injection H1 as <-. rewrite app_nil_r. auto.
  - eapply K_chkE; eauto.
  - eauto.
  - match goal with H : context [match ?o with Some _ => _ | None => _ end] |- _ => destruct o end; [eapply K_chkE; eauto|injection H1 as <-; rewrite app_nil_r; auto].
  - apply chkAuto_some in H1. destruct H1 as (-> & _). rewrite app_nil_r. eapply K_same; eauto.
  - eapply K_extrn; eauto.
  - apply opt_some in H2. destruct H2 as (v1 & H2 & H3), H0. rewrite app_assoc. eauto using K_chkE.
  - apply opt_some in H3. destruct H3 as (v1 & H3 & H4). apply opt_some in H4. destruct H4 as (v2 & H4 & H5). destruct H1 as (? & ? & ?).
    rewrite !app_assoc. eauto using K_chkE.
  - apply opt_some in H2. destruct H2 as (v1 & H2 & H3), H0. rewrite app_assoc. eauto using K_chkE.
  - apply opt_some in H2. destruct H2 as (v1 & H2 & H3), H0. rewrite app_assoc. eauto using K_chkE.
  - destruct sw; [eauto|discriminate].
  - injection H1 as <-. rewrite app_nil_r. auto.
  - eauto.
  - injection H1 as <-. rewrite app_nil_r. auto.
  - apply opt_some in H3. destruct H3 as (v1 & H3 & H4), H1. rewrite app_assoc. eauto.
Qed.
Lemma K_chkP ds : Forall shD ds -> forall l v v', K l v -> s_exts v = [] -> chkP ds v = Some v' -> K (l ++ eventsP ds) v'.
Proof.
  induction 1 as [|d r S F IH]; intros l v v' H X E; cbn [chkP eventsP flat_map] in *.
  - injection E as <-. rewrite app_nil_r. auto.
  - apply opt_some in E. destruct E as (v1 & E1 & E2). rewrite app_assoc. apply (IH _ v1); auto; [|eapply chkD_locs; eauto].
    destruct d as [n vs|n z vs|n ps b]; cbn [chkD eventsD] in *.
    + injection E1 as <-. eapply K_more; eauto; cbn; try discriminate; try solve [intuition congruence].
    + injection E1 as <-. eapply K_more; eauto; cbn; try discriminate; try solve [intuition congruence].
    + apply opt_some in E1. destruct E1 as (v2 & E1 & E3). injection E3 as <-. change (FunDef n :: eventsS b) with ([FunDef n] ++ eventsS b). rewrite app_assoc.
      eapply K_same; [eapply (proj1 K_chkS); [exact S| |exact E1]| |]; cbn; auto; [|tauto].
      eapply K_more; eauto; cbn; try discriminate; auto. intros x [Y|Y] _; [injection Y as ->; auto|discriminate].
      intros x [Y|[]]. auto.
Qed.
Lemma K_empty : K [] empty_env.
Proof. constructor; cbn; try tauto. intros [|] x l2; discriminate. Qed.

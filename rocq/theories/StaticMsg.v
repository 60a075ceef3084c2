(** * StaticMsg: the generator gives the messages of SpecMsg.v *)
From Coq Require Import List Ascii String ZArith NArith Lia Bool.
From Verif Require Import Base Lexer IR Builder Expr Stmt Decl Wp Syntax Pure ParseGen Pwp Names InvIR Msteps InvDecl SpecStatic Static SpecMsg.
Import ListNotations.
Open Scope string_scope.
Open Scope list_scope.
Open Scope Z_scope.
Open Scope m_scope.

(** [m] succeeds in [c] with [Q], or fails with the message [o]. *)
Definition outm {A} (m : C A) (o : option string) (Q : A -> cstate -> Prop) (c : cstate) : Prop :=
  match o with
  | None => exists a c', yields m c a c' /\ Q a c'
  | Some s => forall l, m (mkSt l c) = Err (Msg s)
  end.
Lemma outm_bind {A B} (m : C A) (f : A -> C B) b1 b2 P Q c :
  outm m b1 P c -> (forall a c', P a c' -> outm (f a) b2 Q c') -> outm (bind m f) (orelse b1 b2) Q c.
Proof.
  destruct b1; cbn.
  - intros H _ l. unfold bind. rewrite H. reflexivity.
  - intros (a & c1 & Y & HP) H. specialize (H a c1 HP). destruct b2; cbn in *.
    + intros l. unfold bind. rewrite (Y l). apply H.
    + destruct H as (b & c2 & Y2 & HQ). exists b, c2. split; auto. eapply yields_bind; eauto.
Qed.
Lemma outm_mono {A} (m : C A) b (P Q : A -> cstate -> Prop) c : outm m b P c -> (forall a c', P a c' -> Q a c') -> outm m b Q c.
Proof. destruct b; cbn; auto. intros (a & c' & Y & H) K. eauto. Qed.
Lemma outm_eq {A} (m : C A) b b' Q c : outm m b Q c -> b = b' -> outm m b' Q c.
Proof. intros H <-. auto. Qed.
Lemma outm_ret {A} (a : A) (Q : A -> cstate -> Prop) c : Q a c -> outm (ret a) None Q c.
Proof. intros H. exists a, c. split; auto using yields_ret. Qed.
Lemma outm_err {A} e (Q : A -> cstate -> Prop) c : outm (errorf e) (Some e) Q c.
Proof. intros l. reflexivity. Qed.
Lemma outm_quiet {A B} (m : C A) (f : A -> C B) v b Q c : quiet m -> R v c ->
  (forall a c', R v c' -> outm (f a) b Q c') -> outm (bind m f) b Q c.
Proof. intros H1 H2 H3. apply (outm_bind _ _ None b (fun _ c' => R v c')); auto. apply quiet_R; auto. Qed.
Lemma outm_getR {B} (f : cstate -> C B) b Q c : outm (f c) b Q c -> outm (bind get f) b Q c.
Proof. intros H. apply (outm_bind _ _ None b (fun a c' => a = c /\ c' = c)); [exists c, c; split; auto; intros l; reflexivity|]. intros a c' [-> ->]. auto. Qed.
Lemma orelse_none o : orelse o None = o. Proof. destruct o; reflexivity. Qed.
Lemma outm_genVar v c q x : R v c ->
  outm (genVar q x) (unless (isin x (vars_of v) || negb q) (quoted "undefined identifier " x ""))
    (fun a c' => snd a = isin x (vars_of v) /\ R (addF (if isin x (vars_of v) then [] else [x]) v) c') c.
Proof.
  intros H. pose proof (out_genVar v c q x H) as K. destruct (isin x (vars_of v) || negb q) eqn:E; [exact K|]. clear K.
  apply orb_false_iff in E. destruct E as [E1 E2]. apply negb_false_iff in E2. subst q. cbn [unless].
  assert (EV : assoc x (c_locals c) = None /\ assoc x (c_globals c) = None).
  { apply isin_false in E1. unfold vars_of in E1. rewrite in_app_iff, (R_locs _ _ H), (R_exts _ _ H), <- !assoc_keys in E1.
    destruct (assoc x (c_locals c)), (assoc x (c_globals c)); auto; exfalso; apply E1; first [left; discriminate|right; discriminate]. }
  destruct EV as [V1 V2]. intros l. unfold genVar, GetAddress, bind, get, ret. cbn [cs]. rewrite V1, V2. reflexivity.
Qed.
Ltac ms := eapply outm_quiet; [solve [auto with quiet]|eassumption|intros ? ? ?].
Ltac me := apply outm_ret; unfold Epost; cbn [snd lvalue usedF]; auto.
Ltac useM IH S qq := match goal with |- outm _ _ _ ?c0 => match goal with K : R ?v' c0 |- _ => exact (IH S qq v' c0 K) end end.
Ltac useMl IH S := match goal with |- outm _ _ _ ?c0 => match goal with K : R ?v' c0 |- _ => exact (IH S v' c0 K) end end.
Lemma outm_gen_all :
  (forall e, shE e -> forall q v c, R v c -> outm (gen true q e) (msgE (vars_of v) q e) (Epost v e) c) /\
  (forall l, shEs l -> forall v c, R v c -> outm (genArgs true l) (msgArgs (vars_of v) l) (fun _ c' => R (addF (usedArgs (vars_of v) (s_exts v) l) v) c') c).
Proof.
  apply expr_exprs_ind.
  - intros z _ q v c H. me. auto using R_addnil.
  - intros s _ q v c H. cbn [gen msgE]. ms. ms. ms. me. auto using R_addnil.
  - intros x _ q v c H. cbn [gen msgE]. apply outm_genVar; auto.
  - intros x [].
  - intros a IH SH q v c H. cbn [gen msgE]. eapply outm_eq; [eapply outm_bind; [apply (IH SH _ v c H)|]|apply orelse_none].
    intros [w l] c' [_ H']. ms. me.
  - intros a IHa i IHi [S1 S2] q v c H. cbn [gen msgE]. eapply outm_bind; [apply (IHa S1 _ v c H)|]. intros [w l] c1 [_ HH1].
    ms. ms. eapply outm_eq; [eapply outm_bind; [useM IHi S2 false|]|apply orelse_none].
    intros [w2 l2] c2 [_ HH2]. ms. ms. me. auto using R_add2.
  - intros f IHf args IHargs [S1 S2] q v c H.
    assert (HF : outm (gen true false f) (msgE (vars_of v) false f)
       (fun _ c' => R (addF (usedF (vars_of v) (s_exts v) f) v) c') c).
    { destruct f; try contradiction; try (eapply outm_mono; [apply (IHf S1 false v c H)|]; intros ? ? [_ K]; exact K). cbn [gen usedF]. exact (out_callee v c _ H). }
    rewrite gen_call. cbn [msgE]. eapply outm_bind; [apply HF|]. cbv beta. intros [w l] c1 HH1. ms.
    eapply outm_eq; [eapply outm_bind; [useMl IHargs S2|]|apply orelse_none]. cbv beta. intros vs c2 HH2. ms. me. auto using R_add2.
  - intros op a IH SH q v c H. cbn [gen msgE]. eapply outm_bind; [apply (IH SH _ v c H)|]. intros [w l] c1 [E HH1]. cbn [snd] in E. rewrite <- E.
    destruct l; [cbn [unless]|apply outm_err]. ms. me.
  - intros op a IH SH q v c H. cbn [gen msgE]. eapply outm_bind; [apply (IH SH _ v c H)|]. intros [w l] c1 [E HH1]. cbn [snd] in E. rewrite <- E.
    destruct l; [cbn [unless]|apply outm_err]. ms. me.
  - intros a IH SH q v c H. cbn [gen msgE]. eapply outm_eq; [eapply outm_bind; [apply (IH SH _ v c H)|]|apply orelse_none].
    intros [w l] c' [_ H']. ms. ms. me.
  - intros a IH SH q v c H. cbn [gen msgE]. eapply outm_eq; [eapply outm_bind; [apply (IH SH _ v c H)|]|apply orelse_none].
    intros [w l] c' [_ H']. ms. ms. me.
  - intros a IH SH q v c H. cbn [gen msgE]. eapply outm_eq; [eapply outm_bind; [apply (IH SH _ v c H)|]|apply orelse_none].
    intros [w l] c' [_ H']. ms. ms. me.
  - intros a IH SH q v c H. cbn [gen msgE]. eapply outm_bind; [apply (IH SH _ v c H)|]. intros [w l] c1 [E HH1]. cbn [snd] in E. rewrite <- E.
    destruct l; [cbn [unless]|apply outm_err]. ms. me.
  - intros op a IHa b IHb [S1 S2] q v c H. cbn [gen msgE andb]. eapply outm_bind; [apply (IHa S1 _ v c H)|]. intros [w l] c1 [_ HH1].
    ms. eapply outm_eq; [eapply outm_bind; [useM IHb S2 q|]|apply orelse_none].
    intros [w2 l2] c2 [_ HH2]. ms. ms. me. auto using R_add2.
  - intros a IHa b IHb d IHd (S1 & S2 & S3) q v c H. cbn [gen msgE]. eapply outm_bind; [apply (IHa S1 _ v c H)|]. intros [w l] c1 [_ HH1].
    do 8 ms. eapply outm_bind; [useM IHb S2 false|]. intros [w2 l2] c2 [_ HH2]. do 4 ms.
    eapply outm_eq; [eapply outm_bind; [useM IHd S3 q|]|apply orelse_none].
    intros [w3 l3] c3 [_ HH3]. do 5 ms. me. split; auto. apply R_add2, R_add2. auto.
  - intros op a IHa b IHb [S1 S2] q v c H. cbn [gen msgE]. eapply outm_bind; [apply (IHa S1 _ v c H)|]. intros [w l] c1 [E HH1]. cbn [snd] in E. rewrite <- E.
    destruct l; [|apply outm_err]. cbn [unless orelse]. eapply outm_eq; [eapply outm_bind; [useM IHb S2 q|]|apply orelse_none].
    intros [w2 l2] c2 [_ HH2]. ms. destruct op; repeat ms; me; auto using R_add2.
  - intros _ v c H. apply outm_ret. apply R_addnil. auto.
  - intros e IHe l IHl [S1 S2] v c H. rewrite genArgs_cons. cbn [msgArgs]. eapply outm_bind; [apply (IHe S1 _ v c H)|]. intros [w lv] c1 [_ HH1]. ms.
    eapply outm_eq; [eapply outm_bind; [useMl IHl S2|]|apply orelse_none]. cbv beta. intros vs c2 HH2. apply outm_ret. cbn [usedArgs]. auto using R_add2.
Qed.

(** ** Statements *)
Definition outf {A} (m : C A) (o : found) (P : A -> Prop) (c : cstate) : Prop :=
  match o with
  | inr v => exists a c', yields m c a c' /\ P a /\ R v c'
  | inl s => forall l, m (mkSt l c) = Err (Msg s)
  end.
Lemma outf_bind {A B} (m : C A) (f : A -> C B) o k (P : A -> Prop) Q c : outf m o P c ->
  (forall a c' v', o = inr v' -> P a -> R v' c' -> outf (f a) (k v') Q c') -> outf (bind m f) (then_ o k) Q c.
Proof.
  destruct o as [s|v]; cbn.
  - intros H _ l. unfold bind. rewrite H. reflexivity.
  - intros (a & c1 & Y & HP & HR) H. specialize (H a c1 v eq_refl HP HR). unfold outf in *. destruct (k v).
    + intros l. unfold bind. rewrite (Y l). apply H.
    + destruct H as (b & c2 & Y2 & HQ). exists b, c2. split; auto. eapply yields_bind; eauto.
Qed.
Lemma outf_step {A B} (m : C A) (f : A -> C B) v1 o (P : A -> Prop) Q c : outO m (Some v1) P c ->
  (forall a c', P a -> R v1 c' -> outf (f a) o Q c') -> outf (bind m f) o Q c.
Proof. intros H K. change o with (then_ (inr v1) (fun _ => o)). eapply (outf_bind m f (inr v1)); [exact H|]. intros a c' v' E. injection E as <-. auto. Qed.
Lemma outf_quiet {A B} (m : C A) (f : A -> C B) v o Q c : quiet m -> R v c ->
  (forall a c', R v c' -> outf (f a) o Q c') -> outf (bind m f) o Q c.
Proof. intros H1 H2 H3. apply (outf_step m f v o (fun _ => True)); [apply outO_q; auto|auto]. Qed.
Lemma outf_ret {A} (a : A) v (P : A -> Prop) c : P a -> R v c -> outf (ret a) (inr v) P c.
Proof. intros H K. exists a, c. split; auto using yields_ret. Qed.
Lemma outf_err {A} e (P : A -> Prop) c : outf (errorf e) (inl e) P c.
Proof. intros l. reflexivity. Qed.
Lemma outf_then {A B} (m : C A) (f : A -> C B) o (P : A -> Prop) Q c : outf m o P c ->
  (forall a c' v', P a -> R v' c' -> outf (f a) (inr v') Q c') -> outf (bind m f) o Q c.
Proof.
  intros H1 H2. replace o with (then_ o (fun v => inr v)) by (destruct o; auto). eapply outf_bind; eauto.
Qed.
Lemma outf_genR e v c : shE e -> R v c -> outf (genR true false e) (dgE e v) (fun _ => True) c.
Proof.
  intros S H. unfold genR, dgE. pose proof (proj1 outm_gen_all e S false v c H) as K. unfold outm in K.
  destruct (msgE (vars_of v) false e); unfold outf.
  - intros l. unfold bind. rewrite K. reflexivity.
  - destruct K as ([w l] & c1 & Y & E & K). destruct (quiet_R (rval w l) _ _ (quiet_rval w l) K) as (x & c2 & Y2 & K2).
    exists x, c2. split; [eapply yields_bind; [exact Y|exact Y2]|]. auto.
Qed.
Ltac fq := eapply outf_quiet; [solve [auto with quiet]|eassumption|intros ? ? ?].
Lemma dgAuto_spec names : forall v, (exists m, dgAuto names v = inl m) \/ dgAuto names v = inr (putLs names v).
Proof. induction names as [|x l IH]; intros v; cbn; auto. destruct (isin _ _); eauto. Qed.
Lemma outm_checkAutos ds c : forall seen v, s_locs v = seen ++ map fst (c_locals c) ->
  outm (checkAutos seen ds) (match dgAuto (map fst ds) v with inl m => Some m | inr _ => None end) (fun _ c' => c' = c) c.
Proof.
  induction ds as [|[x z] ds IH]; intros seen v E; cbn [checkAutos map fst dgAuto].
  - apply outm_ret. auto.
  - apply outm_getR. change (mem x seen) with (isin x seen). change (mem x (map fst (c_locals c))) with (isin x (map fst (c_locals c))). rewrite E, isin_app. destruct (isin x seen); [apply outm_err|]. cbn [orb].
    destruct (isin x (map fst (c_locals c))); [apply outm_err|]. apply IH. reflexivity.
Qed.
Lemma outf_extern x v c : nodot x -> R v c -> outf (externName x) (dgExtrn [x] v) (fun _ => True) c.
Proof.
  intros N H. pose proof (outO_extern x v c N H) as K. cbn [chkExtrn dgExtrn] in *.
  destruct (isin x (s_globs v)) eqn:EG; [exact K|]. destruct (isin x (s_funs v)) eqn:EF; [|exact K]. clear K.
  apply isin_false in EG. rewrite (R_globs _ _ H), <- findGlobal_In in EG by auto. apply isin_In in EF. apply (R_funs _ _ H), findFunc_In in EF.
  intros l. unfold externName, bind, get. cbn [cs]. destruct (findGlobalByName c x); [destruct EG; discriminate|]. destruct (findFuncByName c x); [reflexivity|congruence].
Qed.
Lemma dgExtrn_cons x r v : dgExtrn (x :: r) v = then_ (dgExtrn [x] v) (dgExtrn r).
Proof. cbn [dgExtrn]. destruct (isin _ _); auto. destruct (isin _ _); auto. Qed.
Lemma outf_genExtrn ns : Forall nodot ns -> forall v c, R v c -> outf (genExtrn ns) (dgExtrn ns v) (fun _ => True) c.
Proof.
  induction 1 as [|x ns N F IH]; intros v c H; [apply outf_ret; auto|]. rewrite dgExtrn_cons. cbn [genExtrn].
  eapply outf_bind; [apply outf_extern; auto|]. auto.
Qed.
Lemma outf_genS_all :
  (forall s, wfS s -> shS s -> forall sw v c, R v c -> outf (genS true s sw) (dgS (is_sw sw) s v) (fun sw' => is_sw sw' = is_sw sw) c) /\
  (forall l, wfL l -> shL l -> forall sw v c, R v c -> outf (genL true l sw) (dgL (is_sw sw) l v) (fun sw' => is_sw sw' = is_sw sw) c).
Proof.
  apply stmt_stmts_ind.
  - intros _ _ sw v c H. apply outf_ret; auto.
  - intros e W S sw v c H. cbn [genS dgS]. eapply outf_then; [apply outf_genR; eauto|]. intros. apply outf_ret; auto.
  - intros l IH W S sw v c H. rewrite genS_block. cbn [dgS]. apply IH; auto.
  - intros [e|] W S sw v c H; cbn [genS dgS].
    + eapply outf_then; [apply outf_genR; eauto|]. cbv beta. intros a c1 v1 _ H1. fq. apply outf_ret; auto.
    + fq. apply outf_ret; auto.
  - intros ds W S sw v c H. cbn [genS dgS]. pose proof (outm_checkAutos ds c [] v (R_locs _ _ H)) as K.
    destruct (dgAuto_spec (map fst ds) v) as [[m E]|E]; rewrite E in *; cbn in K.
    + intros l. unfold bind at 1. rewrite K. auto.
    + destruct K as ([] & c' & Y & ->). destruct (outO_declareAutos ds v c H) as (u & c2 & Y2 & _ & H2).
      exists sw, c2. split; auto. eapply yields_bind; [exact Y|]. eapply yields_bind; [exact Y2|]. apply yields_ret.
  - intros ns W S sw v c H. cbn [genS dgS]. eapply outf_then; [apply outf_genExtrn; eauto|intros; apply outf_ret; auto].
    eapply Forall_impl; [|exact W]. apply nodot_name.
  - intros e s IH [W1 W2] [S1 S2] sw v c H. cbn [genS dgS]. eapply outf_bind; [apply outf_genR; eauto|]. cbv beta. intros a c1 v1 _ _ H1.
    do 7 fq. eapply outf_then; [apply (IH W2 S2 None); eassumption|]. cbv beta. intros sw2 c2 v2 _ H2'. do 4 fq. apply outf_ret; auto.
  - intros e s IH s2 IH2 (W1 & W2 & W3) (S1 & S2 & S3) sw v c H. cbn [genS dgS]. eapply outf_bind; [apply outf_genR; eauto|]. cbv beta. intros a c1 v1 _ _ H1.
    do 7 fq. eapply outf_bind; [apply (IH W2 S2 None); eassumption|]. cbv beta. intros sw2 c2 v2 _ _ H2'. do 2 fq.
    eapply outf_then; [apply (IH2 W3 S3 None); eassumption|]. cbv beta. intros sw3 c3 v3 _ H3'. do 2 fq. apply outf_ret; auto.
  - intros e s IH [W1 W2] [S1 S2] sw v c H. cbn [genS dgS]. do 6 fq. eapply outf_bind; [apply outf_genR; eauto|]. cbv beta. intros cnd c1 v1 _ _ HH1.
    do 3 fq. eapply outf_then; [apply (IH W2 S2 None); eassumption|]. cbv beta. intros sw2 c2 v2 _ HH2. do 2 fq. apply outf_ret; auto.
  - intros e s IH [W1 W2] [S1 S2] sw v c H. cbn [genS dgS]. fq. eapply outf_bind; [apply outf_genR; eauto|]. cbv beta. intros cnd c1 v1 _ _ HH1.
    do 5 fq. eapply outf_then; [eapply (IH W2 S2 (Some (_, []))); eassumption|]. cbv beta. intros sw2 c2 v2 _ HH2. do 2 fq.
    eapply outf_quiet; [|eassumption|].
    { destruct sw2 as [[i [|z vals]]|]; auto with quiet. apply quiet_bind; auto with quiet. }
    intros ? ? ?. fq. apply outf_ret; auto.
  - intros z s IH [W1 W2] S sw v c H. cbn [genS dgS]. destruct sw as [[id vals]|]; cbn [is_sw]; [|apply outf_err].
    do 3 fq. apply (IH W2 S (Some (id, vals ++ [z]))). auto.
  - intros x W S sw v c H. cbn [genS dgS]. do 5 fq. apply outf_ret; auto.
  - intros x s IH [W1 W2] S sw v c H. cbn [genS dgS]. do 3 fq. apply IH; auto.
  - intros _ _ sw v c H. apply outf_ret; auto.
  - intros s IHs l IHl [W1 W2] [S1 S2] sw v c H. rewrite genL_cons. cbn [dgL]. eapply outf_bind; [apply IHs; eauto|]. cbv beta. intros sw2 c2 v2 _ E H2.
    rewrite <- E. apply IHl; auto.
Qed.

(** ** Definitions *)
Lemma outf_via {A} (m m2 : C A) c c2 o Q : (forall l, m (mkSt l c) = m2 (mkSt l c2)) -> outf m2 o Q c2 -> outf m o Q c.
Proof.
  intros E. unfold outf. destruct o.
  - intros H l. rewrite E. apply H.
  - intros (a & c' & Y & H). exists a, c'. split; auto. intros l. rewrite E. apply Y.
Qed.
Lemma outf_genD d v c : wfD d -> shD d -> s_locs v = [] -> s_exts v = [] -> R v c -> outf (genD true d) (dgD d v) (fun _ => True) c.
Proof.
  intros W S L X H. destruct d as [n vals|n z vals|n ps body]; [exact (outO_genD _ v c W S L X H)|exact (outO_genD _ v c W S L X H)|].
  unfold genD; cbn [dgD].
  apply (outf_via _ ((f <- DeclareFunction n ps ;; StartFunction n f) ;;; (genS true body None ;;; (EndFunction ;;; ClearTopLevelContext))) c c).
  { intros l. unfold bind. destruct (DeclareFunction n ps _) as [f s| |]; auto. destruct (StartFunction n f s) as [? s1| |]; auto. destruct (genS true body None s1); auto. }
  eapply outf_step; [apply outO_start; eauto|]. intros _ c1 _ H1.
  eapply outf_bind; [eapply (proj1 outf_genS_all body); eauto; apply W|]. intros a c2 v2 E _ H2. cbv beta. exact (outO_end v2 c2 H2).
Qed.
Lemma dgD_locs d v v' : dgD d v = inr v' -> s_locs v' = [] /\ s_exts v' = [].
Proof.
  destruct d as [n vals|n z vals|n ps body]; cbn [dgD]; intros H; try (injection H as <-; auto).
  destruct (dgS _ _ _); [discriminate|]. injection H as <-. auto.
Qed.
Lemma outf_genP ds : wfP ds -> Forall shD ds -> forall v c, s_locs v = [] -> s_exts v = [] -> R v c -> outf (genP true ds) (dgP ds v) (fun _ => True) c.
Proof.
  induction ds as [|d ds IH]; intros W S v c L X H; cbn [genP dgP].
  - apply outf_ret; auto.
  - inversion W; subst. inversion S; subst. eapply outf_bind; [apply outf_genD; auto|]. cbv beta.
    intros a c1 v1 E _ H1. destruct (dgD_locs _ _ _ E). apply IH; auto.
Qed.
Theorem generate_message ds : wfP ds -> Forall shD ds ->
  match message ds with Some m => generate true ds = Err (Msg m) | None => exists md, generate true ds = Ok md tt end.
Proof.
  intros W S. pose proof (outf_genP ds W S empty_env NewCompiler eq_refl eq_refl R_new) as H. unfold outf in H. unfold generate, message.
  destruct (dgP ds empty_env) as [m|v].
  - rewrite H. reflexivity.
  - destruct H as ([] & c & Y & _ & K). rewrite (Y _). eauto.
Qed.

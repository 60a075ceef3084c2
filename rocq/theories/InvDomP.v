(** * InvDomP: registers are assigned before they are used, in functions *)
From Coq Require Import List Ascii String ZArith NArith Lia Bool.
From Verif Require Import Base Lexer IR Builder Expr Stmt Decl Wp Syntax Pure Pwp SpecIR SpecSem SpecTree SpecValid SpecSure ParseGen Names InvIR InvDecl InvNames Built InvTerm InvPhi InvDom InvDomS.
Import ListNotations.
Open Scope list_scope.
Open Scope Z_scope.
Open Scope m_scope.

(** ** The beginning of a function *)
Definition g_start : ghost := mkGhost (fun _ _ => False) (fun _ _ => False).
(** Parameters [l] have been bound. *)
Definition bound (l : list string) (g : ghost) (c : cstate) : Prop :=
  DO None g c /\ sure g c l /\ forall x v, assoc x (c_locals c) = Some v -> In x l.
Lemma bound_mv l g c g' c' : bound l g c -> DO None g' c' -> mv g c g' c' -> bound l g' c'.
Proof. intros (H1 & H2 & H3) HD M. split; auto. split; [eapply mv_sure; eauto|]. rewrite (m_locals _ _ _ _ M). auto. Qed.
Lemma bound_local l p v g c : bound l g c -> vav g c v -> bound (l ++ [p]) g (set_locals ((p, v) :: c_locals c) c).
Proof.
  intros (H1 & H2 & H3) HV. split; [|split].
  - apply (DO_same _ _ c); [repeat split|cbn; lia|apply H1|auto].
  - intros x HX. cbn. destruct (String.eqb_spec x p) as [->|N]; [exists v; auto|]. apply in_app_or in HX. destruct HX as [HX|[HX|[]]]; [|congruence].
    apply (H2 x HX).
  - intros x w. cbn. destruct (String.eqb_spec x p) as [->|N]; intros E; apply in_or_app; [right; left; auto|left; eauto].
Qed.
Lemma D_param l p (P : value) g c : bound l g c -> (forall r, P <> VReg r) ->
  pwp (a <- emitR (fun r => IAlloca r 1) ;; emit (IStore P a) ;;; bind_local p a) (fun _ c' => exists g', bound (l ++ [p]) g' c' /\ forall r, avail g c r -> avail g' c' r) c.
Proof.
  intros HB HP. eapply pwp_use; [pure_tac|apply (D_emitR None g c); [apply HB|auto|intros r v []]|]. cbv beta. intros a c1 (D1 & S1 & _ & _ & V1).
  eapply pwp_use; [pure_tac|apply (D_emit None g c1); auto|].
  { intros v [<-|[<-|[]]]; auto. destruct P; cbn; auto. destruct (HP r eq_refl). }
  cbv beta. intros _ c2 (D2 & S2). apply pwp_bind_local. exists g.
  assert (M : mv g c g c2) by (eapply mv_trans; apply mv_step; eauto).
  split; [|intros r HR; apply (m_avail _ _ _ _ M r HR)]. apply bound_local; [eapply bound_mv; eauto|eapply vav_step; eauto].
Qed.
Lemma D_va_params va ps : forall l g c, bound l g c -> vav g c va -> pwp (va_params va ps) (fun _ c' => exists g', bound (l ++ ps) g' c' /\ vav g' c' va) c.
Proof.
  induction ps as [|p ps IH]; intros l g c HB HV; cbn [va_params].
  - apply pwp_ret. exists g. rewrite app_nil_r. auto.
  - eapply pwp_use; [pure_tac|apply (D_emitR None g c); [apply HB|auto|intros r v []]|]. cbv beta. intros a c1 (D1 & S1 & _ & _ & V1).
    eapply pwp_use; [pure_tac|apply (D_emitR None g c1); auto; intros r v [<-|[]]; eapply vav_step; eauto|]. cbv beta. intros v c2 (D2 & S2 & _ & _ & V2).
    eapply pwp_use; [pure_tac|apply (D_emit None g c2); auto|].
    { intros w [<-|[<-|[]]]; auto. eapply vav_step; eauto. }
    cbv beta. intros _ c3 (D3 & S3). apply pwp_bind; [pure_tac|]. apply pwp_bind_local.
    assert (M : mv g c g c3) by (eapply mv_trans; [apply mv_step; exact S1|]; eapply mv_trans; apply mv_step; eauto).
    assert (B3 : bound (l ++ [p]) g (set_locals ((p, a) :: c_locals c3) c3)).
    { apply bound_local; [eapply bound_mv; eauto|]. eapply vav_step; [exact S3|]. eapply vav_step; eauto. }
    eapply pwp_mono; [apply (IH (l ++ [p]) g _ B3)|].
    + exact (mv_vav _ _ _ _ _ M HV).
    + cbv beta. intros u c4 (g4 & H1 & H2). exists g4. rewrite <- app_assoc in H1. auto.
Qed.
Lemma D_getOrCreateFunc l n g c : bound l g c -> pwp (getOrCreateFunc n) (fun _ c' => bound l g c' /\ forall v, vav g c v -> vav g c' v) c.
Proof.
  intros HB. apply pwp_modify.
  assert (K : forall c', c_blocks c' = c_blocks c -> c_builder c' = c_builder c -> c_labels c' = c_labels c -> c_labelID c' = c_labelID c -> c_locals c' = c_locals c -> c_functions c' = c_functions c ->
    bound l g c' /\ forall v, vav g c v -> vav g c' v).
  { intros c' E1 E2 E3 E4 E5 E6. assert (M : mv g c g c') by (apply mv_step, step_same; auto; [split; auto|lia]).
    split; [|intros v; apply mv_vav; auto]. eapply bound_mv; eauto. apply (DO_same _ _ c); [split; auto|lia|unfold funs; rewrite E6; apply HB|apply HB]. }
  destruct (find_named _ _ _); apply K; reflexivity.
Qed.
Lemma D_start name params c : funs c -> pwp (start_of name params) (fun _ c1 => exists g, bound params g c1) c.
Proof.
  intros HF. unfold start_of, DeclareFunction. apply pwp_bind; [pure_tac|]. apply pwp_bind; [auto with pure|]. apply pwp_modify. apply pwp_ret.
  unfold StartFunction. apply pwp_bind; [auto with pure|]. apply pwp_modify. apply pwp_bind; [auto with pure|]. apply pwp_get.
  cbv zeta. cbn [assoc c_fparams newFunc set_functions set_mfuncs set_fparams set_cur set_nreg set_locals set_labels set_builder set_blocks removeFuncByName].
  rewrite String.eqb_refl.
  match goal with |- pwp _ _ ?c' => set (c1 := c') end.
  assert (B1 : bound [] g_start c1).
  { subst c1. split; [|split].
    - constructor; cbn.
      + auto.
      + unfold size. cbn. lia.
      + intros k b n i r H. destruct k as [|[|]]; cbn in H; try discriminate H. injection H as <-. destruct n; discriminate.
      + intros k t r (b & H & H2). cbn in H. destruct k as [|[|]]; cbn in H; try discriminate H. injection H as <-. discriminate.
      + intros k b x inc r s H. destruct k as [|[|]]; cbn in H; try discriminate H. injection H as <-. intros [].
      + intros i j (t & (b & H & H2) & _). cbn in H. destruct i as [|[|]]; cbn in H; try discriminate H. injection H as <-. discriminate.
      + intros n b [].
      + constructor; [|exact HF]. destruct params; exact I.
    - intros x [].
    - discriminate. }
  clearbody c1. destruct params as [|p [|q ps]].
  - apply pwp_ret. exists g_start. auto.
  - eapply pwp_mono; [apply (D_param [] p (VParam p) g_start c1); auto; discriminate|]. cbv beta. intros _ c2 (g2 & H & _). exists g2. exact H.
  - eapply pwp_use; [pure_tac|apply (D_emitR None g_start c1); [apply B1|auto|intros r v []]|]. cbv beta. intros a c2 (D2 & S2 & _ & _ & V2).
    eapply pwp_use; [pure_tac|apply (D_emit None g_start c2); auto|].
    { intros v [<-|[<-|[]]]; auto. exact I. }
    cbv beta. intros _ c3 (D3 & S3). apply pwp_bind; [pure_tac|]. apply pwp_bind_local.
    assert (M13 : mv g_start c1 g_start c3) by (eapply mv_trans; apply mv_step; eauto).
    assert (B4 : bound [p] g_start (set_locals ((p, a) :: c_locals c3) c3)).
    { apply (bound_local [] p a); [eapply bound_mv; eauto|eapply vav_step; eauto]. }
    set (c4 := set_locals _ c3) in *. clearbody c4.
    eapply pwp_use; [pure_tac|apply (D_emitR None g_start c4); [apply B4|auto|intros r v []]|]. cbv beta. intros va0 c5 (D5 & S5 & _ & _ & V5).
    eapply pwp_use; [pure_tac|apply (D_emitR None g_start c5); auto; intros r v [<-|[]]; auto|]. cbv beta. intros va c6 (D6 & S6 & _ & _ & V6).
    assert (B6 : bound [p] g_start c6) by (eapply bound_mv; eauto; eapply mv_trans; apply mv_step; eauto).
    eapply pwp_use; [pure_tac|apply (D_getOrCreateFunc [p] _ g_start c6); auto|]. cbv beta. intros _ c7 [B7 V7].
    eapply pwp_use; [pure_tac|apply (D_emit None g_start c7); [apply B7|auto|intros v [<-|[]]; auto]|]. cbv beta. intros _ c8 (D8 & S8).
    assert (B8 : bound [p] g_start c8) by (eapply bound_mv; eauto; apply mv_step; auto).
    eapply pwp_use; [pure_tac|apply (D_va_params va (q :: ps) [p] g_start c8); auto; eapply vav_step; eauto|]. cbv beta. intros _ c9 (g9 & B9 & V9).
    eapply pwp_use; [pure_tac|apply (D_getOrCreateFunc ([p] ++ q :: ps) _ g9 c9 B9)|]. cbv beta. intros _ c10 [B10 V10].
    eapply pwp_mono; [apply (D_emit None g9 c10); [apply B10|auto|intros v [<-|[]]; auto]|]. cbv beta. intros _ c11 (D11 & S11).
    exists g9. eapply bound_mv; eauto. apply mv_step; auto.
Qed.

(** ** Bodies *)
Lemma DO_base Bs g c : DO None g c -> DO (Some Bs) g c.
Proof.
  intros []. constructor; auto. intros n b H. destruct (DO_labels n b H) as (H1 & P & [[_ H2]|H2] & H3); [discriminate|]. split; auto. exists P. split; auto. right. auto.
Qed.
Lemma sure_body_step l L D : sure_body l L D =
  match sureL (Some D) None l L D with
  | Some _ => true
  | None => match l with
            | SNil => false
            | SCons s r => match sureS None None s L D with Some D1 => sure_body r (L ++ autos s) D1 | None => false end
            end
  end.
Proof. destruct l; reflexivity. Qed.
Lemma D_body chk l : forall L D g c sw, goodL l -> sure_body l L D = true -> pre None None None sw L D g c ->
  pwp (genL chk l sw) (fun _ c' => exists B g', DO B g' c') c.
Proof.
  assert (K : forall l L D D' g c sw, goodL l -> sureL (Some D) None l L D = Some D' -> pre None None None sw L D g c ->
    pwp (genL chk l sw) (fun _ c' => exists B g', DO B g' c') c).
  { intros l' L D D' g c sw HG E HP. eapply pwp_mono.
    - apply (proj2 (S_all (Some (regs c D)) chk) l' (Some D) None sw L D D' g c HG E (hk_none _ _)).
      destruct HP. constructor; auto; [apply DO_base; auto|]. split; [apply incl_refl|]. tauto.
    - cbv beta. intros sw' c' (g' & P' & _). exists (Some (regs c D)), g'. apply P'. }
  induction l as [|s l IH]; intros L D g c sw HG HS HP; rewrite sure_body_step in HS.
  - destruct (sureL (Some D) None SNil L D) eqn:E; [|discriminate]. eapply K; eauto.
  - destruct (sureL (Some D) None (SCons s l) L D) eqn:E; [eapply K; eauto|].
    destruct (sureS None None s L D) as [D1|] eqn:ES; [|discriminate]. destruct HG as [HG1 HG2]. rewrite genL_cons.
    eapply pwp_use; [pure_tac|apply (proj1 (S_all None chk) s None None sw L D D1 g c HG1 ES (hk_none _ _) HP)|].
    cbv beta. intros sw1 c1 (g1 & P1 & G1). eapply IH; eauto.
Qed.
Lemma D_function chk ps body g c : goodS body -> sure_function ps body = true -> bound ps g c ->
  pwp (genS chk body None) (fun _ c' => exists B g', DO B g' c') c.
Proof.
  intros HG HS (H1 & H2 & H3).
  assert (HP : pre None None None None ps ps g c) by (constructor; auto).
  unfold sure_function in HS.
  assert (K : forall l, goodL l -> sure_body l ps ps = true -> pwp (genL chk l None) (fun _ c' => exists B g', DO B g' c') c) by (intros; eapply D_body; eauto).
  destruct body; try (rewrite genS_block; apply K; auto; fail);
    (intros sw' c' Y; assert (Y2 := yields_bind _ _ _ _ _ _ _ Y (yields_ret sw' c')); rewrite <- (genL_cons chk _ SNil None) in Y2 || idtac;
     refine (K _ _ HS sw' c' Y2); split; [exact HG|exact I]).
Qed.
Lemma D_finished B g c : DO B g c -> exists c', c_blocks c' = finished c /\ DO B g c'.
Proof.
  intros HD. unfold finished. destruct (nth_error (c_blocks c) (c_builder c)) as [b|]; [|eauto]. destruct (b_term b); [eauto|].
  exists (set_blocks (upd (c_builder c) (put_term (TRet (VInt 0))) (c_blocks c)) c). split; [reflexivity|].
  apply (DO_term B g c _ (TRet (VInt 0))); try reflexivity; auto; [intros r [E|[]]; discriminate|intros j []].
Qed.
(** The invariant gives the claim. *)
Lemma DO_walk B g c : DO B g c -> forall l k, walk (c_blocks c) l k -> forall r, gA g k r -> exists j b, In j l /\ nth_error (c_blocks c) j = Some b /\ In r (assigned (b_insts b)).
Proof.
  intros HD l k W. induction W as [|l i b t j W IH E T S]; intros r HR.
  - destruct (DO_entry _ _ _ HD _ HR).
  - destruct (DO_edges _ _ _ HD i j) as [_ H]; [exists t; split; auto; exists b; auto|].
    destruct (H r HR) as [H1|(b' & H1 & H2)].
    + destruct (IH r H1) as (j' & b' & Q1 & Q2). exists j', b'. split; auto. apply in_or_app. auto.
    + exists i, b'. split; auto. apply in_or_app. right. left. auto.
Qed.
Lemma DO_assigned B g c : DO B g c -> assigned_first (c_blocks c).
Proof.
  intros HD l k b W E. pose proof (DO_walk _ _ _ HD _ _ W) as A.
  assert (O : forall r, outs g c k r -> available (c_blocks c) l (b_insts b) r).
  { intros r [H|(b' & H1 & H2)]; [left; auto|]. rewrite E in H1. injection H1 as <-. right. auto. }
  split; [|split].
  - intros n i r H1 H2 H3. destruct (DO_insts _ _ _ HD k b n i r E H1 H2 H3) as [H|H]; [left; auto|right; auto].
  - intros t r H1 H2. apply O. eapply DO_terms; eauto. exists b. auto.
  - intros k' b' x inc r H1 H2 H3. apply O. eapply DO_phis; eauto.
Qed.
Theorem generate_assigned chk ds m f : goodP ds -> (forall n ps b, In (DFunction n ps b) ds -> sure_function ps b = true) ->
  generate chk ds = Ok m tt -> In f (m_funcs m) -> assigned_first (f_blocks f).
Proof.
  intros HG HS G HF. destruct (generate_from _ _ _ _ G HF) as [->|FR].
  - intros l k b W E. destruct k; discriminate.
  - destruct FR as (name & params & body & c & c1 & c2 & HI & (HDI & YS & sw & YB) & ->).
    assert (FS : funs c) by (unfold funs; rewrite (DI_functions _ _ HDI); constructor).
    destruct (D_start name params c FS _ _ YS) as [g1 B1].
    unfold goodP in HG. rewrite Forall_forall in HG. destruct (HG _ HI) as (_ & _ & GB).
    destruct (D_function chk params body g1 c1 GB (HS _ _ _ HI) B1 _ _ YB) as (B & g2 & D2).
    destruct (D_finished _ _ _ D2) as (c3 & E3 & D3). replace (f_blocks (declared name params (finished c2))) with (finished c2) by (destruct params as [|? [|? ?]]; reflexivity). rewrite <- E3. exact (DO_assigned _ _ _ D3).
Qed.

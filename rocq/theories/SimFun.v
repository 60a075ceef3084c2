(** * SimFun: functions and programs *)
From Coq Require Import List Ascii String ZArith NArith Lia Bool.
From Verif Require Import Base Lexer IR Builder Expr Stmt Decl DriverModes Wp Syntax SpecTree Pure ParseGen Pwp Msteps Names InvIR InvDecl InvNames Built InvTerm InvSym SpecSem IRSem SpecLink SemFacts SimBase SimExpr SimStmt SimAuto SimBody.
Import ListNotations.
Open Scope string_scope.
Open Scope list_scope.
Open Scope Z_scope.
Open Scope m_scope.

(** ** The parameters *)
Section Params.
Context {W : Type}.
Variable H : host W.
Variable I : ihost W.
Variable M : module_.
Hypothesis LK : linked H I M.

(** The code from [c] to [c'] turns the environment as [o] does; the fixed
    parameter is [p], the variadic arguments are [more], of which [va] are not
    fetched before and [va'] after. *)
Definition receives (c c' : cstate) (o : env -> act W env) (p : option Z) (more va va' : list Z) : Prop :=
  forall tg r fr m w, into c' tg -> here c fr -> envok tg r fr -> fr_par fr = p -> fr_more fr = more -> fr_va fr = va ->
  match o r m w with
  | Val r' m' w' => exists fr', steps I M (t_F tg) (Run fr m w) (Run fr' m' w') /\ here c' fr' /\ envok tg r' fr' /\
      fr_par fr' = p /\ fr_more fr' = more /\ fr_va fr' = va'
  | Halt _ _ | Limit => False
  | Stuck => True
  end.
Definition one (x : string) (z : Z) (r : env) : act W env := (a <~ alloc_ H 8 ;; _ <~ store_ a z ;; done (put x a r))%act.
Record binding (V : string -> Prop) (P : list nat) (l : list string) (c c' : cstate) : Prop := {
  pr_ii : II V P c';
  pr_open : opened c';
  pr_ext : ext c c';
  pr_sid : c_stringID c' = c_stringID c;
  pr_loc : map fst (c_locals c') = rev l ++ map fst (c_locals c);
  pr_glob : c_globals c' = c_globals c
}.
Lemma receives_seq c c1 c2 o1 o2 p more va va1 va2 : receives c c1 o1 p more va va1 -> receives c1 c2 o2 p more va1 va2 -> ext c1 c2 ->
  receives c c2 (fun r => andthen (o1 r) o2) p more va va2.
Proof.
  intros R1 R2 E tg r fr m w HIN HH HE HP HM HV. pose proof (into_ext _ _ _ E HIN) as HIN1.
  specialize (R1 tg r fr m w HIN1 HH HE HP HM HV). unfold andthen. destruct (o1 r m w) as [r1 m1 w1|z w1| |]; auto.
  destruct R1 as (fr1 & S1 & H1 & E1 & P1 & M1 & V1). specialize (R2 tg r1 fr1 m1 w1 HIN H1 E1 P1 M1 V1).
  destruct (o2 r1 m1 w1) as [r2 m2 w2|z w2| |]; auto. destruct R2 as (fr2 & S2 & K). exists fr2. split; auto. eapply steps_trans; eauto.
Qed.
Lemma binding_seq V P l1 l2 c c1 c2 : binding V P l1 c c1 -> binding V P l2 c1 c2 -> binding V P (l1 ++ l2) c c2.
Proof.
  intros [] []. constructor; auto; try congruence; [eapply ext_trans; eauto|]. rewrite pr_loc1, pr_loc0, rev_app_distr, app_assoc. auto.
Qed.
(** The end of the code of one parameter: [c1] after its alloca, [c2] before the
    store of [v], [c3] after it. *)
Lemma bind_one V P x v c c1 c2 c3 p more va va1 z : II V P c -> opened c -> assoc x (c_locals c) = None ->
  emits (IAlloca (c_nreg c) 1) c c1 -> c_nreg c1 = S (c_nreg c) -> ext c1 c2 -> stat c1 c2 ->
  emits (IStore v (VReg (c_nreg c))) c2 c3 -> c_nreg c3 = c_nreg c2 -> c_stringID c2 = c_stringID c1 -> II V P c3 ->
  (forall tg fr m w, into c2 tg -> here c1 fr -> fr_par fr = p -> fr_more fr = more -> fr_va fr = va ->
     exists fr', go I M tg c1 fr m w c2 fr' m w /\ operand I fr' v = Some z /\ fr_par fr' = p /\ fr_more fr' = more /\ fr_va fr' = va1) ->
  binding V P [x] c (set_locals ((x, VReg (c_nreg c)) :: c_locals c3) c3) /\
  receives c (set_locals ((x, VReg (c_nreg c)) :: c_locals c3) c3) (one x z) p more va va1.
Proof.
  intros HI HO HX E1 N1 E2 S2 E3 N3 D2 I3 K. set (c4 := set_locals _ _).
  assert (L12 := e_nreg _ _ E2).
  assert (E13 : ext c c3) by (eapply ext_trans; [apply E1|]; eapply ext_trans; [exact E2|apply E3]).
  assert (S13 : stat c c3) by (eapply stat_trans; [apply E1|]; eapply stat_trans; [exact S2|apply E3]).
  assert (B : binds x (c_nreg c) c c3 c4) by (constructor; auto; lia).
  split.
  - constructor.
    + eapply binds_II; eauto.
    + apply (em_open _ _ _ E3).
    + eapply binds_ext; eauto.
    + cbn. rewrite (em_sid _ _ _ E3), D2. apply (em_sid _ _ _ E1).
    + cbn. rewrite (s_loc _ _ S13). auto.
    + cbn. apply S13.
  - intros tg r fr m w HIN HH HE HP HM HV. unfold one, andthen, alloc_, store_, done.
    destruct (alloc (h_place H) m 8) as [[a m1]|] eqn:EA; auto. destruct (store m1 a z) as [m2|] eqn:ES; auto.
    pose proof (binds_into _ _ _ _ _ _ B HIN) as HIN3. pose proof (into_ext _ _ _ (em_ext _ _ _ E3) HIN3) as HIN2.
    pose proof (into_ext _ _ _ E2 HIN2) as HIN1.
    destruct (go_def I M _ c c1 _ fr m w a m1 E1 N1 HIN1 HH) as [G1 R1].
    { cbn [plain]. rewrite (alloc_linked H I M LK). change (8 * 1) with 8. rewrite EA. auto. }
    set (fr1 := next (set_reg (c_nreg c) a fr)) in *.
    destruct (K _ fr1 m1 w HIN2 (go_here _ _ _ _ _ _ _ _ _ _ _ G1) HP HM HV) as (fr2 & G2 & V2 & P2 & M2 & A2).
    assert (R2 : operand I fr2 (VReg (c_nreg c)) = Some a).
    { rewrite (go_operand I M _ _ _ _ _ _ _ _ _ _ G2); [exact R1|]. cbn. lia. }
    assert (G3 : go I M (tgt_of tg c3) c2 fr2 m1 w c3 (next fr2) m2 w).
    { eapply go_eff; eauto; [eapply go_here; eauto|]. cbn [plain]. rewrite V2, R2, ES. auto. }
    assert (G : go I M (tgt_of tg c3) c fr m w c3 (next fr2) m2 w).
    { eapply go_trans; [| |exact G1|eapply go_trans; [| |exact G2|exact G3]]; lia. }
    exists (next fr2). split; [apply G|]. split; [|split; [|cbn; auto]].
    + destruct (go_here _ _ _ _ _ _ _ _ _ _ _ G). split; auto.
    + exact (binds_env V P x (c_nreg c) c c3 c4 tg r fr (next fr2) a HI B HIN (proj2 (proj2 G)) R2 HE).
Qed.
Lemma va_params_post V P va ps : forall c, II V P c -> opened c -> NoDup ps -> (forall x, In x ps -> assoc x (c_locals c) = None) ->
  pwp (va_params va ps) (fun _ c' => binding V P ps c c' /\
    forall p more args, receives c c' (parameters H ps args) p more args (skipn (List.length ps) args)) c.
Proof.
  induction ps as [|x ps IH]; intros c HI HO ND HX; cbn [va_params].
  { apply pwp_ret. split; [constructor; auto using ext_refl|]. intros p more args tg r fr m w HIN HH HE HP HM HV. cbn. exists fr.
    split; [apply steps_refl|]. auto. }
  inversion ND; subst.
  eapply use_emitR; [solve [intros; pure_tac]|eassumption|eassumption|]. intros c1 I1 E1 N1.
  eapply use_emitR; [solve [intros; pure_tac]|eassumption|apply E1|]. intros c2 I2 E2 N2.
  eapply use_emit; [solve [intros; pure_tac]|eassumption|apply E2|]. intros c3 I3 E3 N3.
  unfold bind_local. apply pwp_bind; [auto with pure|]. apply pwp_modify.
  assert (ONE : forall p more z rest, binding V P [x] c (set_locals ((x, VReg (c_nreg c)) :: c_locals c3) c3) /\
    receives c (set_locals ((x, VReg (c_nreg c)) :: c_locals c3) c3) (one x z) p more (z :: rest) rest).
  { intros p more z rest. eapply bind_one; eauto; try apply E2; [apply HX; cbn; auto|].
    intros tg fr m w HIN HH HP HM HV. exists (next (set_reg (c_nreg c1) z (set_va rest fr))). split; [|cbn; rewrite Nat.eqb_refl; auto].
    split; [|split].
    - eapply steps_one, st_plain; [eapply fetch_at; eauto; apply E2; auto|]. cbn [plain]. rewrite HV. reflexivity.
    - destruct HH. split; cbn; [rewrite (em_builder _ _ _ E2)|rewrite (em_len _ _ _ E2)]; auto.
    - intros i Hi. cbn. destruct (Nat.eqb_spec i (c_nreg c1)); auto. lia. }
  destruct (ONE None [] 0 []) as [B1 _].
  eapply pwp_mono; [apply IH; [apply B1|apply B1|assumption|]|].
  { intros y Hy. apply assoc_none. rewrite (pr_loc _ _ _ _ _ B1). cbn. intros [<-|K]; [auto|].
    assert (A : assoc y (c_locals c) = None) by (apply HX; cbn; auto).
    revert K A. clear. induction (c_locals c) as [|[z v] L IHL]; cbn; [tauto|]. destruct (String.eqb_spec y z); [discriminate|]. intuition congruence. }
  cbv beta. intros [] c4 [B2 R2]. split; [exact (binding_seq V P [x] ps _ _ _ B1 B2)|].
  intros p more args. destruct args as [|z args].
  { intros tg r fr m w HIN HH HE HP HM HV. exact Logic.I. }
  pose proof (receives_seq _ _ _ _ _ _ _ _ _ _ (proj2 (ONE p more z args)) (R2 p more args) (pr_ext _ _ _ _ _ B2)) as R.
  intros tg r fr m w HIN HH HE HP HM HV. specialize (R tg r fr m w HIN HH HE HP HM HV). cbn [parameters List.length skipn].
  replace (andthen (alloc_ H 8) (fun a => andthen (store_ a z) (fun _ => parameters H ps args (put x a r))) m w)
    with (andthen (one x z r) (parameters H ps args) m w); [exact R|].
  unfold one, andthen. destruct (alloc_ H 8 m w); auto. destruct (store_ a z m0 w0); auto.
Qed.
Lemma P_getOrCreateFunc V P n c : II V P c -> pwp (getOrCreateFunc n) (fun _ c' => II V P c' /\ quiet c c' /\ c_stringID c' = c_stringID c) c.
Proof.
  intros HI. apply pwp_modify. destruct (find_named f_name n (c_mfuncs c)) eqn:E.
  - split; auto. split; auto. constructor; auto using ext_refl, stat_refl.
  - assert (FN : incl (fnames c) (fnames (newFunc (mkFunc n [EmptyString] false true []) c))) by (unfold fnames; cbn; rewrite map_app; apply incl_appl, incl_refl).
    split; [|split; auto].
    + destruct HI. constructor; auto; [eapply TI_same; [|eassumption]; repeat split|]. intros x v K. apply FN. eapply ii_fun; eauto.
    + constructor; auto; constructor; auto using incl_refl, extB_refl; cbn; lia.
Qed.

Lemma binding_emits V P i c c' : II V P c' -> emits i c c' -> binding V P [] c c'.
Proof. intros HI []. constructor; auto; [|apply em_stat]. cbn. f_equal. apply em_stat. Qed.
Lemma binding_quiet V P c c' : II V P c' -> opened c -> quiet c c' -> c_stringID c' = c_stringID c -> binding V P [] c c'.
Proof. intros HI HO Q. pose proof (quiet_open _ _ Q HO). destruct Q. constructor; auto; [|apply qt_stat]. cbn. f_equal. apply qt_stat. Qed.
(** The start of the variadic arguments. *)
Lemma va_start_post V P c Q (k : value -> C unit) : (forall v, pure (k v)) -> II V P c -> opened c ->
  (forall va c', binding V P [] c c' -> (forall p more, receives c c' done p more [] more) -> pwp (k va) Q c') ->
  pwp (vaArr <- emitR IAllocaVA ;; va <- emitR (fun r => IGepArr r vaArr 1 0) ;; getOrCreateFunc "llvm.va_start" ;;; emit (IVaStart va) ;;; k va) Q c.
Proof.
  intros HP HI HO K.
  eapply use_emitR; [solve [intros; pure_tac]|eassumption|eassumption|]. intros c1 I1 E1 N1.
  eapply use_emitR; [solve [intros; pure_tac]|eassumption|apply E1|]. intros c2 I2 E2 N2.
  eapply pwp_use; [auto with pure|apply (P_getOrCreateFunc V P _ c2 I2)|]. cbv beta. intros u c3 (I3 & Q3 & D3).
  assert (O3 : opened c3) by (eapply quiet_open; eauto; apply E2).
  eapply use_emit; [solve [intros; pure_tac]|eassumption|eassumption|]. intros c4 I4 E4 N4.
  pose proof (binding_emits V P _ _ _ I1 E1) as B1. pose proof (binding_emits V P _ _ _ I2 E2) as B2.
  pose proof (binding_quiet V P _ _ I3 (em_open _ _ _ E2) Q3 D3) as B3. pose proof (binding_emits V P _ _ _ I4 E4) as B4.
  pose proof (binding_seq _ _ _ _ _ _ _ B1 B2) as B12. pose proof (binding_seq _ _ _ _ _ _ _ B12 B3) as B13.
  pose proof (binding_seq _ _ _ _ _ _ _ B13 B4) as B. cbn in B.
  apply K; auto.
  intros p more tg r fr m w HIN HH HE HP' HM HV. unfold done.
    pose proof (into_ext _ _ _ (em_ext _ _ _ E4) HIN) as HIN3. pose proof (into_ext _ _ _ (qt_ext _ _ Q3) HIN3) as HIN2.
    pose proof (into_ext _ _ _ (em_ext _ _ _ E2) HIN2) as HIN1.
    destruct (go_def I M tg c c1 (IAllocaVA (c_nreg c)) fr m w 0 m E1 N1 HIN1 HH eq_refl) as [G1 R1].
    set (fr1 := next (set_reg (c_nreg c) 0 fr)) in *.
    destruct (go_def I M tg c1 c2 _ fr1 m w 0 m E2 N2 HIN2 (go_here _ _ _ _ _ _ _ _ _ _ _ G1)) as [G2 R2].
    { cbn [plain operand]. rewrite R1. reflexivity. }
    set (fr2 := next (set_reg (c_nreg c1) 0 fr1)) in *.
    pose proof (go_quiet I M tg c2 c3 fr2 m w (qt_builder _ _ Q3) (quiet_len _ _ Q3) (go_here _ _ _ _ _ _ _ _ _ _ _ G2)) as G3.
    pose proof (go_here _ _ _ _ _ _ _ _ _ _ _ G3) as H3. pose proof (qt_nreg _ _ Q3) as N3.
    assert (G4 : go I M tg c3 fr2 m w c4 (next (set_va more fr2)) m w).
    { split; [|split].
      - eapply steps_one, st_plain; [eapply fetch_at; eauto; apply E4; auto|]. cbn [plain]. replace (fr_more fr2) with more. reflexivity.
      - destruct H3. split; cbn; [rewrite (em_builder _ _ _ E4)|rewrite (em_len _ _ _ E4)]; auto.
      - intros i Hi. reflexivity. }
    assert (G : go I M tg c fr m w c4 (next (set_va more fr2)) m w).
    { eapply go_trans; [| |exact G1|eapply go_trans; [| |exact G2|eapply go_trans; [| |exact G3|exact G4]]]; lia. }
    exists (next (set_va more fr2)). split; [apply G|]. split; [apply G|]. split; [|cbn; auto].
    eapply env_go; [exact HI| |exact HIN|exact G|exact HE]. repeat (eapply stat_trans; [first [apply E1|apply E2|apply Q3]|]). apply E4.
Qed.

(** ** The start of a function *)
Lemma start_post name ps c : DI [] c -> NoDup ps -> pwp (start_of name ps) (fun _ c1 =>
  II (fun _ => False) [] c1 /\ opened c1 /\ map fst (c_locals c1) = rev ps /\ c_globals c1 = [] /\
  c_stringID c1 = c_stringID c /\ incl (fnames c) (fnames c1) /\ incl (gnames c) (gnames c1) /\
  forall F args fr tg m w, enter (declared name ps F) args = Some fr -> into c1 tg ->
    match parameters H ps args (fun _ => None) m w with
    | Val r m' w' => exists fr', steps I M (t_F tg) (Run fr m w) (Run fr' m' w') /\ here c1 fr' /\ envok tg r fr'
    | Halt _ _ | Limit => False
    | Stuck => True
    end) c.
Proof.
  intros HD ND. unfold start_of, DeclareFunction. apply pwp_bind; [pure_tac|]. apply pwp_bind; [auto with pure|]. apply pwp_modify. apply pwp_ret.
  unfold StartFunction. apply pwp_bind; [auto with pure|]. apply pwp_modify. apply pwp_bind; [auto with pure|]. apply pwp_get.
  cbv zeta. match goal with |- pwp _ _ ?c' => set (c0 := c') end.
  replace (match assoc name (c_fparams c0) with Some ps0 => ps0 | None => [] end) with ps by (cbn; rewrite String.eqb_refl; auto).
  assert (FN : incl (fnames c) (fnames c0) /\ In (globalName name) (fnames c0)).
  { split; [apply (fnames_replace name); destruct ps; reflexivity|]. unfold fnames. cbn. rewrite map_app. apply in_or_app. right. left. destruct ps; reflexivity. }
  destruct FN as [FN FI].
  assert (I0 : II (fun _ => False) [] c0).
  { constructor; cbn; try contradiction; try discriminate.
    - apply TI_start; reflexivity.
    - rewrite (DI_globals _ _ HD). discriminate.
    - intros x v. rewrite (DI_functions _ _ HD). cbn. destruct (String.eqb_spec x name); [subst; auto|discriminate]. }
  assert (O0 : opened c0) by (eexists; cbn; auto).
  assert (FIN : forall c1, binding (fun _ => False) [] ps c0 c1 ->
    (forall args, (ps = [] -> exists va', receives c0 c1 (parameters H ps args) None args [] va') /\
       (forall z rest, ps <> [] -> args = z :: rest -> exists va', receives c0 c1 (parameters H ps args) (Some z) rest [] va')) ->
    II (fun _ => False) [] c1 /\ opened c1 /\ map fst (c_locals c1) = rev ps /\ c_globals c1 = [] /\
    c_stringID c1 = c_stringID c /\ incl (fnames c) (fnames c1) /\ incl (gnames c) (gnames c1) /\
    forall F args fr tg m w, enter (declared name ps F) args = Some fr -> into c1 tg ->
      match parameters H ps args (fun _ => None) m w with
      | Val r m' w' => exists fr', steps I M (t_F tg) (Run fr m w) (Run fr' m' w') /\ here c1 fr' /\ envok tg r fr'
      | Halt _ _ | Limit => False
      | Stuck => True
      end).
  { intros c1 [] R. split; auto. split; auto. split; [rewrite pr_loc0; apply app_nil_r|]. split; [rewrite pr_glob0; exact (DI_globals _ _ HD)|].
    split; [exact pr_sid0|]. split; [eapply incl_tran; [exact FN|apply pr_ext0]|]. split; [apply (e_gn _ _ pr_ext0)|].
    intros F args fr tg m w HE HIN. destruct (R args) as [R1 R2].
    assert (K : exists p more va', receives c0 c1 (parameters H ps args) p more [] va' /\ here c0 fr /\ envok tg (fun _ => None) fr /\ fr_par fr = p /\ fr_more fr = more /\ fr_va fr = []).
    { unfold enter, declared in HE. destruct ps as [|p ps'].
      - cbn [f_params] in HE. injection HE as <-. destruct (R1 eq_refl) as [va' RR]. exists None, args, va'. split; auto. cbn. unfold here, envok. cbn. auto.
      - cbn [f_params] in HE. destruct args as [|z rest]; [discriminate|]. injection HE as <-.
        destruct (R2 z rest) as [va' RR]; [discriminate|auto|]. exists (Some z), rest, va'. split; auto. cbn. unfold here, envok. cbn. auto. }
    destruct K as (p & more & va' & RR & K1 & K2 & K3 & K4 & K5). specialize (RR tg (fun _ => None) fr m w HIN K1 K2 K3 K4 K5).
    destruct (parameters H ps args (fun _ => None) m w); auto. destruct RR as (fr' & S1 & S2 & S3 & _). exists fr'. auto. }
  assert (L0 : c_locals c0 = []) by reflexivity. clearbody c0. clear HD FI FN.
  destruct ps as [|p ps].
  { apply pwp_ret. apply FIN; [constructor; auto using ext_refl|]. intros args. split; [|congruence]. intros _. exists [].
    intros tg r fr m w HIN HH HE HP HM HV. cbn. exists fr. split; [apply steps_refl|auto]. }
  assert (ONE : forall c1 c3, emits (IAlloca (c_nreg c0) 1) c0 c1 -> c_nreg c1 = S (c_nreg c0) ->
      II (fun _ => False) [] c3 -> emits (IStore (VParam p) (VReg (c_nreg c0))) c1 c3 -> c_nreg c3 = c_nreg c1 -> forall z rest,
      binding (fun _ => False) [] [p] c0 (set_locals ((p, VReg (c_nreg c0)) :: c_locals c3) c3) /\
      receives c0 (set_locals ((p, VReg (c_nreg c0)) :: c_locals c3) c3) (one p z) (Some z) rest [] []).
  { intros c1 c3 E1 N1 I3 E3 N3 z rest. eapply (bind_one _ _ p (VParam p) c0 c1 c1 c3); eauto using ext_refl, stat_refl; [rewrite L0; auto|].
    intros tg fr m w HIN HH HP HM HV. exists fr. split; [apply go_refl; auto|]. cbn. auto. }
  inversion ND; subst.
  destruct ps as [|q ps].
  { eapply use_emitR; [solve [intros; pure_tac]|eassumption|eassumption|]. intros c1 I1 E1 N1.
    eapply use_emit; [solve [intros; pure_tac]|eassumption|apply E1|]. intros c3 I3 E3 N3. apply pwp_modify.
    specialize (ONE c1 c3 E1 N1 I3 E3 N3). apply FIN; [apply (ONE 0 [])|]. intros args. split; [discriminate|]. intros z rest _ ->.
    exists []. exact (proj2 (ONE z rest)). }
  eapply use_emitR; [solve [intros; pure_tac]|eassumption|eassumption|]. intros ca Ia Ea Na.
  eapply use_emit; [solve [intros; pure_tac]|eassumption|apply Ea|]. intros cb Ib Eb Nb.
  unfold bind_local. apply pwp_bind; [auto with pure|]. apply pwp_modify. specialize (ONE ca cb Ea Na Ib Eb Nb).
  destruct (ONE 0 []) as [B1 _]. assert (R1 := fun z rest => proj2 (ONE z rest)). clear ONE.
  match goal with B : binding _ _ [p] _ ?c' |- _ => set (c1 := c') in * end.
  apply (va_start_post (fun _ => False) []); [solve [intros; pure_tac]|apply B1|apply B1|]. intros va c2 B2 R2.
  assert (LP : forall x, In x (q :: ps) -> assoc x (c_locals c2) = None).
  { intros x Hx. apply assoc_none. rewrite (pr_loc _ _ _ _ _ B2), (pr_loc _ _ _ _ _ B1), L0. cbn. intros [<-|[]]. auto. }
  eapply pwp_use; [pure_tac|apply (va_params_post (fun _ => False) [] va (q :: ps) c2); auto; apply B2|].
  cbv beta. intros [] c3 [B3 R3].
  eapply pwp_use; [auto with pure|apply (P_getOrCreateFunc (fun _ => False) [] _ c3); apply B3|]. cbv beta. intros [] c4 (I4 & Q4 & D4).
  pose proof (binding_quiet _ _ _ _ I4 (pr_open _ _ _ _ _ B3) Q4 D4) as B4.
  eapply pwp_mono; [apply P_emit; [apply B4|apply B4]|]. cbv beta. intros [] c5 (I5 & E5 & N5).
  pose proof (binding_emits _ _ _ _ _ I5 E5) as B5.
  pose proof (binding_seq _ _ _ _ _ _ _ B1 B2) as B12. pose proof (binding_seq _ _ _ _ _ _ _ B12 B3) as B13.
  pose proof (binding_seq _ _ _ _ _ _ _ B13 B4) as B14. pose proof (binding_seq _ _ _ _ _ _ _ B14 B5) as B.
  rewrite !app_nil_r in B. apply FIN; [exact B|].
  intros args. split; [discriminate|]. intros z rest _ ->. exists (skipn (List.length (q :: ps)) rest).
  assert (R5 : forall p more va, receives c3 c5 done p more va va).
  { intros pp more va0 tg r fr m w HIN HH HE HP HM HV. unfold done. exists (next fr).
    pose proof (into_ext _ _ _ (em_ext _ _ _ E5) HIN) as HIN4.
    pose proof (go_quiet I M tg c3 c4 fr m w (qt_builder _ _ Q4) (quiet_len _ _ Q4) HH) as G4.
    assert (G5 : go I M tg c4 fr m w c5 (next fr) m w) by (eapply go_eff; eauto; apply G4).
    split; [eapply steps_trans; [apply G4|apply G5]|]. split; [apply G5|]. cbn. auto. }
  pose proof (receives_seq _ _ _ _ _ _ _ _ _ _ (R1 z rest) (R2 (Some z) rest) (pr_ext _ _ _ _ _ B2)) as K2.
  pose proof (receives_seq _ _ _ _ _ _ _ _ _ _ K2 (R3 (Some z) rest rest) (pr_ext _ _ _ _ _ B3)) as K3.
  pose proof (receives_seq _ _ _ _ _ _ _ _ _ _ K3 (R5 (Some z) rest _) (ext_trans _ _ _ (pr_ext _ _ _ _ _ B4) (pr_ext _ _ _ _ _ B5))) as K5.
  intros tg r fr m w HIN HH HE HP HM HV. specialize (K5 tg r fr m w HIN HH HE HP HM HV).
  change (parameters H (p :: q :: ps) (z :: rest) r) with (andthen (alloc_ H 8) (fun a => andthen (store_ a z) (fun _ => parameters H (q :: ps) rest (put p a r)))).
  revert K5. cbv beta. unfold one, andthen. destruct (alloc_ H 8 m w) as [a m1 w1| | |]; auto. destruct (store_ a z m1 w1) as [u m2 w2| | |]; auto.
  unfold done at 1 2. destruct (parameters H (q :: ps) rest (put p a r) m2 w2); auto.
Qed.
End Params.

(** ** The body of a function *)
(** The target at the end of the body. *)
Definition final (c : cstate) : tgt := mkTgt (finished c) (c_locals c) (c_labels c) (gnames c) (fnames c).
Lemma into_final c : into c (final c).
Proof.
  constructor; cbn; auto using incl_refl. unfold finished. destruct (nth_error (c_blocks c) (c_builder c)) as [b|] eqn:E; [|apply extB_refl].
  destruct (b_term b) eqn:ET; [apply extB_refl|]. intros i x Hx. destruct (Nat.eq_dec i (c_builder c)) as [->|N].
  - rewrite E in Hx. injection Hx as <-. exists (put_term (TRet (VInt 0)) b). rewrite nth_upd_same, E. split; auto. rewrite ET.
    exists []. rewrite app_nil_r. reflexivity.
  - rewrite nth_upd_other by auto. exists x. split; auto. destruct (b_term x); auto. exists []. rewrite app_nil_r. auto.
Qed.
Lemma final_end c fr {W} (I : ihost W) M m w : opened c -> here c fr -> steps I M (finished c) (Run fr m w) (Done 0 m w).
Proof.
  intros (b & E & ET) [H1 H2]. apply steps_one, (st_ret I M _ (VInt 0)); [|reflexivity]. unfold at_end, finished, cur_len in *. rewrite E, ET in *.
  rewrite H1, nth_upd_same, E, H2. cbn. rewrite Nat.eqb_refl. auto.
Qed.
(** What is required of a function: labels, cases and parameters are different,
    no code follows a return, and the functions called by name are not local
    variables. *)
Definition regular (locals : bool) (ps : list string) (body : stmt) : Prop :=
  NoDup ps /\ NoDup (labels body) /\ onecase body /\ tidy false body /\ direct locals (mkScope (rev ps) []) body.
Section Function.
Context {W : Type}.
Variable H : host W.
Variable I : ihost W.
Variable M : module_.
Variable locals : bool.
Variable call : string -> list Z -> act W Z.
Variable Nb : nat.
Hypothesis LK : linked H I M.
Hypothesis CALL : forall x args m w,
  match call x args m w with
  | Val z m' w' => icall I M (globalName x) args m w (XRet z m' w')
  | Halt z w' => icall I M (globalName x) args m w (XExit z w')
  | Stuck => True
  | Limit => busy I M Nb (globalName x) args m w
  end.
Variable chk : bool.
Lemma function_ok c name ps body c1 c2 n : (Nb <= n)%nat -> compiled chk c name ps body c1 c2 -> wfS body -> regular locals ps body ->
  incl (fnames c) (fnames c2) /\ incl (gnames c) (gnames c2) /\ c_stringID c2 = c_stringID c + litsS body /\ finished c2 <> [] /\
  (tgt_ok I (final c2) -> forall args m w fr, enter (declared name ps (finished c2)) args = Some fr ->
   match andthen (parameters H ps args (fun _ => None)) (fun r => run H locals call n n (mkScope (rev ps) []) (c_stringID c) body None r) m w with
   | Val z m' w' => steps I M (finished c2) (Run fr m w) (Done z m' w')
   | Halt z w' => steps I M (finished c2) (Run fr m w) (Gone z w')
   | Stuck => True
   | Limit => lasts I M Nb (finished c2) (Run fr m w)
   end).
Proof.
  intros HL (HD & YS & sw & YB) HW (ND & NL & NC & TD & DR).
  destruct (start_post H I M LK name ps c HD ND _ _ YS) as (I1 & O1 & L1 & G1 & D1 & F1 & N1 & R1).
  assert (HF : fresh_for (fun _ => False) None c1 (labels body) (cases body)).
  { split; auto. split; [apply (proj1 gotos_ok_all body HW)|]. split; [tauto|]. split; [exact Logic.I|]. contradiction. }
  destruct (proj1 (stmts_ok H I M locals call Nb LK CALL chk n HL) body HW NC false None (fun _ => False) [] c1 TD I1 O1 HF _ _ YB) as (V' & S & R).
  destruct S. split; [eapply incl_tran; [exact F1|apply sx_ext]|]. split; [eapply incl_tran; [exact N1|apply sx_ext]|].
  split; [congruence|]. split.
  { pose proof (TI_builder _ _ _ (ii_ti _ _ _ sx_ii)) as LB. unfold finished.
    destruct (nth_error (c_blocks c2) (c_builder c2)) as [b|]; [destruct (b_term b)|]; intros E; try (rewrite E in LB; cbn in LB; lia).
    apply (f_equal (@List.length _)) in E. rewrite upd_length in E. cbn in E. lia. }
  intros HT args m w fr HE. specialize (R1 _ args fr (final c2) m w HE (into_ext _ _ _ sx_ext (into_final c2))).
  unfold andthen at 1. destruct (parameters H ps args (fun _ => None) m w) as [r m1 w1|z w1| |]; [|contradiction|auto|contradiction].
  destruct R1 as (fr1 & S1 & H1 & E1).
  assert (SC : scope_ok (mkScope (rev ps) []) c1) by (split; cbn; [auto|rewrite G1; auto]).
  assert (RUN : forall j t r fr m w, has (labels body) (cases body) t -> entry (final c2) None c1 t fr -> envok (final c2) r fr ->
    match run H locals call n j (mkScope (rev ps) []) (c_stringID c) body t r m w with
    | Val z m' w' => steps I M (finished c2) (Run fr m w) (Done z m' w')
    | Halt z w' => steps I M (finished c2) (Run fr m w) (Gone z w')
    | Stuck => True
    | Limit => lasts I M (Nat.min j Nb) (finished c2) (Run fr m w)
    end).
  { induction j as [|j IH]; intros t r2 fr2 m2 w2 Ht He Hv; cbn [run]; [apply la_now|].
    specialize (R (final c2) (mkScope (rev ps) []) r2 fr2 m2 w2 t HT (into_final c2) SC DR Ht He Hv). rewrite D1 in R.
    unfold andthen. destruct (exec H locals call n _ (c_stringID c) body t r2 m2 w2) as [[[|l|z|] r3] m3 w3|z w3| |]; cbn [leaves] in R; auto.
    - destruct R as (fr3 & S3 & H3 & O3 & E3). unfold done. eapply steps_trans; [exact S3|]. apply final_end; auto.
    - destruct R as (fr3 & S3 & A3 & E3). destruct (in_dec string_dec l (labels body)) as [LI|LI].
      + specialize (IH (Some (TLabel l)) r3 fr3 m3 w3 LI A3 E3). destruct (run H locals call n j _ _ body _ r3 m3 w3); auto; try (eapply steps_trans; [apply steps1_steps; exact S3|exact IH]).
        eapply lasts_le; [|eapply lasts_more; [exact S3|exact IH]]. lia.
      + destruct j as [|j]; cbn [run]; [eapply lasts_le; [|eapply lasts_more; [exact S3|apply la_now]]; lia|]. unfold andthen. rewrite (proj1 (exec_skip H locals call n)); [exact Logic.I|discriminate|exact LI].
    - contradiction.
    - eapply lasts_le; [|exact R]. lia. }
  specialize (RUN n None r fr1 m1 w1 Logic.I (conj H1 O1) E1).
  destruct (run H locals call n n _ _ body None r m1 w1); auto; try (eapply steps_trans; eauto).
  rewrite Nat.min_r in RUN by exact HL. eapply lasts_steps; eauto.
Qed.
Lemma invoke_ok c name ps body c1 c2 n args m w : (Nb <= n)%nat -> compiled chk c name ps body c1 c2 -> wfS body -> regular locals ps body ->
  tgt_ok I (final c2) -> definition_of (globalName name) (m_funcs M) = Some (declared name ps (finished c2)) ->
  match invoke H locals call n n ps body (c_stringID c) args m w with
  | Val z m' w' => icall I M (globalName name) args m w (XRet z m' w')
  | Halt z w' => icall I M (globalName name) args m w (XExit z w')
  | Stuck => True
  | Limit => busy I M (S Nb) (globalName name) args m w
  end.
Proof.
  intros HL HC HW HR HT HDEF. destruct (function_ok c name ps body c1 c2 n HL HC HW HR) as (_ & _ & _ & _ & K). specialize (K HT args m w).
  unfold invoke. destruct (enter (declared name ps (finished c2)) args) as [fr|] eqn:HE.
  - specialize (K fr eq_refl). destruct (andthen _ _ m w); auto.
    + eapply ic_return; eauto. destruct ps; exact K.
    + eapply ic_exit; eauto. destruct ps; exact K.
    + eapply bu_in; eauto. destruct ps; exact K.
  - destruct ps as [|p ps]; cbn in HE; [discriminate|]. destruct args; [|discriminate]. exact Logic.I.
Qed.
End Function.

(** ** Programs *)
Lemma genP_step chk d r : genP chk (d :: r) = bind (genD chk d) (fun _ => genP chk r).
Proof. reflexivity. Qed.
Definition regularD (locals : bool) (d : decl) : Prop := match d with DFunction _ ps body => regular locals ps body | _ => True end.
(** No symbol is a variable and a function. *)
Definition separate (m : module_) : Prop := forall y, In y (map g_name (m_globals m)) -> In y (map f_name (m_funcs m)) -> False.
Lemma sid_ivals l : forall c, pwp (genIvals l) (fun _ c' => c_stringID c' = c_stringID c + litsI l) c.
Proof.
  induction l as [|v l IH]; intros c; cbn [genIvals]; [apply pwp_ret; cbn; lia|].
  apply pwp_bind; [auto with pure|].
  assert (K : pwp (genIval v) (fun _ c' => c_stringID c' = c_stringID c + litsI [v]) c).
  { destruct v; cbn [genIval]; [apply pwp_ret; cbn; lia|]. unfold CreateStringConstant.
    apply pwp_bind; [pure_tac|]. apply pwp_bind; [auto with pure|]. apply pwp_get. apply pwp_bind; [auto with pure|]. apply pwp_modify. apply pwp_ret. apply pwp_ret. cbn. lia. }
  eapply pwp_mono; [apply K|]. cbv beta. intros w c1 E. eapply pwp_use; [auto with pure|apply IH|]. cbv beta.
  intros ws c2 E2. apply pwp_ret. rewrite E2, E. destruct v; cbn [litsI]; lia.
Qed.
Lemma sid_variable chk d c : is_function d = false -> pwp (genD chk d) (fun _ c' => c_stringID c' = c_stringID c + litsD d) c.
Proof.
  destruct d as [n vs|n z vs|]; [| |discriminate]; intros _; unfold genD; cbn [litsD].
  - apply pwp_bind; [pure_tac|]. apply pwp_bind; [auto with pure|]. apply pwp_modify.
    eapply pwp_use; [auto with pure|apply sid_ivals|]. cbv beta. intros ws c1 E.
    destruct ws as [|w [|w2 ws]]; apply pwp_modify; apply pwp_clear; cbn; auto.
  - apply pwp_bind; [pure_tac|]. apply pwp_bind; [auto with pure|]. apply pwp_modify.
    eapply pwp_use; [auto with pure|apply sid_ivals|]. cbv beta. intros ws c1 E.
    unfold DeclareGlobalArray. cbv zeta. destruct (_ && (1 <? _)); apply pwp_modify; apply pwp_clear; cbn; auto.
Qed.
Lemma names_variable chk d c : is_function d = false -> pwp (genD chk d) (fun _ c' => incl (gnames c) (gnames c')) c.
Proof.
  intros F. eapply pwp_mono; [apply (variable_globals chk d c F)|]. cbv beta. intros u c' (ws & gs & (l & -> & _) & _ & E).
  unfold gnames. rewrite E, !map_app. intros y Hy. apply (remove_named_incl g_name (globalName (dname d))) in Hy.
  rewrite !in_app_iff. destruct Hy as [<-|Hy]; auto. right.
  destruct (objects_main d ws F) as [E1 E2]. rewrite <- E2. apply in_map. destruct (objects d ws) as [|g [|g2 [|]]]; try discriminate; injection E1 as <-; cbn; auto.
Qed.
Lemma store_blocks_names full bs l : map f_name (store_blocks full bs l) = map f_name l.
Proof. induction l as [|f l IH]; cbn; auto. destruct (String.eqb_spec (f_name f) full); cbn; congruence. Qed.
Lemma function_end chk name ps body c : DI [] c -> pwp (genD chk (DFunction name ps body)) (fun _ c' =>
  exists c1 c2 l, compiled chk c name ps body c1 c2 /\
    c_mfuncs c' = remove_named f_name (globalName name) (c_mfuncs c) ++ declared name ps (finished c2) :: l /\
    fnames c' = fnames c2 /\ gnames c' = gnames c2 /\ c_stringID c' = c_stringID c2) c.
Proof.
  intros HD. unfold genD. apply pwp_bind; [pure_tac|].
  intros u c' Y.
  apply yields_bind_inv in Y; [|auto with pure]. destruct Y as (f & c1 & Y1 & Y).
  apply yields_bind_inv in Y; [|auto with pure]. destruct Y as ([] & c2 & Y2 & Y).
  apply yields_bind_inv in Y; [|auto with pure]. destruct Y as (sw & c3 & Y3 & Y).
  pose proof (yields_bind _ _ _ _ _ _ _ Y1 Y2) as YS.
  destruct (start_shape name ps c _ _ YS) as ((l1 & E1 & F1) & C1).
  pose proof (MS_genS chk body None c2 _ _ Y3) as S. cbv beta in S.
  destruct (msteps_appends _ _ S) as (l2 & E2 & F2).
  assert (C3 : c_cur c3 = Some (globalName name)) by (rewrite (msteps_cur _ _ S); auto).
  pose proof (EndFunction_shape _ _ C3 _ _ Y) as E. cbv beta in E.
  destruct (sameG_end c3 _ _ Y) as [B1 B2].
  apply pwp_clear. exists c2, c3, (l1 ++ l2)%list. split; [|split; [|split; [|split]]].
  - split; auto. split; auto. exists sw. auto.
  - cbn. rewrite E, E2, E1, <- !app_assoc. cbn [app].
    destruct (remove_named_nodup f_name (globalName name) (c_mfuncs c) (DI_nodup _ _ HD)) as [_ N].
    rewrite store_blocks_app; auto; destruct ps; auto.
  - unfold fnames. cbn. rewrite E. apply store_blocks_names.
  - unfold gnames. cbn. rewrite B1. auto.
  - cbn. auto.
Qed.

Lemma definition_one g fn l : NoDup (map f_name l) -> In fn l -> f_name fn = g -> f_blocks fn <> [] -> definition_of g l = Some fn.
Proof.
  induction l as [|f l IH]; cbn; [contradiction|]. intros ND [->|K] E B; inversion ND; subst.
  - rewrite String.eqb_refl. destruct (f_blocks fn); congruence.
  - destruct (String.eqb_spec (f_name f) (f_name fn)) as [E|_]; [|auto]. exfalso. apply H1. rewrite E. apply in_map. auto.
Qed.
Lemma definition_none g l : (forall f, In f l -> f_name f = g -> f_blocks f = []) -> definition_of g l = None.
Proof.
  induction l as [|f l IH]; cbn; auto. intros K. destruct (String.eqb_spec (f_name f) g) as [E|_]; [|auto].
  rewrite (K f) by auto. auto.
Qed.
Definition literals (ds : list decl) : Z := fold_right (fun d n => litsD d + n) 0 ds.
Lemma defined_split x : forall ds k0 found ps body k, defined k0 ds x found = Some (ps, body, k) ->
  (found = Some (ps, body, k) /\ forall ps' b', ~ In (DFunction x ps' b') ds) \/
  exists before after, ds = before ++ DFunction x ps body :: after /\ k = k0 + literals before /\ forall ps' b', ~ In (DFunction x ps' b') after.
Proof.
  induction ds as [|d ds IH]; intros k0 found ps body k E; cbn [defined] in E.
  - left. auto.
  - apply IH in E. destruct E as [[E N]|(bf & af & -> & -> & N)].
    + destruct d as [n vs|n z vs|y ps1 b1]; [left; split; auto; intros ps' b' [K|K]; [discriminate|apply (N _ _ K)]..|].
      destruct (String.eqb_spec y x) as [->|D].
      * injection E as <- <- <-. right. exists [], ds. split; auto. split; auto. cbn. lia.
      * left. split; auto. intros ps' b' [K|K]; [injection K as ->; auto|apply (N _ _ K)].
    + right. exists (d :: bf), af. split; auto. split; auto. cbn [literals fold_right]. fold (literals bf). lia.
Qed.
Lemma defined_none x : forall ds k0 found, defined k0 ds x found = None -> found = None /\ forall ps b, ~ In (DFunction x ps b) ds.
Proof.
  induction ds as [|d ds IH]; intros k0 found E; cbn [defined] in E; [auto|]. apply IH in E. destruct E as [E N].
  destruct d as [n vs|n z vs|y ps1 b1]; [split; auto; intros ps' b' [K|K]; [discriminate|apply (N _ _ K)]..|].
  destruct (String.eqb_spec y x) as [->|D]; [discriminate|]. split; auto. intros ps' b' [K|K]; [injection K as ->; auto|apply (N _ _ K)].
Qed.

Section Program.
Context {W : Type}.
Variable H : host W.
Variable I : ihost W.
Variable M : module_.
Hypothesis LK : linked H I M.
Variable chk locals : bool.
Lemma genD_state d c : DI [] c -> wfD d -> regularD locals d -> pwp (genD chk d) (fun _ c' =>
  c_stringID c' = c_stringID c + litsD d /\ incl (gnames c) (gnames c') /\ incl (fnames c) (fnames c')) c.
Proof.
  intros HD HW HR. destruct (is_function d) eqn:F.
  - destruct d as [| |n ps b]; try discriminate. eapply pwp_mono; [apply function_end; auto|]. cbv beta.
    intros u c' (c1 & c2 & l & K & E & F2 & G2 & D2).
    destruct (function_ok H I M locals (fun _ _ => stuck) 0 LK (fun _ _ _ _ => Logic.I) chk c n ps b c1 c2 0 (le_n 0) K) as (A1 & A2 & A3 & _); [apply HW|exact HR|].
    rewrite F2, G2, D2. auto.
  - eapply pwp_mono; [apply pwp_and; [apply (sid_variable chk d c F)|apply pwp_and; [apply (names_variable chk d c F)|apply (variable_shape chk d c F)]]|].
    cbv beta. intros u c' (A1 & A2 & A3). split; auto. split; auto. unfold fnames. rewrite A3. apply incl_refl.
Qed.
Lemma genP_state : forall ds c, DI [] c -> wfP ds -> Forall (regularD locals) ds -> pwp (genP chk ds) (fun _ c' =>
  c_stringID c' = c_stringID c + literals ds /\ incl (gnames c) (gnames c') /\ incl (fnames c) (fnames c')) c.
Proof.
  induction ds as [|d ds IH]; intros c HD HW HR.
  - cbn [genP]. apply pwp_ret. cbn. split; [lia|]. split; apply incl_refl.
  - rewrite genP_step. inversion HW; inversion HR; subst.
    eapply pwp_use; [auto with pure|apply pwp_and; [apply (DI_genD chk d); auto|apply (genD_state d c); auto]|].
    cbv beta. intros u c1 (D1 & A1 & A2 & A3). eapply pwp_mono; [apply IH; auto|]. cbv beta. intros u2 c2 (B1 & B2 & B3).
    cbn [literals fold_right]. fold (literals ds). split; [lia|]. split; eapply incl_tran; eauto.
Qed.
Variable ds : list decl.
Hypothesis GEN : generate chk ds = Ok M tt.
Hypothesis WF : wfP ds.
Hypothesis REG : Forall (regularD locals) ds.
Hypothesis SEP : separate M.
Theorem program_ok : forall n x args m w,
  match calls H locals ds n x args m w with
  | Val z m' w' => icall I M (globalName x) args m w (XRet z m' w')
  | Halt z w' => icall I M (globalName x) args m w (XExit z w')
  | Stuck => True
  | Limit => busy I M n (globalName x) args m w
  end.
Proof.
  induction n as [|n IH]; intros x args m w; cbn [calls]; [apply bu_now|].
  destruct (defined 0 ds x None) as [[[ps body] k]|] eqn:ED.
  - apply defined_split in ED. destruct ED as [[K _]|(bf & af & E & Ek & NA)]; [discriminate|].
    pose proof GEN as Y. apply generate_yields in Y. destruct Y as (cf & Y & EM). rewrite E in Y.
    pose proof WF as WF'. unfold wfP in WF'. rewrite E in WF'. apply Forall_app in WF'. destruct WF' as [W1 W2]. apply Forall_cons_iff in W2. destruct W2 as [W3 W4].
    pose proof REG as R. rewrite E in R. apply Forall_app in R. destruct R as [R1 R2]. apply Forall_cons_iff in R2. destruct R2 as [R3 R4].
    pose proof (DI_genP chk _ _ DI_new _ _ Y) as DF. cbv beta in DF.
    apply genP_app in Y. destruct Y as (c & Y1 & Y2). rewrite genP_step in Y2. apply yields_bind_inv in Y2; [|auto with pure].
    destruct Y2 as (u & c' & Y2 & Y3). pose proof (DI_genP chk bf _ DI_new _ _ Y1) as D. cbv beta in D.
    pose proof (DI_genD chk _ _ D _ _ Y2) as D'. cbv beta in D'.
    destruct (function_end chk x ps body c D _ _ Y2) as (c1 & c2 & l & K & EF & F2 & G2 & D2).
    destruct (genP_state bf _ DI_new W1 R1 _ _ Y1) as (S1 & _). change (c_stringID NewCompiler) with 0 in S1.
    destruct (genP_state af _ D' W4 R4 _ _ Y3) as (_ & S2 & S3). rewrite G2 in S2. rewrite F2 in S3.
    rewrite Ek, <- S1.
    assert (N : f_name (declared x ps (finished c2)) = globalName x) by (destruct ps; reflexivity).
    refine (invoke_ok H I _ locals (calls H locals ds n) n LK IH chk c x ps body c1 c2 n args m w (le_n n) K _ R3 _ _).
    + apply W3.
    + split.
      * intros y A B. apply (SEP y); rewrite EM; [apply S2, A|apply S3, B].
      * intros y A. apply S3 in A. apply in_map_iff in A. destruct A as (f & A1 & A2). rewrite <- A1. eapply (lk_self _ _ _ LK); eauto. rewrite EM. exact A2.
    + rewrite EM. apply definition_one; auto.
      * exact (DI_nodup _ _ DF).
      * refine (genP_keeps_fun chk af _ x N _ c' D' _ _ _ Y3).
        -- intros d Hd. destruct d as [| |n' ps' b']; auto. right. cbn. intros ->. exact (NA _ _ Hd).
        -- rewrite EF. apply in_or_app. right. left. reflexivity.
      * destruct (function_ok H I _ locals (fun _ _ => stuck) 0 LK (fun _ _ _ _ => Logic.I) chk c x ps body c1 c2 0 (le_n 0) K) as (_ & _ & _ & B & _); [apply W3|exact R3|].
        destruct ps; exact B.
  - apply defined_none in ED. destruct ED as [_ NA].
    assert (DN : definition_of (globalName x) (m_funcs M) = None).
    { apply definition_none. intros f Hf E. destruct (generate_from chk ds M f GEN Hf) as [K|(y & ps & b & c & c1 & c2 & K & _ & EF)]; auto.
      exfalso. assert (EY : globalName y = globalName x) by (rewrite <- E, EF; destruct ps; reflexivity). apply globalName_inj in EY. subst y. exact (NA _ _ K). }
    destruct (h_ext H x args m w) as [[z m' w'|z w']|] eqn:EX; auto; apply ic_outside; auto; rewrite (lk_ext _ _ _ LK); auto.
Qed.
End Program.

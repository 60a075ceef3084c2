(** * SimAuto: the storage of local variables *)
From Coq Require Import List Ascii String ZArith NArith Lia Bool.
From Verif Require Import Base Lexer IR Builder Expr Stmt Decl DriverModes Wp Syntax SpecTree Pure ParseGen Pwp Names InvIR InvDecl InvNames Built InvTerm SpecSem IRSem SpecLink SemFacts SimBase SimExpr SimStmt.
Import ListNotations.
Open Scope string_scope.
Open Scope list_scope.
Open Scope Z_scope.
Open Scope m_scope.

Lemma mem_In x l : mem x l = true <-> In x l.
Proof.
  induction l as [|y l IH]; cbn; [intuition discriminate|]. destruct (String.eqb_spec x y); subst; cbn.
  - intuition.
  - rewrite IH. intuition congruence.
Qed.
Lemma assoc_none {A} x (l : list (string * A)) : ~ In x (map fst l) -> assoc x l = None.
Proof. induction l as [|[y v] l IH]; cbn; auto. destruct (String.eqb_spec x y); subst; intuition. Qed.
Lemma checkAutos_post l : forall seen c, pwp (checkAutos seen l) (fun _ c' => c' = c /\ NoDup (map fst l) /\
  forall x, In x (map fst l) -> ~ In x seen /\ assoc x (c_locals c) = None) c.
Proof.
  induction l as [|[x n] l IH]; intros seen c; cbn [checkAutos].
  { apply pwp_ret. split; auto. split; [constructor|]. cbn. tauto. }
  apply pwp_bind; [auto with pure|]. apply pwp_get. destruct (mem x seen) eqn:E1; [apply pwp_err|].
  destruct (mem x (map fst (c_locals c))) eqn:E2; [apply pwp_err|].
  eapply pwp_mono; [apply IH|]. cbv beta. intros _ c' (-> & ND & K). split; auto. cbn. split.
  - constructor; auto. intros HX. destruct (K x HX) as [K1 _]. apply K1. left. auto.
  - intros y [<-|Hy].
    + split; [rewrite <- mem_In; congruence|]. apply assoc_none. rewrite <- mem_In. congruence.
    + destruct (K y Hy). split; auto. intros C. apply H. right. auto.
Qed.

(** A new local variable, in register [i]. *)
Record binds (x : string) (i : nat) (c c1 c2 : cstate) : Prop := {
  bd_ext : ext c c1;
  bd_stat : stat c c1;
  bd_new : assoc x (c_locals c) = None;
  bd_reg : (c_nreg c <= i < c_nreg c1)%nat;
  bd_eq : c2 = set_locals ((x, VReg i) :: c_locals c1) c1
}.
Lemma binds_ext x i c c1 c2 : binds x i c c1 c2 -> ext c c2.
Proof.
  intros [E S N R ->]. destruct E. rewrite (s_loc _ _ S) in *. constructor; auto; cbn.
  - intros y v K. destruct (String.eqb_spec y x); [congruence|auto].
  - intros y v. destruct (String.eqb_spec y x); auto. intros K. injection K as <-. right. exists i. split; auto. lia.
Qed.
Lemma binds_II V P x i c c1 c2 : binds x i c c1 c2 -> II V P c1 -> II V P c2.
Proof.
  intros [E S N R ->] []. constructor; auto.
  - eapply TI_same; [|eassumption]. repeat split.
  - cbn. intros y v. destruct (String.eqb_spec y x); [|apply ii_loc]. intros K. injection K as <-. exists i. split; auto. lia.
Qed.
Definition tgt_of (tg : tgt) (c : cstate) : tgt := mkTgt (t_F tg) (c_locals c) (c_labels c) (gnames c) (fnames c).
Lemma binds_into x i c c1 c2 tg : binds x i c c1 c2 -> into c2 tg -> into c1 (tgt_of tg c1).
Proof. intros [E S N R ->] []. constructor; cbn; auto using incl_refl. Qed.
Lemma binds_env V P x i c c1 c2 tg r fr fr' a : II V P c -> binds x i c c1 c2 -> into c2 tg -> agree c c1 fr fr' -> fr_reg fr' i = Some a ->
  envok tg r fr -> envok tg (put x a r) fr'.
Proof.
  intros HI B HIN HA HR HE y j K.
  assert (LX : assoc x (t_T tg) = Some (VReg i)). { apply (in_loc _ _ HIN). rewrite (bd_eq _ _ _ _ _ B). cbn. rewrite String.eqb_refl. auto. }
  unfold put. destruct (String.eqb_spec y x) as [->|NE]; [congruence|]. rewrite <- (HE y j K). apply HA.
  destruct (in_new _ _ HIN _ _ K) as [L|(k & E & L)].
  - rewrite (bd_eq _ _ _ _ _ B) in L. cbn in L. rewrite (proj2 (String.eqb_neq y x)) in L by auto.
    rewrite (s_loc _ _ (bd_stat _ _ _ _ _ B)) in L. destruct (ii_loc _ _ _ HI _ _ L) as (k & E & LT). injection E as ->. auto.
  - injection E as ->. right. rewrite (bd_eq _ _ _ _ _ B) in L. cbn in L. auto.
Qed.

Section Auto.
Context {W : Type}.
Variable H : host W.
Variable I : ihost W.
Variable M : module_.
Hypothesis LK : linked H I M.

(** The code from [c] to [c'] turns the environment as [o] does. *)
Definition allocates (c c' : cstate) (o : env -> act W env) : Prop := forall tg r fr m w, into c' tg -> here c fr -> envok tg r fr ->
  match o r m w with
  | Val r' m' w' => exists fr', steps I M (t_F tg) (Run fr m w) (Run fr' m' w') /\ here c' fr' /\ envok tg r' fr'
  | Halt _ _ | Limit => False
  | Stuck => True
  end.
Record declares (V : string -> Prop) (P : list nat) (l : list (string * Z)) (c c' : cstate) : Prop := {
  dc_ii : II V P c';
  dc_open : opened c';
  dc_ext : ext c c';
  dc_sid : c_stringID c' = c_stringID c;
  dc_loc : map fst (c_locals c') = rev (map fst l) ++ map fst (c_locals c);
  dc_glob : c_globals c' = c_globals c;
  dc_run : allocates c c' (automatics H l)
}.
Lemma alloc_linked m n : alloc (i_place I) m n = alloc (h_place H) m n.
Proof. unfold alloc. rewrite (lk_place _ _ _ LK). auto. Qed.
Lemma u64_size n : int64 n -> 0 <= n -> u64 (wrap64 (n + 1)) = n + 1.
Proof.
  unfold int64, u64, wrap64. intros K L. destruct (Z.eq_dec n (2 ^ 63 - 1)) as [->|]; [reflexivity|].
  rewrite (Z.mod_small (n + 1 + 2 ^ 63)) by lia. rewrite Z.mod_small; lia.
Qed.
Lemma go_chain tg c fr m w c1 fr1 m1 w1 c2 fr2 m2 w2 : go I M tg c fr m w c1 fr1 m1 w1 -> go I M tg c1 fr1 m1 w1 c2 fr2 m2 w2 ->
  (c_nreg c <= c_nreg c1)%nat -> (c_nreg c1 <= c_nreg c2)%nat -> go I M tg c fr m w c2 fr2 m2 w2.
Proof. intros. eapply go_trans; eauto. Qed.

Ltac em1 c1 := eapply use_emitR; [solve [intros; pure_tac]|eassumption|eassumption|]; intros c1 ? ? ?.
Lemma declares_intro V P x n i c c1 : II V P c -> ext c c1 -> stat c c1 -> II V P c1 -> opened c1 -> c_stringID c1 = c_stringID c ->
  assoc x (c_locals c) = None -> (c_nreg c <= i < c_nreg c1)%nat ->
  (forall tg fr m w r, into c1 tg -> here c fr ->
    match automatic H x n r m w with
    | Val r' m' w' => exists a fr', r' = put x a r /\ go I M tg c fr m w c1 fr' m' w' /\ fr_reg fr' i = Some a
    | Halt _ _ | Limit => False
    | Stuck => True
    end) ->
  declares V P [(x, n)] c (set_locals ((x, VReg i) :: c_locals c1) c1).
Proof.
  intros HI E S I1 O1 S1 N R K.
  assert (B : binds x i c c1 (set_locals ((x, VReg i) :: c_locals c1) c1)) by (constructor; auto).
  constructor; auto.
  - eapply binds_II; eauto.
  - eapply binds_ext; eauto.
  - cbn. rewrite (s_loc _ _ S). auto.
  - apply S.
  - intros tg r fr m w HIN HH HE. pose proof (binds_into _ _ _ _ _ _ B HIN) as HIN1. specialize (K _ fr m w r HIN1 HH).
    cbn [automatics]. unfold andthen. destruct (automatic H x n r m w) as [r' m' w'|z w'| |]; auto.
    destruct K as (a & fr' & -> & G & HR). cbn. exists fr'. split; [apply G|]. split.
    + destruct (go_here _ _ _ _ _ _ _ _ _ _ _ G). split; auto.
    + exact (binds_env V P x i c c1 _ tg r fr fr' a HI B HIN (proj2 (proj2 G)) HR HE).
Qed.
Lemma declare_one V P x n c : II V P c -> opened c -> int64 n -> assoc x (c_locals c) = None ->
  pwp (if n =? -1 then DeclareLocal x else DeclareLocalArray x n) (fun _ c' => declares V P [(x, n)] c c') c.
Proof.
  intros HI HO HN HX. unfold DeclareLocal, DeclareLocalArray, bind_local. destruct (n =? -1) eqn:E1.
  - eapply use_emitR; [solve [intros; pure_tac]|eassumption|eassumption|]. intros c1 I1 E2 N1.
    eapply use_emit; [solve [intros; pure_tac]|eassumption|apply E2|]. intros c2 I2 E3 N2.
    apply pwp_modify. apply declares_intro; auto.
    + eapply ext_trans; [apply E2|apply E3].
    + eapply stat_trans; [apply E2|apply E3].
    + apply E3.
    + rewrite (em_sid _ _ _ E3). apply E2.
    + lia.
    + intros tg fr m w r HIN HH. unfold automatic. rewrite E1. unfold andthen, alloc_, store_, done.
      destruct (alloc (h_place H) m 8) as [[a m1]|] eqn:EA; auto. destruct (store m1 a 0) as [m2|] eqn:ES; auto.
      assert (HIN1 : into c1 tg) by (eapply into_ext; [apply E3|auto]).
      destruct (go_def I M tg c c1 _ fr m w a m1 E2 N1 HIN1 HH) as [G1 R1].
      { cbn [plain]. rewrite alloc_linked. change (8 * 1) with 8. rewrite EA. auto. }
      assert (G2 : go I M tg c1 (next (set_reg (c_nreg c) a fr)) m1 w c2 (next (next (set_reg (c_nreg c) a fr))) m2 w).
      { eapply go_eff; eauto; [eapply go_here; eauto|]. cbn [plain operand]. rewrite R1, ES. auto. }
      exists a. eexists. split; [reflexivity|]. split; [eapply go_chain; eauto; lia|]. cbn. rewrite Nat.eqb_refl. auto.
  - cbv zeta. set (k := if n =? 0 then 1 else n).
    eapply use_emitR; [solve [intros; pure_tac]|eassumption|eassumption|]. intros c1 I1 X1 N1.
    eapply use_emitR; [solve [intros; pure_tac]|eassumption|apply X1|]. intros c2 I2 X2 N2.
    eapply use_emitR; [solve [intros; pure_tac]|eassumption|apply X2|]. intros c3 I3 X3 N3.
    eapply use_emitR; [solve [intros; pure_tac]|eassumption|apply X3|]. intros c4 I4 X4 N4.
    eapply use_emit; [solve [intros; pure_tac]|eassumption|apply X4|]. intros c5 I5 X5 N5.
    pose proof (em_ext _ _ _ X1) as Y1. pose proof (em_ext _ _ _ X2) as Y2. pose proof (em_ext _ _ _ X3) as Y3. pose proof (em_ext _ _ _ X4) as Y4.
    pose proof (em_ext _ _ _ X5) as Y5.
    apply pwp_modify. apply declares_intro; auto.
    + do 4 (eapply ext_trans; [eassumption|]). auto.
    + eapply stat_trans; [apply X1|]. eapply stat_trans; [apply X2|]. eapply stat_trans; [apply X3|]. eapply stat_trans; [apply X4|apply X5].
    + apply X5.
    + rewrite (em_sid _ _ _ X5), (em_sid _ _ _ X4), (em_sid _ _ _ X3), (em_sid _ _ _ X2). apply X1.
    + lia.
    + intros tg fr m w r J5 HH. unfold automatic. rewrite E1. destruct (n <? 0) eqn:E0; [exact Logic.I|]. fold k. apply Z.ltb_ge in E0.
      unfold andthen, alloc_, store_, done.
      destruct (alloc (h_place H) m (8 * (k + 1))) as [[a m1]|] eqn:EA; auto. destruct (store m1 a (a + 8)) as [m2|] eqn:ES; auto.
      pose proof (into_ext _ _ _ Y5 J5) as J4. pose proof (into_ext _ _ _ Y4 J4) as J3. pose proof (into_ext _ _ _ Y3 J3) as J2.
      pose proof (into_ext _ _ _ Y2 J2) as J1.
      destruct (go_def I M tg c c1 _ fr m w a m1 X1 N1 J1 HH) as [G1 R1].
      { cbn [plain]. rewrite alloc_linked, u64_size, EA; auto; subst k; destruct (n =? 0) eqn:EN; unfold int64 in *; lia. }
      remember (next (set_reg (c_nreg c) a fr)) as f1.
      destruct (go_def I M tg c1 c2 _ f1 m1 w (a + 8) m1 X2 N2 J2 (go_here _ _ _ _ _ _ _ _ _ _ _ G1)) as [G2 R2].
      { cbn [plain operand]. rewrite R1. auto. }
      remember (next (set_reg (c_nreg c1) (a + 8) f1)) as f2.
      destruct (go_def I M tg c2 c3 _ f2 m1 w (a + 8) m1 X3 N3 J3 (go_here _ _ _ _ _ _ _ _ _ _ _ G2)) as [G3 R3].
      { cbn [plain operand]. rewrite R2. auto. }
      remember (next (set_reg (c_nreg c2) (a + 8) f2)) as f3.
      assert (G13 : go I M tg c1 f1 m1 w c3 f3 m1 w) by (eapply go_chain; eauto; lia).
      destruct (go_def I M tg c3 c4 _ f3 m1 w a m1 X4 N4 J4 (go_here _ _ _ _ _ _ _ _ _ _ _ G3)) as [G4 R4].
      { cbn [plain operand]. rewrite (proj2 (proj2 G13)), R1 by lia. cbn [def]. rewrite Z.mul_0_r, Z.add_0_r. auto. }
      remember (next (set_reg (c_nreg c3) a f3)) as f4.
      assert (G5 : go I M tg c4 f4 m1 w c5 (next f4) m2 w).
      { eapply go_eff; eauto; [eapply go_here; eauto|]. cbn [plain operand]. rewrite R4. rewrite (proj2 (proj2 G4)), R3 by lia. rewrite ES. auto. }
      exists a, (next f4). split; [reflexivity|]. split; [|cbn [next fr_reg]; exact R4].
      eapply go_chain; [exact G1| |lia|lia]. eapply go_chain; [exact G13| |lia|lia]. eapply go_chain; [exact G4|exact G5|lia|lia].
Qed.
Lemma declares_seq V P l1 l2 c c1 c2 : declares V P l1 c c1 -> declares V P l2 c1 c2 -> declares V P (l1 ++ l2) c c2.
Proof.
  intros [] []. constructor; auto.
  - eapply ext_trans; eauto.
  - congruence.
  - rewrite map_app, rev_app_distr, dc_loc1, dc_loc0. rewrite app_assoc. auto.
  - congruence.
  - intros tg r fr m w HIN HH HE.
    assert (HIN1 : into c1 tg) by (eapply into_ext; eauto). specialize (dc_run0 tg r fr m w HIN1 HH HE).
    assert (EQ : automatics H (l1 ++ l2) r m w = andthen (automatics H l1 r) (automatics H l2) m w).
    { clear. revert r m w. induction l1 as [|[x n] l1 IH]; intros r m w; [reflexivity|]. cbn [app automatics].
      rewrite andthen_assoc. apply andthen_ext. auto. }
    rewrite EQ. unfold andthen. destruct (automatics H l1 r m w) as [r1 m1 w1|z w1| |]; auto.
    destruct dc_run0 as (fr1 & S1 & H1 & E1). specialize (dc_run1 tg r1 fr1 m1 w1 HIN H1 E1).
    destruct (automatics H l2 r1 m1 w1) as [r2 m2 w2|z w2| |]; auto.
    destruct dc_run1 as (fr2 & S2 & H2 & E2). exists fr2. split; auto. eapply steps_trans; eauto.
Qed.
Lemma declareAutos_post V P l : forall c, II V P c -> opened c -> Forall wf_auto l -> NoDup (map fst l) ->
  (forall x, In x (map fst l) -> assoc x (c_locals c) = None) -> pwp (declareAutos l) (fun _ c' => declares V P l c c') c.
Proof.
  induction l as [|[x n] l IH]; intros c HI HO HW HD HX; cbn [declareAutos].
  { apply pwp_ret. constructor; auto using ext_refl. intros tg r fr m w HIN HH HE. cbn. exists fr. split; auto. apply steps_refl. }
  inversion HW; inversion HD; subst. destruct H2 as [_ HN]. cbn in HN.
  eapply pwp_use; [pure_tac|apply declare_one; eauto; apply HX; cbn; auto|]. cbv beta. intros [] c1 D1.
  eapply pwp_mono; [apply IH; auto; [apply D1|apply D1|]|].
  - intros y Hy. apply assoc_none. rewrite (dc_loc _ _ _ _ _ D1). cbn. intros [<-|K]; [auto|].
    assert (A : assoc y (c_locals c) = None) by (apply HX; cbn; auto).
    revert K A. clear. induction (c_locals c) as [|[z v] L IHL]; cbn; [tauto|]. destruct (String.eqb_spec y z); [discriminate|]. intuition congruence.
  - cbv beta. intros [] c2 D2. exact (declares_seq V P [(x, n)] l c c1 c2 D1 D2).
Qed.
End Auto.

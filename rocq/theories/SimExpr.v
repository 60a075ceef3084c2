(** * SimExpr: the code of an expression computes its value *)
From Coq Require Import List Ascii String ZArith NArith Lia Bool.
From Verif Require Import Base Lexer IR Builder Expr Stmt Decl Wp Syntax Pure ParseGen Pwp Names InvIR InvDecl InvNames Built InvTerm SpecSem IRSem SpecLink SemFacts SimBase.
Import ListNotations.
Open Scope string_scope.
Open Scope list_scope.
Open Scope Z_scope.
Open Scope m_scope.

Lemma ir_bin_arith op a b : ir_bin op a b = arith op a b.
Proof.
  destruct op; cbn; auto; destruct ((0 <=? b) && (b <? 64)) eqn:E; auto; apply andb_prop in E; destruct E as [E1 E2]; apply Z.leb_le in E1.
  - rewrite Z.shiftl_mul_pow2; auto.
  - rewrite Z.shiftr_div_pow2; auto.
Qed.
Lemma ir_cmp_compared p a b : (if ir_cmp p a b then 1 else 0) = compared p a b.
Proof. unfold compared, truth. destruct p; reflexivity. Qed.

Definition scope_ok (sc : scope) (c : cstate) : Prop := sc_loc sc = map fst (c_locals c) /\ sc_ext sc = map fst (c_globals c).
Lemma scope_ok_stat sc c c' : stat c c' -> scope_ok sc c -> scope_ok sc c'.
Proof. intros [] []. split; congruence. Qed.
Lemma noloc_app locals sc a b : noloc locals sc (a ++ b) <-> noloc locals sc a /\ noloc locals sc b.
Proof. unfold noloc. split; [intros K; split; intros; apply K; auto; apply in_or_app; auto|intros [K1 K2] HL x Hx; apply in_app_or in Hx; destruct Hx; auto]. Qed.
Lemma inb_assoc {A} x (l : list (string * A)) : inb x (map fst l) = match assoc x l with Some _ => true | None => false end.
Proof. induction l as [|[y v] l IH]; cbn; auto. destruct (String.eqb x y); auto. Qed.

Section Expr.
Context {W : Type}.
Variable H : host W.
Variable I : ihost W.
Variable M : module_.
Variable locals : bool.
Variable call : string -> list Z -> act W Z.
Variable Nb : nat.
Hypothesis LK : linked H I M.
Hypothesis CALL : forall x args m w,
  match call x args m w with
  | Val z m' w' => icall I M (globalName x) args m w (XRet z m' w')
  | Halt z w' => icall I M (globalName x) args m w (XExit z w')
  | Stuck => True
  | Limit => busy I M Nb (globalName x) args m w
  end.
Variable chk : bool.

Definition tgt_ok (tg : tgt) : Prop :=
  (forall y, In y (t_G tg) -> In y (t_N tg) -> False) /\ (forall x, In (globalName x) (t_N tg) -> i_fun I (i_sym I (globalName x)) = Some (globalName x)).
(** The registers of the variables hold their addresses. *)
Definition envok (tg : tgt) (r : env) (fr : frame) : Prop := forall x i, assoc x (t_T tg) = Some (VReg i) -> fr_reg fr i = r x.

(** What the code of an expression does, as a value and as an lvalue. *)
Record XPost (V : string -> Prop) (P : list nat) (n : Z) (c : cstate) (v : value) (c' : cstate) : Prop := {
  x_ii : II V P c';
  x_open : opened c';
  x_ext : ext c c';
  x_stat : stat c c';
  x_vwf : vwf (c_nreg c') v;
  x_sid : c_stringID c' = c_stringID c + n;
  x_fn : forall g b k, v = VFun g b k -> In g (fnames c') /\ exists x, g = globalName x
}.
Definition computes (names : list string) (c : cstate) (v : value) (c' : cstate) (o : scope -> env -> act W Z) : Prop :=
  forall tg sc r fr m w, tgt_ok tg -> into c' tg -> scope_ok sc c -> noloc locals sc names -> here c fr -> envok tg r fr ->
    reaches I M Nb tg c fr m w c' (o sc r m w) (fun z fr' => operand I fr' v = Some z).
Definition RPost V P e c v c' : Prop :=
  XPost V P (lits e) c v c' /\ computes (callees e) c v c' (fun sc r => rvalue H locals call sc r (c_stringID c) e).
Definition LPost V P e c v c' : Prop :=
  XPost V P (lits e) c v c' /\ computes (callees e) c v c' (fun sc r => lvalue H locals call sc r (c_stringID c) e) /\
  forall sc r k m w, scope_ok sc c -> rvalue H locals call sc r k e m w = andthen (lvalue H locals call sc r k e) load_ m w.
Definition EPost_ V P e c (a : value * bool) c' : Prop := if snd a then LPost V P e c (fst a) c' else RPost V P e c (fst a) c'.
Definition EOK (e : expr) : Prop := wfE e -> forall q V P c, II V P c -> opened c -> pwp (gen chk q e) (EPost_ V P e c) c.
Definition APost V P l c vs c' : Prop :=
  II V P c' /\ opened c' /\ ext c c' /\ stat c c' /\ Forall (vwf (c_nreg c')) vs /\ c_stringID c' = c_stringID c + litsA l /\
  forall tg sc r fr m w, tgt_ok tg -> into c' tg -> scope_ok sc c -> noloc locals sc (calleesA l) -> here c fr -> envok tg r fr ->
    reaches I M Nb tg c fr m w c' (rvalues H locals call sc r (c_stringID c) l m w) (fun zs fr' => operands I fr' vs = Some zs).
Definition AOK (l : exprs) : Prop := wfEs l -> forall V P c, II V P c -> opened c -> pwp (genArgs chk l) (APost V P l c) c.

(** Variables keep their registers while expressions are computed. *)
Lemma env_go tg r V P c c' fr m w fr' m' w' : II V P c -> stat c c' -> into c' tg -> go I M tg c fr m w c' fr' m' w' ->
  envok tg r fr -> envok tg r fr'.
Proof.
  intros HI HS HIN (_ & _ & G) HE x i K. rewrite <- (HE x i K). apply G.
  destruct (in_new _ _ HIN x _ K) as [K1|(r1 & E & L)].
  - rewrite (s_loc _ _ HS) in K1. destruct (ii_loc _ _ _ HI _ _ K1) as (r2 & E & L). injection E as ->. auto.
  - injection E as ->. auto.
Qed.

(** Steps of the proofs. *)
Lemma use_emitR {B} (f : value -> C B) mk V P (Q : B -> cstate -> Prop) c : (forall v, pure (f v)) -> II V P c -> opened c ->
  (forall c', II V P c' -> emits (mk (c_nreg c)) c c' -> c_nreg c' = S (c_nreg c) -> pwp (f (VReg (c_nreg c))) Q c') ->
  pwp (bind (emitR mk) f) Q c.
Proof.
  intros HP HI HO K. eapply pwp_use; [auto with pure|apply P_emitR; eauto|]. cbv beta. intros v c' (K1 & K2 & K3 & ->). auto.
Qed.
Lemma emitR_last mk V P (Q : value -> cstate -> Prop) c : II V P c -> opened c ->
  (forall c', II V P c' -> emits (mk (c_nreg c)) c c' -> c_nreg c' = S (c_nreg c) -> Q (VReg (c_nreg c)) c') ->
  pwp (emitR mk) Q c.
Proof.
  intros HI HO K. eapply pwp_mono; [apply P_emitR; eauto|]. cbv beta. intros v c' (K1 & K2 & K3 & ->). auto.
Qed.

(** From an expression to its value. *)
Lemma rval_post V P e c a c' : II V P c -> EPost_ V P e c a c' -> pwp (rval (fst a) (snd a)) (RPost V P e c) c'.
Proof.
  destruct a as [v l]. unfold EPost_. cbn [fst snd]. intros HI0 K. destruct l; cbn [rval]; [|apply pwp_ret; auto].
  destruct K as (X & HL & HR). destruct X.
  eapply emitR_last; eauto. intros c2 HI2 HE HN. split.
  - constructor; auto.
    + apply HE.
    + eapply ext_trans; eauto. apply HE.
    + eapply stat_trans; eauto. apply HE.
    + cbn. lia.
    + rewrite (em_sid _ _ _ HE). auto.
    + discriminate.
  - intros tg sc r fr m w HT HIN HSC HNL HH HEN. cbv beta. rewrite HR by auto.
    assert (HIN1 : into c' tg) by (eapply into_ext; [apply HE|auto]).
    eapply reaches_bind; [apply x_ext0|lia|eapply HL; eauto|]. cbv beta.
    intros z m1 w1 fr1 G HV. unfold load_. destruct (load m1 z) as [y|] eqn:EL; [|exact Logic.I].
    edestruct (go_def I M tg c' c2 (ILoad (c_nreg c') v) fr1 m1 w1 y m1) as [G2 R2]; eauto.
    { eapply go_here; eauto. }
    { cbn. rewrite HV, EL. reflexivity. }
    eexists. split; [exact G2|]. exact R2.
Qed.
(** The combination of [gen] and [rval]. *)
Lemma use_R {B} (k : value -> C B) q e V P (Q : B -> cstate -> Prop) c : (forall v, pure (k v)) -> EOK e -> wfE e -> II V P c -> opened c ->
  (forall v c', RPost V P e c v c' -> pwp (k v) Q c') ->
  pwp ('(v, l) <- gen chk q e ;; v <- rval v l ;; k v) Q c.
Proof.
  intros HP HE HW HI HO K. eapply pwp_use; [pure_tac|apply HE; eauto|]. cbv beta. intros [v l] c' HX.
  eapply pwp_use; [pure_tac|exact (rval_post V P e c (v, l) c' HI HX)|]. cbv beta. auto.
Qed.

(** Tactics: facts of all steps, and chains of them. *)
Ltac know P := let T := type of P in lazymatch goal with | _ : T |- _ => fail | _ => pose proof P end.
Ltac facts := repeat match goal with
  | X : XPost _ _ _ _ _ _ |- _ => destruct X
  | X : RPost _ _ _ _ _ _ |- _ => destruct X as [[] ?]
  | X : LPost _ _ _ _ _ _ |- _ => destruct X as [[] [? ?]]
  | E : emits _ _ _ |- _ => know (em_ext _ _ _ E)
  | E : emits _ _ _ |- _ => know (em_stat _ _ _ E)
  | E : emits _ _ _ |- _ => know (em_open _ _ _ E)
  | E : emits _ _ _ |- _ => know (em_sid _ _ _ E)
  | E : quiet _ _ |- _ => know (qt_ext _ _ E)
  | E : quiet _ _ |- _ => know (qt_stat _ _ E)
  | E : quiet _ _ |- _ => know (qt_nreg _ _ E)
  | E : quiet ?a ?b, O : opened ?a |- _ => know (quiet_open _ _ E O)
  | E : ends_block _ _ _ |- _ => know (eb_ext _ _ _ E)
  | E : ends_block _ _ _ |- _ => know (eb_stat _ _ _ E)
  | E : ends_block _ _ _ |- _ => know (eb_closed _ _ _ E)
  | E : ends_block _ _ _ |- _ => know (eb_sid _ _ _ E)
  | E : ends_block _ _ _ |- _ => know (eb_nreg _ _ _ E)
  | E : makes _ _ _ |- _ => know (mk_ext _ _ _ E)
  | E : makes _ _ _ |- _ => know (mk_stat _ _ _ E)
  | E : makes _ _ _ |- _ => know (mk_sid _ _ _ E)
  | E : makes _ _ _ |- _ => know (mk_nreg _ _ _ E)
  | E : makes _ ?a _, O : opened ?a |- _ => know (mk_open _ _ _ E O)
  | E : makes _ ?a _, O : closed ?a |- _ => know (mk_closed _ _ _ E O)
  | E : moves _ _ _ |- _ => know (mv_ext _ _ _ E)
  | E : moves _ _ _ |- _ => know (mv_stat _ _ _ E)
  | E : moves _ _ _ |- _ => know (mv_open _ _ _ E)
  | E : moves _ _ _ |- _ => know (mv_sid _ _ _ E)
  | E : moves _ _ _ |- _ => know (mv_nreg _ _ _ E)
  end.
Ltac extc := match goal with |- ext ?a ?b => first [assumption | match goal with E : ext a ?x |- _ => apply (ext_trans a x b E); extc end] end.
Ltac statc := match goal with |- stat ?a ?b => first [assumption | match goal with E : stat a ?x |- _ => apply (stat_trans a x b E); statc end] end.
Ltac intos := repeat match goal with
  | K : into ?b ?tg, E : ext ?a ?b |- _ => know (into_ext a b tg E K)
  | K : scope_ok ?sc ?a, E : stat ?a ?b |- _ => know (scope_ok_stat sc a b E K)
  | E : ext ?a ?b |- _ => know (e_nreg _ _ E)
  | E : ext ?a ?b |- _ => know (e_fn _ _ E)
  end.
Ltac vw := cbn [vwf]; first [exact Logic.I | assumption | lia | (eapply vwf_le; [|eassumption]; lia)].
(** The structural part. *)
Ltac fns := intros ? ? ? EQ; match goal with F : forall g b k, _ = VFun g b k -> In g _ /\ _ |- _ => destruct (F _ _ _ EQ) as [FN FX];
  split; [unfold incl in *; eauto 8; fail|exact FX] end.
Ltac xpost := constructor; [assumption | assumption | extc | statc | vw | cbn [lits litsA]; lia | first [solve [fns] | intros; first [discriminate | (split; [repeat match goal with E : incl _ _ |- In _ _ => apply E end; eauto; fail|eauto; fail]) | eauto]]].

Lemma go_operands tg c fr m w c' fr' m' w' vs zs : go I M tg c fr m w c' fr' m' w' -> Forall (vwf (c_nreg c)) vs ->
  operands I fr vs = Some zs -> operands I fr' vs = Some zs.
Proof.
  intros G. revert zs. induction vs as [|v vs IH]; cbn; intros zs HF K; auto. inversion HF; subst.
  rewrite (go_operand I M _ _ _ _ _ _ _ _ _ v G); auto. destruct (operand I fr v); [|discriminate].
  destruct (operands I fr vs); [|discriminate]. rewrite (IH _ H3 eq_refl). auto.
Qed.
Ltac vals := repeat match goal with
  | G : go _ _ _ ?c ?fr _ _ ?c1 ?fr1 _ _, K : operand _ ?fr ?v = Some ?z |- _ =>
      let T := constr:(operand I fr1 v = Some z) in
      lazymatch goal with | _ : T |- _ => fail | _ => assert T by (rewrite (go_operand I M _ _ _ _ _ _ _ _ _ v G); [exact K|vw]) end
  | G : go _ _ _ ?c ?fr _ _ ?c1 ?fr1 _ _, K : operands _ ?fr ?v = Some ?z |- _ =>
      let T := constr:(operands I fr1 v = Some z) in
      lazymatch goal with | _ : T |- _ => fail | _ => assert T by (eapply go_operands; eauto; lia) end
  | G : go _ _ _ _ _ _ _ ?c1 ?fr1 _ _ |- _ => know (go_here I M _ _ _ _ _ _ _ _ _ G)
  | G : go _ _ ?tg ?c ?fr _ _ ?c1 ?fr1 _ _, E : envok ?tg ?r ?fr, J : II _ _ ?c, N : into ?c1 ?tg |- _ =>
      let T := constr:(envok tg r fr1) in
      lazymatch goal with | _ : T |- _ => fail | _ => assert T by (eapply (env_go tg r _ _ c c1 fr); [exact J|statc|exact N|exact G|exact E]) end
  end.
(** One instruction computing [z]. *)
Ltac ins1 z := eapply (reach_def I M Nb _ _ _ _ _ _ _ _ z); [eassumption|eassumption|eassumption|eassumption| |lia|intros ? ? ?; vals].
Ltac ops := cbn [plain]; repeat match goal with K : operand _ _ _ = Some _ |- _ => rewrite K end; try reflexivity.
Ltac fin := apply reaches_done; [assumption|cbn [operand] in *; assumption].

Lemma applyCop_post op a b V P c : II V P c -> opened c -> vwf (c_nreg c) a -> vwf (c_nreg c) b ->
  pwp (applyCop op a b) (fun x c' => XPost V P 0 c x c' /\ forall tg fr m w y z, into c' tg -> here c fr ->
    operand I fr a = Some y -> operand I fr b = Some z ->
    reaches I M Nb tg c fr m w c' (maybe (W := W) (operate op y z) m w) (fun u fr' => operand I fr' x = Some u)) c.
Proof.
  intros HI HO VA VB. destruct op as [o|p]; cbn [applyCop].
  - eapply emitR_last; eauto. intros c1 I1 E1 N1. facts. split; [xpost|].
    intros tg fr m w y z HIN HH HA HB. cbn [operate]. unfold maybe. destruct (arith o y z) as [u|] eqn:EA; [|exact Logic.I].
    ins1 u.
    { ops. rewrite ir_bin_arith, EA. reflexivity. }
    fin.
  - unfold cmpz. eapply use_emitR; eauto; [pure_tac|]. intros c1 I1 E1 N1. facts.
    eapply emitR_last; eauto. intros c2 I2 E2 N2. facts. split; [intos; xpost|].
    intros tg fr m w y z HIN HH HA HB. intos. cbn [operate maybe done].
    ins1 (compared p y z).
    { ops. }
    ins1 (compared p y z).
    { ops. }
    fin.
Qed.
Lemma use_emit {B} (f : unit -> C B) i V P (Q : B -> cstate -> Prop) c : (forall v, pure (f v)) -> II V P c -> opened c ->
  (forall c', II V P c' -> emits i c c' -> c_nreg c' = c_nreg c -> pwp (f tt) Q c') ->
  pwp (bind (emit i) f) Q c.
Proof.
  intros HP HI HO K. eapply pwp_use; [auto with pure|apply P_emit; eauto|]. cbv beta. intros [] c' (K1 & K2 & K3). auto.
Qed.
Ltac emr := eapply use_emitR; [solve [intros; pure_tac]|eassumption|eassumption|intros ? ? ? ?; facts].
Ltac eml := eapply emitR_last; [eassumption|eassumption|intros ? ? ? ?; facts].
Ltac em := eapply use_emit; [solve [intros; pure_tac]|eassumption|eassumption|intros ? ? ? ?; facts].
(** One instruction storing a word. *)
Ltac eff1 := eapply (reach_eff I M Nb); [eassumption|eassumption|eassumption|eassumption| |lia|intros ? ?; vals].

Lemma incDec_post op p V P c : II V P c -> opened c -> vwf (c_nreg c) p ->
  pwp (incDec op p) (fun cur c' => XPost V P 0 c cur c' /\ forall tg fr m w a, into c' tg -> here c fr -> operand I fr p = Some a ->
    reaches I M Nb tg c fr m w c' (step_by (W := W) op a m w) (fun on fr' => operand I fr' cur = Some (fst on) /\ operand I fr' p = Some a)) c.
Proof.
  intros HI HO VP. unfold incDec. emr. emr. em. apply pwp_ret. intos. split; [xpost|].
  intros tg fr m w a HIN HH HA. intos. unfold step_by, andthen, load_, store_, maybe, done.
  destruct (load m a) as [old|] eqn:EL; [|exact Logic.I].
  destruct (arith op old 1) as [new|] eqn:EN; [|exact Logic.I].
  destruct (store m a new) as [m'|] eqn:ES; [|exact Logic.I].
  ins1 old. { ops. rewrite EL. reflexivity. }
  ins1 new. { ops. cbn [operand]. rewrite ir_bin_arith, EN. reflexivity. }
  eff1. { ops. rewrite ES. reflexivity. }
  apply reaches_done; auto.
Qed.

(** ** Calls *)
Definition results (c : cstate) (v : value) (c' : cstate) (tg : tgt) fr m w (o : res W Z) : Prop :=
  reaches I M Nb tg c fr m w c' o (fun z fr' => operand I fr' v = Some z).
Lemma reach_call tg c c' f nf va vs g x zs fr m w : emits (ICall (c_nreg c) f nf va vs) c c' -> c_nreg c' = S (c_nreg c) -> into c' tg ->
  here c fr -> callee I fr f = Some g -> g = globalName x -> operands I fr vs = Some zs -> results c (VReg (c_nreg c)) c' tg fr m w (call x zs m w).
Proof.
  intros E N HIN HH HC -> HV. unfold results. specialize (CALL x zs m w). destruct (call x zs m w) as [z m' w'|z w'| |]; [| |exact Logic.I|].
  - exists (next (set_reg (c_nreg c) z fr)). split; [|cbn; rewrite Nat.eqb_refl; auto].
    split; [|split].
    + eapply steps_one, st_call; [eapply fetch_at; eauto; apply E; auto|exact HC|exact HV|exact CALL].
    + destruct HH as [H1 H2]. split; cbn; [rewrite (em_builder _ _ _ E); auto|rewrite (em_len _ _ _ E); auto].
    + intros r K. cbn. destruct (Nat.eqb_spec r (c_nreg c)); auto. lia.
  - cbn. eapply steps_one, st_exit; [eapply fetch_at; eauto; apply E; auto|exact HC|exact HV|exact CALL].
  - cbn. eapply lasts_le; [|eapply la_call; [eapply fetch_at; eauto; apply E; auto|exact HC|exact HV|exact CALL]]. auto.
Qed.
Lemma globalName_inj x y : globalName x = globalName y -> x = y.
Proof.
  unfold globalName. destruct (String.eqb_spec x "main"), (String.eqb_spec y "main"); subst; auto; cbn; intros K; try discriminate.
  injection K. auto.
Qed.
(** A direct call, and a call through a value. *)
Lemma doCall_post fn vs V P c : II V P c -> opened c -> vwf (c_nreg c) fn -> Forall (vwf (c_nreg c)) vs ->
  (forall g b k, fn = VFun g b k -> In g (fnames c) /\ exists x, g = globalName x) ->
  pwp (doCall fn vs) (fun res c' => XPost V P 0 c res c' /\
    (forall x b k tg fr m w zs, fn = VFun (globalName x) b k -> tgt_ok tg -> into c' tg -> here c fr -> operands I fr vs = Some zs ->
       results c res c' tg fr m w (call x zs m w)) /\
    (forall tg fr m w a zs, tgt_ok tg -> into c' tg -> here c fr -> operand I fr fn = Some a -> operands I fr vs = Some zs ->
       results c res c' tg fr m w (call_at H call a zs m w))) c.
Proof.
  intros HI HO VF VA HF. unfold doCall.
  assert (DIRECT : forall g b k, fn = VFun g b k ->
    pwp (if b && (k =? 0)%nat && (1 <=? List.length vs)%nat then
          casted <- emitR (fun r => IBitCast r fn) ;; emitR (fun r => ICall r casted 1 true vs)
        else emitR (fun r => ICall r fn k b vs))
      (fun res c' => XPost V P 0 c res c' /\ forall x tg fr m w zs, g = globalName x -> tgt_ok tg -> into c' tg -> here c fr ->
         operands I fr vs = Some zs -> results c res c' tg fr m w (call x zs m w)) c).
  { intros g b k ->. destruct (b && (k =? 0)%nat && (1 <=? List.length vs)%nat).
    - emr. eml. intos. split; [xpost|]. intros x tg fr m w zs -> [_ HS] HIN HH HV. intos. unfold results.
      ins1 (i_sym I (globalName x)). { cbn. reflexivity. }
      match goal with K : operand I _ (VReg _) = Some _ |- _ => rename K into KV end.
      eapply reach_call; eauto.
      { unfold callee. rewrite KV. apply HS. eapply in_fn; [exact HIN|]. match goal with E : incl (fnames c) _ |- _ => idtac end.
        assert (K : In (globalName x) (fnames c)) by (eapply HF; eauto). repeat match goal with E : incl _ _ |- _ => apply E in K end. auto. }
    - eml. intos. split; [xpost|]. intros x tg fr m w zs -> HS HIN HH HV. eapply reach_call; eauto; reflexivity. }
  assert (INDIRECT : (forall g b k, fn <> VFun g b k) ->
    pwp (p <- emitR (fun r => IIntToPtr r fn) ;;
         emitR (fun r => ICall r p (if (1 <=? List.length vs)%nat then 1%nat else 0%nat) (1 <=? List.length vs)%nat vs))
     (fun res c' => XPost V P 0 c res c' /\ forall tg fr m w a zs, tgt_ok tg -> into c' tg -> here c fr -> operand I fr fn = Some a -> operands I fr vs = Some zs ->
       results c res c' tg fr m w (call_at H call a zs m w)) c).
  { intros NF. emr. eml. intos. split; [xpost|]. intros tg fr m w a zs [_ HS] HIN HH HV HZ. intos. unfold call_at.
    destruct (h_fun H a) as [x|] eqn:EF; [|exact Logic.I]. unfold results.
    ins1 a. { ops. }
    match goal with K : operand I _ (VReg _) = Some _ |- _ => rename K into KV end.
    eapply reach_call; eauto. unfold callee. rewrite KV. apply (lk_fun _ _ _ LK). auto. }
  destruct fn as [z|r|g|g b k|p].
  4: { eapply pwp_mono; [eapply DIRECT; reflexivity|]. cbv beta. intros res c' [HX K]. split; auto. split.
       - intros x b' k' tg fr m w zs E. injection E as -> _ _. eauto.
       - intros tg fr m w a zs HS HIN HH HV HZ. unfold call_at. destruct (h_fun H a) as [x|] eqn:EF; [|exact Logic.I].
         apply K; auto. cbn in HV. injection HV as <-. apply (lk_fun _ _ _ LK) in EF. destruct (HF _ _ _ eq_refl) as [HF1 [y ->]].
         rewrite (proj2 HS) in EF; [congruence|]. eapply in_fn; [exact HIN|]. eapply e_fn; [apply HX|]. exact HF1. }
  all: eapply pwp_mono; [apply INDIRECT; discriminate|]; cbv beta; intros res c' [HX K]; (split; [auto|split; [discriminate|auto]]).
Qed.
Lemma quiet_refl c : quiet c c.
Proof. constructor; auto using ext_refl, stat_refl. Qed.
Lemma reach_quiet {A} tg c c1 c2 fr m w (o : res W A) Q : quiet c c1 -> here c fr -> (c_nreg c1 <= c_nreg c2)%nat ->
  (here c1 fr -> go I M tg c fr m w c1 fr m w -> reaches I M Nb tg c1 fr m w c2 o Q) -> reaches I M Nb tg c fr m w c2 o Q.
Proof.
  intros HQ HH L K. assert (G : go I M tg c fr m w c1 fr m w) by (apply go_quiet; auto; [apply HQ|apply quiet_len; auto]).
  eapply reaches_go; [| |exact G|]; try (rewrite ?(qt_nreg _ _ HQ) in *; lia). apply K; auto. eapply go_here; eauto.
Qed.
Lemma found_named c n f : findFuncByName c n = Some f -> f_name f = globalName n /\ In (globalName n) (fnames c).
Proof.
  intros K. apply find_named_In in K. destruct K as [K1 K2]. split; auto. unfold fnames. rewrite <- K2. apply in_map. auto.
Qed.
Lemma fun_value_named f n : f_name f = n -> exists b k, fun_value f = VFun n b k.
Proof. intros <-. unfold fun_value. eauto. Qed.

Lemma reach_makes {A} tg b c c1 c2 fr m w (o : res W A) Q : makes b c c1 -> here c fr -> (c_nreg c1 <= c_nreg c2)%nat ->
  (go I M tg c fr m w c1 fr m w -> reaches I M Nb tg c1 fr m w c2 o Q) -> reaches I M Nb tg c fr m w c2 o Q.
Proof.
  intros HQ HH L K. assert (G : go I M tg c fr m w c1 fr m w) by (apply go_quiet; auto; [apply HQ|apply HQ]).
  eapply reaches_go; [| |exact G|]; try (rewrite ?(mk_nreg _ _ _ HQ) in *; lia). apply K; auto.
Qed.

(** ** Names *)
Definition symval (x : string) (v : value) : Prop := exists b k, v = VFun (globalName x) b k.
Lemma genCallee_post x V P c : II V P c -> opened c ->
  pwp (genCallee x) (fun a c' => XPost V P 0 c (fst a) c' /\ quiet c c' /\
    if snd a then inb x (map fst (c_globals c)) = true /\ fst a = VGlob (globalName x) else symval x (fst a)) c.
Proof.
  intros HI HO. unfold genCallee. apply pwp_bind; [auto with pure|]. apply pwp_get.
  destruct (findFuncByName c x) as [f|] eqn:EF.
  { apply pwp_ret. cbn [fst snd]. destruct (found_named _ _ _ EF) as [K1 K2]. destruct (fun_value_named f _ K1) as (b & k & E).
    pose proof (quiet_refl c). facts. rewrite E. split; [|split; [auto|exists b, k; auto]].
    constructor; auto; try (cbn; lia). intros ? ? ? K. injection K as <- _ _. eauto. }
  destruct (assoc x (c_globals c)) as [[full a]|] eqn:EG.
  { apply pwp_ret. cbn [fst snd]. destruct (ii_glob _ _ _ HI _ _ _ EG) as [-> _]. pose proof (quiet_refl c). facts.
    split; [|split; [auto|split; auto; rewrite inb_assoc, EG; auto]]. constructor; auto; try (cbn; lia); try discriminate. }
  eapply pwp_use; [pure_tac|apply P_GetOrDeclareFunction; eauto|]. cbv beta. intros o c' (I1 & Q1 & S1 & -> & F1). apply pwp_ret.
  cbn [fst snd]. facts. split; [|split; [auto|exists true, 0%nat; auto]].
  constructor; auto; try (cbn; lia). intros ? ? ? K. injection K as <- _ _. eauto.
Qed.
Lemma genVar_post q x V P c : II V P c -> opened c -> pwp (genVar q x) (EPost_ V P (EVar x) c) c.
Proof.
  intros HI HO. unfold genVar, GetAddress.
  apply pwp_bind; [pure_tac|]. apply pwp_bind; [auto with pure|]. apply pwp_get.
  destruct (assoc x (c_locals c)) as [v|] eqn:EL.
  { apply pwp_ret. apply pwp_ret. unfold EPost_. cbn [fst snd]. pose proof (quiet_refl c). facts.
    destruct (ii_loc _ _ _ HI _ _ EL) as (i & -> & LT). split; [|split].
    - constructor; auto; try (cbn; lia); try discriminate.
    - intros tg sc r fr m w HT HIN [S1 S2] HN HH HE. cbn [lvalue]. unfold variable. rewrite S1, inb_assoc, EL.
      unfold maybe. destruct (r x) as [a|] eqn:ER; [|exact Logic.I]. apply reaches_done; auto. cbn.
      rewrite (HE x i); auto. eapply in_loc; eauto.
    - intros sc r k m w [S1 S2]. cbn [lvalue rvalue]. unfold variable. rewrite S1, inb_assoc, EL. auto. }
  destruct (assoc x (c_globals c)) as [[full arr]|] eqn:EG.
  { destruct (ii_glob _ _ _ HI _ _ _ EG) as [-> GI].
    assert (VAR : forall sc r, scope_ok sc c -> variable (W := W) H sc r x = Some (done (h_addr H x))).
    { intros sc r [S1 S2]. unfold variable. rewrite S1, S2, !inb_assoc, EL, EG. auto. }
    destruct arr.
    - eapply use_emitR; [solve [intros; pure_tac]|eassumption|eassumption|]. intros c1 I1 E1 N1. facts.
      apply pwp_ret. apply pwp_ret. unfold EPost_. cbn [fst snd]. intos. split; [|split].
      + xpost.
      + intros tg sc r fr m w HT HIN HS HN HH HE. cbn [lvalue]. rewrite VAR by auto. unfold done.
        ins1 (h_addr H x). { cbn. rewrite (lk_addr _ _ _ LK), Z.add_0_r. reflexivity. } fin.
      + intros sc r k m w HS. cbn [lvalue rvalue]. rewrite VAR; auto.
    - apply pwp_ret. apply pwp_ret. unfold EPost_. cbn [fst snd]. pose proof (quiet_refl c). facts. split; [|split].
      + constructor; auto; try (cbn; lia); try discriminate.
      + intros tg sc r fr m w HT HIN HS HN HH HE. cbn [lvalue]. rewrite VAR by auto. apply reaches_done; auto. cbn.
        rewrite (lk_addr _ _ _ LK). auto.
      + intros sc r k m w HS. cbn [lvalue rvalue]. rewrite VAR; auto. }
  apply pwp_ret. destruct q; [apply pwp_err|].
  assert (VAR : forall sc r, scope_ok sc c -> variable (W := W) H sc r x = None).
  { intros sc r [S1 S2]. unfold variable. rewrite S1, S2, !inb_assoc, EL, EG. auto. }
  apply pwp_bind; [auto with pure|]. apply pwp_get.
  destruct (findFuncByName c x) as [f|] eqn:EF.
  - destruct (found_named _ _ _ EF) as [K1 K2]. destruct (fun_value_named f _ K1) as (b & k & E). rewrite E.
    emr. apply pwp_ret. unfold EPost_. cbn [fst snd]. intos. split; [xpost|].
    intros tg sc r fr m w HT HIN HS HN HH HE. cbn [rvalue]. rewrite VAR by auto. unfold done.
    ins1 (h_addr H x). { cbn. rewrite (lk_addr _ _ _ LK). reflexivity. } fin.
  - eapply pwp_use; [pure_tac|apply P_GetOrDeclareFunction; eauto|]. cbv beta. intros o c' (I1 & Q1 & S1 & -> & F1). facts.
    emr. apply pwp_ret. unfold EPost_. cbn [fst snd]. intos. split; [xpost|].
    intros tg sc r fr m w HT HIN HS HN HH HE. cbn [rvalue]. rewrite VAR by auto. unfold done. intos.
    eapply reach_quiet; eauto. intros HH1 G1.
    ins1 (h_addr H x). { cbn. rewrite (lk_addr _ _ _ LK). reflexivity. } fin.
Qed.
(** ** Sequences of subexpressions, and branches *)
Lemma seq_R {A} c1 v c2 e k sc r tg (f : Z -> act W A) c3 fr m w Q :
  computes (callees e) c1 v c2 (fun sc r => rvalue H locals call sc r (c_stringID c1) e) -> k = c_stringID c1 ->
  tgt_ok tg -> into c2 tg -> scope_ok sc c1 -> noloc locals sc (callees e) -> here c1 fr -> envok tg r fr ->
  (c_nreg c1 <= c_nreg c2)%nat -> (c_nreg c2 <= c_nreg c3)%nat ->
  (forall z m1 w1 fr1, go I M tg c1 fr m w c2 fr1 m1 w1 -> operand I fr1 v = Some z -> reaches I M Nb tg c2 fr1 m1 w1 c3 (f z m1 w1) Q) ->
  reaches I M Nb tg c1 fr m w c3 (andthen (rvalue H locals call sc r k e) f m w) Q.
Proof. intros HC -> HT HIN HS HN HH HE L1 L2 K. eapply reaches_bind; [exact L1|exact L2|eapply HC; eauto|]. cbv beta. auto. Qed.
Lemma seq_L {A} c1 v c2 e k sc r tg (f : Z -> act W A) c3 fr m w Q :
  computes (callees e) c1 v c2 (fun sc r => lvalue H locals call sc r (c_stringID c1) e) -> k = c_stringID c1 ->
  tgt_ok tg -> into c2 tg -> scope_ok sc c1 -> noloc locals sc (callees e) -> here c1 fr -> envok tg r fr ->
  (c_nreg c1 <= c_nreg c2)%nat -> (c_nreg c2 <= c_nreg c3)%nat ->
  (forall z m1 w1 fr1, go I M tg c1 fr m w c2 fr1 m1 w1 -> operand I fr1 v = Some z -> reaches I M Nb tg c2 fr1 m1 w1 c3 (f z m1 w1) Q) ->
  reaches I M Nb tg c1 fr m w c3 (andthen (lvalue H locals call sc r k e) f m w) Q.
Proof. intros HC -> HT HIN HS HN HH HE L1 L2 K. eapply reaches_bind; [exact L1|exact L2|eapply HC; eauto|]. cbv beta. auto. Qed.
Lemma seq_A {A} c1 vs c2 l k sc r tg (f : list Z -> act W A) c3 fr m w Q :
  (forall tg sc r fr m w, tgt_ok tg -> into c2 tg -> scope_ok sc c1 -> noloc locals sc (calleesA l) -> here c1 fr -> envok tg r fr ->
    reaches I M Nb tg c1 fr m w c2 (rvalues H locals call sc r (c_stringID c1) l m w) (fun zs fr' => operands I fr' vs = Some zs)) -> k = c_stringID c1 ->
  tgt_ok tg -> into c2 tg -> scope_ok sc c1 -> noloc locals sc (calleesA l) -> here c1 fr -> envok tg r fr ->
  (c_nreg c1 <= c_nreg c2)%nat -> (c_nreg c2 <= c_nreg c3)%nat ->
  (forall z m1 w1 fr1, go I M tg c1 fr m w c2 fr1 m1 w1 -> operands I fr1 vs = Some z -> reaches I M Nb tg c2 fr1 m1 w1 c3 (f z m1 w1) Q) ->
  reaches I M Nb tg c1 fr m w c3 (andthen (rvalues H locals call sc r k l) f m w) Q.
Proof. intros HC -> HT HIN HS HN HH HE L1 L2 K. eapply reaches_bind; [exact L1|exact L2|eapply HC; eauto|]. cbv beta. auto. Qed.
Lemma reach_jump {A} tg c c1 b c2 c3 fr m w (o : res W A) Q : ends_block (TBr b) c c1 -> into c1 tg -> here c fr ->
  c_builder c2 = b -> cur_len c2 = 0%nat -> (c_nreg c <= c_nreg c2)%nat -> (c_nreg c2 <= c_nreg c3)%nat ->
  (forall fr1, go I M tg c fr m w c2 fr1 m w -> fr_prev fr1 = c_builder c -> reaches I M Nb tg c2 fr1 m w c3 o Q) ->
  reaches I M Nb tg c fr m w c3 o Q.
Proof.
  intros E HIN HH E1 E2 L1 L2 K.
  assert (G : go I M tg c fr m w c2 (goto_blk b fr) m w) by (eapply go_jump; eauto; eapply eb_at; eauto).
  eapply reaches_go; [| |exact G|]; try lia. apply K; auto. cbn. apply HH.
Qed.
Lemma reach_branch {A} tg c c1 v bt bf z c2 c3 fr m w (o : res W A) Q : ends_block (TCondBr v bt bf) c c1 -> into c1 tg -> here c fr ->
  operand I fr v = Some z -> c_builder c2 = (if z =? 0 then bf else bt) -> cur_len c2 = 0%nat -> (c_nreg c <= c_nreg c2)%nat -> (c_nreg c2 <= c_nreg c3)%nat ->
  (forall fr1, go I M tg c fr m w c2 fr1 m w -> reaches I M Nb tg c2 fr1 m w c3 o Q) ->
  reaches I M Nb tg c fr m w c3 o Q.
Proof.
  intros E HIN HH HV E1 E2 L1 L2 K.
  assert (G : go I M tg c fr m w c2 (goto_blk (c_builder c2) fr) m w) by (eapply go_branch; eauto; eapply eb_at; eauto).
  eapply reaches_go; [| |exact G|]; try lia. apply K; auto.
Qed.
Ltac sR := eapply seq_R; [eassumption|lia|eassumption|eassumption|eassumption|assumption|eassumption|eassumption|lia|lia|intros ? ? ? ? ? ?; vals].
Ltac sL := eapply seq_L; [eassumption|lia|eassumption|eassumption|eassumption|assumption|eassumption|eassumption|lia|lia|intros ? ? ? ? ? ?; vals].
Ltac uR := eapply use_R; [solve [intros; pure_tac]|assumption|assumption|eassumption|assumption|intros ? ? ?; facts].
Ltac nolocs := cbn [callees calleesA] in *; repeat match goal with K : noloc _ _ (_ ++ _) |- _ => apply noloc_app in K; destruct K end.
Ltac exp := apply pwp_ret; unfold EPost_; cbn [fst snd]; intos.
Ltac sim := intros tg sc r fr m w HT HIN HS HN HH HE; cbv beta; intos; nolocs.

Lemma closed_moved c c1 c2 : c_builder c1 = c_builder c -> closed c1 -> ext c1 c2 -> opened c2 -> c_builder c2 <> c_builder c.
Proof.
  intros E1 (b & t & HB & HT) HX (b2 & HB2 & HT2) K. destruct (e_blocks _ _ HX _ _ HB) as (b' & Hb' & L).
  rewrite HT in L. subst b'. rewrite E1 in Hb'. rewrite K in HB2. congruence.
Qed.

Lemma andthen_done {A} (x : act W A) m w : andthen x done m w = x m w.
Proof. unfold andthen, done. destruct (x m w); auto. Qed.
Lemma rvalue_call sc r k f args : (forall x, f <> ECallee x) -> rvalue H locals call sc r k (ECall f args) =
  andthen (rvalue H locals call sc r k f) (fun a => andthen (rvalues H locals call sc r (k + lits f) args) (fun vs => call_at H call a vs)).
Proof. destruct f; try reflexivity. intros K. destruct (K name). auto. Qed.
Lemma rvalue_direct sc r k x args : rvalue H locals call sc r k (ECall (ECallee x) args) =
  match called H locals sc r x with
  | Some p => andthen p (fun a => andthen (load_ a) (fun f => andthen (rvalues H locals call sc r k args) (fun vs => call_at H call f vs)))
  | None => andthen (rvalues H locals call sc r k args) (fun vs => call x vs)
  end.
Proof. reflexivity. Qed.
Lemma called_ext sc r x l : noloc locals sc l -> In x l -> called H locals sc r x = if inb x (sc_ext sc) then Some (done (h_addr H x)) else None.
Proof. unfold noloc, called, variable. intros K Hx. destruct locals; auto. rewrite (K eq_refl x Hx). auto. Qed.
Lemma callee_dec f : (exists x, f = ECallee x) \/ (forall x, f <> ECallee x).
Proof. destruct f; try (right; discriminate). left. eauto. Qed.
Ltac args K vs c := eapply pwp_use; [pure_tac|apply K; eauto|]; cbv beta; intros vs c (? & ? & ? & ? & ? & ? & ?).
Ltac sA := eapply seq_A; [eassumption|lia|eassumption|eassumption|eassumption|assumption|eassumption|eassumption|lia|lia|intros ? ? ? ? ? ?; vals].

Theorem gen_ok : (forall e, EOK e) /\ (forall l, AOK l).
Proof.
  apply expr_exprs_ind; unfold AOK; intros; unfold EOK; intros; cbn [wfE wfEs] in *; repeat match goal with K : _ /\ _ |- _ => destruct K end.
  - (* EInt *) cbn [gen]. exp. pose proof (quiet_refl c). facts. split; [xpost|]. sim. cbn [rvalue]. apply reaches_done; auto.
  - (* EStr *) cbn [gen]. eapply pwp_use; [pure_tac|apply P_CreateStringConstant; eauto|]. cbv beta. intros g c1 (I1 & Q1 & -> & S1). facts.
    emr. emr. exp. split; [xpost|]. sim. cbn [rvalue]. unfold done. eapply reach_quiet; eauto; [lia|]. intros HH1 G1. vals.
    ins1 (h_lit H (c_stringID c)). { cbn. rewrite Z.add_0_r. rewrite <- (lk_lit _ _ _ LK). reflexivity. }
    ins1 (h_lit H (c_stringID c)). { ops. } fin.
  - (* EVar *) cbn [gen]. apply genVar_post; auto.
  - (* ECallee *) cbn [gen]. eapply pwp_mono; [apply genCallee_post; eauto|]. cbv beta. intros [v l] c1 (X & _ & _). unfold EPost_. cbn [fst snd] in *.
    destruct l; split; auto; [split|]; unfold computes; intros; try exact Logic.I; try reflexivity.
  - (* EParen *) cbn [gen]. uR. exp. split; [xpost|]. sim. cbn [rvalue]. eauto.
  - (* EIdx *) cbn [gen]. uR. emr. uR. emr. exp. split; [xpost|split]; [sim|].
    + cbn [lvalue]. sR. 
      match goal with K : operand I ?fr ?v = Some ?z |- reaches _ _ _ _ ?c ?fr _ _ _ _ _ => ins1 z end. { ops. }
      sR. unfold done.
      match goal with |- reaches _ _ _ _ _ _ _ _ _ (Val ?z _ _) _ => ins1 z end. { ops. } fin.
    + intros. cbn [lvalue rvalue]. rewrite andthen_assoc. apply andthen_ext. intros. rewrite andthen_assoc. apply andthen_ext. intros. reflexivity.
  - (* ECall *) rewrite gen_call. destruct (callee_dec f) as [[x ->]|NC].
    + cbn [gen]. eapply pwp_use; [pure_tac|apply genCallee_post; eauto|]. cbv beta. intros [v l] c1 (X1 & Q1 & K1). cbn [fst snd] in *. facts.
      destruct l; cbn [rval].
      * destruct K1 as [K1 ->]. emr. args H1 vs c2. intos.
        eapply pwp_use; [pure_tac|apply doCall_post; [eauto|auto|vw|auto|discriminate]|]. cbv beta. intros res c3 (X3 & _ & K3). facts.
        exp. split; [xpost|]. sim. rewrite rvalue_direct.
        match goal with K : noloc _ _ [_] |- _ => rewrite (called_ext _ _ x _ K) by (cbn; auto) end. pose proof (proj2 HS) as ES. rewrite ES, K1. unfold andthen at 1. unfold done at 1. unfold andthen at 1.
        unfold load_ at 1. destruct (load m (h_addr H x)) as [f|] eqn:EL; [|exact Logic.I].
        eapply reach_quiet; eauto; [lia|]. intros HH1 G1. vals.
        ins1 f. { cbn [plain operand]. rewrite (lk_addr _ _ _ LK), EL. reflexivity. }
        sA. eapply K3; eauto.
      * destruct K1 as (b & k & ->). apply pwp_bind; [auto with pure|]. apply pwp_ret. args H1 vs c2. intos.
        eapply pwp_use; [pure_tac|apply doCall_post; [eauto|auto|exact Logic.I|auto|fns]|].
        cbv beta. intros res c3 (X3 & K3 & _). facts.
        exp. split; [xpost|]. sim. rewrite rvalue_direct.
        match goal with K : noloc _ _ [_] |- _ => rewrite (called_ext _ _ x _ K) by (cbn; auto) end.
        destruct (inb x (sc_ext sc)) eqn:EX.
        { exfalso. pose proof (proj2 HS) as ES. rewrite ES, inb_assoc in EX. destruct (assoc x (c_globals c)) as [[full arr]|] eqn:EG; [|discriminate].
          assert (II0 : II V P c) by auto. destruct (ii_glob _ _ _ II0 _ _ _ EG) as [-> GI]. 
          assert (INC : into c tg) by auto. apply (proj1 HT (globalName x)); [eapply in_gn; eauto|]. 
          assert (IN1 : into c1 tg) by auto. eapply in_fn; [exact IN1|]. match goal with F : forall g b0 k0, VFun (globalName x) _ _ = VFun g b0 k0 -> In g (fnames c1) /\ _ |- _ => exact (proj1 (F _ _ _ eq_refl)) end. }
        eapply reach_quiet; eauto; [lia|]. intros HH1 G1. vals.
        sA. eapply K3; eauto.
    + uR. args H1 vs c2. intos.
      eapply pwp_use; [pure_tac|apply doCall_post; [eauto|auto|vw|auto|fns]|].
      cbv beta. intros res c3 (X3 & _ & K3). facts.
      exp. split; [xpost|]. sim. rewrite rvalue_call by auto. sR. sA. eapply K3; eauto.
  - (* EPost *) cbn [gen]. eapply pwp_use; [pure_tac|apply H0; eauto|]. cbv beta. intros [v l] c1 K. unfold EPost_ in K. cbn [fst snd] in K.
    destruct l; [|apply pwp_err]. facts. eapply pwp_use; [pure_tac|apply incDec_post; eauto|]. cbv beta. intros cur c2 [X2 K2]. facts.
    exp. split; [xpost|]. sim. cbn [rvalue]. sL. eapply reaches_bind; [| |eapply K2; eauto|]; try lia. cbv beta. intros [o n'] m2 w2 fr2 G2 [K3 K4]. vals.
    apply reaches_done; auto.
  - (* EPre *) cbn [gen]. eapply pwp_use; [pure_tac|apply H0; eauto|]. cbv beta. intros [v l] c1 K. unfold EPost_ in K. cbn [fst snd] in K.
    destruct l; [|apply pwp_err]. facts. eapply pwp_use; [pure_tac|apply incDec_post; eauto|]. cbv beta. intros cur c2 [X2 K2]. facts.
    exp. split; [xpost|split]; [sim|].
    + cbn [lvalue]. sL. eapply reaches_bind; [| |eapply K2; eauto|]; try lia. cbv beta. intros [o n'] m2 w2 fr2 G2 [K3 K4]. vals.
      apply reaches_done; auto.
    + intros. cbn [lvalue rvalue]. rewrite andthen_assoc. apply andthen_ext. intros. rewrite andthen_assoc. rewrite step_by_load; auto.
  - (* ENot *) cbn [gen]. uR. unfold cmpz. 
    apply pwp_bind; [pure_tac|]. emr. eml. exp. split; [xpost|]. sim. cbn [rvalue]. sR. unfold done.
    match goal with |- reaches _ _ _ _ _ _ _ _ _ (Val ?z _ _) _ => ins1 z; [ops|ins1 z; [ops|fin]] end.
  - (* ENeg *) cbn [gen]. uR. emr. exp. split; [xpost|]. sim. cbn [rvalue]. sR. unfold done.
    match goal with |- reaches _ _ _ _ _ _ _ _ _ (Val ?z _ _) _ => ins1 z; [ops|fin] end.
  - (* EDeref *) cbn [gen]. uR. emr. exp. split; [xpost|split]; [sim|].
    + cbn [lvalue]. rewrite <- andthen_done. sR. unfold done.
      match goal with |- reaches _ _ _ _ _ _ _ _ _ (Val ?z _ _) _ => ins1 z; [ops|fin] end.
    + intros. cbn [lvalue rvalue]. reflexivity.
  - (* EAddr *) cbn [gen]. eapply pwp_use; [pure_tac|apply H0; eauto|]. cbv beta. intros [v l] c1 K. unfold EPost_ in K. cbn [fst snd] in K.
    destruct l; [|apply pwp_err]. facts. emr. exp. split; [xpost|]. sim. cbn [rvalue]. rewrite <- andthen_done. sL. unfold done.
    match goal with |- reaches _ _ _ _ _ _ _ _ _ (Val ?z _ _) _ => ins1 z; [ops|fin] end.
  - (* EBin *) cbn [gen]. uR. uR. intos. eapply pwp_use; [pure_tac|apply applyCop_post; eauto; vw|]. cbv beta. intros x c3 [X3 K3]. facts.
    exp. split; [xpost|]. sim. cbn [rvalue]. sR. sR. eapply K3; eauto.
  - (* ECond *) cbn [gen]. uR.
    eapply pwp_use; [pure_tac|apply P_nextLabelID; eauto|]. cbv beta. intros id c2 (I2 & Q2 & S2 & _).
    eapply pwp_use; [pure_tac|apply P_NewBlock; eauto|]. cbv beta. intros b1 c3 (I3 & M3 & N3 & _).
    eapply pwp_use; [pure_tac|apply P_NewBlock; eauto|]. cbv beta. intros b2 c4 (I4 & M4 & N4 & _).
    eapply pwp_use; [pure_tac|apply P_NewBlock; eauto|]. cbv beta. intros b3 c5 (I5 & M5 & N5 & _). facts.
    eapply use_emitR; [solve [intros; pure_tac]|eassumption|eassumption|]. intros c6 I6 E6 NR6. facts.
    eapply pwp_use; [pure_tac|apply P_setTerm; eauto|]. cbv beta. intros [] c7 (I7 & E7). facts.
    eapply pwp_use; [pure_tac|eapply (P_insert V _ (b3 :: b2 :: P)); eauto; [cbn; auto|cbn; intuition|intros x; cbn; intuition|cbn; cbn in N4, N5; intuition]|].
    cbv beta. intros [] c8 (I8 & M8). facts.
    eapply use_R; [solve [intros; pure_tac]|assumption|assumption|eassumption|assumption|]. intros vt c9 R9. facts.
    apply pwp_bind; [auto with pure|]. apply pwp_GetInsertBlock.
    eapply pwp_use; [pure_tac|apply P_setTerm; eauto|]. cbv beta. intros [] c10 (I10 & E10). facts.
    eapply pwp_use; [pure_tac|eapply (P_insert V _ (b3 :: P)); eauto; [cbn; auto|cbn; intuition|intros x; cbn; intuition|cbn; cbn in N4, N5; intuition]|].
    cbv beta. intros [] c11 (I11 & M11). facts.
    eapply use_R; [solve [intros; pure_tac]|assumption|assumption|eassumption|assumption|]. intros ve c12 R12. facts.
    apply pwp_bind; [auto with pure|]. apply pwp_GetInsertBlock.
    eapply pwp_use; [pure_tac|apply P_setTerm; eauto|]. cbv beta. intros [] c13 (I13 & E13). facts.
    eapply pwp_use; [pure_tac|eapply (P_insert V _ P); eauto; [cbn; auto|cbn; intuition|intros x; cbn; intuition|cbn; cbn in N4, N5; intuition]|].
    cbv beta. intros [] c14 (I14 & M14). facts.
    eapply use_emitR; [solve [intros; pure_tac]|eassumption|eassumption|]. intros c15 I15 E15 NR15. facts.
    exp.
    assert (NB : c_builder c12 <> c_builder c9) by (eapply (closed_moved c9 c10 c12); [apply E10|assumption|extc|assumption]).
    split; [xpost|]. sim. cbn [rvalue]. sR.
    eapply reach_quiet; eauto; [lia|]. intros ? ?. vals.
    eapply (reach_makes tg b1); eauto; [lia|]. intros ?. vals.
    eapply (reach_makes tg b2); eauto; [lia|]. intros ?. vals.
    eapply (reach_makes tg b3); eauto; [lia|]. intros ?. vals.
    ins1 (compared PNE z 0). { ops. }
    destruct (z =? 0) eqn:EZ.
    + eapply (reach_branch tg c6 c7 _ b1 b2 _ c11); eauto; try lia.
      { unfold compared. rewrite EZ. apply M11. }
      { apply M11. }
      intros ? ?. vals. rewrite <- andthen_done. sR.
      eapply (reach_jump tg c12 c13 b3 c14); eauto; try lia. { apply M14. } { apply M14. }
      intros ? ? EP. vals. unfold done.
      match goal with |- reaches _ _ _ _ _ _ _ _ _ (Val ?z _ _) _ => ins1 z end.
      { cbn [plain incoming]. rewrite EP. rewrite (proj2 (Nat.eqb_neq _ _)) by auto. rewrite Nat.eqb_refl. ops. }
      fin.
    + eapply (reach_branch tg c6 c7 _ b1 b2 _ c8); eauto; try lia.
      { unfold compared. rewrite EZ. apply M8. }
      { apply M8. }
      intros ? ?. vals. rewrite <- andthen_done. sR.
      eapply (reach_jump tg c9 c10 b3 c14); eauto; try lia. { apply M14. } { apply M14. }
      intros ? ? EP. vals. unfold done.
      match goal with |- reaches _ _ _ _ _ _ _ _ _ (Val ?z _ _) _ => ins1 z end.
      { cbn [plain incoming]. rewrite EP. rewrite Nat.eqb_refl. ops. }
      fin.
  - (* EAsg *) cbn [gen]. eapply pwp_use; [pure_tac|apply H0; eauto|]. cbv beta. intros [v l] c1 K. unfold EPost_ in K. cbn [fst snd] in K.
    destruct l; [|apply pwp_err]. facts. uR. destruct op as [op|].
    + emr. intos. eapply pwp_use; [pure_tac|apply applyCop_post; eauto; vw|]. cbv beta. intros x c3 [X3 K3]. facts.
      em. exp. split; [xpost|]. sim. cbn [rvalue]. sL. sR.
      unfold load_ at 1. unfold andthen at 1. 
      match goal with |- context [load ?m ?a] => destruct (load m a) as [old|] eqn:EL; [|exact Logic.I] end.
      ins1 old. { ops. rewrite EL. reflexivity. }
      eapply reaches_bind; [| |eapply K3; eauto|]; try lia. cbv beta. intros new m9 w9 fr9 G9 V9. vals.
      unfold andthen, store_, done. destruct (store _ _ _) as [m3|] eqn:ES; [|exact Logic.I].
      eff1. { ops. rewrite ES. reflexivity. } fin.
    + em. exp. split; [xpost|]. sim. cbn [rvalue]. sL. sR.
      unfold andthen, store_, done. destruct (store _ _ _) as [m3|] eqn:ES; [|exact Logic.I].
      eff1. { ops. rewrite ES. reflexivity. } fin.
  - (* ENil *) cbn [genArgs]. apply pwp_ret. pose proof (quiet_refl c). facts. unfold APost. repeat (split; [solve [auto; cbn; lia]|]). sim. cbn [rvalues]. apply reaches_done; auto.
  - (* ECons *) rewrite genArgs_cons. uR. args H1 vs c2. intos. apply pwp_ret. unfold APost.
    split; [auto|split; [auto|split; [extc|split; [statc|split; [constructor; [vw|auto]|split; [cbn [litsA]; lia|]]]]]].
    sim. cbn [rvalues]. sR. sA. apply reaches_done; auto. cbn [operands].
    repeat match goal with K : operand _ _ _ = Some _ |- _ => rewrite K end.
    repeat match goal with K : operands _ _ _ = Some _ |- _ => rewrite K end. auto.
Qed.

Theorem genR_ok e q V P c : wfE e -> II V P c -> opened c -> pwp (genR chk q e) (RPost V P e c) c.
Proof.
  intros HW HI HO. unfold genR. eapply pwp_use; [pure_tac|apply (proj1 gen_ok e HW); eauto|]. cbv beta. intros [v l] c' HX.
  exact (rval_post V P e c (v, l) c' HI HX).
Qed.
End Expr.

(** * SimBody: all statements *)
From Coq Require Import List Ascii String ZArith NArith Lia Bool.
From Verif Require Import Base Lexer IR Builder Expr Stmt Decl DriverModes Wp Syntax SpecTree Pure ParseGen Pwp Names InvIR InvDecl InvNames Built InvTerm SpecSem IRSem SpecLink SemFacts SimBase SimExpr SimStmt SimAuto.
Import ListNotations.
Open Scope string_scope.
Open Scope list_scope.
Open Scope Z_scope.
Open Scope m_scope.

Record externs (V : string -> Prop) (P : list nat) (l : list string) (c c' : cstate) : Prop := {
  ex_ii : II V P c';
  ex_ext : ext c c';
  ex_blocks : c_blocks c' = c_blocks c;
  ex_builder : c_builder c' = c_builder c;
  ex_sid : c_stringID c' = c_stringID c;
  ex_loc : c_locals c' = c_locals c;
  ex_glob : map fst (c_globals c') = rev l ++ map fst (c_globals c)
}.
Lemma externName_post V P x c : II V P c -> pwp (externName x) (fun _ c' => externs V P [x] c c') c.
Proof.
  intros HI. unfold externName. apply pwp_bind; [auto with pure|]. apply pwp_get.
  destruct (findGlobalByName c x) as [g|] eqn:EG.
  - apply find_named_In in EG. destruct EG as [G1 G2].
    apply pwp_modify. constructor; auto.
    + destruct HI. constructor; auto; [eapply TI_same; [|eassumption]; repeat split|].
      intros y full a. cbn. destruct (String.eqb_spec y x); [|apply ii_glob]. intros K. injection K as <- <-. subst y. split; auto.
      apply in_map. auto.
    + constructor; auto using extB_refl, incl_refl; cbn; lia.
  - destruct (findFuncByName c x); [apply pwp_err|]. destruct (mem x (c_used c)); [apply pwp_err|]. cbv zeta. apply pwp_modify.
    match goal with |- externs _ _ _ _ ?c' => assert (GN : incl (gnames c) (gnames c') /\ In (globalName x) (gnames c')) end.
    { unfold gnames. cbn. rewrite map_app. split; [apply incl_appl, incl_refl|apply in_or_app; cbn; auto]. }
    destruct GN as [GN GI]. constructor; auto.
    + destruct HI. constructor; auto; [eapply TI_same; [|eassumption]; repeat split|].
      intros y full a. cbn [c_globals bind_global set_globals newGlobalDef set_mglobals assoc fst snd]. destruct (String.eqb_spec y x).
      * intros K. injection K as <- <-. subst y. auto.
      * intros K. destruct (ii_glob y full a K). split; auto.
    + constructor; auto using extB_refl, incl_refl; cbn; lia.
Qed.
Lemma genExtrn_post V P l : forall c, II V P c -> pwp (genExtrn l) (fun _ c' => externs V P l c c') c.
Proof.
  induction l as [|x l IH]; intros c HI; cbn [genExtrn].
  - apply pwp_ret. constructor; auto using ext_refl.
  - eapply pwp_use; [pure_tac|apply externName_post; eauto|]. cbv beta. intros [] c1 E1.
    eapply pwp_mono; [apply IH; apply E1|]. cbv beta. intros [] c2 E2. destruct E1, E2. constructor; auto; try congruence.
    + eapply ext_trans; eauto.
    + rewrite ex_glob1, ex_glob0. cbn. rewrite <- app_assoc. auto.
Qed.
Lemma switchCases_post V P id vals : forall c, II V P c -> (forall z, In z vals -> V (case_name id z)) ->
  pwp (switchCases id vals) (fun l c' => c' = c /\ map fst l = vals /\ forall z b, In (z, b) l -> assoc (case_name id z) (c_labels c) = Some b) c.
Proof.
  induction vals as [|z vals IH]; intros c HI HV; cbn [switchCases]; [apply pwp_ret; cbn; auto; split; auto; split; auto; contradiction|].
  eapply (pwp_use _ _ (fun b c' => c' = c /\ assoc (case_name id z) (c_labels c) = Some b)); [pure_tac| |].
  - unfold GetOrCreateLabel. apply pwp_bind; [auto with pure|]. apply pwp_get.
    change ("case." ++ dec id ++ "." ++ dec z)%string with (case_name id z).
    destruct (assoc _ (c_labels c)) eqn:E; [apply pwp_ret; auto|]. exfalso. apply (TI_visited _ _ _ (ii_ti _ _ _ HI) (case_name id z)); auto.
    apply HV. cbn. auto.
  - cbv beta. intros b c' [-> HB]. eapply pwp_use; [pure_tac|apply IH; auto; intros; apply HV; cbn; auto|]. cbv beta. intros bs c' (-> & K1 & K2).
    apply pwp_ret. split; auto. split; [cbn; congruence|]. intros y b' [E|K]; auto. injection E as <- <-. auto.
Qed.
Lemma choose_in z d l : In z (map fst l) -> exists b, In (z, b) l /\ choose z d l = b.
Proof.
  induction l as [|[y b] l IH]; cbn; [tauto|]. intros K. destruct (Z.eqb_spec z y) as [->|N].
  - exists b. auto.
  - destruct K as [E|K]; [congruence|]. destruct (IH K) as (b' & K1 & K2). exists b'. auto.
Qed.
Lemma choose_out z d l : ~ In z (map fst l) -> choose z d l = d.
Proof. induction l as [|[y b] l IH]; cbn; auto. intros K. destruct (Z.eqb_spec z y) as [->|N]; [tauto|]. apply IH. tauto. Qed.
Lemma existsb_eqb z l : existsb (Z.eqb z) l = true <-> In z l.
Proof. rewrite existsb_exists. split; [intros (y & K & E); apply Z.eqb_eq in E; subst; auto|intros K; exists z; split; auto; apply Z.eqb_refl]. Qed.

Ltac know P := let T := type of P in lazymatch goal with | _ : T |- _ => fail | _ => pose proof P end.
Ltac facts := repeat match goal with
  | E : emits _ _ _ |- _ => know (em_ext _ _ _ E)
  | E : emits _ _ _ |- _ => know (em_stat _ _ _ E)
  | E : emits _ _ _ |- _ => know (em_open _ _ _ E)
  | E : emits _ _ _ |- _ => know (em_sid _ _ _ E)
  | E : quiet _ _ |- _ => know (qt_ext _ _ E)
  | E : quiet _ _ |- _ => know (qt_stat _ _ E)
  | E : quiet _ _ |- _ => know (qt_nreg _ _ E)
  | E : quiet ?a ?b, O : opened ?a |- _ => know (quiet_open _ _ E O)
  | E : quiet ?a ?b, O : closed ?a |- _ => know (quiet_closed _ _ E O)
  | E : ends_block _ _ _ |- _ => know (eb_ext _ _ _ E)
  | E : ends_block _ _ _ |- _ => know (eb_stat _ _ _ E)
  | E : ends_block _ _ _ |- _ => know (eb_closed _ _ _ E)
  | E : ends_block _ _ _ |- _ => know (eb_sid _ _ _ E)
  | E : ends_block _ _ _ |- _ => know (eb_nreg _ _ _ E)
  | E : makes _ _ _ |- _ => know (mk_ext _ _ _ E)
  | E : makes _ _ _ |- _ => know (mk_stat _ _ _ E)
  | E : makes _ _ _ |- _ => know (mk_sid _ _ _ E)
  | E : makes _ _ _ |- _ => know (mk_nreg _ _ _ E)
  | E : makes _ ?a _, O : opened ?a |- _ => know (mk_open _ _ _ E O)
  | E : makes _ ?a _, O : closed ?a |- _ => know (mk_closed _ _ _ E O)
  | E : moves _ _ _ |- _ => know (mv_ext _ _ _ E)
  | E : moves _ _ _ |- _ => know (mv_stat _ _ _ E)
  | E : moves _ _ _ |- _ => know (mv_open _ _ _ E)
  | E : moves _ _ _ |- _ => know (mv_sid _ _ _ E)
  | E : moves _ _ _ |- _ => know (mv_nreg _ _ _ E)
  | E : labels_as _ _ _ _ |- _ => know (la_ext _ _ _ _ E)
  | E : labels_as _ _ _ _ |- _ => know (la_stat _ _ _ _ E)
  | E : labels_as _ _ _ _ |- _ => know (la_sid _ _ _ _ E)
  | E : labels_as _ _ _ _ |- _ => know (la_nreg _ _ _ _ E)
  | E : labels_as _ _ ?a _, O : opened ?a |- _ => know (la_open _ _ _ _ E O)
  | E : labels_as _ _ ?a _, O : closed ?a |- _ => know (la_closed _ _ _ _ E O)
  | E : bridges _ _ _ |- _ => know (br_ext _ _ _ E)
  | E : bridges _ _ _ |- _ => know (br_stat _ _ _ E)
  | E : bridges _ _ _ |- _ => know (br_sid _ _ _ E)
  | E : bridges _ _ _ |- _ => know (br_nreg _ _ _ E)
  | E : bridges _ _ _ |- _ => know (br_closed _ _ _ E)
  | E : bridges _ ?a _, O : opened ?a |- _ => know (br_end _ _ _ E O)
  | E : XPost _ _ _ _ _ _ |- _ => know (x_ii _ _ _ _ _ _ E)
  | E : XPost _ _ _ _ _ _ |- _ => know (x_ext _ _ _ _ _ _ E)
  | E : XPost _ _ _ _ _ _ |- _ => know (x_stat _ _ _ _ _ _ E)
  | E : XPost _ _ _ _ _ _ |- _ => know (x_open _ _ _ _ _ _ E)
  | E : XPost _ _ _ _ _ _ |- _ => know (x_sid _ _ _ _ _ _ E)
  | E : SX _ _ _ _ _ _ _ _ _ _ _ _ |- _ => know (sx_ii _ _ _ _ _ _ _ _ _ _ _ _ E)
  | E : SX _ _ _ _ _ _ _ _ _ _ _ _ |- _ => know (sx_ext _ _ _ _ _ _ _ _ _ _ _ _ E)
  | E : SX _ _ _ _ _ _ _ _ _ _ _ _ |- _ => know (sx_sid _ _ _ _ _ _ _ _ _ _ _ _ E)
  end.
Ltac extc := match goal with |- ext ?a ?b => first [assumption | match goal with E : ext a ?x |- _ => apply (ext_trans a x b E); extc end] end.
Ltac statc := match goal with |- stat ?a ?b => first [apply stat_refl | assumption | match goal with E : stat a ?x |- _ => apply (stat_trans a x b E); statc end] end.
Ltac intos := repeat match goal with
  | K : into ?b ?tg, E : ext ?a ?b |- _ => know (into_ext a b tg E K)
  | K : scope_ok ?sc ?a, E : stat ?a ?b |- _ => know (scope_ok_stat sc a b E K)
  end.
Ltac ids := repeat match goal with E : ext ?a ?b |- _ => know (e_id _ _ E) end.
Lemma grown_nil sw : sw = grown sw [].
Proof. destruct sw as [[id vals]|]; cbn; auto. rewrite app_nil_r. auto. Qed.
Lemma SX_wrap V V1 P1 P b n n1 lbls cs1 aft sw1 sw1' sw c ca cb c' :
  SX V V1 P1 b n1 lbls cs1 aft sw1 ca sw1' cb -> ext c ca -> ext cb c' -> stat c ca -> stat cb c' -> II V1 P c' -> opened c' ->
  c_stringID c' = c_stringID c + n -> (forall id vals, sw1 = Some (id, vals) -> c_labelID c <= id < c_labelID ca) ->
  SX V V1 P false n lbls [] aft sw c sw c'.
Proof.
  intros [] E1 E2 S1 S2 HI HO HS HW. pose proof (e_id _ _ E1). pose proof (e_id _ _ E2). pose proof (e_id _ _ sx_ext). constructor; auto.
  - eapply ext_trans; [exact E1|]. eapply ext_trans; eauto.
  - apply grown_nil.
  - cbn. tauto.
  - intros x K. destruct (sx_new x K) as [L|[L|[(id & vals & z & -> & Hz & ->)|(id & z & -> & L)]]]; auto.
    + right. right. right. exists id, z. split; auto. specialize (HW _ _ eq_refl). lia.
    + right. right. right. exists id, z. split; auto. lia.
  - intros sc K. eapply scope_ok_stat; [exact S2|]. apply sx_scope. eapply scope_ok_stat; eauto.
Qed.
(** A statement without labels. *)
Lemma SX_plain V P (b : bool) n aft sw c c' : II V P c' -> (if b then closed c' else opened c') -> ext c c' -> c_stringID c' = c_stringID c + n ->
  (forall sc, scope_ok sc c -> scope_ok (aft sc) c') -> SX V V P b n [] [] aft sw c sw c'.
Proof. intros. constructor; auto; [apply grown_nil|cbn; tauto]. Qed.
(** A label in front. *)
Lemma SX_label V V' P b n l cs l0 cs0 aft sw0 sw x sw' c c3 c' :
  SX (fun m => V m \/ m = x) V' P b n l cs aft sw0 c3 sw' c' -> ext c c3 -> stat c c3 -> c_stringID c3 = c_stringID c ->
  (l0 = [x] /\ cs0 = [] /\ sw0 = sw) \/ (exists id vals z, l0 = [] /\ cs0 = [z] /\ x = case_name id z /\ sw = Some (id, vals) /\ sw0 = Some (id, vals ++ [z])) ->
  SX V V' P b n (l0 ++ l) (cs0 ++ cs) aft sw c sw' c'.
Proof.
  intros [] E S HS HL. pose proof (e_id _ _ E). pose proof (e_id _ _ sx_ext). constructor; auto.
  - eapply ext_trans; eauto.
  - congruence.
  - destruct HL as [(-> & -> & ->)|(id & vals & z & -> & -> & -> & -> & ->)]; auto. rewrite sx_sw. cbn. rewrite <- app_assoc. auto.
  - intros id vals z E1 Hz. destruct HL as [(-> & -> & ->)|(id' & vals' & z' & -> & -> & -> & -> & ->)].
    + eapply sx_case; eauto.
    + injection E1 as -> ->. destruct Hz as [->|Hz]; [apply sx_mono; auto|eapply sx_case; eauto].
  - intros y K. destruct (sx_new y K) as [[L|L]|[L|[(id & vals & z & E1 & Hz & ->)|(id & z & -> & L)]]]; auto.
    + destruct HL as [(-> & -> & ->)|(id & vals & z & -> & -> & -> & -> & ->)].
      * right. left. left. auto.
      * right. right. left. exists id, vals, z. split; auto. split; auto. left. auto.
    + right. left. apply in_or_app. auto.
    + right. right. left. destruct HL as [(-> & -> & ->)|(id' & vals' & z' & -> & -> & -> & -> & ->)].
      * exists id, vals, z. auto.
      * injection E1 as -> <-. exists id, vals', z. split; auto. split; auto. right. auto.
    + right. right. right. exists id, z. split; auto. lia.
  - intros sc K. apply sx_scope. eapply scope_ok_stat; eauto.
Qed.
Lemma fresh_label V sw c c3 x l cs : fresh_for V sw c (x :: l) cs -> c_labelID c <= c_labelID c3 ->
  ~ V x /\ fresh_for (fun m => V m \/ m = x) sw c3 l cs.
Proof.
  intros (K1 & K2 & K3 & K4 & K5) L. inversion K1; inversion K2; subst. assert (ND : nodot x) by (apply nodot_name; auto).
  split; [apply K3; cbn; auto|]. split; auto. split; auto. split.
  - intros y Hy [K|K]; [apply (K3 y); cbn; auto|subst; auto].
  - split.
    + destruct sw as [[id vals]|]; auto. destruct K4 as (A & B & D). split; auto. split; [|lia]. intros z Hz [K|K]; [apply (B z); auto|].
      apply (case_name_dot id z). rewrite K. auto.
    + intros id z [K|K]; [specialize (K5 id z K); lia|]. destruct (case_name_dot id z). rewrite K. auto.
Qed.
Lemma fresh_case V id vals c c3 z l cs : fresh_for V (Some (id, vals)) c l (z :: cs) -> c_labelID c <= c_labelID c3 ->
  ~ V (case_name id z) /\ fresh_for (fun m => V m \/ m = case_name id z) (Some (id, vals ++ [z])) c3 l cs.
Proof.
  intros (K1 & K2 & K3 & (A & B & D) & K5) L. inversion A; subst. split; [apply B; cbn; auto|]. split; auto. split; auto. split.
  - intros y Hy [K|K]; [apply (K3 y); auto|]. subst y. rewrite Forall_forall in K2. apply (case_name_dot id z), nodot_name. auto.
  - split.
    + split; auto. split; [|lia]. intros y Hy [K|K]; [apply (B y); cbn; auto|]. apply case_name_inj in K. destruct K as [_ ->]. auto.
    + intros i y [K|K]; [specialize (K5 i y K); lia|]. apply case_name_inj in K. destruct K as [-> _]. lia.
Qed.
Lemma fresh_switch V sw c c1 lbls cs0 cs : fresh_for V sw c lbls cs0 -> NoDup cs -> c_labelID c < c_labelID c1 ->
  fresh_for V (Some (c_labelID c, [])) c1 lbls cs.
Proof.
  intros (K1 & K2 & K3 & K4 & K5) ND L. split; auto. split; auto. split; auto. split.
  - split; auto. split; [|lia]. intros z _ K. specialize (K5 _ _ K). lia.
  - intros id z K. specialize (K5 _ _ K). lia.
Qed.

Section Body.
Context {W : Type}.
Variable H : host W.
Variable I : ihost W.
Variable M : module_.
Variable locals : bool.
Variable call : string -> list Z -> act W Z.
Variable Nb : nat.
Hypothesis LK : linked H I M.
Hypothesis CALL : forall x args m w,
  match call x args m w with
  | Val z m' w' => icall I M (globalName x) args m w (XRet z m' w')
  | Halt z w' => icall I M (globalName x) args m w (XExit z w')
  | Stuck => True
  | Limit => busy I M Nb (globalName x) args m w
  end.
Variable chk : bool.
Variable fuel : nat.
Hypothesis FUEL : (Nb <= fuel)%nat.
Notation leaves := (leaves I M Nb).

(** Joining another branch at [c']. *)
Lemma leaves_join tg c c1 c' b o fr m w : leaves tg c o fr m w -> bridges b c c1 -> into c1 tg -> moves b c1 c' \/ (c_builder c' = b /\ cur_len c' = 0%nat /\ opened c') ->
  leaves tg c' o fr m w.
Proof.
  intros K B HIN HM. assert (HM' : c_builder c' = b /\ cur_len c' = 0%nat /\ opened c') by (destruct HM as [[]|]; auto).
  destruct HM' as (E1 & E2 & E3). destruct o as [[[|l|z|] r'] m' w'|z w'| |]; auto.
  destruct K as (fr1 & S1 & H1 & O1 & V1). eapply leaves_steps; [exact S1|].
  eapply leaves_jump; [apply (br_end _ _ _ B O1)|exact HIN|exact H1|exact E1|exact E2|exact V1|].
  intros fr2 H2 V2. apply leaves_fall; auto.
Qed.
Lemma leaves_quiet tg c c' o fr m w : leaves tg c o fr m w -> c_builder c' = c_builder c -> cur_len c' = cur_len c -> (opened c -> opened c') -> leaves tg c' o fr m w.
Proof.
  intros K E1 E2 E3. destruct o as [[[|l|z|] r'] m' w'|z w'| |]; auto. destruct K as (fr1 & S1 & H1 & O1 & V1). exists fr1.
  split; auto. split; auto. eapply here_same; eauto.
Qed.

Lemma use_R {B} (f : value -> C B) e V P (Q : B -> cstate -> Prop) c : (forall v, pure (f v)) -> wfE e -> II V P c -> opened c ->
  (forall v c', RPost H I M locals call Nb V P e c v c' -> pwp (f v) Q c') -> pwp (bind (genR chk false e) f) Q c.
Proof. intros HP HW HI HO K. eapply pwp_use; [pure_tac|apply (genR_ok H I M locals call Nb LK CALL chk); eauto|]. auto. Qed.
Ltac sR v c X R := eapply use_R; [solve [intros; pure_tac]|eassumption|eassumption|eassumption|intros v c [X R]; facts].
Ltac sid id c := eapply pwp_use; [solve [pure_tac]|eapply P_nextLabelID; eassumption|cbv beta; intros id c (? & ? & ? & ? & ?); facts].
Ltac snew b c := eapply pwp_use; [solve [pure_tac]|eapply P_NewBlock; eassumption|cbv beta; intros b c (? & ? & ? & ?); facts].
Ltac sem c := eapply use_emitR; [solve [intros; pure_tac]|eassumption|eassumption|intros c ? ? ?; facts].
Ltac sterm c := eapply pwp_use; [solve [pure_tac]|eapply P_setTerm; eassumption|cbv beta; intros ? c (? & ?); facts].
Ltac sbr c := eapply pwp_use; [solve [pure_tac]|eapply P_brIfOpen; eassumption|cbv beta; intros ? c (? & ?); facts].
Ltac sins P' c := eapply pwp_use; [solve [pure_tac]|eapply (P_insert _ _ P'); [eassumption|eassumption| | | |]; solve [cbn in *; intuition congruence | cbn in *; intros ? ?; cbn in *; intuition congruence]|cbv beta; intros ? c (? & ?); facts].

Ltac sbody IH sw0 V1 c S R := eapply pwp_use; [solve [pure_tac]|eapply (IH) with (b := false) (sw := sw0); [eassumption|eassumption|eassumption|eassumption|eassumption|]|cbv beta; intros ? c (V1 & S & R); facts].
Ltac fin V1 := apply pwp_ret; exists V1; intos; ids; split.
Definition SPost V P b s sw c sw' c' : Prop := exists V', SX V V' P (ends b s) (litsS s) (labels s) (cases s) (fun sc => after sc s) sw c sw' c' /\
    runs I M Nb (fun sc k t r => exec H locals call fuel sc k s t r) (labels s) (cases s) (fun sc => direct locals sc s) sw c c'.


(** From here to where the code of the condition has tested [z <> 0]. *)
Lemma leaves_test Kb V P P2 tg e c v c1 c2 c3 c4 bt bf k sc r (f : Z -> act W (flow * env)) cT cF c' fr m w : (Kb <= Nb)%nat ->
  RPost H I M locals call Nb V P e c v c1 -> k = c_stringID c -> II V P c -> c_builder c2 = c_builder c1 -> cur_len c2 = cur_len c1 ->
  II V P2 c2 ->
  emits (ICmp (c_nreg c2) PNE v (VInt 0)) c2 c3 -> c_nreg c3 = S (c_nreg c2) -> ends_block (TCondBr (VReg (c_nreg c2)) bt bf) c3 c4 ->
  tgt_ok I tg -> into c1 tg -> into c3 tg -> into c4 tg -> scope_ok sc c -> noloc locals sc (callees e) -> here c fr -> envok tg r fr ->
  c_builder cT = bt -> cur_len cT = 0%nat -> c_builder cF = bf -> cur_len cF = 0%nat ->
  (forall z m1 w1 fr1, z <> 0 -> here cT fr1 -> envok tg r fr1 -> SimStmt.leaves I M Kb tg c' (f z m1 w1) fr1 m1 w1) ->
  (forall m1 w1 fr1, here cF fr1 -> envok tg r fr1 -> SimStmt.leaves I M Kb tg c' (f 0 m1 w1) fr1 m1 w1) ->
  SimStmt.leaves I M Kb tg c' (andthen (rvalue H locals call sc r k e) f m w) fr m w.
Proof.
  intros HL [X R] HK HI B2 L2 I2 E3 N3 E4 HT IN1 IN3 IN4 HSC HN HH HV BT LT BF LF KT KF.
  eapply leaves_R; [exact HL|exact R|exact HK|exact HI|exact X|exact HT|exact IN1|exact HSC|exact HN|exact HH|exact HV|].
  intros z m1 w1 fr1 H1 V1 O1.
  eapply leaves_def with (z := if ir_cmp PNE z 0 then 1 else 0); [exact E3|exact N3|exact IN3|eapply here_same; [exact B2|exact L2|exact H1]|exact I2|exact V1| |].
  { cbn [plain operand]. rewrite O1. reflexivity. }
  intros fr2 H2 V2 O2. cbn in O2. destruct (Z.eqb_spec z 0) as [->|NZ]; cbn in O2.
  - eapply (leaves_branch I M Kb) with (c2 := cF); [exact E4|exact IN4|exact H2|exact O2|exact BF|exact LF|exact V2|]. intros. apply KF; auto.
  - eapply (leaves_branch I M Kb) with (c2 := cT); [exact E4|exact IN4|exact H2|exact O2|exact BT|exact LT|exact V2|]. intros. apply KT; auto.
Qed.
Ltac start_run tg sc r fr m w t HT HIN HSC HD HA HE HV := intros tg sc r fr m w t HT HIN HSC HD HA HE HV; intos.
Ltac chain := solve [repeat match goal with E : quiet _ _ |- _ => know (qt_builder _ _ E); know (quiet_len _ _ E) | E : makes _ _ _ |- _ => know (mk_builder _ _ _ E); know (mk_len _ _ _ E) | E : moves _ _ _ |- _ => know (mv_builder _ _ _ E); know (mv_len _ _ _ E) end; congruence].

Lemma if_ok e s1 : SOK H I M locals call Nb chk fuel s1 -> SOK H I M locals call Nb chk fuel (SIf e s1).
Proof.
  intros IH HW HC b sw V P c HT HI HO HF. cbn [wfS onecase tidy labels cases] in *. destruct HW as [HW1 HW2], HT as [-> HT].
  ugenS. sR v c1 X1 R1. sid lid c2. snew b1 c3. snew b2 c4. snew b3 c5. sem c6. sterm c7. sins (b3 :: b2 :: P) c8.
  sbody IH (None : swctx) V1 c9 S9 R9. { eapply fresh_body; [exact HF|]. ids. lia. }
  sbr c10. sins (b3 :: P) c11. sbr c12. sins P c13. fin V1.
  - eapply SX_wrap; [exact S9| | | | | | | |discriminate]; try extc; try statc; try assumption. cbn [litsS]. lia.
  - start_run tg sc r fr m w t HTG HIN HSC HD HA HE HV. cbn [direct] in HD. destruct HD as [HD1 HD2].
    assert (KS : c_stringID c + lits e = c_stringID c8) by lia.
    assert (BODY : forall t1 fr1 m1 w1, has (labels s1) (cases s1) t1 -> entry tg None c8 t1 fr1 -> envok tg r fr1 ->
      leaves tg c13 (exec H locals call fuel sc (c_stringID c + lits e) s1 t1 r m1 w1) fr1 m1 w1).
    { intros t1 fr1 m1 w1 A1 A2 A3. rewrite KS. eapply leaves_join; [eapply R9; eauto|eassumption|eassumption|right].
      split; [chain|]. split; [chain|assumption]. }
    destruct t as [[l|z]|]; cbn [exec].
    + apply BODY; auto.
    + destruct HA.
    + destruct HE as [HE _]. eapply leaves_test with (cT := c8) (cF := c11); [apply Nat.le_refl|split; [exact X1|exact R1]|reflexivity|exact HI| | | |eassumption|eassumption|eassumption|..]; try eassumption; try chain.
      * intros z m1 w1 fr1 NZ A1 A2. rewrite (proj2 (Z.eqb_neq z 0) NZ). apply BODY; [exact Logic.I|split; assumption|assumption].
      * intros m1 w1 fr1 A1 A2. cbn [Z.eqb]. eapply leaves_join with (c := c11); [apply leaves_fall; assumption|eassumption|eassumption|left; assumption].
Qed.
Lemma ifelse_ok e s1 s2 : SOK H I M locals call Nb chk fuel s1 -> SOK H I M locals call Nb chk fuel s2 -> SOK H I M locals call Nb chk fuel (SIfElse e s1 s2).
Proof.
  intros IH1 IH2 HW HC b sw V P c HT HI HO HF. cbn [wfS onecase tidy labels cases] in *. destruct HW as (HW1 & HW2 & HW3), HT as (-> & HT1 & HT2), HC as [HC1 HC2].
  ugenS. sR v c1 X1 R1. sid lid c2. snew b1 c3. snew b2 c4. snew b3 c5. sem c6. sterm c7. sins (b3 :: b2 :: P) c8.
  assert (HF8 : fresh_for V None c8 (labels s1 ++ labels s2) ([] ++ [])) by (eapply fresh_body; [exact HF|]; ids; lia).
  assert (HF9 : fresh_for V None c8 (labels s1) (cases s1)) by (apply fresh_left in HF8; exact HF8).
  sbody IH1 (None : swctx) V1 c9 S9 R9. { exact HF9. }
  sbr c10. sins (b3 :: P) c11.
  assert (S11 : SX V V1 (b3 :: P) false (lits e + litsS s1) (labels s1) [] (fun sc => after sc s1) None c None c11).
  { eapply SX_wrap; [exact S9| | | | | | | |discriminate]; try extc; try statc; try assumption. lia. }
  assert (HF11 : fresh_for V1 None c11 (labels s2) []).
  { eapply fresh_right; [|exact S11]. eapply fresh_body; [exact HF|lia]. }
  sbody IH2 (None : swctx) V2 c12 S12 R12. { exact HF11. }
  sbr c13. sins P c14. fin V2.
  - cbn [litsS]. change (@nil Z) with (@nil Z ++ []).
    eapply SX_seq with (P0 := b3 :: P) (b1 := false) (d := c11) (sw1 := sw) (a1 := fun sc => after sc s1) (a2 := fun sc => after sc s2).
    + eapply SX_wrap; [exact S11| | | | | | | |discriminate]; try apply ext_refl; try apply stat_refl; try assumption. all: lia.
    + eapply SX_wrap; [exact S12| | | | | | | |discriminate]; try apply ext_refl; try apply stat_refl; try extc; try statc; try assumption. lia.
  - start_run tg sc r fr m w t HTG HIN HSC HD HA HE HV. cbn [direct] in HD. destruct HD as (HD1 & HD2 & HD3).
    assert (KS : c_stringID c + lits e = c_stringID c8) by lia.
    assert (KS2 : c_stringID c + lits e + litsS s1 = c_stringID c11) by lia.
    assert (SC11 : scope_ok (after sc s1) c11) by (apply S11; assumption).
    assert (BODY1 : forall t1 fr1 m1 w1, has (labels s1) (cases s1) t1 -> entry tg None c8 t1 fr1 -> envok tg r fr1 ->
      leaves tg c14 (exec H locals call fuel sc (c_stringID c + lits e) s1 t1 r m1 w1) fr1 m1 w1).
    { intros t1 fr1 m1 w1 A1 A2 A3. rewrite KS. eapply leaves_join; [eapply R9; eauto|eassumption|eassumption|right].
      split; [chain|]. split; [chain|assumption]. }
    assert (BODY2 : forall t1 fr1 m1 w1, has (labels s2) (cases s2) t1 -> entry tg None c11 t1 fr1 -> envok tg r fr1 ->
      leaves tg c14 (exec H locals call fuel (after sc s1) (c_stringID c + lits e + litsS s1) s2 t1 r m1 w1) fr1 m1 w1).
    { intros t1 fr1 m1 w1 A1 A2 A3. rewrite KS2. eapply leaves_join; [eapply R12; eauto|eassumption|eassumption|left; assumption]. }
    destruct t as [[l|z]|]; cbn [exec].
    + destruct (has_dec (labels s1) (cases s1) (Some (TLabel l))) as [A|A].
      * specialize (BODY1 (Some (TLabel l)) fr m w A HE HV). unfold andthen.
        destruct (exec H locals call fuel sc (c_stringID c + lits e) s1 (Some (TLabel l)) r m w) as [[[|l'|z|] r'] m' w'|z w'| |]; auto.
        destruct BODY1.
      * unfold andthen. rewrite (proj1 (exec_skip H locals call fuel)); [|discriminate|exact A]. apply BODY2; auto.
        cbn in HA, A |- *. apply in_app_or in HA. tauto.
    + destruct HA.
    + destruct HE as [HE _]. eapply leaves_test with (cT := c8) (cF := c11); [apply Nat.le_refl|split; [exact X1|exact R1]|reflexivity|exact HI| | | |eassumption|eassumption|eassumption|..]; try eassumption; try chain.
      * intros z m1 w1 fr1 NZ A1 A2. rewrite (proj2 (Z.eqb_neq z 0) NZ). apply BODY1; [exact Logic.I|split; assumption|assumption].
      * intros m1 w1 fr1 A1 A2. cbn [Z.eqb]. apply BODY2; [exact Logic.I|split; assumption|assumption].
Qed.
Lemma while_ok e s1 : SOK H I M locals call Nb chk fuel s1 -> SOK H I M locals call Nb chk fuel (SWhile e s1).
Proof.
  intros IH HW HC b sw V P c HT HI HO HF. cbn [wfS onecase tidy labels cases] in *. destruct HW as [HW1 HW2], HT as [-> HT].
  ugenS. sid lid c1. snew b1 c2. snew b2 c3. snew b3 c4. sterm c5. sins (b3 :: b2 :: P) c6. sR v c7 X7 R7. sem c8. sterm c9. sins (b3 :: P) c10.
  sbody IH (None : swctx) V1 c11 S11 R11. { eapply fresh_body; [exact HF|]. ids. lia. }
  sbr c12. sins P c13. fin V1.
  - eapply SX_wrap; [exact S11| | | | | | | |discriminate]; try extc; try statc; try assumption. cbn [litsS]. lia.
  - start_run tg sc r fr m w t HTG HIN HSC HD HA HE HV. cbn [direct] in HD. destruct HD as [HD1 HD2].
    assert (KS : c_stringID c + lits e = c_stringID c10) by lia.
    assert (KS6 : c_stringID c = c_stringID c6) by lia.
    set (test := fun r => rvalue H locals call sc r (c_stringID c) e). set (body := fun r => exec H locals call fuel sc (c_stringID c + lits e) s1 None r).
    assert (LOOP : forall n r1 fr1 m1 w1, here c6 fr1 -> envok tg r1 fr1 -> SimStmt.leaves I M (Nat.min n Nb) tg c13 (loop n test body r1 m1 w1) fr1 m1 w1).
    { induction n as [|n IHn]; intros r1 fr1 m1 w1 A1 A2; cbn [loop]; [apply la_now|].
      unfold test at 1. eapply leaves_test with (cT := c10) (cF := c13); [apply Nat.le_min_r|split; [exact X7|exact R7]|exact KS6|eassumption| | | |eassumption|eassumption|eassumption|..]; try eassumption; try chain.
      - intros z m2 w2 fr2 NZ B1 B2. rewrite (proj2 (Z.eqb_neq z 0) NZ).
        eapply leaves_seq with (c1 := c11); [eapply leaves_le; [unfold body; rewrite KS; eapply R11; eauto; [exact Logic.I|split; assumption]|apply Nat.le_min_r]| |reflexivity|reflexivity].
        intros r3 m3 w3 fr3 D1 D2 D3.
        assert (EB : ends_block (TBr b1) c11 c12) by (match goal with B : bridges b1 c11 c12 |- _ => apply (br_end _ _ _ B D2) end).
        eapply leaves_le with (K1 := S (Nat.min n Nb)); [|lia].
        eapply leaves_back with (c2 := c6); [exact EB|eassumption|exact D1| | |exact D3|]; try chain. intros fr4 G1 G2. apply IHn; auto.
      - intros m2 w2 fr2 B1 B2. apply leaves_fall; auto. }
    specialize (LOOP fuel). rewrite (Nat.min_r fuel Nb FUEL) in LOOP.
    destruct t as [[l|z]|]; cbn [exec]; fold test; fold body.
    + eapply leaves_seq with (c1 := c11); [rewrite KS; eapply R11; eauto| |reflexivity|reflexivity].
      intros r3 m3 w3 fr3 D1 D2 D3.
      assert (EB : ends_block (TBr b1) c11 c12) by (match goal with B : bridges b1 c11 c12 |- _ => apply (br_end _ _ _ B D2) end).
      eapply leaves_jump with (c2 := c6); [exact EB|eassumption|exact D1| | |exact D3|]; try chain. intros fr4 G1 G2. apply LOOP; auto.
    + destruct HA.
    + destruct HE as [HE _]. eapply leaves_jump with (c := c4) (c2 := c6); [eassumption|eassumption|eapply here_same; [| |exact HE]| | |exact HV|]; try chain.
      intros. apply LOOP; auto.
Qed.
Lemma at_label_here tg n b c fr : assoc n (t_L tg) = Some b -> at_label tg n fr -> c_builder c = b -> cur_len c = 0%nat -> here c fr.
Proof. intros K (i & L1 & L2 & L3) E1 E2. split; congruence. Qed.
Lemma switch_ok e s1 : SOK H I M locals call Nb chk fuel s1 -> SOK H I M locals call Nb chk fuel (SSwitch e s1).
Proof.
  intros IH HW HC b sw V P c HT HI HO HF. cbn [wfS onecase tidy labels cases] in *. destruct HW as [HW1 HW2], HT as [-> HT], HC as [HC1 HC2].
  ugenS. sid lid c1. sR v c2 X2 R2. snew b1 c3. snew b2 c4. snew b3 c5. sterm c6. sins (b3 :: b2 :: P) c7.
  sbody IH (Some (lid, []) : swctx) V1 c8 S8 R8. { subst lid. eapply fresh_switch; [exact HF|exact HC1|]. ids. lia. }
  sbr c9. sins (b3 :: P) c10.
  match goal with |- pwp (bind ?g _) _ _ => assert (K : pwp g (fun _ c' => II V1 (b3 :: P) c' /\
    ((cases s1 = [] /\ ends_block (TBr b3) c10 c') \/ exists l, map fst l = cases s1 /\ (forall z b, In (z, b) l -> assoc (case_name lid z) (c_labels c10) = Some b) /\
      ends_block (TSwitch v b3 l) c10 c')) c10) end.
  { match goal with |- pwp (match ?x with _ => _ end) _ _ => assert (EQ : x = Some (lid, cases s1)) by (rewrite (sx_sw _ _ _ _ _ _ _ _ _ _ _ _ S8); reflexivity); rewrite EQ end.
    destruct (cases s1) as [|z0 cs0] eqn:EC.
    - eapply pwp_mono; [eapply P_setTerm; eassumption|]. cbv beta. intros _ cz [? ?]. auto.
    - eapply pwp_use; [pure_tac|eapply switchCases_post; [eassumption|]|].
      + intros z Hz. eapply (sx_case _ _ _ _ _ _ _ _ _ _ _ _ S8); [reflexivity|]. rewrite ?EC. exact Hz.
      + cbv beta. intros l cz (-> & L1 & L2). eapply pwp_mono; [eapply P_setTerm; eassumption|]. cbv beta. intros _ cz [? ?]. split; auto.
        right. exists l. auto. }
  eapply pwp_use; [pure_tac|exact K|]. cbv beta. intros _ c11 [I11 K11].
  assert (E11 : ext c10 c11 /\ stat c10 c11 /\ closed c11 /\ c_stringID c11 = c_stringID c10).
  { destruct K11 as [[_ []]|(l & _ & _ & [])]; auto. }
  destruct E11 as (E11 & T11 & C11 & N11). clear K.
  sins P c12. fin V1.
  - eapply SX_wrap; [exact S8| | | | | | | |]; try extc; try statc; try assumption; [cbn [litsS]; lia|].
    intros id vals E. injection E as <- <-. lia.
  - start_run tg sc r fr m w t HTG HIN HSC HD HA HE HV. cbn [direct] in HD. destruct HD as [HD1 HD2].
    assert (KS : c_stringID c + lits e = c_stringID c7) by lia.
    assert (BODY : forall t1 fr1 m1 w1, has (labels s1) (cases s1) t1 -> entry tg (Some (lid, [])) c7 t1 fr1 -> envok tg r fr1 ->
      leaves tg c12 (exec H locals call fuel sc (c_stringID c + lits e) s1 t1 r m1 w1) fr1 m1 w1).
    { intros t1 fr1 m1 w1 A1 A2 A3. rewrite KS. eapply leaves_join; [eapply R8; eauto|eassumption|eassumption|right].
      split; [chain|]. split; [chain|assumption]. }
    destruct t as [[l|z]|]; cbn [exec].
    + apply BODY; auto.
    + destruct HA.
    + destruct HE as [HE _].
      eapply leaves_R with (c1 := c1); [apply Nat.le_refl|exact R2| |eassumption|exact X2|exact HTG|eassumption|eassumption|exact HD1|eapply here_same; [| |exact HE]; chain|exact HV|]; [congruence|].
      intros z m1 w1 fr1 A1 A2 A3.
      assert (A4 : here c5 fr1) by (eapply here_same; [| |exact A1]; chain).
      assert (EB : term_at tg c5 (TBr b2)) by (match goal with B : ends_block (TBr b2) c5 c6 |- _ => apply (eb_at _ _ _ B); assumption end).
      eapply leaves_steps; [eapply steps_one, st_br, end_at; [exact A4|exact EB]|].
      assert (A5 : here c10 (goto_blk b2 fr1)) by (split; cbn; [symmetry|symmetry]; chain).
      assert (A6 : operand I (goto_blk b2 fr1) v = Some z) by (destruct v; exact A3).
      set (fr2 := goto_blk b2 fr1) in *. assert (A7 : envok tg r fr2) by exact A2. clearbody fr2.
      destruct K11 as [[NC EB2]|(l & L1 & L2 & EB2)].
      * rewrite NC. cbn [existsb]. eapply leaves_jump with (c2 := c12); [exact EB2|assumption|exact A5| | |exact A7|]; try chain.
        intros. apply leaves_fall; auto.
      * eapply leaves_steps; [eapply steps_one, st_switch; [eapply end_at; [exact A5|apply (eb_at _ _ _ EB2); assumption]|exact A6]|].
        destruct (existsb (Z.eqb z) (cases s1)) eqn:EX.
        -- apply existsb_eqb in EX. rewrite <- L1 in EX. destruct (choose_in z b3 l EX) as (bb & B1 & B2). rewrite B2.
           apply BODY; [cbn; rewrite <- L1; exact EX| |exact A7].
           cbn. exists lid, []. split; auto. exists bb. split; [|auto]. match goal with IN : into c10 tg |- _ => apply (in_lab _ _ IN) end. apply L2. exact B1.
        -- rewrite choose_out; [|rewrite L1, <- existsb_eqb; congruence]. apply leaves_fall; auto. split; cbn; symmetry; chain.
Qed.
Lemma case_ok z s1 : SOK H I M locals call Nb chk fuel s1 -> SOK H I M locals call Nb chk fuel (SCase z s1).
Proof.
  intros IH HW HC b sw V P c HT HI HO HF. cbn [wfS onecase tidy labels cases] in *. destruct HW as [HW1 HW2].
  ugenS. destruct sw as [[id vals]|]; [|apply pwp_err]. change ("case." ++ dec id ++ "." ++ dec z)%string with (case_name id z).
  eapply pwp_use; [pure_tac|eapply P_label; eassumption|cbv beta; intros bb c1 [I1 A1]; facts].
  sbr c2. match goal with B : bridges bb c1 c2 |- _ => rename B into B2 end.
  destruct (fresh_case V id vals c c2 z (labels s1) (cases s1)) as [NV _]; [exact HF|ids; lia|].
  eapply pwp_use; [pure_tac|eapply P_visit; [eassumption|eassumption| |exact NV]; rewrite (br_lab _ _ _ B2); exact (la_lab _ _ _ _ A1)|cbv beta; intros _ c3 (I3 & M3 & L3); facts].
  destruct (fresh_case V id vals c c3 z (labels s1) (cases s1)) as [_ HF3]; [exact HF|ids; lia|].
  eapply pwp_mono; [eapply (IH HW2 HC false (Some (id, vals ++ [z]))); [exact HT|exact I3|assumption|exact HF3]|].
  cbv beta. intros sw' c' (V' & S & R). facts. exists V'. intos. split.
  - change (labels s1) with ([] ++ labels s1) at 1. change (z :: cases s1) with ([z] ++ cases s1).
    eapply SX_label; [exact S|extc|statc|lia|]. right. exists id, vals, z. auto.
  - start_run tg sc r fr m w t HTG HIN HSC HD HA HE HV. cbn [direct] in HD.
    assert (KS : c_stringID c = c_stringID c3) by lia.
    assert (LB : assoc (case_name id z) (t_L tg) = Some bb). { match goal with IN : into c1 tg |- _ => apply (in_lab _ _ IN) end. exact (la_lab _ _ _ _ A1). }
    assert (BODY : forall t1 fr1 m1 w1, has (labels s1) (cases s1) t1 -> entry tg (Some (id, vals ++ [z])) c3 t1 fr1 -> envok tg r fr1 ->
      leaves tg c' (exec H locals call fuel sc (c_stringID c) s1 t1 r m1 w1) fr1 m1 w1).
    { intros t1 fr1 m1 w1 D1 D2 D3. rewrite KS. eapply R; eauto. }
    assert (HERE : forall fr1 m1 w1, here c3 fr1 -> envok tg r fr1 -> leaves tg c' (exec H locals call fuel sc (c_stringID c) s1 None r m1 w1) fr1 m1 w1).
    { intros. apply BODY; auto; [exact Logic.I|split; auto]. }
    destruct t as [[l|y]|]; cbn [exec is_case].
    + apply BODY; auto.
    + destruct HE as (id' & vals' & E & HE). injection E as <- <-. destruct (Z.eqb_spec y z) as [->|N].
      * apply HERE; auto. eapply at_label_here; eauto; chain.
      * apply BODY; auto; [cbn in HA |- *; destruct HA; [congruence|auto]|]. cbn. eauto.
    + destruct HE as [HE HO1]. assert (O1 : opened c1) by (apply (la_open _ _ _ _ A1 HO1)).
      eapply leaves_jump with (c := c1) (c2 := c3); [apply (br_end _ _ _ B2 O1)|assumption|eapply here_same; [exact (la_builder _ _ _ _ A1)|exact (la_len _ _ _ _ A1)|exact HE]| | |exact HV|]; try chain.
      intros. apply HERE; auto.
Qed.
Lemma label_ok x s1 : SOK H I M locals call Nb chk fuel s1 -> SOK H I M locals call Nb chk fuel (SLabel x s1).
Proof.
  intros IH HW HC b sw V P c HT HI HO HF. cbn [wfS onecase tidy labels cases] in *. destruct HW as [HW1 HW2].
  ugenS. eapply pwp_use; [pure_tac|eapply P_label; eassumption|cbv beta; intros bb c1 [I1 A1]; facts].
  sbr c2. match goal with B : bridges bb c1 c2 |- _ => rename B into B2 end.
  destruct (fresh_label V sw c c2 x (labels s1) (cases s1)) as [NV _]; [exact HF|ids; lia|].
  eapply pwp_use; [pure_tac|eapply P_visit; [eassumption|eassumption| |exact NV]; rewrite (br_lab _ _ _ B2); exact (la_lab _ _ _ _ A1)|cbv beta; intros _ c3 (I3 & M3 & L3); facts].
  destruct (fresh_label V sw c c3 x (labels s1) (cases s1)) as [_ HF3]; [exact HF|ids; lia|].
  eapply pwp_mono; [eapply (IH HW2 HC false sw); [exact HT|exact I3|assumption|exact HF3]|].
  cbv beta. intros sw' c' (V' & S & R). facts. exists V'. intos. split.
  - change (x :: labels s1) with ([x] ++ labels s1). change (cases s1) with ([] ++ cases s1).
    eapply SX_label; [exact S|extc|statc|lia|]. left. auto.
  - start_run tg sc r fr m w t HTG HIN HSC HD HA HE HV. cbn [direct] in HD.
    assert (KS : c_stringID c = c_stringID c3) by lia.
    assert (LB : assoc x (t_L tg) = Some bb). { match goal with IN : into c1 tg |- _ => apply (in_lab _ _ IN) end. exact (la_lab _ _ _ _ A1). }
    assert (BODY : forall t1 fr1 m1 w1, has (labels s1) (cases s1) t1 -> entry tg sw c3 t1 fr1 -> envok tg r fr1 ->
      leaves tg c' (exec H locals call fuel sc (c_stringID c) s1 t1 r m1 w1) fr1 m1 w1).
    { intros t1 fr1 m1 w1 D1 D2 D3. rewrite KS. eapply R; eauto. }
    assert (HERE : forall fr1 m1 w1, here c3 fr1 -> envok tg r fr1 -> leaves tg c' (exec H locals call fuel sc (c_stringID c) s1 None r m1 w1) fr1 m1 w1).
    { intros. apply BODY; auto; [exact Logic.I|split; auto]. }
    destruct t as [[l|y]|]; cbn [exec is_label].
    + destruct (String.eqb_spec l x) as [->|N].
      * apply HERE; auto. eapply at_label_here; eauto; chain.
      * apply BODY; auto. cbn in HA |- *; destruct HA; [congruence|auto].
    + apply BODY; auto.
    + destruct HE as [HE HO1]. assert (O1 : opened c1) by (apply (la_open _ _ _ _ A1 HO1)).
      eapply leaves_jump with (c := c1) (c2 := c3); [apply (br_end _ _ _ B2 O1)|assumption|eapply here_same; [exact (la_builder _ _ _ _ A1)|exact (la_len _ _ _ _ A1)|exact HE]| | |exact HV|]; try chain.
      intros. apply HERE; auto.
Qed.
Lemma goto_ok x : SOK H I M locals call Nb chk fuel (SGoto x).
Proof.
  intros HW HC b sw V P c HT HI HO HF. cbn [wfS onecase tidy labels cases] in *. subst b.
  ugenS. eapply pwp_use; [pure_tac|eapply P_label; eassumption|cbv beta; intros bb c1 [I1 A1]; facts].
  sterm c2. sid lid c3. snew dd c4. sins P c5. apply pwp_ret. exists V. intos. split.
  - cbn [litsS]. apply SX_plain; try assumption; [extc|lia|]. intros sc K. cbn [after]. eapply scope_ok_stat; [|exact K]. statc.
  - start_run tg sc r fr m w t HTG HIN HSC HD HA HE HV.
    destruct t as [[l|y]|]; [destruct HA..|]. cbn [exec]. destruct HE as [HE HO1]. cbn. exists (goto_blk bb fr). split; [|split].
    + exists (Run (goto_blk bb fr) m w). split; [|apply steps_refl]. eapply st_br, end_at with (c := c1); [eapply here_same; [exact (la_builder _ _ _ _ A1)|exact (la_len _ _ _ _ A1)|exact HE]|].
      match goal with B : ends_block (TBr bb) c1 c2 |- _ => apply (eb_at _ _ _ B); assumption end.
    + exists bb. split; auto. match goal with IN : into c1 tg |- _ => apply (in_lab _ _ IN) end. exact (la_lab _ _ _ _ A1).
    + exact HV.
Qed.
Lemma return_ok o : SOK H I M locals call Nb chk fuel (SReturn o).
Proof.
  intros HW HC b sw V P c HT HI HO HF. cbn [wfS onecase tidy labels cases] in *. subst b. ugenS. destruct o as [e|].
  - sR v c1 X1 R1. sterm c2. apply pwp_ret. exists V. intos. split.
    + cbn [litsS]. apply SX_plain; try assumption; [extc|lia|]. intros sc K. cbn [after]. eapply scope_ok_stat; [|exact K]. statc.
    + start_run tg sc r fr m w t HTG HIN HSC HD HA HE HV.
      destruct t as [[l|y]|]; [destruct HA..|]. cbn [exec]. destruct HE as [HE _].
      eapply leaves_R; [apply Nat.le_refl|exact R1|reflexivity|eassumption|exact X1|exact HTG|eassumption|eassumption|exact HD|exact HE|exact HV|].
      intros z m1 w1 fr1 B1 B2 B3. cbn. eapply steps_one, st_ret; [eapply end_at; [exact B1|]|exact B3].
      match goal with B : ends_block (TRet v) c1 c2 |- _ => apply (eb_at _ _ _ B); assumption end.
  - sterm c2. apply pwp_ret. exists V. intos. split.
    + cbn [litsS]. apply SX_plain; try assumption; [lia|]. intros sc K. cbn [after]. eapply scope_ok_stat; [|exact K]. statc.
    + start_run tg sc r fr m w t HTG HIN HSC HD HA HE HV.
      destruct t as [[l|y]|]; [destruct HA..|]. cbn [exec]. destruct HE as [HE _]. cbn.
      eapply steps_one, st_ret with (v := VInt 0); [eapply end_at; [exact HE|]|reflexivity].
      match goal with B : ends_block (TRet _) c c2 |- _ => apply (eb_at _ _ _ B); assumption end.
Qed.
Lemma expr_ok e : SOK H I M locals call Nb chk fuel (SExpr e).
Proof.
  intros HW HC b sw V P c HT HI HO HF. cbn [wfS onecase tidy labels cases] in *. subst b. ugenS.
  sR v c1 X1 R1. apply pwp_ret. exists V. intos. split.
  - cbn [litsS]. apply SX_plain; try assumption. intros sc K. cbn [after]. eapply scope_ok_stat; [|exact K]. statc.
  - start_run tg sc r fr m w t HTG HIN HSC HD HA HE HV.
    destruct t as [[l|y]|]; [destruct HA..|]. cbn [exec]. destruct HE as [HE _].
    eapply leaves_R; [apply Nat.le_refl|exact R1|reflexivity|eassumption|exact X1|exact HTG|eassumption|eassumption|exact HD|exact HE|exact HV|].
    intros z m1 w1 fr1 B1 B2 B3. apply leaves_fall; auto.
Qed.
Lemma auto_ok l : SOK H I M locals call Nb chk fuel (SAuto l).
Proof.
  intros HW HC b sw V P c HT HI HO HF. cbn [wfS onecase tidy labels cases] in *. subst b. ugenS.
  eapply pwp_use; [pure_tac|apply checkAutos_post|]. cbv beta. intros _ c0 (-> & ND & K).
  eapply pwp_use; [pure_tac|apply (declareAutos_post H I M LK V P l c HI HO HW ND); apply K|]. cbv beta. intros _ c1 [].
  apply pwp_ret. exists V. split.
  - cbn [litsS]. apply SX_plain; try assumption; [lia|]. intros sc [A1 A2]. cbn [after]. split; cbn; congruence.
  - start_run tg sc r fr m w t HTG HIN HSC HD HA HE HV.
    destruct t as [[x|y]|]; [destruct HA..|]. cbn [exec]. destruct HE as [HE _]. specialize (dc_run tg r fr m w HIN HE HV). unfold andthen.
    destruct (automatics H l r m w) as [r1 m1 w1|z w1| |]; [|contradiction|exact Logic.I|contradiction]. destruct dc_run as (fr1 & B1 & B2 & B3).
    eapply leaves_steps; [exact B1|]. apply leaves_fall; auto.
Qed.
Lemma extrn_ok l : SOK H I M locals call Nb chk fuel (SExtrn l).
Proof.
  intros HW HC b sw V P c HT HI HO HF. cbn [wfS onecase tidy labels cases] in *. ugenS.
  eapply pwp_use; [pure_tac|apply (genExtrn_post V P l c HI)|]. cbv beta. intros _ c1 []. apply pwp_ret. exists V.
  assert (LEN : cur_len c1 = cur_len c) by (unfold cur_len; rewrite ex_blocks0, ex_builder0; auto).
  assert (OP : opened c -> opened c1) by (unfold opened; rewrite ex_blocks0, ex_builder0; auto).
  split.
  - cbn [litsS]. apply SX_plain; try assumption; [|lia|].
    + cbn [ends]. destruct b; auto. unfold closed. rewrite ex_blocks0, ex_builder0. auto.
    + intros sc [A1 A2]. cbn [after]. split; cbn; congruence.
  - start_run tg sc r fr m w t HTG HIN HSC HD HA HE HV.
    destruct t as [[x|y]|]; [destruct HA..|]. cbn [exec]. destruct HE as [HE HO1]. apply leaves_fall; auto. eapply here_same; eauto.
Qed.
Lemma null_ok : SOK H I M locals call Nb chk fuel SNull.
Proof.
  intros HW HC b sw V P c HT HI HO HF. ugenS. apply pwp_ret. exists V. split.
  - cbn. apply SX_plain; auto using ext_refl. lia.
  - start_run tg sc r fr m w t HTG HIN HSC HD HA HE HV.
    destruct t as [[x|y]|]; [destruct HA..|]. cbn [exec]. destruct HE as [HE HO1]. apply leaves_fall; auto.
Qed.
Lemma nil_ok : LOK H I M locals call Nb chk fuel SNil.
Proof.
  intros HW HC b sw V P c HT HI HO HF. ugenS. apply pwp_ret. exists V. split.
  - cbn. apply SX_plain; auto using ext_refl. lia.
  - start_run tg sc r fr m w t HTG HIN HSC HD HA HE HV.
    destruct t as [[x|y]|]; [destruct HA..|]. cbn [execL]. destruct HE as [HE HO1]. apply leaves_fall; auto.
Qed.
Lemma cons_ok s l : SOK H I M locals call Nb chk fuel s -> LOK H I M locals call Nb chk fuel l -> LOK H I M locals call Nb chk fuel (SCons s l).
Proof.
  intros IH1 IH2 HW HC b sw V P c HT HI HO HF. cbn [wfL onecaseL tidyL labelsL casesL] in *. destruct HW as [HW1 HW2], HT as [HT1 HT2], HC as [HC1 HC2].
  ugenS. eapply pwp_use; [pure_tac|eapply (IH1 HW1 HC1 b sw); [exact HT1|exact HI|exact HO|eapply fresh_left; exact HF]|].
  cbv beta. intros sw1 c1 (V1 & S1 & R1).
  eapply pwp_mono; [eapply (IH2 HW2 HC2 (ends b s) sw1); [exact HT2|apply S1|apply S1|eapply fresh_right; [exact HF|exact S1]]|].
  cbv beta. intros sw2 c2 (V2 & S2 & R2). exists V2. facts. split.
  - cbn [litsL]. exact (SX_seq _ _ _ _ _ _ _ _ _ _ _ _ _ _ _ _ _ _ _ _ _ S1 S2).
  - start_run tg sc r fr m w t HTG HIN HSC HD HA HE HV. cbn [directL] in HD. destruct HD as [HD1 HD2]. cbn [execL].
    assert (KS : c_stringID c + litsS s = c_stringID c1) by lia. rewrite KS.
    assert (SC1 : scope_ok (after sc s) c1) by (apply S1; assumption).
    destruct (has_dec (labels s) (cases s) t) as [A|A].
    + eapply leaves_seq; [eapply R1; eauto| |reflexivity|reflexivity].
      intros r1 m1 w1 fr1 B1 B2 B3. eapply R2; eauto; [exact Logic.I|split; auto].
    + assert (NT : t <> None) by (intros ->; apply A; exact Logic.I).
      unfold andthen. rewrite (proj1 (exec_skip H locals call fuel)); [|exact NT|exact A].
      apply has_app in HA; [|exact NT]. destruct HA as [HA|HA]; [contradiction|]. eapply R2; eauto.
      destruct t as [[x|y]|]; [exact HE| |congruence]. destruct HE as (id & vals & -> & HE).
      cbn. rewrite (sx_sw _ _ _ _ _ _ _ _ _ _ _ _ S1). cbn. eauto.
Qed.
Theorem stmts_ok : (forall s, SOK H I M locals call Nb chk fuel s) /\ (forall l, LOK H I M locals call Nb chk fuel l).
Proof.
  apply stmt_stmts_ind; intros.
  - apply null_ok.
  - apply expr_ok.
  - intros HW HC b sw V P c HT HI HO HF. rewrite genS_block. apply H0; auto.
  - apply return_ok.
  - apply auto_ok.
  - apply extrn_ok.
  - apply if_ok; auto.
  - apply ifelse_ok; auto.
  - apply while_ok; auto.
  - apply switch_ok; auto.
  - apply case_ok; auto.
  - apply goto_ok.
  - apply label_ok; auto.
  - apply nil_ok.
  - apply cons_ok; auto.
Qed.
End Body.

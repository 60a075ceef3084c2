(** * SimStmt: the code of a statement does what the statement does *)
From Coq Require Import List Ascii String ZArith NArith Lia Bool.
From Verif Require Import Base Lexer IR Builder Expr Stmt Decl DriverModes Wp Syntax SpecTree Pure ParseGen Pwp Names InvIR InvDecl InvNames Built InvTerm SpecSem IRSem SpecLink SemFacts SimBase SimExpr.
Import ListNotations.
Open Scope string_scope.
Open Scope list_scope.
Open Scope Z_scope.
Open Scope m_scope.

Lemma case_name_inj i z j y : case_name i z = case_name j y -> i = j /\ z = y.
Proof.
  unfold case_name. intros E. apply join_inj in E; try discriminate; [|repeat constructor; auto using nodot_dec; apply nodot_b; reflexivity..].
  injection E as E1 E2. split; apply dec_inj; auto.
Qed.
Lemma case_name_dot i z : ~ nodot (case_name i z).
Proof. intros K. eapply nodot_dot; [exact K|apply join_cons]. Qed.

(** ** Labels and the ends of blocks *)
Record labels_as (n : string) (b : nat) (c c' : cstate) : Prop := {
  la_ext : ext c c';
  la_stat : stat c c';
  la_builder : c_builder c' = c_builder c;
  la_len : cur_len c' = cur_len c;
  la_sid : c_stringID c' = c_stringID c;
  la_nreg : c_nreg c' = c_nreg c;
  la_id : c_labelID c' = c_labelID c;
  la_open : opened c -> opened c';
  la_closed : closed c -> closed c';
  la_lab : assoc n (c_labels c') = Some b
}.
Lemma P_label V P n c : II V P c -> pwp (GetOrCreateLabel n) (fun b c' => II V P c' /\ labels_as n b c c') c.
Proof.
  intros HI.
  eapply pwp_mono; [apply pwp_and; [apply (T_label V P n c (ii_ti _ _ _ HI))|
    apply (fun K => K : pwp (GetOrCreateLabel n) (fun b c' => (c' = c /\ assoc n (c_labels c) = Some b) \/
      (assoc n (c_labels c) = None /\ c' = set_labels ((n, List.length (c_blocks c)) :: c_labels c) (set_blocks (c_blocks c ++ [mkBlock n [] None]) c))) c)]|].
  { unfold GetOrCreateLabel. apply pwp_bind; [auto with pure|]. apply pwp_get. destruct (assoc n (c_labels c)) eqn:E.
    { apply pwp_ret. auto. }
    apply pwp_bind; [auto with pure|]. apply pwp_NewBlock. apply pwp_bind; [auto with pure|]. apply pwp_modify. apply pwp_ret. right. split; auto. }
  cbv beta. intros b c' [(HT & HA & _) [[-> HB]|[HN ->]]].
  { split; auto. constructor; auto using ext_refl, stat_refl. }
  assert (LB : (c_builder c < List.length (c_blocks c))%nat) by apply (TI_builder _ _ _ (ii_ti _ _ _ HI)).
  assert (SB : nth_error (c_blocks c ++ [mkBlock n [] None]) (c_builder c) = nth_error (c_blocks c) (c_builder c)) by (rewrite nth_error_app1; auto).
  split.
  - destruct HI. constructor; auto. cbn. intros i Hi. destruct (ii_pend i Hi) as (K1 & m & K2). split; auto. exists m.
    rewrite nth_error_app1; auto. eapply nth_lt; eauto.
  - constructor; auto.
    + constructor; auto using incl_refl; try (cbn; lia). cbn. apply extB_snoc.
      cbn. intros x b0 K. destruct (String.eqb_spec x n); [congruence|auto].
    + constructor; auto.
    + unfold cur_len. cbn. rewrite SB. auto.
    + unfold opened. cbn. rewrite SB. auto.
    + unfold closed. cbn. rewrite SB. auto.
Qed.
Lemma P_visit V P n b c : II V P c -> closed c -> assoc n (c_labels c) = Some b -> ~ V n ->
  pwp (SetInsertPoint b) (fun _ c' => II (fun m => V m \/ m = n) P c' /\ moves b c c' /\ c_labelID c' = c_labelID c) c.
Proof.
  intros HI HC HL HV.
  eapply pwp_mono; [apply pwp_and; [apply (T_visit V P n b c (ii_ti _ _ _ HI) HC HL)|
    apply (pwp_SetInsertPoint b (fun _ c' => c' = set_builder b c)); auto]|].
  cbv beta. intros u c' [[HT _] ->]. destruct (TI_lab _ _ _ (ii_ti _ _ _ HI) n b HL HV) as (K1 & K2 & K3). split; [|split; auto].
  - destruct HI. constructor; auto. cbn. intros i Hi. destruct (ii_pend i Hi) as (L1 & L2). split; auto. intros ->. auto.
  - eapply moves_intro; eauto.
Qed.
Record bridges (b : nat) (c c' : cstate) : Prop := {
  br_ext : ext c c';
  br_stat : stat c c';
  br_closed : closed c';
  br_sid : c_stringID c' = c_stringID c;
  br_nreg : c_nreg c' = c_nreg c;
  br_lab : c_labels c' = c_labels c;
  br_id : c_labelID c' = c_labelID c;
  br_end : opened c -> ends_block (TBr b) c c'
}.
Lemma P_brIfOpen V P b c : II V P c -> pwp (brIfOpen b) (fun _ c' => II V P c' /\ bridges b c c') c.
Proof.
  intros HI. unfold brIfOpen. apply pwp_bind; [auto with pure|]. apply pwp_termIsNil. intros [|] K1 K2; cbv iota.
  - assert (HO : opened c) by (apply K1; auto).
    eapply pwp_mono; [apply pwp_and; [apply P_setTerm; eauto|apply (pwp_setTerm (TBr b) (fun _ c' => c_labels c' = c_labels c /\ c_labelID c' = c_labelID c)); auto]|].
    cbv beta. intros u c' [(HI' & E) [E1 E2]]. split; auto. destruct E. constructor; auto. constructor; auto.
  - apply pwp_ret. split; auto. destruct (K2 eq_refl) as [K|(bl & t & K & E)].
    + apply nth_error_None in K. pose proof (TI_builder _ _ _ (ii_ti _ _ _ HI)). lia.
    + assert (HC : closed c) by (exists bl, t; auto). constructor; auto using ext_refl, stat_refl.
      intros HO. destruct (not_open_closed c HO HC).
Qed.

(** ** The source side: where execution may start *)
Definition has (lbls : list string) (cs : list Z) (t : start) : Prop :=
  match t with None => True | Some (TLabel l) => In l lbls | Some (TCase z) => In z cs end.
Lemma has_dec lbls cs t : has lbls cs t \/ ~ has lbls cs t.
Proof. destruct t as [[l|z]|]; cbn; auto; [destruct (in_dec string_dec l lbls)|destruct (in_dec Z.eq_dec z cs)]; auto. Qed.
Lemma has_app l1 c1 l2 c2 t : t <> None -> has (l1 ++ l2) (c1 ++ c2) t <-> has l1 c1 t \/ has l2 c2 t.
Proof. destruct t as [[l|z]|]; cbn; rewrite ?in_app_iff; tauto. Qed.

Section Skip.
Context {W : Type}.
Variable H : host W.
Variable locals : bool.
Variable call : string -> list Z -> act W Z.
Variable fuel : nat.
Lemma exec_skip :
  (forall s sc k t r m w, t <> None -> ~ has (labels s) (cases s) t -> exec H locals call fuel sc k s t r m w = Val (Skip, r) m w) /\
  (forall l sc k t r m w, t <> None -> ~ has (labelsL l) (casesL l) t -> execL H locals call fuel sc k l t r m w = Val (Skip, r) m w).
Proof.
  apply stmt_stmts_ind; intros; cbn [exec execL]; cbn [labels labelsL cases casesL] in *;
    try (destruct t as [[l'|z']|]; [reflexivity|reflexivity|congruence]); auto.
  - destruct t as [[l'|z']|]; auto; congruence.
  - destruct t as [[l'|z']|]; try congruence; auto. cbn in *. rewrite in_app_iff in *. unfold andthen. rewrite H0, H1; auto; cbn; tauto.
  - destruct t as [[l'|z']|]; try congruence; auto. unfold andthen. rewrite H0; auto.
  - destruct t as [[l'|z']|]; try congruence; auto.
  - apply H0; destruct t as [[l'|z']|]; cbn in *; try congruence; auto; destruct (Z.eqb_spec z' z); try discriminate; intuition.
  - apply H0; destruct t as [[l'|z']|]; cbn in *; try congruence; auto; destruct (String.eqb_spec l' name); try discriminate; intuition.
  - rewrite has_app in * by auto. unfold andthen. rewrite H0, H1; auto.
Qed.
End Skip.

(** ** The invariant over statements *)
Definition fresh_for (V : string -> Prop) (sw : swctx) (c : cstate) (lbls : list string) (cs : list Z) : Prop :=
  NoDup lbls /\ Forall name_ok lbls /\ (forall l, In l lbls -> ~ V l) /\
  match sw with
  | Some (id, _) => NoDup cs /\ (forall z, In z cs -> ~ V (case_name id z)) /\ id < c_labelID c
  | None => True
  end /\
  forall id z, V (case_name id z) -> id < c_labelID c.
Definition grown (sw : swctx) (cs : list Z) : swctx := match sw with Some (id, vals) => Some (id, vals ++ cs) | None => None end.
Record SX (V V' : string -> Prop) (P : list nat) (b : bool) (n : Z) (lbls : list string) (cs : list Z) (aft : scope -> scope)
  (sw : swctx) (c : cstate) (sw' : swctx) (c' : cstate) : Prop := {
  sx_ii : II V' P c';
  sx_open : if b then closed c' else opened c';
  sx_ext : ext c c';
  sx_sid : c_stringID c' = c_stringID c + n;
  sx_sw : sw' = grown sw cs;
  sx_mono : forall x, V x -> V' x;
  sx_case : forall id vals z, sw = Some (id, vals) -> In z cs -> V' (case_name id z);
  sx_new : forall x, V' x -> V x \/ In x lbls \/ (exists id vals z, sw = Some (id, vals) /\ In z cs /\ x = case_name id z) \/
    exists id z, x = case_name id z /\ c_labelID c <= id < c_labelID c';
  sx_scope : forall sc, scope_ok sc c -> scope_ok (aft sc) c'
}.
Lemma NoDup_app_iff {A} (l1 l2 : list A) : NoDup (l1 ++ l2) <-> NoDup l1 /\ NoDup l2 /\ forall x, In x l1 -> ~ In x l2.
Proof.
  induction l1 as [|a l1 IH]; cbn.
  - split; [intros; repeat split; auto; constructor|tauto].
  - split.
    + intros K. inversion K; subst. rewrite IH in *. rewrite in_app_iff in *. split; [constructor; tauto|]. split; [tauto|].
      intros x [<-|Hx]; [tauto|]. apply H2. auto.
    + intros (K1 & K2 & K3). inversion K1; subst. constructor.
      * rewrite in_app_iff. intros [|K]; auto. apply (K3 a); auto.
      * apply IH. repeat split; auto.
Qed.
Lemma fresh_left V sw c l1 c1 l2 c2 : fresh_for V sw c (l1 ++ l2) (c1 ++ c2) -> fresh_for V sw c l1 c1.
Proof.
  intros (K1 & K2 & K3 & K4 & K5). rewrite NoDup_app_iff in K1. apply Forall_app in K2. split; [tauto|]. split; [tauto|]. split.
  - intros l Hl. apply K3, in_or_app. auto.
  - split; auto. destruct sw as [[id vals]|]; auto. destruct K4 as (L1 & L2 & L3). rewrite NoDup_app_iff in L1. split; [tauto|]. split; auto.
    intros z Hz. apply L2, in_or_app. auto.
Qed.
Lemma fresh_right V sw c l1 c1 l2 c2 V' P b n aft sw' c' : fresh_for V sw c (l1 ++ l2) (c1 ++ c2) ->
  SX V V' P b n l1 c1 aft sw c sw' c' -> fresh_for V' sw' c' l2 c2.
Proof.
  intros (K1 & K2 & K3 & K4 & K5) []. rewrite NoDup_app_iff in K1. apply Forall_app in K2. destruct K1 as (N1 & N2 & N3), K2 as [O1 O2].
  rewrite Forall_forall in O1, O2. pose proof (e_id _ _ sx_ext0) as EI.
  split; auto. split; [apply Forall_forall; auto|]. split.
  { intros l Hl K. destruct (sx_new0 l K) as [L|[L|[(id & vals & z & _ & _ & ->)|(id & z & -> & _)]]].
    - apply (K3 l); auto. apply in_or_app; auto.
    - apply (N3 l); auto.
    - apply (case_name_dot id z). apply nodot_name. auto.
    - apply (case_name_dot id z). apply nodot_name. auto. }
  split.
  { rewrite sx_sw0. destruct sw as [[id vals]|]; cbn; auto. destruct K4 as (L1 & L2 & L3). rewrite NoDup_app_iff in L1. destruct L1 as (M1 & M2 & M3).
    split; auto. split; [|lia]. intros z Hz K. destruct (sx_new0 _ K) as [L|[L|[(id' & vals' & z' & E & Hz' & E')|(id' & z' & E & E')]]].
    - apply (L2 z); auto. apply in_or_app; auto.
    - apply (case_name_dot id z). apply nodot_name. auto.
    - injection E as <- <-. apply case_name_inj in E'. destruct E' as [_ <-]. apply (M3 z); auto.
    - apply case_name_inj in E. destruct E as [<- _]. lia. }
  intros id z K. destruct (sx_new0 _ K) as [L|[L|[(id' & vals' & z' & E & Hz' & E')|(id' & z' & E & E')]]].
  - specialize (K5 _ _ L). lia.
  - destruct (case_name_dot id z). apply nodot_name. auto.
  - apply case_name_inj in E'. destruct E' as [<- <-]. subst sw. lia.
  - apply case_name_inj in E. destruct E as [<- _]. lia.
Qed.
Lemma fresh_body V sw c c' lbls cs : fresh_for V sw c lbls cs -> c_labelID c <= c_labelID c' -> fresh_for V None c' lbls [].
Proof.
  intros (K1 & K2 & K3 & K4 & K5) L. split; [auto|]. split; [auto|]. split; [auto|]. split; [exact Logic.I|]. intros id z K. specialize (K5 id z K). lia.
Qed.
Lemma fresh_le V sw c c' lbls cs : fresh_for V sw c lbls cs -> c_labelID c <= c_labelID c' -> fresh_for V sw c' lbls cs.
Proof.
  intros (K1 & K2 & K3 & K4 & K5) L. split; [auto|]. split; [auto|]. split; [auto|]. split.
  - destruct sw as [[id vals]|]; auto. intuition lia.
  - intros id z K. specialize (K5 id z K). lia.
Qed.
Lemma grown_app sw c1 c2 : grown (grown sw c1) c2 = grown sw (c1 ++ c2).
Proof. destruct sw as [[id vals]|]; cbn; auto. rewrite app_assoc. auto. Qed.
Lemma SX_seq V V1 V2 P0 P b1 b2 n1 n2 l1 l2 c1 c2 a1 a2 sw sw1 sw2 c d e :
  SX V V1 P0 b1 n1 l1 c1 a1 sw c sw1 d -> SX V1 V2 P b2 n2 l2 c2 a2 sw1 d sw2 e ->
  SX V V2 P b2 (n1 + n2) (l1 ++ l2) (c1 ++ c2) (fun sc => a2 (a1 sc)) sw c sw2 e.
Proof.
  intros [] []. pose proof (e_id _ _ sx_ext0). pose proof (e_id _ _ sx_ext1). constructor; auto.
  - eapply ext_trans; eauto.
  - lia.
  - subst. apply grown_app.
  - intros id vals z E Hz. apply in_app_or in Hz. destruct Hz; eauto. subst sw. eapply sx_case1; eauto.
  - intros x K. rewrite in_app_iff. destruct (sx_new1 x K) as [L|[L|[(id & vals & z & E & Hz & ->)|(id & z & -> & L)]]].
    + destruct (sx_new0 x L) as [M|[M|[(id & vals & z & E & Hz & ->)|(id & z & -> & M)]]]; auto.
      * right. right. left. exists id, vals, z. rewrite in_app_iff. auto.
      * right. right. right. exists id, z. split; auto. lia.
    + auto.
    + right. right. left. subst sw1. destruct sw as [[i v]|]; [|discriminate]. cbn in E. injection E as -> <-.
      exists id, v, z. rewrite in_app_iff. auto.
    + right. right. right. exists id, z. split; auto. lia.
Qed.

Section Stmt.
Context {W : Type}.
Variable H : host W.
Variable I : ihost W.
Variable M : module_.
Variable locals : bool.
Variable call : string -> list Z -> act W Z.
Variable Nb : nat.
Hypothesis LK : linked H I M.
Hypothesis CALL : forall x args m w,
  match call x args m w with
  | Val z m' w' => icall I M (globalName x) args m w (XRet z m' w')
  | Halt z w' => icall I M (globalName x) args m w (XExit z w')
  | Stuck => True
  | Limit => busy I M Nb (globalName x) args m w
  end.
Variable chk : bool.
Variable fuel : nat.

(** ** The code side *)
Definition at_label (tg : tgt) (l : string) (fr : frame) : Prop :=
  exists i, assoc l (t_L tg) = Some i /\ fr_blk fr = i /\ fr_idx fr = 0%nat.
Definition entry (tg : tgt) (sw : swctx) (c : cstate) (t : start) (fr : frame) : Prop :=
  match t with
  | None => here c fr /\ opened c
  | Some (TLabel l) => at_label tg l fr
  | Some (TCase z) => exists id vals, sw = Some (id, vals) /\ at_label tg (case_name id z) fr
  end.
Definition leaves (Kb : nat) (tg : tgt) (c' : cstate) (o : res W (flow * env)) fr m w : Prop :=
  match o with
  | Val (Fall, r') m' w' => exists fr', steps I M (t_F tg) (Run fr m w) (Run fr' m' w') /\ here c' fr' /\ opened c' /\ envok tg r' fr'
  | Val (Jump l, r') m' w' => exists fr', steps1 I M (t_F tg) (Run fr m w) (Run fr' m' w') /\ at_label tg l fr' /\ envok tg r' fr'
  | Val (Return z, _) m' w' => steps I M (t_F tg) (Run fr m w) (Done z m' w')
  | Val (Skip, _) _ _ => False
  | Halt z w' => steps I M (t_F tg) (Run fr m w) (Gone z w')
  | Stuck => True
  | Limit => lasts I M Kb (t_F tg) (Run fr m w)
  end.
Definition runs (f : scope -> Z -> start -> env -> act W (flow * env)) (lbls : list string) (cs : list Z) (dir : scope -> Prop)
  (sw : swctx) (c c' : cstate) : Prop :=
  forall tg sc r fr m w t, tgt_ok I tg -> into c' tg -> scope_ok sc c -> dir sc -> has lbls cs t -> entry tg sw c t fr -> envok tg r fr ->
    leaves Nb tg c' (f sc (c_stringID c) t r m w) fr m w.
Definition SOK (s : stmt) : Prop := wfS s -> onecase s -> forall b sw V P c, tidy b s -> II V P c -> (if b then closed c else opened c) ->
  fresh_for V sw c (labels s) (cases s) ->
  pwp (genS chk s sw) (fun sw' c' => exists V', SX V V' P (ends b s) (litsS s) (labels s) (cases s) (fun sc => after sc s) sw c sw' c' /\
    runs (fun sc k t r => exec H locals call fuel sc k s t r) (labels s) (cases s) (fun sc => direct locals sc s) sw c c') c.
Definition LOK (l : stmts) : Prop := wfL l -> onecaseL l -> forall b sw V P c, tidyL b l -> II V P c -> (if b then closed c else opened c) ->
  fresh_for V sw c (labelsL l) (casesL l) ->
  pwp (genL chk l sw) (fun sw' c' => exists V', SX V V' P (endsL b l) (litsL l) (labelsL l) (casesL l) (fun sc => afterL sc l) sw c sw' c' /\
    runs (fun sc k t r => execL H locals call fuel sc k l t r) (labelsL l) (casesL l) (fun sc => directL locals sc l) sw c c') c.

(** ** Composition *)
Lemma leaves_steps Kb tg c' o fr m w fr1 m1 w1 : steps I M (t_F tg) (Run fr m w) (Run fr1 m1 w1) -> leaves Kb tg c' o fr1 m1 w1 -> leaves Kb tg c' o fr m w.
Proof.
  intros S K. destruct o as [[[|l|z|] r'] m' w'|z w'| |]; cbn in *; auto.
  - destruct K as (fr' & K1 & K2). exists fr'. split; auto. eapply steps_trans; eauto.
  - destruct K as (fr' & K1 & K2). exists fr'. split; auto. eapply steps_steps1; eauto.
  - eapply steps_trans; eauto.
  - eapply steps_trans; eauto.
  - eapply lasts_steps; eauto.
Qed.
Lemma leaves_le K1 K2 tg c' o fr m w : leaves K1 tg c' o fr m w -> (K2 <= K1)%nat -> leaves K2 tg c' o fr m w.
Proof. intros K L. destruct o as [[[|l|z|] r'] m' w'|z w'| |]; cbn in *; auto. eapply lasts_le; eauto. Qed.
Lemma leaves_seq Kb tg c1 c' (x : act W (flow * env)) f fr m w : leaves Kb tg c1 (x m w) fr m w ->
  (forall r' m' w' fr', here c1 fr' -> opened c1 -> envok tg r' fr' -> leaves Kb tg c' (f (Fall, r') m' w') fr' m' w') ->
  (forall l r' m' w', f (Jump l, r') m' w' = Val (Jump l, r') m' w') ->
  (forall z r' m' w', f (Return z, r') m' w' = Val (Return z, r') m' w') ->
  leaves Kb tg c' (andthen x f m w) fr m w.
Proof.
  intros K F1 F2 F3. unfold andthen. destruct (x m w) as [[[|l|z|] r'] m' w'|z w'| |]; cbn in K; auto.
  - destruct K as (fr' & K1 & K2 & K3 & K4). eapply leaves_steps; eauto.
  - rewrite F2. exact K.
  - rewrite F3. exact K.
  - contradiction.
Qed.
Lemma leaves_R Kb tg e c1 v c2 c' k sc r (f : Z -> act W (flow * env)) V P V2 P2 n fr m w : (Kb <= Nb)%nat ->
  computes I M locals Nb (callees e) c1 v c2 (fun sc r => rvalue H locals call sc r (c_stringID c1) e) -> k = c_stringID c1 -> II V P c1 -> XPost V2 P2 n c1 v c2 ->
  tgt_ok I tg -> into c2 tg -> scope_ok sc c1 -> noloc locals sc (callees e) -> here c1 fr -> envok tg r fr ->
  (forall z m1 w1 fr1, here c2 fr1 -> envok tg r fr1 -> operand I fr1 v = Some z -> leaves Kb tg c' (f z m1 w1) fr1 m1 w1) ->
  leaves Kb tg c' (andthen (rvalue H locals call sc r k e) f m w) fr m w.
Proof.
  intros HL HC -> HI HX HT HIN HS HN HH HE K. specialize (HC tg sc r fr m w HT HIN HS HN HH HE). cbv beta in HC. unfold andthen.
  destruct (rvalue H locals call sc r (c_stringID c1) e m w) as [z m1 w1|z w1| |]; [|exact HC|exact Logic.I|eapply lasts_le; [exact HL|exact HC]].
  destruct HC as (fr1 & G & HV). eapply leaves_steps; [apply G|]. apply K; auto; [eapply go_here; eauto|].
  eapply env_go; eauto. apply HX.
Qed.
Lemma leaves_done Kb tg c' (x : act W (flow * env)) fr m w : leaves Kb tg c' (andthen x done m w) fr m w -> leaves Kb tg c' (x m w) fr m w.
Proof. unfold andthen, done. destruct (x m w); auto. Qed.
Lemma leaves_fall Kb tg c r fr m w : here c fr -> opened c -> envok tg r fr -> leaves Kb tg c (Val (Fall, r) m w) fr m w.
Proof. intros. exists fr. split; [apply steps_refl|]. auto. Qed.
(** Jumps and branches. *)
Lemma leaves_jump Kb tg c c1 b c2 c3 fr m w r o : ends_block (TBr b) c c1 -> into c1 tg -> here c fr -> c_builder c2 = b -> cur_len c2 = 0%nat ->
  envok tg r fr -> (forall fr1, here c2 fr1 -> envok tg r fr1 -> leaves Kb tg c3 o fr1 m w) -> leaves Kb tg c3 o fr m w.
Proof.
  intros E HIN HH E1 E2 HE K. eapply leaves_steps; [eapply steps_one, st_br, end_at; [exact HH|eapply eb_at; eauto]|].
  apply K; [split; auto|exact HE].
Qed.
Lemma leaves_back Kb tg c c1 b c2 c3 fr m w r o : ends_block (TBr b) c c1 -> into c1 tg -> here c fr -> c_builder c2 = b -> cur_len c2 = 0%nat ->
  envok tg r fr -> (forall fr1, here c2 fr1 -> envok tg r fr1 -> leaves Kb tg c3 o fr1 m w) -> leaves (S Kb) tg c3 o fr m w.
Proof.
  intros E HIN HH E1 E2 HE K. pose proof (leaves_jump Kb tg c c1 b c2 c3 fr m w r o E HIN HH E1 E2 HE K) as L.
  destruct o as [[[|l|z|] r'] m' w'|z w'| |]; cbn in *; auto.
  eapply lasts_more; [exists (Run (goto_blk b fr) m w); split; [eapply st_br, end_at; [exact HH|eapply eb_at; eauto]|apply steps_refl]|].
  apply K; [split; auto|exact HE].
Qed.
Lemma leaves_branch Kb tg c c1 v bt bf z c2 c3 fr m w r o : ends_block (TCondBr v bt bf) c c1 -> into c1 tg -> here c fr -> operand I fr v = Some z ->
  c_builder c2 = (if z =? 0 then bf else bt) -> cur_len c2 = 0%nat -> envok tg r fr ->
  (forall fr1, here c2 fr1 -> envok tg r fr1 -> leaves Kb tg c3 o fr1 m w) -> leaves Kb tg c3 o fr m w.
Proof.
  intros E HIN HH HV E1 E2 HE K. eapply leaves_steps; [eapply steps_one, st_condbr; [eapply end_at; [exact HH|eapply eb_at; eauto]|exact HV]|].
  apply K; [split; auto|exact HE].
Qed.
Lemma leaves_def Kb V P tg c c1 c2 i fr m w z m1 r o : emits i c c1 -> c_nreg c1 = S (c_nreg c) -> into c1 tg -> here c fr -> II V P c -> envok tg r fr ->
  plain I i fr m = Some (set_reg (c_nreg c) z fr, m1) ->
  (forall fr1, here c1 fr1 -> envok tg r fr1 -> operand I fr1 (VReg (c_nreg c)) = Some z -> leaves Kb tg c2 o fr1 m1 w) -> leaves Kb tg c2 o fr m w.
Proof.
  intros E N HIN HH HI HE HP K. destruct (go_def I M tg c c1 i fr m w z m1) as [G R]; auto.
  eapply leaves_steps; [apply G|]. apply K; auto; [eapply go_here; eauto|]. eapply env_go; eauto. apply E.
Qed.
End Stmt.

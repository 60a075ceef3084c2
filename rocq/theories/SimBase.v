(** * SimBase: where generated code lands, and what a piece of it does
    While a function is generated, terminated blocks never change and open
    blocks only grow ([ext]); so an instruction emitted in a state is found at
    the same place in the finished function ([into]). *)
From Coq Require Import List Ascii String ZArith NArith Lia Bool.
From Verif Require Import Base Lexer IR Builder Expr Stmt Decl Wp Syntax Pure ParseGen Pwp Names InvIR InvDecl InvNames Built InvTerm SpecSem IRSem.
Import ListNotations.
Open Scope string_scope.
Open Scope list_scope.
Open Scope Z_scope.
Open Scope m_scope.

(** ** Growth of the function being built *)
Definition extB (bs bs' : list block) : Prop :=
  forall i b, nth_error bs i = Some b -> exists b', nth_error bs' i = Some b' /\
    match b_term b with Some _ => b' = b | None => exists l, b_insts b' = b_insts b ++ l end.
Lemma extB_refl bs : extB bs bs.
Proof. intros i b H. exists b. split; auto. destruct (b_term b); auto. exists []. rewrite app_nil_r. auto. Qed.
Lemma extB_trans a b c : extB a b -> extB b c -> extB a c.
Proof.
  intros H1 H2 i x Hx. destruct (H1 i x Hx) as (y & Hy & K1). destruct (H2 i y Hy) as (z & Hz & K2). exists z. split; auto.
  destruct (b_term x) eqn:E.
  - subst y. rewrite E in K2. auto.
  - destruct K1 as [l K1]. destruct (b_term y).
    + subst z. eauto.
    + destruct K2 as [k K2]. exists (l ++ k). rewrite K2, K1, app_assoc. auto.
Qed.
Record ext (c c' : cstate) : Prop := {
  e_blocks : extB (c_blocks c) (c_blocks c');
  e_nreg : (c_nreg c <= c_nreg c')%nat;
  e_loc : forall x v, assoc x (c_locals c) = Some v -> assoc x (c_locals c') = Some v;
  e_new : forall x v, assoc x (c_locals c') = Some v -> assoc x (c_locals c) = Some v \/ exists r, v = VReg r /\ (c_nreg c <= r)%nat;
  e_lab : forall n b, assoc n (c_labels c) = Some b -> assoc n (c_labels c') = Some b;
  e_gn : incl (gnames c) (gnames c');
  e_fn : incl (fnames c) (fnames c');
  e_id : c_labelID c <= c_labelID c'
}.
Lemma ext_refl c : ext c c.
Proof. constructor; auto using extB_refl, incl_refl; lia. Qed.
Lemma ext_trans a b c : ext a b -> ext b c -> ext a c.
Proof.
  intros [A1 A2 A3 A4 A5 A6 A7 A8] [B1 B2 B3 B4 B5 B6 B7 B8]. constructor; auto; try lia.
  - eapply extB_trans; eauto.
  - intros x v K. destruct (B4 x v K) as [K1|(r & -> & K1)]; auto. right. exists r. split; auto. lia.
  - eapply incl_tran; eauto.
  - eapply incl_tran; eauto.
Qed.

(** ** The finished function *)
(** Its blocks, its local variables, its labels; the symbols of the module. *)
Record tgt := mkTgt { t_F : list block; t_T : list (string * value); t_L : list (string * nat); t_G : list string; t_N : list string }.
Record into (c : cstate) (tg : tgt) : Prop := {
  in_blocks : extB (c_blocks c) (t_F tg);
  in_loc : forall x v, assoc x (c_locals c) = Some v -> assoc x (t_T tg) = Some v;
  in_new : forall x v, assoc x (t_T tg) = Some v -> assoc x (c_locals c) = Some v \/ exists r, v = VReg r /\ (c_nreg c <= r)%nat;
  in_lab : forall n b, assoc n (c_labels c) = Some b -> assoc n (t_L tg) = Some b;
  in_gn : incl (gnames c) (t_G tg);
  in_fn : incl (fnames c) (t_N tg)
}.
Lemma into_ext c c' tg : ext c c' -> into c' tg -> into c tg.
Proof.
  intros [] []. constructor; auto.
  - eapply extB_trans; eauto.
  - intros x v K. destruct (in_new0 x v K) as [K1|(r & -> & K1)]; auto. right. exists r. split; auto. lia.
  - eapply incl_tran; eauto.
  - eapply incl_tran; eauto.
Qed.

(** ** Invariant of the generator *)
Record II (V : string -> Prop) (P : list nat) (c : cstate) : Prop := {
  ii_ti : TI V P c;
  ii_pend : forall i, In i P -> i <> c_builder c /\ exists n, nth_error (c_blocks c) i = Some (mkBlock n [] None);
  ii_loc : forall x v, assoc x (c_locals c) = Some v -> exists r, v = VReg r /\ (r < c_nreg c)%nat;
  ii_glob : forall x full a, assoc x (c_globals c) = Some (full, a) -> full = globalName x /\ In full (gnames c);
  ii_fun : forall x v, assoc x (c_functions c) = Some v -> In (globalName x) (fnames c)
}.
Definition opened (c : cstate) : Prop := exists b, nth_error (c_blocks c) (c_builder c) = Some b /\ b_term b = None.
Lemma not_open_closed c : opened c -> closed c -> False.
Proof. intros (b & H & E) (b' & t & H' & E'). congruence. Qed.
(** The number of instructions of the current block. *)
Definition cur_len (c : cstate) : nat :=
  match nth_error (c_blocks c) (c_builder c) with Some b => List.length (b_insts b) | None => 0%nat end.
(** The tables that expressions do not change. *)
Record stat (c c' : cstate) : Prop := {
  s_loc : c_locals c' = c_locals c;
  s_glob : c_globals c' = c_globals c
}.
Lemma stat_refl c : stat c c. Proof. constructor; auto. Qed.
Lemma stat_trans a b c : stat a b -> stat b c -> stat a c.
Proof. intros [] []. constructor; congruence. Qed.

(** Values that no later instruction changes. *)
Definition vwf (n : nat) (v : value) : Prop := match v with VReg r => (r < n)%nat | VParam _ => False | _ => True end.
Lemma vwf_le n m v : (n <= m)%nat -> vwf n v -> vwf m v.
Proof. destruct v; cbn; auto. lia. Qed.

(** The code found in the finished function. *)
Definition inst_at (tg : tgt) (c : cstate) (i : inst) : Prop :=
  exists b, nth_error (t_F tg) (c_builder c) = Some b /\ nth_error (b_insts b) (cur_len c) = Some i.
Definition term_at (tg : tgt) (c : cstate) (t : term) : Prop :=
  exists b, nth_error (t_F tg) (c_builder c) = Some b /\ cur_len c = List.length (b_insts b) /\ b_term b = Some t.

(** Updating the current block. *)
Lemma extB_upd bs k f : (forall b, nth_error bs k = Some b -> b_term b = None /\ exists l, b_insts (f b) = b_insts b ++ l) ->
  extB bs (upd k f bs).
Proof.
  intros H i b Hb. destruct (Nat.eq_dec k i) as [->|N].
  - exists (f b). rewrite nth_upd_same, Hb. split; auto. destruct (H b Hb) as [E K]. rewrite E. auto.
  - exists b. rewrite nth_upd_other; auto. split; auto. destruct (b_term b); auto. exists []. rewrite app_nil_r. auto.
Qed.
Lemma extB_snoc bs x : extB bs (bs ++ [x]).
Proof.
  intros i b H. exists b. rewrite nth_error_app1 by (eapply nth_lt; eauto). split; auto.
  destruct (b_term b); auto. exists []. rewrite app_nil_r. auto.
Qed.

(** A change of the current block only. *)
Lemma II_upd V P c c' f : c_blocks c' = upd (c_builder c) f (c_blocks c) -> c_builder c' = c_builder c -> c_labels c' = c_labels c ->
  (forall b, b_term (f b) = None -> b_term b = None) -> c_locals c' = c_locals c -> (c_nreg c <= c_nreg c')%nat ->
  c_globals c' = c_globals c -> c_functions c' = c_functions c -> c_mglobals c' = c_mglobals c -> c_mfuncs c' = c_mfuncs c ->
  II V P c -> II V P c'.
Proof.
  intros E1 E2 E3 HF E4 E5 E6 E7 E8 E9 []. constructor.
  - eapply TI_upd; eauto.
  - intros i Hi. destruct (ii_pend0 i Hi) as [K1 K2]. rewrite E1, E2. split; auto. rewrite nth_upd_other; auto.
  - intros x v. rewrite E4. intros K. destruct (ii_loc0 x v K) as (r & -> & L). exists r. split; auto. lia.
  - intros x full a. rewrite E6. unfold gnames. rewrite E8. apply ii_glob0.
  - intros x v. rewrite E7. unfold fnames. rewrite E9. apply ii_fun0.
Qed.

(** ** Elementary actions *)
(** What one instruction does to the state. *)
Record emits (i : inst) (c c' : cstate) : Prop := {
  em_ext : ext c c';
  em_stat : stat c c';
  em_open : opened c';
  em_builder : c_builder c' = c_builder c;
  em_len : cur_len c' = S (cur_len c);
  em_sid : c_stringID c' = c_stringID c;
  em_at : forall tg, into c' tg -> inst_at tg c i
}.
Lemma emits_intro V P i c c' : II V P c -> opened c -> c_blocks c' = upd (c_builder c) (add_inst i) (c_blocks c) ->
  c_builder c' = c_builder c -> c_labels c' = c_labels c -> c_locals c' = c_locals c -> (c_nreg c <= c_nreg c')%nat ->
  c_globals c' = c_globals c -> c_functions c' = c_functions c -> c_mglobals c' = c_mglobals c -> c_mfuncs c' = c_mfuncs c ->
  c_stringID c' = c_stringID c -> c_labelID c' = c_labelID c -> II V P c' /\ emits i c c'.
Proof.
  intros HI HO E1 E2 E3 E4 E5 E6 E7 E8 E9 E10 E11. split.
  { eapply II_upd; eauto. }
  destruct HO as (b & HB & HT).
  assert (HB' : nth_error (c_blocks c') (c_builder c) = Some (add_inst i b)) by (rewrite E1, nth_upd_same, HB; auto).
  constructor; auto.
  - constructor; auto; unfold gnames, fnames; rewrite ?E3, ?E4, ?E8, ?E9; auto using incl_refl; try lia.
    rewrite E1. apply extB_upd. intros b' Hb'. replace b' with b by congruence. split; auto. exists [i]. auto.
  - constructor; auto.
  - exists (add_inst i b). rewrite E2. auto.
  - unfold cur_len. rewrite E2, HB', HB. cbn. rewrite app_length. cbn. lia.
  - intros tg []. destruct (in_blocks0 _ _ HB') as (b' & Hb' & K). cbn in K. rewrite HT in K. destruct K as [l K].
    exists b'. split; auto. unfold cur_len. rewrite HB, K. rewrite <- app_assoc. rewrite nth_error_app2, Nat.sub_diag; auto.
Qed.
Lemma P_emit V P i c : II V P c -> opened c -> pwp (emit i) (fun _ c' => II V P c' /\ emits i c c' /\ c_nreg c' = c_nreg c) c.
Proof.
  intros HI HO. apply pwp_emit. rewrite <- and_assoc. split; auto. eapply emits_intro; eauto.
Qed.
Lemma P_emitR V P mk c : II V P c -> opened c ->
  pwp (emitR mk) (fun v c' => II V P c' /\ emits (mk (c_nreg c)) c c' /\ c_nreg c' = S (c_nreg c) /\ v = VReg (c_nreg c)) c.
Proof.
  intros HI HO. apply pwp_emitR. rewrite <- and_assoc. split; auto. eapply emits_intro; eauto. cbn. lia.
Qed.
(** A terminator. *)
Record ends_block (t : term) (c c' : cstate) : Prop := {
  eb_ext : ext c c';
  eb_stat : stat c c';
  eb_closed : closed c';
  eb_builder : c_builder c' = c_builder c;
  eb_sid : c_stringID c' = c_stringID c;
  eb_nreg : c_nreg c' = c_nreg c;
  eb_at : forall tg, into c' tg -> term_at tg c t
}.
Lemma P_setTerm V P t c : II V P c -> opened c -> pwp (setTerm t) (fun _ c' => II V P c' /\ ends_block t c c') c.
Proof.
  intros HI HO. apply pwp_setTerm. split.
  { eapply (II_upd V P c _ (put_term t)); try reflexivity; auto; cbn; try discriminate; auto. }
  destruct HO as (b & HB & HT).
  match goal with |- ends_block _ _ ?x => set (c' := x) end.
  assert (HB' : nth_error (c_blocks c') (c_builder c) = Some (put_term t b)) by (cbn; rewrite nth_upd_same, HB; auto).
  constructor; auto.
  - constructor; auto using incl_refl; try (cbn; lia).
    cbn. apply extB_upd. intros b' Hb'. replace b' with b by congruence. split; auto. exists []. cbn. rewrite app_nil_r. auto.
  - constructor; auto.
  - exists (put_term t b), t. auto.
  - intros tg []. destruct (in_blocks0 _ _ HB') as (b' & Hb' & K). cbn in K. subst b'.
    exists (put_term t b). split; auto. unfold cur_len. rewrite HB. auto.
Qed.
(** A new block. *)
Record makes (b : nat) (c c' : cstate) : Prop := {
  mk_ext : ext c c';
  mk_stat : stat c c';
  mk_builder : c_builder c' = c_builder c;
  mk_sid : c_stringID c' = c_stringID c;
  mk_nreg : c_nreg c' = c_nreg c;
  mk_len : cur_len c' = cur_len c;
  mk_open : opened c -> opened c';
  mk_closed : closed c -> closed c'
}.
Lemma P_NewBlock V P n c : II V P c -> pwp (NewBlock n) (fun b c' => II V (b :: P) c' /\ makes b c c' /\ ~ In b P /\ b <> c_builder c) c.
Proof.
  intros HI.
  eapply pwp_mono; [apply pwp_and; [apply (T_NewBlock V P n c (ii_ti _ _ _ HI))|
    apply (pwp_NewBlock n (fun b c' => b = List.length (c_blocks c) /\ c' = set_blocks (c_blocks c ++ [mkBlock n [] None]) c)); auto]|].
  cbv beta. intros b c' [[[HT _] HN] [-> ->]].
  assert (LB : (c_builder c < List.length (c_blocks c))%nat) by apply (TI_builder _ _ _ (ii_ti _ _ _ HI)).
  assert (SB : nth_error (c_blocks c ++ [mkBlock n [] None]) (c_builder c) = nth_error (c_blocks c) (c_builder c)) by (rewrite nth_error_app1; auto).
  split; [|split; [|split; auto; lia]].
  - destruct HI. constructor; auto. cbn. intros i [<-|Hi].
    + split; [lia|]. exists n. rewrite nth_error_app2, Nat.sub_diag; auto.
    + destruct (ii_pend0 i Hi) as (K1 & m & K2). split; auto. exists m. rewrite nth_error_app1; auto. eapply nth_lt; eauto.
  - constructor; auto.
    + constructor; auto using incl_refl; try (cbn; lia). cbn. apply extB_snoc.
    + constructor; auto.
    + unfold cur_len. cbn. rewrite SB. auto.
    + unfold opened. cbn. rewrite SB. auto.
    + unfold closed. cbn. rewrite SB. auto.
Qed.
(** Moving to a block made before. *)
Record moves (b : nat) (c c' : cstate) : Prop := {
  mv_ext : ext c c';
  mv_stat : stat c c';
  mv_builder : c_builder c' = b;
  mv_sid : c_stringID c' = c_stringID c;
  mv_nreg : c_nreg c' = c_nreg c;
  mv_len : cur_len c' = 0%nat;
  mv_open : opened c'
}.
Lemma moves_intro b n c : nth_error (c_blocks c) b = Some (mkBlock n [] None) -> moves b c (set_builder b c).
Proof.
  intros E. constructor; auto.
  - constructor; auto using incl_refl, extB_refl; cbn; lia.
  - constructor; auto.
  - unfold cur_len. cbn. rewrite E. auto.
  - exists (mkBlock n [] None). auto.
Qed.
Lemma P_insert V P P' b c : II V P c -> closed c -> In b P -> (forall x, In x P -> x = b \/ In x P') -> incl P' P -> ~ In b P' ->
  pwp (SetInsertPoint b) (fun _ c' => II V P' c' /\ moves b c c') c.
Proof.
  intros HI HC HB H1 H2 H3.
  eapply pwp_mono; [apply pwp_and; [apply (T_insert V P P' b c (ii_ti _ _ _ HI) HC HB H1 H2)|
    apply (pwp_SetInsertPoint b (fun _ c' => c' = set_builder b c)); auto]|].
  cbv beta. intros u c' [[HT _] ->]. destruct HI. destruct (ii_pend0 b HB) as (K1 & n & K2). split.
  - constructor; auto. intros i Hi. destruct (ii_pend0 i (H2 i Hi)) as (L1 & L2). split; auto. cbn. intros ->. auto.
  - eapply moves_intro; eauto.
Qed.
(** Actions that do not touch the code. *)
Record quiet (c c' : cstate) : Prop := {
  qt_ext : ext c c';
  qt_stat : stat c c';
  qt_builder : c_builder c' = c_builder c;
  qt_nreg : c_nreg c' = c_nreg c;
  qt_blocks : c_blocks c' = c_blocks c
}.
Lemma quiet_len c c' : quiet c c' -> cur_len c' = cur_len c.
Proof. intros []. unfold cur_len. rewrite qt_blocks0, qt_builder0. auto. Qed.
Lemma quiet_open c c' : quiet c c' -> opened c -> opened c'.
Proof. intros []. unfold opened. rewrite qt_blocks0, qt_builder0. auto. Qed.
Lemma quiet_closed c c' : quiet c c' -> closed c -> closed c'.
Proof. intros []. unfold closed. rewrite qt_blocks0, qt_builder0. auto. Qed.
Lemma P_nextLabelID V P c : II V P c -> pwp nextLabelID (fun id c' => II V P c' /\ quiet c c' /\ c_stringID c' = c_stringID c /\
  id = c_labelID c /\ c_labelID c' = id + 1) c.
Proof.
  intros HI. apply pwp_nextLabelID. split; [|split; [|auto]].
  - destruct HI. constructor; auto. eapply TI_same; [|eassumption]. repeat split.
  - constructor; auto; constructor; auto using incl_refl, extB_refl; cbn; lia.
Qed.
Lemma P_CreateStringConstant V P s c : II V P c -> pwp (CreateStringConstant s) (fun g c' => II V P c' /\ quiet c c' /\
  g = (".str." ++ dec (c_stringID c))%string /\ c_stringID c' = c_stringID c + 1) c.
Proof.
  intros HI. unfold CreateStringConstant. apply pwp_bind; [auto with pure|]. apply pwp_get. cbv zeta.
  apply pwp_bind; [auto with pure|]. apply pwp_modify. apply pwp_ret.
  match goal with |- II V P ?c' /\ _ => assert (GN : incl (gnames c) (gnames c')) by (unfold gnames; cbn; rewrite map_app; apply incl_appl, incl_refl) end.
  split; [|split; [|auto]].
  - destruct HI. constructor; auto.
    + eapply TI_same; [|eassumption]. repeat split.
    + intros x full a K. destruct (ii_glob0 x full a K). auto.
  - constructor; auto; constructor; auto using incl_refl, extB_refl; cbn; lia.
Qed.
Lemma P_GetOrDeclareFunction V P n c : II V P c -> findFuncByName c n = None -> assoc n (c_globals c) = None ->
  pwp (GetOrDeclareFunction n) (fun o c' => II V P c' /\ quiet c c' /\ c_stringID c' = c_stringID c /\ o = Some (VFun (globalName n) true 0) /\ In (globalName n) (fnames c')) c.
Proof.
  intros HI HF HG. unfold GetOrDeclareFunction. apply pwp_bind; [auto with pure|]. apply pwp_get.
  assert (NF : ~ In (globalName n) (fnames c)) by (apply find_named_none; exact HF).
  destruct (assoc n (c_functions c)) eqn:E.
  { exfalso. apply NF. eapply ii_fun; eauto. }
  rewrite HG. apply pwp_bind; [auto with pure|]. apply pwp_modify. apply pwp_ret.
  match goal with |- II V P ?c' /\ _ => assert (FN : incl (fnames c) (fnames c')) by (apply (fnames_replace n); reflexivity);
    assert (FI : In (globalName n) (fnames c')) by (unfold fnames; cbn; rewrite map_app; apply in_or_app; right; left; auto) end.
  split; [|split; [|auto]].
  - destruct HI. constructor; auto.
    + eapply TI_same; [|eassumption]. repeat split.
    + intros x v. cbn [c_functions set_functions set_used newFunc set_mfuncs assoc fst snd]. destruct (String.eqb_spec x n); subst; auto.
      intros K. apply FN. eapply ii_fun0; eauto.
  - constructor; auto; constructor; auto using incl_refl, extB_refl; cbn; lia.
Qed.

(** ** Running pieces of code *)
Section Go.
Context {W : Type}.
Variable I : ihost W.
Variable M : module_.
(** A number of steps. *)
Variable Nb : nat.

Definition here (c : cstate) (fr : frame) : Prop := fr_blk fr = c_builder c /\ fr_idx fr = cur_len c.
(** Only the registers made between [c] and [c'] may differ. *)
Definition agree (c c' : cstate) (fr fr' : frame) : Prop :=
  forall r, (r < c_nreg c \/ c_nreg c' <= r)%nat -> fr_reg fr' r = fr_reg fr r.
Definition go (tg : tgt) (c : cstate) fr m (w : W) (c' : cstate) fr' m' w' : Prop :=
  steps I M (t_F tg) (Run fr m w) (Run fr' m' w') /\ here c' fr' /\ agree c c' fr fr'.
(** The result [o] of the source is reached: a value satisfying [Q] at [c'], or
    the end of the process; a source that needs more than its bound makes the
    code run for [Nb] steps. *)
Definition reaches {A} (tg : tgt) (c : cstate) fr m (w : W) (c' : cstate) (o : res W A) (Q : A -> frame -> Prop) : Prop :=
  match o with
  | Val a m' w' => exists fr', go tg c fr m w c' fr' m' w' /\ Q a fr'
  | Halt z w' => steps I M (t_F tg) (Run fr m w) (Gone z w')
  | Stuck => True
  | Limit => lasts I M Nb (t_F tg) (Run fr m w)
  end.

Lemma go_refl tg c fr m w : here c fr -> go tg c fr m w c fr m w.
Proof. intros H. split; [apply steps_refl|]. split; auto. intros r _. auto. Qed.
Lemma go_trans tg c fr m w c1 fr1 m1 w1 c2 fr2 m2 w2 : (c_nreg c <= c_nreg c1)%nat -> (c_nreg c1 <= c_nreg c2)%nat ->
  go tg c fr m w c1 fr1 m1 w1 -> go tg c1 fr1 m1 w1 c2 fr2 m2 w2 -> go tg c fr m w c2 fr2 m2 w2.
Proof.
  intros L1 L2 (S1 & A1 & G1) (S2 & A2 & G2). split; [eapply steps_trans; eauto|]. split; auto.
  intros r K. rewrite G2, G1; auto; lia.
Qed.
Lemma reaches_bind {A B} tg c fr m w c1 c2 (x : act W A) (f : A -> act W B) Q1 Q2 :
  (c_nreg c <= c_nreg c1)%nat -> (c_nreg c1 <= c_nreg c2)%nat ->
  reaches tg c fr m w c1 (x m w) Q1 ->
  (forall a m1 w1 fr1, go tg c fr m w c1 fr1 m1 w1 -> Q1 a fr1 -> reaches tg c1 fr1 m1 w1 c2 (f a m1 w1) Q2) ->
  reaches tg c fr m w c2 (andthen x f m w) Q2.
Proof.
  intros L1 L2 R K. unfold andthen. destruct (x m w) as [a m1 w1|z w1| |]; auto. destruct R as (fr1 & G & HQ).
  specialize (K a m1 w1 fr1 G HQ). destruct (f a m1 w1) as [b m2 w2|z w2| |]; auto.
  - destruct K as (fr2 & G2 & HQ2). exists fr2. split; auto. eapply go_trans; eauto.
  - cbn in *. eapply steps_trans; eauto. apply G.
  - cbn in *. eapply lasts_steps; eauto. apply G.
Qed.
Lemma reaches_go {A} tg c fr m w c1 fr1 m1 w1 c2 (o : res W A) Q :
  (c_nreg c <= c_nreg c1)%nat -> (c_nreg c1 <= c_nreg c2)%nat ->
  go tg c fr m w c1 fr1 m1 w1 -> reaches tg c1 fr1 m1 w1 c2 o Q -> reaches tg c fr m w c2 o Q.
Proof.
  intros L1 L2 G R. destruct o as [a m2 w2|z w2| |]; auto.
  - destruct R as (fr2 & G2 & HQ). exists fr2. split; auto. eapply go_trans; eauto.
  - cbn in *. eapply steps_trans; eauto. apply G.
  - cbn in *. eapply lasts_steps; eauto. apply G.
Qed.
Lemma reaches_done {A} tg c fr m w (a : A) (Q : A -> frame -> Prop) : here c fr -> Q a fr -> reaches tg c fr m w c (Val a m w) Q.
Proof. intros H K. exists fr. split; auto using go_refl. Qed.
Lemma reaches_mono {A} tg c fr m w c' (o : res W A) (Q Q' : A -> frame -> Prop) : reaches tg c fr m w c' o Q ->
  (forall a m' w' fr', go tg c fr m w c' fr' m' w' -> Q a fr' -> Q' a fr') -> reaches tg c fr m w c' o Q'.
Proof. destruct o; auto. intros (fr' & G & K) H. exists fr'. eauto. Qed.

Lemma go_operand tg c fr m w c' fr' m' w' v : go tg c fr m w c' fr' m' w' -> vwf (c_nreg c) v -> operand I fr' v = operand I fr v.
Proof. intros (_ & _ & G) H. destruct v; cbn in *; auto. contradiction. Qed.
Lemma go_here tg c fr m w c' fr' m' w' : go tg c fr m w c' fr' m' w' -> here c' fr'.
Proof. intros (_ & H & _). auto. Qed.

Lemma fetch_at tg c fr i : here c fr -> inst_at tg c i -> fetch (t_F tg) fr = Some i.
Proof. intros [E1 E2] (b & H1 & H2). unfold fetch. rewrite E1, E2, H1. auto. Qed.
Lemma end_at tg c fr t : here c fr -> term_at tg c t -> at_end (t_F tg) fr = Some t.
Proof. intros [E1 E2] (b & H1 & H2 & H3). unfold at_end. rewrite E1, E2, H1, H2, Nat.eqb_refl. auto. Qed.

(** One instruction with a result. *)
Lemma go_def tg c c' i fr m w z m' : emits i c c' -> c_nreg c' = S (c_nreg c) -> into c' tg -> here c fr ->
  plain I i fr m = Some (set_reg (c_nreg c) z fr, m') ->
  go tg c fr m w c' (next (set_reg (c_nreg c) z fr)) m' w /\ fr_reg (next (set_reg (c_nreg c) z fr)) (c_nreg c) = Some z.
Proof.
  intros E N HI HH HP. split; [split; [|split]|].
  - eapply steps_one, st_plain; [eapply fetch_at; eauto; apply E; auto|exact HP].
  - destruct HH as [H1 H2]. split; cbn; [rewrite (em_builder _ _ _ E); auto|rewrite (em_len _ _ _ E); auto].
  - intros r K. cbn. destruct (Nat.eqb_spec r (c_nreg c)); auto. lia.
  - cbn. rewrite Nat.eqb_refl. auto.
Qed.
Lemma reach_def {A} tg c c1 c2 i fr m w z m1 (o : res W A) Q : emits i c c1 -> c_nreg c1 = S (c_nreg c) -> into c1 tg -> here c fr ->
  plain I i fr m = Some (set_reg (c_nreg c) z fr, m1) -> (c_nreg c1 <= c_nreg c2)%nat ->
  (forall fr1, go tg c fr m w c1 fr1 m1 w -> operand I fr1 (VReg (c_nreg c)) = Some z -> reaches tg c1 fr1 m1 w c2 o Q) ->
  reaches tg c fr m w c2 o Q.
Proof.
  intros E N HI HH HP L K. destruct (go_def tg c c1 i fr m w z m1) as [G R]; auto.
  eapply reaches_go; [| |exact G|]; try lia. apply K; auto.
Qed.
(** One instruction without. *)
Lemma go_eff tg c c' i fr m w m' : emits i c c' -> c_nreg c' = c_nreg c -> into c' tg -> here c fr ->
  plain I i fr m = Some (fr, m') -> go tg c fr m w c' (next fr) m' w.
Proof.
  intros E N HI HH HP. split; [|split].
  - eapply steps_one, st_plain; [eapply fetch_at; eauto; apply E; auto|exact HP].
  - destruct HH as [H1 H2]. split; cbn; [rewrite (em_builder _ _ _ E); auto|rewrite (em_len _ _ _ E); auto].
  - intros r K. auto.
Qed.
Lemma reach_eff {A} tg c c1 c2 i fr m w m1 (o : res W A) Q : emits i c c1 -> c_nreg c1 = c_nreg c -> into c1 tg -> here c fr ->
  plain I i fr m = Some (fr, m1) -> (c_nreg c1 <= c_nreg c2)%nat ->
  (forall fr1, go tg c fr m w c1 fr1 m1 w -> reaches tg c1 fr1 m1 w c2 o Q) ->
  reaches tg c fr m w c2 o Q.
Proof.
  intros E N HI HH HP L K. pose proof (go_eff tg c c1 i fr m w m1 E N HI HH HP) as G.
  eapply reaches_go; [| |exact G|]; try lia. apply K; auto.
Qed.
(** Branches to a block that is empty so far. *)
Lemma go_jump tg c fr m w b c' : term_at tg c (TBr b) -> here c fr -> c_builder c' = b -> cur_len c' = 0%nat ->
  go tg c fr m w c' (goto_blk b fr) m w.
Proof.
  intros T HH E1 E2. split; [|split].
  - eapply steps_one, st_br. eapply end_at; eauto.
  - split; cbn; auto.
  - intros r K. auto.
Qed.
Lemma go_branch tg c fr m w v bt bf z c' : term_at tg c (TCondBr v bt bf) -> here c fr -> operand I fr v = Some z ->
  c_builder c' = (if z =? 0 then bf else bt) -> cur_len c' = 0%nat ->
  go tg c fr m w c' (goto_blk (c_builder c') fr) m w.
Proof.
  intros T HH HV E1 E2. split; [|split].
  - rewrite E1. eapply steps_one, st_condbr; eauto. eapply end_at; eauto.
  - split; cbn; auto.
  - intros r K. auto.
Qed.
Lemma here_same c c' fr : c_builder c' = c_builder c -> cur_len c' = cur_len c -> here c fr -> here c' fr.
Proof. intros E1 E2 [H1 H2]. split; congruence. Qed.
(** Steps of the generator without code. *)
Lemma go_quiet tg c c' fr m w : c_builder c' = c_builder c -> cur_len c' = cur_len c -> here c fr -> go tg c fr m w c' fr m w.
Proof.
  intros E1 E2 HH. split; [apply steps_refl|]. split; [eapply here_same; eauto|]. intros r K. auto.
Qed.
End Go.

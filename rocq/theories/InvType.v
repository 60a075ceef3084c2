(** * InvType: the generated instructions get operands of the right types *)
From Coq Require Import List Ascii String ZArith NArith Lia Bool.
From Verif Require Import Base Lexer IR Builder Expr Stmt Decl Wp Syntax Pure Pwp SpecIR SpecValid ParseGen InvIR InvDecl Built.
Import ListNotations.
Open Scope Z_scope.
Open Scope m_scope.

Definition ht (c : cstate) (v : value) (t : ty) : Prop := has_type (c_blocks c) v t.
(** Growing states. *)
Record more (c c' : cstate) : Prop := {
  more_blocks : (List.length (c_blocks c) <= List.length (c_blocks c'))%nat;
  more_insts : incl (all_insts (c_blocks c)) (all_insts (c_blocks c'))
}.
Lemma more_refl c : more c c. Proof. constructor; auto using incl_refl. Qed.
Lemma more_trans a b c : more a b -> more b c -> more a c.
Proof. intros [] []. constructor; eauto using incl_tran; lia. Qed.
Lemma ht_more c c' v t : more c c' -> ht c v t -> ht c' v t.
Proof. intros [_ H]. destruct v; cbn; auto. intros (i & K & E). exists i. auto. Qed.
Lemma bok_more c c' b : more c c' -> bok c b -> bok c' b.
Proof. intros [H _]. unfold bok. lia. Qed.
Definition all_ht (c : cstate) (l : list (value * ty)) : Prop := Forall (fun p => ht c (fst p) (snd p)) l.
Lemma all_ht_more c c' l : more c c' -> all_ht c l -> all_ht c' l.
Proof. intros H. apply Forall_impl. intros. eapply ht_more; eauto. Qed.
Definition args_ht (c : cstate) (l : list value) : Prop := Forall (fun v => ht c v TyInt) l.
Lemma args_ht_more c c' l : more c c' -> args_ht c l -> args_ht c' l.
Proof. intros H. apply Forall_impl. intros. eapply ht_more; eauto. Qed.
Definition is_fun (v : value) : Prop := match v with VFun _ _ _ => True | _ => False end.

Record TY (c : cstate) : Prop := {
  TY_builder : bok c (c_builder c);
  TY_labels : Forall (fun p => bok c (snd p)) (c_labels c);
  TY_locals : Forall (fun p => ht c (snd p) TyPtr) (c_locals c);
  TY_insts : Forall (fun i => all_ht c (wanted i)) (all_insts (c_blocks c));
  TY_terms : Forall (fun t => all_ht c (term_wanted t)) (flat_map block_terms (c_blocks c));
  TY_functions : Forall (fun p => is_fun (snd p)) (c_functions c)
}.
Definition ypost {A} (c : cstate) (P : A -> cstate -> Prop) (a : A) (c' : cstate) : Prop :=
  TY c' /\ more c c' /\ P a c'.

(** ** Primitives *)
Lemma insts_upd i n bs x : (n < List.length bs)%nat -> In x (all_insts (upd n (add_inst i) bs)) <-> x = i \/ In x (all_insts bs).
Proof.
  intros H. destruct (nth_error bs n) as [b|] eqn:E; [|apply nth_error_None in E; lia].
  destruct (upd_split n (add_inst i) bs b E) as (l1 & l2 & -> & _ & ->). unfold all_insts.
  rewrite !flat_map_app. cbn [flat_map add_inst b_insts]. rewrite !in_app_iff. cbn. intuition.
Qed.
Lemma insts_put t n bs : all_insts (upd n (put_term t) bs) = all_insts bs.
Proof. unfold all_insts. rewrite !flat_map_concat_map. f_equal. apply map_upd. auto. Qed.
Lemma terms_add i n bs : flat_map block_terms (upd n (add_inst i) bs) = flat_map block_terms bs.
Proof. rewrite !flat_map_concat_map. f_equal. apply map_upd. auto. Qed.
Lemma terms_put t n bs x : In x (flat_map block_terms (upd n (put_term t) bs)) -> x = t \/ In x (flat_map block_terms bs).
Proof.
  destruct (nth_error bs n) as [b|] eqn:E.
  - destruct (upd_split n (put_term t) bs b E) as (l1 & l2 & -> & _ & ->).
    rewrite !flat_map_app. cbn [flat_map put_term block_terms b_term]. rewrite !in_app_iff. cbn. intuition.
  - intros K. right. replace bs with (upd n (put_term t) bs); auto. clear K. revert n E.
    induction bs as [|y bs IH]; intros [|n] E; cbn in *; try discriminate; auto. f_equal. auto.
Qed.

Lemma TY_grow c c' : TY c -> more c c' -> c_builder c' = c_builder c -> c_labels c' = c_labels c ->
  c_locals c' = c_locals c -> c_functions c' = c_functions c ->
  (forall i, In i (all_insts (c_blocks c')) -> In i (all_insts (c_blocks c)) \/ all_ht c' (wanted i)) ->
  (forall t, In t (flat_map block_terms (c_blocks c')) -> In t (flat_map block_terms (c_blocks c)) \/ all_ht c' (term_wanted t)) ->
  TY c'.
Proof.
  intros [] M E1 E2 E3 E4 HI HT. constructor; rewrite ?E1, ?E2, ?E3, ?E4; auto.
  - eapply bok_more; eauto.
  - eapply Forall_impl; [|eassumption]. cbn. intros. eapply bok_more; eauto.
  - eapply Forall_impl; [|eassumption]. cbn. intros. eapply ht_more; eauto.
  - rewrite Forall_forall in *. intros i K. destruct (HI i K); auto. eapply all_ht_more; eauto.
  - rewrite Forall_forall in *. intros i K. destruct (HT i K); auto. eapply all_ht_more; eauto.
Qed.
Lemma Y_emitR mk c t : TY c -> (forall r, assigns (mk r) = [r] /\ result_type (mk r) = t) -> (forall r, all_ht c (wanted (mk r))) ->
  pwp (emitR mk) (ypost c (fun v c' => ht c' v t)) c.
Proof.
  intros HT HA HI. apply pwp_emitR. pose proof (TY_builder _ HT) as B. unfold bok in B.
  assert (M : more c (emitted mk c)).
  { constructor; cbn; [rewrite upd_length; auto|]. intros x K. apply insts_upd; auto. }
  split; [|split; auto].
  - apply (TY_grow c); auto; cbn.
    + intros i K. apply insts_upd in K; auto. destruct K as [->|K]; auto. right. eapply all_ht_more; eauto.
    + intros x. rewrite terms_add. auto.
  - exists (mk (c_nreg c)). split; [|apply HA]. cbn. apply insts_upd; auto.
Qed.
Lemma Y_emit i c : TY c -> all_ht c (wanted i) -> pwp (emit i) (ypost c (fun _ _ => True)) c.
Proof.
  intros HT HI. apply pwp_emit. pose proof (TY_builder _ HT) as B. unfold bok in B.
  match goal with |- ypost _ _ _ ?c' => assert (M : more c c') end.
  { constructor; cbn; [rewrite upd_length; auto|]. intros x K. apply insts_upd; auto. }
  split; [|split; auto]. apply (TY_grow c); auto; cbn.
  - intros x K. apply insts_upd in K; auto. destruct K as [->|K]; auto. right. eapply all_ht_more; eauto.
  - intros x. rewrite terms_add. auto.
Qed.
Lemma Y_setTerm t c : TY c -> all_ht c (term_wanted t) -> pwp (setTerm t) (ypost c (fun _ _ => True)) c.
Proof.
  intros HT HI. apply pwp_setTerm. pose proof (TY_builder _ HT) as B. unfold bok in B.
  match goal with |- ypost _ _ _ ?c' => assert (M : more c c') end.
  { constructor; cbn; [rewrite upd_length; auto|]. rewrite insts_put. apply incl_refl. }
  split; [|split; auto]. apply (TY_grow c); auto; cbn.
  - rewrite insts_put. auto.
  - intros x K. apply terms_put in K. destruct K as [->|K]; auto. right. eapply all_ht_more; eauto.
Qed.
Lemma more_newblock n c : more c (set_blocks (c_blocks c ++ [mkBlock n [] None]) c).
Proof. constructor; cbn; [rewrite app_length; lia|]. unfold all_insts. rewrite flat_map_app. apply incl_appl, incl_refl. Qed.
Lemma Y_NewBlock n c : TY c -> pwp (NewBlock n) (ypost c (fun b c' => bok c' b)) c.
Proof.
  intros HT. apply pwp_NewBlock. pose proof (more_newblock n c) as M. split; [|split; auto].
  - apply (TY_grow c); auto; cbn; intros x; [unfold all_insts|]; rewrite flat_map_app; cbn; rewrite app_nil_r; auto.
  - unfold bok. cbn. rewrite app_length. cbn. lia.
Qed.
Lemma Y_SetInsertPoint b c : TY c -> bok c b -> pwp (SetInsertPoint b) (ypost c (fun _ _ => True)) c.
Proof. intros [] HB. apply pwp_SetInsertPoint. split; [constructor; auto|split; [constructor; auto using incl_refl|auto]]. Qed.
Lemma Y_GetInsertBlock c : TY c -> pwp GetInsertBlock (ypost c (fun _ _ => True)) c.
Proof. intros H. apply pwp_GetInsertBlock. split; [auto|split; [apply more_refl|auto]]. Qed.
Lemma Y_bind_local n v c : TY c -> ht c v TyPtr -> pwp (bind_local n v) (ypost c (fun _ _ => True)) c.
Proof.
  intros [] HV. apply pwp_bind_local. split; [constructor; auto|split; [constructor; auto using incl_refl|auto]].
  cbn. constructor; auto.
Qed.
Lemma Y_nextLabelID c : TY c -> pwp nextLabelID (ypost c (fun _ _ => True)) c.
Proof. intros []. apply pwp_nextLabelID. split; [constructor; auto|split; [constructor; auto using incl_refl|auto]]. Qed.
Lemma Y_GetOrCreateLabel n c : TY c -> pwp (GetOrCreateLabel n) (ypost c (fun b c' => bok c' b)) c.
Proof.
  intros HT. unfold GetOrCreateLabel. apply pwp_bind; [auto with pure|]. apply pwp_get.
  destruct (assoc n (c_labels c)) as [b|] eqn:E.
  - apply pwp_ret. split; [auto|split; [apply more_refl|]]. apply assoc_In in E. destruct HT.
    rewrite Forall_forall in TY_labels0. apply (TY_labels0 _ E).
  - eapply pwp_use; [auto with pure|apply Y_NewBlock; auto|]. intros b c' (HT' & HM & HB).
    apply pwp_bind; [auto with pure|]. apply pwp_modify. apply pwp_ret. split; [|split; [|exact HB]].
    + destruct HT'. constructor; auto. cbn. constructor; auto.
    + destruct HM. constructor; auto.
Qed.
Lemma Y_ret {A} (a : A) c (P : A -> cstate -> Prop) : TY c -> P a c -> pwp (ret a) (ypost c P) c.
Proof. intros. apply pwp_ret. split; [auto|split; [apply more_refl|auto]]. Qed.
(** Changes of the module only. *)
Definition samefn (c c' : cstate) : Prop :=
  c_blocks c' = c_blocks c /\ c_builder c' = c_builder c /\ c_labels c' = c_labels c /\ c_locals c' = c_locals c.
Lemma Y_module {A} (a : A) c c' (P : A -> cstate -> Prop) : TY c -> samefn c c' -> Forall (fun p => is_fun (snd p)) (c_functions c') -> P a c' -> ypost c P a c'.
Proof.
  intros [] (E1 & E2 & E3 & E4) HF HP. unfold ypost. split; [|split; auto].
  - constructor; unfold bok, all_ht, ht in *; rewrite ?E1, ?E2, ?E3, ?E4; auto.
  - constructor; rewrite E1; auto using incl_refl.
Qed.
Lemma Y_GetOrDeclareFunction n c : TY c ->
  pwp (GetOrDeclareFunction n) (ypost c (fun o _ => match o with Some v => is_fun v | None => True end)) c.
Proof.
  intros HT. unfold GetOrDeclareFunction. apply pwp_bind; [auto with pure|]. apply pwp_get.
  destruct (assoc n (c_functions c)) as [fn|] eqn:E1.
  { apply Y_ret; auto. apply assoc_In in E1. destruct HT. rewrite Forall_forall in TY_functions0. apply (TY_functions0 _ E1). }
  destruct (assoc n (c_globals c)) eqn:E2; [apply Y_ret; auto|].
  cbv zeta. apply pwp_bind; [auto with pure|]. apply pwp_modify. apply pwp_ret.
  apply Y_module; auto; [repeat split| |exact I]. cbn. constructor; [exact I|apply HT].
Qed.
Lemma Y_CreateStringConstant s c : TY c -> pwp (CreateStringConstant s) (ypost c (fun _ _ => True)) c.
Proof.
  intros HT. unfold CreateStringConstant. apply pwp_bind; [auto with pure|]. apply pwp_get. cbv zeta.
  apply pwp_bind; [auto with pure|]. apply pwp_modify. apply pwp_ret. apply Y_module; auto; [repeat split|apply HT].
Qed.
Lemma Y_externName n c : TY c -> pwp (externName n) (ypost c (fun _ _ => True)) c.
Proof.
  intros HT. unfold externName. apply pwp_bind; [auto with pure|]. apply pwp_get.
  destruct (findGlobalByName c n) as [g|]; [apply pwp_modify; apply Y_module; auto; [repeat split|apply HT]|].
  destruct (findFuncByName c n); [apply pwp_err|]. destruct (mem n (c_used c)); [apply pwp_err|].
  cbv zeta. apply pwp_modify; apply Y_module; auto; [repeat split|apply HT].
Qed.

Ltac allht := solve [repeat (first [apply Forall_nil | apply Forall_cons; [cbn [fst snd]; first [assumption | reflexivity]|]])].
Ltac pw lem := eapply pwp_use; [solve [auto with pure nocore | pure_tac] | lem | cbv beta].
Ltac carry M :=
  repeat match goal with
  | H : ht ?c ?v ?t |- _ => match type of M with more c ?c' => apply (ht_more c c' v t M) in H end
  | H : bok ?c ?v |- _ => match type of M with more c ?c' => apply (bok_more c c' v M) in H end
  | H : args_ht ?c ?v |- _ => match type of M with more c ?c' => apply (args_ht_more c c' v M) in H end
  end.
Ltac nx :=
  let a := fresh "v" in let c' := fresh "c" in let HT := fresh "HT" in let HM := fresh "HM" in let HV := fresh "HV" in
  intros a c' (HT & HM & HV); cbv beta in HV; carry HM.
Ltac done := split; [assumption|split; [eauto 30 using more_trans, more_refl|cbn; auto]].
Ltac em := pw ltac:(eapply Y_emitR; [assumption|intros ?; cbn [assigns result_type]; split; reflexivity|intros ?; cbn [wanted]; allht]); nx; cbn [result_type] in *.
Ltac em1 := eapply pwp_mono; [eapply Y_emitR; [assumption|intros ?; cbn [assigns result_type]; split; reflexivity|intros ?; cbn [wanted]; allht]|]; nx; cbn [result_type] in *.
Ltac em0 := pw ltac:(apply Y_emit; [assumption|cbn [wanted]; allht]); nx.
Ltac st := pw ltac:(apply Y_setTerm; [assumption|cbn [term_wanted]; allht]); nx.
Ltac nb := pw ltac:(apply Y_NewBlock; assumption); nx.
Ltac ip := pw ltac:(apply Y_SetInsertPoint; assumption); nx.
Ltac ib := pw ltac:(apply Y_GetInsertBlock; assumption); nx.
Ltac nl := pw ltac:(apply Y_nextLabelID; assumption); nx.
Ltac gl := pw ltac:(apply Y_GetOrCreateLabel; assumption); nx.

Lemma Y_rval v (b : bool) c : TY c -> ht c v (if b then TyPtr else TyInt) -> pwp (rval v b) (ypost c (fun v c' => ht c' v TyInt)) c.
Proof. intros HT HV. unfold rval. destruct b; [em1; done|apply Y_ret; auto]. Qed.
Ltac rv := pw ltac:(apply Y_rval; assumption); nx.
Lemma Y_cmpz p a b c : TY c -> ht c a TyInt -> ht c b TyInt -> pwp (cmpz p a b) (ypost c (fun v c' => ht c' v TyInt)) c.
Proof.
  intros HT HA HB. unfold cmpz. em. em1. done.
Qed.
Lemma Y_applyCop o a b c : TY c -> ht c a TyInt -> ht c b TyInt -> pwp (applyCop o a b) (ypost c (fun v c' => ht c' v TyInt)) c.
Proof.
  intros HT HA HB. destruct o; cbn [applyCop]; [|apply Y_cmpz; auto]. em1. done.
Qed.
Lemma call_wanted c f args : ht c f TyPtr -> args_ht c args -> all_ht c ((f, TyPtr) :: map (fun a => (a, TyInt)) args).
Proof. intros H1 H2. constructor; auto. apply Forall_map. exact H2. Qed.
Ltac ca := eapply pwp_mono; [eapply Y_emitR; [assumption|intros ?; cbn [assigns result_type]; split; reflexivity|intros ?; apply call_wanted; auto]|]; nx; cbn [result_type] in *; done.
Lemma Y_doCall f args c : TY c -> is_fun f \/ ht c f TyInt -> args_ht c args -> pwp (doCall f args) (ypost c (fun v c' => ht c' v TyInt)) c.
Proof.
  intros HT HF HA. unfold doCall.
  assert (IND : ht c f TyInt -> let many := (1 <=? Datatypes.length args)%nat in
    pwp (p <- emitR (fun r => IIntToPtr r f);; emitR (fun r => ICall r p (if many then 1%nat else 0%nat) many args)) (ypost c (fun v c' => ht c' v TyInt)) c).
  { intros HI many. em. ca. }
  destruct f as [z|r|n|n v k|p]; try (apply IND; destruct HF as [[]|HF]; exact HF).
  assert (HP : ht c (VFun n v k) TyPtr) by reflexivity.
  destruct (_ && _).
  - em. ca.
  - ca.
Qed.
Lemma Y_incDec o p c : TY c -> ht c p TyPtr -> pwp (incDec o p) (ypost c (fun v c' => ht c' v TyInt)) c.
Proof. intros HT HP. unfold incDec. em. em. em0. apply pwp_ret. done. Qed.
Lemma Y_brIfOpen b c : TY c -> pwp (brIfOpen b) (ypost c (fun _ _ => True)) c.
Proof.
  intros HT. unfold brIfOpen. apply pwp_bind; [auto with pure|]. apply pwp_termIsNil. intros [] _ _; cbv iota.
  - apply Y_setTerm; auto. constructor.
  - apply Y_ret; auto.
Qed.
Ltac br := pw ltac:(apply Y_brIfOpen; assumption); nx.

Lemma Y_GetAddress n c : TY c -> pwp (GetAddress n) (ypost c (fun o c' => match o with Some v => ht c' v TyPtr | None => True end)) c.
Proof.
  intros HT. unfold GetAddress. apply pwp_bind; [auto with pure|]. apply pwp_get.
  destruct (assoc n (c_locals c)) as [v|] eqn:E1.
  { apply Y_ret; auto. apply assoc_In in E1. destruct HT. rewrite Forall_forall in TY_locals0. apply (TY_locals0 _ E1). }
  destruct (assoc n (c_globals c)) as [[full [|]]|] eqn:E2.
  - em. apply pwp_ret. split; auto.
  - apply Y_ret; auto. reflexivity.
  - apply Y_ret; auto.
Qed.

(** ** Expressions *)
Definition etype (l : bool) : ty := if l then TyPtr else TyInt.
Definition eypost (c : cstate) : value * bool -> cstate -> Prop := ypost c (fun p c' => ht c' (fst p) (etype (snd p))).
Lemma Y_genVar q n c : TY c -> pwp (genVar q n) (eypost c) c.
Proof.
  intros HT. unfold genVar. pw ltac:(apply Y_GetAddress; assumption). nx. destruct v as [v|].
  { apply pwp_ret. done. }
  destruct q; [apply pwp_err|]. apply pwp_bind; [auto with pure|]. apply pwp_get.
  destruct (findFuncByName c0 n) as [f|] eqn:E.
  - assert (ht c0 (fun_value f) TyPtr) by reflexivity. em. apply pwp_ret. done.
  - pw ltac:(apply Y_GetOrDeclareFunction; assumption). nx. destruct v as [v|]; [|apply pwp_err].
    assert (ht c1 v TyPtr) by (destruct v; cbn in HV0; contradiction || reflexivity).
    em. apply pwp_ret. done.
Qed.
Lemma Y_genCallee n c : TY c -> pwp (genCallee n) (ypost c (fun (p : value * bool) c' => if snd p then ht c' (fst p) TyPtr else is_fun (fst p))) c.
Proof.
  intros HT. unfold genCallee. apply pwp_bind; [auto with pure|]. apply pwp_get.
  destruct (findFuncByName c n) as [f|] eqn:E.
  { apply Y_ret; auto. exact I. }
  destruct (assoc n (c_globals c)) as [[full b]|] eqn:E2.
  { apply Y_ret; auto. reflexivity. }
  pw ltac:(apply Y_GetOrDeclareFunction; assumption). nx. destruct v as [v|]; [|apply pwp_err].
  apply pwp_ret. done.
Qed.

Lemma Y_gen_all chk :
  (forall e, goodE e -> forall q c, TY c -> pwp (gen chk q e) (eypost c) c) /\
  (forall l, goodEs l -> forall c, TY c -> pwp (genArgs chk l) (ypost c (fun vs c' => args_ht c' vs)) c).
Proof.
  Ltac sub IH := pw ltac:(apply IH; assumption); 
    let v := fresh "v" in let b := fresh "b" in let c' := fresh "c" in let HT := fresh "HT" in let HM := fresh "HM" in let HV := fresh "HV" in
    intros [v b] c' (HT & HM & HV); cbn [fst snd] in HV; carry HM; cbv beta iota.
  apply expr_exprs_ind; cbn [goodE goodEs]; intros; repeat match goal with H : _ /\ _ |- _ => destruct H end; ugen.
  - apply Y_ret; auto. reflexivity.
  - pw ltac:(apply Y_CreateStringConstant; assumption). nx. assert (ht c0 (VGlob v) TyPtr) by reflexivity.
    em. em. apply pwp_ret. done.
  - apply Y_genVar; auto.
  - contradiction.
  - sub H. rv. apply pwp_ret. done.
  - sub H. rv. em. sub H0. rv. em. apply pwp_ret. done.
  - assert (K : pwp (gen chk false f) (ypost c (fun (p : value * bool) c' => if snd p then ht c' (fst p) TyPtr else is_fun (fst p) \/ ht c' (fst p) TyInt)) c).
    { assert (D : (exists n, f = ECallee n) \/ goodE f) by (destruct f; eauto).
      destruct D as [(n & ->)|D].
      - ugen. eapply pwp_mono; [apply Y_genCallee; auto|]. intros [v b] c' (? & ? & HV). split; [auto|]. split; [auto|]. cbn [fst snd] in *. destruct b; auto.
      - eapply pwp_mono; [apply H; auto|]. intros [v b] c' (? & ? & HV). split; [auto|]. split; [auto|]. cbn [fst snd] in *. destruct b; auto. }
    pw ltac:(exact K). intros [v b] c1 (HT & HM & HV). cbn [fst snd] in HV. cbv beta iota.
    pw ltac:(instantiate (1 := ypost c1 (fun v c' => is_fun v \/ ht c' v TyInt))).
    { unfold rval. destruct b; [|apply Y_ret; auto].
      eapply pwp_mono; [eapply Y_emitR; [assumption|intros ?; cbn [assigns result_type]; split; reflexivity|intros ?; cbn [wanted]; allht]|]. nx. done. }
    intros v0 c2 (HT0 & HM0 & HV0). cbv beta in HV0.
    pw ltac:(apply H0; assumption). intros vs c3 (HT1 & HM1 & HV1).
    assert (HV2 : is_fun v0 \/ ht c3 v0 TyInt) by (destruct HV0; auto; right; eapply ht_more; eauto).
    pw ltac:(apply Y_doCall; assumption). nx. apply pwp_ret. done.
  - sub H. destruct b; [|apply pwp_err]. pw ltac:(apply Y_incDec; assumption). nx. apply pwp_ret. done.
  - sub H. destruct b; [|apply pwp_err]. pw ltac:(apply Y_incDec; assumption). nx. apply pwp_ret. done.
  - sub H. rv. pw ltac:(apply Y_cmpz; [assumption|assumption|reflexivity]). nx. apply pwp_ret. done.
  - sub H. rv. em. apply pwp_ret. done.
  - sub H. rv. em. apply pwp_ret. done.
  - sub H. destruct b; [|apply pwp_err]. em. apply pwp_ret. done.
  - sub H. rv. sub H0. rv. pw ltac:(apply Y_applyCop; assumption). nx. apply pwp_ret. done.
  - sub H. rv. nl. nb. nb. nb. em. st. ip. sub H0. rv. ib. st. ip. sub H1. rv. ib. st. ip.
    em. apply pwp_ret. done.
  - sub H. destruct b0; [|apply pwp_err]. sub H0. rv. destruct op as [o|].
    + em. pw ltac:(apply Y_applyCop; assumption). nx. em0. apply pwp_ret. done.
    + em0. apply pwp_ret. done.
  - apply Y_ret; auto. constructor.
  - sub H. rv. pw ltac:(apply H0; assumption). nx. apply pwp_ret. split; [assumption|split; [eauto 30 using more_trans, more_refl|]]. constructor; auto.
Qed.
Lemma Y_genR chk q e c : goodE e -> TY c -> pwp (genR chk q e) (ypost c (fun v c' => ht c' v TyInt)) c.
Proof.
  intros HE HT. unfold genR.
  eapply pwp_use; [solve [auto with pure nocore | pure_tac]|apply (proj1 (Y_gen_all chk)); auto|].
  intros [v b] c' (HT1 & HM & HV). cbn [fst snd] in HV. cbv beta iota.
  eapply pwp_mono; [apply Y_rval; auto|]. nx. done.
Qed.

(** ** Statements *)
Lemma Y_declareAutos l : forall c, TY c -> pwp (declareAutos l) (ypost c (fun _ _ => True)) c.
Proof.
  induction l as [|[n z] l IH]; intros c HT; cbn [declareAutos]; [apply Y_ret; auto|].
  assert (forall z c, ht c (VInt z) TyInt) as HC by reflexivity.
  pw ltac:(idtac).
  - instantiate (1 := ypost c (fun _ _ => True)). destruct (z =? -1).
    + unfold DeclareLocal. em. em0. eapply pwp_mono; [apply Y_bind_local; auto|]. nx. done.
    + unfold DeclareLocalArray. cbv zeta. em. em. em. em. em0. eapply pwp_mono; [apply Y_bind_local; auto|]. nx. done.
  - nx. eapply pwp_mono; [apply IH; auto|]. nx. done.
Qed.
Lemma Y_genExtrn l : forall c, TY c -> pwp (genExtrn l) (ypost c (fun _ _ => True)) c.
Proof.
  induction l as [|n l IH]; intros c HT; cbn [genExtrn]; [apply Y_ret; auto|].
  pw ltac:(apply Y_externName; assumption). nx. eapply pwp_mono; [apply IH; auto|]. nx. done.
Qed.
Lemma Y_switchCases id l : forall c, TY c -> pwp (switchCases id l) (ypost c (fun _ _ => True)) c.
Proof.
  induction l as [|z l IH]; intros c HT; cbn [switchCases]; [apply Y_ret; cbn; auto|].
  gl. pw ltac:(apply IH; assumption). nx. apply pwp_ret. done.
Qed.
Lemma Y_genS_all chk :
  (forall s, goodS s -> forall sw c, TY c -> pwp (genS chk s sw) (ypost c (fun _ _ => True)) c) /\
  (forall l, goodL l -> forall sw c, TY c -> pwp (genL chk l sw) (ypost c (fun _ _ => True)) c).
Proof.
  Ltac ge := pw ltac:(apply Y_genR; assumption); nx.
  Ltac gs IH := pw ltac:(apply IH; assumption); nx.
  assert (forall z c, ht c (VInt z) TyInt) as HC by reflexivity.
  apply stmt_stmts_ind; cbn [goodS goodL]; intros; repeat match goal with H : _ /\ _ |- _ => destruct H end; ugenS.
  - apply Y_ret; auto.
  - ge. apply pwp_ret. done.
  - apply H; auto.
  - destruct e as [e|].
    + ge. st. apply pwp_ret. done.
    + st. apply pwp_ret. done.
  - pw ltac:(apply P_checkAutos). intros _ c1 ->. pw ltac:(apply Y_declareAutos; assumption). nx. apply pwp_ret. done.
  - pw ltac:(apply Y_genExtrn; assumption). nx. apply pwp_ret. done.
  - ge. nl. nb. nb. nb. em. st. ip. gs H. br. ip. br. ip. apply pwp_ret. done.
  - ge. nl. nb. nb. nb. em. st. ip. gs H. br. ip. gs H0. br. ip. apply pwp_ret. done.
  - nl. nb. nb. nb. st. ip. ge. em. st. ip. gs H. br. ip. apply pwp_ret. done.
  - nl. ge. nb. nb. nb. st. ip. gs H. br. ip.
    apply pwp_bind; [pure_tac|].
    assert (K : forall t c', TY c' -> more c c' -> bok c' v3 -> all_ht c' (term_wanted t) ->
      pwp (setTerm t) (fun _ c' => pwp (SetInsertPoint v3 ;;; ret sw) (ypost c (fun _ _ => True)) c') c').
    { intros t c' K1 K2 K3 K4. eapply pwp_mono; [apply Y_setTerm; auto|]. nx. ip. apply pwp_ret. done. }
    destruct v6 as [[id' [|z vals]]|]; try (apply K; auto; [eauto 30 using more_trans|constructor]).
    pw ltac:(apply Y_switchCases; assumption). nx. apply K; auto; [eauto 30 using more_trans|cbn [term_wanted]; allht].
  - destruct sw as [[id vals]|]; [|apply pwp_err]. gl. br. ip. eapply pwp_mono; [apply H; auto|]. nx. done.
  - gl. st. nl. nb. ip. apply pwp_ret. done.
  - gl. br. ip. eapply pwp_mono; [apply H; auto|]. nx. done.
  - apply Y_ret; auto.
  - pw ltac:(apply H; assumption). nx. eapply pwp_mono; [apply H0; auto|]. nx. done.
Qed.

(** ** Functions *)
Lemma Y_getOrCreateFunc n c : TY c -> pwp (getOrCreateFunc n) (ypost c (fun _ _ => True)) c.
Proof.
  intros HT. apply pwp_modify. destruct (find_named f_name n (c_mfuncs c)); apply Y_module; auto; try apply HT; repeat split.
Qed.
Lemma Y_va_params va l : forall c, TY c -> ht c va TyPtr -> pwp (va_params va l) (ypost c (fun _ _ => True)) c.
Proof.
  induction l as [|n l IH]; intros c HT HV; cbn [va_params]; [apply Y_ret; auto|].
  em. em. em0. pw ltac:(apply Y_bind_local; assumption). nx. eapply pwp_mono; [apply IH; auto|]. nx. done.
Qed.
Lemma Y_start name params c : DI [] c -> pwp (start_of name params) (fun _ c1 => TY c1) c.
Proof.
  intros HD. pose proof (DI_functions _ _ HD) as HF. unfold start_of, DeclareFunction. apply pwp_bind; [pure_tac|]. apply pwp_bind; [auto with pure|]. apply pwp_modify. apply pwp_ret.
  unfold StartFunction. apply pwp_bind; [auto with pure|]. apply pwp_modify. apply pwp_bind; [auto with pure|]. apply pwp_get.
  cbv zeta. match goal with |- pwp _ _ ?c' => set (c1 := c') end.
  assert (HT : TY c1).
  { constructor; [unfold bok; cbn; lia|..]; cbn; rewrite ?HF; repeat constructor. }
  assert (EP : assoc name (c_fparams c1) = Some params) by (cbn; rewrite String.eqb_refl; auto).
  clearbody c1. rewrite EP. destruct params as [|p rest]; [apply pwp_ret; auto|].
  assert (forall p c, ht c (VParam p) TyInt) as HC by reflexivity.
  destruct rest as [|q rest].
  - em. em0. eapply pwp_mono; [apply Y_bind_local; auto|]. nx. auto.
  - em. em0. pw ltac:(apply Y_bind_local; assumption). nx. em. em.
    pw ltac:(apply Y_getOrCreateFunc; assumption). nx. em0. pw ltac:(apply Y_va_params; assumption). nx.
    pw ltac:(apply Y_getOrCreateFunc; assumption). nx. eapply pwp_mono; [apply Y_emit; [assumption|cbn [wanted]; allht]|]. nx. auto.
Qed.
Lemma finished_typed c : TY c -> well_typed (finished c).
Proof.
  intros HT.
  assert (K : forall c, TY c -> well_typed (c_blocks c)).
  { clear. intros c []. split.
    - intros i v t H1 H2. rewrite Forall_forall in TY_insts0. specialize (TY_insts0 _ H1). unfold all_ht in TY_insts0. rewrite Forall_forall in TY_insts0.
      apply (TY_insts0 _ H2).
    - intros i v t H1 H2. rewrite Forall_forall in TY_terms0. specialize (TY_terms0 _ H1). unfold all_ht in TY_terms0. rewrite Forall_forall in TY_terms0.
      apply (TY_terms0 _ H2). }
  unfold finished. destruct (nth_error _ _) as [b|]; [|apply K; auto]. destruct (b_term b); [apply K; auto|].
  assert (Q : pwp (setTerm (TRet (VInt 0))) (fun _ c' => well_typed (c_blocks c')) c).
  { eapply pwp_mono; [apply Y_setTerm; auto; cbn [term_wanted]; repeat constructor|]. intros u c' (H & _). apply K, H. }
  apply (Q tt (set_blocks (upd (c_builder c) (put_term (TRet (VInt 0))) (c_blocks c)) c)). intros l. reflexivity.
Qed.
Theorem compiled_typed chk c name params body c1 c2 : compiled chk c name params body c1 c2 -> goodS body -> well_typed (finished c2).
Proof.
  intros (HD & YS & sw & YB) HB. pose proof (Y_start name params c HD _ _ YS) as H1. cbv beta in H1.
  destruct (proj1 (Y_genS_all chk) body HB None c1 H1 _ _ YB) as (H2 & _). apply finished_typed; auto.
Qed.

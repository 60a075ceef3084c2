(** * InvIR: the generated code is well formed *)
From Coq Require Import List Ascii String ZArith NArith Lia Bool Permutation.
From Verif Require Import Base Lexer IR Builder Expr Stmt Decl Wp Syntax Pure Pwp SpecIR ParseGen.
Import ListNotations.
Open Scope Z_scope.
Open Scope m_scope.

Definition gnames (c : cstate) : list string := map g_name (c_mglobals c).
Definition fnames (c : cstate) : list string := map f_name (c_mfuncs c).

(** ** Growing states *)
Record le (c c' : cstate) : Prop := {
  le_nreg : (c_nreg c <= c_nreg c')%nat;
  le_blocks : (List.length (c_blocks c) <= List.length (c_blocks c'))%nat;
  le_g : incl (gnames c) (gnames c');
  le_f : incl (fnames c) (fnames c')
}.
Lemma le_refl c : le c c.
Proof. constructor; auto using incl_refl. Qed.
Lemma le_trans a b c : le a b -> le b c -> le a c.
Proof. intros [] []. constructor; eauto using incl_tran; lia. Qed.

(** A global address constant of an initialiser refers to a global. *)
Definition word_ok (gs : list string) (w : cword) : Prop :=
  match w with CInt _ => True | CAddr n _ _ => In n gs end.
Definition ginit_ok (gs : list string) (i : ginit) : Prop :=
  match i with GWord w => word_ok gs w | GWords _ ws => Forall (word_ok gs) ws | _ => True end.

Section Fn.
(** The fixed parameters of the function being generated. *)
Variable ps : list string.

Definition vok (c : cstate) (v : value) : Prop :=
  match v with
  | VInt _ => True
  | VReg r => (r < c_nreg c)%nat
  | VGlob n => In n (gnames c)
  | VFun n _ _ => In n (fnames c)
  | VParam p => In p ps
  end.
Definition bok (c : cstate) (b : nat) : Prop := (b < List.length (c_blocks c))%nat.
Definition iok (c : cstate) (i : inst) : Prop :=
  Forall (vok c) (operands i) /\ Forall (bok c) (phi_blocks i).
Definition tok (c : cstate) (t : term) : Prop :=
  Forall (vok c) (term_operands t) /\ Forall (bok c) (successors t).
Definition blok (c : cstate) (b : block) : Prop :=
  Forall (iok c) (b_insts b) /\ Forall (tok c) (block_terms b).

Lemma vok_le c c' v : le c c' -> vok c v -> vok c' v.
Proof. intros [] H. destruct v; cbn in *; auto; lia. Qed.
Lemma bok_le c c' b : le c c' -> bok c b -> bok c' b.
Proof. intros [] H. unfold bok in *. lia. Qed.
Lemma Forall_vok_le c c' l : le c c' -> Forall (vok c) l -> Forall (vok c') l.
Proof. intros H. apply Forall_impl. intros. eapply vok_le; eauto. Qed.
Lemma Forall_bok_le c c' l : le c c' -> Forall (bok c) l -> Forall (bok c') l.
Proof. intros H. apply Forall_impl. intros. eapply bok_le; eauto. Qed.
Lemma iok_le c c' i : le c c' -> iok c i -> iok c' i.
Proof. intros H []. split; eauto using Forall_vok_le, Forall_bok_le. Qed.
Lemma tok_le c c' i : le c c' -> tok c i -> tok c' i.
Proof. intros H []. split; eauto using Forall_vok_le, Forall_bok_le. Qed.
Lemma blok_le c c' b : le c c' -> blok c b -> blok c' b.
Proof.
  intros H []. split; (eapply Forall_impl; [|eassumption]); intros; eauto using iok_le, tok_le.
Qed.

(** The invariant while a function is being generated. *)
Record G (c : cstate) : Prop := {
  G_builder : bok c (c_builder c);
  G_labels : Forall (fun p => bok c (snd p)) (c_labels c);
  G_locals : Forall (fun p => vok c (snd p)) (c_locals c);
  G_blocks : Forall (blok c) (c_blocks c);
  G_nodup : NoDup (all_assigned (c_blocks c));
  G_regs : forall r, In r (all_assigned (c_blocks c)) <-> (r < c_nreg c)%nat;
  G_globals : Forall (fun p => In (fst (snd p)) (gnames c)) (c_globals c);
  G_functions : Forall (fun p => vok c (snd p)) (c_functions c);
  G_module : Forall (wf_function (gnames c) (fnames c)) (c_mfuncs c);
  G_inits : Forall (fun g => ginit_ok (gnames c) (g_init g)) (c_mglobals c)
}.

Definition post {A} (c : cstate) (P : A -> cstate -> Prop) (a : A) (c' : cstate) : Prop :=
  G c' /\ le c c' /\ P a c'.

Lemma wf_function_incl gs fs gs' fs' f : incl gs gs' -> incl fs fs' -> wf_function gs fs f -> wf_function gs' fs' f.
Proof.
  intros H1 H2 (A & B & D). repeat split; auto. intros v Hv. specialize (D v Hv). destruct v; cbn in *; auto.
Qed.
Lemma wf_module_incl gs fs gs' fs' l : incl gs gs' -> incl fs fs' ->
  Forall (wf_function gs fs) l -> Forall (wf_function gs' fs') l.
Proof. intros H1 H2. apply Forall_impl. intros. eapply wf_function_incl; eauto. Qed.
Lemma ginit_incl gs gs' i : incl gs gs' -> ginit_ok gs i -> ginit_ok gs' i.
Proof.
  intros H. destruct i; cbn; auto.
  - destruct w; cbn; auto.
  - apply Forall_impl. intros [] ; cbn; auto.
Qed.
Lemma inits_incl gs gs' l : incl gs gs' ->
  Forall (fun g => ginit_ok gs (g_init g)) l -> Forall (fun g => ginit_ok gs' (g_init g)) l.
Proof. intros H. apply Forall_impl. intros. eapply ginit_incl; eauto. Qed.

(** Updates that touch neither blocks nor registers. *)
Lemma G_grow c c' : G c -> le c c' ->
  c_builder c' = c_builder c -> c_labels c' = c_labels c -> c_locals c' = c_locals c ->
  c_blocks c' = c_blocks c -> c_nreg c' = c_nreg c ->
  Forall (fun p => In (fst (snd p)) (gnames c')) (c_globals c') ->
  Forall (fun p => vok c' (snd p)) (c_functions c') ->
  Forall (wf_function (gnames c') (fnames c')) (c_mfuncs c') ->
  Forall (fun g => ginit_ok (gnames c') (g_init g)) (c_mglobals c') -> G c'.
Proof.
  intros [] L E1 E2 E3 E4 E5 H1 H2 H3 H4. constructor; auto.
  - rewrite E1. eapply bok_le; eauto.
  - rewrite E2. eapply Forall_impl; [|eassumption]. cbn. intros. eapply bok_le; eauto.
  - rewrite E3. eapply Forall_impl; [|eassumption]. cbn. intros. eapply vok_le; eauto.
  - rewrite E4. eapply Forall_impl; [|eassumption]. intros. eapply blok_le; eauto.
  - rewrite E4; auto.
  - rewrite E4, E5; auto.
Qed.

(** ** Primitives *)
Lemma all_assigned_app a b : all_assigned (a ++ b) = all_assigned a ++ all_assigned b.
Proof. unfold all_assigned, all_insts. rewrite !flat_map_app. reflexivity. Qed.
Lemma all_assigned_add i b : all_assigned [add_inst i b] = all_assigned [b] ++ assigns i.
Proof. unfold all_assigned, all_insts, add_inst. cbn. rewrite !app_nil_r, flat_map_app. cbn. rewrite app_nil_r. auto. Qed.
Lemma all_assigned_put t n bs : all_assigned (upd n (put_term t) bs) = all_assigned bs.
Proof.
  unfold all_assigned, all_insts. f_equal. rewrite !flat_map_concat_map. f_equal. apply map_upd. auto.
Qed.
Lemma assigned_upd i n bs : (n < List.length bs)%nat ->
  Permutation (all_assigned (upd n (add_inst i) bs)) (assigns i ++ all_assigned bs).
Proof.
  intros H. destruct (nth_error bs n) as [b|] eqn:E; [|apply nth_error_None in E; lia].
  destruct (upd_split n (add_inst i) bs b E) as (l1 & l2 & -> & _ & ->).
  change (add_inst i b :: l2) with ([add_inst i b] ++ l2). change (b :: l2) with ([b] ++ l2).
  rewrite !all_assigned_app, all_assigned_add.
  rewrite <- app_assoc, (app_assoc (all_assigned l1)). rewrite Permutation_app_comm, <- app_assoc.
  apply Permutation_app_head. rewrite Permutation_app_comm, <- app_assoc. reflexivity.
Qed.
Lemma Forall_upd {A} (P : A -> Prop) n f l : Forall P l -> (forall x, P x -> P (f x)) -> Forall P (upd n f l).
Proof.
  intros H K. revert n. induction H; intros [|n]; cbn; constructor; auto.
Qed.

Lemma le_emitted mk c : le c (emitted mk c).
Proof. constructor; cbn; auto using incl_refl. rewrite upd_length. auto. Qed.

Lemma G_emitted mk c : G c -> (forall r, assigns (mk r) = [r]) -> (forall r, iok c (mk r)) -> G (emitted mk c).
Proof.
  intros [] HA HI. pose proof (le_emitted mk c) as L.
  constructor; cbn [emitted c_builder c_labels c_locals c_nreg c_globals c_functions c_mfuncs c_mglobals c_blocks set_blocks set_nreg]; auto.
  - unfold bok. cbn. rewrite upd_length. auto.
  - eapply Forall_impl; [|eassumption]. cbn. intros. eapply bok_le; eauto.
  - eapply Forall_impl; [|eassumption]. cbn. intros. eapply vok_le; eauto.
  - apply Forall_upd.
    + eapply Forall_impl; [|eassumption]. intros. eapply blok_le; eauto.
    + intros b []. split; auto. cbn. apply Forall_app. split; auto. constructor; auto.
      eapply iok_le; eauto.
  - eapply Permutation_NoDup; [symmetry; apply assigned_upd; auto|]. rewrite HA. cbn. constructor; auto.
    intros K. apply G_regs0 in K. lia.
  - intros r. rewrite (assigned_upd _ _ _ G_builder0), HA. cbn. rewrite G_regs0. lia.
  - eapply Forall_impl; [|eassumption]. cbn. intros. eapply vok_le; eauto.
Qed.

Lemma P_emitR mk c : G c -> (forall r, assigns (mk r) = [r]) -> (forall r, iok c (mk r)) ->
  pwp (emitR mk) (post c (fun v c' => vok c' v)) c.
Proof.
  intros HG HA HI. apply pwp_emitR. split; [apply G_emitted; auto|]. split; [apply le_emitted|].
  cbn. lia.
Qed.

Lemma P_emit i c : G c -> assigns i = [] -> iok c i -> pwp (emit i) (post c (fun _ _ => True)) c.
Proof.
  intros [] HA HI. apply pwp_emit.
  assert (L : le c (set_blocks (upd (c_builder c) (add_inst i) (c_blocks c)) c)).
  { constructor; cbn; auto using incl_refl. rewrite upd_length. auto. }
  split; [|split; auto].
  constructor; cbn [c_builder c_labels c_locals c_nreg c_globals c_functions c_mfuncs c_mglobals c_blocks set_blocks set_nreg]; auto.
  - unfold bok. cbn. rewrite upd_length. auto.
  - eapply Forall_impl; [|eassumption]. cbn. intros. eapply bok_le; eauto.
  - apply Forall_upd.
    + eapply Forall_impl; [|eassumption]. intros. eapply blok_le; eauto.
    + intros b []. split; auto. cbn. apply Forall_app. split; auto. constructor; auto. eapply iok_le; eauto.
  - eapply Permutation_NoDup; [symmetry; apply assigned_upd; auto|]. rewrite HA. auto.
  - intros r. rewrite (assigned_upd _ _ _ G_builder0), HA. cbn. apply G_regs0.
Qed.

Lemma P_setTerm t c : G c -> tok c t -> pwp (setTerm t) (post c (fun _ _ => True)) c.
Proof.
  intros [] HT. apply pwp_setTerm.
  assert (L : le c (set_blocks (upd (c_builder c) (put_term t) (c_blocks c)) c)).
  { constructor; cbn; auto using incl_refl. rewrite upd_length. auto. }
  split; [|split; auto].
  constructor; cbn [c_builder c_labels c_locals c_nreg c_globals c_functions c_mfuncs c_mglobals c_blocks set_blocks set_nreg]; auto.
  - unfold bok. cbn. rewrite upd_length. auto.
  - eapply Forall_impl; [|eassumption]. cbn. intros. eapply bok_le; eauto.
  - apply Forall_upd.
    + eapply Forall_impl; [|eassumption]. intros. eapply blok_le; eauto.
    + intros b []. split; auto. cbn. constructor; auto. eapply tok_le; eauto.
  - rewrite all_assigned_put. auto.
  - intros r. rewrite all_assigned_put. auto.
Qed.

Lemma P_NewBlock n c : G c -> pwp (NewBlock n) (post c (fun b c' => bok c' b)) c.
Proof.
  intros []. apply pwp_NewBlock.
  assert (L : le c (set_blocks (c_blocks c ++ [mkBlock n [] None]) c)).
  { constructor; cbn; auto using incl_refl. rewrite app_length. lia. }
  assert (E : all_assigned (c_blocks c ++ [mkBlock n [] None]) = all_assigned (c_blocks c)).
  { rewrite all_assigned_app. cbn. apply app_nil_r. }
  split; [|split; auto].
  - constructor; cbn [c_builder c_labels c_locals c_nreg c_globals c_functions c_mfuncs c_mglobals c_blocks set_blocks set_nreg]; auto.
    + eapply bok_le; eauto.
    + eapply Forall_impl; [|eassumption]. cbn. intros. eapply bok_le; eauto.
    + apply Forall_app. split.
      * eapply Forall_impl; [|eassumption]. intros. eapply blok_le; eauto.
      * constructor; auto. split; constructor.
    + rewrite E; auto.
    + rewrite E; auto.
  - unfold bok. cbn. rewrite app_length. cbn. lia.
Qed.

Lemma P_SetInsertPoint b c : G c -> bok c b -> pwp (SetInsertPoint b) (post c (fun _ _ => True)) c.
Proof.
  intros [] HB. apply pwp_SetInsertPoint. split; [|split; [constructor; auto using incl_refl|auto]]. 
  constructor; auto.
Qed.
Lemma P_GetInsertBlock c : G c -> pwp GetInsertBlock (post c (fun b c' => bok c' b)) c.
Proof. intros []. apply pwp_GetInsertBlock. split; [constructor; auto|split; [apply le_refl|auto]]. Qed.
Lemma P_bind_local n v c : G c -> vok c v -> pwp (bind_local n v) (post c (fun _ _ => True)) c.
Proof.
  intros [] HV. apply pwp_bind_local. split; [|split; [constructor; auto using incl_refl|auto]]. 
  constructor; auto. cbn. constructor; auto.
Qed.
Lemma P_nextLabelID c : G c -> pwp nextLabelID (post c (fun _ _ => True)) c.
Proof.
  intros []. apply pwp_nextLabelID. split; [|split; [constructor; auto using incl_refl|auto]]. constructor; auto.
Qed.
Lemma assoc_In {A} k (l : list (string * A)) v : assoc k l = Some v -> In (k, v) l.
Proof.
  induction l as [|[k' v'] l IH]; cbn; [discriminate|]. destruct (String.eqb_spec k k') as [<-|].
  - intros E; injection E as ->. auto.
  - auto.
Qed.
Lemma P_GetOrCreateLabel n c : G c -> pwp (GetOrCreateLabel n) (post c (fun b c' => bok c' b)) c.
Proof.
  intros HG. unfold GetOrCreateLabel. apply pwp_bind; [auto with pure|]. apply pwp_get.
  destruct (assoc n (c_labels c)) as [b|] eqn:E.
  - apply pwp_ret. split; [auto|split; [apply le_refl|]]. apply assoc_In in E. destruct HG.
    rewrite Forall_forall in G_labels0. apply (G_labels0 _ E).
  - eapply pwp_use; [auto with pure|apply P_NewBlock; auto|]. intros b c' (HG' & HL & HB).
    apply pwp_bind; [auto with pure|]. apply pwp_modify. apply pwp_ret.
    split; [|split; [|exact HB]].
    + destruct HG'. constructor; auto. cbn. constructor; auto.
    + destruct HL. constructor; auto.
Qed.
Lemma P_ret {A} (a : A) c (P : A -> cstate -> Prop) : G c -> P a c -> pwp (ret a) (post c P) c.
Proof. intros. apply pwp_ret. split; auto using le_refl. Qed.
Lemma P_termIsNil c : G c -> pwp termIsNil (fun _ c' => c' = c) c.
Proof. intros. apply pwp_termIsNil. auto. Qed.

(** Names in the module. *)
Lemma gnames_newGlobalDef g c : gnames (newGlobalDef g c) = gnames c ++ [g_name g].
Proof. unfold gnames. cbn. rewrite map_app. reflexivity. Qed.
Lemma remove_named_incl {A} (nm : A -> string) full l :
  incl (map nm l) (full :: map nm (remove_named nm full l)).
Proof.
  induction l as [|x l IH]; cbn; [intros ? []|].
  destruct (String.eqb_spec (nm x) full) as [<-|]; cbn.
  - apply incl_cons; [left; auto|]. intros y Hy. right. exact Hy.
  - intros y [<-|Hy]; [right; left; auto|]. specialize (IH y Hy). destruct IH; [left; auto|right; right; auto].
Qed.
Lemma In_remove_named {A} (nm : A -> string) full l x : In x (remove_named nm full l) -> In x l.
Proof.
  induction l as [|y l IH]; cbn; auto. destruct (String.eqb (nm y) full); cbn; auto. intros [<-|]; auto.
Qed.
Lemma Forall_remove_named {A} (nm : A -> string) (P : A -> Prop) full l : Forall P l -> Forall P (remove_named nm full l).
Proof. rewrite !Forall_forall. intros H x Hx. apply H. eapply In_remove_named; eauto. Qed.

Lemma find_named_In {A} (nm : A -> string) full l x : find_named nm full l = Some x -> In x l /\ nm x = full.
Proof.
  induction l as [|y l IH]; cbn; [discriminate|]. destruct (String.eqb_spec (nm y) full).
  - intros E; injection E as ->. auto.
  - intros E. destruct (IH E). auto.
Qed.

Lemma incl_app_same (a b c : list string) : incl a b -> incl (a ++ c) (b ++ c).
Proof. intros H. apply incl_app; [apply incl_appl; auto|apply incl_appr, incl_refl]. Qed.

Lemma wf_empty gs fs f : f_blocks f = [] -> wf_function gs fs f.
Proof. intros E. unfold wf_function. rewrite E. cbn. repeat split; try (intros ? []). constructor. Qed.

(** Replacing or adding a function without blocks. *)
Lemma fnames_replace name f c : f_name f = globalName name ->
  incl (fnames c) (fnames (newFunc f (removeFuncByName name c))).
Proof.
  intros E. unfold fnames. cbn. rewrite map_app. cbn. rewrite E.
  intros x Hx. apply (remove_named_incl f_name (globalName name)) in Hx. apply in_or_app.
  destruct Hx as [<-|Hx]; [right; left; auto|left; auto].
Qed.

Lemma P_GetOrDeclareFunction n c : G c ->
  pwp (GetOrDeclareFunction n) (post c (fun o c' => match o with Some v => vok c' v | None => True end)) c.
Proof.
  intros HG. unfold GetOrDeclareFunction. apply pwp_bind; [auto with pure|]. apply pwp_get.
  destruct (assoc n (c_functions c)) as [fn|] eqn:E1.
  { apply P_ret; auto. apply assoc_In in E1. destruct HG. rewrite Forall_forall in G_functions0.
    apply (G_functions0 _ E1). }
  destruct (assoc n (c_globals c)) eqn:E2; [apply P_ret; auto|].
  cbv zeta. apply pwp_bind; [auto with pure|]. apply pwp_modify. apply pwp_ret.
  set (f := mkFunc (globalName n) [] true false []).
  match goal with |- post _ _ _ ?c' => set (c1 := c') end.
  assert (L : le c c1).
  { constructor; cbn; auto using incl_refl. apply (fnames_replace n f c). auto. }
  assert (HF : In (globalName n) (fnames c1)).
  { unfold fnames. cbn. rewrite map_app. apply in_or_app. right. left. auto. }
  split; [|split; auto]. apply (G_grow c c1); auto; destruct HG; cbn.
  - exact G_globals0.
  - constructor; auto. eapply Forall_impl; [|eassumption]. cbn. intros. eapply vok_le; eauto.
  - apply Forall_app. split.
    + apply Forall_remove_named. eapply wf_module_incl; [| |eassumption]; apply L.
    + constructor; auto. apply wf_empty. auto.
  - exact G_inits0.
Qed.

Lemma P_GetAddress n c : G c ->
  pwp (GetAddress n) (post c (fun o c' => match o with Some v => vok c' v | None => True end)) c.
Proof.
  intros HG. unfold GetAddress. apply pwp_bind; [auto with pure|]. apply pwp_get.
  destruct (assoc n (c_locals c)) as [v|] eqn:E1.
  { apply P_ret; auto. apply assoc_In in E1. destruct HG. rewrite Forall_forall in G_locals0. apply (G_locals0 _ E1). }
  destruct (assoc n (c_globals c)) as [[full [|]]|] eqn:E2.
  - eapply pwp_use; [auto with pure|apply P_emitR; auto|].
    + intros r. split; constructor; auto. cbn. apply assoc_In in E2. destruct HG. rewrite Forall_forall in G_globals0.
      apply (G_globals0 _ E2).
    + intros v c' (HG' & HL & HV). apply pwp_ret. split; auto.
  - apply P_ret; auto. apply assoc_In in E2. destruct HG. rewrite Forall_forall in G_globals0. apply (G_globals0 _ E2).
  - apply P_ret; auto.
Qed.

Lemma P_find_func n c f : G c -> findFuncByName c n = Some f -> vok c (fun_value f).
Proof.
  intros _ E. apply find_named_In in E. destruct E as [E1 E2]. unfold fun_value. cbn. unfold fnames.
  apply in_map. auto.
Qed.

Lemma P_CreateStringConstant s c : G c ->
  pwp (CreateStringConstant s) (post c (fun g c' => In g (gnames c'))) c.
Proof.
  intros HG. unfold CreateStringConstant. apply pwp_bind; [auto with pure|]. apply pwp_get. cbv zeta.
  apply pwp_bind; [auto with pure|]. apply pwp_modify. apply pwp_ret.
  match goal with |- post _ _ _ ?c' => set (c1 := c') end.
  assert (I : incl (gnames c) (gnames c1)).
  { unfold gnames. cbn. rewrite map_app. apply incl_appl, incl_refl. }
  assert (L : le c c1) by (constructor; cbn; auto using incl_refl).
  split; [|split; auto].
  - apply (G_grow c c1); auto; destruct HG; cbn.
    + eapply Forall_impl; [|eassumption]. cbn. intros. apply I; auto.
    + eapply Forall_impl; [|eassumption]. cbn. intros. eapply vok_le; eauto.
    + eapply wf_module_incl; [| |eassumption]; apply L.
    + apply Forall_app. split; [eapply inits_incl; eauto|]. constructor; auto. cbn. auto.
  - unfold gnames. cbn. rewrite map_app. apply in_or_app. right. left. auto.
Qed.

(** ** Stepping *)
Ltac kill := intros; split; repeat (constructor; auto); eauto using vok_le, bok_le.
Ltac pw lem := eapply pwp_use; [solve [auto with pure nocore | pure_tac] | lem | cbv beta].

(** Transport of facts along [le]. *)
Ltac carry L :=
  repeat match goal with
  | H : vok ?c ?v |- _ => match type of L with le c ?c' => apply (vok_le c c' v L) in H end
  | H : bok ?c ?v |- _ => match type of L with le c ?c' => apply (bok_le c c' v L) in H end
  | H : Forall (vok ?c) ?v |- _ => match type of L with le c ?c' => apply (Forall_vok_le c c' v L) in H end
  end.
Ltac nx :=
  let a := fresh "v" in let c' := fresh "c" in let HG := fresh "HG" in let HL := fresh "HL" in let HV := fresh "HV" in
  intros a c' (HG & HL & HV); cbv beta in HV; carry HL.
Ltac done := split; [assumption|split; [eauto 30 using le_trans, le_refl|cbn; auto]].
Ltac em := pw ltac:(apply P_emitR; [assumption|reflexivity|solve [kill]]); nx.
Ltac em0 := pw ltac:(apply P_emit; [assumption|reflexivity|solve [kill]]); nx.
Ltac st := pw ltac:(apply P_setTerm; [assumption|solve [kill]]); nx.
Ltac nb := pw ltac:(apply P_NewBlock; assumption); nx.
Ltac ip := pw ltac:(apply P_SetInsertPoint; assumption); nx.
Ltac ib := pw ltac:(apply P_GetInsertBlock; assumption); nx.
Ltac nl := pw ltac:(apply P_nextLabelID; assumption); nx.
Ltac gl := pw ltac:(apply P_GetOrCreateLabel; assumption); nx.

Lemma P_rval v b c : G c -> vok c v -> pwp (rval v b) (post c (fun v c' => vok c' v)) c.
Proof. intros HG HV. unfold rval. destruct b; [apply P_emitR; auto; kill|apply P_ret; auto]. Qed.
Ltac rv := pw ltac:(apply P_rval; assumption); nx.
Lemma P_cmpz p a b c : G c -> vok c a -> vok c b -> pwp (cmpz p a b) (post c (fun v c' => vok c' v)) c.
Proof.
  intros HG HA HB. unfold cmpz. em. eapply pwp_mono; [apply P_emitR; auto; kill|]. nx. done.
Qed.
Lemma P_applyCop o a b c : G c -> vok c a -> vok c b -> pwp (applyCop o a b) (post c (fun v c' => vok c' v)) c.
Proof.
  intros HG HA HB. destruct o; cbn [applyCop]; [|apply P_cmpz; auto]. apply P_emitR; auto. kill.
Qed.
Lemma P_doCall f args c : G c -> vok c f -> Forall (vok c) args -> pwp (doCall f args) (post c (fun v c' => vok c' v)) c.
Proof.
  intros HG HF HA. unfold doCall. destruct f; cbv zeta;
    try (em; eapply pwp_mono; [apply P_emitR; auto; kill|]; nx; done).
  destruct (_ && _).
  - em. eapply pwp_mono; [apply P_emitR; auto; kill|]; nx; done.
  - apply P_emitR; auto. kill.
Qed.
Lemma P_incDec o p c : G c -> vok c p -> pwp (incDec o p) (post c (fun v c' => vok c' v)) c.
Proof. intros HG HP. unfold incDec. em. em. em0. apply pwp_ret. done. Qed.
Lemma P_brIfOpen b c : G c -> bok c b -> pwp (brIfOpen b) (post c (fun _ _ => True)) c.
Proof.
  intros HG HB. unfold brIfOpen. pw ltac:(apply P_termIsNil; assumption). intros [] c' ->.
  - apply P_setTerm; auto. kill.
  - apply P_ret; auto.
Qed.
Ltac br := pw ltac:(apply P_brIfOpen; assumption); nx.

(** ** Expressions *)
Definition epost (c : cstate) : value * bool -> cstate -> Prop := post c (fun p c' => vok c' (fst p)).

Lemma P_genVar q n c : G c -> pwp (genVar q n) (epost c) c.
Proof.
  intros HG. unfold genVar. pw ltac:(apply P_GetAddress; assumption). nx. destruct v as [v|].
  { apply pwp_ret. done. }
  destruct q; [apply pwp_err|]. apply pwp_bind; [auto with pure|]. apply pwp_get.
  destruct (findFuncByName c0 n) as [f|] eqn:E.
  - pose proof (P_find_func _ _ _ HG0 E). em. apply pwp_ret. done.
  - pw ltac:(apply P_GetOrDeclareFunction; assumption). nx. destruct v as [v|]; [|apply pwp_err].
    em. apply pwp_ret. done.
Qed.
Lemma P_genCallee n c : G c -> pwp (genCallee n) (epost c) c.
Proof.
  intros HG. unfold genCallee. apply pwp_bind; [auto with pure|]. apply pwp_get.
  destruct (findFuncByName c n) as [f|] eqn:E.
  { apply pwp_ret. pose proof (P_find_func _ _ _ HG E). done. }
  destruct (assoc n (c_globals c)) as [[full b]|] eqn:E2.
  { apply pwp_ret. split; [auto|split; [apply le_refl|]]. cbn. apply assoc_In in E2. destruct HG.
    rewrite Forall_forall in G_globals0. apply (G_globals0 _ E2). }
  pw ltac:(apply P_GetOrDeclareFunction; assumption). nx. destruct v as [v|]; [|apply pwp_err].
  apply pwp_ret. done.
Qed.

Lemma P_gen_all chk :
  (forall e q c, G c -> pwp (gen chk q e) (epost c) c) /\
  (forall l c, G c -> pwp (genArgs chk l) (post c (fun vs c' => Forall (vok c') vs)) c).
Proof.
  Ltac sub IH := pw ltac:(apply IH; assumption); 
    let v := fresh "v" in let b := fresh "b" in let c' := fresh "c" in let HG := fresh "HG" in let HL := fresh "HL" in let HV := fresh "HV" in
    intros [v b] c' (HG & HL & HV); cbn [fst] in HV; carry HL; cbv beta iota.
  apply expr_exprs_ind; intros; ugen.
  - apply pwp_ret. split; [auto|split; [apply le_refl|exact I]].
  - pw ltac:(apply P_CreateStringConstant; assumption). intros g c1 (HG & HL & HV). carry HL.
    assert (vok c1 (VGlob g)) by exact HV.
    em. em. apply pwp_ret. done.
  - apply P_genVar; auto.
  - apply P_genCallee; auto.
  - sub H. rv. apply pwp_ret. done.
  - sub H. rv. em. sub H0. rv. em. apply pwp_ret. done.
  - sub H. rv. pw ltac:(apply H0; assumption). nx. pw ltac:(apply P_doCall; assumption). nx. apply pwp_ret. done.
  - sub H. destruct b; [|apply pwp_err]. pw ltac:(apply P_incDec; assumption). nx. apply pwp_ret. done.
  - sub H. destruct b; [|apply pwp_err]. pw ltac:(apply P_incDec; assumption). nx. apply pwp_ret. done.
  - sub H. rv. pw ltac:(apply P_cmpz; [assumption|assumption|exact I]). nx. apply pwp_ret. done.
  - sub H. rv. em. apply pwp_ret. done.
  - sub H. rv. em. apply pwp_ret. done.
  - sub H. destruct b; [|apply pwp_err]. em. apply pwp_ret. done.
  - sub H. rv. sub H0. rv. pw ltac:(apply P_applyCop; assumption). nx. apply pwp_ret. done.
  - sub H. rv. nl. nb. nb. nb. em. st. ip. sub H0. rv. ib. st. ip. sub H1. rv. ib. st. ip.
    em. apply pwp_ret. done.
  - sub H. destruct b0; [|apply pwp_err]. sub H0. rv. destruct op as [o|].
    + em. pw ltac:(apply P_applyCop; assumption). nx. em0. apply pwp_ret. done.
    + em0. apply pwp_ret. done.
  - apply P_ret; auto.
  - sub H. rv. pw ltac:(apply H0; assumption). nx. apply pwp_ret. done.
Qed.
Lemma P_genR chk q e c : G c -> pwp (genR chk q e) (post c (fun v c' => vok c' v)) c.
Proof.
  intros HG. unfold genR. sub (proj1 (P_gen_all chk)). eapply pwp_mono; [apply P_rval; auto|]. nx. done.
Qed.

(** ** Statements *)
Lemma P_checkAutos l : forall seen c, pwp (checkAutos seen l) (fun _ c' => c' = c) c.
Proof.
  induction l as [|[n z] l IH]; intros seen c; cbn [checkAutos]; [apply pwp_ret; auto|].
  apply pwp_bind; [auto with pure|]. apply pwp_get. destruct (mem n seen); [apply pwp_err|].
  destruct (mem n _); [apply pwp_err|]. apply IH.
Qed.
Lemma P_declareAutos l : forall c, G c -> pwp (declareAutos l) (post c (fun _ _ => True)) c.
Proof.
  induction l as [|[n z] l IH]; intros c HG; cbn [declareAutos]; [apply P_ret; auto|].
  pw ltac:(idtac).
  - instantiate (1 := post c (fun _ _ => True)). destruct (z =? -1).
    + unfold DeclareLocal. em. em0. eapply pwp_mono; [apply P_bind_local; auto|]. nx. done.
    + unfold DeclareLocalArray. cbv zeta. em. em. em. em. em0. eapply pwp_mono; [apply P_bind_local; auto|]. nx. done.
  - nx. eapply pwp_mono; [apply IH; auto|]. nx. done.
Qed.
Lemma P_externName n c : G c -> pwp (externName n) (post c (fun _ _ => True)) c.
Proof.
  intros HG. unfold externName. apply pwp_bind; [auto with pure|]. apply pwp_get.
  destruct (findGlobalByName c n) as [g|] eqn:E.
  - apply pwp_modify. apply find_named_In in E. destruct E as [E1 E2].
    split; [|split; [constructor; auto using incl_refl|auto]].
    destruct HG. constructor; auto. cbn. constructor; auto. cbn. apply in_map. auto.
  - destruct (findFuncByName c n); [apply pwp_err|]. destruct (mem n (c_used c)); [apply pwp_err|].
    cbv zeta. apply pwp_modify.
    match goal with |- post _ _ _ ?c' => set (c1 := c') end.
    assert (I : incl (gnames c) (gnames c1)).
    { unfold gnames. cbn. rewrite map_app. apply incl_appl, incl_refl. }
    assert (L : le c c1) by (constructor; cbn; auto using incl_refl).
    split; [|split; auto].
    apply (G_grow c c1); auto; destruct HG; cbn.
    + constructor.
      * cbn. unfold gnames. cbn. rewrite map_app. apply in_or_app. right. left. auto.
      * eapply Forall_impl; [|eassumption]. cbn. intros. apply I; auto.
    + eapply Forall_impl; [|eassumption]. cbn. intros. eapply vok_le; eauto.
    + eapply wf_module_incl; [| |eassumption]; apply L.
    + apply Forall_app. split; [eapply inits_incl; eauto|]. constructor; auto. cbn. auto.
Qed.
Lemma P_genExtrn l : forall c, G c -> pwp (genExtrn l) (post c (fun _ _ => True)) c.
Proof.
  induction l as [|n l IH]; intros c HG; cbn [genExtrn]; [apply P_ret; auto|].
  pw ltac:(apply P_externName; assumption). nx. eapply pwp_mono; [apply IH; auto|]. nx. done.
Qed.
Lemma P_switchCases id l : forall c, G c -> pwp (switchCases id l) (post c (fun bs c' => Forall (bok c') (map snd bs))) c.
Proof.
  induction l as [|z l IH]; intros c HG; cbn [switchCases]; [apply P_ret; cbn; auto|].
  gl. pw ltac:(apply IH; assumption). nx. apply pwp_ret. split; [auto|]. split; [eauto using le_trans|]. cbn. constructor; auto.
Qed.

Lemma P_genS_all chk :
  (forall s sw c, G c -> pwp (genS chk s sw) (post c (fun _ _ => True)) c) /\
  (forall l sw c, G c -> pwp (genL chk l sw) (post c (fun _ _ => True)) c).
Proof.
  Ltac ge := pw ltac:(apply P_genR; assumption); nx.
  Ltac gs IH := pw ltac:(apply IH; assumption); nx.
  apply stmt_stmts_ind; intros; ugenS.
  - apply P_ret; auto.
  - ge. apply pwp_ret. done.
  - apply H; auto.
  - destruct e as [e|].
    + ge. st. apply pwp_ret. done.
    + st. apply pwp_ret. done.
  - pw ltac:(apply P_checkAutos). intros _ c1 ->. pw ltac:(apply P_declareAutos; assumption). nx. apply pwp_ret. done.
  - pw ltac:(apply P_genExtrn; assumption). nx. apply pwp_ret. done.
  - ge. nl. nb. nb. nb. em. st. ip. gs H. br. ip. br. ip. apply pwp_ret. done.
  - ge. nl. nb. nb. nb. em. st. ip. gs H. br. ip. gs H0. br. ip. apply pwp_ret. done.
  - nl. nb. nb. nb. st. ip. ge. em. st. ip. gs H. br. ip. apply pwp_ret. done.
  - nl. ge. nb. nb. nb. st. ip. gs H. br. ip.
    apply pwp_bind; [pure_tac|].
    assert (K : pwp (setTerm (TBr v3)) (fun _ c' => pwp (SetInsertPoint v3 ;;; ret sw) (post c (fun _ _ => True)) c') c9).
    { eapply pwp_mono; [apply P_setTerm; auto; kill|]. nx. ip. apply pwp_ret. done. }
    destruct v6 as [[id' [|z vals]]|]; auto.
    pw ltac:(apply P_switchCases; assumption). nx.
    eapply pwp_mono; [apply P_setTerm; auto; kill|]. nx. ip. apply pwp_ret. done.
  - destruct sw as [[id vals]|]; [|apply pwp_err]. gl. br. ip. eapply pwp_mono; [apply H; auto|]. nx. done.
  - gl. st. nl. nb. ip. apply pwp_ret. done.
  - gl. br. ip. eapply pwp_mono; [apply H; auto|]. nx. done.
  - apply P_ret; auto.
  - pw ltac:(apply H; assumption). nx. eapply pwp_mono; [apply H0; auto|]. nx. done.
Qed.
End Fn.

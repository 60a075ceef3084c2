(** * PropsValid: the rules of LLVM for types, phi instructions, switches and calls (C65, C66, C67, C68) *)
From Coq Require Import List Ascii String ZArith NArith Lia Bool Permutation.
From Verif Require Import Base Lexer IR Builder Expr Stmt Decl Wp Syntax Pure ParseGen Pwp SpecIR SpecSem InvDecl Built SpecValid InvType InvPhi InvCalls
  SpecLex SpecText SpecAccept RenderWf PropsBlocks TextTac.
From Verif Require PropsExpr SemEx.
Import ListNotations.
Open Scope string_scope.
Open Scope list_scope.
Open Scope Z_scope.

(** ** C65: types *)
Theorem C65_well_typed : forall (inp : list ascii) (failing : bool) (m : module_) (f : func),
  compile inp failing = Ok m tt -> In f (m_funcs m) -> well_typed (f_blocks f).
Proof.
  intros inp fl m f H Hf. destruct (compile_good _ _ _ H) as (ds & HW & HG).
  destruct (generate_from _ _ _ _ HG Hf) as [E|(n & ps & b & c & c1 & c2 & HI & HC & ->)].
  - rewrite E. split; intros ? ? ? [].
  - rewrite declared_blocks. eapply compiled_typed; [exact HC|]. unfold goodP in HW. rewrite Forall_forall in HW. apply (HW _ HI).
Qed.
Print Assumptions C65_well_typed.

(** A function with comparisons used as numbers and as conditions, pointers,
    calls through values and a vector. *)
Definition sample65 : string := "main(a,b){ auto v[3],i; i = v[1] = a < b; while(!(i == 3) & i) { i =+ *v; a = (i ? main : b)(i, v); } switch(a < 1){ case 1: return(&v[2]); } }".
(** How many operands of each type a text has: numbers, bits, pointers. *)
Definition operand_types (s : string) : list (nat * nat * nat) :=
  match compile_string s with
  | Ok m _ => map (fun f =>
      let l := flat_map wanted (all_insts (f_blocks f)) ++ flat_map term_wanted (flat_map block_terms (f_blocks f)) in
      let n t := List.length (filter (fun p => match snd p, t with TyInt, TyInt | TyBit, TyBit | TyPtr, TyPtr => true | _, _ => false end) l) in
      (n TyInt, n TyBit, n TyPtr)) (m_funcs m)
  | _ => []
  end.
Example C65_nontrivial : exists a b c rest, operand_types sample65 = (S a, S b, S c) :: rest.
Proof. vm_compute. eauto. Qed.

(** ** C66: phi instructions and the entry block *)
Theorem C66_phi_and_entry : forall (inp : list ascii) (failing : bool) (m : module_) (f : func),
  compile inp failing = Ok m tt -> In f (m_funcs m) -> phis_ok (f_blocks f) /\ entry_ok (f_blocks f).
Proof.
  intros inp fl m f H Hf. destruct (compile_good _ _ _ H) as (ds & HW & HG).
  destruct (generate_from _ _ _ _ HG Hf) as [E|(n & ps & b & c & c1 & c2 & HI & HC & ->)].
  - rewrite E. split; [|reflexivity]. intros [|] ? HX; discriminate.
  - rewrite declared_blocks. eapply compiled_phis. exact HC.
Qed.
Print Assumptions C66_phi_and_entry.

(** Conditional expressions inside each other: the values of the outer one
    come from the blocks the inner ones end in. *)
Definition sample66 : string := "main(a,b){ return(a ? (b ? 1 : 2) : b ? 3 : 4); }".
Definition phi_sources (s : string) : list (list (list nat * list nat)) :=
  match compile_string s with
  | Ok m _ => map (fun f => flat_map (fun kb => flat_map (fun i => match i with IPhi _ inc => [(map snd inc, predecessors (f_blocks f) (fst kb))] | _ => [] end)
      (b_insts (snd kb))) (combine (seq 0 (List.length (f_blocks f))) (f_blocks f))) (m_funcs m)
  | _ => []
  end.
Example C66_nontrivial : exists l rest, phi_sources sample66 = l :: rest /\ List.length l = 3%nat /\ forall p, In p l -> fst p = snd p /\ List.length (fst p) = 2%nat.
Proof. eexists. eexists. split; [vm_compute; reflexivity|]. split; [reflexivity|]. cbn [In]. intros p H. decompose [or] H; subst; try contradiction; auto. Qed.

(** ** Trees of texts *)
Lemma xE_good : (forall l e s, xE l e s -> goodE e) /\ (forall l s, xA l s -> goodEs l).
Proof.
  apply xE_xA_ind; intros; cbn [goodE goodEs] in *;
    repeat match goal with H : _ /\ _ |- _ => destruct H end; repeat match goal with |- _ /\ _ => split end; eauto using ident_name, num_int64, chr_int64;
    try match goal with H : incdec ?op = _ |- inc_op ?op => destruct op; try discriminate H; cbn; auto; red; auto end.
  match goal with H : goodE ?f |- _ => destruct f; auto; destruct H end.
Qed.
Lemma xS_good : (forall s ss, xS s ss -> goodS s) /\ (forall l sl, xL l sl -> goodL l).
Proof.
  destruct xE_good as [X _].
  apply xS_xL_ind; intros; cbn [goodS goodL] in *;
    repeat match goal with H : xE _ ?e _ |- _ => apply X in H end;
    repeat match goal with H : _ /\ _ |- _ => destruct H end; repeat match goal with |- _ /\ _ => split end; eauto using ident_name, xname_name, xAutos_wf, xNames_wf.
  match goal with H : _ \/ _ |- _ => destruct H as [H|H]; eauto using num_int64, chr_int64 end.
Qed.
Lemma xP_good ds s : xP ds s -> goodP ds.
Proof.
  assert (X : forall d s, xD d s -> goodD d).
  { destruct xS_good as [Y _].
    intros d s0 [x I|x w vs s1 I W HV N NS|x z w1 sz w2 w3 vs s1 I W1 W2 W3 HZ HV|x w b sb I W HB|x w1 ps sp w b sb I W1 HP W HB]; cbn;
      repeat match goal with H : xS _ _ |- _ => apply Y in H end; repeat match goal with |- _ /\ _ => split end; eauto using xname_name, xnum_int64, xIvals_wf, xNames_wf.
    destruct HV as [[H _]|[-> _]]; eauto using xIvals_wf. }
  induction 1 as [|d s w r sr H W HR IH NE]; constructor; eauto.
Qed.
Lemma module_of_good ds M : PropsExpr.module_of ds M -> goodP ds /\ generate true ds = Ok M tt.
Proof.
  intros H. split; [|apply PropsExpr.module_of_generate; auto]. destruct H as (w & s & _ & T & _). eapply xP_good; eauto.
Qed.

(** ** C67: the values of a switch *)
(** The claim is false: the compiler accepts two equal cases. *)
Definition twice67 : string := "main(x){ switch(x){ case 1: case 1: return(2); } }".
Theorem C67_switch_values_refuted : exists inp m f t,
  compile inp false = Ok m tt /\ In f (m_funcs m) /\ In t (flat_map block_terms (f_blocks f)) /\ ~ switch_ok t.
Proof.
  exists (list_ascii_of_string twice67).
  assert (E : exists m f v d cs, compile (list_ascii_of_string twice67) false = Ok m tt /\ In f (m_funcs m) /\
    In (TSwitch v d cs) (flat_map block_terms (f_blocks f)) /\ map fst cs = [1; 1]).
  { eexists. eexists. eexists. eexists. eexists. split; [vm_compute; reflexivity|]. split; [left; reflexivity|].
    split; [cbn; right; right; left; reflexivity|reflexivity]. }
  destruct E as (m & f & v & d & cs & E1 & E2 & E3 & E4). exists m, f, (TSwitch v d cs). split; auto. split; auto. split; auto.
  cbn. rewrite E4. intros H. inversion H. apply H2. left. reflexivity.
Qed.
Print Assumptions C67_switch_values_refuted.

(** Missing: texts with two equal cases in a switch, and sources with
    characters that are not 7-bit (C72). *)
Theorem C67_switch_values_partial : forall ds m f t,
  PropsExpr.module_of ds m -> In f (m_funcs m) -> In t (flat_map block_terms (f_blocks f)) ->
  (forall n ps b, In (DFunction n ps b) ds -> distinct_cases b) -> switch_ok t.
Proof.
  intros ds m f t HM Hf Ht HD. destruct (module_of_good _ _ HM) as [HG G].
  assert (K : Forall switch_ok (flat_map block_terms (f_blocks f))).
  { eapply generate_switches; eauto. }
  rewrite Forall_forall in K. auto.
Qed.
Print Assumptions C67_switch_values_partial.
(** Two switches with the same cases, one inside the other. *)
Definition src67 := list_ascii_of_string "main(x){switch(x){case 1:switch(x){case 2:case 1:x=3;}case 2:return(x);}}".
Definition tree67 : list decl := [DFunction "main" ["x"] (SBlock (SCons (SSwitch (EParen (EVar "x")) (SBlock
  (SCons (SCase 1 (SSwitch (EParen (EVar "x")) (SBlock (SCons (SCase 2 (SCase 1 (SExpr (EAsg None (EVar "x") (EInt 3))))) SNil)))) (SCons
  (SCase 2 (SReturn (Some (EVar "x")))) SNil)))) SNil))].
Definition switch_values (s : string) : list (list Z) :=
  match compile_string s with
  | Ok m _ => flat_map (fun f => flat_map (fun t => match t with TSwitch _ _ cs => [map fst cs] | _ => [] end) (flat_map block_terms (f_blocks f))) (m_funcs m)
  | _ => []
  end.
Example C67_ex : PropsExpr.module_of tree67 (SemEx.module_for src67) /\ (forall n ps b, In (DFunction n ps b) tree67 -> distinct_cases b) /\
  switch_values (string_of_list_ascii src67) = [[1; 2]; [2; 1]].
Proof.
  split; [exists [], src67; split; [apply lay_nil|split; [text|vm_compute; reflexivity]]|]. split; [|vm_compute; reflexivity].
  intros n ps b [E|[]]. injection E as <- <- <-. cbn. repeat split; auto; repeat constructor; cbn; intuition discriminate.
Qed.

(** ** C68: the arguments of calls *)
(** The claim is false: a function defined with parameters can be called
    without arguments. *)
Definition none68 : string := "f(a){ return(a); } main(){ f(); }".
Theorem C68_call_arguments_refuted : exists inp m f i,
  compile inp false = Ok m tt /\ In f (m_funcs m) /\ In i (all_insts (f_blocks f)) /\ ~ call_ok i.
Proof.
  exists (list_ascii_of_string none68).
  assert (E : exists m f r g, compile (list_ascii_of_string none68) false = Ok m tt /\ In f (m_funcs m) /\
    In (ICall r g 1 true []) (all_insts (f_blocks f))).
  { eexists. eexists. eexists. eexists. split; [vm_compute; reflexivity|]. split; [right; left; reflexivity|].
    cbn. left. reflexivity. }
  destruct E as (m & f & r & g & E1 & E2 & E3). exists m, f, (ICall r g 1 true []). split; auto. split; auto. split; auto.
  cbn. lia.
Qed.
Print Assumptions C68_call_arguments_refuted.

(** Missing: texts that call a function they define with parameters without
    any argument, and sources with characters that are not 7-bit (C72). *)
Theorem C68_call_arguments_partial : forall ds m f i,
  PropsExpr.module_of ds m -> In f (m_funcs m) -> In i (all_insts (f_blocks f)) ->
  (forall n ps b, In (DFunction n ps b) ds -> args_in (with_params ds) b) -> call_ok i.
Proof.
  intros ds m f i HM Hf Hi HD. destruct (module_of_good _ _ HM) as [HG G].
  assert (K : Forall call_ok (all_insts (f_blocks f))).
  { eapply generate_calls; eauto. }
  rewrite Forall_forall in K. auto.
Qed.
Print Assumptions C68_call_arguments_partial.
(** The program of C36: it calls a function with a parameter from itself and
    from the main function. *)
Example C68_ex : PropsExpr.module_of PropsExpr.tree36 PropsExpr.M36 /\ with_params PropsExpr.tree36 "fact" /\
  (forall n ps b, In (DFunction n ps b) PropsExpr.tree36 -> args_in (with_params PropsExpr.tree36) b).
Proof.
  split; [exact (proj1 PropsExpr.C36_ex)|]. split; [exists ["k"]; eexists; split; [right; left; reflexivity|discriminate]|].
  intros n ps b [E|[E|[E|[]]]]; try discriminate E; injection E as <- <- <-; cbn; repeat split; auto.
Qed.

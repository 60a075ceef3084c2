(** * SizeFacts: the generator makes a bounded amount of code for each node *)
From Coq Require Import List Ascii String ZArith NArith Lia Bool.
From Verif Require Import Base Lexer IR Builder Expr Stmt Decl Wp Syntax Pure ParseGen Pwp InvDecl SpecSize.
Import ListNotations.
Open Scope nat_scope.
Open Scope m_scope.

(** ** Weights of trees *)
Fixpoint wE (e : expr) : nat :=
  match e with
  | EInt _ | EVar _ | ECallee _ => 1
  | EStr s => 2 + String.length s
  | EParen a | EPost _ a | EPre _ a | ENot a | ENeg a | EDeref a | EAddr a => S (wE a)
  | EIdx a b | EBin _ a b | EAsg _ a b => S (wE a + wE b)
  | ECond a b c => 2 + (wE a + wE b + wE c)
  | ECall f l => S (wE f + wA l)
  end
with wA (l : exprs) : nat := match l with ENil => 1 | ECons e r => wE e + wA r end.
Fixpoint wS (s : stmt) : nat :=
  match s with
  | SNull => 1
  | SExpr e => S (wE e)
  | SBlock l => S (wL l)
  | SReturn None => 1
  | SReturn (Some e) => S (wE e)
  | SAuto l => List.length l
  | SExtrn l => List.length l
  | SIf e s | SWhile e s | SSwitch e s => 2 + (wE e + wS s)
  | SIfElse e s t => 2 + (wE e + wS s + wS t)
  | SCase _ s => 2 + wS s
  | SGoto _ => 2
  | SLabel _ s => 2 + wS s
  end
with wL (l : stmts) : nat := match l with SNil => 1 | SCons s r => wS s + wL r end.
Definition wIv (v : ival) : nat := match v with IvInt _ => 1 | IvStr s => 2 + String.length s end.
Definition wD (d : decl) : nat :=
  match d with
  | DGlobal _ l => 1 + total wIv l
  | DVector _ _ l => 1 + total wIv l
  | DFunction _ ps b => 2 + (List.length ps + wS b)
  end.

(** ** Costs *)
Arguments total : simpl never.
Definition size (c : cstate) : nat :=
  total (fun g => init_size (g_init g)) (c_mglobals c) + total func_size (c_mfuncs c) + total block_size (c_blocks c).
(** [m] adds at most [n], less what its result still pays for. *)
Definition costs {A} (n : nat) (g : A -> nat) (m : C A) : Prop := forall c, pwp m (fun a c' => size c' + g a <= size c + n) c.
Definition none {A} (_ : A) : nat := 0.

Lemma costs_bind {A B} n1 n2 (g : A -> nat) (h : B -> nat) m f : pure m -> costs n1 g m -> (forall a, costs (g a + n2) h (f a)) -> costs (n1 + n2) h (bind m f).
Proof.
  intros P H1 H2 c. eapply pwp_use; [exact P|apply H1|]. cbv beta. intros a c1 X. eapply pwp_mono; [apply H2|]. cbv beta. intros b c2 Y. lia.
Qed.
Lemma costs_le {A} n n' (g g' : A -> nat) m : costs n g m -> n <= n' -> (forall a, g' a <= g a) -> costs n' g' m.
Proof. intros H L G c. eapply pwp_mono; [apply H|]. cbv beta. intros a c' X. specialize (G a). lia. Qed.
Lemma costs_ret {A} n (g : A -> nat) a : g a <= n -> costs n g (ret a).
Proof. intros H c. apply pwp_ret. lia. Qed.
Lemma costs_err {A} n (g : A -> nat) e : costs n g (errorf e).
Proof. intros c. apply pwp_err. Qed.
Lemma costs_get n : costs n none get.
Proof. intros c. apply pwp_get. unfold none. lia. Qed.
Lemma costs_modify n f : (forall c, size (f c) <= size c + n) -> costs n none (modify f).
Proof. intros H c. apply pwp_modify. specialize (H c). unfold none. lia. Qed.

Lemma total_app {A} (f : A -> nat) l l' : total f (l ++ l') = total f l + total f l'.
Proof. unfold total. induction l as [|x l IH]; cbn; [reflexivity|]. rewrite IH. lia. Qed.
Lemma total_cons {A} (f : A -> nat) x l : total f (x :: l) = f x + total f l. Proof. reflexivity. Qed.
Lemma total_upd {A} (f : A -> nat) n g (l : list A) k : (forall x, f (g x) <= f x + k) -> total f (upd n g l) <= total f l + k.
Proof.
  intros H. revert n. induction l as [|x l IH]; intros [|n]; cbn [upd]; rewrite ?total_cons; [cbn; lia|cbn; lia| |].
  - specialize (H x). lia.
  - specialize (IH n). lia.
Qed.
Lemma total_remove {A} (f : A -> nat) nm x l : total f (remove_named nm x l) <= total f l.
Proof. induction l as [|y l IH]; cbn [remove_named]; [lia|]. rewrite total_cons. destruct (String.eqb _ _); rewrite ?total_cons; lia. Qed.

Lemma costs_emit i : costs (inst_size i) none (emit i).
Proof.
  apply costs_modify. intros c. unfold size. cbn [c_mglobals c_mfuncs c_blocks set_blocks]. enough (total block_size (upd (c_builder c) (add_inst i) (c_blocks c)) <= total block_size (c_blocks c) + inst_size i) by lia.
  apply total_upd. intros b. unfold block_size. cbn [b_insts b_term add_inst]. rewrite total_app. unfold total at 2. cbn. lia.
Qed.
Lemma costs_setTerm t : costs (term_size (Some t)) none (setTerm t).
Proof.
  apply costs_modify. intros c. unfold size. cbn [c_mglobals c_mfuncs c_blocks set_blocks].
  enough (total block_size (upd (c_builder c) (put_term t) (c_blocks c)) <= total block_size (c_blocks c) + term_size (Some t)) by lia.
  apply total_upd. intros b. unfold block_size. cbn [b_insts b_term put_term]. lia.
Qed.
Lemma costs_fresh n : costs n none fresh.
Proof. intros c. apply pwp_fresh. unfold none, size. cbn. lia. Qed.
Lemma costs_nextLabelID n : costs n none nextLabelID.
Proof. intros c. apply pwp_nextLabelID. unfold none, size. cbn. lia. Qed.
Lemma costs_NewBlock x : costs 1 none (NewBlock x).
Proof. intros c. apply pwp_NewBlock. unfold none, size. cbn. rewrite total_app, total_cons. cbn. unfold total. cbn. lia. Qed.
Lemma costs_emitR mk k : (forall r, inst_size (mk r) <= k) -> costs k none (emitR mk).
Proof.
  intros H. unfold emitR. change k with (0 + k). eapply costs_bind; [auto with pure|apply costs_fresh|]. intros r.
  eapply costs_le; [|specialize (H r); unfold none; cbn; exact H|intros; apply le_n]. rewrite <- (Nat.add_0_r (inst_size _)).
  eapply costs_bind; [auto with pure|apply costs_emit|]. intros []. apply costs_ret. unfold none. lia.
Qed.
Lemma costs_SetInsertPoint n b : costs n none (SetInsertPoint b).
Proof. apply costs_modify. intros c. unfold size. cbn. lia. Qed.
Lemma costs_GetInsertBlock n : costs n none GetInsertBlock.
Proof. intros c. apply pwp_GetInsertBlock. unfold none. lia. Qed.
Lemma costs_bind_local n x v : costs n none (bind_local x v).
Proof. apply costs_modify. intros c. unfold size. cbn. lia. Qed.
Lemma costs_termIsNil n : costs n none termIsNil.
Proof. intros c. apply pwp_termIsNil. unfold none. intros. lia. Qed.

Lemma length_chars s : List.length (list_ascii_of_string s) = String.length s.
Proof. induction s; cbn; auto. Qed.
(** The same with what is already spent and what results have paid for. *)
Definition pays {A} (cr s N : nat) (h : A -> nat) (m : C A) : Prop := forall c, pwp m (fun a c' => size c' + h a + s <= size c + cr + N) c.
Lemma pays_start {A} N (h : A -> nat) m : pays 0 0 N h m -> costs N h m.
Proof. intros H c. eapply pwp_mono; [apply H|]. cbv beta. intros. lia. Qed.
Lemma pays_step {A B} cr s N n1 (g : A -> nat) (h : B -> nat) m f : pure m -> costs n1 g m -> (forall a, pays (g a + cr) (n1 + s) N h (f a)) -> pays cr s N h (bind m f).
Proof. intros P H K c. eapply pwp_use; [exact P|apply H|]. cbv beta. intros a c1 X. eapply pwp_mono; [apply K|]. cbv beta. intros b c2 Y. lia. Qed.
Lemma pays_last {A} cr s N n1 (g h : A -> nat) m : costs n1 g m -> (forall a, h a + (n1 + s) <= g a + cr + N) -> pays cr s N h m.
Proof. intros H K c. eapply pwp_mono; [apply H|]. cbv beta. intros a c' X. specialize (K a). lia. Qed.
Lemma pays_ret {A} cr s N (h : A -> nat) a : h a + s <= cr + N -> pays cr s N h (ret a).
Proof. intros H c. apply pwp_ret. lia. Qed.
Lemma pays_err {A} cr s N (h : A -> nat) e : pays cr s N h (errorf e).
Proof. intros c. apply pwp_err. Qed.
(** One action after the other; [N - n] is what is left. *)
Ltac catom m :=
  lazymatch m with
  | emitR _ => refine (costs_emitR _ 1 _); intros; cbn; lia
  | emit _ => refine (costs_emit _)
  | setTerm _ => refine (costs_setTerm _)
  | get => refine (costs_get 0)
  | fresh => refine (costs_fresh 0)
  | nextLabelID => refine (costs_nextLabelID 0)
  | NewBlock _ => refine (costs_NewBlock _)
  | SetInsertPoint _ => refine (costs_SetInsertPoint 0 _)
  | GetInsertBlock => refine (costs_GetInsertBlock 0)
  | bind_local _ _ => refine (costs_bind_local 0 _ _)
  | termIsNil => refine (costs_termIsNil 0)
  | modify _ => refine (costs_modify 0 _ _); intros; solve [unfold size; cbn; lia]
  end.
Definition two {A} (_ : A) : nat := 2.
(** The cases found so far pay for their entries in the switch. *)
Definition pot (sw : swctx) : nat := match sw with Some (_, l) => 2 * List.length l | None => 0 end.
Ltac cfin := unfold none, two; cbn [inst_size term_size List.length pot]; rewrite ?app_length; cbn [List.length]; lia.
Ltac cgo1 atom :=
  repeat (cbv beta zeta; lazymatch goal with
  | |- pays _ _ _ _ (ret _) => apply pays_ret; cfin
  | |- pays _ _ _ _ (errorf _) => apply pays_err
  | |- pays _ _ _ _ (bind ?m ?f) => lazymatch m with
      | bind _ _ => fail
      | (if ?b then _ else _) => destruct b eqn:?
      | (match ?x with _ => _ end) => destruct x eqn:?
      | _ => eapply pays_step; [solve [auto with pure]|atom m|intros]
      end
  | |- pays _ _ _ _ (if ?b then _ else _) => destruct b eqn:?
  | |- pays _ _ _ _ (match ?x with _ => _ end) => destruct x eqn:?
  | |- pays _ _ _ _ ?m => eapply pays_last; [atom m|intros; cfin]
  end).
Ltac cgo atom := apply pays_start; cgo1 atom.
Lemma costs_rval v l : costs 1 none (rval v l).
Proof. unfold rval. cgo catom. Qed.
Lemma costs_cmpz p a b : costs 2 none (cmpz p a b).
Proof. unfold cmpz. cgo catom. Qed.
Lemma costs_applyCop o a b : costs 2 none (applyCop o a b).
Proof. destruct o; cbn [applyCop]; [cgo catom|apply costs_cmpz]. Qed.
Lemma costs_incDec o p : costs 3 none (incDec o p).
Proof. unfold incDec. cgo catom. Qed.
Lemma costs_doCall f l : costs (2 + List.length l) none (doCall f l).
Proof.
  unfold doCall. cgo ltac:(fun m => lazymatch m with
    | emitR (fun r => ICall r _ _ _ _) => refine (costs_emitR _ (S (List.length l)) _); intros; cbn; lia
    | _ => catom m end).
Qed.
Lemma total_nil {A} (f : A -> nat) : total f [] = 0. Proof. reflexivity. Qed.
Lemma fs_mk n ps v w bs : func_size (mkFunc n ps v w bs) = S (List.length ps + total block_size bs). Proof. reflexivity. Qed.
Lemma bs_mk n is t : block_size (mkBlock n is t) = S (total inst_size is + term_size t). Proof. reflexivity. Qed.
Ltac sized := unfold size; cbn [c_mglobals c_mfuncs c_blocks set_mglobals set_mfuncs set_cur set_blocks set_builder set_nreg set_locals set_globals set_functions set_stringID set_labelID
  set_labels set_fparams set_used removeFuncByName removeGlobalByName newFunc newGlobalDef bind_global];
  rewrite ?total_app, ?total_cons, ?total_nil, ?fs_mk, ?bs_mk, ?total_nil; cbn [g_init init_size List.length term_size].
Lemma costs_GetOrDeclareFunction x : costs 1 none (GetOrDeclareFunction x).
Proof.
  unfold GetOrDeclareFunction. cgo ltac:(fun m => lazymatch m with modify _ => refine (costs_modify 1 _ _) | _ => catom m end).
  intros c. sized. pose proof (total_remove func_size f_name (globalName x) (c_mfuncs c)). lia.
Qed.
Lemma costs_GetAddress x : costs 1 none (GetAddress x).
Proof. unfold GetAddress. cgo catom. Qed.
Lemma costs_CreateStringConstant s : costs (2 + String.length s) none (CreateStringConstant s).
Proof.
  unfold CreateStringConstant. cgo ltac:(fun m => lazymatch m with modify _ => refine (costs_modify (2 + String.length s) _ _) | _ => catom m end).
  intros c. sized. rewrite app_length, length_chars. cbn. lia.
Qed.
Lemma costs_GetOrCreateLabel x : costs 1 none (GetOrCreateLabel x).
Proof. unfold GetOrCreateLabel. cgo catom. Qed.
Lemma costs_brIfOpen b : costs 1 none (brIfOpen b).
Proof. unfold brIfOpen. cgo catom. Qed.
Lemma costs_externName x : costs 1 none (externName x).
Proof.
  unfold externName. cgo ltac:(fun m => lazymatch m with modify (bind_global _ _) => catom m | modify _ => refine (costs_modify 1 _ _) | _ => catom m end).
  intros c. sized. lia.
Qed.
Lemma costs_DeclareLocal x : costs 2 none (DeclareLocal x).
Proof. unfold DeclareLocal. cgo catom. Qed.
Lemma costs_DeclareLocalArray x z : costs 5 none (DeclareLocalArray x z).
Proof. unfold DeclareLocalArray. cgo catom. Qed.
Lemma costs_genVar q x : costs 3 none (genVar q x).
Proof.
  unfold genVar. cgo ltac:(fun m => lazymatch m with GetAddress _ => refine (costs_GetAddress _) | GetOrDeclareFunction _ => refine (costs_GetOrDeclareFunction _) | _ => catom m end).
Qed.
Lemma costs_genCallee x : costs 1 none (genCallee x).
Proof. unfold genCallee. cgo ltac:(fun m => lazymatch m with GetOrDeclareFunction _ => refine (costs_GetOrDeclareFunction _) | _ => catom m end). Qed.

Ltac hatom m :=
  lazymatch m with
  | rval _ _ => refine (costs_rval _ _)
  | cmpz _ _ _ => refine (costs_cmpz _ _ _)
  | applyCop _ _ _ => refine (costs_applyCop _ _ _)
  | incDec _ _ => refine (costs_incDec _ _)
  | doCall _ _ => refine (costs_doCall _ _)
  | CreateStringConstant _ => refine (costs_CreateStringConstant _)
  | GetOrCreateLabel _ => refine (costs_GetOrCreateLabel _)
  | brIfOpen _ => refine (costs_brIfOpen _)
  | emitR (fun r => IPhi r _) => refine (costs_emitR _ 3 _); intros; cbn; lia
  | _ => catom m
  end.
Ltac gatom m :=
  lazymatch m with
  | gen _ ?q ?e => match goal with H : forall q, costs _ _ (gen _ q e) |- _ => exact (H q) end
  | genArgs _ ?l => match goal with H : costs _ _ (genArgs _ l) |- _ => exact H end
  | _ => hatom m
  end.
Lemma costs_gen_all chk : (forall e q, costs (8 * wE e) two (gen chk q e)) /\ (forall l, costs (8 * wA l) (@List.length value) (genArgs chk l)).
Proof.
  apply expr_exprs_ind; intros.
  all: ugen; cbn [wE wA]; fold wE; fold wA.
  all: try solve [apply pays_start; eapply pays_last; [apply costs_genVar|intros; cfin]|apply pays_start; eapply pays_last; [apply costs_genCallee|intros; cfin]].
  all: cgo gatom.
Qed.
Lemma costs_gen chk q e : costs (8 * wE e) two (gen chk q e). Proof. apply costs_gen_all. Qed.
Lemma costs_genR chk q e : costs (8 * wE e) none (genR chk q e).
Proof. unfold genR. cgo ltac:(fun m => lazymatch m with gen _ _ _ => refine (costs_gen _ _ _) | _ => hatom m end). Qed.
Lemma costs_checkAutos l : forall seen, costs 0 none (checkAutos seen l).
Proof.
  induction l as [|[x z] l IH]; intros seen; cbn [checkAutos]; cgo ltac:(fun m => lazymatch m with checkAutos _ _ => refine (IH _) | _ => catom m end).
Qed.
Lemma costs_declareAutos l : costs (8 * List.length l) none (declareAutos l).
Proof.
  induction l as [|[x z] l IH]; cbn [declareAutos]; cgo ltac:(fun m => lazymatch m with declareAutos _ => refine IH
    | DeclareLocal _ => refine (costs_DeclareLocal _) | DeclareLocalArray _ _ => refine (costs_DeclareLocalArray _ _) | _ => catom m end).
Qed.
Lemma costs_genExtrn l : costs (8 * List.length l) none (genExtrn l).
Proof.
  induction l as [|x l IH]; cbn [genExtrn]; cgo ltac:(fun m => lazymatch m with genExtrn _ => refine IH | externName _ => refine (costs_externName _) | _ => catom m end).
Qed.
Lemma costs_switchCases id l : costs (2 * List.length l) (@List.length (Z * nat)) (switchCases id l).
Proof.
  induction l as [|x l IH]; cbn [switchCases]; cgo ltac:(fun m => lazymatch m with switchCases _ _ => refine IH | _ => hatom m end).
Qed.
Lemma costs_cases id l v b : costs (1 + 2 * List.length l) none (cases <- switchCases id l ;; setTerm (TSwitch v b cases)).
Proof. cgo ltac:(fun m => lazymatch m with switchCases _ _ => refine (costs_switchCases _ _) | _ => hatom m end). Qed.
Ltac satom m :=
  lazymatch m with
  | genR _ _ _ => refine (costs_genR _ _ _)
  | checkAutos _ _ => refine (costs_checkAutos _ _)
  | declareAutos _ => refine (costs_declareAutos _)
  | genExtrn _ => refine (costs_genExtrn _)
  | switchCases _ _ => refine (costs_switchCases _ _)
  | genS _ ?s ?sw => match goal with H : forall sw, costs _ _ (genS _ s sw) |- _ => exact (H sw) end
  | genL _ ?l ?sw => match goal with H : forall sw, costs _ _ (genL _ l sw) |- _ => exact (H sw) end
  | _ => hatom m
  end.
Lemma costs_genS_all chk : (forall s sw, costs (8 * wS s + pot sw) pot (genS chk s sw)) /\ (forall l sw, costs (8 * wL l + pot sw) pot (genL chk l sw)).
Proof.
  apply stmt_stmts_ind; intros; ugenS; cbn [wS wL]; fold wS; fold wL; cgo satom.
  eapply pays_step; [pure_tac|apply costs_cases|intros]. cgo1 satom.
Qed.
Lemma costs_genIvals l : costs (8 * total wIv l) (@List.length cword) (genIvals l).
Proof.
  induction l as [|v l IH]; [apply costs_ret; cbn; lia|]. rewrite total_cons. cbn [genIvals]. destruct v; cbn [genIval wIv].
  - cgo ltac:(fun m => lazymatch m with genIvals _ => refine IH | ret _ => refine (costs_ret 0 none _ _); unfold none; lia | _ => hatom m end).
  - apply pays_start. eapply (pays_step _ _ _ (3 + String.length s) none); [pure_tac| |].
    + cgo hatom.
    + intros. cgo1 ltac:(fun m => lazymatch m with genIvals _ => refine IH | _ => hatom m end).
Qed.
Lemma genIvals_length l c : pwp (genIvals l) (fun ws _ => List.length ws = List.length l) c.
Proof.
  revert c. induction l as [|v l IH]; intros c; cbn [genIvals]; [apply pwp_ret; reflexivity|].
  eapply (pwp_use _ _ (fun _ _ => True)); [pure_tac|intros ? ? ?; exact Logic.I|]. intros w c1 _. eapply pwp_use; [pure_tac|apply IH|]. cbv beta. intros ws c2 E. apply pwp_ret. cbn. lia.
Qed.
Lemma vector_length n l : List.length (vector_words n l) = n.
Proof. revert l. induction n as [|n IH]; intros [|w l]; cbn; auto. Qed.
Lemma costs_newGlobals (f : cstate -> cstate) n : (forall c, total (fun g => init_size (g_init g)) (c_mglobals (f c)) <= total (fun g => init_size (g_init g)) (c_mglobals c) + n /\
  c_mfuncs (f c) = c_mfuncs c /\ c_blocks (f c) = c_blocks c) -> costs n none (modify f).
Proof. intros H. apply costs_modify. intros c. destruct (H c) as (L & E1 & E2). unfold size. rewrite E1, E2. lia. Qed.
Lemma costs_DeclareGlobal x o : costs 1 none (DeclareGlobal x o).
Proof. apply costs_newGlobals. intros c. repeat split. sized. lia. Qed.
Lemma costs_DeclareGlobalM x l : costs (S (List.length l)) none (DeclareGlobalWithMultipleValues x l).
Proof. apply costs_newGlobals. intros c. repeat split. sized. lia. Qed.
Lemma costs_DeclareGlobalArray x z l : costs (4 + match l with [] => 0 | _ => Z.to_nat z end) none (DeclareGlobalArray x z l).
Proof.
  unfold DeclareGlobalArray. cbv zeta. destruct l as [|w l].
  - cbn [List.length Nat.eqb]. rewrite andb_true_r. cbn [andb]. destruct (1 <? (if z =? 0 then 1 else z))%Z eqn:E.
    + apply costs_newGlobals. intros c. repeat split. sized. lia.
    + apply costs_newGlobals. intros c. repeat split. sized. rewrite vector_length. apply Z.ltb_ge in E. lia.
  - replace (List.length (w :: l) =? 0) with false by reflexivity. rewrite andb_false_r. cbn [andb].
    apply costs_newGlobals. intros c. repeat split. sized. rewrite vector_length. lia.
Qed.
Lemma costs_remove x : costs 0 none (modify (removeGlobalByName x)).
Proof.
  apply costs_newGlobals. intros c. repeat split. cbn. pose proof (total_remove (fun g => init_size (g_init g)) g_name (globalName x) (c_mglobals c)). lia.
Qed.
Lemma costs_getOrCreateFunc x : costs 2 none (getOrCreateFunc x).
Proof. apply costs_modify. intros c. destruct (find_named _ _ _); [lia|]. sized. lia. Qed.
Lemma costs_va_params va l : costs (3 * List.length l) none (va_params va l).
Proof. induction l as [|x l IH]; cbn [va_params]; cgo ltac:(fun m => lazymatch m with va_params _ _ => refine IH | _ => hatom m end). Qed.
Lemma pwp_DeclareFunction x ps c : pwp (DeclareFunction x ps) (fun _ c' => size c' <= size c + 2 /\ assoc x (c_fparams c') = Some ps) c.
Proof.
  unfold DeclareFunction. cbv zeta. apply pwp_bind; [auto with pure|]. apply pwp_modify. apply pwp_ret. split.
  - pose proof (total_remove func_size f_name (globalName x) (c_mfuncs c)). destruct ps; sized; lia.
  - cbn. rewrite String.eqb_refl. reflexivity.
Qed.
Lemma pwp_StartFunction x f ps c : assoc x (c_fparams c) = Some ps -> pwp (StartFunction x f) (fun _ c' => size c' <= size c + (12 + 3 * List.length ps)) c.
Proof.
  intros E. unfold StartFunction. apply pwp_bind; [auto with pure|]. apply pwp_modify. apply pwp_bind; [auto with pure|]. apply pwp_get. cbv zeta.
  cbn [c_fparams set_cur set_nreg set_locals set_labels set_builder set_blocks]. rewrite E.
  set (c1 := set_cur _ _). assert (S1 : size c1 <= size c + 1) by (subst c1; sized; lia). clearbody c1.
  assert (G : forall m : C unit, costs (11 + 3 * List.length ps) none m -> pwp m (fun _ c' => size c' <= size c + (12 + 3 * List.length ps)) c1).
  { intros m H. eapply pwp_mono; [apply H|]. unfold none. cbv beta. intros. lia. }
  destruct ps as [|p [|q ps]]; apply G; cgo ltac:(fun m => lazymatch m with va_params _ _ => refine (costs_va_params _ _) | getOrCreateFunc _ => refine (costs_getOrCreateFunc _) | _ => hatom m end).
Qed.
Lemma total_store x bs l : total func_size (store_blocks x bs l) <= total func_size l + total block_size bs.
Proof.
  induction l as [|f l IH]; cbn [store_blocks]; [lia|]. destruct (String.eqb _ _); rewrite !total_cons, ?fs_mk; [unfold func_size|]; lia.
Qed.
Lemma costs_finish : costs 0 none (modify (fun c =>
    set_cur None (set_locals [] (set_labels [] (set_blocks [] (set_builder 0%nat
      (match c_cur c with
       | Some full => set_mfuncs (store_blocks full (c_blocks c) (c_mfuncs c)) c
       | None => c
       end))))))).
Proof. apply costs_modify. intros c. destruct (c_cur c) as [x|]; sized; [pose proof (total_store x (c_blocks c) (c_mfuncs c))|]; cbn [total fold_right]; lia. Qed.
Lemma costs_EndFunction : costs 1 none EndFunction.
Proof.
  unfold EndFunction. apply pays_start. eapply pays_step; [pure_tac|apply (costs_termIsNil 0)|intros b]. destruct b.
  - eapply pays_step; [pure_tac|apply costs_setTerm|intros]. eapply pays_last; [apply costs_finish|intros; cfin].
  - eapply pays_step; [pure_tac|apply (costs_ret 0 none); cfin|intros]. eapply pays_last; [apply costs_finish|intros; cfin].
Qed.
Lemma costs_genS chk s : costs (8 * wS s) none (genS chk s None).
Proof. eapply costs_le; [apply costs_genS_all|cbn; lia|unfold none; lia]. Qed.
Lemma costs_Clear : costs 0 none ClearTopLevelContext.
Proof. apply costs_modify. intros c. sized. lia. Qed.
Lemma costs_genD chk d : costs (8 * wD d + filled d) none (genD chk d).
Proof.
  unfold genD. replace (8 * wD d + filled d) with (8 * wD d + filled d + 0) by lia. eapply (costs_bind _ _ none); [destruct d; pure_tac| |intros; apply costs_Clear].
  destruct d as [x l|x z l|x ps b]; cbn [wD filled].
  - apply pays_start. eapply pays_step; [pure_tac|apply costs_remove|intros]. eapply pays_step; [pure_tac|apply costs_genIvals|intros ws].
    destruct ws as [|w [|w' ws]]; (eapply pays_last; [first [apply costs_DeclareGlobal|apply costs_DeclareGlobalM]|intros; cfin]).
  - apply pays_start. eapply pays_step; [pure_tac|apply costs_remove|intros]. intros c.
    eapply pwp_use; [pure_tac|apply pwp_and; [apply costs_genIvals|apply genIvals_length]|]. cbv beta. intros ws c1 [X Y].
    eapply pwp_mono; [apply costs_DeclareGlobalArray|]. cbv beta. unfold none. intros _ c2 Z2. destruct l as [|v l].
    + destruct ws; [|discriminate]. cbn in *. lia.
    + destruct ws as [|w ws]; [discriminate|]. cbn [List.length] in *. destruct (Z.eqb_spec z 0).
      * rewrite Nat2Z.id in Z2. cbn in Z2. lia.
      * lia.
  - intros c. eapply pwp_use; [pure_tac|apply pwp_DeclareFunction|]. cbv beta. intros f c1 [X Y].
    eapply pwp_use; [pure_tac|apply (pwp_StartFunction x f ps c1 Y)|]. cbv beta. intros _ c2 X2.
    eapply pwp_use; [pure_tac|apply costs_genS|]. cbv beta. intros sw c3 X3. eapply pwp_mono; [apply costs_EndFunction|]. unfold none in *. cbv beta. intros _ c4 X4. lia.
Qed.
Lemma costs_genP chk ds : costs (8 * total wD ds + vectors ds) none (genP chk ds).
Proof.
  induction ds as [|d r IH]; cbn [genP]; [apply costs_ret; unfold none; lia|].
  unfold vectors in *. rewrite !total_cons. replace (8 * (wD d + total wD r) + (filled d + total filled r)) with (8 * wD d + filled d + (8 * total wD r + total filled r)) by lia.
  eapply (costs_bind _ _ none); [apply pure_genD|apply costs_genD|]. intros []. exact IH.
Qed.
Theorem generate_size chk ds M : generate chk ds = Ok M tt -> module_size M <= 8 * total wD ds + vectors ds.
Proof.
  intros H. destruct (generate_yields _ _ _ H) as (c & Y & ->). pose proof (costs_genP chk ds NewCompiler tt c Y) as K. cbv beta in K. unfold none in K.
  unfold module_size. cbn [m_globals m_funcs module_of]. unfold size in K at 1. change (size NewCompiler) with 0 in K. lia.
Qed.

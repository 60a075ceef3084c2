(** * DriverOk: the driver succeeds when nothing goes wrong *)
From Coq Require Import List Ascii String ZArith NArith Lia Bool.
From Verif Require Import Base IR Decl PropsTotal Driver SpecDriver DriverFacts DriverModes DriverSummary.
Import ListNotations.
Open Scope Z_scope.

(** No operation fails, and clang succeeds. *)
Record faultless (E : env) : Prop := mkFaultless {
  fl_stat : forall t, stat_fault E t = false;
  fl_open : forall t, open_fault E t = false;
  fl_read : forall t, read_fault E t = None;
  fl_create : forall t, create_fault E t = false;
  fl_write : forall t, write_fault E t = None;
  fl_close : forall t, close_fault E t = false;
  fl_clang : forall t x fx, exists o, clang E t x fx = ClangOk o
}.

Section Ok.
Variable E : env.
Hypothesis FE : faultless E.

Lemma single_ok f out s ir : compiles E s f ir -> exists s', compileSingleTo E f out s = DOk tt s'.
Proof.
  intros (c & HF & md & HC & ->). unfold compileSingleTo, dbind, os_open. rewrite HF, (fl_open _ FE).
  unfold parse_file. rewrite (fl_read _ FE), HC.
  unfold os_create. rewrite (fl_create _ FE). unfold write_string. rewrite (fl_write _ FE).
  unfold close_file. rewrite (fl_close _ FE). eauto.
Qed.

Lemma clang_ok x out s : exists s', run_clang E x out s = DOk tt s'.
Proof. unfold run_clang. destruct (fl_clang _ FE (d_tick s) x (d_fs s)) as [o ->]. eauto. Qed.

Lemma one_ok mk a f out s : (isb f = true -> exists ir, compiles E s f ir) ->
  exists s', oneG E mk a f out s = DOk tt s'.
Proof.
  intros H. unfold oneG. fold (isb f). destruct (isb f) eqn:B; [|apply clang_ok].
  destruct (H eq_refl) as [ir HC]. unfold dbind at 1. rewrite toIR_single; auto.
  2:{ destruct out; discriminate. }
  destruct (single_ok f (out ++ txt ".tmp.ll") s ir HC) as [s1 ->].
  unfold dbind, on_error. destruct (clang_ok (mk a (out ++ txt ".tmp.ll") out) out s1) as [s2 ->].
  destruct (drop_spec E a (out ++ txt ".tmp.ll") s2) as (s3 & evs & HD & _). rewrite HD. eauto.
Qed.

Lemma compiles_same s s' f ir : d_fs s' f = d_fs s f -> compiles E s f ir -> compiles E s' f ir.
Proof. intros H (c & H1 & H2). exists c. split; auto. congruence. Qed.

Lemma many_ok mk a on l : forall s, ok_order on l ->
  (forall f, In f l -> isb f = true -> exists ir, compiles E s f ir) ->
  exists s', each (fun f => oneG E mk a f (on f)) l s = DOk tt s'.
Proof.
  induction l as [|g l IH]; intros s HO H; [cbn; unfold dret; eauto|].
  rewrite each_cons. destruct HO as [HO1 HO2].
  destruct (one_ok mk a g (on g) s) as [s1 E1]. { apply H. cbn; auto. }
  pose proof (one_spec E mk a g (on g) s) as O. cbv zeta in O. rewrite E1 in O. destruct O as (evs & _ & F & C & _).
  cbn [final] in *. rewrite E1. apply IH; auto. intros f Hf B. destruct (H f (or_intror Hf) B) as [ir HC].
  exists ir. eapply compiles_same; [|exact HC]. apply F; auto. intros HI. apply C in HI.
  destruct HI as (_ & HI & _). revert HI. apply isb_not_tmp. auto.
Qed.

Lemma irs_ok on l : forall s, ok_order on l -> Forall (fun f => isb f = true) l ->
  (forall f, In f l -> exists ir, compiles E s f ir) ->
  exists s', each (fun f => compileSingleTo E f (on f)) l s = DOk tt s'.
Proof.
  induction l as [|g l IH]; intros s HO HB H; [cbn; unfold dret; eauto|].
  rewrite each_cons. destruct HO as [HO1 HO2]. inversion_clear HB as [|? ? B1 B2].
  destruct (H g) as [ir0 HC0]; [cbn; auto|].
  destruct (single_ok g (on g) s ir0 HC0) as [s1 E1].
  pose proof (single_spec E g (on g) s) as O. rewrite E1 in O. destruct O as (c & ir & _ & _ & _ & _ & F).
  rewrite E1. apply IH; auto. intros f Hf. destruct (H f (or_intror Hf)) as [ir1 HC].
  exists ir1. eapply compiles_same; [|exact HC]. apply F. apply HO1; auto.
  rewrite Forall_forall in B2. auto.
Qed.

Lemma exe_inputs_ok a l : forall i temps ins s, Forall linkable l ->
  (forall f, In f l -> isb f = true -> exists ir, compiles E s f ir) ->
  exists p s', exe_inputs E a i l temps ins s = DOk p s'.
Proof.
  induction l as [|g l IH]; intros i temps ins s HL H; [cbn; unfold dret; eauto|].
  inversion_clear HL as [|? ? L1 L2]. cbn [exe_inputs]. cbv zeta.
  rewrite <- isb_Ext. destruct (isb g) eqn:B.
  - destruct (H g) as [ir0 HC0]; [cbn; auto|auto|].
    assert (EX : Ext g = txt ".b").
    { rewrite isb_Ext in B. destruct (path_eqb_spec (Ext g) (txt ".b")); [auto|discriminate]. }
    unfold dbind, on_error. rewrite EX.
    rewrite toIR_single; [|exact B|apply temp_ne].
    destruct (single_ok g (temp_name a i g (txt ".b")) s ir0 HC0) as [s1 E1].
    pose proof (single_spec E g (temp_name a i g (txt ".b")) s) as O. rewrite E1 in O.
    destruct O as (c & ir & _ & _ & _ & _ & F). rewrite E1. apply IH; auto.
    intros f Hf Bf. destruct (H f (or_intror Hf) Bf) as [ir1 HC]. exists ir1. eapply compiles_same; [|exact HC].
    apply F. apply isb_not_temp. auto.
  - rewrite isb_Ext in B. unfold linkable in L1. cbn [In] in L1.
    assert (X : path_eqb (Ext g) (txt ".ll") || path_eqb (Ext g) (txt ".s")
            || path_eqb (Ext g) (txt ".o") || path_eqb (Ext g) (txt ".a") = true).
    { destruct L1 as [X|[X|[X|[X|[X|[]]]]]]; rewrite <- X in *; auto; try discriminate. }
    rewrite X. apply IH; auto. intros f Hf. apply H. cbn; auto.
Qed.

Lemma Compile_ok a s : InputFiles a <> [] -> forallb (accepts (OutType a)) (InputFiles a) = true ->
  (OutType a = OutputExecutable \/ bad_o a = false) ->
  (forall f, In f (InputFiles a) -> isb f = true -> exists ir, compiles E s f ir) ->
  exists s', Compile E a s = DOk tt s'.
Proof.
  intros HN HA HO H. unfold Compile. destruct (OutType a) eqn:M.
  - unfold compileToExecutable. fold (with_output a). cbv zeta. unfold dbind at 1.
    destruct (with_output_fields a) as (EI & _). rewrite EI.
    destruct (exe_inputs_ok (with_output a) (InputFiles a) 0 [] [] s) as ([ts ins] & s1 & E1); auto.
    { apply Forall_forall. intros f Hf. rewrite forallb_forall in HA. specialize (HA f Hf).
      unfold accepts in HA. cbn [accepted existsb] in HA. unfold linkable. cbn [In].
      repeat rewrite orb_true_iff in HA.
      destruct HA as [X|[X|[X|[X|[X|X]]]]]; try discriminate X;
        (match type of X with path_eqb ?x ?y = true => destruct (path_eqb_spec x y) as [Y|]; [|discriminate] end);
        rewrite Y; cbn; tauto. }
    rewrite E1. unfold dbind, on_error.
    destruct (clang_ok (linkArgs E (with_output a) ins) (OutputFile (with_output a)) s1) as [s2 ->].
    destruct (drops_spec E (with_output a) ts s2) as (s3 & evs & HD & _). rewrite HD. eauto.
  - destruct HO as [?|HO]; [discriminate|]. rewrite obj_mode, HA, HO. apply many_ok; auto. apply ok_order_on; cbn; auto.
  - destruct HO as [?|HO]; [discriminate|]. rewrite asm_mode, HA, HO. apply many_ok; auto. apply ok_order_on; cbn; auto.
  - destruct HO as [?|HO]; [discriminate|]. rewrite IR_mode, HA, HO.
    assert (HB : forall f, In f (InputFiles a) -> isb f = true).
    { intros f Hf. rewrite forallb_forall in HA. specialize (HA f Hf). rewrite accepts_IR in HA. exact HA. }
    apply irs_ok; auto.
    + apply ok_order_on; cbn; auto.
    + apply Forall_forall. auto.
Qed.

Lemma checks_ok l : forall s, forallb (accepts OutputExecutable) l = true -> (forall f, In f l -> d_fs s f <> None) ->
  exists s', each (check_input E) l s = DOk tt s' /\ d_fs s' = d_fs s.
Proof.
  induction l as [|g l IH]; intros s HA H; [cbn; unfold dret; eauto|].
  cbn [forallb] in HA. apply andb_prop in HA. destruct HA as [A1 A2].
  rewrite each_cons. destruct (check_input_spec E g s) as (s1 & -> & F & L). rewrite A1, (fl_stat _ FE).
  destruct (d_fs s g) eqn:DG; [|exfalso; apply (H g); cbn; auto].
  destruct (IH s1) as (s2 & E2 & F2); auto. { intros f Hf. rewrite F. apply H. cbn; auto. }
  exists s2. split; auto. congruence.
Qed.

End Ok.

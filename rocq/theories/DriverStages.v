(** * DriverStages: what clang is given for every input
    In each mode the file clang is given for an input has the contents it should
    have: the text of the module for a .b file, else the file as it was before
    the run, if no output or temporary has its name. *)
From Coq Require Import List Ascii String ZArith NArith Lia Bool.
From Verif Require Import Base IR Decl PropsTotal Driver SpecDriver DriverFacts DriverModes DriverSummary DriverOk PropsDriver DriverLink SpecStages.
Import ListNotations.
Open Scope Z_scope.

Section Many.
Variable E : env.
Variable mk : CompileOptions -> path -> path -> list path.
Variable a : CompileOptions.
Variable on : path -> path.
Let tmp (f : path) : path := on f ++ txt ".tmp.ll".
Let src (f : path) : path := if isb f then tmp f else f.
Lemma many_seen l : forall s s' u, (forall f g, In f l -> In g l -> on f <> tmp g) -> ok_order on l -> NoDup (map on l) ->
  each (fun f => oneG E mk a f (on f)) l s = DOk u s' ->
  forall f, In f l -> exists t fx o, clang E t (mk a (src f) (on f)) fx = ClangOk o /\ d_fs s' (on f) = Some o
    /\ (isb f = true -> exists c ir, d_fs s f = Some c /\ ir_of E c ir /\ fx (src f) = Some ir)
    /\ (isb f = false -> (forall g, In g l -> f <> on g /\ (isb g = true -> f <> tmp g)) -> fx (src f) = d_fs s f).
Proof.
  induction l as [|g l IH]; intros s s' u HD HO ND HE f Hf; [destruct Hf|].
  rewrite each_cons in HE.
  destruct (one_spec E mk a g (on g) s) as (ev1 & A1 & F1 & C1 & R1 & K1 & U1 & S1). cbv zeta in *.
  fold (isb g) in *. fold (tmp g) in *. fold (src g) in *.
  destruct (oneG E mk a g (on g) s) as [[] s1|e s1] eqn:E1; [|discriminate]. cbn [final] in *.
  destruct HO as [HO1 HO2].
  assert (HDl : forall f g0, In f l -> In g0 l -> on f <> tmp g0) by (intros; apply HD; cbn; auto).
  inversion_clear ND as [|? ? N1 N2].
  destruct Hf as [->|Hf].
  - destruct (many_spec E mk a on l s1 HDl HO2) as (ev2 & A2 & F2 & C2 & R2 & K2 & U2 & S2). cbv zeta in *.
    rewrite HE in *. cbn [final] in *. destruct S1 as (_ & t & fx & o & CL & O1 & FX & X).
    exists t, fx, o. splits; auto.
    + rewrite F2; auto.
      * intros h Hh HQ. apply N1. rewrite HQ. apply in_map. auto.
      * intros K. destruct (C2 _ K) as (h & Hh & _ & HQ & _). revert HQ. apply HD; cbn; auto.
    + intros B. destruct (X B) as (c & ir & H1 & H2 & H3 & _). exists c, ir. splits; auto. unfold src. rewrite B. exact H3.
    + intros B _. unfold src. rewrite B. apply FX. intros K. congruence.
  - destruct (IH s1 s' u HDl HO2 N2 HE f Hf) as (t & fx & o & CL & O1 & X & Y).
    exists t, fx, o. splits; auto.
    + intros B. destruct (X B) as (c & ir & H1 & H2 & H3). exists c, ir. splits; auto. rewrite <- H1. symmetry. apply F1; auto.
      intros K. destruct (C1 _ K) as (_ & HQ & _). revert HQ. apply isb_not_tmp. auto.
    + intros B HN. rewrite Y by (auto; intros h Hh; apply HN; cbn; auto). apply F1; [apply HN; cbn; auto|].
      intros K. destruct (C1 _ K) as (B1 & HQ & _). revert HQ. apply HN; cbn; auto.
Qed.
End Many.

(** The modes -S and -c. *)
Definition flag_of (m : OutputType) : path := txt (match m with OutputAssembly => "-S" | _ => "-c" end).
Lemma stage_command E fl m s s' : run E fl m s 0 s' -> m = OutputAssembly \/ m = OutputObject -> separate fl m ->
  forall i f o, nth_error (f_files fl) i = Some f -> is_output fl m f o ->
  exists t fx out y, clang_input fl m i f y /\ clang E t (lead fl ++ [flag_of m; txt "-o"; o; y]) fx = ClangOk out /\ d_fs s' o = Some out
    /\ ((exists st, named f st (txt "b")) -> (exists q, y = q ++ txt ".ll") /\ exists c M, d_fs s f = Some c /\ compile c false = Ok M tt /\ fx y = Some (render E M))
    /\ ((forall st, ~ named f st (txt "b")) -> unwritten fl m f -> fx y = d_fs s f).
Proof.
  intros R HM2 SP i f o Hi HOut. run_start R; [discriminate|]. clear evs A F C Rm K U S.
  apply status_ok in HS. destruct HS as (_ & _ & HOK). destruct (HOK eq_refl) as [u HR].
  assert (MA : OutType a = m) by (subst a; apply mode_a; auto).
  assert (HN' : InputFiles a <> []) by (subst a; exact HN).
  assert (EF : InputFiles a = f_files fl) by (subst a; reflexivity).
  assert (HA' : forallb (accepts m) (InputFiles a) = true) by (rewrite EF; exact HA).
  assert (NX : m <> OutputExecutable) by (destruct HM2; subst m; discriminate). assert (NI : m <> OutputIR) by (destruct HM2; subst m; discriminate).
  assert (HX : is_exe m = false) by (destruct m; auto; congruence).
  assert (BO : bad_o a = false).
  { destruct (bad_o a) eqn:B; auto. exfalso. destruct (Compile_rejects E a s1) as [e He]; [congruence|auto|]. rewrite He in HR. discriminate. }
  set (mk := match m with OutputAssembly => asmArgs | _ => objArgs end).
  assert (HR' : each (fun f => oneG E mk a f (on_of a (suffix m) f)) (InputFiles a) s1 = DOk u s').
  { unfold Compile in HR. rewrite MA in HR. subst mk. destruct HM2; subst m.
    - rewrite asm_mode, HA', BO in HR. exact HR.
    - rewrite obj_mode, HA', BO in HR. exact HR. }
  assert (HSf : In (suffix m) [txt ".s"; txt ".o"]) by (destruct HM2; subst m; cbn; auto).
  assert (EO : forall g, O_ a m g = on_of a (suffix m) g) by (intros g; unfold O_; rewrite HX; auto).
  assert (ET : forall j g, T_ a m j g = on_of a (suffix m) g ++ txt ".tmp.ll") by (intros j g; unfold T_; rewrite HX, EO; auto).
  assert (DI : NoDup (map (on_of a (suffix m)) (InputFiles a))).
  { apply (separate_distinct E fl m level HM HA) in SP. rewrite <- Ea in SP. destruct SP as [|SP]; [congruence|].
    erewrite map_ext; [exact SP|]. intros g. rewrite EO. reflexivity. }
  assert (HOrd : ok_order (on_of a (suffix m)) (InputFiles a)) by (apply ok_order_on; auto; cbn in *; tauto).
  assert (Hf : In f (InputFiles a)) by (rewrite EF; eapply nth_error_In; eauto).
  destruct (many_seen E mk a (on_of a (suffix m)) (InputFiles a) s1 s' u (on_not_tmp a (suffix m) HSf BO) HOrd DI HR' f Hf) as (t & fx & out & CL & O1 & X & Y).
  assert (OE : o = on_of a (suffix m) f).
  { apply (run_outputs E fl m level f HM HA) in HOut; [|rewrite <- EF; exact Hf]. rewrite <- Ea, EO in HOut. exact HOut. }
  exists t, fx, out. exists (if isb f then on_of a (suffix m) f ++ txt ".tmp.ll" else f). splits; auto.
  - pose proof (clang_input_spec E fl m level i f NI HA Hi) as CI. rewrite <- Ea, ET in CI. exact CI.
  - assert (EL : level_flags a = lead fl) by (subst a; apply lead_flags; auto).
    subst mk. rewrite <- EL, OE. unfold flag_of. destruct HM2; subst m; exact CL.
  - rewrite OE. exact O1.
  - intros HB. apply isb_named in HB. rewrite HB. split.
    + exists (on_of a (suffix m) f ++ txt ".tmp"). rewrite <- app_assoc. reflexivity.
    + destruct (X HB) as (c & ir & H1 & (M & H2 & ->) & H3). rewrite HB in H3. exists c, M. rewrite FS in H1. auto.
  - intros HB [UO UT]. assert (B : isb f = false). { destruct (isb f) eqn:B; auto. apply isb_named in B. destruct B as [st B]. destruct (HB st B). }
    rewrite B in *. rewrite Y, FS; auto. intros g Hg. rewrite EF in Hg. split; [intros HQ|intros Bg].
    + apply (UO g Hg). apply (run_outputs E fl m level g HM HA Hg). rewrite <- Ea, EO. exact HQ.
    + intros HQ. apply In_nth_error in Hg. destruct Hg as [j Hj]. apply (UT j g Hj). apply (temp_iff E fl m level); auto. rewrite <- Ea, ET. exact HQ.
Qed.

(** The default mode: one link command over what is made of all inputs. *)
Lemma mixed_command E fl s s' : run E fl OutputExecutable s 0 s' ->
  exists o ins t fx exe, is_output fl OutputExecutable [] o
  /\ List.length ins = List.length (f_files fl)
  /\ (forall i f, nth_error (f_files fl) i = Some f -> exists y, nth_error ins i = Some y /\ clang_input fl OutputExecutable i f y
        /\ ((exists st, named f st (txt "b")) -> (exists q, y = q ++ txt ".ll") /\ exists c M, d_fs s f = Some c /\ compile c false = Ok M tt /\ fx y = Some (render E M))
        /\ ((forall st, ~ named f st (txt "b")) -> (forall j g, nth_error (f_files fl) j = Some g -> ~ is_temp fl OutputExecutable j g f) -> fx y = d_fs s f))
  /\ clang E t (lead fl ++ ins ++ (if linux E then [txt "-static"; txt "-nostdlib"] else [])
       ++ map (fun d => txt "-L" ++ d) (default_dirs E ++ f_library_dirs fl) ++ [txt "-lb"]
       ++ map (fun l => txt "-l" ++ l) (f_libraries fl) ++ [txt "-o"; o]) fx = ClangOk exe
  /\ ((forall i f, nth_error (f_files fl) i = Some f -> ~ is_temp fl OutputExecutable i f o) -> d_fs s' o = Some exe).
Proof.
  intros R. run_start R; [discriminate|]. clear evs A F C Rm K U S.
  apply status_ok in HS. destruct HS as (_ & _ & HOK). destruct (HOK eq_refl) as [u HR].
  assert (MA : OutType a = OutputExecutable) by (subst a; apply mode_a; auto).
  unfold Compile in HR. rewrite MA in HR.
  assert (HN' : InputFiles a <> []) by (subst a; exact HN).
  assert (HA' : forallb (accepts OutputExecutable) (InputFiles a) = true) by (subst a; exact HA).
  set (b := with_output a).
  destruct (with_output_fields a) as (EI & ES & EOpt & EDbg & EDir & ELib & EOut). fold b in EI, ES, EOpt, EDbg, EDir, ELib, EOut.
  assert (HLk : Forall linkable (InputFiles b)).
  { rewrite EI. apply Forall_forall. intros f Hf. apply linkable_accepts. rewrite forallb_forall in HA'. auto. }
  assert (ND : NoDup (new_temps b 0 (InputFiles b))) by (apply new_temps_nodup; lia).
  destruct (exe_spec E b s1 HLk ND) as (evs & _ & _ & _ & _ & _ & _ & S). cbv zeta in S.
  change (compileToExecutable E a s1) with
    ((p <- exe_inputs E b 0 (InputFiles b) [] [] ;;
            let '(temps, ins) := p in
            on_error (run_clang E (linkArgs E b ins) (OutputFile b)) (drop_temps E b temps) ;;
            drop_temps E b temps)%d s1) in HR.
  rewrite HR in S. cbn [DriverFacts.final] in S. destruct S as (_ & t & fx & exe & CL & O1 & FX & X).
  destruct (new_ins_spec b (f_files fl) 0) as [NL NS]. assert (EF : InputFiles a = f_files fl) by (subst a; reflexivity). rewrite EI, EF in *.
  assert (NT : forall p, (forall i f, nth_error (f_files fl) i = Some f -> ~ is_temp fl OutputExecutable i f p) -> ~ In p (new_temps b 0 (f_files fl))).
  { intros p HT K. apply new_temps_spec in K. destruct K as (i & f & H1 & H2 & H3). cbn [Nat.add] in H3.
    apply (HT i f H1). subst a. apply (temp_iff E fl OutputExecutable level); auto. discriminate. }
  exists (OutputFile b), (new_ins b 0 (f_files fl)), t, fx, exe. splits; auto.
  - subst a. apply (exe_output E fl OutputExecutable level); auto. rewrite forallb_forall in HA. apply HA. destruct (f_files fl); [congruence|left; reflexivity].
  - intros i f Hi. eexists. split; [apply (NS i f Hi)|]. cbn [Nat.add].
    pose proof (clang_input_spec E fl OutputExecutable level i f ltac:(discriminate) HA Hi) as CI. splits.
    + subst a. exact CI.
    + intros HB. apply isb_named in HB. rewrite HB. split; [apply temp_ll|].
      destruct (X i f Hi HB) as (c & ir & H1 & (md & H2 & ->) & H3 & _). exists c, md. rewrite FS in H1. auto.
    + intros HB HT. assert (B : isb f = false). { destruct (isb f) eqn:B; auto. apply isb_named in B. destruct B as [st B]. destruct (HB st B). }
      rewrite B. rewrite FX, FS; auto.
  - assert (EL : level_flags b = lead fl).
    { rewrite <- (lead_flags E fl level HL). unfold level_flags. rewrite EOpt, EDbg. subst a. reflexivity. }
    unfold linkArgs in CL. rewrite EL, EDir, ELib in CL. subst a. exact CL.
Qed.

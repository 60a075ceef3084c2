(** * DriverLink: the one link command of a successful run
    In the default mode clang is started once, after all .b files have been
    compiled, and sees the text of every module. *)
From Coq Require Import List Ascii String ZArith NArith Lia Bool.
From Verif Require Import Base IR Decl PropsTotal Driver SpecDriver DriverFacts DriverModes DriverSummary DriverOk PropsDriver.
Import ListNotations.
Open Scope Z_scope.

Lemma Forall2_nth {A B} (R : A -> B -> Prop) : forall l k, List.length l = List.length k ->
  (forall i a b, nth_error l i = Some a -> nth_error k i = Some b -> R a b) -> Forall2 R l k.
Proof.
  induction l as [|a l IH]; intros [|b k] L H; try discriminate; constructor.
  - apply (H 0%nat); reflexivity.
  - apply IH; [injection L; auto|]. intros i x y. apply (H (S i)).
Qed.
Lemma pick_all {A B} (R : nat -> A -> B -> Prop) : forall l, (forall i a, nth_error l i = Some a -> exists b, R i a b) ->
  exists k, List.length k = List.length l /\ forall i a b, nth_error l i = Some a -> nth_error k i = Some b -> R i a b.
Proof.
  intros l. revert R. induction l as [|a l IH]; intros R H.
  - exists []. split; auto. intros [|i]; discriminate.
  - destruct (H 0%nat a eq_refl) as [b Hb]. destruct (IH (fun i => R (S i)) (fun i x E => H (S i) x E)) as (k & L & K).
    exists (b :: k). split; [cbn; congruence|]. intros [|i] x y; cbn; [congruence|apply K].
Qed.

Lemma link_command E fl s s' : run E fl OutputExecutable s 0 s' ->
  (forall f, In f (f_files fl) -> exists st, named f st (txt "b")) ->
  exists o ins t fx exe Ms, is_output fl OutputExecutable [] o
  /\ Forall2 (fun f M => exists src, d_fs s f = Some src /\ compile src false = Ok M tt) (f_files fl) Ms
  /\ List.length ins = List.length (f_files fl)
  /\ (forall i f, nth_error (f_files fl) i = Some f -> exists y, nth_error ins i = Some y /\ is_temp fl OutputExecutable i f y /\ exists q, y = q ++ txt ".ll")
  /\ Forall2 (fun y M => fx y = Some (render E M)) ins Ms
  /\ clang E t (lead fl ++ ins ++ (if linux E then [txt "-static"; txt "-nostdlib"] else [])
       ++ map (fun d => txt "-L" ++ d) (default_dirs E ++ f_library_dirs fl) ++ [txt "-lb"]
       ++ map (fun l => txt "-l" ++ l) (f_libraries fl) ++ [txt "-o"; o]) fx = ClangOk exe
  /\ ((forall i f, nth_error (f_files fl) i = Some f -> ~ is_temp fl OutputExecutable i f o) -> d_fs s' o = Some exe).
Proof.
  intros R HB.
  assert (HB' : forall f, In f (f_files fl) -> isb f = true) by (intros f Hf; apply isb_named; auto).
  run_start R; [discriminate|]. clear evs A F C Rm K U S.
  apply status_ok in HS. destruct HS as (_ & _ & HOK). destruct (HOK eq_refl) as [u HR].
  assert (MA : OutType a = OutputExecutable) by (subst a; apply mode_a; auto).
  unfold Compile in HR. rewrite MA in HR.
  assert (HN' : InputFiles a <> []) by (subst a; exact HN).
  assert (HA' : forallb (accepts OutputExecutable) (InputFiles a) = true) by (subst a; exact HA).
  set (b := with_output a).
  destruct (with_output_fields a) as (EI & ES & EOpt & EDbg & EDir & ELib & EOut). fold b in EI, ES, EOpt, EDbg, EDir, ELib, EOut.
  assert (HLk : Forall linkable (InputFiles b)).
  { rewrite EI. apply Forall_forall. intros f Hf. apply linkable_accepts. rewrite forallb_forall in HA'. auto. }
  assert (ND : NoDup (new_temps b 0 (InputFiles b))) by (apply new_temps_nodup; lia).
  destruct (exe_spec E b s1 HLk ND) as (evs & _ & _ & _ & _ & _ & _ & S). cbv zeta in S.
  change (compileToExecutable E a s1) with
    ((p <- exe_inputs E b 0 (InputFiles b) [] [] ;;
            let '(temps, ins) := p in
            on_error (run_clang E (linkArgs E b ins) (OutputFile b)) (drop_temps E b temps) ;;
            drop_temps E b temps)%d s1) in HR.
  rewrite HR in S. cbn [DriverFacts.final] in S. destruct S as (_ & t & fx & exe & CL & O1 & _ & X).
  destruct (new_ins_spec b (f_files fl) 0) as [NL NS]. assert (EF : InputFiles a = f_files fl) by (subst a; reflexivity). rewrite EI, EF in *.
  assert (HX : forall i f, nth_error (f_files fl) i = Some f -> exists M, (exists src, d_fs s f = Some src /\ compile src false = Ok M tt) /\
    fx (temp_name b i f (txt ".b")) = Some (render E M)).
  { intros i f Hi. destruct (X i f Hi (HB' f (nth_error_In _ _ Hi))) as (c & ir & H1 & (md & H2 & ->) & H3 & _). exists md. rewrite FS in H1. eauto. }
  destruct (pick_all _ _ HX) as (Ms & LM & HM').
  exists (OutputFile b), (new_ins b 0 (f_files fl)), t, fx, exe, Ms. splits; auto.
  - subst a. apply (exe_output E fl OutputExecutable level); auto. rewrite forallb_forall in HA. apply HA. destruct (f_files fl); [congruence|left; reflexivity].
  - apply Forall2_nth; auto. intros i f M H1 H2. destruct (HM' i f M H1 H2). auto.
  - intros i f Hi. eexists. split; [apply (NS i f Hi)|]. rewrite (HB' f (nth_error_In _ _ Hi)). cbn [Nat.add]. split; [|apply temp_ll].
    pose proof (clang_input_spec E fl OutputExecutable level i f ltac:(discriminate) HA Hi) as CI. rewrite (HB' f (nth_error_In _ _ Hi)) in CI.
    subst a. destruct CI as [[_ CI]|[CI _]]; [exact CI|]. exfalso. destruct (HB f (nth_error_In _ _ Hi)) as [st Hst]. apply (CI st Hst).
  - apply Forall2_nth; [congruence|]. intros i y M H1 H2.
    assert (exists f, nth_error (f_files fl) i = Some f) as [f Hf].
    { destruct (nth_error (f_files fl) i) eqn:Q; eauto. apply nth_error_None in Q. assert (nth_error Ms i <> None) as Z by congruence. apply nth_error_Some in Z. lia. }
    rewrite (NS i f Hf), (HB' f (nth_error_In _ _ Hf)) in H1. injection H1 as <-. apply (HM' i f M Hf H2).
  - assert (EL : level_flags b = lead fl).
    { rewrite <- (lead_flags E fl level HL). unfold level_flags. rewrite EOpt, EDbg. subst a. reflexivity. }
    unfold linkArgs in CL. rewrite EL, EDir, ELib in CL. subst a. exact CL.
  - intros HT. apply O1. intros K. apply new_temps_spec in K. destruct K as (i & f & H1 & H2 & H3). cbn [Nat.add] in H3.
    apply (HT i f H1). subst a. apply (temp_iff E fl OutputExecutable level); auto. discriminate.
Qed.

(** * PropsDriver: properties C47 to C57, the driver *)
From Coq Require Import List Ascii String ZArith NArith Lia Bool.
From Verif Require Import Base IR Decl PropsTotal Driver SpecDriver DriverFacts DriverModes DriverSummary DriverOk.
Import ListNotations.
Open Scope Z_scope.

(** ** From the names of the model to the documented names *)
Lemma mode_type fl m : mode_is fl m <-> output_type fl = m.
Proof.
  unfold output_type. destruct m; cbn; destruct (f_assemble fl), (f_compile fl), (f_emit_llvm fl);
    intuition discriminate.
Qed.

Lemma isb_named f : isb f = true <-> exists st, named f st (txt "b").
Proof.
  rewrite isb_Ext. split.
  - destruct (path_eqb_spec (Ext f) (txt ".b")) as [H|]; [|discriminate]. intros _. apply Ext_named. exact H.
  - intros [st H]. rewrite (named_Ext _ _ _ H). apply path_eqb_refl.
Qed.

Lemma mode_a E fl m level : mode_is fl m -> OutType (options_of E fl level) = m.
Proof. intros HM. apply mode_type in HM. exact HM. Qed.

Lemma output_iff E fl m level f o (a := options_of E fl level) : accepts m f = true -> accepts m (hd [] (f_files fl)) = true ->
  is_output fl m f o <-> o = O_ a m f.
Proof.
  intros HF HH. unfold is_output, output_of, O_, on_of. try subst a; cbn [options_of OutputFile InputFiles].
  destruct (path_eqb_spec (f_output fl) []) as [EO|NO].
  - set (x := match m with OutputExecutable => hd [] (f_files fl) | _ => f end).
    match goal with |- context [out_name ?y _] => assert (HX : y = x) by (unfold x; destruct m; reflexivity); rewrite HX end.
    assert (AX : accepts m x = true) by (unfold x; destruct m; auto).
    apply accepts_named in AX. destruct AX as (st & e & HN & _). rewrite (named_out _ _ _ _ HN). split.
    + intros [[? _]|(_ & st' & e' & HN' & ->)]; [congruence|]. destruct (named_unique _ _ _ _ _ HN HN'). congruence.
    + intros ->. right. split; auto. exists st, e. auto.
  - split.
    + intros [[_ ->]|[? _]]; congruence.
    + intros ->. auto.
Qed.

Lemma exe_output E fl m level o (a := options_of E fl level) : m = OutputExecutable -> accepts m (hd [] (f_files fl)) = true ->
  is_output fl m [] o <-> o = OutputFile (with_output a).
Proof.
  intros -> HH. destruct (with_output_fields a) as (_ & _ & _ & _ & _ & _ & ->).
  exact (output_iff E fl OutputExecutable level (hd [] (f_files fl)) o HH HH).
Qed.

Lemma temp_iff E fl m level i f t (a := options_of E fl level) : m <> OutputIR -> isb f = true -> forallb (accepts m) (f_files fl) = true ->
  nth_error (f_files fl) i = Some f -> is_temp fl m i f t <-> t = T_ a m i f.
Proof.
  intros HI HB HA Hi.
  assert (AF : accepts m f = true) by (rewrite forallb_forall in HA; apply HA; eapply nth_error_In; eauto).
  assert (AH : accepts m (hd [] (f_files fl)) = true).
  { rewrite forallb_forall in HA; apply HA. destruct (f_files fl); [destruct i; discriminate|cbn; auto]. }
  assert (GEN : is_exe m = false -> is_temp fl m i f t <-> t = O_ a m f ++ txt ".tmp.ll").
  { intros HX. unfold is_temp, temp_of. pose proof (proj1 (isb_named f) HB) as [st HN]. split.
    - intros (st' & _ & H). destruct m; try discriminate; try contradiction;
        destruct H as (o & HO & ->); f_equal; apply (output_iff E fl _ level) in HO; auto.
    - intros ->. exists st. split; auto. destruct m; try discriminate; try congruence;
        (eexists; split; [eapply (proj2 (output_iff E fl _ level f _ AF AH)); reflexivity|reflexivity]). }
  destruct (is_exe m) eqn:HX.
  2:{ unfold T_. rewrite HX. auto. }
  destruct m; try discriminate. clear GEN.
  pose proof (proj1 (isb_named f) HB) as [st HN].
  unfold is_temp, temp_of, T_, temp_name. cbn [is_exe].
  destruct (with_output_fields a) as (EI & _ & _ & _ & _ & _ & EO). rewrite EI, EO. try subst a; cbn [options_of InputFiles].
  assert (EB : TrimSuffix (Base f) (txt ".b") = st).
  { rewrite (named_Base _ _ _ HN). apply TrimSuffix_app. }
  rewrite EB.
  destruct (Nat.eqb_spec (List.length (f_files fl)) 1) as [H1|H1].
  - destruct (f_files fl) as [|f' [|g l]]; try discriminate. destruct i as [|[|i]]; try discriminate.
    injection Hi as ->. cbn [hd]. unfold on_of. try subst a; cbn [options_of OutputFile].
    rewrite (named_out _ _ _ _ HN), app_nil_r.
    cbn [andb]. destruct (f_output fl) as [|c r].
    + change (path_eqb [] []) with true. cbv iota.
      assert (EST : path_eqb st [] = true -> st ++ txt ".tmp." ++ txt (dec (Z.of_nat 0)) ++ txt ".ll" = txt ".tmp.0.ll").
      { destruct (path_eqb_spec st []) as [->|]; [reflexivity|discriminate]. }
      split.
      * intros (st' & HN' & H). destruct (named_unique _ _ _ _ _ HN HN') as [<- _].
        destruct (path_eqb st []); cbn [negb]; auto. rewrite EST; auto.
      * intros H. exists st. split; auto. destruct (path_eqb st []); cbn [negb] in H; auto. rewrite EST in H; auto.
    + assert (EN : path_eqb (c :: r) [] = false) by (destruct (path_eqb_spec (c :: r) []); congruence).
      rewrite EN. cbn [negb]. split.
      * intros (st' & _ & H). auto.
      * intros H. exists st. auto.
  - split.
    + intros (st' & HN' & H). destruct (named_unique _ _ _ _ _ HN HN') as [<- _]. auto.
    + intros H. exists st. auto.
Qed.

(** Everything a run of blang does, with the documented names. *)
Record run (E : env) (fl : flags) (m : OutputType) (s : dstate) (st : Z) (s' : dstate) : Prop := mkRun {
  run_compiling : compiling fl;
  run_mode : mode_is fl m;
  run_main : main E fl s = (st, s')
}.

(** A .b input with its IR. *)
Definition translates (E : env) (s : dstate) (f : path) (ir : list ascii) : Prop :=
  exists c md, d_fs s f = Some c /\ compile c false = Ok md tt /\ ir = render E md.

Definition writes_work (E : env) : Prop := forall t, write_fault E t = None /\ close_fault E t = false.
Definition removes_work (E : env) : Prop := forall t, remove_fault E t = false.

Lemma translates_iff E s f ir : translates E s f ir <-> compiles E s f ir.
Proof. unfold translates, compiles, ir_of. split; intros (c & H); [destruct H as (md & H1 & H2)|destruct H as (H1 & md & H2)]; eauto. Qed.

Lemma bad_iff E fl level : bad_o (options_of E fl level) = true <-> f_output fl <> [] /\ List.length (f_files fl) <> 1%nat.
Proof.
  unfold bad_o. cbn [options_of OutputFile InputFiles]. rewrite andb_true_iff, !negb_true_iff, Nat.eqb_neq.
  destruct (path_eqb_spec (f_output fl) []); intuition (try discriminate; try congruence).
Qed.

Lemma accepts_exe m f : accepts m f = true -> accepts OutputExecutable f = true.
Proof.
  rewrite !accepts_named. intros (st & e & HN & He). exists st, e. split; auto.
  destruct m; cbn in *; tauto.
Qed.

(** The three ways a run can go. *)
Lemma run_cases E fl m s st s' : run E fl m s st s' ->
  (st = 1 /\ d_fs s' = d_fs s /\ d_log s' = d_log s)
  \/ exists s1 level a, a = options_of E fl level /\ d_fs s1 = d_fs s /\ d_log s1 = d_log s
     /\ opt_level (f_optimize fl) = Some level
     /\ f_files fl <> [] /\ f_no_args fl = false
     /\ forallb (accepts m) (f_files fl) = true
     /\ (forall f, In f (f_files fl) -> d_fs s f <> None)
     /\ (m = OutputExecutable \/ f_output fl = [] \/ List.length (f_files fl) = 1%nat)
     /\ (st, s') = status (Compile E a s1) /\ summary E a m s1 (Compile E a s1).
Proof.
  intros [[H1 H2] HM HR]. destruct (main_cases E fl s H1 H2) as [H|[H|H]].
  - left. rewrite HR in H. injection H as -> ->. auto.
  - left. destruct H as (s1 & F & L & H). rewrite HR in H. injection H as -> ->. auto.
  - destruct H as (s1 & level & F & L & HO & HN & HNA & HA & HE & H). rewrite HR in H.
    set (a := options_of E fl level) in *. assert (MA : OutType a = m) by (apply mode_a; auto).
    destruct (forallb (accepts m) (f_files fl)) eqn:HAm.
    2:{ left. destruct (Compile_rejects E a s1) as [e HC].
        - intros X. rewrite MA in X. subst m. congruence.
        - left. rewrite MA. auto.
        - rewrite HC in H. injection H as -> ->. auto. }
    destruct (bad_o a) eqn:HB.
    + destruct m eqn:Em.
      2,3,4: left; (destruct (Compile_rejects E a s1) as [e HC]; [congruence|auto|]; rewrite HC in H; injection H as -> ->; auto).
      right. exists s1, level, a. rewrite <- MA. splits; auto.
      * apply Compile_summary; rewrite ?MA; auto.
    + right. exists s1, level, a. rewrite <- MA at 2. splits; auto.
      * destruct (path_eqb_spec (f_output fl) []) as [?|N]; auto. right. right.
        destruct (Nat.eq_dec (List.length (f_files fl)) 1) as [?|N1]; auto.
        assert (bad_o a = true) by (apply bad_iff; auto). congruence.
      * apply Compile_summary; rewrite ?MA; auto.
Qed.

(** Facts about a run that reached the compilation, with documented names. *)
Lemma run_outputs E fl m level f : mode_is fl m -> forallb (accepts m) (f_files fl) = true ->
  In f (f_files fl) -> forall o, is_output fl m f o <-> o = O_ (options_of E fl level) m f.
Proof.
  intros HM HA Hf o. rewrite forallb_forall in HA. apply output_iff; auto.
  apply HA. destruct (f_files fl); [destruct Hf|cbn; auto].
Qed.

Lemma status_ok r st s' : (st, s') = status r -> s' = final r /\ (st = 0 \/ st = 1) /\ (st = 0 -> exists u, r = DOk u s').
Proof. destruct r as [u x|e x]; cbn; intros H; injection H as -> ->; splits; auto; eauto; discriminate. Qed.

Lemma separate_distinct E fl m level : mode_is fl m -> forallb (accepts m) (f_files fl) = true ->
  separate fl m <-> distinct (options_of E fl level) m.
Proof.
  intros HM HA. unfold separate, distinct. cbn [options_of InputFiles].
  assert (G : m <> OutputExecutable ->
    ((forall i j f g o, nth_error (f_files fl) i = Some f -> nth_error (f_files fl) j = Some g ->
       is_output fl m f o -> is_output fl m g o -> i = j) <-> NoDup (map (O_ (options_of E fl level) m) (f_files fl)))).
  { intros _. split.
    - intros H. apply NoDup_nth_error. intros i j Hi Hij. rewrite map_length in Hi.
      rewrite !nth_error_map in Hij. destruct (nth_error (f_files fl) i) as [f|] eqn:Ei.
      2:{ apply nth_error_None in Ei. lia. }
      destruct (nth_error (f_files fl) j) as [g|] eqn:Ej; [|discriminate]. cbn in Hij. injection Hij as Hij.
      eapply (H i j f g (O_ (options_of E fl level) m f)); eauto.
      + eapply run_outputs; eauto using nth_error_In.
      + eapply run_outputs; eauto using nth_error_In.
    - intros ND i j f g o Hi Hj Ho1 Ho2.
      apply (run_outputs E fl m level) in Ho1; eauto using nth_error_In.
      apply (run_outputs E fl m level) in Ho2; eauto using nth_error_In.
      assert (Hlt : (i < List.length (f_files fl))%nat) by (apply nth_error_Some; congruence).
      eapply (NoDup_nth_error _) in ND; [exact ND|rewrite map_length; auto|].
      rewrite !nth_error_map, Hi, Hj. cbn. congruence. }
  destruct m; intuition (try discriminate; auto).
Qed.

Ltac run_start R :=
  let HC := fresh "HC" in let HM := fresh "HM" in
  pose proof (run_compiling _ _ _ _ _ _ R) as HC; pose proof (run_mode _ _ _ _ _ _ R) as HM;
  destruct (run_cases _ _ _ _ _ _ R) as [(ST & FS & LG)|(s1 & level & a & Ea & FS & LG & HL & HN & HNA & HA & HE & HO & HS & evs & A & F & C & Rm & K & U & S)].

Section Theorems.
Variable E : env.
Variable fl : flags.
Variable m : OutputType.

Lemma is_temp_isb i f t : is_temp fl m i f t -> isb f = true.
Proof. intros (st & HN & _). apply isb_named. eauto. Qed.

(** Events of a run: the part added to the log. *)
Definition added (s s' : dstate) (evs : list event) : Prop := d_log s' = d_log s ++ evs.

Lemma added_nil s s' : d_log s' = d_log s -> added s s' [].
Proof. unfold added. rewrite app_nil_r. auto. Qed.
Lemma added_unique s s' e1 e2 : added s s' e1 -> added s s' e2 -> e1 = e2.
Proof. unfold added. intros H1 H2. rewrite H1 in H2. apply app_inv_head in H2. auto. Qed.
Lemma added_after s s1 s' evs : d_log s1 = d_log s -> after s1 s' evs -> added s s' evs.
Proof. unfold added, after. congruence. Qed.
End Theorems.

(** ** C47: output names *)
Theorem C47_output_names_partial : forall E fl m s s', run E fl m s 0 s' ->
  forall f, In f (f_files fl) -> exists o,
    is_output fl m f o /\ (forall o', is_output fl m f o' -> o' = o)
    /\ (d_fs s' o <> None
        \/ m = OutputExecutable /\ exists j g, nth_error (f_files fl) j = Some g /\ is_temp fl m j g o).
Proof.
  intros E fl m s s' R f Hf. run_start R; [discriminate|].
  apply status_ok in HS. destruct HS as (-> & _ & HOK). destruct (HOK eq_refl) as [u HR]. rewrite HR in *. cbn [final] in *.
  subst a. assert (EO := run_outputs E fl m level f HM HA Hf).
  exists (O_ (options_of E fl level) m f). split; [apply EO; auto|]. split; [intros o'; apply EO|].
  apply In_nth_error in Hf. destruct Hf as [i Hi]. destruct (S i f Hi) as (_ & SI & SN).
  destruct (is_ir m) eqn:MI.
  - left. apply SI. destruct m; auto; discriminate.
  - assert (NI : m <> OutputIR) by (intros ->; discriminate). destruct (SN NI) as (_ & HX & _).
    destruct (is_exe m) eqn:MX.
    + assert (EXE : m = OutputExecutable) by (destruct m; auto; discriminate).
      (* decide whether the output is the name of a temporary *)
      set (o := O_ (options_of E fl level) m f) in *.
      assert (DEC : (exists j g, nth_error (f_files fl) j = Some g /\ isb g = true /\ o = T_ (options_of E fl level) m j g)
                 \/ ~ (exists j g, nth_error (f_files fl) j = Some g /\ isb g = true /\ o = T_ (options_of E fl level) m j g)).
      { subst m. destruct (in_dec (list_eq_dec ascii_dec) o (new_temps (with_output (options_of E fl level)) 0 (f_files fl))) as [H|H];
          rewrite new_temps_spec in H; [left|right]; exact H. }
      destruct DEC as [(j & g & H1 & H2 & H3)|H].
      * right. split; auto. exists j, g. split; auto. apply (temp_iff E fl m level); auto.
      * left. apply HX. intros j g H1 H2 H3. apply H. eauto.
    + left. apply HX. intros j g H1 H2. unfold T_. rewrite MX.
      assert (HB : bad_o (options_of E fl level) = false).
      { destruct (bad_o _) eqn:B; auto. apply bad_iff in B. destruct m; intuition congruence. }
      pose proof (on_not_tmp (options_of E fl level) (suffix m)) as Q. unfold O_. rewrite MX.
      apply Q; auto; [destruct m; try discriminate; cbn; auto; congruence| |]; cbn; eauto using nth_error_In.
Qed.
Print Assumptions C47_output_names_partial.

(** ** C48: -o with several inputs *)
Theorem C48_o_many_rejected : forall E fl m s st s', run E fl m s st s' ->
  m <> OutputExecutable -> f_output fl <> [] -> List.length (f_files fl) <> 1%nat ->
  st = 1 /\ d_fs s' = d_fs s /\ d_log s' = d_log s.
Proof.
  intros E fl m s st s' R M1 HOut HLen. run_start R; auto.
  exfalso. destruct HO as [HO|[HO|HO]]; auto.
Qed.
Print Assumptions C48_o_many_rejected.

(** ** C49: unsupported extension *)
Theorem C49_extension_rejected : forall E fl m s st s' f, run E fl m s st s' ->
  In f (f_files fl) -> (forall p e, In e (accepted m) -> ~ named f p e) ->
  st = 1 /\ d_fs s' = d_fs s /\ d_log s' = d_log s.
Proof.
  intros E fl m s st s' f R Hf HX. run_start R; auto.
  exfalso. rewrite forallb_forall in HA. specialize (HA f Hf). apply accepts_named in HA.
  destruct HA as (p & e & HNm & He). eapply HX; eauto.
Qed.
Print Assumptions C49_extension_rejected.

(** ** C50: temporaries are removed

    Provided that writing to and closing the IR file works once it has been
    created, and that removing works. *)
Theorem C50_temps_removed_partial : forall E fl m s st s', run E fl m s st s' -> m <> OutputIR ->
  f_save_temps fl = false -> writes_work E -> removes_work E ->
  exists evs, added s s' evs
  /\ (forall p, In (EvCreate p) evs -> d_fs s' p = None
       /\ exists i f, nth_error (f_files fl) i = Some f /\ is_temp fl m i f p)
  /\ (forall p, In (EvRemove p) evs -> In (EvCreate p) evs).
Proof.
  intros E fl m s st s' R NI SV WW RW. run_start R.
  - exists []. split; [apply added_nil; auto|]. split; intros p [].
  - apply status_ok in HS. destruct HS as (-> & _ & _). exists evs. split; [eapply added_after; eauto|]. split.
    + intros p H. destruct (C p H) as [[? _]|(_ & i & f & Hi & Hb & -> & HNone)]; [congruence|]. subst a. split.
      * apply HNone; auto.
      * exists i, f. split; auto. apply (temp_iff E fl m level); auto.
    + intros p H. apply (Rm p H).
Qed.
Print Assumptions C50_temps_removed_partial.

(** In every case nothing but files created in the same run is removed. *)
Theorem C50_only_own_removed : forall E fl m s st s', run E fl m s st s' ->
  exists evs, added s s' evs
  /\ forall p, In (EvRemove p) evs -> In (EvCreate p) evs
       /\ exists i f, nth_error (f_files fl) i = Some f /\ is_temp fl m i f p.
Proof.
  intros E fl m s st s' R. run_start R.
  - exists []. split; [apply added_nil; auto|]. intros p [].
  - apply status_ok in HS. destruct HS as (-> & _ & _). exists evs. split; [eapply added_after; eauto|].
    intros p H. destruct (Rm p H) as (_ & NI & HCr). split; auto.
    destruct (C p HCr) as [[? _]|(_ & i & f & Hi & Hb & -> & HNone)]; [congruence|]. subst a.
    exists i, f. split; auto. apply (temp_iff E fl m level); auto.
Qed.
Print Assumptions C50_only_own_removed.

(** ** C51: --save-temps *)
Theorem C51_save_temps_partial : forall E fl m s st s', run E fl m s st s' -> f_save_temps fl = true ->
  exists evs, added s s' evs /\ (forall p, ~ In (EvRemove p) evs)
  /\ (st = 0 -> m <> OutputIR -> separate fl m ->
      forall i f t, nth_error (f_files fl) i = Some f -> is_temp fl m i f t ->
      (forall o, is_output fl m f o -> t <> o) ->
      exists ir, translates E s f ir /\ d_fs s' t = Some ir).
Proof.
  intros E fl m s st s' R SV. run_start R.
  - exists []. split; [apply added_nil; auto|]. split; [intros p []|]. intros ->. discriminate.
  - apply status_ok in HS. destruct HS as (HF & _ & HOK). exists evs. split; [rewrite HF; eapply added_after; eauto|]. split.
    + intros p H. destruct (Rm p H) as (H1 & _). subst a. cbn in H1. congruence.
    + intros -> NI SP i f t Hi HT HTO. destruct (HOK eq_refl) as [u HR]. rewrite HR in *. cbn [final] in *. subst a.
      pose proof (is_temp_isb _ _ _ _ _ HT) as HB.
      apply (temp_iff E fl m level) in HT; auto. subst t.
      destruct (S i f Hi) as (_ & _ & SN). destruct (SN NI) as (_ & _ & HD).
      destruct HD as (t & fx & o & _ & _ & HI). { apply separate_distinct; auto. }
      destruct (HI HB) as (ir & H1 & _ & H3). exists ir. split.
      * apply translates_iff. destruct H1 as (c & Z1 & Z2). exists c. rewrite <- FS. auto.
      * apply H3; auto. apply HTO. eapply run_outputs; eauto using nth_error_In.
Qed.
Print Assumptions C51_save_temps_partial.

(** ** C52: the clang command line *)
Lemma opt_level_spec o level : opt_level o = Some level ->
  In (o, level) [(txt "0", 0); (txt "1", 1); (txt "2", 2); (txt "3", 3)].
Proof.
  unfold opt_level. destruct (path_eqb_spec o (txt "0")); [intros H; injection H as <-; subst; cbn; auto|].
  destruct (path_eqb_spec o (txt "1")); [intros H; injection H as <-; subst; cbn; auto|].
  destruct (path_eqb_spec o (txt "2")); [intros H; injection H as <-; subst; cbn; auto|].
  destruct (path_eqb_spec o (txt "3")); [intros H; injection H as <-; subst; cbn; auto 6|discriminate].
Qed.

Lemma lead_flags E fl level : opt_level (f_optimize fl) = Some level ->
  level_flags (options_of E fl level) = lead fl.
Proof.
  intros H. unfold level_flags, lead. cbn [options_of Optimize DebugInfo].
  apply opt_level_spec in H. cbn [In] in H.
  destruct H as [H|[H|[H|[H|[]]]]]; injection H as HO HL; rewrite <- HO, <- HL; reflexivity.
Qed.

Lemma new_ins_spec b : forall l i, List.length (new_ins b i l) = List.length l
  /\ forall j f, nth_error l j = Some f ->
     nth_error (new_ins b i l) j = Some (if isb f then temp_name b (i + j) f (txt ".b") else f).
Proof.
  induction l as [|g l IH]; intros i; cbn [new_ins].
  - split; auto. intros [|j] f H; discriminate.
  - destruct (IH (Datatypes.S i)) as [H1 H2]. split; [cbn; congruence|]. intros [|j] f H.
    + injection H as ->. cbn. rewrite Nat.add_0_r. auto.
    + cbn in H |- *. rewrite (H2 j f H). rewrite Nat.add_succ_r. reflexivity.
Qed.

Lemma clang_input_spec E fl m level i f : m <> OutputIR -> forallb (accepts m) (f_files fl) = true ->
  nth_error (f_files fl) i = Some f ->
  clang_input fl m i f (if isb f then T_ (options_of E fl level) m i f else f).
Proof.
  intros NI HA Hi. unfold clang_input. destruct (isb f) eqn:B.
  - left. split; [apply isb_named; auto|]. apply (temp_iff E fl m level); auto.
  - right. split; auto. intros st HN. assert (isb f = true) by (apply isb_named; eauto). congruence.
Qed.

Lemma filter_home E : default_dirs E =
  filter (is_dir E) ((match home_lib E with Some h => [h] | None => [] end)
    ++ [txt "/opt/homebrew/lib"; txt "/opt/local/lib"; txt "/usr/local/lib"; txt "/usr/lib"]).
Proof.
  unfold default_dirs. destruct (home_lib E) as [h|]; auto.
  cbn [app filter]. destruct (is_dir E h); reflexivity.
Qed.

Theorem C52_clang_command : forall E fl m s st s', run E fl m s st s' ->
  exists evs, added s s' evs
  /\ (forall x, In (EvClang x) evs -> clang_command E fl m x)
  /\ (st = 0 -> m <> OutputIR -> exists x, In (EvClang x) evs).
Proof.
  intros E fl m s st s' R. run_start R.
  - exists []. split; [apply added_nil; auto|]. split; [intros x []|]. intros ->. discriminate.
  - apply status_ok in HS. destruct HS as (HF & _ & HOK). exists evs. split; [rewrite HF; eapply added_after; eauto|]. split.
    2:{ intros -> NI. destruct (HOK eq_refl) as [u HR]. rewrite HR in *. subst a.
        destruct (f_files fl) as [|f l] eqn:FF; [congruence|].
        destruct (S 0%nat f) as (_ & _ & SN); [cbn; rewrite FF; reflexivity|].
        destruct (SN NI) as (HX & _). eauto. }
    intros x Hx. destruct (K x Hx) as (NI & i & f & Hi & -> & _). subst a.
    pose proof (clang_input_spec E fl m level i f NI HA Hi) as CI.
    assert (AF : accepts m f = true) by (rewrite forallb_forall in HA; apply HA; eapply nth_error_In; eauto).
    assert (AH : accepts m (hd [] (f_files fl)) = true).
    { rewrite forallb_forall in HA; apply HA. destruct (f_files fl); [congruence|cbn; auto]. }
    unfold cmd_. destruct m; try congruence; cbn [clang_command].
    + set (b := with_output (options_of E fl level)).
      destruct (with_output_fields (options_of E fl level)) as (EI & _ & EOpt & EDbg & EDir & ELib & EOut).
      fold b in EI, EOpt, EDbg, EDir, ELib, EOut.
      destruct (new_ins_spec b (f_files fl) 0) as [NL NS].
      exists (new_ins b 0 (f_files fl)), (OutputFile b). splits; auto.
      * unfold linkArgs. cbn [options_of InputFiles]. rewrite EDir, ELib.
        assert (EL : level_flags b = lead fl).
        { rewrite <- (lead_flags E fl level HL). unfold level_flags. rewrite EOpt, EDbg. reflexivity. }
        rewrite EL. cbn [options_of LibraryDirs Libraries]. rewrite filter_home. reflexivity.
      * apply (exe_output E fl OutputExecutable level); auto.
      * intros j g Hj. eexists. split; [apply (NS j g Hj)|]. cbn [Nat.add].
        exact (clang_input_spec E fl OutputExecutable level j g NI HA Hj).
    + exists i, f. do 2 eexists. split; [exact Hi|]. split; [|split].
      * unfold objArgs. rewrite (lead_flags E fl level HL). reflexivity.
      * apply (output_iff E fl OutputObject level); auto.
      * exact CI.
    + exists i, f. do 2 eexists. split; [exact Hi|]. split; [|split].
      * unfold asmArgs. rewrite (lead_flags E fl level HL). reflexivity.
      * apply (output_iff E fl OutputAssembly level); auto.
      * exact CI.
Qed.
Print Assumptions C52_clang_command.

(** ** C53: no output for a file that does not compile *)
Definition broken (E : env) (s : dstate) (f : path) : Prop :=
  (exists st, named f st (txt "b")) /\ forall ir, ~ translates E s f ir.

Theorem C53_no_output_on_error_partial : forall E fl m s st s' f o, run E fl m s st s' ->
  In f (f_files fl) -> broken E s f -> is_output fl m f o -> separate fl m ->
  (m = OutputExecutable -> forall i g, nth_error (f_files fl) i = Some g -> ~ is_temp fl m i g o) ->
  st = 1 /\ d_fs s' o = d_fs s o
  /\ exists evs, added s s' evs /\ ~ In (EvCreate o) evs
     /\ (forall x, In (EvClang x) evs -> m <> OutputExecutable
           /\ exists i g y o', nth_error (f_files fl) i = Some g /\ g <> f /\ is_output fl m g o' /\ o' <> o
              /\ x = lead fl ++ [txt (match m with OutputAssembly => "-S" | _ => "-c" end); txt "-o"; o'; y]).
Proof.
  intros E fl m s st s' f o R Hf [HBn HBr] HOut HSep HTmp. run_start R.
  { splits; auto; try congruence. exists []. splits; auto; [apply added_nil; auto|intros x []]. }
  assert (HB : isb f = true) by (apply isb_named; auto).
  assert (NC : forall ir, ~ compiles E s1 f ir).
  { intros ir H. apply (HBr ir). apply translates_iff. destruct H as (c & Z1 & Z2). exists c. rewrite <- FS. auto. }
  subst a. apply (run_outputs E fl m level f HM HA Hf) in HOut.
  destruct (In_nth_error _ _ Hf) as [k Hk].
  apply status_ok in HS. destruct HS as (HF & HST & HOK).
  assert (ST : st = 1).
  { destruct HST as [->|?]; auto. destruct (HOK eq_refl) as [u HR]. rewrite HR in *.
    destruct (S k f Hk) as (SB & _). destruct (SB HB) as [ir HI]. exfalso. eapply NC; eauto. }
  set (a := options_of E fl level) in *.
  assert (HU : d_fs s' o = d_fs s1 o /\ ~ In (EvCreate o) evs).
  { rewrite HF. apply U.
    - intros NI i g Hi Hb HEq. destruct (is_exe m) eqn:MX.
      + assert (EXE : m = OutputExecutable) by (destruct m; auto; discriminate).
        apply (HTmp EXE i g Hi). apply (temp_iff E fl m level); auto.
      + revert HEq. rewrite HOut. unfold T_, O_. rewrite MX.
        assert (HBad : bad_o a = false).
        { destruct (bad_o a) eqn:B; auto. apply bad_iff in B. destruct m; intuition congruence. }
        apply on_not_tmp; auto; [destruct m; try discriminate; cbn; auto; congruence|]. cbn. eapply nth_error_In; eauto.
    - destruct (is_exe m) eqn:MX.
      + exists f. auto.
      + intros g Hg HEq. destruct HSep as [->|HSep]; [discriminate|].
        destruct (In_nth_error _ _ Hg) as [j Hj].
        assert (j = k).
        { apply (HSep j k g f o); auto; apply (run_outputs E fl m level); auto. }
        subst j. cbn in Hj. assert (g = f) by congruence. subst g. auto. }
  destruct HU as [HU1 HU2]. splits; auto; [congruence|].
  exists evs. splits; auto. { rewrite HF. eapply added_after; eauto. }
  intros x Hx. destruct (K x Hx) as (NI & i & g & Hi & -> & HCmp).
  assert (MX : is_exe m = false).
  { destruct (is_exe m) eqn:MX; auto. destruct (HCmp f Hf HB) as [ir HI]. exfalso. eapply NC; eauto. }
  split. { intros ->. discriminate. }
  rewrite MX in HCmp.
  assert (NG : g <> f).
  { intros ->. destruct (HCmp f eq_refl HB) as [ir HI]. eapply NC; eauto. }
  exists i, g. do 2 eexists. split; [exact Hi|]. split; [exact NG|].
  assert (HG : is_output fl m g (O_ a m g)) by (apply (run_outputs E fl m level); eauto using nth_error_In).
  split; [exact HG|]. split.
  - intros HEq. destruct HSep as [->|HSep]; [discriminate|]. apply NG.
    assert (i = k).
    { apply (HSep i k g f o); auto. rewrite HEq in HG; auto. apply (run_outputs E fl m level); auto. }
    subst i. cbn in Hi. congruence.
  - unfold cmd_, asmArgs, objArgs. rewrite <- (lead_flags E fl level HL). destruct m; try congruence; try discriminate; reflexivity.
Qed.
Print Assumptions C53_no_output_on_error_partial.

(** ** C54: exit status and mode *)
Theorem C54_help_version : forall E fl s,
  f_help fl = true \/ f_version fl = true -> main E fl s = (0, s).
Proof. intros E fl s [H|H]; unfold main; rewrite H; auto. destruct (f_help fl); auto. Qed.
Print Assumptions C54_help_version.

(** What has to hold for a successful compilation: the inputs exist, are of
    the right kinds, and compile; the options make sense. *)
Definition acceptable (E : env) (fl : flags) (m : OutputType) (s : dstate) : Prop :=
  f_no_args fl = false /\ f_files fl <> []
  /\ In (f_optimize fl) [txt "0"; txt "1"; txt "2"; txt "3"]
  /\ (m = OutputExecutable \/ f_output fl = [] \/ List.length (f_files fl) = 1%nat)
  /\ forall f, In f (f_files fl) -> d_fs s f <> None
       /\ (exists st e, named f st e /\ In e (accepted m))
       /\ ((exists st, named f st (txt "b")) -> exists ir, translates E s f ir).

Theorem C54_status : forall E fl s st s', main E fl s = (st, s') -> st = 0 \/ st = 1.
Proof.
  intros E fl s st s' H. unfold main in H. destruct (f_help fl); [injection H; auto|].
  destruct (f_version fl); [injection H; auto|]. destruct (f_no_args fl); [injection H; auto|].
  destruct (f_files fl) as [|f l]; [injection H; auto|].
  destruct (opt_level (f_optimize fl)); [|injection H; auto]. symmetry in H. apply status_ok in H. tauto.
Qed.
Print Assumptions C54_status.

Theorem C54_success_means : forall E fl m s s', run E fl m s 0 s' ->
  acceptable E fl m s
  /\ (forall f, In f (f_files fl) -> exists o, is_output fl m f o
       /\ (d_fs s' o <> None
           \/ m = OutputExecutable /\ exists j g, nth_error (f_files fl) j = Some g /\ is_temp fl m j g o))
  /\ (m <> OutputIR -> separate fl m -> exists evs, added s s' evs
       /\ forall x, In (EvClang x) evs -> exists t fx o, clang E t x fx = ClangOk o).
Proof.
  intros E fl m s s' R. split; [|split].
  - run_start R; [discriminate|]. apply status_ok in HS. destruct HS as (_ & _ & HOK).
    destruct (HOK eq_refl) as [u HR]. rewrite HR in *. subst a. unfold acceptable. splits; auto.
    + apply opt_level_spec in HL. cbn [In] in HL |- *.
      destruct HL as [H|[H|[H|[H|[]]]]]; injection H as H _; rewrite <- H; tauto.
    + intros f Hf. splits; auto.
      * apply accepts_named. rewrite forallb_forall in HA. auto.
      * intros HB. apply isb_named in HB. destruct (In_nth_error _ _ Hf) as [i Hi].
        destruct (S i f Hi) as (SB & _). destruct (SB HB) as [ir HI]. exists ir. apply translates_iff.
        destruct HI as (c & Z1 & Z2). exists c. rewrite <- FS. auto.
  - intros f Hf. destruct (C47_output_names_partial E fl m s s' R f Hf) as (o & H1 & _ & H2). eauto.
  - intros NI SP. run_start R; [discriminate|]. apply status_ok in HS. destruct HS as (HF & _ & HOK).
    destruct (HOK eq_refl) as [u HR]. rewrite HR in *. subst a. cbn [final] in *.
    exists evs. split; [eapply added_after; eauto|]. intros x Hx.
    destruct (K x Hx) as (_ & i & f & Hi & -> & _). destruct (S i f Hi) as (_ & _ & SN).
    destruct (SN NI) as (_ & _ & HD). destruct HD as (t & fx & o & H & _). { apply separate_distinct; auto. }
    eauto.
Qed.
Print Assumptions C54_success_means.

Theorem C54_success_when : forall E fl m s st s', run E fl m s st s' ->
  faultless E -> acceptable E fl m s -> st = 0.
Proof.
  intros E fl m s st s' [[H1 H2] HM HR] FE (HNA & HN & HL & HO & HF).
  unfold main in HR. rewrite H1, H2, HNA in HR. destruct (f_files fl) as [|f0 l0] eqn:FF; [congruence|].
  rewrite <- FF in *.
  assert (HLv : exists level, opt_level (f_optimize fl) = Some level).
  { cbn [In] in HL. destruct HL as [<-|[<-|[<-|[<-|[]]]]]; vm_compute; eauto. }
  destruct HLv as [level HLv]. rewrite HLv in HR.
  assert (HAm : forallb (accepts m) (f_files fl) = true).
  { apply forallb_forall. intros f Hf. apply accepts_named. apply (HF f Hf). }
  assert (HA : forallb (accepts OutputExecutable) (f_files fl) = true).
  { apply forallb_forall. intros f Hf. apply (accepts_exe m). rewrite forallb_forall in HAm. auto. }
  destruct (checks_ok E FE (f_files fl) s HA) as (s1 & E1 & F1). { intros f Hf. apply (HF f Hf). }
  unfold dbind in HR. rewrite E1 in HR.
  destruct (Compile_ok E FE (options_of E fl level) s1) as [s2 E2].
  - cbn. rewrite FF. discriminate.
  - rewrite (mode_a E fl m level HM). exact HAm.
  - rewrite (mode_a E fl m level HM). destruct HO as [?|HO]; auto. right.
    destruct (bad_o _) eqn:B; auto. apply bad_iff in B. destruct B. destruct HO; contradiction.
  - intros f Hf B. destruct (HF f Hf) as (_ & _ & HT). destruct HT as [ir HT]. { apply isb_named. auto. }
    exists ir. apply translates_iff in HT. destruct HT as (c & Z1 & Z2). exists c. rewrite F1. auto.
  - rewrite E2 in HR. cbn in HR. congruence.
Qed.
Print Assumptions C54_success_when.

(** Any failure of clang is reported, whatever the mode: if clang can only
    fail, the status is 1. *)
Theorem C54_clang_failure : forall E fl m s st s', run E fl m s st s' -> m <> OutputIR ->
  (forall t x fx o, clang E t x fx <> ClangOk o) -> separate fl m -> st = 1.
Proof.
  intros E fl m s st s' R NI HC SP. destruct (C54_status _ _ _ _ _ (run_main _ _ _ _ _ _ R)) as [->|]; auto.
  exfalso. destruct (C54_success_means _ _ _ _ _ R) as ((_ & HN & _) & _ & H). destruct (H NI SP) as (evs & HA & HX).
  destruct (C52_clang_command _ _ _ _ _ _ R) as (evs' & HA' & _ & HE).
  rewrite (added_unique _ _ _ _ HA' HA) in HE. destruct (HE eq_refl NI) as [x Hx].
  destruct (HX x Hx) as (t & fx & o & H0). eapply HC; eauto.
Qed.
Print Assumptions C54_clang_failure.

(** The mode is a function of the flags with the documented priority. *)
Theorem C54_mode : forall fl, exists m, mode_is fl m /\ forall m', mode_is fl m' -> m' = m.
Proof.
  intros fl. exists (output_type fl). split; [apply mode_type; auto|].
  intros m' H. apply mode_type in H. auto.
Qed.
Print Assumptions C54_mode.

Theorem C54_levels : forall E fl m s st s', run E fl m s st s' ->
  ~ In (f_optimize fl) [txt "0"; txt "1"; txt "2"; txt "3"] -> st = 1 /\ d_fs s' = d_fs s /\ d_log s' = d_log s.
Proof.
  intros E fl m s st s' R H. run_start R; auto. exfalso. apply H.
  apply opt_level_spec in HL. cbn [In] in HL |- *.
  destruct HL as [X|[X|[X|[X|[]]]]]; injection X as X _; rewrite <- X; tauto.
Qed.
Print Assumptions C54_levels.

(** ** C56: no other file is touched *)
Theorem C56_other_files_kept : forall E fl m s st s' p, run E fl m s st s' ->
  (forall f, In f (f_files fl) -> ~ is_output fl m f p) ->
  (forall i f, nth_error (f_files fl) i = Some f -> ~ is_temp fl m i f p) ->
  d_fs s' p = d_fs s p
  /\ exists evs, added s s' evs /\ ~ In (EvCreate p) evs /\ ~ In (EvRemove p) evs.
Proof.
  intros E fl m s st s' p R HO' HT'. run_start R.
  { split; [congruence|]. exists []. split; [apply added_nil; auto|]. split; intros []. }
  apply status_ok in HS. destruct HS as (HF & _ & _). subst a.
  assert (EO : forall f, In f (f_files fl) -> p <> O_ (options_of E fl level) m f).
  { intros f Hf HEq. apply (HO' f Hf). apply (run_outputs E fl m level); auto. }
  assert (NC : ~ In (EvCreate p) evs).
  { intros H. destruct (C p H) as [(MI & f & ir & Hf & HEq & _)|(MI & i & f & Hi & Hb & HEq & _)].
    - apply (EO f Hf HEq).
    - apply (HT' i f Hi). apply (temp_iff E fl m level); auto. }
  split.
  - rewrite <- FS, HF. apply F; auto.
  - exists evs. split; [rewrite HF; eapply added_after; eauto|]. split; auto.
    intros H. apply NC. apply (Rm p H).
Qed.
Print Assumptions C56_other_files_kept.

(** Inputs are safe as long as their names are not outputs or temporaries; for
    .b inputs without -o this is always so. *)
Theorem C56_sources_kept_partial : forall E fl m s st s' f, run E fl m s st s' ->
  m <> OutputExecutable -> f_output fl = [] ->
  In f (f_files fl) -> (exists st, named f st (txt "b")) -> d_fs s' f = d_fs s f.
Proof.
  intros E fl m s st s' f R NE NO Hf HB. apply isb_named in HB.
  eapply C56_other_files_kept; eauto.
  - intros g Hg [[? _]|(_ & st0 & e & HN & HEq)]; [congruence|].
    destruct (out_not_b f st0) as (_ & _ & _ & HX). specialize (HX HB).
    destruct m; try congruence; cbn [suffix] in HEq; tauto.
  - intros i g Hi (st0 & HN & HT). destruct m; try congruence; try contradiction;
      destruct HT as (o & _ & HEq); revert HEq; apply isb_not_tmp; auto.
Qed.
Print Assumptions C56_sources_kept_partial.

(** ** C57: one output per input, when the names differ *)
Theorem C57_own_output_partial : forall E fl m s s', run E fl m s 0 s' ->
  m <> OutputExecutable -> separate fl m ->
  forall i f, nth_error (f_files fl) i = Some f -> exists o, is_output fl m f o
  /\ match m with
     | OutputIR => exists ir, translates E s f ir /\ d_fs s' o = Some ir
     | _ => exists t fx y out, clang_input fl m i f y
         /\ clang E t (lead fl ++ [txt (match m with OutputAssembly => "-S" | _ => "-c" end); txt "-o"; o; y]) fx = ClangOk out
         /\ d_fs s' o = Some out
         /\ ((exists st, named f st (txt "b")) -> exists ir, translates E s f ir /\ fx y = Some ir)
     end.
Proof.
  intros E fl m s s' R NE SP i f Hi. run_start R; [discriminate|].
  apply status_ok in HS. destruct HS as (_ & _ & HOK). destruct (HOK eq_refl) as [u HR]. rewrite HR in *. cbn [final] in *.
  subst a. pose proof (nth_error_In _ _ Hi) as Hf.
  exists (O_ (options_of E fl level) m f). split. { apply (run_outputs E fl m level); auto. }
  assert (DS : distinct (options_of E fl level) m) by (apply separate_distinct; auto).
  assert (TR : forall ir, compiles E s1 f ir -> translates E s f ir).
  { intros ir (c & Z1 & Z2). apply translates_iff. exists c. rewrite <- FS. auto. }
  destruct (S i f Hi) as (_ & SI & SN).
  assert (GEN : is_exe m = false -> m <> OutputIR -> exists t fx y out, clang_input fl m i f y
         /\ cmd_ E (options_of E fl level) m i f = (lead fl ++ [txt (match m with OutputAssembly => "-S" | _ => "-c" end); txt "-o"; O_ (options_of E fl level) m f; y])
         /\ clang E t (cmd_ E (options_of E fl level) m i f) fx = ClangOk out
         /\ d_fs s' (O_ (options_of E fl level) m f) = Some out
         /\ ((exists st, named f st (txt "b")) -> exists ir, translates E s f ir /\ fx y = Some ir)).
  { intros MX NI. destruct (SN NI) as (_ & _ & HD). destruct (HD DS) as (t & fx & o & H1 & H2 & H3).
    exists t, fx, (if isb f then T_ (options_of E fl level) m i f else f), o. splits; auto.
    - apply (clang_input_spec E fl m level i f NI HA Hi).
    - unfold cmd_, asmArgs, objArgs. rewrite (lead_flags E fl level HL). destruct m; try discriminate; try congruence; reflexivity.
    - apply H2. intros j g H4 H5. unfold T_. rewrite MX. unfold O_. rewrite MX.
      assert (HBad : bad_o (options_of E fl level) = false).
      { destruct (bad_o _) eqn:B; auto. apply bad_iff in B. destruct m; intuition congruence. }
      apply on_not_tmp; auto; [destruct m; try discriminate; cbn; auto; congruence|]. cbn. eapply nth_error_In; eauto.
    - intros HB. apply isb_named in HB. rewrite HB. destruct (H3 HB) as (ir & Z1 & Z2 & _). exists ir. auto. }
  destruct m; try congruence.
  - destruct GEN as (t & fx & y & o & G1 & G2 & G3 & G4 & G5); auto; try discriminate.
    rewrite G2 in G3. exists t, fx, y, o. auto.
  - destruct GEN as (t & fx & y & o & G1 & G2 & G3 & G4 & G5); auto; try discriminate.
    rewrite G2 in G3. exists t, fx, y, o. auto.
  - destruct (SI eq_refl) as (_ & _ & HD). destruct (HD DS) as (ir & Z1 & Z2). eauto.
Qed.
Print Assumptions C57_own_output_partial.

(** ** C55: inputs are compiled independently

    Two runs with any command lines, file systems and faults: if both compile
    the file [f] with the same contents, the IR written to its output (with
    --emit-llvm) is the same. *)
Theorem C55_independent : forall E fl1 fl2 s1 s2 s1' s2' f o1 o2,
  run E fl1 OutputIR s1 0 s1' -> run E fl2 OutputIR s2 0 s2' ->
  separate fl1 OutputIR -> separate fl2 OutputIR ->
  In f (f_files fl1) -> In f (f_files fl2) -> d_fs s1 f = d_fs s2 f ->
  is_output fl1 OutputIR f o1 -> is_output fl2 OutputIR f o2 ->
  d_fs s1' o1 = d_fs s2' o2 /\ d_fs s1' o1 <> None.
Proof.
  intros E fl1 fl2 s1 s2 s1' s2' f o1 o2 R1 R2 SP1 SP2 H1 H2 HF O1 O2.
  destruct (In_nth_error _ _ H1) as [i Hi]. destruct (In_nth_error _ _ H2) as [j Hj].
  destruct (C57_own_output_partial _ _ _ _ _ R1 ltac:(discriminate) SP1 i f Hi) as (p1 & P1 & ir1 & T1 & E1).
  destruct (C57_own_output_partial _ _ _ _ _ R2 ltac:(discriminate) SP2 j f Hj) as (p2 & P2 & ir2 & T2 & E2).
  destruct (C47_output_names_partial _ _ _ _ _ R1 f H1) as (q1 & _ & U1 & _).
  destruct (C47_output_names_partial _ _ _ _ _ R2 f H2) as (q2 & _ & U2 & _).
  rewrite (U1 _ O1), <- (U1 _ P1). rewrite (U2 _ O2), <- (U2 _ P2). rewrite E1, E2.
  destruct T1 as (c1 & m1 & A1 & A2 & ->). destruct T2 as (c2 & m2 & B1 & B2 & ->).
  split; [|discriminate]. congruence.
Qed.
Print Assumptions C55_independent.

(** In the other modes: what clang reads for [f] when it succeeds. *)
Theorem C55_independent_clang : forall E fl m s s' i f st, run E fl m s 0 s' -> m <> OutputIR -> separate fl m ->
  nth_error (f_files fl) i = Some f -> named f st (txt "b") ->
  exists ir t tmp x fx out, translates E s f ir /\ is_temp fl m i f tmp
    /\ clang_command E fl m x /\ In tmp x /\ clang E t x fx = ClangOk out /\ fx tmp = Some ir.
Proof.
  intros E fl m s s' i f st R NI SP Hi HNm.
  destruct (C52_clang_command _ _ _ _ _ _ R) as (evs0 & HA0 & HX0 & _).
  run_start R; [discriminate|].
  apply status_ok in HS. destruct HS as (HFin & _ & HOK). destruct (HOK eq_refl) as [u HR]. rewrite HR in *. cbn [final] in *.
  subst a. assert (HB : isb f = true) by (apply isb_named; eauto).
  destruct (S i f Hi) as (_ & _ & SN). destruct (SN NI) as (HEv & _ & HD).
  destruct HD as (t & fx & o & H1 & _ & H3). { apply separate_distinct; auto. }
  destruct (H3 HB) as (ir & Z1 & Z2 & _).
  exists ir, t, (T_ (options_of E fl level) m i f), (cmd_ E (options_of E fl level) m i f), fx, o. splits; auto.
  - apply translates_iff. destruct Z1 as (c & Z3 & Z4). exists c. rewrite <- FS. auto.
  - apply (temp_iff E fl m level); auto.
  - apply HX0. assert (added s s' evs) by (eapply added_after; eauto).
    rewrite (added_unique _ _ _ _ HA0 H). auto.
  - unfold cmd_. rewrite HB. destruct m; try congruence.
    + unfold linkArgs. apply in_or_app. right. apply in_or_app. left.
      destruct (new_ins_spec (with_output (options_of E fl level)) (f_files fl) 0) as [_ NS].
      specialize (NS i f Hi). rewrite HB in NS. exact (nth_error_In _ _ NS).
    + unfold objArgs. apply in_or_app. right. cbn. auto.
    + unfold asmArgs. apply in_or_app. right. cbn. auto.
Qed.
Print Assumptions C55_independent_clang.

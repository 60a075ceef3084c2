(** * PropsOut: what blang prints (C88, C89) *)
From Coq Require Import List Ascii String ZArith Lia Bool.
From Verif Require Import Base Lexer IR Decl Driver Cmdline SpecDriver DriverFacts DriverModes DriverOut SpecOut DriverOutFacts OutFacts DriverOk OutNarr OutErr PropsDriver.
From Verif Require SpecCmd CmdFacts PropsCmd.
Import ListNotations.
Open Scope Z_scope.
Local Notation "$ s" := (txt s%string) (at level 0, format "$ s").

(** Example: a system where everything works. *)
Definition ex_E (lin : bool) : env :=
  mkEnv (fun _ => false) (fun _ => false) (fun _ => None) (fun _ => false) (fun _ => None) (fun _ => false) (fun _ => false)
    (fun _ _ _ => ClangOk ($"code")) (fun _ => $"ir") lin (fun _ => false) None.
Definition ex_T : texts := mkTexts (fun _ => $"failed") ($"clang") ($"help") (fun _ => $"wrong").
Definition ex_src : list ascii := list_ascii_of_string "main() { return(1); }".
Definition ex_bad : list ascii := list_ascii_of_string "main() { return(1; }".
Definition ex_st (c : list ascii) : dstate := mkD (fun p => if path_eqb p ($"hello.b") then Some c else None) [] 0.
Definition no_csv : path -> option (list path) := fun _ => None.

(** ** C88: -v tells what is done, and changes nothing *)

(** The model with the output and that without do the same. *)
Theorem C88_same : forall csv E T argv s,
  match v_blang csv E T argv s with (st, s', i) => blang csv E argv s = (st, s') /\ d_log s' = d_log s ++ events i end.
Proof.
  intros csv E T argv s. unfold v_blang, blang, command_line. destruct (parseArgs csv argv defaults []) as [[x files]|].
  - apply main_same.
  - cbn. rewrite app_nil_r. auto.
Qed.
Print Assumptions C88_same.

(** Command lines that ask for the same but for -v: same status, same files, same
    operations and errors in the same order. *)
Theorem C88_verbose_only : forall csv E T argv argv' fl s,
  command_line csv argv = Some fl -> command_line csv argv' = Some fl ->
  match v_blang csv E T argv s, v_blang csv E T argv' s with (st, s1, i), (st', s2, i') =>
    st = st' /\ s1 = s2 /\ no_out i = no_out i' end.
Proof.
  intros csv E T argv argv' fl s H H'. unfold v_blang. unfold command_line in H, H'.
  destruct (parseArgs csv argv defaults []) as [[x files]|]; [|discriminate].
  destruct (parseArgs csv argv' defaults []) as [[x' files']|]; [|discriminate].
  injection H as H. injection H' as H'. rewrite H, H'. apply main_like.
Qed.
Print Assumptions C88_verbose_only.

(** In particular, -v can be put in front of any command line. *)
Definition but_verbose (x y : vars) : Prop :=
  v_output x = v_output y /\ v_save_temps x = v_save_temps y /\ v_emit_llvm x = v_emit_llvm y /\ v_compile x = v_compile y /\
  v_assemble x = v_assemble y /\ v_optimize x = v_optimize y /\ v_debug x = v_debug y /\ v_library_dirs x = v_library_dirs y /\
  v_libraries x = v_libraries y /\ v_version x = v_version y /\ v_help x = v_help y.
Lemma bv_set csv o w x y : but_verbose x y ->
  match set csv o w x, set csv o w y with Some x', Some y' => but_verbose x' y' | None, None => True | _, _ => False end.
Proof.
  intros H. destruct x, y. unfold but_verbose in *. cbn in H. destruct H as (-> & -> & -> & -> & -> & -> & -> & -> & -> & -> & ->).
  destruct o; cbn [set]; try destruct (ParseBool w); try destruct (readAsCSV csv w); cbn; auto 20.
Qed.
Definition bv_step (a b : Cmdline.step) : Prop :=
  match a, b with Some (x, u), Some (y, w) => but_verbose x y /\ u = w | None, None => True | _, _ => False end.
Lemma bv_just csv o w u x y : but_verbose x y -> bv_step (just u (set csv o w x)) (just u (set csv o w y)).
Proof. intros H. pose proof (bv_set csv o w x y H) as K. destruct (set csv o w x), (set csv o w y); cbn; auto. Qed.
Lemma bv_long csv n next x y : but_verbose x y -> bv_step (parseLongArg csv n next x) (parseLongArg csv n next y).
Proof.
  intros H. unfold parseLongArg. destruct n as [|c n]; [exact Logic.I|]. destruct (_ || _); [exact Logic.I|].
  destruct (split_eq _ _) as [key val]. destruct (find_long key) as [[o k]|]; [|exact Logic.I].
  destruct val; [apply bv_just; exact H|]. destruct k; try (apply bv_just; exact H); destruct next; try (apply bv_just; exact H); exact Logic.I.
Qed.
Lemma bv_short csv s next : forall x y, but_verbose x y -> bv_step (parseShortArg csv s next x) (parseShortArg csv s next y).
Proof.
  induction s as [|c r IH]; intros x y H; cbn [parseShortArg]; [cbn; auto|].
  destruct (has_prefix _ _); [cbn; auto|]. destruct (find_short c) as [[o k]|]; [|exact Logic.I].
  assert (J : forall w u, bv_step (just u (set csv o w x)) (just u (set csv o w y))) by (intros; apply bv_just; exact H).
  assert (B : bv_step (match set csv o ($"true") x with Some x' => parseShortArg csv r next x' | None => None end)
                      (match set csv o ($"true") y with Some x' => parseShortArg csv r next x' | None => None end)).
  { pose proof (bv_set csv o ($"true") x y H) as K. destruct (set csv o _ x), (set csv o _ y); try contradiction; auto. }
  destruct r as [|d r'].
  - destruct k; [exact B| |]; destruct next; auto; exact Logic.I.
  - destruct k.
    1: destruct d as [[] [] [] [] [] [] [] []], r'; first [exact B|apply J].
    all: destruct d as [[] [] [] [] [] [] [] []], r'; apply J.
Qed.
Lemma bv_args csv : forall k args x y files, (List.length args <= k)%nat -> but_verbose x y ->
  match parseArgs csv args x files, parseArgs csv args y files with
  | Some (x', f), Some (y', g) => but_verbose x' y' /\ f = g | None, None => True | _, _ => False end.
Proof.
  induction k as [|k IH]; intros args x y files LE H.
  - destruct args; [cbn; auto|cbn in LE; lia].
  - destruct args as [|w r]; [cbn; auto|]. cbn in LE.
    assert (CT : forall a b, bv_step a b -> match
        match a with None => None | Some (x', false) => parseArgs csv r x' files | Some (x', true) => match r with _ :: r' => parseArgs csv r' x' files | [] => None end end,
        match b with None => None | Some (x', false) => parseArgs csv r x' files | Some (x', true) => match r with _ :: r' => parseArgs csv r' x' files | [] => None end end
      with Some (x', f), Some (y', g) => but_verbose x' y' /\ f = g | None, None => True | _, _ => False end).
    { intros [[a u]|] [[b u']|]; cbn [bv_step]; try contradiction; auto. intros (HB & <-). destruct u.
      - destruct r as [|q r]; auto. cbn in LE. apply IH; [lia|exact HB].
      - apply IH; [lia|exact HB]. }
    assert (FL : match parseArgs csv r x (files ++ [w]), parseArgs csv r y (files ++ [w]) with
      | Some (x', f), Some (y', g) => but_verbose x' y' /\ f = g | None, None => True | _, _ => False end) by (apply IH; [lia|exact H]).
    cbn [parseArgs]. destruct w as [|c w]; [exact FL|].
    destruct (Ascii.eqb_spec c "-"%char) as [->|NC].
    + destruct w as [|d w]; [exact FL|]. destruct (Ascii.eqb d "-").
      * destruct w; [auto|]. apply CT, bv_long, H.
      * apply CT, bv_short, H.
    + destruct c as [[] [] [] [] [] [] [] []]; try exact FL. congruence.
Qed.
Theorem C88_add_v : forall csv E T argv fl s, command_line csv argv = Some fl -> argv <> [] ->
  match v_blang csv E T ($"-v" :: argv) s, v_blang csv E T argv s with (st, s1, i), (st', s2, i') =>
    st = st' /\ s1 = s2 /\ no_out i = no_out i' end.
Proof.
  intros csv E T argv fl s H NE. apply (C88_verbose_only csv E T _ _ fl); [|exact H].
  unfold command_line in *. change (parseArgs csv ($"-v" :: argv) defaults [])
    with (parseArgs csv argv (mkVars [] false false false false ($"0") false true [] [] false false) []).
  pose proof (bv_args csv (List.length argv) argv (mkVars [] false false false false ($"0") false true [] [] false false) defaults [] (le_n _)) as K.
  destruct (parseArgs csv argv defaults []) as [[y g]|]; [|discriminate]. injection H as <-.
  destruct (parseArgs csv argv _ []) as [[x f]|]; [|exfalso; apply K; repeat split].
  destruct K as (K & ->); [repeat split|]. destruct x, y. unfold but_verbose in K. cbn in K.
  destruct K as (-> & -> & -> & -> & -> & -> & -> & -> & -> & -> & ->). destruct argv; [congruence|reflexivity].
Qed.
Print Assumptions C88_add_v.

(** Whether a command line (SpecCmd.v) has -v. *)
Definition verbose (argv : list path) (b : bool) : Prop :=
  exists ss fs, SpecCmd.line argv ss fs /\ SpecCmd.on OVerbose ss b.
Lemma on_verbose csv ss' : forall ss x x', SpecCmd.on OVerbose ss (v_verbose x) -> CmdFacts.apply_all csv ss' x = Some x' ->
  SpecCmd.on OVerbose (ss ++ ss') (v_verbose x').
Proof.
  induction ss' as [|[o w] ss' IH]; intros ss x x' H A; cbn [CmdFacts.apply_all] in A.
  - injection A as <-. rewrite app_nil_r. exact H.
  - destruct (set csv o w x) as [x1|] eqn:ES; [|discriminate]. change (ss ++ (o, w) :: ss') with (ss ++ ([(o, w)] ++ ss')). rewrite app_assoc.
    apply (IH _ x1); [|exact A]. destruct o; unfold set in ES;
      try (destruct (ParseBool w) as [b|] eqn:B; [|discriminate]);
      try (destruct (readAsCSV csv w) as [l|]; [|discriminate]);
      injection ES as <-; cbn [v_verbose].
    all: try (exact (proj2 (CmdFacts.on_own csv OVerbose _ _ _) B)).
    all: refine (proj2 (CmdFacts.on_other csv OVerbose _ _ _ _ _) H); discriminate.
Qed.
Lemma verbose_parse csv argv b x files : verbose argv b -> parseArgs csv argv defaults [] = Some (x, files) -> v_verbose x = b.
Proof.
  intros (ss & fs & HL & HO) HP. rewrite (CmdFacts.line_parse csv argv ss fs HL) in HP.
  destruct (CmdFacts.apply_all csv ss defaults) as [x'|] eqn:EA; [|discriminate]. injection HP as <- _.
  pose proof (on_verbose csv ss [] defaults x') as K. cbn [app v_verbose] in K. specialize (K ltac:(cbn; tauto) EA).
  eapply CmdFacts.on_fun; eassumption.
Qed.
(** Without -v a compilation prints nothing on the standard output. *)
Theorem C88_quiet : forall csv E T argv fl s, command_line csv argv = Some fl -> argv <> [] -> compiling fl -> verbose argv false ->
  match v_blang csv E T argv s with (_, _, i) => outs i = [] end.
Proof.
  intros csv E T argv fl s H NE [H1 H2] HB. unfold v_blang. unfold command_line in H.
  destruct (parseArgs csv argv defaults []) as [[x files]|] eqn:HP; [|discriminate]. rewrite (verbose_parse _ _ _ _ _ HB HP). injection H as <-. apply main_quiet; auto. destruct argv; [congruence|reflexivity].
Qed.
Print Assumptions C88_quiet.
(** With -v it prints the lines of the narration; if it fails, only the first of
    them, never all. *)
Theorem C88_narration : forall csv E T argv fl m s, command_line csv argv = Some fl -> argv <> [] -> compiling fl -> mode_is fl m ->
  verbose argv true ->
  match v_blang csv E T argv s with (st, _, i) =>
    (st = 0 -> narration E T fl m (outs i)) /\
    (st <> 0 -> outs i = [] \/ outs i = [says ($"compiling " ++ txt (dec (Z.of_nat (List.length (f_files fl)))) ++ $" file(s)")]
                \/ exists r, r <> [] /\ narration E T fl m (outs i ++ r)) end.
Proof.
  intros csv E T argv fl m s H NE HC HM HB. unfold v_blang. unfold command_line in H.
  destruct (parseArgs csv argv defaults []) as [[x files]|] eqn:HP; [|discriminate]. rewrite (verbose_parse _ _ _ _ _ HB HP). injection H as <-. assert (NA : f_no_args (flags_of argv x files) = false) by (destruct argv; [congruence|reflexivity]).
  pose proof (main_narrates E T (flags_of argv x files) m s HC NA HM) as K. pose proof (main_same E T true (flags_of argv x files) s) as MS.
  destruct (v_main _ _ _ _ s) as [[st s'] i]. destruct MS as (MS & _). destruct K as (K1 & K2). split; [exact K1|].
  intros N. apply K2. apply C54_status in MS. destruct MS; [congruence|auto].
Qed.
Print Assumptions C88_narration.
(** Each command is announced immediately before it is run. *)
Theorem C88_announced : forall csv E T argv fl s, command_line csv argv = Some fl -> argv <> [] -> compiling fl -> verbose argv true ->
  match v_blang csv E T argv s with (_, _, i) => announced T i end.
Proof.
  intros csv E T argv fl s H NE [H1 H2] HB. unfold v_blang. unfold command_line in H.
  destruct (parseArgs csv argv defaults []) as [[x files]|] eqn:HP; [|discriminate]. rewrite (verbose_parse _ _ _ _ _ HB HP). injection H as <-. assert (NA : f_no_args (flags_of argv x files) = false) by (destruct argv; [congruence|reflexivity]).
  pose proof (main_ann E T (flags_of argv x files) s H1 H2 NA) as K. destruct (v_main _ _ _ _ s) as [[st s'] i]. apply ann_announced. exact K.
Qed.
Print Assumptions C88_announced.

Lemma ex_verbose : verbose [$"-v"; $"hello.b"; $"-o"; $"hello"] true.
Proof.
  exists [(OVerbose, $"true"); (OOutput, $"hello")], [$"hello.b"]. split; [|cbn; tauto].
  assert (L3 : SpecCmd.line [$"-o"; $"hello"] [(OOutput, $"hello")] []).
  { refine (SpecCmd.ln_item [$"-o"; $"hello"] [(OOutput, $"hello")] [] [] [] [] _ SpecCmd.ln_nil).
    refine (SpecCmd.it_short "o" [] (Some ($"hello")) [(OOutput, $"hello")] _ _); [discriminate|]. apply SpecCmd.cl_next; [intros []|reflexivity]. }
  assert (L2 : SpecCmd.line [$"hello.b"; $"-o"; $"hello"] [(OOutput, $"hello")] [$"hello.b"]).
  { refine (SpecCmd.ln_item [$"hello.b"] [] [$"hello.b"] _ _ [] _ L3). apply SpecCmd.it_file. intros c t; discriminate. }
  refine (SpecCmd.ln_item [$"-v"] [(OVerbose, $"true")] [] _ _ _ _ L2).
  refine (SpecCmd.it_short "v" [] None [(OVerbose, $"true")] _ _); [discriminate|].
  apply SpecCmd.cl_switch; [exact Logic.I|reflexivity|intros (w & _ & X); discriminate|constructor].
Qed.
(** The example of doc/CLI.md: on a system without the usual library directories
    the lines are those of the document and one more. *)
Example C88_ex : exists s' i, v_blang no_csv (ex_E false) ex_T [$"-v"; $"hello.b"; $"-o"; $"hello"] (ex_st ex_src) = (0, s', i)
  /\ List.concat (outs i) = List.concat (map (fun l => l ++ [EOL])
       [$"blang: compiling 1 file(s)"; $"blang: processing hello.b"; $"blang: generated hello.tmp.ll";
        $"blang: running clang hello.tmp.ll -lb -o hello"; $"blang: generated hello"])
  /\ errs_of i = [] /\ verbose [$"-v"; $"hello.b"; $"-o"; $"hello"] true.
Proof. do 2 eexists. split; [vm_compute; reflexivity|]. split; [vm_compute; reflexivity|]. split; [reflexivity|]. apply ex_verbose. Qed.
(** A failure: the narration stops. *)
Example C88_ex_fail : exists s' i, v_blang no_csv (ex_E true) ex_T [$"-v"; $"-S"; $"hello.b"] (ex_st ex_bad) = (1, s', i)
  /\ outs i = [says ($"compiling 1 file(s)"); processing ($"hello.b")].
Proof. do 2 eexists. split; vm_compute; reflexivity. Qed.

(** ** C89: every failure is reported *)

(** A compilation that succeeds prints nothing on the standard error output; one
    that fails ends with "blang: error: " and a description that says truly why it
    fails. *)
Theorem C89_reports : forall csv E T argv fl m s, command_line csv argv = Some fl -> argv <> [] -> compiling fl -> mode_is fl m ->
  match v_blang csv E T argv s with (st, _, i) =>
    st = 0 /\ errs_of i = [] \/
    st = 1 /\ exists before e i', complaint E T fl m s before e /\ i = i' ++ [TErr (complains (e ++ [EOL]))] /\ errs_of i' = before end.
Proof.
  intros csv E T argv fl m s H NE HC HM. unfold v_blang. unfold command_line in H.
  destruct (parseArgs csv argv defaults []) as [[x files]|]; [|discriminate]. injection H as <-.
  apply main_reports; auto. destruct argv; [congruence|reflexivity].
Qed.
Print Assumptions C89_reports.

(** If no file operation fails and clang does its work, the only description of a
    proper command line is the message of the compiler about one of the source
    files, alone on the standard error output. *)
Theorem C89_source : forall csv E T argv fl m s, command_line csv argv = Some fl -> argv <> [] -> compiling fl -> mode_is fl m ->
  faultless E ->
  In (f_optimize fl) [$"0"; $"1"; $"2"; $"3"] -> f_files fl <> [] ->
  (m = OutputExecutable \/ f_output fl = [] \/ List.length (f_files fl) = 1%nat) ->
  (forall f, In f (f_files fl) -> d_fs s f <> None /\ exists st e, named f st e /\ In e (accepted m)) ->
  match v_blang csv E T argv s with (st, _, i) =>
    st = 0 /\ errs_of i = [] \/
    st = 1 /\ exists f c e t, In f (f_files fl) /\ a_b_file f /\ d_fs s f = Some c /\ compile c false = Err e /\ verdict e t /\
      errs_of i = [$"blang: error: " ++ t ++ [EOL]] end.
Proof.
  intros csv E T argv fl m s H NE HC HM HF HO HN HOut HFs. pose proof (C89_reports csv E T argv fl m s H NE HC HM) as K.
  destruct (v_blang csv E T argv s) as [[st s'] i]. destruct K as [K|(-> & before & e & i' & K & -> & EB)]; [auto|]. right. split; auto.
  assert (AX : forall f st0 e0, named f st0 e0 -> In e0 (accepted m) -> In e0 (accepted OutputExecutable)) by (intros f st0 e0 _; destruct m; cbn; tauto).
  destruct HF. destruct K.
  - congruence.
  - contradiction.
  - destruct (HFs f H0) as (_ & st0 & e0 & N0 & A0). destruct (H1 _ _ N0). eauto.
  - exfalso. destruct H1 as [H1|H1]; [apply (HFs f H0); exact H1|congruence].
  - destruct (HFs f H1) as (_ & st0 & e0 & N0 & A0). destruct (H2 _ _ N0 A0).
  - exfalso. destruct HOut as [?|[?|?]]; contradiction.
  - exfalso. destruct H2 as [H2|H2]; [apply (HFs f H0); exact H2|congruence].
  - exists f, c, e, t. rewrite errs_app, EB. auto 10.
  - congruence.
  - congruence.
  - exfalso. destruct H0 as [H0|H0]; congruence.
  - destruct (fl_clang n x fs) as (c0 & HCl). congruence.
Qed.
Print Assumptions C89_source.

(** ** No compilation asked for *)
Theorem C89_information : forall csv E T argv x files s, parseArgs csv argv defaults [] = Some (x, files) ->
  (v_help x = true -> v_blang csv E T argv s = (0, s, [TErr (t_usage T)])) /\
  (v_help x = false -> v_version x = true ->
     exists i, v_blang csv E T argv s = (0, s, i) /\ List.concat (outs i) = $"blang version 0.1" ++ [EOL] ++ $"Copyright (c) 2025 Serge Vakulenko" ++ [EOL]
       ++ $"Freely distributed under the MIT License." ++ [EOL] ++ $"There is NO warranty." ++ [EOL] /\ errs_of i = []) /\
  (argv = [] -> exists i, v_blang csv E T argv s = (1, s, i) /\ errs_of i = []).
Proof.
  intros csv E T argv x files s H. unfold v_blang. rewrite H. unfold v_main. cbn [flags_of f_help f_version f_no_args]. split; [|split].
  - intros ->. reflexivity.
  - intros -> ->. eexists. split; [reflexivity|]. split; reflexivity.
  - intros ->. cbn in H. injection H as <- <-. cbn. eexists. split; reflexivity.
Qed.
Print Assumptions C89_information.

(** ** What the documentation promises and the program does not do *)
Definition one_fault (op cr : bool) : env :=
  mkEnv (fun _ => false) (fun _ => op) (fun _ => None) (fun _ => cr) (fun _ => None) (fun _ => false) (fun _ => false)
    (fun _ _ _ => ClangOk ($"code")) (fun _ => $"ir") true (fun _ => false) None.
(** A file that cannot be opened (it is there, but may not be read) is reported
    twice. *)
Theorem C89_once_refuted : exists E T argv s s' i, v_blang no_csv E T argv s = (1, s', i)
  /\ List.concat (errs_of i) = $"blang: error: hello.b: failed" ++ [EOL] ++ $"compilation terminated." ++ [EOL] ++ $"blang: error: failed" ++ [EOL].
Proof. exists (one_fault true false), ex_T, [$"hello.b"], (ex_st ex_src). do 2 eexists. split; vm_compute; reflexivity. Qed.
(** If the output cannot be created both messages come on one line. *)
Theorem C89_line_refuted : exists E T argv s s' i, v_blang no_csv E T argv s = (1, s', i)
  /\ List.concat (errs_of i) = $"blang: error: cannot open file 'hello.ll' failed.blang: error: failed" ++ [EOL].
Proof. exists (one_fault false true), ex_T, [$"--emit-llvm"; $"hello.b"], (ex_st ex_src). do 2 eexists. split; vm_compute; reflexivity. Qed.
(** Messages do not end with the documented "compilation terminated." *)
Theorem C89_format_refuted : exists E T argv s s' i e, v_blang no_csv E T argv s = (1, s', i)
  /\ errs_of i = [e] /\ ~ exists d, e = $"blang: error: " ++ d ++ [EOL] ++ $"compilation terminated." ++ [EOL].
Proof.
  exists (ex_E true), ex_T, [$"hello.b"], (ex_st ex_bad). do 3 eexists. split; [vm_compute; reflexivity|]. split; [vm_compute; reflexivity|].
  intros (d & X). apply (f_equal (@rev ascii)) in X. rewrite !rev_app_distr in X. vm_compute in X. discriminate.
Qed.
Print Assumptions C89_once_refuted.
Print Assumptions C89_line_refuted.
Print Assumptions C89_format_refuted.
Example C89_ex : exists s' i, v_blang no_csv (ex_E true) ex_T [$"-c"; $"hello.b"] (ex_st ex_bad) = (1, s', i)
  /\ errs_of i = [$"blang: error: expect ')' after 'return' statement, got ';'" ++ [EOL]] /\ outs i = [].
Proof. do 2 eexists. split; [vm_compute; reflexivity|]. split; reflexivity. Qed.

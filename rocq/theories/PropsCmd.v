(** * PropsCmd: C74 to C77, the command line *)
From Coq Require Import List Ascii String ZArith Bool Lia.
From Verif Require Import Base IR Decl Driver SpecDriver DriverFacts DriverModes DriverSummary DriverOk PropsDriver PropsDriverEx.
From Verif Require Import Cmdline SpecCmd CmdFacts.
Import ListNotations.
Open Scope Z_scope.
Local Notation "$ s" := (list_ascii_of_string s) (at level 0, s at level 0).

Lemma asks_flags csv argv ss fs x fl : holds csv ss x -> asks csv argv ss fs fl -> flags_of argv x fs = fl.
Proof.
  intros (H1 & H2 & H3 & H4 & H5 & H6 & H7 & H8 & H9 & H10 & H11)
         (K1 & K2 & K3 & K4 & K5 & K6 & K7 & K8 & K9 & K10 & K11 & K12 & K13).
  destruct fl as [g1 g2 g3 g4 g5 g6 g7 g8 g9 g10 g11 g12 g13]. unfold flags_of. cbn [f_output f_save_temps f_version f_help f_compile f_assemble f_emit_llvm f_optimize f_debug f_library_dirs f_libraries f_files f_no_args] in *.
  f_equal; try congruence; try (eapply on_fun; eassumption); try (eapply coll_fun; eassumption).
  destruct argv; [symmetry; apply K13; auto|]. destruct g13; auto. destruct K13 as [K _]. discriminate K; auto.
Qed.
Lemma flags_asks csv argv ss fs x : holds csv ss x -> asks csv argv ss fs (flags_of argv x fs).
Proof.
  intros (H1 & H2 & H3 & H4 & H5 & H6 & H7 & H8 & H9 & H10 & H11). unfold asks.
  repeat match goal with |- _ /\ _ => split end; auto.
  cbn. destruct argv; split; congruence.
Qed.

(** ** C74: what is read from a command line *)

(** The accepted command lines are the documented ones - files and options in
    any order, in any of their spellings - and mean what they say: for an option
    given several times the last value counts, -L and -l collect. *)
Theorem C74_command_line : forall csv argv fl,
  command_line csv argv = Some fl <->
  exists ss fs, line argv ss fs /\ proper ss /\ asks csv argv ss fs fl.
Proof.
  intros csv argv fl. unfold command_line. split.
  - destruct (parseArgs csv argv defaults []) as [[x fs]|] eqn:P; [|discriminate]. intros [= <-].
    destruct (line_inv csv _ _ _ _ _ _ (le_n _) P) as (ss & fs' & Hl & Ha & ->). cbn [app].
    exists ss, fs'. split; auto. split; [eapply apply_proper; eauto|].
    apply flags_asks. exact (holds_all csv ss [] _ _ (holds_defaults csv) Ha).
  - intros (ss & fs & Hl & HP & HA). rewrite (line_parse csv _ _ _ Hl).
    destruct (apply_some csv ss HP) with (x := defaults) as [x Hx].
    { intros o v HI [->| ->]; eapply coll_members; try apply HI; apply HA. }
    rewrite Hx. cbn [app]. f_equal. eapply asks_flags; eauto.
    exact (holds_all csv ss [] _ _ (holds_defaults csv) Hx).
Qed.
Print Assumptions C74_command_line.

Example C74_ex : command_line (fun _ => None)
    [$"hello.b"; $"-vO2"; $"-o"; $"out"; $"--save-temps"; $"-L/a"; $"x.ll"; $"-L"; $"b,c"; $"--output=out2"; $"-S=false"; $"--"; $"-g.b"]
  = Some (mkFlags ($"out2") true false false false false false ($"2") false [$"/a"; $"b"; $"c"] [] [$"hello.b"; $"x.ll"; $"-g.b"] false).
Proof. vm_compute. reflexivity. Qed.
Example C74_ex_line : exists ss, line [$"hello.b"; $"-vO2"; $"-o"; $"out"; $"--save-temps"] ss [$"hello.b"]
  /\ ss = [(OVerbose, $"true"); (OOptimize, $"2"); (OOutput, $"out"); (OSaveTemps, $"true")].
Proof.
  eexists. split; [|reflexivity].
  refine (ln_item [$"hello.b"] [] [$"hello.b"] _ _ [] (it_file _ _) _); [intros c s; discriminate|].
  refine (ln_item [$"-vO2"] [(OVerbose, $"true"); (OOptimize, $"2")] [] _ _ [] (it_short "v" ($"O2") None _ _ _) _); [discriminate| |].
  { refine (cl_switch OVerbose "v" _ None _ I eq_refl _ (cl_joined OOptimize "O" ($"2") _ eq_refl _ _)).
    - intros (v & _ & [=]).
    - intros [].
    - discriminate.
    - intros (v & _ & [=]). }
  refine (ln_item [$"-o"; $"out"] [(OOutput, $"out")] [] _ _ [] (it_short "o" [] (Some ($"out")) _ _ (cl_next OOutput "o" _ _ eq_refl)) _); [discriminate|intros []|].
  exact (ln_item [$"--save-temps"] [(OSaveTemps, $"true")] [] [] [] [] (it_long_switch OSaveTemps I) ln_nil).
Qed.

(** Command lines with the same files in the same order and, for every option,
    the same values in the same order, have the same effect. *)
Theorem C74_order : forall csv E s argv argv' ss ss' fs,
  line argv ss fs -> line argv' ss' fs -> (forall o, values o ss = values o ss') -> argv <> [] -> argv' <> [] ->
  blang csv E argv s = blang csv E argv' s.
Proof.
  intros csv E s argv argv' ss ss' fs Hl Hl' HV N N'. unfold blang.
  assert (S : forall a a' t t', a <> [] -> a' <> [] -> line a t fs -> line a' t' fs -> (forall o, values o t = values o t') ->
    forall fl, command_line csv a = Some fl -> command_line csv a' = Some fl).
  { clear. intros a a' t t' N N' Hl Hl' HV fl H.
    assert (X := H). unfold command_line in X. rewrite (line_parse csv _ _ _ Hl) in X.
    destruct (apply_all csv t defaults) as [x|] eqn:A; [|discriminate]. injection X as X. cbn [app] in X.
    apply C74_command_line. exists t', fs. split; auto.
    assert (IN : forall o v, In (o, v) t' -> In (o, v) t).
    { intros o v HI. assert (Hv : In v (values o t')).
      { unfold values. apply in_flat_map. exists (o, v). split; auto. destruct o; cbn; auto. }
      rewrite <- HV in Hv. unfold values in Hv. apply in_flat_map in Hv. destruct Hv as ([o1 v1] & H1 & H2).
      destruct o, o1; cbn in H2; try contradiction; destruct H2 as [<-|[]]; auto. }
    split. { intros o v HI. apply (apply_proper csv _ _ _ A). auto. }
    assert (HH := holds_all csv t [] _ _ (holds_defaults csv) A). cbn [app] in HH.
    assert (K : asks csv a t fs fl) by (subst fl; apply flags_asks; auto).
    unfold asks, on, final, collected in *. rewrite <- !HV.
    destruct K as (K1 & K2 & K3 & K4 & K5 & K6 & K7 & K8 & K9 & K10 & K11 & K12 & K13).
    repeat match goal with |- _ /\ _ => split end; auto. tauto. }
  destruct (command_line csv argv) as [fl|] eqn:C1.
  - rewrite (S argv argv' ss ss' N N' Hl Hl' HV fl C1). auto.
  - destruct (command_line csv argv') as [fl|] eqn:C2; auto.
    rewrite (S argv' argv ss' ss N' N Hl' Hl (fun o => eq_sym (HV o)) fl C2) in C1. discriminate.
Qed.
Print Assumptions C74_order.

(** In particular an option may stand before or after a file. *)
Theorem C74_anywhere : forall csv E s pre ws ss f post,
  Forall (fun w => exists ss fs, item w ss fs) pre -> item ws ss [] -> (forall c t, f <> "-"%char :: c :: t) ->
  blang csv E (List.concat pre ++ ws ++ f :: post) s = blang csv E (List.concat pre ++ f :: ws ++ post) s.
Proof.
  intros csv E s pre ws ss f post HP HI HF. unfold blang, command_line.
  assert (X : forall x files, parseArgs csv (List.concat pre ++ ws ++ f :: post) x files
            = parseArgs csv (List.concat pre ++ f :: ws ++ post) x files).
  { induction HP as [|w pre (ss' & fs' & Hw) HP IH]; intros x files; cbn [List.concat app].
    - rewrite (item_parse csv _ _ _ HI). change (f :: ws ++ post) with ([f] ++ (ws ++ post)).
      rewrite (item_parse csv _ _ _ (it_file f HF)). cbn [apply_all].
      rewrite (item_parse csv _ _ _ HI). destruct (apply_all csv ss x); auto.
      rewrite app_nil_r. change (f :: post) with ([f] ++ post).
      rewrite (item_parse csv _ _ _ (it_file f HF)). cbn [apply_all]. rewrite app_nil_r. reflexivity.
    - rewrite <- !app_assoc. rewrite !(item_parse csv _ _ _ Hw). destruct (apply_all csv ss' x); auto. }
  rewrite X. destruct (parseArgs csv (List.concat pre ++ f :: ws ++ post) defaults []) as [[x fs]|]; auto.
  f_equal. unfold flags_of. f_equal.
  destruct (List.concat pre), ws; reflexivity.
Qed.
Print Assumptions C74_anywhere.

Example C74_ex_anywhere : forall csv E s,
  blang csv E [$"hello.b"; $"-o"; $"output"; $"-O2"] s = blang csv E [$"-O2"; $"-o"; $"output"; $"hello.b"] s.
Proof.
  intros csv E s. reflexivity.
Qed.

(** ** C75: options left out *)

(** Without options an executable is made, without debug information and
    temporaries, and the libraries and directories are those blang adds itself. *)
Theorem C75_defaults_partial : forall csv argv fl ss fs,
  command_line csv argv = Some fl -> line argv ss fs -> (forall o, values o ss = []) ->
  mode_is fl OutputExecutable /\ f_output fl = [] /\ f_save_temps fl = false /\ f_debug fl = false
  /\ f_library_dirs fl = [] /\ f_libraries fl = [] /\ compiling fl /\ f_files fl = fs.
Proof.
  intros csv argv fl ss fs H Hl HV. unfold command_line in H. rewrite (line_parse csv _ _ _ Hl) in H.
  destruct (apply_all csv ss defaults) as [x|] eqn:A; [|discriminate]. injection H as <-. cbn [app].
  destruct ss as [|[o v] ss].
  - cbn in A. injection A as <-. repeat split; reflexivity.
  - specialize (HV o). change ((o, v) :: ss) with ([(o, v)] ++ ss) in HV. rewrite values_app, values_own in HV. discriminate.
Qed.
Print Assumptions C75_defaults_partial.

(** doc/CLI.md:106 gives -O1 as the default: blang hello.b passes no -O to clang
    (main.go:123 starts from 0). *)
Theorem C75_default_level_refuted : exists csv E argv ss fs s s' args,
  line argv ss fs /\ values OOptimize ss = [] /\ blang csv E argv s = (0, s')
  /\ d_log s = [] /\ In (EvClang args) (d_log s') /\ ~ In ($"-O1") args.
Proof.
  exists (fun _ => None), ex6_env, [$"a.b"], [], [$"a.b"], ex_s, (snd (blang (fun _ => None) ex6_env [$"a.b"] ex_s)),
    [$"a.tmp.ll"; $"-static"; $"-nostdlib"; $"-L/usr/lib"; $"-lb"; $"-o"; $"a"].
  split. { exact (ln_item [$"a.b"] [] [$"a.b"] [] [] [] (it_file ($"a.b") ltac:(intros c t; discriminate)) ln_nil). }
  split; [reflexivity|]. split; [vm_compute; reflexivity|]. split; [reflexivity|]. split; [vm_compute; tauto|].
  cbn [In]. intuition discriminate.
Qed.
Print Assumptions C75_default_level_refuted.

Example C75_ex : exists fl, command_line (fun _ => None) [$"d/a.b"; $"c.o"] = Some fl /\ line [$"d/a.b"; $"c.o"] [] [$"d/a.b"; $"c.o"]
  /\ mode_is fl OutputExecutable /\ f_files fl = [$"d/a.b"; $"c.o"].
Proof.
  eexists. split; [reflexivity|]. split; [|split; [repeat split|]; reflexivity].
  refine (ln_item [$"d/a.b"] [] [$"d/a.b"] [$"c.o"] [] [$"c.o"] (it_file _ _) _); [intros c t; discriminate|].
  refine (ln_item [$"c.o"] [] [$"c.o"] [] [] [] (it_file _ _) ln_nil). intros c t; discriminate.
Qed.

(** ** C76: a wrong command line is an error *)

(** Nothing is done for a command line that is not of the documented form ... *)
Theorem C76_nothing_done_partial : forall csv E argv s,
  (forall ss fs fl, line argv ss fs -> proper ss -> ~ asks csv argv ss fs fl) ->
  snd (blang csv E argv s) = s.
Proof.
  intros csv E argv s H. unfold blang. destruct (command_line csv argv) as [fl|] eqn:C1; auto.
  apply C74_command_line in C1. destruct C1 as (ss & fs & H1 & H2 & H3). destruct (H _ _ _ H1 H2 H3).
Qed.
Print Assumptions C76_nothing_done_partial.

(** ... but the exit status says that all went well. *)
Theorem C76_status : forall csv E argv s,
  (forall ss fs fl, line argv ss fs -> proper ss -> ~ asks csv argv ss fs fl) ->
  fst (blang csv E argv s) = 0.
Proof.
  intros csv E argv s H. unfold blang. destruct (command_line csv argv) as [fl|] eqn:C1; auto.
  apply C74_command_line in C1. destruct C1 as (ss & fs & H1 & H2 & H3). destruct (H _ _ _ H1 H2 H3).
Qed.
Print Assumptions C76_status.

Lemma wrong csv argv : command_line csv argv = None ->
  forall ss fs fl, line argv ss fs -> proper ss -> ~ asks csv argv ss fs fl.
Proof.
  intros H ss fs fl H1 H2 H3. assert (X : command_line csv argv = Some fl); [|congruence].
  apply C74_command_line. eauto.
Qed.

Theorem C76_wrong_is_error_refuted : exists csv E argv s,
  (forall ss fs fl, line argv ss fs -> proper ss -> ~ asks csv argv ss fs fl) /\ fst (blang csv E argv s) = 0.
Proof.
  exists (fun _ => None), ex_env, [$"--optimise=2"; $"a.b"], ex_s. split; [|reflexivity].
  apply wrong. reflexivity.
Qed.
Print Assumptions C76_wrong_is_error_refuted.

Example C76_ex : forall E s, snd (blang (fun _ => None) E [$"a.b"; $"-x"] s) = s /\ fst (blang (fun _ => None) E [$"a.b"; $"-o"] s) = 0.
Proof.
  intros E s. split.
  - apply C76_nothing_done_partial. apply wrong. reflexivity.
  - apply C76_status. apply wrong. reflexivity.
Qed.

(** ** C77: -L and -l name one directory and one library each *)

(** The directory or library [d] in each spelling. *)
Inductive one_word (o : opt) (c : ascii) (d : path) : list path -> Prop :=
| ow_next : one_word o c d [["-"%char; c]; d]
| ow_joined : ~ eq_value d -> one_word o c d ["-"%char :: c :: d]
| ow_equals : one_word o c d ["-"%char :: c :: "="%char :: d]
| ow_long : one_word o c d [txt "--" ++ long_name o; d]
| ow_long_equals : one_word o c d [txt "--" ++ long_name o ++ "="%char :: d].

Theorem C77_spellings : forall o c d ws, ~ is_switch o -> letter o c -> d <> [] -> one_word o c d ws ->
  item ws [(o, d)] [].
Proof.
  intros o c d ws S HL N H. assert (NC : c <> "-"%char) by (destruct o; cbn in HL; try contradiction; subst; discriminate).
  destruct H as [|NE| | |].
  - exact (it_short c [] (Some d) _ NC (cl_next o c d S HL)).
  - exact (it_short c d None _ NC (cl_joined o c d S HL N NE)).
  - exact (it_short c ("="%char :: d) None _ NC (cl_equals o c d HL N)).
  - exact (it_long_next o d S).
  - exact (it_long_equals o d).
Qed.
Print Assumptions C77_spellings.

(** The list main gets for -L or -l. *)
Definition listed (o : opt) (fl : flags) : list path :=
  match o with OLibraryDir => f_library_dirs fl | _ => f_libraries fl end.

(** Each -L (-l) adds its directory (library) at its place in the list, if the
    name has no comma, quotation mark or line end. *)
Theorem C77_one_each_partial : forall csv argv ss1 o d ss2 fs fl, o = OLibraryDir \/ o = OLibrary ->
  d <> [] -> ~ special d -> ~ In ","%char d ->
  line argv (ss1 ++ (o, d) :: ss2) fs -> command_line csv argv = Some fl ->
  exists l1 l2, collected csv o ss1 l1 /\ collected csv o ss2 l2 /\ listed o fl = l1 ++ d :: l2.
Proof.
  intros csv argv ss1 o d ss2 fs fl HO N NS NC Hl H.
  unfold command_line in H. rewrite (line_parse csv _ _ _ Hl) in H.
  destruct (apply_all csv (ss1 ++ (o, d) :: ss2) defaults) as [x|] eqn:A; [|discriminate]. injection H as <-.
  assert (HH := holds_all csv _ [] _ _ (holds_defaults csv) A). cbn [app] in HH.
  assert (HC : collected csv o (ss1 ++ (o, d) :: ss2) (listed o (flags_of argv x fs))).
  { destruct HO as [->| ->]; apply HH. }
  change ([] ++ fs) with fs. destruct HC as (ls & F & ->).
  rewrite values_app in F. change ((o, d) :: ss2) with ([(o, d)] ++ ss2) in F. rewrite values_app, values_own in F.
  apply Forall2_app_inv_l in F. destruct F as (l1 & l2 & F1 & F2 & ->).
  inversion F2 as [|? m ? l2' HM F3]; subst.
  exists (List.concat l1), (List.concat l2'). split; [exists l1; auto|]. split; [exists l2'; auto|].
  rewrite List.concat_app. f_equal. cbn [List.concat].
  destruct HM as [(HM & _)|[(_ & _ & NL & J & FA)|(HM & _)]]; [congruence| |contradiction].
  destruct m as [|y [|z m]]; [congruence|cbn in J; subst; reflexivity|].
  destruct NC. rewrite J. cbn [join]. apply in_app_iff. right. left. auto.
Qed.
Print Assumptions C77_one_each_partial.

Example C77_ex : exists fl, command_line (fun _ => None) [$"-L/x"; $"a.b"; $"--library-dir"; $"my libs"; $"-lm"] = Some fl
  /\ f_library_dirs fl = [$"/x"; $"my libs"] /\ f_libraries fl = [$"m"].
Proof. eexists. split; [reflexivity|]. split; reflexivity. Qed.

(** A directory with a comma in its name is taken as two. *)
Theorem C77_one_each_refuted : exists csv argv d fl, line argv [(OLibraryDir, d)] [$"a.b"]
  /\ command_line csv argv = Some fl /\ f_library_dirs fl <> [d].
Proof.
  exists (fun _ => None), [$"-L"; $"a,b"; $"a.b"], ($"a,b"), (mkFlags [] false false false false false false ($"0") false [$"a"; $"b"] [] [$"a.b"] false).
  split; [|split; [vm_compute; reflexivity|discriminate]].
  refine (ln_item [$"-L"; $"a,b"] [(OLibraryDir, $"a,b")] [] [$"a.b"] [] [$"a.b"] (it_short "L" [] (Some ($"a,b")) _ _ (cl_next OLibraryDir "L" _ _ eq_refl)) _);
    [discriminate|intros []|].
  refine (ln_item [$"a.b"] [] [$"a.b"] [] [] [] (it_file _ _) ln_nil). intros c t; discriminate.
Qed.
Print Assumptions C77_one_each_refuted.

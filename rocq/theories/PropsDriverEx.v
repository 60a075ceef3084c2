(** * PropsDriverEx: concrete runs for C47 to C57, and refutations *)
From Coq Require Import List Ascii String ZArith NArith Lia Bool.
From Verif Require Import Base IR Decl PropsTotal Driver SpecDriver DriverFacts DriverModes DriverSummary DriverOk PropsDriver.
Import ListNotations.
Open Scope Z_scope.
Local Notation "$ s" := (list_ascii_of_string s) (at level 0, s at level 0).

(** A printer that tells modules with different functions apart, a clang that
    copies its last argument (or the first input when linking), and an
    environment without faults. *)
Definition ex_render (md : module_) : list ascii :=
  $"IR:" ++ flat_map (fun f => list_ascii_of_string (f_name f)) (m_funcs md).
Definition ex_clang (_ : nat) (args : list path) (fs : fsys) : clang_result :=
  match fs (last args []) with
  | Some c => ClangOk ($"clang:" ++ c)
  | None => match fs (hd [] args) with Some c => ClangOk ($"linked:" ++ c) | None => ClangFail None end
  end.
Definition no (_ : nat) : bool := false.
Definition no_dir (_ : path) : bool := false.
Definition none (_ : nat) : option nat := None.
Definition ex_env : env :=
  mkEnv no no none no none no no ex_clang ex_render true (fun p => path_eqb p ($"/usr/lib")) None.

Definition ex_fs : fsys := fun p =>
  if path_eqb p ($"a.b") then Some ($"f(){}")
  else if path_eqb p ($"d/g.b") then Some ($"g(){}")
  else if path_eqb p ($"e/g.b") then Some ($"h(){}")
  else if path_eqb p ($"bad.b") then Some ($"f(){")
  else if path_eqb p ($"c.ll") then Some ($"old")
  else if path_eqb p ($"bad.s") then Some ($"old")
  else None.
Definition ex_s : dstate := mkD ex_fs [] 0.

(** -S, -c, --emit-llvm or none; -o; --save-temps; inputs. *)
Definition ex_flags (S c e : bool) (o : path) (save : bool) (files : list path) : flags :=
  mkFlags o save false false c S e ($"2") false [] [$"m"] files false.

Lemma ex_run E fl m s : compiling fl -> mode_is fl m ->
  run E fl m s (fst (main E fl s)) (snd (main E fl s)).
Proof. intros H1 H2. split; auto. apply surjective_pairing. Qed.

Ltac runs := split; [split; reflexivity|repeat split; reflexivity|apply surjective_pairing].

Lemma named_plain st e : ~ In "/"%char st -> ~ In "/"%char e -> ~ In "."%char e -> named (st ++ "."%char :: e) st e.
Proof. intros. exists []. repeat split; auto. Qed.

(** Two files in a directory, object files: the outputs land in the current
    directory, with the names of the inputs. *)
Definition ex1_fl := ex_flags false true false [] false [$"a.b"; $"d/g.b"].
Definition ex1_out := snd (main ex_env ex1_fl ex_s).
Example ex1_run : run ex_env ex1_fl OutputObject ex_s 0 ex1_out.
Proof. runs. Qed.
Example ex1_C47 : is_output ex1_fl OutputObject ($"d/g.b") ($"g.o")
  /\ d_fs ex1_out ($"g.o") = Some ($"clang:IR:b.g") /\ d_fs ex1_out ($"a.o") = Some ($"clang:IR:b.f").
Proof.
  split; [|vm_compute; auto]. right. split; auto. exists ($"g"), ($"b"). split; auto.
  exists ($"d/"). repeat split; cbn; auto; try intuition discriminate. right. exists ($"d"). reflexivity.
Qed.
(** C50, C52: what happened in that run. *)
Example ex1_log : d_log ex1_out =
  [EvOpen ($"a.b"); EvCreate ($"a.o.tmp.ll"); EvClang [$"-O2"; $"-c"; $"-o"; $"a.o"; $"a.o.tmp.ll"]; EvRemove ($"a.o.tmp.ll");
   EvOpen ($"d/g.b"); EvCreate ($"g.o.tmp.ll"); EvClang [$"-O2"; $"-c"; $"-o"; $"g.o"; $"g.o.tmp.ll"]; EvRemove ($"g.o.tmp.ll")].
Proof. vm_compute. reflexivity. Qed.
Example ex_works : writes_work ex_env /\ removes_work ex_env.
Proof. repeat split. Qed.
(** C57, C55, C51, C53 ask for different output names: here they are. *)
Example ex1_separate : separate ex1_fl OutputObject.
Proof.
  right. intros i j f g o Hi Hj Hf Hg.
  apply (output_iff ex_env ex1_fl OutputObject 2) in Hf; auto.
  2:{ cbn [ex1_fl ex_flags f_files] in Hi. destruct i as [|[|[|i]]]; try discriminate; injection Hi as <-; reflexivity. }
  apply (output_iff ex_env ex1_fl OutputObject 2) in Hg; auto.
  2:{ cbn [ex1_fl ex_flags f_files] in Hj. destruct j as [|[|[|j]]]; try discriminate; injection Hj as <-; reflexivity. }
  cbn [ex1_fl ex_flags f_files] in *. destruct i as [|[|[|i]]]; try discriminate; destruct j as [|[|[|j]]]; try discriminate; auto;
    injection Hi as <-; injection Hj as <-; rewrite Hf in Hg; vm_compute in Hg; discriminate.
Qed.

(** --save-temps (C51): no EvRemove, the temporary holds the IR. *)
Definition ex2_fl := ex_flags true false false [] true [$"a.b"].
Example ex2_run : run ex_env ex2_fl OutputAssembly ex_s 0 (snd (main ex_env ex2_fl ex_s)).
Proof. runs. Qed.
Example ex2_C51 : d_fs (snd (main ex_env ex2_fl ex_s)) ($"a.s.tmp.ll") = Some ($"IR:b.f").
Proof. vm_compute. reflexivity. Qed.

(** -o with two inputs (C48). *)
Definition ex3_fl := ex_flags false true false ($"x.o") false [$"a.b"; $"d/g.b"].
Example ex3_C48 : run ex_env ex3_fl OutputObject ex_s 1 (snd (main ex_env ex3_fl ex_s)).
Proof. runs. Qed.

(** An assembly file with -S (C49): known to the driver, but not in this mode. *)
Definition ex4_fl := ex_flags true false false [] false [$"a.b"; $"bad.s"].
Example ex4_C49 : run ex_env ex4_fl OutputAssembly ex_s 1 (snd (main ex_env ex4_fl ex_s))
  /\ (forall p e, In e (accepted OutputAssembly) -> ~ named ($"bad.s") p e).
Proof.
  split; [runs|]. intros p e He HN. apply named_Ext in HN. vm_compute in HN.
  destruct He as [<-|[<-|[]]]; discriminate.
Qed.

(** A source with an error (C53): the old output is kept, clang is not run. *)
Definition ex5_fl := ex_flags true false false [] false [$"bad.b"].
Example ex5_C53 : run ex_env ex5_fl OutputAssembly ex_s 1 (snd (main ex_env ex5_fl ex_s))
  /\ broken ex_env ex_s ($"bad.b") /\ is_output ex5_fl OutputAssembly ($"bad.b") ($"bad.s")
  /\ d_fs (snd (main ex_env ex5_fl ex_s)) ($"bad.s") = Some ($"old")
  /\ d_log (snd (main ex_env ex5_fl ex_s)) = [EvOpen ($"bad.b")].
Proof.
  split; [runs|]. split; [|split; [|split; vm_compute; reflexivity]].
  - split.
    + exists ($"bad"). apply (named_plain ($"bad") ($"b")); cbn; intuition discriminate.
    + intros ir (c & md & H1 & H2 & _). vm_compute in H1. injection H1 as <-. vm_compute in H2. discriminate.
  - right. split; auto. exists ($"bad"), ($"b"). split; auto. apply (named_plain ($"bad") ($"b")); cbn; intuition discriminate.
Qed.

(** Linking (C47, C52): the executable is named after the first input. *)
Definition ex6_fl := ex_flags false false false [] false [$"a.b"; $"c.ll"; $"d/g.b"].
Definition ex6_env := mkEnv no no none no none no no (fun _ _ _ => ClangOk ($"exe")) ex_render true (fun p => path_eqb p ($"/usr/lib")) (Some ($"h")).
Example ex6_run : run ex6_env ex6_fl OutputExecutable ex_s 0 (snd (main ex6_env ex6_fl ex_s)).
Proof. runs. Qed.
Example ex6_log : d_fs (snd (main ex6_env ex6_fl ex_s)) ($"a") = Some ($"exe")
  /\ In (EvClang [$"-O2"; $"a.tmp.0.ll"; $"c.ll"; $"g.tmp.2.ll"; $"-static"; $"-nostdlib"; $"-L/usr/lib"; $"-lb"; $"-lm"; $"-o"; $"a"])
        (d_log (snd (main ex6_env ex6_fl ex_s))).
Proof. vm_compute. tauto. Qed.

(** C54: an acceptable command line in a faultless environment, and the
    other outcomes. *)
Example ex6_faultless : faultless ex6_env.
Proof. split; try reflexivity. intros. exists ($"exe"). reflexivity. Qed.
Example ex6_acceptable : acceptable ex6_env ex6_fl OutputExecutable ex_s.
Proof. exact (proj1 (C54_success_means _ _ _ _ _ ex6_run)). Qed.
Example ex7_level : main ex_env (mkFlags [] false false false true false false ($"s") false [] [] [$"a.b"] false) ex_s = (1, ex_s).
Proof. reflexivity. Qed.
Example ex7_clang_fails :
  fst (main (mkEnv no no none no none no no (fun _ _ _ => ClangFail None) ex_render true no_dir None) ex1_fl ex_s) = 1.
Proof. reflexivity. Qed.

(** C55: the same file next to different companions. *)
Definition ex8_fl1 := ex_flags false false true [] false [$"a.b"; $"d/g.b"].
Definition ex8_fl2 := ex_flags false false true [] false [$"e/g.b"; $"a.b"].
Example ex8_C55 : run ex_env ex8_fl1 OutputIR ex_s 0 (snd (main ex_env ex8_fl1 ex_s))
  /\ run ex_env ex8_fl2 OutputIR ex_s 0 (snd (main ex_env ex8_fl2 ex_s))
  /\ d_fs (snd (main ex_env ex8_fl1 ex_s)) ($"a.ll") = Some ($"IR:b.f")
  /\ d_fs (snd (main ex_env ex8_fl2 ex_s)) ($"a.ll") = Some ($"IR:b.f").
Proof. split; [runs|]. split; [runs|]. vm_compute. auto. Qed.

(** ** Refutations *)

(** C50: when writing the IR fails (a full disk), the temporary stays. *)
Theorem C50_temps_removed_refuted : exists E fl s st s' t,
  run E fl OutputObject s st s' /\ f_save_temps fl = false /\ removes_work E
  /\ is_temp fl OutputObject 0 ($"a.b") t /\ d_fs s t = None /\ d_fs s' t <> None.
Proof.
  set (E := mkEnv no no none no (fun _ => Some 1%nat) no no ex_clang ex_render true no_dir None).
  set (fl := ex_flags false true false [] false [$"a.b"]).
  exists E, fl, ex_s, 1, (snd (main E fl ex_s)), ($"a.o.tmp.ll").
  split; [runs|]. split; [reflexivity|]. split; [intros t; reflexivity|]. split.
  - assert (HN : named ($"a.b") ($"a") ($"b")) by (apply (named_plain ($"a") ($"b")); cbn; intuition discriminate).
    exists ($"a"). split; auto. exists ($"a.o"). split; auto. right. split; auto. exists ($"a"), ($"b"). auto.
  - vm_compute. split; congruence.
Qed.
Print Assumptions C50_temps_removed_refuted.

(** C47: an executable named like a temporary is removed after linking, with
    status 0. *)
Theorem C47_output_names_refuted : exists E fl s s' o,
  run E fl OutputExecutable s 0 s' /\ faultless E /\ is_output fl OutputExecutable ($"a.b") o /\ d_fs s' o = None.
Proof.
  set (fl := ex_flags false false false ($"a.tmp.0.ll") false [$"a.b"; $"d/g.b"]).
  exists ex6_env, fl, ex_s, (snd (main ex6_env fl ex_s)), ($"a.tmp.0.ll").
  split; [runs|]. split; [apply ex6_faultless|]. split; [|vm_compute; reflexivity].
  left. split; [discriminate|reflexivity].
Qed.
Print Assumptions C47_output_names_refuted.

(** C56: an input is overwritten by the temporary of another input, and by an
    output given with -o. *)
Theorem C56_inputs_kept_refuted : exists E fl s s' f,
  run E fl OutputAssembly s 0 s' /\ faultless E /\ f_output fl = [] /\ In f (f_files fl)
  /\ d_fs s f <> None /\ d_fs s' f = None.
Proof.
  set (fl := ex_flags true false false [] false [$"a.s.tmp.ll"; $"a.b"]).
  set (s := mkD (upd ex_fs ($"a.s.tmp.ll") (Some ($"mine"))) [] 0).
  exists ex6_env, fl, s, (snd (main ex6_env fl s)), ($"a.s.tmp.ll").
  split; [runs|]. split; [apply ex6_faultless|]. split; [reflexivity|]. split; [cbn; auto|]. vm_compute. split; congruence.
Qed.
Print Assumptions C56_inputs_kept_refuted.

Theorem C56_source_overwritten_refuted : exists E fl s s',
  run E fl OutputIR s 0 s' /\ faultless E /\ f_files fl = [$"a.b"]
  /\ d_fs s ($"a.b") = Some ($"f(){}") /\ d_fs s' ($"a.b") <> d_fs s ($"a.b").
Proof.
  set (fl := ex_flags false false true ($"a.b") false [$"a.b"]).
  exists ex6_env, fl, ex_s, (snd (main ex6_env fl ex_s)).
  split; [runs|]. split; [apply ex6_faultless|]. split; [reflexivity|]. vm_compute. split; congruence.
Qed.
Print Assumptions C56_source_overwritten_refuted.

(** C57: two inputs of the same name in different directories share one
    output; the first translation is lost, with status 0. *)
Theorem C57_own_output_refuted : exists E fl s s' o ir1 ir2,
  run E fl OutputIR s 0 s' /\ f_output fl = [] /\ f_files fl = [$"d/g.b"; $"e/g.b"]
  /\ is_output fl OutputIR ($"d/g.b") o /\ is_output fl OutputIR ($"e/g.b") o
  /\ translates E s ($"d/g.b") ir1 /\ translates E s ($"e/g.b") ir2 /\ ir1 <> ir2 /\ d_fs s' o = Some ir2.
Proof.
  set (fl := ex_flags false false true [] false [$"d/g.b"; $"e/g.b"]).
  exists ex_env, fl, ex_s, (snd (main ex_env fl ex_s)), ($"g.ll"), ($"IR:b.g"), ($"IR:b.h").
  split; [runs|]. split; [reflexivity|]. split; [reflexivity|].
  assert (N : forall c, c <> "/"%char -> named ([c; "/"%char] ++ $"g.b") ($"g") ($"b")).
  { intros c Hc. exists [c; "/"%char]. repeat split; cbn; try intuition discriminate. right. exists [c]. reflexivity. }
  split; [right; split; [reflexivity|exists ($"g"), ($"b"); split; [apply (N "d"%char); discriminate|reflexivity]]|].
  split; [right; split; [reflexivity|exists ($"g"), ($"b"); split; [apply (N "e"%char); discriminate|reflexivity]]|].
  assert (T : forall f c md ir, ex_fs f = Some c -> compile c false = Ok md tt -> ir = ex_render md -> translates ex_env ex_s f ir).
  { intros f c md ir H1 H2 H3. exists c, md. auto. }
  split; [eapply T; [reflexivity|vm_compute; reflexivity|vm_compute; reflexivity]|].
  split; [eapply T; [reflexivity|vm_compute; reflexivity|vm_compute; reflexivity]|].
  split; [discriminate|vm_compute; reflexivity].
Qed.
Print Assumptions C57_own_output_refuted.

(** C51: the provisos are needed. Two inputs of the same name share a temporary,
    and a temporary may have the name given with -o; either way the IR of the
    first input is lost although --save-temps was given, with status 0. *)
Lemma dir_named c : c <> "/"%char -> named ([c; "/"%char] ++ $"g.b") ($"g") ($"b").
Proof. intros Hc. exists [c; "/"%char]. repeat split; cbn; try intuition discriminate. right. exists [c]. reflexivity. Qed.
Theorem C51_save_temps_refuted : exists E fl s s' t ir1 ir2,
  run E fl OutputObject s 0 s' /\ faultless E /\ f_save_temps fl = true /\ f_files fl = [$"d/g.b"; $"e/g.b"]
  /\ is_temp fl OutputObject 0 ($"d/g.b") t /\ translates E s ($"d/g.b") ir1 /\ translates E s ($"e/g.b") ir2 /\ ir1 <> ir2 /\ d_fs s' t = Some ir2.
Proof.
  set (fl := ex_flags false true false [] true [$"d/g.b"; $"e/g.b"]).
  exists ex6_env, fl, ex_s, (snd (main ex6_env fl ex_s)), ($"g.o.tmp.ll"), ($"IR:b.g"), ($"IR:b.h").
  split; [runs|]. split; [apply ex6_faultless|]. split; [reflexivity|]. split; [reflexivity|].
  split. { exists ($"g"). split; [apply (dir_named "d"%char); discriminate|]. exists ($"g.o"). split; [|reflexivity]. right. split; [reflexivity|]. exists ($"g"), ($"b"). split; [apply (dir_named "d"%char); discriminate|reflexivity]. }
  assert (T : forall f c md ir, ex_fs f = Some c -> compile c false = Ok md tt -> ir = ex_render md -> translates ex6_env ex_s f ir).
  { intros f c md ir H1 H2 H3. exists c, md. auto. }
  split; [eapply T; [reflexivity|vm_compute; reflexivity|vm_compute; reflexivity]|].
  split; [eapply T; [reflexivity|vm_compute; reflexivity|vm_compute; reflexivity]|].
  split; [discriminate|vm_compute; reflexivity].
Qed.
Print Assumptions C51_save_temps_refuted.
Theorem C51_output_refuted : exists E fl s s' t,
  run E fl OutputExecutable s 0 s' /\ faultless E /\ f_save_temps fl = true /\ f_files fl = [$"a.b"; $"d/g.b"]
  /\ is_temp fl OutputExecutable 0 ($"a.b") t /\ forall ir, translates E s ($"a.b") ir -> d_fs s' t <> Some ir.
Proof.
  set (fl := ex_flags false false false ($"a.tmp.0.ll") true [$"a.b"; $"d/g.b"]).
  exists ex6_env, fl, ex_s, (snd (main ex6_env fl ex_s)), ($"a.tmp.0.ll").
  split; [runs|]. split; [apply ex6_faultless|]. split; [reflexivity|]. split; [reflexivity|]. split.
  - assert (HN : named ($"a.b") ($"a") ($"b")) by (apply (named_plain ($"a") ($"b")); cbn; intuition discriminate).
    exists ($"a"). split; [exact HN|]. reflexivity.
  - intros ir (c & md & H1 & H2 & H3). injection H1 as <-. vm_compute in H2. injection H2 as <-. subst ir. vm_compute. discriminate.
Qed.
Print Assumptions C51_output_refuted.

(** C53: the same provisos are needed. A file that does not compile finds an
    output of its name made for another input; an executable that existed before
    and is named like a temporary is removed. *)
Theorem C53_no_output_on_error_refuted : exists E fl s s' o,
  run E fl OutputIR s 1 s' /\ faultless E /\ In ($"x/g.b") (f_files fl) /\ broken E s ($"x/g.b") /\ is_output fl OutputIR ($"x/g.b") o
  /\ d_fs s o = None /\ d_fs s' o <> None.
Proof.
  set (fl := ex_flags false false true [] false [$"d/g.b"; $"x/g.b"]). set (s := mkD (upd ex_fs ($"x/g.b") (Some ($"f(){"))) [] 0).
  exists ex6_env, fl, s, (snd (main ex6_env fl s)), ($"g.ll").
  split; [runs|]. split; [apply ex6_faultless|]. split; [cbn; auto|].
  split. { split; [exists ($"g"); apply (dir_named "x"%char); discriminate|]. intros ir (c & md & H1 & H2 & H3). vm_compute in H1. injection H1 as <-. vm_compute in H2. discriminate H2. }
  split. { right. split; [reflexivity|]. exists ($"g"), ($"b"). split; [apply (dir_named "x"%char); discriminate|reflexivity]. }
  vm_compute. split; congruence.
Qed.
Print Assumptions C53_no_output_on_error_refuted.
Theorem C53_executable_refuted : exists E fl s s' o,
  run E fl OutputExecutable s 1 s' /\ faultless E /\ In ($"bad.b") (f_files fl) /\ broken E s ($"bad.b") /\ is_output fl OutputExecutable ($"bad.b") o
  /\ d_fs s o = Some ($"mine") /\ d_fs s' o = None.
Proof.
  set (fl := ex_flags false false false ($"a.tmp.0.ll") false [$"a.b"; $"bad.b"]). set (s := mkD (upd ex_fs ($"a.tmp.0.ll") (Some ($"mine"))) [] 0).
  exists ex6_env, fl, s, (snd (main ex6_env fl s)), ($"a.tmp.0.ll").
  split; [runs|]. split; [apply ex6_faultless|]. split; [cbn; auto|].
  split. { split; [exists ($"bad"); apply (named_plain ($"bad") ($"b")); cbn; intuition discriminate|]. intros ir (c & md & H1 & H2 & H3). vm_compute in H1. injection H1 as <-. vm_compute in H2. discriminate H2. }
  split; [left; split; [discriminate|reflexivity]|]. vm_compute. split; reflexivity.
Qed.
Print Assumptions C53_executable_refuted.

(** * PropsTotal: termination (C08) and read failures (C09) *)
From Coq Require Import List Ascii String ZArith NArith Lia Bool.
From Verif Require Import Base Lexer IR Builder Expr Stmt Decl Wp Totality TotalityStmt FuelMono.
Import ListNotations.
Open Scope Z_scope.

(** The fuel given by the entry point suffices. *)
Lemma compile_from_fuel inp fl : compile_from inp fl <> Fuel.
Proof.
  unfold compile_from. intros E.
  pose proof (ParseDeclarations_total (enough inp) (mkSt (mkLexer inp fl) NewCompiler)) as T.
  unfold wp in T. rewrite E in T. apply T. cbn [lx l_in]. unfold enough. lia.
Qed.

(** C08: for every source text and every way reading it ends, compilation
    yields a module or an error. *)
Theorem C08_terminates (inp : list ascii) (failing : bool) :
  (exists m, compile inp failing = Ok m tt) \/ (exists e, compile inp failing = Err e).
Proof.
  unfold compile. pose proof (compile_from_fuel inp failing).
  destruct (compile_from inp failing); eauto. congruence.
Qed.

(** The recursion bound of the model does not cut anything off: allowing any
    deeper recursion gives the same outcome. *)
Theorem C08_bound_irrelevant (inp : list ascii) (failing : bool) (n : nat) :
  (enough inp <= n)%nat ->
  ParseDeclarations n (mkSt (mkLexer inp failing) NewCompiler) = compile_from inp failing.
Proof.
  intros L. apply (fuel_le ParseDeclarations); auto.
  - apply ParseDeclarations_mono.
  - apply compile_from_fuel.
Qed.

(** An accepted file has been read to its end. *)
Theorem C08_all_read (inp : list ascii) (failing : bool) s :
  compile_from inp failing = Ok tt s -> l_in (lx s) = [].
Proof.
  unfold compile_from. intros E.
  pose proof (ParseDeclarations_total (enough inp) (mkSt (mkLexer inp failing) NewCompiler)) as T.
  unfold wp in T. rewrite E in T. apply T. cbn [lx l_in]. unfold enough. lia.
Qed.

(** C09: if reading fails, after whatever prefix, the compilation fails. *)
Theorem C09_read_failure (prefix : list ascii) : exists e, compile prefix true = Err e.
Proof.
  destruct (C08_terminates prefix true) as [[m E]|H]; auto. exfalso.
  unfold compile in E. destruct (compile_from prefix true) as [[] s| |] eqn:EC; try discriminate.
  unfold compile_from in EC.
  pose proof (ParseDeclarations_total (enough prefix) (mkSt (mkLexer prefix true) NewCompiler)) as T.
  unfold wp in T. rewrite EC in T. cbn [lx l_in l_fail] in T.
  destruct T as [_ T]; [unfold enough; lia|discriminate].
Qed.

(** An accepted program, and the same bytes when reading then fails. *)
Example C08_ex :
  (exists m, compile_string "main() { extrn x; while (x) x =- 1; return (x ? x : 'ab'); }" = Ok m tt)
  /\ (exists e, compile_string "main() { auto x; if (x" = Err e).
Proof. split; eexists; vm_compute; reflexivity. Qed.

Example C09_ex :
  compile (list_ascii_of_string "main() { return (1); }") false <> Err IOErr
  /\ compile (list_ascii_of_string "main() { return (1); }") true = Err IOErr
  /\ compile (list_ascii_of_string "x 12; y") true = Err IOErr.
Proof. vm_compute. repeat split; discriminate. Qed.

Print Assumptions C08_terminates.
Print Assumptions C08_bound_irrelevant.
Print Assumptions C08_all_read.
Print Assumptions C09_read_failure.

(** * DriverOut: driver.go and main.go with what they print
    The functions of Driver.v once more, with every [fmt.Printf] and [Eprintf] and
    the exact texts of the errors. DriverOutFacts.v proves that both models do the
    same to files and processes. *)
From Coq Require Import List Ascii String ZArith Lia Bool.
From Verif Require Import Base Lexer IR Decl Driver Cmdline.
Import ListNotations.
Open Scope Z_scope.

(** What happens, in order: operations, text on the standard output, text on
    the standard error output. *)
Inductive item : Type :=
| TEv (e : event)
| TOut (t : path)
| TErr (t : path).

(** What the system says: the text of the error of an operation (numbered as
    in [env]), and the name under which [exec.Command] finds clang
    ([Cmd.String], used at driver.go:139,162,233,256,365: the path if there is one,
    otherwise "clang"). [t_usage] is what [usage] prints (main.go:12-37; the
    table of options comes from pflag), [t_wrong] what pflag says about a wrong
    command line. *)
Record texts := mkTexts {
  t_error : nat -> path;
  t_clang : path;
  t_usage : path;
  t_wrong : list path -> path
}.

Definition LF : ascii := "010"%char.
(** [strings.Join(l, " ")] as in [Cmd.String]. *)
Fixpoint join (l : list path) : path :=
  match l with
  | [] => []
  | [x] => x
  | x :: r => x ++ " "%char :: join r
  end.

(** A function of the driver: its value or the text of its error, the state, and
    what happened. *)
Definition V (A : Type) := dstate -> (A + path) * dstate * list item.
Definition vret {A} (a : A) : V A := fun s => (inl a, s, []).
Definition vfail {A} (e : path) : V A := fun s => (inr e, s, []).
Definition vbind {A B} (m : V A) (k : A -> V B) : V B := fun s =>
  match m s with
  | (inl a, s1, i1) => match k a s1 with (r, s2, i2) => (r, s2, i1 ++ i2) end
  | (inr e, s1, i1) => (inr e, s1, i1)
  end.
(** [if err := m; err != nil { h; return g(err) }] *)
Definition von_error {A} (m : V A) (h : path -> V unit) (g : path -> path) : V A := fun s =>
  match m s with
  | (inl a, s1, i1) => (inl a, s1, i1)
  | (inr e, s1, i1) => match h e s1 with (_, s2, i2) => (inr (g e), s2, i1 ++ i2) end
  end.
(** An operation of Driver.v; [tx] gives the text of its error. *)
Definition vop {A} (m : D A) (tx : string -> nat -> path) : V A := fun s =>
  match m s with
  | DOk a s' => (inl a, s', map TEv (skipn (List.length (d_log s)) (d_log s')))
  | DErr e s' => (inr (tx e (d_tick s)), s', map TEv (skipn (List.length (d_log s)) (d_log s')))
  end.
Declare Scope v_scope.
Delimit Scope v_scope with v.
Notation "x <- m ;; k" := (vbind m (fun x => k))
  (at level 61, m at next level, right associativity) : v_scope.
Notation "m ;; k" := (vbind m (fun _ => k)) (at level 61, right associativity) : v_scope.
Local Open Scope v_scope.

Section Out.
Variable E : env.
Variable T : texts.
(** [args.Verbose] (options.go:30); the copies [irArgs] have it, too. *)
Variable v : bool.

(** [fmt.Printf("blang: ...\n")] and [Eprintf("blang", ...)] (options.go:49-53, without the
    colours); [Arg0] is "blang" (main.go:150). *)
Definition vprint (t : path) : V unit := fun s => (inl tt, s, [TOut t]).
Definition line (t : path) : path := txt "blang: " ++ t ++ [LF].
Definition say (t : path) : V unit := if v then vprint (line t) else vret tt.
Definition vEprintf (t : path) : V unit := fun s => (inl tt, s, [TErr (txt "blang: error: " ++ t)]).

(** An operation of the system. *)
Definition sys {A} (m : D A) : V A := vop m (fun _ n => t_error T n).

(** The error of a read is that of the system; all others are those of the
    compiler (driver.go:50-52). *)
Definition v_parse_file (content : list ascii) : V module_ := fun s =>
  let s' := tick s (d_fs s) [] in
  match (match read_fault E (d_tick s) with
         | Some k => compile (firstn k content) true
         | None => compile content false
         end) with
  | Ok m _ => (inl m, s', [])
  | Err IOErr => (inr (t_error T (d_tick s)), s', [])
  | Err EOF => (inr (txt "EOF"), s', [])
  | Err (Msg e) => (inr (txt e), s', [])
  | Fuel => (inr (txt "compile"), s', [])
  end.

(** [compileSingleTo], driver.go:36-70. *)
Definition v_compileSingleTo (input out : path) : V unit :=
  say (txt "processing " ++ input) ;;
  content <- von_error (sys (os_open E input))
               (fun e => vEprintf (input ++ txt ": " ++ e ++ [LF] ++ txt "compilation terminated." ++ [LF])) (fun e => e) ;;
  m <- v_parse_file content ;;
  von_error (sys (os_create E out))
            (fun e => vEprintf (txt "cannot open file '" ++ out ++ txt "' " ++ e ++ txt ".")) (fun e => e) ;;
  sys (write_string E out (render E m)) ;;
  sys (close_file E) ;;
  say (txt "generated " ++ out).

(** [for _, x := range l { if err := f(x); err != nil { return err } }]. *)
Fixpoint veach {A} (f : A -> V unit) (l : list A) : V unit :=
  match l with
  | [] => vret tt
  | x :: r => f x ;; veach f r
  end.

(** [compileToIR], driver.go:34-96. *)
Definition v_compileToIR (a : CompileOptions) : V unit :=
  veach (fun f => if negb (HasSuffix f (txt ".b"))
                  then vfail (txt "input file '" ++ f ++ txt "' does not have .b extension") else vret tt) (InputFiles a) ;;
  if negb (path_eqb (OutputFile a) []) then
    match InputFiles a with
    | [f] => v_compileSingleTo f (OutputFile a)
    | _ => vfail (txt "multiple input files with -o for IR output are not allowed")
    end
  else
    veach (fun f => v_compileSingleTo f (out_name f (txt ".ll"))) (InputFiles a).

(** The line about a command, driver.go:138-140,161-163,232-234,255-257,364-366, and
    the run of it; [h] is done when it fails, with the text [what]. *)
Definition v_run_clang (args : list path) (out : path) (h : V unit) (what : path) : V unit :=
  say (txt "running " ++ join (t_clang T :: args)) ;;
  von_error (sys (run_clang E args out)) (fun _ => h) (fun e => txt "failed to generate " ++ what ++ txt ": " ++ e).

(** [os.Remove(tempIR)] unless --save-temps, driver.go:142-144,149-151,236-238,243-245. *)
Definition v_drop_temp (a : CompileOptions) (t : path) : V unit :=
  if SaveTemps a then vret tt else sys (os_remove E t).

(** [processOne] of compileToAssembly, driver.go:122-171. *)
Definition v_asmOne (a : CompileOptions) (input out : path) : V unit :=
  if HasSuffix input (txt ".b") then
    let tempIR := out ++ txt ".tmp.ll" in
    v_compileToIR (irArgs a input tempIR) ;;
    v_run_clang (asmArgs a tempIR out) out (v_drop_temp a tempIR) (txt "assembly") ;;
    v_drop_temp a tempIR ;;
    say (txt "generated " ++ out)
  else
    v_run_clang (asmArgs a input out) out (vret tt) (txt "assembly") ;;
    say (txt "generated " ++ out).

(** [compileToAssembly], driver.go:99-190. *)
Definition v_compileToAssembly (a : CompileOptions) : V unit :=
  veach (fun f => if negb (path_eqb (Ext f) (txt ".b")) && negb (path_eqb (Ext f) (txt ".ll"))
                  then vfail (txt "input file '" ++ f ++ txt "' must have .b or .ll extension") else vret tt) (InputFiles a) ;;
  if negb (path_eqb (OutputFile a) []) then
    match InputFiles a with
    | [f] => v_asmOne a f (OutputFile a)
    | _ => vfail (txt "-o requires exactly one input file")
    end
  else veach (fun f => v_asmOne a f (out_name f (txt ".s"))) (InputFiles a).

(** [processOne] of compileToObject, driver.go:216-265. *)
Definition v_objOne (a : CompileOptions) (input out : path) : V unit :=
  if HasSuffix input (txt ".b") then
    let tempIR := out ++ txt ".tmp.ll" in
    v_compileToIR (irArgs a input tempIR) ;;
    v_run_clang (objArgs a tempIR out) out (v_drop_temp a tempIR) (txt "object file") ;;
    v_drop_temp a tempIR ;;
    say (txt "generated " ++ out)
  else
    v_run_clang (objArgs a input out) out (vret tt) (txt "object file") ;;
    say (txt "generated " ++ out).

(** [compileToObject], driver.go:193-284. *)
Definition v_compileToObject (a : CompileOptions) : V unit :=
  veach (fun f => if negb (path_eqb (Ext f) (txt ".b")) && negb (path_eqb (Ext f) (txt ".ll"))
                     && negb (path_eqb (Ext f) (txt ".s"))
                  then vfail (txt "input file '" ++ f ++ txt "' must have .b, .ll or .s extension") else vret tt) (InputFiles a) ;;
  if negb (path_eqb (OutputFile a) []) then
    match InputFiles a with
    | [f] => v_objOne a f (OutputFile a)
    | _ => vfail (txt "-o requires exactly one input file")
    end
  else veach (fun f => v_objOne a f (out_name f (txt ".o"))) (InputFiles a).

(** [for _, t := range temps { os.Remove(t) }] unless --save-temps,
    driver.go:318-322,369-373,378-382. *)
Definition v_drop_temps (a : CompileOptions) (ts : list path) : V unit :=
  if SaveTemps a then vret tt else veach (fun t => sys (os_remove E t)) ts.

(** The loop over the inputs, driver.go:298-335. *)
Fixpoint v_exe_inputs (a : CompileOptions) (i : nat) (l temps ins : list path)
  : V (list path * list path) :=
  match l with
  | [] => vret (temps, ins)
  | f :: r =>
      let ext := Ext f in
      if path_eqb ext (txt ".b") then
        let tmp := temp_name a i f ext in
        von_error (v_compileToIR (irArgs a f tmp)) (fun _ => v_drop_temps a temps) (fun e => e) ;;
        v_exe_inputs a (S i) r (temps ++ [tmp]) (ins ++ [tmp])
      else if path_eqb ext (txt ".ll") || path_eqb ext (txt ".s")
              || path_eqb ext (txt ".o") || path_eqb ext (txt ".a") then
        v_exe_inputs a (S i) r temps (ins ++ [f])
      else vfail (txt "unsupported input file extension: " ++ f)
  end.

(** [compileToExecutable], driver.go:287-388. *)
Definition v_compileToExecutable (a0 : CompileOptions) : V unit :=
  let a := if path_eqb (OutputFile a0) [] then
             mkOpts (out_name (hd [] (InputFiles a0)) []) (InputFiles a0) (SaveTemps a0)
                    (OutType a0) (Optimize a0) (DebugInfo a0) (LibraryDirs a0) (Libraries a0)
           else a0 in
  p <- v_exe_inputs a 0 (InputFiles a) [] [] ;;
  let '(temps, ins) := p in
  v_run_clang (linkArgs E a ins) (OutputFile a) (v_drop_temps a temps) (txt "executable") ;;
  v_drop_temps a temps ;;
  say (txt "generated " ++ OutputFile a).

(** [Compile], driver.go:13-31. *)
Definition v_Compile (a : CompileOptions) : V unit :=
  say (txt "compiling " ++ txt (dec (Z.of_nat (List.length (InputFiles a)))) ++ txt " file(s)") ;;
  match OutType a with
  | OutputIR => v_compileToIR a
  | OutputAssembly => v_compileToAssembly a
  | OutputObject => v_compileToObject a
  | OutputExecutable => v_compileToExecutable a
  end.

(** The checks of main.go:136-147 with their messages. *)
Definition v_check_input (f : path) : V unit :=
  vop (check_input E f) (fun e n =>
    if String.eqb e "cannot access" then txt "cannot access file '" ++ f ++ txt "': " ++ t_error T n
    else txt "unsupported input file extension for '" ++ f ++ txt "'; allowed: .b, .ll, .s, .o, .a").

(** Exit status, state and output of [main] after an error has been reported
    (main.go:184-187). *)
Definition v_status (r : (unit + path) * dstate * list item) : Z * dstate * list item :=
  match r with
  | (inl _, s, i) => (0, s, i)
  | (inr e, s, i) => (1, s, i ++ [TErr (txt "blang: error: " ++ e ++ [LF])])
  end.

(** [main], main.go:39-188, after flag parsing. *)
Definition v_main (fl : flags) (s : dstate) : Z * dstate * list item :=
  if f_help fl then (0, s, [TErr (t_usage T)])
  else if f_version fl then
    (0, s, [TOut (txt "blang version 0.1" ++ [LF]); TOut (txt "Copyright (c) 2025 Serge Vakulenko" ++ [LF]);
            TOut (txt "Freely distributed under the MIT License." ++ [LF]); TOut (txt "There is NO warranty." ++ [LF])])
  else if f_no_args fl then
    (1, s, [TOut (txt "Usage: blang [options] file..." ++ [LF]); TOut (txt "Use '-h' to see all available options." ++ [LF])])
  else match f_files fl with
  | [] => (1, s, [TErr (txt "blang: error: " ++ txt "no input files" ++ [LF] ++ txt "compilation terminated." ++ [LF])])
  | _ =>
      match opt_level (f_optimize fl) with
      | None => (1, s, [TErr (txt "blang: error: " ++ txt "invalid optimization level: " ++ f_optimize fl ++ [LF])])
      | Some level =>
          v_status ((veach v_check_input (f_files fl) ;; v_Compile (options_of E fl level)) s)
      end
  end.
End Out.

(** The whole of [main] (Cmdline.v). After an error pflag prints it and calls
    [usage]. *)
Definition v_blang (csv : path -> option (list path)) (E : env) (T : texts) (argv : list path) (s : dstate) : Z * dstate * list item :=
  match parseArgs csv argv defaults [] with
  | Some (x, files) => v_main E T (v_verbose x) (flags_of argv x files) s
  | None => (0, s, [TErr (t_wrong T argv); TErr (t_usage T)])
  end.

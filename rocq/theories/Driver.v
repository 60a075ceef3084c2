(** * Driver: model of driver.go and main.go
    The compilation pipeline over an abstract file system, with an environment
    that decides which system calls fail and what clang does. *)
From Coq Require Import List Ascii String ZArith NArith Lia Bool.
From Verif Require Import Base IR Decl.
Import ListNotations.
Open Scope Z_scope.

(** Path names are byte sequences. Two different names are taken to be two
    different files: links, "." and ".." components are not modelled. *)
Definition path := list ascii.
Definition path_eqb (p q : path) : bool :=
  if list_eq_dec ascii_dec p q then true else false.

(** Text of a Coq string literal. *)
Definition txt (s : string) : path := list_ascii_of_string s.

(** A file system: the contents of each existing file. *)
Definition fsys := path -> option (list ascii).
Definition upd (f : fsys) (p : path) (c : option (list ascii)) : fsys :=
  fun q => if path_eqb q p then c else f q.

(** ** path/filepath and strings *)

(** [filepath.Ext] (used at driver.go:90,102,184,196,278,291,299, main.go:138): the suffix from the last dot
    of the last element; on the reversed path. Go library function. *)
Fixpoint ext_loop (rp acc : path) : path :=
  match rp with
  | [] => []
  | c :: r => if Ascii.eqb c "/" then []
              else if Ascii.eqb c "." then c :: acc
              else ext_loop r (c :: acc)
  end.
Definition Ext (p : path) : path := ext_loop (rev p) [].

(** [filepath.Base] (used at driver.go:89,183,277,290,308), on the reversed path: strip
    trailing slashes, keep what follows the last slash. Go library function. *)
Fixpoint strip_slashes (rp : path) : path :=
  match rp with
  | c :: r => if Ascii.eqb c "/" then strip_slashes r else rp
  | [] => []
  end.
Fixpoint until_slash (rp acc : path) : path :=
  match rp with
  | c :: r => if Ascii.eqb c "/" then acc else until_slash r (c :: acc)
  | [] => acc
  end.
Definition Base (p : path) : path :=
  match p with
  | [] => txt "."
  | _ => match until_slash (strip_slashes (rev p)) [] with
         | [] => txt "/"
         | b => b
         end
  end.

(** [strings.HasSuffix] and [strings.TrimSuffix] (used at driver.go:74,90,123,184,217,278,291,308).
    Go library functions. *)
Definition HasSuffix (s suf : path) : bool :=
  (List.length suf <=? List.length s)%nat
  && path_eqb (skipn (List.length s - List.length suf) s) suf.
Definition TrimSuffix (s suf : path) : path :=
  if HasSuffix s suf then firstn (List.length s - List.length suf) s else s.

(** ** The environment *)

(** What a run of clang does: on success it writes the file named by -o; on
    failure it may have changed that file as well. It touches no other file. *)
Inductive clang_result : Type :=
| ClangOk (out : list ascii)
| ClangFail (out : option (option (list ascii))).

(** Which operations fail, indexed by the number of operations done before;
    [read_fault] and [write_fault] give the number of bytes transferred before
    the failure. [clang] is given the arguments and the file system. [render]
    is the printer of the LLVM library ([Module.String], used at driver.go:60),
    which is not modelled. *)
Record env := mkEnv {
  stat_fault : nat -> bool;
  open_fault : nat -> bool;
  read_fault : nat -> option nat;
  create_fault : nat -> bool;
  write_fault : nat -> option nat;
  close_fault : nat -> bool;
  remove_fault : nat -> bool;
  clang : nat -> list path -> fsys -> clang_result;
  render : module_ -> list ascii;
  linux : bool;                       (* runtime.GOOS == "linux" *)
  is_dir : path -> bool;              (* os.Stat succeeds and IsDir *)
  home_lib : option path              (* $HOME/.local/lib if $HOME is set *)
}.

(** Operations on files and processes, in order. *)
Inductive event : Type :=
| EvOpen (p : path)            (* opened for reading *)
| EvCreate (p : path)          (* created or truncated *)
| EvRemove (p : path)
| EvClang (args : list path).

Record dstate := mkD { d_fs : fsys; d_log : list event; d_tick : nat }.

(** Result of a driver function: normal ([nil] error) or an error with its
    text, and the state reached in both cases. *)
Inductive dres (A : Type) : Type :=
| DOk (a : A) (s : dstate)
| DErr (msg : string) (s : dstate).
Arguments DOk {A} a s.
Arguments DErr {A} msg s.

Definition D (A : Type) := dstate -> dres A.
Definition dret {A} (a : A) : D A := fun s => DOk a s.
Definition dfail {A} (msg : string) : D A := fun s => DErr msg s.
Definition dbind {A B} (m : D A) (f : A -> D B) : D B :=
  fun s => match m s with DOk a s' => f a s' | DErr e s' => DErr e s' end.
(** [if err := m; err != nil { h; return err }]: [h] runs after a failure of [m]. *)
Definition on_error {A} (m : D A) (h : D unit) : D A :=
  fun s => match m s with
           | DOk a s' => DOk a s'
           | DErr e s' => match h s' with DOk _ s2 => DErr e s2 | DErr _ s2 => DErr e s2 end
           end.
Declare Scope d_scope.
Delimit Scope d_scope with d.
Notation "x <- m ;; k" := (dbind m (fun x => k))
  (at level 61, m at next level, right associativity) : d_scope.
Notation "m ;; k" := (dbind m (fun _ => k)) (at level 61, right associativity) : d_scope.
Local Open Scope d_scope.

(** Records an operation and advances the operation counter. *)
Definition tick (s : dstate) (f : fsys) (ev : list event) : dstate :=
  mkD f (d_log s ++ ev) (S (d_tick s)).

Section Driver.
Variable E : env.

(** [os.Open] (driver.go:40). *)
Definition os_open (p : path) : D (list ascii) := fun s =>
  match d_fs s p with
  | Some c => if open_fault E (d_tick s) then DErr "open" (tick s (d_fs s) [])
              else DOk c (tick s (d_fs s) [EvOpen p])
  | None => DErr "open" (tick s (d_fs s) [])
  end.

(** [err.Error()]; what the system says about a failed read is not modelled. *)
Definition err_text (e : goerr) : string := match e with Msg m => m | EOF => "EOF" | IOErr => "read" end.

(** NewCompiler, NewLexer and ParseDeclarations on an open file (driver.go:48-52);
    reading may fail after some bytes. *)
Definition parse_file (content : list ascii) : D module_ := fun s =>
  let s' := tick s (d_fs s) [] in
  match (match read_fault E (d_tick s) with
         | Some k => compile (firstn k content) true
         | None => compile content false
         end) with
  | Ok m _ => DOk m s'
  | Err e => DErr (err_text e) s'
  | Fuel => DErr "compile" s'
  end.

(** [os.Create] (driver.go:54). *)
Definition os_create (p : path) : D unit := fun s =>
  if create_fault E (d_tick s) then DErr "create" (tick s (d_fs s) [])
  else DOk tt (tick s (upd (d_fs s) p (Some [])) [EvCreate p]).

(** [outFile.WriteString] (driver.go:59) on a file just created. *)
Definition write_string (p : path) (text : list ascii) : D unit := fun s =>
  match write_fault E (d_tick s) with
  | Some k => DErr "write" (tick s (upd (d_fs s) p (Some (firstn k text))) [])
  | None => DOk tt (tick s (upd (d_fs s) p (Some text)) [])
  end.

(** [outFile.Close] (driver.go:63). *)
Definition close_file : D unit := fun s =>
  if close_fault E (d_tick s) then DErr "close" (tick s (d_fs s) [])
  else DOk tt (tick s (d_fs s) []).

(** [os.Remove] with its error ignored (driver.go:143,150,237,244,320,371,380). *)
Definition os_remove (p : path) : D unit := fun s =>
  match d_fs s p with
  | Some _ => if remove_fault E (d_tick s) then DOk tt (tick s (d_fs s) [])
              else DOk tt (tick s (upd (d_fs s) p None) [EvRemove p])
  | None => DOk tt (tick s (d_fs s) [])
  end.

(** [exec.Command("clang", args...).Run()] (driver.go:137-141,160-164,231-235,254-258,363-368);
    [out] is the argument of -o among [args]. *)
Definition run_clang (args : list path) (out : path) : D unit := fun s =>
  match clang E (d_tick s) args (d_fs s) with
  | ClangOk c => DOk tt (tick s (upd (d_fs s) out (Some c)) [EvClang args])
  | ClangFail None => DErr "clang" (tick s (d_fs s) [EvClang args])
  | ClangFail (Some c) => DErr "clang" (tick s (upd (d_fs s) out c) [EvClang args])
  end.

(** ** options.go *)

(** OutputType, options.go:13-18. *)
Inductive OutputType := OutputExecutable | OutputObject | OutputAssembly | OutputIR.

(** CompileOptions, options.go:21-34 (Arg0, WordSize, Verbose and GlobalPrefix
    are constants or only select messages; what is printed is in DriverOut.v). *)
Record CompileOptions := mkOpts {
  OutputFile : path;
  InputFiles : list path;
  SaveTemps : bool;
  OutType : OutputType;
  Optimize : Z;
  DebugInfo : bool;
  LibraryDirs : list path;
  Libraries : list path
}.

(** The copies [irArgs := *args] with three fields set (driver.go:127-130,221-224,
    312-315). *)
Definition irArgs (a : CompileOptions) (input out : path) : CompileOptions :=
  mkOpts out [input] (SaveTemps a) OutputIR (Optimize a) (DebugInfo a) (LibraryDirs a) (Libraries a).

(** ** driver.go *)

(** [compileSingleTo], driver.go:36-70. *)
Definition compileSingleTo (input out : path) : D unit :=
  content <- os_open input ;;
  m <- parse_file content ;;
  os_create out ;;
  write_string out (render E m) ;;
  close_file.

(** [for _, x := range l { if err := f(x); err != nil { return err } }]. *)
Fixpoint each {A} (f : A -> D unit) (l : list A) : D unit :=
  match l with
  | [] => dret tt
  | x :: r => f x ;; each f r
  end.

(** The name computed from an input and a suffix, driver.go:89-90,183-184,277-278,290-291. *)
Definition out_name (input suffix : path) : path :=
  let base := Base input in TrimSuffix base (Ext base) ++ suffix.

(** [compileToIR], driver.go:34-96. *)
Definition compileToIR (a : CompileOptions) : D unit :=
  each (fun f => if negb (HasSuffix f (txt ".b"))
                 then dfail "does not have .b extension" else dret tt) (InputFiles a) ;;
  if negb (path_eqb (OutputFile a) []) then
    match InputFiles a with
    | [f] => compileSingleTo f (OutputFile a)
    | _ => dfail "multiple input files with -o for IR output are not allowed"
    end
  else
    each (fun f => compileSingleTo f (out_name f (txt ".ll"))) (InputFiles a).

(** [fmt.Sprintf("-O%d", args.Optimize)] and "-g", driver.go:111-116,205-210,339-344. *)
Definition level_flags (a : CompileOptions) : list path :=
  (if 0 <? Optimize a then [txt ("-O" ++ dec (Optimize a))] else [])
  ++ (if DebugInfo a then [txt "-g"] else []).

(** [buildClangArgs] of compileToAssembly, driver.go:109-119. *)
Definition asmArgs (a : CompileOptions) (input out : path) : list path :=
  level_flags a ++ [txt "-S"; txt "-o"; out; input].

(** [os.Remove(tempIR)] unless --save-temps, driver.go:142-144,149-151,236-238,243-245. *)
Definition drop_temp (a : CompileOptions) (t : path) : D unit :=
  if SaveTemps a then dret tt else os_remove t.

(** [processOne] of compileToAssembly, driver.go:122-171. *)
Definition asmOne (a : CompileOptions) (input out : path) : D unit :=
  if HasSuffix input (txt ".b") then
    let tempIR := out ++ txt ".tmp.ll" in
    compileToIR (irArgs a input tempIR) ;;
    on_error (run_clang (asmArgs a tempIR out) out) (drop_temp a tempIR) ;;
    drop_temp a tempIR
  else run_clang (asmArgs a input out) out.

(** [compileToAssembly], driver.go:99-190. *)
Definition compileToAssembly (a : CompileOptions) : D unit :=
  each (fun f => if negb (path_eqb (Ext f) (txt ".b")) && negb (path_eqb (Ext f) (txt ".ll"))
                 then dfail "must have .b or .ll extension" else dret tt) (InputFiles a) ;;
  if negb (path_eqb (OutputFile a) []) then
    match InputFiles a with
    | [f] => asmOne a f (OutputFile a)
    | _ => dfail "-o requires exactly one input file"
    end
  else each (fun f => asmOne a f (out_name f (txt ".s"))) (InputFiles a).

(** [buildClangArgs] of compileToObject, driver.go:203-213. *)
Definition objArgs (a : CompileOptions) (input out : path) : list path :=
  level_flags a ++ [txt "-c"; txt "-o"; out; input].

(** [processOne] of compileToObject, driver.go:216-265. *)
Definition objOne (a : CompileOptions) (input out : path) : D unit :=
  if HasSuffix input (txt ".b") then
    let tempIR := out ++ txt ".tmp.ll" in
    compileToIR (irArgs a input tempIR) ;;
    on_error (run_clang (objArgs a tempIR out) out) (drop_temp a tempIR) ;;
    drop_temp a tempIR
  else run_clang (objArgs a input out) out.

(** [compileToObject], driver.go:193-284. *)
Definition compileToObject (a : CompileOptions) : D unit :=
  each (fun f => if negb (path_eqb (Ext f) (txt ".b")) && negb (path_eqb (Ext f) (txt ".ll"))
                    && negb (path_eqb (Ext f) (txt ".s"))
                 then dfail "must have .b, .ll or .s extension" else dret tt) (InputFiles a) ;;
  if negb (path_eqb (OutputFile a) []) then
    match InputFiles a with
    | [f] => objOne a f (OutputFile a)
    | _ => dfail "-o requires exactly one input file"
    end
  else each (fun f => objOne a f (out_name f (txt ".o"))) (InputFiles a).

(** [for _, t := range temps { os.Remove(t) }] unless --save-temps,
    driver.go:318-322,369-373,378-382. *)
Definition drop_temps (a : CompileOptions) (ts : list path) : D unit :=
  if SaveTemps a then dret tt else each os_remove ts.

(** Name of the temporary file of input number [i], driver.go:304-310. *)
Definition temp_name (a : CompileOptions) (i : nat) (input ext : path) : path :=
  if (List.length (InputFiles a) =? 1)%nat && negb (path_eqb (OutputFile a) [])
  then OutputFile a ++ txt ".tmp.ll"
  else TrimSuffix (Base input) ext ++ txt ".tmp." ++ txt (dec (Z.of_nat i)) ++ txt ".ll".

(** The loop over the inputs, driver.go:298-335; [i] is the index, [temps] and
    [ins] the two slices so far. *)
Fixpoint exe_inputs (a : CompileOptions) (i : nat) (l temps ins : list path)
  : D (list path * list path) :=
  match l with
  | [] => dret (temps, ins)
  | f :: r =>
      let ext := Ext f in
      if path_eqb ext (txt ".b") then
        let tmp := temp_name a i f ext in
        on_error (compileToIR (irArgs a f tmp)) (drop_temps a temps) ;;
        exe_inputs a (S i) r (temps ++ [tmp]) (ins ++ [tmp])
      else if path_eqb ext (txt ".ll") || path_eqb ext (txt ".s")
              || path_eqb ext (txt ".o") || path_eqb ext (txt ".a") then
        exe_inputs a (S i) r temps (ins ++ [f])
      else dfail "unsupported input file extension"
  end.

(** The link command, driver.go:338-361. *)
Definition linkArgs (a : CompileOptions) (ins : list path) : list path :=
  level_flags a ++ ins
  ++ (if linux E then [txt "-static"; txt "-nostdlib"] else [])
  ++ map (fun d => txt "-L" ++ d) (LibraryDirs a)
  ++ [txt "-lb"]
  ++ map (fun l => txt "-l" ++ l) (Libraries a)
  ++ [txt "-o"; OutputFile a].

(** [compileToExecutable], driver.go:287-388. Line 290 reads
    InputFiles[0]; main never passes an empty list (main.go:105). *)
Definition compileToExecutable (a0 : CompileOptions) : D unit :=
  let a := if path_eqb (OutputFile a0) [] then
             mkOpts (out_name (hd [] (InputFiles a0)) []) (InputFiles a0) (SaveTemps a0)
                    (OutType a0) (Optimize a0) (DebugInfo a0) (LibraryDirs a0) (Libraries a0)
           else a0 in
  p <- exe_inputs a 0 (InputFiles a) [] [] ;;
  let '(temps, ins) := p in
  on_error (run_clang (linkArgs a ins) (OutputFile a)) (drop_temps a temps) ;;
  drop_temps a temps.

(** [Compile], driver.go:13-31. *)
Definition Compile (a : CompileOptions) : D unit :=
  match OutType a with
  | OutputIR => compileToIR a
  | OutputAssembly => compileToAssembly a
  | OutputObject => compileToObject a
  | OutputExecutable => compileToExecutable a
  end.

(** ** main.go *)

(** The command line as pflag delivers it (Cmdline.v):
    main.go:40-82 and the positional arguments of main.go:96; [no_args] is
    [len(os.Args) == 1]. *)
Record flags := mkFlags {
  f_output : path;
  f_save_temps : bool;
  f_version : bool;
  f_help : bool;
  f_compile : bool;
  f_assemble : bool;
  f_emit_llvm : bool;
  f_optimize : path;
  f_debug : bool;
  f_library_dirs : list path;
  f_libraries : list path;
  f_files : list path;
  f_no_args : bool
}.

(** main.go:111-120. *)
Definition output_type (fl : flags) : OutputType :=
  if f_assemble fl then OutputAssembly
  else if f_compile fl then OutputObject
  else if f_emit_llvm fl then OutputIR
  else OutputExecutable.

(** main.go:123-133. *)
Definition opt_level (o : path) : option Z :=
  if path_eqb o (txt "0") then Some 0
  else if path_eqb o (txt "1") then Some 1
  else if path_eqb o (txt "2") then Some 2
  else if path_eqb o (txt "3") then Some 3
  else None.

(** The checks of main.go:136-147: extension and [os.Stat]. *)
Definition check_input (f : path) : D unit := fun s =>
  if path_eqb (Ext f) (txt ".b") || path_eqb (Ext f) (txt ".ll") || path_eqb (Ext f) (txt ".s")
     || path_eqb (Ext f) (txt ".o") || path_eqb (Ext f) (txt ".a") then
    match d_fs s f with
    | Some _ => if stat_fault E (d_tick s) then DErr "cannot access" (tick s (d_fs s) [])
                else DOk tt (tick s (d_fs s) [])
    | None => DErr "cannot access" (tick s (d_fs s) [])
    end
  else DErr "unsupported input file extension" s.

(** Library directories, main.go:157-175. *)
Definition default_dirs : list path :=
  (match home_lib E with Some p => if is_dir E p then [p] else [] | None => [] end)
  ++ filter (is_dir E) [txt "/opt/homebrew/lib"; txt "/opt/local/lib"; txt "/usr/local/lib"; txt "/usr/lib"].

(** NewCompileOptions and the assignments of main.go:150-155,175-181. *)
Definition options_of (fl : flags) (level : Z) : CompileOptions :=
  mkOpts (f_output fl) (f_files fl) (f_save_temps fl) (output_type fl) level (f_debug fl)
         (default_dirs ++ f_library_dirs fl) (f_libraries fl).

(** Exit status with the state reached. *)
Definition status (r : dres unit) : Z * dstate :=
  match r with DOk _ s => (0, s) | DErr _ s => (1, s) end.

(** [main], main.go:39-188, after flag parsing. *)
Definition main (fl : flags) (s : dstate) : Z * dstate :=
  if f_help fl then (0, s)
  else if f_version fl then (0, s)
  else if f_no_args fl then (1, s)
  else match f_files fl with
  | [] => (1, s)
  | _ =>
      match opt_level (f_optimize fl) with
      | None => (1, s)
      | Some level =>
          status ((each check_input (f_files fl) ;; Compile (options_of fl level)) s)
      end
  end.

End Driver.

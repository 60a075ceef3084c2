(** * Cmdline: the command line, from the words of argv to the flags of main
    The options main.go:60-79 defines and [pflag.Parse] (main.go:82). pflag
    (version 1.0.10, go.mod:9) is not part of /repo: the functions below follow
    its published algorithm and are cited by their names there. *)
From Coq Require Import List Ascii String ZArith Bool.
From Verif Require Import Base Driver.
Import ListNotations.
Local Open Scope list_scope.

(** The options, main.go:60-79. *)
Inductive opt : Type :=
| OOutput | OSaveTemps | OEmitLLVM | OCompile | OAssemble | OOptimize | ODebug
| OVerbose | OLibraryDir | OLibrary | OVersion | OHelp.

(** Their kinds: [BoolVar], [StringVar], [StringSliceVar]. *)
Inductive kind : Type := KBool | KString | KSlice.

(** The definitions of main.go:60-79: long name, shorthand, kind. *)
Definition formal : list (opt * path * option ascii * kind) :=
  [(OOutput, txt "output", Some "o"%char, KString);
   (OSaveTemps, txt "save-temps", None, KBool);
   (OEmitLLVM, txt "emit-llvm", None, KBool);
   (OCompile, txt "compile", Some "c"%char, KBool);
   (OAssemble, txt "assemble", Some "S"%char, KBool);
   (OOptimize, txt "optimize", Some "O"%char, KString);
   (ODebug, txt "debug", Some "g"%char, KBool);
   (OVerbose, txt "verbose", Some "v"%char, KBool);
   (OLibraryDir, txt "library-dir", Some "L"%char, KSlice);
   (OLibrary, txt "library", Some "l"%char, KSlice);
   (OVersion, txt "version", Some "V"%char, KBool);
   (OHelp, txt "help", Some "h"%char, KBool)].

(** [f.formal[name]] and [f.shorthands[c]]. *)
Definition find_long (name : path) : option (opt * kind) :=
  match find (fun d => path_eqb (snd (fst (fst d))) name) formal with
  | Some (o, _, _, k) => Some (o, k)
  | None => None
  end.
Definition find_short (c : ascii) : option (opt * kind) :=
  match find (fun d => match snd (fst d) with Some s => Ascii.eqb s c | None => false end) formal with
  | Some (o, _, _, k) => Some (o, k)
  | None => None
  end.

(** The variables of main.go:40-57 with their initial values (main.go:60-79). *)
Record vars := mkVars {
  v_output : path;
  v_save_temps : bool;
  v_emit_llvm : bool;
  v_compile : bool;
  v_assemble : bool;
  v_optimize : path;
  v_debug : bool;
  v_verbose : bool;
  v_library_dirs : list path;
  v_libraries : list path;
  v_version : bool;
  v_help : bool
}.
Definition defaults : vars :=
  mkVars [] false false false false (txt "0") false false [] [] false false.

(** [strconv.ParseBool], Go library. *)
Definition ParseBool (v : path) : option bool :=
  if existsb (path_eqb v) [txt "1"; txt "t"; txt "T"; txt "TRUE"; txt "true"; txt "True"] then Some true
  else if existsb (path_eqb v) [txt "0"; txt "f"; txt "F"; txt "FALSE"; txt "false"; txt "False"] then Some false
  else None.

(** [strings.Split(v, ",")] on a value without quotes and line ends. *)
Fixpoint split_commas (v acc : path) : list path :=
  match v with
  | [] => [rev acc]
  | c :: r => if Ascii.eqb c "," then rev acc :: split_commas r [] else split_commas r (c :: acc)
  end.
(** [readAsCSV] of pflag: a value without a quotation mark or line end is split
    at the commas; what encoding/csv makes of the others ([None]: an error) is
    left open. *)
Definition csv_plain (v : path) : bool :=
  forallb (fun c => negb (Ascii.eqb c DQUOTE || Ascii.eqb c "010" || Ascii.eqb c "013")) v.
Definition readAsCSV (csv : path -> option (list path)) (v : path) : option (list path) :=
  match v with
  | [] => Some []
  | _ => if csv_plain v then Some (split_commas v []) else csv v
  end.

Section Parse.
Variable csv : path -> option (list path).

(** [FlagSet.Set]: [Value.Set] of the kinds. *)
Definition set (o : opt) (v : path) (x : vars) : option vars :=
  match o with
  | OOutput => Some (mkVars v (v_save_temps x) (v_emit_llvm x) (v_compile x) (v_assemble x) (v_optimize x) (v_debug x) (v_verbose x) (v_library_dirs x) (v_libraries x) (v_version x) (v_help x))
  | OOptimize => Some (mkVars (v_output x) (v_save_temps x) (v_emit_llvm x) (v_compile x) (v_assemble x) v (v_debug x) (v_verbose x) (v_library_dirs x) (v_libraries x) (v_version x) (v_help x))
  | OLibraryDir =>
      match readAsCSV csv v with
      | Some l => Some (mkVars (v_output x) (v_save_temps x) (v_emit_llvm x) (v_compile x) (v_assemble x) (v_optimize x) (v_debug x) (v_verbose x) (v_library_dirs x ++ l) (v_libraries x) (v_version x) (v_help x))
      | None => None
      end
  | OLibrary =>
      match readAsCSV csv v with
      | Some l => Some (mkVars (v_output x) (v_save_temps x) (v_emit_llvm x) (v_compile x) (v_assemble x) (v_optimize x) (v_debug x) (v_verbose x) (v_library_dirs x) (v_libraries x ++ l) (v_version x) (v_help x))
      | None => None
      end
  | _ =>
      match ParseBool v with
      | None => None
      | Some b =>
          Some (match o with
          | OSaveTemps => mkVars (v_output x) b (v_emit_llvm x) (v_compile x) (v_assemble x) (v_optimize x) (v_debug x) (v_verbose x) (v_library_dirs x) (v_libraries x) (v_version x) (v_help x)
          | OEmitLLVM => mkVars (v_output x) (v_save_temps x) b (v_compile x) (v_assemble x) (v_optimize x) (v_debug x) (v_verbose x) (v_library_dirs x) (v_libraries x) (v_version x) (v_help x)
          | OCompile => mkVars (v_output x) (v_save_temps x) (v_emit_llvm x) b (v_assemble x) (v_optimize x) (v_debug x) (v_verbose x) (v_library_dirs x) (v_libraries x) (v_version x) (v_help x)
          | OAssemble => mkVars (v_output x) (v_save_temps x) (v_emit_llvm x) (v_compile x) b (v_optimize x) (v_debug x) (v_verbose x) (v_library_dirs x) (v_libraries x) (v_version x) (v_help x)
          | ODebug => mkVars (v_output x) (v_save_temps x) (v_emit_llvm x) (v_compile x) (v_assemble x) (v_optimize x) b (v_verbose x) (v_library_dirs x) (v_libraries x) (v_version x) (v_help x)
          | OVerbose => mkVars (v_output x) (v_save_temps x) (v_emit_llvm x) (v_compile x) (v_assemble x) (v_optimize x) (v_debug x) b (v_library_dirs x) (v_libraries x) (v_version x) (v_help x)
          | OVersion => mkVars (v_output x) (v_save_temps x) (v_emit_llvm x) (v_compile x) (v_assemble x) (v_optimize x) (v_debug x) (v_verbose x) (v_library_dirs x) (v_libraries x) b (v_help x)
          | _ => mkVars (v_output x) (v_save_temps x) (v_emit_llvm x) (v_compile x) (v_assemble x) (v_optimize x) (v_debug x) (v_verbose x) (v_library_dirs x) (v_libraries x) (v_version x) b
          end)
      end
  end.

(** [strings.SplitN(name, "=", 2)]: what precedes the first '=' and, if there is
    one, what follows it. *)
Fixpoint split_eq (s acc : path) : path * option path :=
  match s with
  | [] => (rev acc, None)
  | c :: r => if Ascii.eqb c "=" then (rev acc, Some r) else split_eq r (c :: acc)
  end.

(** Result of one option word: the variables and whether the next word was
    taken as the value; [None]: an error, after which [FlagSet.fail] calls
    [pflag.Usage]. *)
Definition step := option (vars * bool).
Definition just (used : bool) (r : option vars) : step :=
  match r with Some x => Some (x, used) | None => None end.

(** [FlagSet.parseLongArg]: [name] follows "--", [next] is the next word. *)
Definition parseLongArg (name : path) (next : option path) (x : vars) : step :=
  match name with
  | [] => None
  | c :: _ =>
      if Ascii.eqb c "-" || Ascii.eqb c "=" then None
      else
        let (key, val) := split_eq name [] in
        match find_long key with
        | None => None
        | Some (o, k) =>
            match val, k, next with
            | Some v, _, _ => just false (set o v x)
            | None, KBool, _ => just false (set o (txt "true") x)
            | None, _, Some v => just true (set o v x)
            | None, _, None => None
            end
        end
  end.

(** [strings.HasPrefix] (isGotestShorthandFlag of pflag). *)
Fixpoint has_prefix (p s : path) : bool :=
  match p, s with
  | [], _ => true
  | a :: p', b :: s' => Ascii.eqb a b && has_prefix p' s'
  | _, _ => false
  end.

(** [FlagSet.parseShortArg] with [parseSingleShortArg]: [s] is what is left of
    the word after its '-'. *)
Fixpoint parseShortArg (s : path) (next : option path) (x : vars) : step :=
  match s with
  | [] => Some (x, false)
  | c :: r =>
      if has_prefix (txt "test.") s then Some (x, false)
      else
        match find_short c with
        | None => None
        | Some (o, k) =>
            match r, k with
            | "="%char :: (_ :: _) as v, _ => just false (set o (tl r) x)
            | _, KBool =>
                match set o (txt "true") x with
                | Some x' => parseShortArg r next x'
                | None => None
                end
            | _ :: _, _ => just false (set o r x)
            | [], _ => match next with Some v => just true (set o v x) | None => None end
            end
        end
  end.

(** [FlagSet.parseArgs]: variables and positional arguments. *)
Fixpoint parseArgs (args : list path) (x : vars) (files : list path) : option (vars * list path) :=
  match args with
  | [] => Some (x, files)
  | s :: r =>
      let continue (st : step) :=
        match st with
        | None => None
        | Some (x', false) => parseArgs r x' files
        | Some (x', true) => match r with _ :: r' => parseArgs r' x' files | [] => None end
        end in
      match s with
      | "-"%char :: c :: s' =>
          if Ascii.eqb c "-" then
            match s' with
            | [] => Some (x, files ++ r)
            | _ => continue (parseLongArg s' (hd_error r) x)
            end
          else continue (parseShortArg (c :: s') (hd_error r) x)
      | _ => parseArgs r x (files ++ [s])
      end
  end.

(** The flags [main] works with (main.go:40-96); [argv] is [os.Args[1:]]. *)
Definition flags_of (argv : list path) (x : vars) (files : list path) : flags :=
  mkFlags (v_output x) (v_save_temps x) (v_version x) (v_help x) (v_compile x) (v_assemble x)
          (v_emit_llvm x) (v_optimize x) (v_debug x) (v_library_dirs x) (v_libraries x) files
          (match argv with [] => true | _ => false end).
Definition command_line (argv : list path) : option flags :=
  match parseArgs argv defaults [] with
  | Some (x, files) => Some (flags_of argv x files)
  | None => None
  end.
End Parse.

(** The whole of [main], main.go:39-188. After an error pflag prints it and calls
    [pflag.Usage], which main.go:81 sets to [usage]; that ends the process with
    status 0 (main.go:36). *)
Definition blang (csv : path -> option (list path)) (E : env) (argv : list path) (s : dstate) : Z * dstate :=
  match command_line csv argv with
  | Some fl => main E fl s
  | None => (0%Z, s)
  end.

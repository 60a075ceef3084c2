(** * SpecCmd: command lines as documented (doc/CLI.md, README.md), independently
    of how they are read *)
From Coq Require Import List Ascii String ZArith Bool.
From Verif Require Import Base Driver Cmdline.
Import ListNotations.
Local Open Scope list_scope.

(** Options that stand alone, and options with a value. *)
Definition is_switch (o : opt) : Prop :=
  match o with OOutput | OOptimize | OLibraryDir | OLibrary => False | _ => True end.

(** The long names and the letters (README.md:80-112). *)
Definition long_name (o : opt) : path :=
  txt match o with
  | OOutput => "output" | OSaveTemps => "save-temps" | OEmitLLVM => "emit-llvm"
  | OCompile => "compile" | OAssemble => "assemble" | OOptimize => "optimize"
  | ODebug => "debug" | OVerbose => "verbose" | OLibraryDir => "library-dir"
  | OLibrary => "library" | OVersion => "version" | OHelp => "help"
  end.
Definition letter (o : opt) (c : ascii) : Prop :=
  match o with
  | OOutput => c = "o"%char | OCompile => c = "c"%char | OAssemble => c = "S"%char
  | OOptimize => c = "O"%char | ODebug => c = "g"%char | OVerbose => c = "v"%char
  | OLibraryDir => c = "L"%char | OLibrary => c = "l"%char | OVersion => c = "V"%char
  | OHelp => c = "h"%char | OSaveTemps | OEmitLLVM => False
  end.

(** A setting: an option with its value. *)
Definition setting := (opt * path)%type.

(** A word that starts with '=' and goes on is the value after '='. *)
Definition eq_value (s : path) : Prop := exists v, v <> [] /\ s = "="%char :: v.

(** [cluster s next ss]: the letters [s] after a '-' (and the next word, if they
    take one) mean the settings [ss]: any number of switches, then possibly one
    option with a value. pflag skips what starts with "test.". *)
Inductive cluster : path -> option path -> list setting -> Prop :=
| cl_end : cluster [] None []
| cl_test s : cluster (txt "test." ++ s) None []
| cl_switch o c s n ss : is_switch o -> letter o c -> ~ eq_value s ->
    cluster s n ss -> cluster (c :: s) n ((o, txt "true") :: ss)
| cl_equals o c v : letter o c -> v <> [] -> cluster (c :: "="%char :: v) None [(o, v)]
| cl_joined o c v : ~ is_switch o -> letter o c -> v <> [] -> ~ eq_value v ->
    cluster (c :: v) None [(o, v)]
| cl_next o c v : ~ is_switch o -> letter o c -> cluster [c] (Some v) [(o, v)].

Definition opt_list {A} (o : option A) : list A := match o with Some a => [a] | None => [] end.

(** [item ws ss fs]: the words [ws] are one file or one option word with its value. *)
Inductive item : list path -> list setting -> list path -> Prop :=
| it_file f : (forall c s, f <> "-"%char :: c :: s) -> item [f] [] [f]
| it_long_equals o v : item [txt "--" ++ long_name o ++ "="%char :: v] [(o, v)] []
| it_long_switch o : is_switch o -> item [txt "--" ++ long_name o] [(o, txt "true")] []
| it_long_next o v : ~ is_switch o -> item [txt "--" ++ long_name o; v] [(o, v)] []
| it_short c s n ss : c <> "-"%char -> cluster (c :: s) n ss ->
    item (("-"%char :: c :: s) :: opt_list n) ss [].

(** [line argv ss fs]: the command line [argv] has the settings [ss] and the files
    [fs], both in order; after "--" everything is a file. *)
Inductive line : list path -> list setting -> list path -> Prop :=
| ln_nil : line [] [] []
| ln_dashes r : line (txt "--" :: r) [] r
| ln_item ws ss fs a ss' fs' : item ws ss fs -> line a ss' fs' ->
    line (ws ++ a) (ss ++ ss') (fs ++ fs').

(** The values given to [o], in order; the last one counts. *)
Definition values (o : opt) (ss : list setting) : list path :=
  flat_map (fun s => if (match o, fst s with
     | OOutput, OOutput | OSaveTemps, OSaveTemps | OEmitLLVM, OEmitLLVM | OCompile, OCompile
     | OAssemble, OAssemble | OOptimize, OOptimize | ODebug, ODebug | OVerbose, OVerbose
     | OLibraryDir, OLibraryDir | OLibrary, OLibrary | OVersion, OVersion | OHelp, OHelp => true
     | _, _ => false end) then [snd s] else []) ss.
Definition final (o : opt) (default : path) (ss : list setting) : path := last (values o ss) default.

(** The words for true and false. *)
Definition true_words : list path := [txt "1"; txt "t"; txt "T"; txt "TRUE"; txt "true"; txt "True"].
Definition false_words : list path := [txt "0"; txt "f"; txt "F"; txt "FALSE"; txt "false"; txt "False"].
Definition on (o : opt) (ss : list setting) (b : bool) : Prop :=
  In (final o (txt "false") ss) (if b then true_words else false_words).

(** The members of the list value [v]: separated by commas; values with quotation
    marks or line ends as the CSV reader [csv] takes them. *)
Fixpoint join (l : list path) : path :=
  match l with [] => [] | [x] => x | x :: r => x ++ ","%char :: join r end.
Definition special (v : path) : Prop := exists c, In c v /\ In c [DQUOTE; "010"; "013"]%char.
Definition members (csv : path -> option (list path)) (v : path) (l : list path) : Prop :=
  (v = [] /\ l = [])
  \/ (v <> [] /\ ~ special v /\ l <> [] /\ v = join l /\ Forall (fun x => ~ In ","%char x) l)
  \/ (special v /\ csv v = Some l).
(** The list an option collects over all its values. *)
Definition collected (csv : path -> option (list path)) (o : opt) (ss : list setting) (l : list path) : Prop :=
  exists ls, Forall2 (members csv) (values o ss) ls /\ l = List.concat ls.

(** Switches are given the words for true and false. *)
Definition proper (ss : list setting) : Prop :=
  forall o v, In (o, v) ss -> is_switch o -> In v (true_words ++ false_words).

(** What a command line with the settings [ss] and the files [fs] asks for. *)
Definition asks (csv : path -> option (list path)) (argv : list path) (ss : list setting) (fs : list path) (fl : flags) : Prop :=
  f_output fl = final OOutput [] ss
  /\ f_optimize fl = final OOptimize (txt "0") ss
  /\ on OSaveTemps ss (f_save_temps fl) /\ on OEmitLLVM ss (f_emit_llvm fl)
  /\ on OCompile ss (f_compile fl) /\ on OAssemble ss (f_assemble fl)
  /\ on ODebug ss (f_debug fl) /\ on OVersion ss (f_version fl) /\ on OHelp ss (f_help fl)
  /\ collected csv OLibraryDir ss (f_library_dirs fl) /\ collected csv OLibrary ss (f_libraries fl)
  /\ f_files fl = fs /\ (f_no_args fl = true <-> argv = []).

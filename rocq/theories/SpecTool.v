(** * SpecTool: what is asked of clang and of executable files
    The driver ends with a clang command (driver.go:338-376). Neither clang nor the
    system that runs the executable is in the repository; this file says when
    they do their work. *)
From Coq Require Import List Ascii String ZArith Bool.
From Verif Require Import Base IR Builder Driver SpecSem IRSem Process PropsProc PropsEnd PropsGlobal Ld Files.
Import ListNotations.
Open Scope Z_scope.

(** Executable files: [finishes exe o code o'], the process started in [o] ends with
    the status [code] in [o']; [hangs exe o], it never ends. *)
Record behaviour := mkBehaviour {
  finishes : list ascii -> os -> Z -> os -> Prop;
  hangs : list ascii -> os -> Prop
}.

(** The executable file [exe] is the code of the modules [Ms] linked with the
    library: it does what the code does on the machine [I] from the memory [m], if
    that is defined. *)
Record executes (B : behaviour) (K : platform) (exe : list ascii) (Ms : list module_) (I : ihost os) (m : memory) : Prop := {
  (* one meaning for each symbol of a module *)
  ex_symbols : Forall (fun M => NoDup (map g_name (m_globals M) ++ map f_name (m_funcs M))) Ms;
  (* the objects could be linked; [b.fout] of the library is 0 *)
  ex_linked : exists objs all, Forall2 object_of Ms objs /\ link objs libb = Linked all /\
    (In "b.fout"%string (defs_of all) -> ~ In "b.fout"%string (defs_of objs) -> load m (i_sym I "b.fout") = Some 0);
  (* functions are found at their addresses *)
  ex_found : forall f x, In f (m_funcs (joined Ms)) -> f_name f = globalName x -> i_fun I (i_sym I (f_name f)) = Some (f_name f);
  ex_library : with_library K I;
  ex_low : low I;
  ex_loaded : loaded I (joined Ms) m;
  ex_ends : forall o code o', process_ends I (joined Ms) m o code o' ->
    forall code2 o2, finishes B exe o code2 o2 <-> code2 = code /\ o2 = o';
  ex_hangs : forall o, runs_forever I (joined Ms) "main" [] m o -> hangs B exe o /\ forall code o', ~ finishes B exe o code o'
}.

(** A word clang does not take for an option. *)
Definition plain (f : path) : Prop := forall r, f <> "-"%char :: r.
(** Clang is right: if it links files with the texts of modules, the executable
    is their code. *)
Definition toolchain (E : Driver.env) (B : behaviour) (K : platform) : Prop :=
  forall t opts ins dirs o fx exe Ms,
    Forall (fun w => ~ plain w) opts -> Forall (fun f => plain f /\ exists q, f = q ++ txt ".ll") ins ->
    Forall2 (fun f M => fx f = Some (render E M)) ins Ms ->
    clang E t (opts ++ ins ++ [txt "-static"; txt "-nostdlib"] ++ map (fun d => txt "-L" ++ d) dirs ++ [txt "-lb"; txt "-o"; o]) fx = ClangOk exe ->
    exists I m, executes B K exe Ms I m.

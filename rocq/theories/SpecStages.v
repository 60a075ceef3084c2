(** * SpecStages: programs made by several commands
    The driver also stops before linking (-S, -c, --emit-llvm) and takes .ll, .s and
    .o files as inputs (driver.go:34-285, 287-385). This file says when clang does
    these steps right and what a sequence of commands makes. *)
From Coq Require Import List Ascii String ZArith Bool.
From Verif Require Import Base IR Builder Decl Syntax SpecTree SpecAccept Driver SpecDriver Cmdline SpecSem IRSem Process PropsExpr PropsAccept SpecTool.
Import ListNotations.
Open Scope Z_scope.

(** What the run leaves in each mode: the extension of its default output. *)
Definition stage (m : OutputType) : path := txt (match m with OutputIR => "ll" | OutputAssembly => "s" | OutputObject => "o" | OutputExecutable => "" end).

(** Clang is right at every step. [rep e c M]: the contents [c] of a file with the
    extension [e] are the module [M] at this stage. *)
Record stages (E : Driver.env) (B : behaviour) (K : platform) (rep : path -> list ascii -> module_ -> Prop) : Prop := {
  (* the text of a module *)
  sg_text : forall M, rep (txt "ll") (render E M) M;
  (* -S and -c *)
  sg_step : forall flag e e', In (flag, e, e') [(txt "-S", txt "ll", txt "s"); (txt "-c", txt "ll", txt "o"); (txt "-c", txt "s", txt "o")] ->
    forall t opts o y fx out M c, Forall (fun w => ~ plain w) opts -> plain y -> (exists q, y = q ++ "."%char :: e) -> fx y = Some c -> rep e c M ->
      clang E t (opts ++ [flag; txt "-o"; o; y]) fx = ClangOk out -> rep e' out M;
  (* linking *)
  sg_link : forall t opts ins dirs o fx exe Ms, Forall (fun w => ~ plain w) opts ->
    Forall2 (fun y M => plain y /\ exists e c, In e [txt "ll"; txt "s"; txt "o"] /\ (exists q, y = q ++ "."%char :: e) /\ fx y = Some c /\ rep e c M) ins Ms ->
    clang E t (opts ++ ins ++ [txt "-static"; txt "-nostdlib"] ++ map (fun d => txt "-L" ++ d) dirs ++ [txt "-lb"; txt "-o"; o]) fx = ClangOk exe ->
    exists I m, executes B K exe Ms I m
}.

(** The file [p] has the code of the tree [ds], as a source or at a later stage. *)
Definition carries (rep : path -> list ascii -> module_ -> Prop) (fs : fsys) (p : path) (ds : list decl) : Prop :=
  exists st e c, named p st e /\ fs p = Some c /\
    (e = txt "b" /\ tree_of c ds \/ In e [txt "ll"; txt "s"; txt "o"] /\ exists M, PropsExpr.module_of ds M /\ rep e c M).

(** Nothing the run writes has the name [p]. *)
Definition unwritten (fl : flags) (m : OutputType) (p : path) : Prop :=
  (forall f, In f (f_files fl) -> ~ is_output fl m f p) /\ (forall i f, nth_error (f_files fl) i = Some f -> ~ is_temp fl m i f p).
(** Names that do not get in each other's way: no file given to clang looks like
    an option, and nothing is written over an input that clang has to read. *)
Definition clean (fl : flags) (m : OutputType) : Prop :=
  (forall i f y, nth_error (f_files fl) i = Some f -> clang_input fl m i f y -> plain y) /\
  (forall f, In f (f_files fl) -> (forall st, ~ named f st (txt "b")) -> unwritten fl m f).

(** One command without linking that ends with status 0. [k] and [k'] name files with
    the trees whose code they have: after the command a file is the output for
    an input of [k], or it was there before. *)
Definition step csv (E : Driver.env) (argv : list path) (s : dstate) (k : list (path * list decl)) (s' : dstate) (k' : list (path * list decl)) : Prop :=
  exists fl m, command_line csv argv = Some fl /\ compiling fl /\ mode_is fl m /\ m <> OutputExecutable /\ separate fl m /\ clean fl m /\
    blang csv E argv s = (0, s') /\
    forall p ds, In (p, ds) k' -> In (p, ds) k /\ unwritten fl m p
      \/ exists f st, In f (f_files fl) /\ In (f, ds) k /\ is_output fl m f p /\ named p st (stage m).
Inductive session csv E : dstate -> list (path * list decl) -> dstate -> list (path * list decl) -> Prop :=
  | session_start s k : session csv E s k s k
  | session_step s k s1 k1 s2 k2 argv : session csv E s k s1 k1 -> step csv E argv s1 k1 s2 k2 -> session csv E s k s2 k2.

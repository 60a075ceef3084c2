(** * SpecOut: what blang prints, as documented *)
From Coq Require Import List Ascii String ZArith Lia Bool.
From Verif Require Import Base Lexer IR Decl Driver SpecDriver DriverOut.
Import ListNotations.
Open Scope Z_scope.

(** The streams of a run. *)
Fixpoint outs (l : list item) : list path :=
  match l with [] => [] | TOut t :: r => t :: outs r | _ :: r => outs r end.
Fixpoint errs_of (l : list item) : list path :=
  match l with [] => [] | TErr t :: r => t :: errs_of r | _ :: r => errs_of r end.
Fixpoint events (l : list item) : list event :=
  match l with [] => [] | TEv e :: r => e :: events r | _ :: r => events r end.
(** Everything but the standard output. *)
Fixpoint no_out (l : list item) : list item :=
  match l with [] => [] | TOut _ :: r => no_out r | x :: r => x :: no_out r end.

(** A line ends with the character 10. *)
Definition EOL : ascii := ascii_of_N 10.

(** ** -v (doc/CLI.md, "Verbose Output") *)
Definition says (t : path) : path := txt "blang: " ++ t ++ [EOL].
Definition processing (f : path) : path := says (txt "processing " ++ f).
Definition generated (o : path) : path := says (txt "generated " ++ o).
Fixpoint words (l : list path) : path :=
  match l with [] => [] | x :: r => " "%char :: x ++ words r end.
Definition running (T : texts) (x : list path) : path := says (txt "running " ++ t_clang T ++ words x).

Section Narration.
Variable E : env.
Variable T : texts.
Variable fl : flags.
Variable m : OutputType.

Definition a_b_file (f : path) : Prop := exists st, named f st (txt "b").
(** The lines about input [f], number [i]. *)
Definition about (i : nat) (f : path) (ls : list path) : Prop :=
  match m with
  | OutputIR => exists o, is_output fl m f o /\ ls = [processing f; generated o]
  | OutputExecutable =>
      (a_b_file f /\ exists t, is_temp fl m i f t /\ ls = [processing f; generated t]) \/ (~ a_b_file f /\ ls = [])
  | _ => exists o y,
      is_output fl m f o /\ clang_input fl m i f y /\
      let x := lead fl ++ [txt (match m with OutputAssembly => "-S" | _ => "-c" end); txt "-o"; o; y] in
      (a_b_file f /\ ls = [processing f; generated y; running T x; generated o] \/
       ~ a_b_file f /\ ls = [running T x; generated o])
  end.
(** The lines after all inputs: the link command and its output. *)
Definition at_end (ls : list path) : Prop :=
  match m with
  | OutputExecutable => exists x o, clang_command E fl m x /\ is_output fl m [] o /\ ls = [running T x; generated o]
  | _ => ls = []
  end.
Inductive about_all : nat -> list path -> list path -> Prop :=
| aa_nil i : about_all i [] []
| aa_cons i f r ls rs : about i f ls -> about_all (S i) r rs -> about_all i (f :: r) (ls ++ rs).
(** Everything -v prints when all goes well. *)
Definition narration (ls : list path) : Prop :=
  exists l1 l2, about_all 0 (f_files fl) l1 /\ at_end l2 /\
  ls = says (txt "compiling " ++ txt (dec (Z.of_nat (List.length (f_files fl)))) ++ txt " file(s)") :: l1 ++ l2.
End Narration.

(** Every command is announced immediately before it is run, and only then. *)
Definition announced (T : texts) (l : list item) : Prop :=
  (forall a x b, l = a ++ TEv (EvClang x) :: b -> exists a', a = a' ++ [TOut (running T x)]) /\
  (forall a x b, l = a ++ TOut (running T x) :: b -> exists x' b', running T x' = running T x /\ b = TEv (EvClang x') :: b').

(** ** Errors (doc/CLI.md, "Error Handling") *)
Definition complains (e : path) : path := txt "blang: error: " ++ e.
(** What the mode says about a file it does not take. *)
Definition mode_text (m : OutputType) : path :=
  txt (match m with
       | OutputIR => "does not have .b extension"
       | OutputAssembly => "must have .b or .ll extension"
       | _ => "must have .b, .ll or .s extension"
       end).
Definition product (m : OutputType) : path :=
  txt (match m with OutputAssembly => "assembly" | OutputObject => "object file" | _ => "executable" end).
(** What is said about an error of the compiler. *)
Definition verdict (e : goerr) (t : path) : Prop :=
  match e with Msg x => t = txt x | EOF => t = txt "EOF" | IOErr => False end.
Section Complaints.
Variable E : env.
Variable T : texts.
Variable fl : flags.
Variable m : OutputType.
Variable s : dstate.
(** Why a run fails: what has been printed before, and the description. [s] is the
    state at the beginning. *)
Inductive complaint : list path -> path -> Prop :=
| c_files : f_files fl = [] -> complaint [] (txt "no input files" ++ [EOL] ++ txt "compilation terminated.")
| c_level : ~ In (f_optimize fl) [txt "0"; txt "1"; txt "2"; txt "3"] -> complaint [] (txt "invalid optimization level: " ++ f_optimize fl)
| c_kind f : In f (f_files fl) -> (forall st e, named f st e -> ~ In e (accepted OutputExecutable)) ->
    complaint [] (txt "unsupported input file extension for '" ++ f ++ txt "'; allowed: .b, .ll, .s, .o, .a")
| c_stat f n : In f (f_files fl) -> d_fs s f = None \/ stat_fault E n = true ->
    complaint [] (txt "cannot access file '" ++ f ++ txt "': " ++ t_error T n)
| c_mode f : m <> OutputExecutable -> In f (f_files fl) -> (forall st e, named f st e -> ~ In e (accepted m)) ->
    complaint [] (txt "input file '" ++ f ++ txt "' " ++ mode_text m)
| c_several : m <> OutputExecutable -> f_output fl <> [] -> List.length (f_files fl) <> 1%nat ->
    complaint [] (txt (match m with OutputIR => "multiple input files with -o for IR output are not allowed"
                       | _ => "-o requires exactly one input file" end))
| c_open f n : In f (f_files fl) -> a_b_file f -> d_fs s f = None \/ open_fault E n = true ->
    complaint [complains (f ++ txt ": " ++ t_error T n ++ [EOL] ++ txt "compilation terminated." ++ [EOL])] (t_error T n)
| c_source f c e t : In f (f_files fl) -> a_b_file f -> d_fs s f = Some c ->
    compile c false = Err e -> verdict e t -> complaint [] t
| c_read f c n k t : In f (f_files fl) -> a_b_file f -> d_fs s f = Some c -> read_fault E n = Some k ->
    (compile (firstn k c) true = Err IOErr /\ t = t_error T n \/ exists x, compile (firstn k c) true = Err (Msg x) /\ t = txt x) ->
    complaint [] t
| c_create i f o n : nth_error (f_files fl) i = Some f -> a_b_file f ->
    (m = OutputIR /\ is_output fl m f o \/ is_temp fl m i f o) -> create_fault E n = true ->
    complaint [complains (txt "cannot open file '" ++ o ++ txt "' " ++ t_error T n ++ txt ".")] (t_error T n)
| c_write n : write_fault E n <> None \/ close_fault E n = true -> complaint [] (t_error T n)
| c_clang x n fs y : clang_command E fl m x -> clang E n x fs = ClangFail y ->
    complaint [] (txt "failed to generate " ++ product m ++ txt ": " ++ t_error T n).
End Complaints.

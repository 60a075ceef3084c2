(** * SpecDriver: path names and outputs as documented, independently of the code *)
From Coq Require Import List Ascii String ZArith Lia Bool.
From Verif Require Import Base Driver.
Import ListNotations.
Open Scope Z_scope.

(** [named p st e]: the path [p] is made of a directory part (empty or ending
    in a slash), the stem [st], a dot and the extension [e]. *)
Definition named (p st e : path) : Prop :=
  exists d, p = d ++ st ++ "."%char :: e
  /\ (d = [] \/ exists d', d = d' ++ ["/"%char])
  /\ ~ In "/"%char st /\ ~ In "/"%char e /\ ~ In "."%char e.

(** Extensions accepted by each mode. *)
Definition accepted (m : OutputType) : list path :=
  match m with
  | OutputIR => [txt "b"]
  | OutputAssembly => [txt "b"; txt "ll"]
  | OutputObject => [txt "b"; txt "ll"; txt "s"]
  | OutputExecutable => [txt "b"; txt "ll"; txt "s"; txt "o"; txt "a"]
  end.

(** Suffix of the default output name in each mode. *)
Definition suffix (m : OutputType) : path :=
  match m with
  | OutputIR => txt ".ll"
  | OutputAssembly => txt ".s"
  | OutputObject => txt ".o"
  | OutputExecutable => []
  end.

(** [output_of m ofile first p o]: [o] is the documented output file for the
    input [p], where [ofile] is the -o option (empty if absent) and [first]
    the first input. *)
Definition output_of (m : OutputType) (ofile first p o : path) : Prop :=
  (ofile <> [] /\ o = ofile)
  \/ (ofile = [] /\ exists st e,
        named (match m with OutputExecutable => first | _ => p end) st e /\ o = st ++ suffix m).

(** [temp_of m ofile files i p t]: [t] is the documented temporary file of the
    input [p] (a .b file), number [i] of [files]. *)
Definition temp_of (m : OutputType) (ofile : path) (files : list path) (i : nat) (p t : path) : Prop :=
  exists st, named p st (txt "b") /\
  match m with
  | OutputIR => False
  | OutputExecutable =>
      if (List.length files =? 1)%nat then
        if path_eqb (match ofile with [] => st | _ => ofile end) [] then t = txt ".tmp.0.ll"
        else t = (match ofile with [] => st | _ => ofile end) ++ txt ".tmp.ll"
      else t = st ++ txt ".tmp." ++ txt (dec (Z.of_nat i)) ++ txt ".ll"
  | _ => exists o, output_of m ofile (hd [] files) p o /\ t = o ++ txt ".tmp.ll"
  end.

(** The mode asked for: -S wins over -c, -c over --emit-llvm. *)
Definition mode_is (fl : flags) (m : OutputType) : Prop :=
  match m with
  | OutputAssembly => f_assemble fl = true
  | OutputObject => f_assemble fl = false /\ f_compile fl = true
  | OutputIR => f_assemble fl = false /\ f_compile fl = false /\ f_emit_llvm fl = true
  | OutputExecutable => f_assemble fl = false /\ f_compile fl = false /\ f_emit_llvm fl = false
  end.

(** A real compilation is asked for. *)
Definition compiling (fl : flags) : Prop := f_help fl = false /\ f_version fl = false.

(** Outputs and temporaries of a command line. *)
Definition is_output (fl : flags) (m : OutputType) (f o : path) : Prop :=
  output_of m (f_output fl) (hd [] (f_files fl)) f o.
Definition is_temp (fl : flags) (m : OutputType) (i : nat) (f t : path) : Prop :=
  temp_of m (f_output fl) (f_files fl) i f t.

(** No two inputs share an output file (in the modes without linking). *)
Definition separate (fl : flags) (m : OutputType) : Prop :=
  m = OutputExecutable \/
  forall i j f g o, nth_error (f_files fl) i = Some f -> nth_error (f_files fl) j = Some g ->
    is_output fl m f o -> is_output fl m g o -> i = j.

(** Leading options of every clang command. *)
Definition lead (fl : flags) : list path :=
  (if path_eqb (f_optimize fl) (txt "0") then [] else [txt "-O" ++ f_optimize fl])
  ++ (if f_debug fl then [txt "-g"] else []).

(** What clang is given for input [f], number [i]: its IR for a .b file, the
    file itself otherwise. *)
Definition clang_input (fl : flags) (m : OutputType) (i : nat) (f x : path) : Prop :=
  (exists st, named f st (txt "b")) /\ is_temp fl m i f x
  \/ (forall st, ~ named f st (txt "b")) /\ x = f.

(** The documented clang commands. *)
Definition clang_command (E : env) (fl : flags) (m : OutputType) (x : list path) : Prop :=
  match m with
  | OutputExecutable => exists ins o,
      x = lead fl ++ ins
          ++ (if linux E then [txt "-static"; txt "-nostdlib"] else [])
          ++ map (fun d => txt "-L" ++ d)
               (filter (is_dir E)
                 ((match home_lib E with Some h => [h] | None => [] end)
                  ++ [txt "/opt/homebrew/lib"; txt "/opt/local/lib"; txt "/usr/local/lib"; txt "/usr/lib"])
                ++ f_library_dirs fl)
          ++ [txt "-lb"]
          ++ map (fun l => txt "-l" ++ l) (f_libraries fl)
          ++ [txt "-o"; o]
      /\ is_output fl m [] o
      /\ List.length ins = List.length (f_files fl)
      /\ forall i f, nth_error (f_files fl) i = Some f ->
           exists y, nth_error ins i = Some y /\ clang_input fl m i f y
  | OutputIR => False
  | _ => exists i f y o, nth_error (f_files fl) i = Some f
      /\ x = lead fl ++ [txt (match m with OutputAssembly => "-S" | _ => "-c" end); txt "-o"; o; y]
      /\ is_output fl m f o /\ clang_input fl m i f y
  end.

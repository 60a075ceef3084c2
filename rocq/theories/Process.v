(** * Process: a compiled program linked with the run-time library
    The functions of runtime/*.c (Runtime.v) as the outside functions of the
    machine of IRSem.v, and how the process ends. *)
From Coq Require Import List Ascii String ZArith Bool.
From Verif Require Import Base IR SpecSem IRSem Runtime LoopBound.
Import ListNotations.
Open Scope string_scope.
Open Scope list_scope.
Open Scope Z_scope.

(** Input and output of the process, as in [world]. *)
Record os := mkOs { o_in : list rd; o_out : list (Z * list ascii) }.
Definition os_of (w : world) : os := mkOs (w_in w) (w_out w).

(** What the C code does not determine: whether plain char is signed; the bytes
    of memory nobody has written; arguments that were not passed; the value in
    the result register after a void function; the kernel's result of write;
    what the kernel does for read: its result, the bytes it stores, what is left
    of the input. *)
Record platform := mkPlatform {
  k_signed : bool;
  k_junk : Z -> ascii;
  k_missing : nat -> Z;
  k_void : string -> list Z -> Z;
  k_written : list Z -> Z;
  k_read : Z -> Z -> os -> Z * list ascii * os
}.

Section Library.
Variable K : platform.
(** The address of [b_fout] (runtime/writeb.c:6, runtime/runtime.h:24-25). *)
Variable fout : Z.

(** The memory of the program as the C code sees it. Simplification: reading
    outside all objects gives an arbitrary byte. *)
Definition bytes_of (m : memory) (a : Z) : ascii :=
  match m_byte m (wrap64 a) with Some b => byte_of b | None => k_junk K a end.
Definition view (f : Z) (m : memory) (o : os) : world := mkWorld (bytes_of m) f (o_in o) (o_out o).
(** Functions that do not look at [b_fout] or memory do not need them. *)
Definition finish (g : string) (args : list Z) (m : memory) (r : cres unit) : option (xres os) :=
  match r with
  | Done _ w => Some (XRet (k_void K g args) m (os_of w))
  | Exited s w => Some (XExit s (os_of w))
  | OutOfBounds | LoopBound => None
  end.
Definition finish_word (m : memory) (r : cres Z) : option (xres os) :=
  match r with
  | Done z w => Some (XRet z m (os_of w))
  | Exited s w => Some (XExit s (os_of w))
  | OutOfBounds | LoopBound => None
  end.
Definition printing (m : memory) (o : os) (g : string) (args : list Z) (f : R unit) : option (xres os) :=
  match load m fout with Some z => finish g args m (f (view z m o)) | None => None end.
(** [b_lchar] (runtime/lchar.c:6-15) on the memory of the program; a store
    outside all objects is undefined. *)
Definition store_byte (m : memory) (a z : Z) : option memory :=
  if accessible m a 1 then Some (mkMem (fun x => if x =? a then Some (z mod 256) else m_byte m x) (m_stack m) (m_static m)) else None.
Fixpoint store_bytes (m : memory) (a : Z) (bs : list ascii) : option memory :=
  match bs with
  | [] => Some m
  | b :: r => match store_byte m (wrap64 a) (code b) with Some m' => store_bytes m' (a + 1) r | None => None end
  end.
(** [b_nread], runtime/nread.c:8-17: the kernel stores the bytes in memory. *)
Definition nread (file buffer count : Z) (m : memory) (o : os) : option (xres os) :=
  let '(z, bs, o') := k_read K file count o in
  match store_bytes m buffer bs with Some m' => Some (XRet z m' o') | None => None end.
(** The i-th argument. *)
Definition arg (args : list Z) (i : nat) : Z := nth i args (k_missing K i).
(** A bound for the loops of printf: those that end at all end within it
    ([printf_bound] in LoopBound.v). *)
Definition turns (bits : Z) : nat := (patterns bits + patterns bits)%nat.
(** The functions of the library by their symbols (runtime/runtime.h:30-54). *)
Definition library (g : string) (args : list Z) (m : memory) (o : os) : option (xres os) :=
  if String.eqb g "b.write" then printing m o g args (b_write (arg args 0))
  else if String.eqb g "b.writeb" then printing m o g args (b_writeb (arg args 0))
  else if String.eqb g "b.printd" then printing m o g args (b_printd (arg args 0))
  else if String.eqb g "b.printo" then printing m o g args (b_printo (arg args 0))
  else if String.eqb g "b.printf" then
    printing m o g args (b_printf (turns 64) (k_signed K) (arg args 0) (fun i => arg args (S i)))
  else if String.eqb g "b.char" then finish_word m (b_char (k_signed K) (arg args 0) (arg args 1) (view 0 m o))
  else if String.eqb g "b.lchar" then
    match store_byte m (wrap64 (arg args 0 + arg args 1)) (arg args 2) with
    | Some m' => Some (XRet (k_void K g args) m' o)
    | None => None
    end
  else if String.eqb g "b.read" then finish_word m (b_read (k_signed K) (view 0 m o))
  else if String.eqb g "b.nwrite" then
    match b_nwrite (arg args 0) (arg args 1) (arg args 2) (view 0 m o) with
    | Done _ w => Some (XRet (k_written K args) m (os_of w))
    | _ => None
    end
  else if String.eqb g "b.nread" then nread (arg args 0) (arg args 1) (arg args 2) m o
  else if String.eqb g "b.flush" then finish g args m (b_flush (view 0 m o))
  else if String.eqb g "b.exit" then finish g args m (b_exit (view 0 m o))
  else None.
End Library.
(** runtime/Makefile:7-19: the members of the library. *)
Definition library_names : list string :=
  ["write"; "writeb"; "printd"; "printo"; "printf"; "char"; "lchar"; "read"; "nwrite"; "nread"; "flush"; "exit"].

(** The machine [I] is linked with the library. *)
Definition with_library (K : platform) (I : ihost os) : Prop :=
  forall x args m o, In x library_names -> i_ext I ("b." ++ x) args m o = library K (i_sym I "b.fout") ("b." ++ x) args m o.

(** [b_start], runtime/start.c:8-15: the process that starts with the memory [m]
    ends with the exit code [code]; [o'] is what it has read and written then. *)
Definition process_ends (I : ihost os) (M : module_) (m : memory) (o : os) (code : Z) (o' : os) : Prop :=
  (exists m', icall I M "main" [] m o (XRet code m' o')) \/ icall I M "main" [] m o (XExit code o').

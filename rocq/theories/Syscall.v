(** * Syscall: the system call wrappers of the run-time library
    The inline functions [syscall] of runtime/x86_64.h, aarch64.h and riscv64.h.
    An [asm] statement is taken as what it tells the C compiler: the
    instruction, the registers that hold the operands, the register with the
    result, the registers and the memory it may change. *)
From Coq Require Import List Ascii String ZArith Bool.
From Verif Require Import Base Runtime.
Import ListNotations.
Open Scope string_scope.
Open Scope list_scope.
Open Scope Z_scope.

Definition reg := string.
(** [asm volatile (insn : out : in : clobber)]; an operand "+r" is both the
    output and an input. *)
Record asm := mkAsm {
  a_insn : string;
  a_out : reg;
  a_in : list (reg * Z);
  a_clobber : list reg;
  a_memory : bool
}.

(** The targets: README.md, runtime/runtime.h:60-68 and the macros of the system
    headers use. *)
Inductive target := X86_linux | X86_apple | Arm_linux | Arm_apple | Riscv_linux.
Definition linux (t : target) : bool := match t with X86_linux | Arm_linux | Riscv_linux => true | _ => false end.
Definition apple (t : target) : bool := match t with X86_apple | Arm_apple => true | _ => false end.

(** runtime/x86_64.h:4-18. "a" is rax, "D" rdi, "S" rsi, "d" rdx. *)
Definition syscall_x86 (t : target) (n a1 a2 a3 : Z) : list asm :=
  let n := if apple t then Z.lor n 33554432 else n in
  [mkAsm "syscall" "rax" [("rax", n); ("rdi", a1); ("rsi", a2); ("rdx", a3)] ["rcx"; "r11"] true].
(** runtime/aarch64.h:4-27: the variables x0, x1, x2 and x8 or x16 are bound to
    the registers of these names. *)
Definition syscall_arm (t : target) (n a1 a2 a3 : Z) : list asm :=
  (if linux t then [mkAsm "svc #0" "x0" [("x0", a1); ("x1", a2); ("x2", a3); ("x8", n)] [] true] else []) ++
  (if apple t then [mkAsm "svc #0x80" "x0" [("x0", a1); ("x1", a2); ("x2", a3); ("x16", n)] [] true] else []).
(** runtime/riscv64.h:4-17. *)
Definition syscall_riscv (n a1 a2 a3 : Z) : list asm :=
  [mkAsm "ecall" "a0" [("a0", a1); ("a1", a2); ("a2", a3); ("a7", n)] [] true].
(** runtime/runtime.h:60-68. *)
Definition syscall (t : target) : Z -> Z -> Z -> Z -> list asm :=
  match t with
  | X86_linux | X86_apple => syscall_x86 t
  | Arm_linux | Arm_apple => syscall_arm t
  | Riscv_linux => syscall_riscv
  end.

(** ** The kernel (not in /repo: the system call conventions of Linux, man page
    syscall(2), and of Darwin, xnu's unix_syscall64 and handle_svc) *)
(** What the kernel does for a system call: whether it fails, its result or the
    number of the error, a second result, and what it does to memory. *)
Record answer (M : Type) := mkAnswer { k_failed : bool; k_value : Z; k_second : Z; k_mem : M }.
Arguments mkAnswer {M}. Arguments k_failed {M}. Arguments k_value {M}. Arguments k_second {M}. Arguments k_mem {M}.
Definition kernel (M : Type) := Z -> Z -> Z -> Z -> M -> answer M.
(** Results are not negative, errors have numbers from 1 to 4095. *)
Definition sane {M} (K : kernel M) : Prop :=
  forall n a b c m, let k := K n a b c m in if k_failed k then 0 < k_value k < 4096 else 0 <= k_value k < 2 ^ 63.
(** The registers: instruction, number, arguments, result, what is lost. Darwin
    has the second result in one of the argument registers. The number has a
    class on Darwin for x86_64; 2 are the UNIX calls. *)
Record convention := mkConv {
  v_insn : string;
  v_number : reg;
  v_arg1 : reg; v_arg2 : reg; v_arg3 : reg;
  v_result : reg;
  v_lost : list reg;
  v_second : option reg;
  v_class : Z
}.
Definition conv (t : target) : convention :=
  match t with
  | X86_linux => mkConv "syscall" "rax" "rdi" "rsi" "rdx" "rax" ["rcx"; "r11"] None 0
  | X86_apple => mkConv "syscall" "rax" "rdi" "rsi" "rdx" "rax" ["rcx"; "r11"] (Some "rdx") 2
  | Arm_linux => mkConv "svc #0" "x8" "x0" "x1" "x2" "x0" [] None 0
  | Arm_apple => mkConv "svc #0x80" "x16" "x0" "x1" "x2" "x0" [] (Some "x1") 0
  | Riscv_linux => mkConv "ecall" "a7" "a0" "a1" "a2" "a0" [] None 0
  end.
(** The result register: Linux gives the negated number of the error, Darwin the
    number (and sets the carry flag). *)
Definition result_word {M} (t : target) (k : answer M) : Z :=
  if linux t && k_failed k then - k_value k else k_value k.
(** The instruction, from registers [s] and memory [m] to [s'] and [m']. *)
Definition enters {M} (t : target) (K : kernel M) (s : reg -> Z) (m : M) (s' : reg -> Z) (m' : M) : Prop :=
  let c := conv t in let k := K (s (v_number c) mod 2 ^ 24) (s (v_arg1 c)) (s (v_arg2 c)) (s (v_arg3 c)) m in
  s (v_number c) / 2 ^ 24 = v_class c /\ s' (v_result c) = result_word t k /\ m' = k_mem k /\
  (forall r, v_second c = Some r -> s' r = k_second k) /\
  (forall r, r <> v_result c -> ~ In r (v_lost c) -> v_second c <> Some r -> s' r = s r).

(** An [asm] statement is executed with its operands in their registers. *)
Definition executes {M} (t : target) (K : kernel M) (a : asm) (s : reg -> Z) (m : M) (s' : reg -> Z) (m' : M) : Prop :=
  a_insn a = v_insn (conv t) /\ (forall r z, In (r, z) (a_in a) -> s r = z) /\ enters t K s m s' m'.
(** What the compiler relies on afterwards: every other register is as before,
    and so is memory if it is not declared. *)
Definition relied {M} (a : asm) (s : reg -> Z) (m : M) (s' : reg -> Z) (m' : M) : Prop :=
  (forall r, r <> a_out a -> ~ In r (a_clobber a) -> s' r = s r) /\ (a_memory a = false -> m' = m).
(** The statements of the wrapper one after the other; the value returned is in
    the output register of the last ([a1] if there is none). *)
Fixpoint calls {M} (t : target) (K : kernel M) (l : list asm) (z0 : Z) (m : M) (z : Z) (m' : M) : Prop :=
  match l with
  | [] => z = z0 /\ m' = m
  | a :: r => exists s s' m1, executes t K a s m s' m1 /\ calls t K r (s' (a_out a)) m1 z m'
  end.
